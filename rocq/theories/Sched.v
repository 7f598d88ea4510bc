(** Operational model of the spawned tasks of [Worker::scope]: a shared vector, tasks owning disjoint
    index ranges, steps of the tasks interleaved in any order. *)
From Coq Require Import ZArith List Bool Lia.
From Verif Require Import Prelude Multicore.
Import ListNotations.
Local Open Scope nat_scope.

(** A spawned closure (src/domain.rs:91-95, 104-110, …) in the middle of its loop: the next index it
    will write, the end of its chunk, and its local variables. *)
Record Task (St : Type) := mkTask { t_lo : nat; t_hi : nat; t_loc : St }.
Arguments mkTask {St}. Arguments t_lo {St}. Arguments t_hi {St}. Arguments t_loc {St}.

Section Sched.
Context {A St : Type} (step : St -> A -> A * St).

(** One iteration of one task: read and write the element at [t_lo]. *)
Inductive tstep : (list A * list (Task St)) -> (list A * list (Task St)) -> Prop :=
| TStep v ts k t a a' s' :
    nth_error ts k = Some t -> t_lo t < t_hi t -> nth_error v (t_lo t) = Some a -> step (t_loc t) a = (a', s') ->
    tstep (v, ts) (upd (t_lo t) a' v, upd k (mkTask (S (t_lo t)) (t_hi t) s') ts).

Inductive tsteps : nat -> (list A * list (Task St)) -> (list A * list (Task St)) -> Prop :=
| T0 c : tsteps 0 c c
| TS n c c' c'' : tsteps n c c' -> tstep c' c'' -> tsteps (S n) c c''.

(** All loops have ended: [rayon::scope] returns. *)
Definition tdone (ts : list (Task St)) : Prop := forall t, In t ts -> t_hi t <= t_lo t.

(** The tasks [chunks_mut(chunk).enumerate()] creates. *)
Definition spawn_tasks (chunk : nat) (init : nat -> nat -> St) (l : list A) : list (Task St) :=
  mapi (fun i c => mkTask (i * chunk) (i * chunk + length c) (init chunk i)) (chunks chunk l).

(** ** Correctness of every interleaving *)
Fixpoint run_from (n : nat) (s : St) (lo : nat) (v g : list A) : Prop :=
  match n with
  | O => True
  | S m => exists a, nth_error v lo = Some a /\ nth_error g lo = Some (fst (step s a)) /\
           run_from m (snd (step s a)) (S lo) v g
  end.

Lemma nth_error_upd {X} i j (x : X) l : nth_error (upd i x l) j = if (i =? j) && (i <? length l) then Some x else nth_error l j.
Proof.
  revert i j; induction l as [|a t IH]; intros [|i] [|j]; cbn; auto.
  - now rewrite andb_false_r.
  - apply IH.
Qed.

Lemma run_from_other n : forall s lo v g j x, (j < lo \/ lo + n <= j) -> run_from n s lo v g -> run_from n s lo (upd j x v) g.
Proof.
  induction n; cbn; intros s lo v g j x Hj; auto. intros (a & E & G & R). exists a. split; [|split]; auto.
  - rewrite nth_error_upd. destruct (Nat.eqb_spec j lo); [lia|]. auto.
  - apply IHn; auto. lia.
Qed.

Record TInv (g : list A) (c : list A * list (Task St)) : Prop := {
  ti_len : length (fst c) = length g;
  ti_run : forall k t, nth_error (snd c) k = Some t -> run_from (t_hi t - t_lo t) (t_loc t) (t_lo t) (fst c) g;
  ti_disj : forall k k' t t', nth_error (snd c) k = Some t -> nth_error (snd c) k' = Some t' -> k <> k' ->
     forall j, t_lo t <= j < t_hi t -> ~ (t_lo t' <= j < t_hi t');
  ti_rest : forall j, (forall k t, nth_error (snd c) k = Some t -> ~ (t_lo t <= j < t_hi t)) -> nth_error (fst c) j = nth_error g j
}.

Lemma TInv_step g c c' : TInv g c -> tstep c c' -> TInv g c'.
Proof.
  intros I S. destruct S as [v ts k t a a' s' Hk Hlt Ha Hs]. destruct I as [L R D Q]. cbn [fst snd] in *.
  assert (Hv : t_lo t < length v) by (apply nth_error_Some; congruence).
  assert (Hkl : k < length ts) by (apply nth_error_Some; congruence).
  assert (Rt := R _ _ Hk). destruct (t_hi t - t_lo t) as [|n] eqn:En; [lia|]. cbn in Rt.
  destruct Rt as (a0 & E0 & G0 & R0). rewrite Ha in E0. injection E0 as <-. rewrite Hs in G0, R0. cbn in G0, R0.
  assert (Lk : forall k' t', nth_error (upd k (mkTask (S (t_lo t)) (t_hi t) s') ts) k' = Some t' ->
     (k' = k /\ t' = mkTask (S (t_lo t)) (t_hi t) s') \/ (k' <> k /\ nth_error ts k' = Some t')).
  { intros k' t'. rewrite nth_error_upd. destruct (Nat.eqb_spec k k'); cbn [andb].
    - apply Nat.ltb_lt in Hkl as ->. intros [= <-]. auto.
    - auto. }
  split; cbn [fst snd].
  - now rewrite upd_length.
  - intros k' t' H'. destruct (Lk _ _ H') as [[-> ->]|[Hne H'']]; cbn [t_lo t_hi t_loc].
    + replace (t_hi t - S (t_lo t)) with n by lia. apply run_from_other; auto.
    + apply run_from_other; [|now apply (R k')]. destruct (Nat.le_gt_cases (t_lo t') (t_lo t)); [|left; lia].
      destruct (Nat.le_gt_cases (t_hi t') (t_lo t)).
      * right. pose proof (R _ _ H''). lia.
      * exfalso. apply (D k k' t t' Hk H'' (not_eq_sym Hne) (t_lo t)); lia.
  - intros k1 k2 t1 t2 H1 H2 Hne j Hj Hj2.
    destruct (Lk _ _ H1) as [[-> ->]|[N1 H1']], (Lk _ _ H2) as [[-> ->]|[N2 H2']]; cbn [t_lo t_hi] in *; try lia.
    + apply (D k k2 t t2 Hk H2' Hne j); lia.
    + apply (D k1 k t1 t H1' Hk Hne j); lia.
    + apply (D k1 k2 t1 t2 H1' H2' Hne j); lia.
  - intros j Hj. rewrite nth_error_upd. destruct (Nat.eqb_spec (t_lo t) j) as [<-|N]; cbn [andb].
    + apply Nat.ltb_lt in Hv as ->. auto.
    + apply Q. intros k' t' H'. destruct (Nat.eq_dec k' k) as [->|Hne].
      * rewrite Hk in H'. injection H' as <-. intros Hr. apply (Hj k (mkTask (S (t_lo t)) (t_hi t) s')); cbn [t_lo t_hi]; [|lia].
        rewrite nth_error_upd, Nat.eqb_refl. apply Nat.ltb_lt in Hkl as ->. reflexivity.
      * apply (Hj k'). rewrite nth_error_upd. destruct (Nat.eqb_spec k k'); [congruence|]. auto.
Qed.

Lemma run_from_smap l : forall s lo v g, 
  (forall j, j < length l -> nth_error v (lo + j) = nth_error l j) ->
  (forall j, j < length l -> nth_error g (lo + j) = nth_error (smap step s l) j) ->
  run_from (length l) s lo v g.
Proof.
  induction l as [|a l IH]; intros s lo v g Hv Hg; [exact Logic.I|]. cbn [length run_from].
  exists a. split; [|split].
  - rewrite <- (Nat.add_0_r lo). rewrite Hv by (cbn; lia). reflexivity.
  - rewrite <- (Nat.add_0_r lo). rewrite Hg by (cbn; lia). cbn. destruct (step s a). reflexivity.
  - destruct (step s a) as [a' s'] eqn:E. cbn [snd]. apply IH.
    + intros j Hj. replace (S lo + j) with (lo + S j) by lia. rewrite Hv by (cbn; lia). reflexivity.
    + intros j Hj. replace (S lo + j) with (lo + S j) by lia. rewrite Hg by (cbn; lia). cbn. now rewrite E.
Qed.

Lemma nth_error_ext' {X} (l m : list X) : (forall j, nth_error l j = nth_error m j) -> l = m.
Proof.
  revert m; induction l as [|a l IH]; intros [|b m] H; auto; try (specialize (H 0); discriminate).
  pose proof (H 0) as H0. injection H0 as <-. f_equal. apply IH. intros j. apply (H (S j)).
Qed.

(** Layout of the chunks. *)
Lemma chunks_layout {X} n (l : list X) : 0 < n -> forall i c, nth_error (chunks n l) i = Some c ->
  c = firstn n (skipn (i * n) l) /\ i * n < length l.
Proof.
  intros Hn. induction l as [|l Hl IH] using (chunks_ind n Hn); intros i c H; [now destruct i|].
  rewrite chunks_cons in H by auto. destruct i; cbn [nth_error] in H.
  - injection H as <-. cbn. split; auto. destruct l; [congruence|cbn; lia].
  - apply IH in H as [-> H]. rewrite skipn_plus, skipn_length in *. split; [f_equal; f_equal; lia|lia].
Qed.

Lemma chunks_index {X} n (l : list X) : 0 < n -> forall j, j < length l -> exists c, nth_error (chunks n l) (j / n) = Some c /\ j mod n < length c.
Proof.
  intros Hn. induction l as [|l Hl IH] using (chunks_ind n Hn); intros j Hj; [cbn in Hj; lia|].
  rewrite chunks_cons by auto. destruct (Nat.le_gt_cases n j).
  - destruct (IH (j - n)) as (c & Hc & Hm); [rewrite skipn_length; lia|]. exists c.
    replace (j / n) with (S ((j - n) / n)).
    + cbn. split; auto. replace j with (j - n + 1 * n) by lia. now rewrite Nat.mod_add by lia.
    + replace j with (j - n + 1 * n) at 2 by lia. rewrite Nat.div_add by lia. lia.
  - rewrite Nat.div_small, Nat.mod_small by lia. cbn. eexists. split; [reflexivity|]. rewrite firstn_length. lia.
Qed.

Lemma nth_error_concat_chunks {X} n (g : nat -> list X -> list X) : 0 < n -> (forall i c, length (g i c) = length c) ->
  forall (l : list X) i0 i c j, nth_error (chunks n l) i = Some c -> j < length c ->
    nth_error (concat (mapi_from i0 g (chunks n l))) (i * n + j) = nth_error (g (i0 + i) c) j.
Proof.
  intros Hn Hg l. induction l as [|l Hl IH] using (chunks_ind n Hn); intros i0 i c j H Hj; [now destruct i|].
  rewrite chunks_cons in * by auto. cbn [mapi_from concat]. destruct i; cbn [nth_error] in H.
  - injection H as <-. cbn [Nat.mul Nat.add]. rewrite nth_error_app1 by now rewrite Hg. now rewrite Nat.add_0_r.
  - assert (Ln : n < length l).
    { apply chunks_layout in H; auto. destruct H as [_ H]. rewrite skipn_length in H. lia. }
    rewrite nth_error_app2; rewrite Hg, firstn_length_le by lia; [|lia].
    replace (S i * n + j - n) with (i * n + j) by lia. rewrite (IH _ _ c) by auto. f_equal. f_equal. lia.
Qed.

Lemma spawn_tasks_inv (chunk : nat) init l : 0 < chunk ->
  TInv (concat (mapi (fun i c => smap step (init chunk i) c) (chunks chunk l))) (l, spawn_tasks chunk init l).
Proof.
  intros Hn. set (g := fun i c => smap step (init chunk i) c).
  assert (Hlen : forall i c, length (g i c) = length c) by (intros; apply smap_length).
  assert (Ht : forall k t, nth_error (spawn_tasks chunk init l) k = Some t ->
     exists c, nth_error (chunks chunk l) k = Some c /\ t = mkTask (k * chunk) (k * chunk + length c) (init chunk k)).
  { intros k t. unfold spawn_tasks, mapi. rewrite nth_error_mapi_from. destruct (nth_error (chunks chunk l) k) as [c|]; cbn; [|discriminate].
    intros [= <-]. eauto. }
  split; cbn [fst snd].
  - rewrite <- (chunks_concat chunk l Hn) at 1. unfold mapi. generalize 0 (chunks chunk l). intros i ls. revert i.
    induction ls; intros i; cbn; auto. rewrite !app_length, Hlen. now rewrite (IHls (S i)).
  - intros k t H. destruct (Ht _ _ H) as (c & Hc & ->). cbn [t_lo t_hi t_loc].
    replace (k * chunk + length c - k * chunk) with (length c) by lia. apply run_from_smap.
    + intros j Hj. destruct (chunks_layout _ _ Hn _ _ Hc) as [-> Hk].
      rewrite <- (firstn_skipn (k * chunk) l) at 1. rewrite nth_error_app2; rewrite firstn_length_le by lia; [|lia].
      replace (k * chunk + j - k * chunk) with j by lia.
      rewrite <- (firstn_skipn chunk (skipn (k * chunk) l)) at 1. now rewrite nth_error_app1.
    + intros j Hj. unfold mapi. rewrite (nth_error_concat_chunks _ g Hn Hlen l 0 k c j Hc Hj). reflexivity.
  - intros k k' t t' H H' Hne j Hj Hj'. destruct (Ht _ _ H) as (c & Hc & ->), (Ht _ _ H') as (c' & Hc' & ->). cbn [t_lo t_hi] in *.
    apply nth_error_In, chunks_length_le in Hc, Hc'.
    assert (k < k' \/ k' < k) as [Hlt|Hlt] by lia; nia.
  - intros j Hj. destruct (Nat.le_gt_cases (length l) j) as [Hle|Hlt].
    + rewrite (proj2 (nth_error_None l j)) by auto. symmetry. apply nth_error_None.
      etransitivity; [|exact Hle]. apply Nat.eq_le_incl. symmetry.
      rewrite <- (chunks_concat chunk l Hn) at 1. unfold mapi. generalize 0 (chunks chunk l). intros i ls. revert i.
      induction ls; intros i; cbn; auto. rewrite !app_length, Hlen. now rewrite (IHls (S i)).
    + exfalso. destruct (chunks_index _ _ Hn _ Hlt) as (c & Hc & Hm).
      pose proof (Nat.div_mod j chunk). 
      eapply (Hj (j / chunk)); [unfold spawn_tasks, mapi; rewrite nth_error_mapi_from, Hc; reflexivity|]. cbn [t_lo t_hi]. nia.
Qed.

Lemma tsteps_inv g n c c' : TInv g c -> tsteps n c c' -> TInv g c'.
Proof. intros I H. revert I. induction H; intros I; auto. apply (TInv_step g c'); auto. Qed.

Lemma TInv_done g v ts : TInv g (v, ts) -> tdone ts -> v = g.
Proof.
  intros I D. apply nth_error_ext'. intros j. apply (ti_rest _ _ I). cbn. intros k t H. apply nth_error_In, D in H. lia.
Qed.

Lemma TInv_progress g v ts : TInv g (v, ts) -> tdone ts \/ exists c, tstep (v, ts) c.
Proof.
  intros I. destruct (Exists_dec (fun t => t_lo t < t_hi t) ts) as [H|H].
  { intros t. destruct (lt_dec (t_lo t) (t_hi t)); auto. }
  - right. apply Exists_exists in H as (t & Hin & Hlt). apply In_nth_error in Hin as [k Hk].
    pose proof (ti_run _ _ I k t Hk) as R. cbn [fst] in R. destruct (t_hi t - t_lo t) eqn:E; [lia|]. destruct R as (a & Ha & _).
    destruct (step (t_loc t) a) as [a' s'] eqn:Es. eexists. eapply TStep; eauto.
  - left. intros t Ht. destruct (Nat.le_gt_cases (t_hi t) (t_lo t)); auto. exfalso. apply H, Exists_exists. eauto.
Qed.

(** Work left: every step does one element. *)
Fixpoint work (ts : list (Task St)) : nat :=
  match ts with [] => 0 | t :: r => (t_hi t - t_lo t) + work r end.
Lemma work_upd ts : forall k t t', nth_error ts k = Some t -> work (upd k t' ts) + (t_hi t - t_lo t) = work ts + (t_hi t' - t_lo t').
Proof.
  induction ts as [|x ts IH]; intros [|k] t t' H; cbn [nth_error upd work] in *; try discriminate.
  - injection H as <-. lia.
  - specialize (IH _ _ t' H). lia.
Qed.
Lemma work_step c c' : tstep c c' -> work (snd c) = S (work (snd c')).
Proof.
  destruct 1 as [v ts k t a a' s' Hk Hlt Ha Hs]. cbn [snd]. pose proof (work_upd ts k t (mkTask (S (t_lo t)) (t_hi t) s') Hk) as W.
  cbn [t_lo t_hi] in W. lia.
Qed.
Lemma work_steps n c c' : tsteps n c c' -> work (snd c) = n + work (snd c').
Proof. induction 1; auto. apply work_step in H0. lia. Qed.
Lemma work_spawn chunk init l : 0 < chunk -> work (spawn_tasks chunk init l) = length l.
Proof.
  intros Hn. rewrite <- (chunks_concat chunk l Hn) at 2. unfold spawn_tasks, mapi. generalize 0 (chunks chunk l). intros i ls. revert i.
  induction ls as [|c ls IH]; intros i; cbn [mapi_from work concat t_lo t_hi]; auto. rewrite app_length, IH. lia.
Qed.
End Sched.
