(** src/multicore.rs: [Worker::scope] and the parallel loops built on it, [log2_floor]. *)
From Coq Require Import ZArith List Bool Lia.
From Verif Require Import Prelude.
Import ListNotations.
Local Open Scope nat_scope.

(** The two [mod implementation]s: with rayon (src/multicore.rs:5-143) and
    [current_num_threads() = threads], and without the [multicore] feature (:145-213). *)
Inductive Worker := Multicore (threads : nat) | Single.

(** rayon pools have at least one thread, and their number is a sane [usize]. *)
Definition wf_worker (w : Worker) : Prop :=
  match w with Multicore t => 0 < t /\ (Z.of_nat t < 2 ^ 63)%Z | Single => True end.

(** src/multicore.rs:120-130 [log2_floor].  The comparison [(1 << (pow + 1)) <= num] is on [usize]:
    a shift by 64 is an overflow (a panic with overflow checks).  [fuel] only bounds the loop. *)
Fixpoint log2_loop (fuel : nat) (pow : nat) (num : Z) : outcome nat :=
  match fuel with
  | O => Panicked
  | S f =>
      if 64 <=? pow + 1 then Panicked
      else if (2 ^ Z.of_nat (pow + 1) <=? num)%Z then log2_loop f (pow + 1) num
      else Done pow
  end.
Definition log2_floor (num : Z) : outcome nat :=
  if (0 <? num)%Z then log2_loop 64 0 num else Panicked.

(** src/multicore.rs:29-31 and :154-156 [Worker::log_num_threads]. *)
Definition log_num_threads (w : Worker) : outcome nat :=
  match w with
  | Multicore t => log2_floor (Z.of_nat t)
  | Single => Done 0
  end.

(** src/multicore.rs:78-91 and :166-171: the chunk size [Worker::scope] hands to its closure. *)
Definition scope_chunk (w : Worker) (elements : nat) : nat :=
  match w with
  | Multicore num_threads => if elements <? num_threads then 1 else elements / num_threads
  | Single => elements
  end.

(** [core::slice::chunks_mut] / [chunks]: panics when the chunk size is zero. *)
Definition chunks_mut {A} (n : nat) (l : list A) : outcome (list (list A)) :=
  if n =? 0 then Panicked else Done (chunks n l).

(** [l.iter().enumerate().map(f)], starting the count at [i]. *)
Fixpoint mapi_from {A B} (i : nat) (f : nat -> A -> B) (l : list A) : list B :=
  match l with [] => [] | x :: t => f i x :: mapi_from (S i) f t end.
Definition mapi {A B} := @mapi_from A B 0.

(** A loop over one chunk, with the task's local state [s]: [for v in chunk { … }]. *)
Fixpoint smap {A St} (step : St -> A -> A * St) (s : St) (l : list A) : list A :=
  match l with
  | [] => []
  | a :: t => let (a', s') := step s a in a' :: smap step s' t
  end.

(** The idiom used by every parallel loop of src/domain.rs and groth16/src/generator.rs:
    [[
      worker.scope(elements, |scope, chunk| {
          for (i, v) in l.chunks_mut(chunk).enumerate() {
              scope.spawn(move |_| { let mut s = init(chunk, i); for v in v.iter_mut() { step } })
          } });
    ]]
    Each task owns its chunk; the value computed here is the one every interleaving of the tasks
    reaches (theorem [C29_any_interleaving]). *)
Definition par_for {A St} (w : Worker) (elements : nat) (init : nat -> nat -> St)
    (step : St -> A -> A * St) (l : list A) : outcome (list A) :=
  let chunk := scope_chunk w elements in
  obind (chunks_mut chunk l) (fun cs =>
    Done (concat (mapi (fun i c => smap step (init chunk i) c) cs))).

(** [for (a, b) in a.chunks_mut(chunk).zip(b.chunks(chunk)) { for (a, b) in a.iter_mut().zip(b) { *a = f a b } }]:
    the local state is what is left of [b]'s chunk; when it runs out the loop has ended and the rest
    of [a]'s chunk is left alone. *)
Definition zip_init {B} (b : list B) (chunk i : nat) : list B := firstn chunk (skipn (i * chunk) b).
Definition zip_step {A B} (f : A -> B -> A) (bs : list B) (a : A) : A * list B :=
  match bs with [] => (a, []) | b :: t => (f a b, t) end.
Definition par_zip {A B} (w : Worker) (elements : nat) (f : A -> B -> A) (a : list A) (b : list B) : outcome (list A) :=
  par_for w elements (zip_init b) (zip_step f) a.

(** [for v in l.chunks_mut(chunk) { for v in v { *v = f v } }]. *)
Definition par_map {A} (w : Worker) (elements : nat) (f : A -> A) (l : list A) : outcome (list A) :=
  par_for w elements (fun _ _ => tt) (fun _ a => (f a, tt)) l.

(** ** Facts *)

Lemma mapi_from_length {A B} (f : nat -> A -> B) l : forall i, length (mapi_from i f l) = length l.
Proof. induction l; cbn; intros; auto. Qed.
Lemma mapi_length {A B} (f : nat -> A -> B) l : length (mapi f l) = length l.
Proof. apply mapi_from_length. Qed.

Lemma nth_error_mapi_from {A B} (f : nat -> A -> B) l : forall i k,
  nth_error (mapi_from i f l) k = option_map (f (i + k)) (nth_error l k).
Proof.
  induction l as [|a l IH]; intros i [|k]; cbn; auto; [now rewrite Nat.add_0_r|].
  rewrite IH. now replace (S i + k) with (i + S k) by lia.
Qed.

Lemma nth_mapi_from {A B} (f : nat -> A -> B) l d d' i k : k < length l ->
  nth k (mapi_from i f l) d' = f (i + k) (nth k l d).
Proof.
  intros H. pose proof (nth_error_mapi_from f l i k) as E.
  rewrite (nth_error_nth' l d H) in E. cbn in E. now apply nth_error_nth.
Qed.
Lemma nth_mapi {A B} (f : nat -> A -> B) l d d' k : k < length l -> nth k (mapi f l) d' = f k (nth k l d).
Proof. intros. unfold mapi. now rewrite (nth_mapi_from f l d). Qed.

Lemma mapi_from_app {A B} (f : nat -> A -> B) l1 l2 i :
  mapi_from i f (l1 ++ l2) = mapi_from i f l1 ++ mapi_from (i + length l1) f l2.
Proof.
  revert i; induction l1; intros i; cbn; [now rewrite Nat.add_0_r|]. rewrite IHl1. do 2 f_equal. f_equal. lia.
Qed.

Lemma mapi_from_ext {A B} (f g : nat -> A -> B) l : forall i,
  (forall k a, i <= k < i + length l -> f k a = g k a) -> mapi_from i f l = mapi_from i g l.
Proof.
  induction l as [|a l IH]; intros i H; cbn; auto. rewrite H by (cbn; lia). f_equal. apply IH. intros. apply H. cbn. lia.
Qed.

Lemma mapi_ext {A B} (f g : nat -> A -> B) l : (forall k a, k < length l -> f k a = g k a) -> mapi f l = mapi g l.
Proof. intros H. apply mapi_from_ext. intros. apply H. lia. Qed.

Lemma mapi_const {A B} (f : A -> B) l : mapi (fun _ => f) l = map f l.
Proof. unfold mapi. generalize 0. induction l; cbn; intros; f_equal; auto. Qed.

Lemma smap_length {A St} (step : St -> A -> A * St) l : forall s, length (smap step s l) = length l.
Proof. induction l; intros s; cbn; auto. destruct (step s a). cbn. now rewrite IHl. Qed.

Lemma skipn_plus {A} a b (l : list A) : skipn a (skipn b l) = skipn (a + b) l.
Proof.
  revert l; induction b; intros l; [now rewrite Nat.add_0_r|].
  rewrite Nat.add_succ_r. destruct l; cbn [skipn]; [now rewrite skipn_nil|]. apply IHb.
Qed.

(** One chunk behaves like an indexed map when the local state tracks the index. *)
Lemma smap_spec {A St} (step : St -> A -> A * St) (R : nat -> St -> Prop) (f : nat -> A -> A) l : forall j s hi,
  R j s -> j + length l <= hi ->
  (forall k s a, k < hi -> R k s -> exists s', step s a = (f k a, s') /\ R (S k) s') ->
  smap step s l = mapi_from j f l.
Proof.
  induction l as [|a l IH]; intros j s hi HR Hl H; cbn; auto.
  destruct (H j s a) as (s' & -> & HR'); auto; [cbn in Hl; lia|]. f_equal. apply (IH _ _ hi); auto. cbn in Hl. lia.
Qed.

Lemma chunks_length_le {A} n (l c : list A) : In c (chunks n l) -> length c <= n.
Proof.
  unfold chunks. generalize (length l). intros f. revert l. induction f; cbn; [tauto|]. intros [|a l]; cbn [In]; [tauto|].
  intros [<-|H]; [rewrite firstn_length; lia|]. eapply IHf; eauto.
Qed.

Lemma par_chunks_spec {A} n (g : nat -> list A -> list A) (f : nat -> A -> A) : 0 < n ->
  (forall i c, length c <= n -> g i c = mapi_from (i * n) f c) ->
  forall l i, concat (mapi_from i g (chunks n l)) = mapi_from (i * n) f l.
Proof.
  intros Hn Hg l. induction l as [|l Hl IH] using (chunks_ind n Hn); intros i; [reflexivity|].
  rewrite chunks_cons by auto. cbn [mapi_from concat]. rewrite Hg by (rewrite firstn_length; lia). rewrite IH.
  destruct (Nat.le_gt_cases (length l) n).
  - rewrite firstn_all2, skipn_all2 by lia. cbn [mapi_from]. now rewrite app_nil_r.
  - rewrite <- (firstn_skipn n l) at 3. rewrite mapi_from_app, firstn_length_le by lia.
    do 2 f_equal. lia.
Qed.

(** A parallel loop is an indexed map whenever each task's local state tracks the index. *)
Lemma par_for_spec {A St} w elements (init : nat -> nat -> St) (step : St -> A -> A * St)
    (R : nat -> nat -> St -> Prop) (f : nat -> A -> A) l :
  let n := scope_chunk w elements in
  0 < n ->
  (forall i, R i (i * n) (init n i)) ->
  (forall i k s a, k < i * n + n -> R i k s -> exists s', step s a = (f k a, s') /\ R i (S k) s') ->
  par_for w elements init step l = Done (mapi f l).
Proof.
  intros n Hn Hi Hs. unfold par_for, chunks_mut. fold n.
  destruct (Nat.eqb_spec n 0) as [E|_]; [lia|]. cbn [obind]. f_equal.
  unfold mapi. change 0 with (0 * n). apply (par_chunks_spec n _ f Hn). intros i c Hc.
  apply (smap_spec step (R i) f c (i * n) (init n i) (i * n + n)); auto; lia.
Qed.

Lemma par_map_spec {A} w elements (f : A -> A) l : 0 < scope_chunk w elements ->
  par_map w elements f l = Done (map f l).
Proof.
  intros H. unfold par_map. rewrite (par_for_spec _ _ _ _ (fun _ _ _ => True) (fun _ => f)); auto.
  - f_equal. apply mapi_const.
  - intros i k [] a _ _. eauto.
Qed.

Lemma par_zip_spec {A B} w elements (f : A -> B -> A) a b (db : B) : 0 < scope_chunk w elements -> length a <= length b ->
  par_zip w elements f a b = Done (mapi (fun i x => f x (nth i b db)) a).
Proof.
  intros H Hl. unfold par_zip.
  rewrite (par_for_spec _ _ _ _ (fun i k s => s = firstn (i * scope_chunk w elements + scope_chunk w elements - k) (skipn k b))
    (fun k x => match nth_error b k with Some y => f x y | None => x end)); auto.
  - f_equal. apply mapi_ext. intros k x Hk. now rewrite (nth_error_nth' b db) by lia.
  - intros i. unfold zip_init. now replace (i * scope_chunk w elements + scope_chunk w elements - i * scope_chunk w elements)
      with (scope_chunk w elements) by lia.
  - intros i k s x Hk ->. set (n := _ + _) in *. 
    destruct (skipn k b) as [|y t] eqn:E.
    + rewrite firstn_nil. cbn [zip_step]. exists []. assert (length b <= k).
      { destruct (Nat.le_gt_cases (length b) k); auto. exfalso. pose proof (skipn_length k b) as L. rewrite E in L. cbn in L. lia. }
      split; [|rewrite skipn_all2 by lia; now rewrite firstn_nil].
      replace (nth_error b k) with (@None B); auto. symmetry. now apply nth_error_None.
    + assert (Hb : b = firstn k b ++ y :: t) by (rewrite <- E; symmetry; apply firstn_skipn).
      assert (Lk : length (firstn k b) = k).
      { apply firstn_length_le. destruct (Nat.le_gt_cases k (length b)); auto. rewrite skipn_all2 in E by lia. discriminate. }
      replace (n - k) with (S (n - S k)) by lia. cbn [firstn zip_step].
      exists (firstn (n - S k) t). split.
      * replace (nth_error b k) with (Some y); auto. rewrite Hb, nth_error_app2 by lia. now rewrite Lk, Nat.sub_diag.
      * f_equal. change (S k) with (1 + k). rewrite <- skipn_plus, E. reflexivity.
Qed.

Lemma scope_chunk_pos w n : wf_worker w -> 0 < n -> 0 < scope_chunk w n.
Proof.
  destruct w as [t|]; cbn [wf_worker scope_chunk]; auto. intros [Ht _] Hn. destruct (Nat.ltb_spec n t); [lia|].
  apply Nat.div_str_pos. lia.
Qed.

Lemma scope_chunk_pos_multi t n : 0 < t -> 0 < scope_chunk (Multicore t) n.
Proof. cbn [scope_chunk]. intros Ht. destruct (Nat.ltb_spec n t); [lia|]. apply Nat.div_str_pos. lia. Qed.

Lemma log2_loop_spec f : forall pow num, (0 < num)%Z -> (num < 2 ^ 63)%Z -> pow < 63 -> 64 <= f + pow -> (2 ^ Z.of_nat pow <= num)%Z ->
  exists r, log2_loop f pow num = Done r /\ (2 ^ Z.of_nat r <= num < 2 ^ Z.of_nat (r + 1))%Z.
Proof.
  induction f; intros pow num H0 H1 Hp Hf Hle; [lia|]. cbn [log2_loop].
  destruct (Nat.leb_spec 64 (pow + 1)); [lia|].
  destruct (Z.leb_spec (2 ^ Z.of_nat (pow + 1)) num).
  - apply IHf; auto; try lia. destruct (Nat.eq_dec pow 62); [|lia]. subst. cbn in H2. lia.
  - exists pow. split; auto; lia.
Qed.

Lemma log2_floor_spec num : (0 < num)%Z -> (num < 2 ^ 63)%Z ->
  exists r, log2_floor num = Done r /\ (2 ^ Z.of_nat r <= num < 2 ^ Z.of_nat (r + 1))%Z.
Proof.
  intros H0 H1. unfold log2_floor. replace (0 <? num)%Z with true by (symmetry; now apply Z.ltb_lt).
  apply log2_loop_spec; auto; cbn; lia.
Qed.
