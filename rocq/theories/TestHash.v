(** Lemmas about the circuit hash of TestConstraintSystem. *)
From Coq Require Import String Ascii.
From Coq Require Import ZArith List Bool Lia Sorted.
From Verif Require Import Prelude PrimeField Circuit Blake2sSpec TestCS TestCSProof.
Import ListNotations.
Local Open Scope nat_scope.

Lemma var_cmp_eq v w : var_cmp v w = Eq <-> v = w.
Proof.
  destruct v as [i|i], w as [j|j]; cbn; rewrite ?Nat.compare_eq_iff; split; congruence.
Qed.
Lemma var_cmp_trans u v w : var_cmp u v = Lt -> var_cmp v w = Lt -> var_cmp u w = Lt.
Proof. destruct u, v, w; cbn; rewrite ?Nat.compare_lt_iff; try congruence; lia. Qed.
Lemma var_cmp_gt v w : var_cmp v w = Gt -> var_cmp w v = Lt.
Proof. destruct v, w; cbn; rewrite ?Nat.compare_gt_iff, ?Nat.compare_lt_iff; try congruence; lia. Qed.
Lemma var_cmp_irrefl v : var_cmp v v <> Lt.
Proof. intros H. assert (var_cmp v v = Eq) by now apply var_cmp_eq. congruence. Qed.

Lemma Done_inj {A} (x y : A) : Done x = Done y -> x = y. Proof. congruence. Qed.

Section Norm.
Context {P : PrimeField}.
Local Open Scope F_scope.
Add Field PFfield_hash : (F_field P).

Definition vlt (a b : Var * P) : Prop := var_cmp (fst a) (fst b) = Lt.

(** coefficient of a variable *)
Definition coef (l : LC P) (v : Var) : P := eval (fun w => if var_eqb v w then 1 else 0) l.

Lemma eval_bt_add (rho : Var -> P) v c m : eval rho (bt_add v c m) = eval rho m + c * rho v.
Proof.
  induction m as [|[w d] m IH]; cbn [bt_add].
  - rewrite eval_cons, eval_nil. ring.
  - destruct (var_cmp v w) eqn:E.
    + apply var_cmp_eq in E. subst. rewrite !eval_cons. ring.
    + rewrite !eval_cons. ring.
    + rewrite !eval_cons, IH. ring.
Qed.
Lemma eval_bt (rho : Var -> P) l : forall m, eval rho (fold_left (fun m t => bt_add (fst t) (snd t) m) l m) = eval rho m + eval rho l.
Proof.
  induction l as [|[v c] l IH]; intros m; cbn [fold_left fst snd].
  - rewrite eval_nil. ring.
  - rewrite IH, eval_bt_add, eval_cons. ring.
Qed.
Lemma eval_filter (rho : Var -> P) m : eval rho (filter (fun e => negb (feqb (snd e) 0)) m) = eval rho m.
Proof.
  induction m as [|[v c] m IH]; cbn [filter snd]; [reflexivity|].
  destruct (feqb c 0) eqn:E; cbn [negb]; rewrite !eval_cons, IH; [|reflexivity].
  apply feqb_eq in E. subst. ring.
Qed.
Lemma eval_proc (rho : Var -> P) l : eval rho (proc_lc l) = eval rho l.
Proof. unfold proc_lc. rewrite eval_filter, eval_bt, eval_nil. ring. Qed.

Lemma bt_add_in v (c : P) m e : In e (bt_add v c m) -> fst e = v \/ exists e', In e' m /\ fst e' = fst e.
Proof.
  induction m as [|[w d] m IH]; cbn [bt_add].
  - intros [<-|[]]. auto.
  - destruct (var_cmp v w) eqn:E.
    + intros [<-|H]; right; [exists (w, d)|exists e]; cbn; auto.
    + intros [<-|H]; auto. right. exists e. auto.
    + intros [<-|H]; [right; exists (w, d); cbn; auto|]. destruct (IH H) as [|(e' & ? & ?)]; auto.
      right. exists e'. cbn; auto.
Qed.
Lemma bt_add_sorted v c m : StronglySorted vlt m -> StronglySorted vlt (bt_add v c m).
Proof.
  induction 1 as [|[w d] m Hm IH HF]; cbn [bt_add].
  - repeat constructor.
  - rewrite Forall_forall in HF. destruct (var_cmp v w) eqn:E.
    + constructor; auto. rewrite Forall_forall. exact HF.
    + constructor; [constructor; auto; now rewrite Forall_forall|]. constructor; [exact E|].
      rewrite Forall_forall. intros e He. exact (var_cmp_trans _ _ _ E (HF _ He)).
    + constructor; auto. rewrite Forall_forall. intros e He. apply bt_add_in in He.
      unfold vlt. cbn [fst]. destruct He as [->|(e' & He & <-)]; [now apply var_cmp_gt|]. exact (HF _ He).
Qed.
Lemma bt_sorted l : forall m, StronglySorted vlt m -> StronglySorted vlt (fold_left (fun m t => bt_add (fst t) (snd t) m) l m).
Proof. induction l as [|t l IH]; intros m H; cbn; auto. apply IH. now apply bt_add_sorted. Qed.
Lemma filter_sorted (f : Var * P -> bool) m : StronglySorted vlt m -> StronglySorted vlt (filter f m).
Proof.
  induction 1 as [|e m Hm IH HF]; cbn; [constructor|]. destruct (f e); auto. constructor; auto.
  rewrite Forall_forall in *. intros x Hx. apply filter_In in Hx. now apply HF.
Qed.
Lemma proc_sorted (l : LC P) : StronglySorted vlt (proc_lc l).
Proof. apply filter_sorted, bt_sorted. constructor. Qed.
Lemma proc_nonzero (l : LC P) : Forall (fun e => snd e <> 0) (proc_lc l).
Proof.
  unfold proc_lc. apply Forall_forall. intros e He. apply filter_In in He. destruct He as [_ He].
  destruct (feqb (snd e) 0) eqn:E; [discriminate|]. intros H. rewrite H in E.
  rewrite (proj2 (feqb_eq P 0 0) eq_refl) in E. discriminate.
Qed.

Lemma bt_keys v l : forall m, In v (map fst (fold_left (fun m t => bt_add (fst t) (snd t) m) l m)) -> In v (map fst m) \/ In v (map (@fst Var P) l).
Proof.
  induction l as [|[w c] l IH]; intros m; cbn [fold_left]; auto. intros H. apply IH in H. cbn.
  destruct H as [H|H]; auto. apply in_map_iff in H. destruct H as (e & <- & He). apply bt_add_in in He.
  destruct He as [->|(e' & He & <-)]; auto. left. now apply in_map.
Qed.
Lemma proc_keys (l : LC P) v : In v (map fst (proc_lc l)) -> In v (map fst l).
Proof.
  unfold proc_lc. intros H. apply in_map_iff in H. destruct H as (e & <- & He). apply filter_In in He.
  destruct (bt_keys (fst e) l []) as [[]|]; auto. now apply in_map.
Qed.

Lemma coef_cons v c l w : coef ((v, c) :: l) w = (if var_eqb w v then c else 0) + coef l w.
Proof. unfold coef. rewrite eval_cons. destruct (var_eqb w v); ring. Qed.
Lemma coef_above w m : Forall (fun e => var_cmp w (fst e) = Lt) m -> coef m w = 0.
Proof.
  induction 1 as [|[v c] m H HF IH]; [reflexivity|]. rewrite coef_cons, IH.
  destruct (var_eqb_spec w v) as [->|]; [|ring]. now apply var_cmp_irrefl in H.
Qed.

Lemma norm_unique m : forall m', StronglySorted vlt m -> StronglySorted vlt m' ->
  Forall (fun e => snd e <> 0) m -> Forall (fun e => snd e <> 0) m' ->
  (forall v, coef m v = coef m' v) -> m = m'.
Proof.
  assert (HC : forall w (m : LC P), StronglySorted vlt m -> forall v c m0, m = (v, c) :: m0 -> var_cmp w v = Lt -> coef m w = 0).
  { intros w m0 Hs v c m1 -> H. apply coef_above. constructor; [exact H|]. inversion Hs as [|? ? Hs' HF]; subst.
    eapply Forall_impl; [|exact HF]. intros e He. exact (var_cmp_trans _ _ _ H He). }
  assert (HH : forall v c (m : LC P), StronglySorted vlt ((v, c) :: m) -> coef ((v, c) :: m) v = c).
  { intros v c m0 Hs. inversion Hs as [|? ? Hs' HF]; subst. rewrite coef_cons.
    rewrite (coef_above v m0 HF). destruct (var_eqb_spec v v); [ring|congruence]. }
  induction m as [|[v c] m IH]; intros [|[v' c'] m'] Hs Hs' Hn Hn' HE.
  - reflexivity.
  - exfalso. specialize (HE v'). rewrite HH in HE by auto. inversion Hn' as [|? ? Hc _]; subst. cbn in Hc. congruence.
  - exfalso. specialize (HE v). rewrite HH in HE by auto. inversion Hn as [|? ? Hc _]; subst. cbn in Hc. congruence.
  - inversion Hn as [|? ? Hc Hnt]; subst. inversion Hn' as [|? ? Hc' Hnt']; subst. cbn in Hc, Hc'.
    inversion Hs as [|? ? Hst HF]; subst. inversion Hs' as [|? ? Hst' HF']; subst.
    destruct (var_cmp v v') eqn:E.
    + apply var_cmp_eq in E. subst v'. pose proof (HE v) as H. rewrite !HH in H by auto. subst c'.
      f_equal. apply IH; auto. intros w. specialize (HE w). rewrite !coef_cons in HE.
      destruct (var_eqb_spec w v) as [Ew|Ew]; [subst w|].
      * rewrite !coef_above; auto.
      * transitivity (0 + coef m w); [ring|]. rewrite HE. ring.
    + exfalso. specialize (HE v). rewrite HH in HE by auto. rewrite (HC v _ Hs' _ _ _ eq_refl E) in HE. congruence.
    + exfalso. apply var_cmp_gt in E. specialize (HE v'). rewrite (HC v' _ Hs _ _ _ eq_refl E), HH in HE by auto. congruence.
Qed.

(** The normal form is a canonical representative of the function. *)
Lemma proc_canonical (l l' : LC P) : proc_lc l = proc_lc l' <-> forall rho, eval rho l = eval rho l'.
Proof.
  split.
  - intros H rho. now rewrite <- (eval_proc rho l), H, eval_proc.
  - intros H. apply norm_unique; auto using proc_sorted, proc_nonzero.
    intros v. unfold coef. now rewrite !eval_proc.
Qed.

(** ** Encodings *)
Definition bytes_le (z : Z) (n : nat) : list Z := map (fun i => z / 2 ^ (8 * Z.of_nat i) mod 256)%Z (seq 0 n).
Lemma bytes_le_length z n : List.length (bytes_le z n) = n.
Proof. unfold bytes_le. now rewrite map_length, seq_length. Qed.
Lemma bytes_le_inj n : forall z z', bytes_le z n = bytes_le z' n -> (z mod 2 ^ (8 * Z.of_nat n) = z' mod 2 ^ (8 * Z.of_nat n))%Z.
Proof.
  induction n as [|n IH]; intros z z' H.
  - cbn. now rewrite !Z.mod_1_r.
  - unfold bytes_le in H. rewrite seq_S, !map_app in H. cbn [map] in H. apply app_inj_tail in H. destruct H as [H1 H2].
    apply IH in H1. replace (8 * Z.of_nat (S n))%Z with (8 * Z.of_nat n + 8)%Z by lia.
    rewrite Z.pow_add_r by lia. change (2 ^ 8)%Z with 256%Z.
    rewrite !Z.rem_mul_r by (try apply Z.pow_nonzero; lia). cbn [Nat.add] in H2. congruence.
Qed.

Lemma u64_be_bytes n : u64_be n = rev (bytes_le (Z.of_nat n) 8).
Proof. reflexivity. Qed.
Lemma u64_be_length n : List.length (u64_be n) = 8.
Proof. reflexivity. Qed.
Definition u64_ok (n : nat) : Prop := (Z.of_nat n < 2 ^ 64)%Z.
Lemma u64_be_inj n n' : u64_ok n -> u64_ok n' -> u64_be n = u64_be n' -> n = n'.
Proof.
  intros H H' E. rewrite !u64_be_bytes in E. apply (f_equal (@rev Z)) in E. rewrite !rev_involutive in E.
  apply bytes_le_inj in E. change (8 * Z.of_nat 8)%Z with 64%Z in E. unfold u64_ok in *.
  rewrite !Z.mod_small in E by lia. lia.
Qed.
Lemma to_repr_inj (x y : P) : to_repr x = to_repr y -> x = y.
Proof.
  intros H. apply (bytes_le_inj _ (toZ x) (toZ y)) in H.
  pose proof (modulus_repr (P := P)). pose proof (toZ_range P x). pose proof (toZ_range P y).
  set (n := Nat.div (repr_bits P + 7) 8) in *.
  assert (repr_bits P <= 8 * n)%nat.
  { unfold n. pose proof (Nat.div_mod (repr_bits P + 7) 8). pose proof (Nat.mod_upper_bound (repr_bits P + 7) 8). lia. }
  assert (2 ^ Z.of_nat (repr_bits P) <= 2 ^ (8 * Z.of_nat n))%Z by (apply Z.pow_le_mono_r; lia).
  rewrite !Z.mod_small in H by lia. rewrite <- (ofZ_toZ P x), H. apply ofZ_toZ.
Qed.

Lemma app_split {A} (a b r r' : list A) : List.length a = List.length b -> a ++ r = b ++ r' -> a = b /\ r = r'.
Proof.
  revert b. induction a as [|x a IH]; intros [|y b]; cbn; intros L H; try discriminate; auto.
  injection L as L. injection H as -> H. destruct (IH b L H). subst. auto.
Qed.

Definition var_idx (v : Var) : nat := match v with Input i | Aux i => i end.

Lemma hash_term_length (t : Var * P) b : hash_term t = Done b -> List.length b = 41.
Proof.
  unfold hash_term. destruct (Nat.eqb_spec (List.length (rev (to_repr (snd t)))) 32) as [E|]; [|discriminate].
  intros [= <-]. rewrite app_length, E. destruct (fst t); reflexivity.
Qed.
Lemma hash_term_inj (t t' : Var * P) b : u64_ok (var_idx (fst t)) -> u64_ok (var_idx (fst t')) ->
  hash_term t = Done b -> hash_term t' = Done b -> t = t'.
Proof.
  unfold hash_term. intros Hi Hi'.
  destruct (Nat.eqb_spec (List.length (rev (to_repr (snd t)))) 32) as [E|]; [|discriminate].
  destruct (Nat.eqb_spec (List.length (rev (to_repr (snd t')))) 32) as [E'|]; [|discriminate].
  intros [= <-] [= H]. apply app_split in H.
  - destruct H as [H1 H2]. apply (f_equal (@rev Z)) in H2. rewrite !rev_involutive in H2. apply to_repr_inj in H2.
    destruct t as [v c], t' as [v' c']. cbn [fst snd] in *. f_equal; [|congruence].
    destruct v as [i|i], v' as [j|j]; cbn [var_idx] in *;
      try (apply (f_equal (@hd Z 0%Z)) in H1; cbn [hd] in H1; discriminate);
      apply (f_equal (@tl Z)) in H1; cbn [tl] in H1; f_equal; symmetry; now apply u64_be_inj.
  - destruct (fst t), (fst t'); reflexivity.
Qed.

Lemma hash_terms_inj (m : list (Var * P)) : forall m' b b' r r', List.length m = List.length m' ->
  Forall (fun t => u64_ok (var_idx (fst t))) m -> Forall (fun t => u64_ok (var_idx (fst t))) m' ->
  oconcat (map hash_term m) = Done b -> oconcat (map hash_term m') = Done b' -> b ++ r = b' ++ r' ->
  m = m' /\ r = r'.
Proof.
  induction m as [|t m IH]; intros [|t' m'] b b' r r' L F F' H H' E; try discriminate.
  - cbn in H, H'. injection H as <-. injection H' as <-. auto.
  - cbn [map oconcat] in H, H'. inversion F; subst. inversion F'; subst.
    destruct (hash_term t) as [x|] eqn:Et; [|discriminate]. destruct (hash_term t') as [x'|] eqn:Et'; [|discriminate].
    cbn [obind] in H, H'. destruct (oconcat (map hash_term m)) as [y|] eqn:Em; [|discriminate].
    destruct (oconcat (map hash_term m')) as [y'|] eqn:Em'; [|discriminate]. cbn in H, H'. injection H as <-. injection H' as <-.
    rewrite <- !app_assoc in E. apply app_split in E; [|now rewrite (hash_term_length _ _ Et), (hash_term_length _ _ Et')].
    destruct E as [-> E]. injection L as L. destruct (IH m' y y' r r') as [-> ->]; auto.
    split; [|reflexivity]. f_equal. eapply hash_term_inj; eauto.
Qed.

Definition lc_ok (l : LC P) : Prop :=
  u64_ok (List.length (proc_lc l)) /\ Forall (fun t => u64_ok (var_idx (fst t))) (proc_lc l).

Lemma hash_lc_inj (l l' : LC P) b b' r r' : lc_ok l -> lc_ok l' ->
  hash_lc l = Done b -> hash_lc l' = Done b' -> b ++ r = b' ++ r' -> proc_lc l = proc_lc l' /\ r = r'.
Proof.
  intros [H1 H2] [H1' H2']. unfold hash_lc.
  destruct (oconcat (map hash_term (proc_lc l))) as [y|] eqn:E; [|discriminate].
  destruct (oconcat (map hash_term (proc_lc l'))) as [y'|] eqn:E'; [|discriminate].
  cbn [obind]. intros Hb Hb' H. apply Done_inj in Hb, Hb'. subst b b'. rewrite <- !app_assoc in H. apply app_split in H; [|now rewrite !u64_be_length].
  destruct H as [Hl H]. apply u64_be_inj in Hl; auto. eapply hash_terms_inj; eauto.
Qed.

Definition con_ok (c : LC P * LC P * LC P * string) : Prop :=
  let '(x, y, z, _) := c in lc_ok x /\ lc_ok y /\ lc_ok z.
Definition con_norm (c : LC P * LC P * LC P * string) :=
  let '(x, y, z, _) := c in (proc_lc x, proc_lc y, proc_lc z).

Lemma hash_con_inj c c' b b' r r' : con_ok c -> con_ok c' ->
  hash_constraint c = Done b -> hash_constraint c' = Done b' -> b ++ r = b' ++ r' -> con_norm c = con_norm c' /\ r = r'.
Proof.
  destruct c as [[[x y] z] n], c' as [[[x' y'] z'] n']. cbn [con_ok con_norm hash_constraint oconcat].
  intros (O1 & O2 & O3) (O1' & O2' & O3').
  destruct (hash_lc x) as [a1|] eqn:E1; [|discriminate]. cbn [obind].
  destruct (hash_lc y) as [a2|] eqn:E2; [|discriminate]. cbn [obind].
  destruct (hash_lc z) as [a3|] eqn:E3; [|discriminate]. cbn [obind]. intros [= <-].
  destruct (hash_lc x') as [a1'|] eqn:E1'; [|discriminate]. cbn [obind].
  destruct (hash_lc y') as [a2'|] eqn:E2'; [|discriminate]. cbn [obind].
  destruct (hash_lc z') as [a3'|] eqn:E3'; [|discriminate]. cbn [obind]. intros [= <-].
  rewrite !app_nil_r, <- !app_assoc. intros H.
  destruct (hash_lc_inj _ _ _ _ _ _ O1 O1' E1 E1' H) as [-> H2].
  destruct (hash_lc_inj _ _ _ _ _ _ O2 O2' E2 E2' H2) as [-> H3].
  destruct (hash_lc_inj _ _ _ _ _ _ O3 O3' E3 E3' H3) as [-> H4]. auto.
Qed.

Lemma hash_cons_inj cs : forall cs' b b', List.length cs = List.length cs' -> Forall con_ok cs -> Forall con_ok cs' ->
  oconcat (map hash_constraint cs) = Done b -> oconcat (map hash_constraint cs') = Done b' -> b = b' ->
  map con_norm cs = map con_norm cs'.
Proof.
  induction cs as [|c cs IH]; intros [|c' cs'] b b' L F F' H H' E; try discriminate; [reflexivity|].
  cbn [map oconcat] in H, H'. inversion F; subst. inversion F'; subst.
  destruct (hash_constraint c) as [x|] eqn:Et; [|discriminate]. destruct (hash_constraint c') as [x'|] eqn:Et'; [|discriminate].
  cbn [obind] in H, H'. destruct (oconcat (map hash_constraint cs)) as [y|] eqn:Em; [|discriminate].
  destruct (oconcat (map hash_constraint cs')) as [y'|] eqn:Em'; [|discriminate]. cbn in H, H'. injection H as <-. injection H' as E.
  destruct (hash_con_inj c c' x x' y y') as [E1 E2]; auto. injection L as L. cbn [map].
  rewrite E1. f_equal. eapply IH; eauto.
Qed.

Lemma proc_in_range (s : TState P) l : in_range s l -> Forall (fun t => entry s (fst t) <> None) (proc_lc l).
Proof.
  unfold in_range. rewrite !Forall_forall. intros H t Ht.
  assert (Hk : In (fst t) (map fst l)) by (apply proc_keys; now apply in_map).
  apply in_map_iff in Hk. destruct Hk as (t' & <- & Ht'). now apply H.
Qed.
Lemma sorted_nodup (m : list (Var * P)) : StronglySorted vlt m -> NoDup (map fst m).
Proof.
  induction 1 as [|e m Hm IH HF]; cbn; constructor; auto. intros Hin. apply in_map_iff in Hin.
  destruct Hin as (e' & E & He'). rewrite Forall_forall in HF. specialize (HF _ He'). unfold vlt in HF. rewrite E in HF.
  now apply var_cmp_irrefl in HF.
Qed.
Lemma lc_ok_range (s : TState P) l : u64_ok (List.length (t_inputs s) + List.length (t_aux s))%nat -> in_range s l -> lc_ok l.
Proof.
  intros Hs Hr. apply proc_in_range in Hr.
  assert (HI : forall v, entry s v <> None -> In v (map Input (seq 0 (List.length (t_inputs s))) ++ map Aux (seq 0 (List.length (t_aux s))))).
  { intros [i|i] Hv; cbn in Hv; apply nth_error_Some in Hv; apply in_or_app; [left|right]; apply in_map; apply in_seq; lia. }
  rewrite Forall_forall in Hr. split.
  - assert (List.length (proc_lc l) <= List.length (t_inputs s) + List.length (t_aux s))%nat; [|unfold u64_ok in *; lia].
    rewrite <- (map_length fst). 
    replace (List.length (t_inputs s) + List.length (t_aux s))%nat with
      (List.length (map Input (seq 0 (List.length (t_inputs s))) ++ map Aux (seq 0 (List.length (t_aux s)))))
      by (rewrite app_length, !map_length, !seq_length; reflexivity).
    apply NoDup_incl_length; [apply sorted_nodup, proc_sorted|]. intros v Hv. apply HI.
    apply in_map_iff in Hv. destruct Hv as (t & <- & Ht). now apply Hr.
  - rewrite Forall_forall. intros t Ht. specialize (Hr _ Ht). unfold u64_ok in *.
    destruct (fst t) as [i|i]; cbn in *; apply nth_error_Some in Hr; lia.
Qed.

End Norm.
