(** Costs of the smaller gadgets, and costs as counted by the constraint systems: auxiliary lemmas. *)
From Coq Require Import String.
From Coq Require Import ZArith List Bool Lia.
From Verif Require Import Prelude PrimeField Circuit Loops BooleanGadget NumGadget LookupGadget Multipack MultiEq UInt32 UInt32Proof
  Assembly TestCS CostSpec Cost CostProof.
Import ListNotations.
Local Open Scope nat_scope.

(** ** Counting *)
Section Count.
Context {P : PrimeField}.
Variables (M : Machine P) (nv ni nc : St M -> nat).
Let moves (s s' : St M) (v i c : Z) : Prop :=
  Z.of_nat (nv s') = (Z.of_nat (nv s) + v)%Z /\ Z.of_nat (ni s') = (Z.of_nat (ni s) + i)%Z /\ Z.of_nat (nc s') = (Z.of_nat (nc s) + c)%Z.
Hypothesis Halloc : forall s n f s' r b, m_alloc M s n f = Done (s', r, b) -> moves s s' (match r with Ok _ => 1 | Err _ => 0 end) 0 0.
Hypothesis Hinput : forall s n f s' r b, m_alloc_input M s n f = Done (s', r, b) -> moves s s' 0 (match r with Ok _ => 1 | Err _ => 0 end) 0.
Hypothesis Henforce : forall s n x y z s', m_enforce M s n x y z = Done s' -> moves s s' 0 0 1.
Hypothesis Hpush : forall s n s', m_push M s n = Done s' -> moves s s' 0 0 0.
Hypothesis Hpop : forall s s', m_pop M s = Done s' -> moves s s' 0 0 0.

Lemma machine_spends {A} (p : prog P A) : forall s r s', run M p s = Done (r, s') ->
  exists x, spends p r x /\ b_eqs x = [] /\ moves s s' (b_aux x) (b_inp x) (b_cons x).
Proof.
  unfold moves in *.
  induction p as [a| |n f k IH|n f k IH|n a b c k IH|n l r k IH|n k IH|k IH]; intros s r0 s' H; cbn [run] in H; try discriminate.
  - inversion H; subst. exists bill0. split; [constructor|]. cbn [bill0 b_aux b_inp b_cons b_eqs]. repeat split; lia.
  - destruct (m_alloc M s n f) as [[[s1 r] b]|] eqn:E; [|discriminate]. cbn [obind fst snd] in H. apply IH in H as (x & S & Q & A1 & A2 & A3).
    apply Halloc in E as (B1 & B2 & B3). destruct r as [v|e].
    + exists (bill_aux x). split; [econstructor; eauto|]. cbn [bill_aux b_aux b_inp b_cons b_eqs]. repeat split; [exact Q|lia..].
    + exists x. split; [eapply sp_alloc_err; eauto|]. repeat split; [exact Q|lia..].
  - destruct (m_alloc_input M s n f) as [[[s1 r] b]|] eqn:E; [|discriminate]. cbn [obind fst snd] in H. apply IH in H as (x & S & Q & A1 & A2 & A3).
    apply Hinput in E as (B1 & B2 & B3). destruct r as [v|e].
    + exists (bill_inp x). split; [econstructor; eauto|]. cbn [bill_inp b_aux b_inp b_cons b_eqs]. repeat split; [exact Q|lia..].
    + exists x. split; [eapply sp_input_err; eauto|]. repeat split; [exact Q|lia..].
  - destruct (m_enforce M s n a b c) as [s1|] eqn:E; [|discriminate]. cbn [obind] in H. apply IH in H as (x & S & Q & A1 & A2 & A3).
    apply Henforce in E as (B1 & B2 & B3). exists (bill_con x). split; [econstructor; eauto|]. cbn [bill_con b_aux b_inp b_cons b_eqs]. repeat split; [exact Q|lia..].
  - destruct (m_push M s n) as [s1|] eqn:E; [|discriminate]. cbn [obind] in H. apply IH in H as (x & S & Q & A1 & A2 & A3).
    apply Hpush in E as (B1 & B2 & B3). exists x. split; [econstructor; eauto|]. repeat split; [exact Q|lia..].
  - destruct (m_pop M s) as [s1|] eqn:E; [|discriminate]. cbn [obind] in H. apply IH in H as (x & S & Q & A1 & A2 & A3).
    apply Hpop in E as (B1 & B2 & B3). exists x. split; [econstructor; eauto|]. repeat split; [exact Q|lia..].
Qed.
Lemma machine_costs {A} (p : prog P (res A)) x Q : costs p x Q -> forall s r s', run M p s = Done (Ok r, s') -> moves s s' (b_aux x) (b_inp x) (b_cons x).
Proof. intros H s r s' E. apply machine_spends in E as (y & S & _ & HM). destruct (H _ _ S) as [-> _]. exact HM. Qed.
End Count.

Section Machines.
Context {P : PrimeField}.
Definition moved {S} (nv ni nc : S -> nat) (s s' : S) (v i c : Z) : Prop :=
  Z.of_nat (nv s') = (Z.of_nat (nv s) + v)%Z /\ Z.of_nat (ni s') = (Z.of_nat (ni s) + i)%Z /\ Z.of_nat (nc s') = (Z.of_nat (nc s) + c)%Z.
Lemma honest_counts {A} (p : prog P (res A)) x Q : costs p x Q -> forall s r s', run (HonestCS P) p s = Done (Ok r, s') ->
  moved (fun s => length (p_aux s)) (fun s => length (p_inputs s)) (fun s => length (Circuit.p_cons s)) s s' (b_aux x) (b_inp x) (b_cons x).
Proof.
  intros H. refine (machine_costs (HonestCS P) (fun s => length (p_aux s)) (fun s => length (p_inputs s)) (fun s => length (Circuit.p_cons s)) _ _ _ _ _ p x Q H).
  - intros s n f s' r b E. cbn [m_alloc HonestCS] in E. destruct f; inversion E; subst; cbn [p_aux p_inputs Circuit.p_cons]; rewrite ?app_length; cbn [length]; lia.
  - intros s n f s' r b E. cbn [m_alloc_input HonestCS] in E. destruct f; inversion E; subst; cbn [p_aux p_inputs Circuit.p_cons]; rewrite ?app_length; cbn [length]; lia.
  - intros s n a b c s' E. cbn [m_enforce HonestCS] in E. inversion E; subst; cbn [p_aux p_inputs Circuit.p_cons]; rewrite ?app_length; cbn [length]; lia.
  - intros s n s' E. inversion E; subst. lia.
  - intros s s' E. inversion E; subst. lia.
Qed.
Lemma keypair_counts {A} (p : prog P (res A)) x Q : costs p x Q -> forall s r s', run (KeypairCS P) p s = Done (Ok r, s') ->
  moved (@num_aux P) (@Assembly.num_inputs P) (@Assembly.num_constraints P) s s' (b_aux x) (b_inp x) (b_cons x).
Proof.
  intros H. refine (machine_costs (KeypairCS P) (@num_aux P) (@Assembly.num_inputs P) (@Assembly.num_constraints P) _ _ _ _ _ p x Q H).
  - intros s n f s' r b E. cbn [m_alloc KeypairCS] in E. inversion E; subst. cbn [num_aux Assembly.num_inputs Assembly.num_constraints]. lia.
  - intros s n f s' r b E. cbn [m_alloc_input KeypairCS] in E. inversion E; subst. cbn [num_aux Assembly.num_inputs Assembly.num_constraints]. lia.
  - intros s n a b c s' E. cbn [m_enforce KeypairCS] in E. destruct (ka_eval _ a _) as [c1|]; [|discriminate]. destruct (ka_eval _ b _) as [c2|]; [|discriminate].
    destruct (ka_eval _ c _) as [c3|]; [|discriminate]. cbn [obind] in E. inversion E; subst. cbn [num_aux Assembly.num_inputs Assembly.num_constraints]. lia.
  - intros s n s' E. inversion E; subst. lia.
  - intros s s' E. inversion E; subst. lia.
Qed.
Lemma proving_counts {A} (p : prog P (res A)) x Q : costs p x Q -> forall s r s', run (ProvingCS P) p s = Done (Ok r, s') ->
  moved (fun s => length (@aux_assignment P s)) (fun s => length (@input_assignment P s)) (fun s => length (@pa_a P s)) s s' (b_aux x) (b_inp x) (b_cons x).
Proof.
  intros H. refine (machine_costs (ProvingCS P) (fun s => length (@aux_assignment P s)) (fun s => length (@input_assignment P s)) (fun s => length (@pa_a P s)) _ _ _ _ _ p x Q H).
  - intros s n f s' r b E. cbn [m_alloc ProvingCS] in E. destruct f; inversion E; subst; cbn [aux_assignment input_assignment pa_a]; rewrite ?app_length; cbn [length]; lia.
  - intros s n f s' r b E. cbn [m_alloc_input ProvingCS] in E. destruct f; inversion E; subst; cbn [aux_assignment input_assignment pa_a]; rewrite ?app_length; cbn [length]; lia.
  - intros s n a b c s' E. cbn [m_enforce ProvingCS] in E. destruct (pa_eval a _ _ _ _ _) as [[[va d1] d2]|]; [|discriminate]. cbn [obind] in E.
    destruct (pa_eval b _ _ _ _ _) as [[[vb d3] d4]|]; [|discriminate]. cbn [obind] in E.
    destruct (pa_eval c _ _ _ _ _) as [[[vc d5] d6]|]; [|discriminate]. cbn [obind] in E.
    inversion E; subst. cbn [aux_assignment input_assignment pa_a]. rewrite ?app_length. cbn [length]. lia.
  - intros s n s' E. inversion E; subst. lia.
  - intros s s' E. inversion E; subst. lia.
Qed.
Lemma named_counts (s : TState P) path o s' : set_named_obj s path o = Done s' ->
  t_aux s' = t_aux s /\ t_inputs s' = t_inputs s /\ t_cons s' = t_cons s.
Proof. unfold set_named_obj. destruct (find_obj path (t_objs s)); [discriminate|]. intros E. inversion E; subst. auto. Qed.
Lemma test_counts {A} (p : prog P (res A)) x Q : costs p x Q -> forall s r s', run (@TestCS P) p s = Done (Ok r, s') ->
  moved (fun s => length (@t_aux P s)) (@TestCS.num_inputs P) (@TestCS.num_constraints P) s s' (b_aux x) (b_inp x) (b_cons x).
Proof.
  intros H. refine (machine_costs (@TestCS P) (fun s => length (@t_aux P s)) (@TestCS.num_inputs P) (@TestCS.num_constraints P) _ _ _ _ _ p x Q H);
    unfold TestCS.num_inputs, TestCS.num_constraints.
  - intros s n f s' r b E. cbn [m_alloc TestCS] in E. unfold t_alloc in E. destruct (compute_path (t_ns s) n) as [path|]; [|discriminate]. cbn [obind] in E.
    destruct f as [v|e]; [|inversion E; subst; lia].
    destruct (set_named_obj _ path _) as [s2|] eqn:Es; [|discriminate]. cbn [obind] in E. inversion E; subst.
    apply named_counts in Es as (-> & -> & ->). cbn [t_aux t_inputs t_cons]. rewrite ?app_length. cbn [length]. lia.
  - intros s n f s' r b E. cbn [m_alloc_input TestCS] in E. unfold t_alloc_input in E. destruct (compute_path (t_ns s) n) as [path|]; [|discriminate]. cbn [obind] in E.
    destruct f as [v|e]; [|inversion E; subst; lia].
    destruct (set_named_obj _ path _) as [s2|] eqn:Es; [|discriminate]. cbn [obind] in E. inversion E; subst.
    apply named_counts in Es as (-> & -> & ->). cbn [t_aux t_inputs t_cons]. rewrite ?app_length. cbn [length]. lia.
  - intros s n a b c s' E. cbn [m_enforce TestCS] in E. unfold t_enforce in E. destruct (compute_path (t_ns s) n) as [path|]; [|discriminate]. cbn [obind] in E.
    destruct (set_named_obj _ path _) as [s2|] eqn:Es; [|discriminate]. cbn [obind] in E. inversion E; subst.
    apply named_counts in Es as (E1 & E2 & E3). cbn [t_aux t_inputs t_cons]. rewrite E1, E2, E3, ?app_length. cbn [length]. lia.
  - intros s n s' E. cbn [m_push TestCS] in E. unfold t_push in E. destruct (compute_path (t_ns s) n) as [path|]; [|discriminate]. cbn [obind] in E.
    destruct (set_named_obj _ path _) as [s2|] eqn:Es; [|discriminate]. cbn [obind] in E. inversion E; subst.
    apply named_counts in Es as (E1 & E2 & E3). cbn [t_aux t_inputs t_cons]. rewrite E1, E2, E3. lia.
  - intros s s' E. cbn [m_pop TestCS] in E. unfold t_pop in E. destruct (t_ns s); [discriminate|]. inversion E; subst. cbn [t_aux t_inputs t_cons]. lia.
Qed.
End Machines.

(** ** Gadgets *)
Section Small.
Context {P : PrimeField}.
Notation gates n := (mkBill n n 0 []).
Lemma fbill_gates n : fbill (n, []) = gates n. Proof. reflexivity. Qed.
Lemma costs_Input {B} n f (k : res Var -> bool -> prog P (res B)) x Q :
  (forall v b, costs (k (Ok v) b) x Q) -> (forall e b, exists e', k (Err e) b = Ret (Err e')) -> costs (AllocInput n f k) (bill_inp x) Q.
Proof.
  intros H He r y S. inversion S; subst.
  - match goal with X : spends _ _ _ |- _ => destruct (H _ _ _ _ X) as [-> HQ] end. auto.
  - match goal with X : spends (k (Err ?e) ?b) _ _ |- _ => destruct (He e b) as [e' E]; rewrite E in X; inversion X end.
Qed.
Lemma costs_eq {A} (p : prog P (res A)) x y Q : x = y -> costs p x Q -> costs p y Q.
Proof. now intros ->. Qed.
Ltac steps := unfold bindq, cs_alloc, cs_alloc_input, cs_enforce; cbn [bind];
  repeat first [apply costs_Alloc; [intros ? ?; cbn [bind]|intros ? ?; eexists; reflexivity]
               |apply costs_Input; [intros ? ?; cbn [bind]|intros ? ?; eexists; reflexivity]
               |apply costs_Enforce; cbn [bind]
               |apply costs_ret; exact I].
Definition any_result {A} (_ : A) : Prop := True.

Lemma cond_costs v a : costs (@ab_alloc_conditionally P v a) (gates 1) any_result.
Proof. apply (costs_eq _ (bill_aux (bill_con bill0))); [reflexivity|]. unfold ab_alloc_conditionally. steps. Qed.
Lemma enforce_equal_costs a b : costs (@b_enforce_equal P a b) (mkBill (if isvar a || isvar b then 1 else 0) 0 0 []) any_result.
Proof.
  assert (H : forall n x y z, costs (bind (cs_enforce n x y z) (fun _ => @Ret P _ (Ok tt))) (mkBill 1 0 0 []) any_result).
  { intros. apply (costs_eq _ (bill_con bill0)); [reflexivity|]. steps. }
  destruct a as [a|a|[|]], b as [b|b|[|]]; cbn [isvar is_constant negb orb b_enforce_equal]; first [apply H|apply costs_ret; exact I|intros r y S; cbn [eqb] in S; inversion S].
Qed.
(** At least two of the three inputs are variables, and the first is not the constant 0. *)
Definition ch_cost (a b c : Boolean) : Z :=
  match a with BConst false => 0 | _ => if (isvar a && isvar b) || (isvar a && isvar c) || (isvar b && isvar c) then 1 else 0 end%Z.
Definition vars_of (l : list Boolean) : Z := Z.of_nat (length (filter isvar l)).
Definition maj_cost (a b c : Boolean) : Z := Z.max 0 (vars_of [a; b; c] - 1).
Lemma b_and_any' (a b : Boolean) : costs (@b_and P a b) (gates (if isvar a && isvar b then 1 else 0)) any_result.
Proof. pose proof (b_and_costs (P := P) a b) as H. unfold costf, gate_fee, one_gate, free, fbill in H. destruct (isvar a && isvar b); eapply costs_mono; try exact H; exact (fun _ _ => I). Qed.
Lemma not_any (p : prog P (res Boolean)) x : costs p x any_result -> costs (bindq p (fun r => Ret (Ok (b_not r)))) x any_result.
Proof. intros H. eapply costs_ret_bindq; [exact H|]. exact (fun _ _ => I). Qed.
Lemma ch_general_any a b c : costs (@ch_general P a b c) (gates 1) any_result.
Proof. eapply costs_mono; [|exact (ch_general_costs a b c)]. exact (fun _ _ => I). Qed.
Lemma maj_general_any a b c : isvar b = true -> isvar c = true -> costs (@maj_general P a b c) (gates 2) any_result.
Proof. intros Hb Hc. pose proof (maj_general_costs (P := P) a b c) as H. rewrite Hb, Hc in H. eapply costs_mono; [|exact H]. exact (fun _ _ => I). Qed.
Lemma b_ch_any a b c : costs (@b_ch P a b c) (gates (ch_cost a b c)) any_result.
Proof.
  destruct a as [a|a|[|]], b as [b|b|[|]], c as [c|c|[|]]; cbn [b_ch tri_value b_value b_not ch_cost isvar is_constant negb andb orb];
    first [apply ch_general_any|apply not_any, b_and_any'|apply b_and_any'|apply costs_ret; exact I].
Qed.
Lemma b_maj_any a b c : costs (@b_maj P a b c) (gates (maj_cost a b c)) any_result.
Proof.
  destruct a as [a|a|[|]], b as [b|b|[|]], c as [c|c|[|]]; cbn [b_maj tri_value b_value b_not];
    first [apply maj_general_any; reflexivity|apply not_any, b_and_any'|apply b_and_any'|apply costs_ret; exact I].
Qed.

Definition sumz (l : list Z) : Z := fold_right Z.add 0%Z l.
Lemma costs_mapq {A B} (f : nat -> A -> prog P (res B)) (h : A -> Z) l : forall i,
  (forall j x, In x l -> costs (f j x) (gates (h x)) any_result) -> costs (mapq f i l) (gates (sumz (map h l))) (fun r => length r = length l).
Proof.
  induction l as [|x l IH]; intros i H; cbn [mapq map sumz fold_right].
  - apply costs_ret. reflexivity.
  - apply (costs_eq _ (bill_add (gates (h x)) (gates (sumz (map h l))))); [reflexivity|].
    eapply costs_bindq; [apply H; now left|]. intros y _. eapply costs_ret_bindq; [apply IH; intros; apply H; now right|].
    intros ys E. cbn [length]. now rewrite E.
Qed.
Lemma sumz_const {A} (l : list A) z : sumz (map (fun _ => z) l) = (z * Z.of_nat (length l))%Z.
Proof. induction l as [|x l IH]; cbn [map sumz fold_right length]; [lia|]. change (fold_right Z.add 0%Z (map (fun _ : A => z) l)) with (sumz (map (fun _ : A => z) l)). rewrite IH. lia. Qed.
Lemma ab_alloc_any v : costs (@ab_alloc P v) (gates 1) any_result.
Proof. exact (ab_alloc_costs v). Qed.
Lemma bits_costs l i : costs (mapq (@alloc_bit_at P) i l) (gates (Z.of_nat (length l))) (fun r => length r = length l).
Proof.
  rewrite <- (Z.mul_1_l (Z.of_nat (length l))), <- (sumz_const l 1). apply costs_mapq. intros j x _. apply costs_ns, ab_alloc_any.
Qed.
Lemma u64_costs v : costs (@u64_into_boolean_vec_le P v) (gates 64) any_result.
Proof.
  unfold u64_into_boolean_vec_le. set (l := match v with Some _ => _ | None => _ end).
  assert (E : length l = 64) by (subst l; destruct v; [rewrite map_length, seq_length|rewrite repeat_length]; reflexivity).
  apply (costs_eq _ (gates (1 * Z.of_nat (length l)))); [now rewrite E|]. rewrite <- sumz_const. eapply costs_mono; [exact (fun _ _ => I)|].
  apply costs_mapq. intros j x _. eapply costs_ret_bindq; [apply costs_ns, ab_alloc_any|exact (fun _ _ => I)].
Qed.
Lemma u_alloc_costs v : costs (@u_alloc P v) (gates 32) any_result.
Proof.
  unfold u_alloc. set (l := match v with Some _ => _ | None => _ end).
  assert (E : length l = 32) by (subst l; destruct v; [rewrite map_length; now rewrite low_bits_z2le, z2le_length|rewrite repeat_length; reflexivity]).
  cbv zeta. eapply costs_ret_bindq; [|exact (fun _ _ => I)].
  apply (costs_eq _ (gates (1 * Z.of_nat (length l)))); [now rewrite E|]. rewrite <- sumz_const.
  apply costs_mapq. intros j x _. eapply costs_ret_bindq; [apply costs_ns, ab_alloc_any|exact (fun _ _ => I)].
Qed.
Lemma field_bits_costs (Q : PrimeField) (v : option Q) : costs (@field_into_allocated_bits_le P Q v) (gates (Z.of_nat (num_bits Q))) (fun r => length r = num_bits Q).
Proof.
  unfold field_into_allocated_bits_le. destruct v as [v|].
  - destruct (strip_leading _ _ _) as [tmp|]; [|apply costs_panic]. destruct (Nat.eqb_spec (length tmp) (num_bits Q)) as [E|]; [|apply costs_panic].
    rewrite <- E. replace (length tmp) with (length (rev (map Some tmp))) by now rewrite rev_length, map_length. apply bits_costs.
  - set (l := rev (repeat None (num_bits Q))). replace (num_bits Q) with (length l) by (subst l; now rewrite rev_length, repeat_length). apply bits_costs.
Qed.
Lemma field_vec_costs (Q : PrimeField) (v : option Q) : costs (@field_into_boolean_vec_le P Q v) (gates (Z.of_nat (num_bits Q))) any_result.
Proof. eapply costs_ret_bindq; [apply field_bits_costs|exact (fun _ _ => I)]. Qed.

Lemma u_xor_any a b : costs (@u_xor P a b) (gates (both (map isvar (u_bits a)) (map isvar (u_bits b)))) any_result.
Proof.
  unfold u_xor. cbv zeta. eapply costs_ret_bindq; [|exact (fun _ _ => I)].
  apply (costs_eq _ (gates (sumz (map (fun x => if isvar (fst x) && isvar (snd x) then 1 else 0)%Z (combine (u_bits a) (u_bits b)))))).
  - f_equal; generalize (u_bits a), (u_bits b); intros x; induction x as [|p x IH]; intros [|q y]; try reflexivity;
      unfold both, bits2 in *; cbn [combine map fst snd count_occ sumz fold_right] in *;
      specialize (IH y); unfold sumz in IH; rewrite IH; destruct (isvar p && isvar q); cbn [Bool.bool_dec]; try reflexivity;
      destruct (Bool.bool_dec _ _); try discriminate; try congruence; lia.
  - apply costs_mapq. intros j x _. apply costs_ns. pose proof (b_xor_costs (P := P) (fst x) (snd x)) as H. unfold costf, gate_fee in H.
    destruct (isvar (fst x) && isvar (snd x)); eapply costs_mono; try exact H; exact (fun _ _ => I).
Qed.
Definition word_cost (f : Boolean -> Boolean -> Boolean -> Z) (a b c : UInt32) : Z :=
  sumz (map (fun x => f (fst (fst x)) (snd (fst x)) (snd x)) (combine (combine (u_bits a) (u_bits b)) (u_bits c))).
Lemma u_ch_any a b c : costs (@u_ch P a b c) (gates (word_cost ch_cost a b c)) any_result.
Proof. unfold u_ch, triop. cbv zeta. eapply costs_ret_bindq; [|exact (fun _ _ => I)]. apply costs_mapq. intros j x _. apply costs_ns, b_ch_any. Qed.
Lemma u_maj_any a b c : costs (@u_maj P a b c) (gates (word_cost maj_cost a b c)) any_result.
Proof. unfold u_maj, triop. cbv zeta. eapply costs_ret_bindq; [|exact (fun _ _ => I)]. apply costs_mapq. intros j x _. apply costs_ns, b_maj_any. Qed.

(** num.rs *)
Lemma an_alloc_costs v : costs (@an_alloc P v) (mkBill 0 1 0 []) any_result.
Proof. apply (costs_eq _ (bill_aux bill0)); [reflexivity|]. unfold an_alloc. steps. Qed.
Lemma inputize_costs a : costs (@an_inputize P a) (mkBill 1 0 1 []) any_result.
Proof. apply (costs_eq _ (bill_inp (bill_con bill0))); [reflexivity|]. unfold an_inputize. steps. Qed.
Lemma mul_costs a b : costs (@an_mul P a b) (gates 1) any_result.
Proof. apply (costs_eq _ (bill_aux (bill_con bill0))); [reflexivity|]. unfold an_mul. steps. Qed.
Lemma square_costs a : costs (@an_square P a) (gates 1) any_result.
Proof. apply (costs_eq _ (bill_aux (bill_con bill0))); [reflexivity|]. unfold an_square. steps. Qed.
Lemma nonzero_costs a : costs (@an_assert_nonzero P a) (gates 1) any_result.
Proof. apply (costs_eq _ (bill_aux (bill_con bill0))); [reflexivity|]. unfold an_assert_nonzero. steps. Qed.
Lemma costs_con {A} n x y z (k : prog P (res A)) v c i e Q : costs k (mkBill c v i e) Q -> costs (bind (cs_enforce n x y z) (fun _ => k)) (mkBill (1 + c) v i e) Q.
Proof. intros H. apply (costs_eq _ (bill_con (mkBill c v i e))); [reflexivity|]. unfold cs_enforce. cbn [bind]. now apply costs_Enforce. Qed.
Lemma costs_done {A} (a : A) : costs (@Ret P _ (Ok a)) (mkBill 0 0 0 []) any_result.
Proof. apply (costs_ret a any_result I). Qed.
Lemma reverse_costs a b c : costs (@an_conditionally_reverse P a b c) (gates 2) any_result.
Proof.
  unfold an_conditionally_reverse. apply (costs_eq _ (bill_add (mkBill 0 1 0 []) (mkBill 2 1 0 []))); [reflexivity|].
  eapply costs_bindq; [apply costs_ns, an_alloc_costs|]. intros u _. apply (costs_con _ _ _ _ _ 1 1 0 []).
  apply (costs_eq _ (bill_add (mkBill 0 1 0 []) (mkBill 1 0 0 []))); [reflexivity|].
  eapply costs_bindq; [apply costs_ns, an_alloc_costs|]. intros w _. apply (costs_con _ _ _ _ _ 0 0 0 []). apply costs_done.
Qed.
Lemma to_bits_costs a : costs (@to_bits_le P a) (mkBill (Z.of_nat (num_bits P) + 1) (Z.of_nat (num_bits P)) 0 []) any_result.
Proof.
  unfold to_bits_le. apply (costs_eq _ (bill_add (gates (Z.of_nat (num_bits P))) (mkBill 1 0 0 []))); [apply bill_eq_iff; cbn [bill_add b_cons b_aux b_inp b_eqs app]; try reflexivity; lia|].
  eapply costs_bindq; [apply field_bits_costs|]. intros bits _. apply (costs_con _ _ _ _ _ 0 0 0 []), costs_done.
Qed.

(** lookup.rs *)
Lemma lookup_costs b0 b1 b2 coords : costs (@lookup3_xy P [b0; b1; b2] coords) (gates (2 + if isvar b1 && isvar b2 then 1 else 0)) any_result.
Proof.
  unfold lookup3_xy. destruct (negb _); [apply costs_panic|]. cbv zeta. set (k := if isvar b1 && isvar b2 then 1%Z else 0%Z).
  apply (costs_eq _ (bill_add (mkBill 0 1 0 []) (bill_add (mkBill 0 1 0 []) (bill_add (gates k) (mkBill 2 0 0 [])))));
    [apply bill_eq_iff; cbn [bill_add b_cons b_aux b_inp b_eqs app]; try reflexivity; lia|].
  eapply costs_bindq; [apply costs_ns, an_alloc_costs|]. intros x _. eapply costs_bindq; [apply costs_ns, an_alloc_costs|]. intros y _.
  eapply costs_bindq; [apply costs_ns, b_and_any'|]. intros pc _. unfold lookup_constraint. cbv zeta.
  apply (costs_con _ _ _ _ _ 0 1 0 []), (costs_con _ _ _ _ _ 0 0 0 []), costs_done.
Qed.
Lemma lookup_neg_costs b0 b1 b2 coords : costs (@lookup3_xy_neg P [b0; b1; b2] coords) (gates (1 + if isvar b0 && isvar b1 then 1 else 0)) any_result.
Proof.
  unfold lookup3_xy_neg. destruct (negb _); [apply costs_panic|]. cbv zeta. set (k := if isvar b0 && isvar b1 then 1%Z else 0%Z).
  apply (costs_eq _ (bill_add (mkBill 0 1 0 []) (bill_add (gates k) (mkBill 1 0 0 []))));
    [apply bill_eq_iff; cbn [bill_add b_cons b_aux b_inp b_eqs app]; try reflexivity; lia|].
  eapply costs_bindq; [apply costs_ns, an_alloc_costs|]. intros y _.
  eapply costs_bindq; [apply costs_ns, b_and_any'|]. intros pc _.
  apply (costs_con _ _ _ _ _ 0 0 0 []), costs_done.
Qed.

(** multipack.rs *)
Lemma pack_costs bits : costs (@pack_into_inputs P bits) (let n := Z.of_nat (length (chunks (capacity P) bits)) in mkBill n 0 n []) any_result.
Proof.
  unfold pack_into_inputs. cbv zeta. generalize (chunks (capacity P) bits), 0%nat at 1, tt. intros l.
  induction l as [|c l IH]; intros i u; cbn [foldq]; [apply costs_done|].
  apply (costs_eq _ (bill_add (mkBill 1 0 1 []) (mkBill (Z.of_nat (length l)) 0 (Z.of_nat (length l)) [])));
    [apply bill_eq_iff; cbn [bill_add b_cons b_aux b_inp b_eqs app length]; try reflexivity; lia|].
  eapply costs_bindq; [|intros u' _; apply IH]. instantiate (1 := any_result).
  apply (costs_eq _ (bill_inp (bill_con bill0))); [reflexivity|]. unfold pack_chunk. cbv zeta. steps.
Qed.
End Small.

Section Strict.
Context {P : PrimeField}.
Notation gates n := (mkBill n n 0 []).
Lemma kary_costs (x : AllocatedBit) l : costs (@kary_and P (x :: l)) (gates (Z.of_nat (length l))) any_result.
Proof.
  cbn [kary_and]. generalize 1%nat, x. induction l as [|b l IH]; intros i cur; cbn [foldq]; [apply costs_done|].
  apply (costs_eq _ (bill_add (gates 1) (gates (Z.of_nat (length l))))); [apply bill_eq_iff; cbn [bill_add b_cons b_aux b_inp b_eqs app length]; try reflexivity; lia|].
  eapply costs_bindq; [apply costs_ns, (ab_and_costs cur b)|]. intros r _. apply IH.
Qed.
Definition pending (s : StrictSt) : Z := (Z.of_nat (length (st_current_run s)) + match st_last_run s with Some _ => 1 | None => 0 end)%Z.
Definition one_if (b : bool) : Z := if b then 1 else 0.
Lemma strict_step_spends s b a s' y : orb (st_found_one s) b = true -> spends (@strict_step P s (b, a)) (Ok s') y ->
  y = gates (1 + one_if b + pending s - pending s')%Z /\ (1 <= pending s')%Z /\ st_found_one s' = true.
Proof.
  intros Hf S. unfold strict_step in S. rewrite Hf in S. cbn [negb] in S. destruct b.
  - assert (HC : costs (bindq (ns ("bit " ++ nat_str (st_i s)) (@ab_alloc P a)) (fun a0 : AllocatedBit =>
       Ret (Ok {| st_result := st_result s ++ [a0]; st_last_run := st_last_run s; st_current_run := st_current_run s ++ [a0];
                  st_found_one := true; st_i := Datatypes.S (st_i s) |}))) (gates 1) (fun s' => pending s' = (1 + pending s)%Z /\ st_found_one s' = true)).
    { eapply costs_ret_bindq; [apply costs_ns, ab_alloc_any|]. intros x _. split; [|reflexivity].
      unfold pending; cbn [st_current_run st_last_run]. rewrite app_length. cbn [length]. lia. }
    destruct (HC _ _ S) as (-> & E & F). rewrite E. cbn [one_if]. split; [apply bill_eq_iff; cbn [b_cons b_aux b_inp b_eqs]; try reflexivity; lia|].
    split; [|exact F]. unfold pending. destruct (st_last_run s); lia.
  - assert (HL : costs (match st_current_run s with
          | [] => Ret (Ok (st_last_run s))
          | _ :: _ => bindq (ns ("run ending at " ++ nat_str (st_i s)) (@kary_and P
                (match st_last_run s with Some l => st_current_run s ++ [l] | None => st_current_run s end)))
                (fun k => Ret (Ok (Some k))) end)
        (gates (match st_current_run s with [] => 0 | _ => pending s - 1 end))
        (fun o => match o with Some _ => match st_current_run s with [] => pending s = 1%Z | _ => True end | None => True end)).
    { unfold pending. destruct (st_current_run s) as [|c cs].
      - apply costs_ret. destruct (st_last_run s); [reflexivity|exact I].
      - eapply costs_ret_bindq; [|intros; exact I]. apply costs_ns. destruct (st_last_run s) as [l|]; cbn [app].
        + eapply costs_eq; [|apply (kary_costs c (cs ++ [l]))]. rewrite app_length. cbn [length].
          apply bill_eq_iff; cbn [b_cons b_aux b_inp b_eqs]; try reflexivity; lia.
        + eapply costs_eq; [|apply (kary_costs c cs)]. cbn [length]. apply bill_eq_iff; cbn [b_cons b_aux b_inp b_eqs]; try reflexivity; lia. }
    apply spends_bind in S as (o & u & v & S1 & S2 & ->). destruct o as [o|e]; [|inversion S2].
    destruct (HL _ _ S1) as [-> HO]. destruct o as [l|]; [|inversion S2].
    assert (HC : costs (bindq (ns ("bit " ++ nat_str (st_i s)) (@ab_alloc_conditionally P a l)) (fun a0 : AllocatedBit =>
       Ret (Ok {| st_result := st_result s ++ [a0]; st_last_run := Some l; st_current_run := [];
                  st_found_one := true; st_i := Datatypes.S (st_i s) |}))) (gates 1) (fun s' => pending s' = 1%Z /\ st_found_one s' = true)).
    { eapply costs_ret_bindq; [apply costs_ns, cond_costs|]. intros x _. split; reflexivity. }
    destruct (HC _ _ S2) as (-> & E & F). rewrite E. cbn [one_if]. split; [|split; [lia|exact F]].
    destruct (st_current_run s); [rewrite HO|]; apply bill_eq_iff; cbn [bill_add b_cons b_aux b_inp b_eqs app]; try reflexivity; lia.
Qed.
Lemma strict_loop_spends l : forall i s s' y, match l with [] => st_found_one s = true /\ (1 <= pending s)%Z | x :: _ => orb (st_found_one s) (fst x) = true end ->
  spends (foldq (fun _ => @strict_step P) i s l) (Ok s') y ->
  y = gates (Z.of_nat (length l) + sumz (map (fun x => one_if (fst x)) l) + pending s - pending s')%Z /\ (1 <= pending s')%Z.
Proof.
  induction l as [|[b a] l IH]; intros i s s' y H S; cbn [foldq] in S.
  - inversion S; subst. destruct H as [_ H]. split; [|exact H]. apply bill_eq_iff; cbn [map sumz fold_right length b_cons b_aux b_inp b_eqs bill0]; try reflexivity; lia.
  - apply spends_bind in S as (o & u & v & S1 & S2 & ->). destruct o as [s1|e]; [|inversion S2].
    destruct (strict_step_spends _ _ _ _ _ H S1) as (-> & H1 & F1). apply IH in S2 as [-> H2].
    + split; [|exact H2]. cbn [map fst length]. unfold sumz. cbn [fold_right]. apply bill_eq_iff; cbn [bill_add b_cons b_aux b_inp b_eqs app]; try reflexivity; lia.
    + destruct l; [auto|]. now rewrite F1.
Qed.
(** Number of ones among the bits of [z] below [n]. *)
Definition ones_below (n : nat) (z : Z) : Z := Z.of_nat (length (filter (fun i => Z.testbit z (Z.of_nat i)) (seq 0 n))).
Lemma sum_ones l m : length l = length m -> sumz (map (fun x : bool * option bool => one_if (fst x)) (combine l m)) = Z.of_nat (length (filter (fun b => b) l)).
Proof.
  revert m. induction l as [|b l IH]; intros [|o m] H; try discriminate; [reflexivity|]. cbn [combine map filter fst]. unfold sumz in *. cbn [fold_right].
  rewrite IH by now inversion H. destruct b; cbn [one_if length]; lia.
Qed.
Lemma filter_rev_len {A} (f : A -> bool) l : length (filter f (rev l)) = length (filter f l).
Proof. induction l as [|x l IH]; [reflexivity|]. cbn [rev filter]. rewrite filter_app, app_length, IH. cbn [filter]. destruct (f x); cbn [length]; lia. Qed.
Lemma filter_map_len {A B} (f : B -> bool) (g : A -> B) l : length (filter f (map g l)) = length (filter (fun x => f (g x)) l).
Proof. induction l as [|x l IH]; [reflexivity|]. cbn [map filter]. destruct (f (g x)); cbn [length]; now rewrite IH. Qed.
Lemma strict_costs (a : AllocatedNum P) : let n := (Z.of_nat (num_bits P) + ones_below (num_bits P) (modulus P - 1) - 1)%Z in
  costs (@to_bits_le_strict P a) (mkBill (n + 1) n 0 []) any_result.
Proof.
  cbv zeta. intros r y S. split; [|exact I]. unfold to_bits_le_strict in S. cbv zeta in S.
  apply spends_bind in S as (o & u & v & S1 & S2 & ->). change {| st_result := []; st_last_run := None; st_current_run := []; st_found_one := false; st_i := 0 |} with strict_init in S1.
  rewrite (strict_loop_eq (an_value a)) in S1. destruct o as [s|e]; [|inversion S2]. unfold strict_loop in S1.
  apply strict_loop_spends in S1 as [-> Hp].
  - destruct (st_current_run s) as [|c cs] eqn:Ec; [|inversion S2].
    assert (Ep : pending s = 1%Z) by (unfold pending in *; rewrite Ec in *; cbn [length] in *; destruct (st_last_run s); lia).
    assert (HV : v = mkBill 1 0 0 []).
    { unfold cs_enforce in S2. cbn [bind] in S2. inversion S2; subst. match goal with X : spends (Ret _) _ _ |- _ => inversion X; subst end. reflexivity. }
    rewrite HV, Ep, combine_length, rbits_length, abits_be_length, Nat.min_id, sum_ones by now rewrite rbits_length, abits_be_length.
    assert (EO : Z.of_nat (length (filter (fun b => b) (@rbits P))) = ones_below (num_bits P) (modulus P - 1)).
    { unfold rbits, ones_below. rewrite filter_rev_len, z2le_testbit, filter_map_len. reflexivity. }
    rewrite EO. change (pending strict_init) with 0%Z.
    apply bill_eq_iff; cbn [bill_add b_cons b_aux b_inp b_eqs app]; try reflexivity; lia.
  - destruct (@rbits_head P) as [t Ht]. pose proof (@rbits_length P) as Hl. pose proof (abits_be_length (an_value a)) as Ha. rewrite Ht in *.
    destruct (abits_be (an_value a)) as [|x l]; cbn [length] in *; [lia|]. reflexivity.
Qed.

(** An addition with its own MultiEq. *)
Definition settled (w : UInt32) : bool := uconst w && match u_value w with Some _ => true | None => false end.
Lemma addmany_any l : costs (@addmany P l) (fbill (add_fee (length l) (negb (forallb settled l)))) any_result.
Proof.
  destruct (forallb settled l) eqn:E; cbn [negb].
  - eapply costs_mono; [exact (fun _ _ => I)|]. apply (addmany_costs false). cbn [ops]. rewrite forallb_forall in E. apply Forall_forall. intros w Hw.
    specialize (E w Hw). unfold settled in E. apply andb_true_iff in E as [E1 E2]. split; [exact E1|]. destruct (u_value w); [discriminate|discriminate E2].
  - destruct (forallb uconst l) eqn:Ec.
    + unfold addmany.
      destruct (Nat.leb 64 (num_bits P)); cbn [negb]; [|apply costs_panic].
      destruct (Nat.leb_spec 2 (length l)) as [H2|]; cbn [negb]; [|apply costs_panic].
      destruct (Nat.leb_spec (length l) 10) as [H10|]; cbn [negb]; [|apply costs_panic].
      rewrite (add_fold l), Ec. cbn [andb]. set (lc := snd (fst _)). clearbody lc.
      pose proof (add_size (length l) ltac:(lia)) as Hs. set (m := Z.to_pos _) in *. clearbody m.
      assert (Eo : oadd (Some 0%Z) (osum (map u_value l)) = None).
      { assert (Ho : osum (map u_value l) = None); [|now rewrite Ho]. destruct (osum (map u_value l)) eqn:Eo; [exfalso|reflexivity].
        assert (Hn : osum (map u_value l) <> None) by congruence. apply osum_known in Hn. rewrite Forall_map, Forall_forall in Hn.
        rewrite forallb_forall in Ec. assert (Ht : forallb settled l = true); [|congruence]. apply forallb_forall. intros w Hw. unfold settled.
        rewrite (Ec w Hw). specialize (Hn w Hw). destruct (u_value w); [reflexivity|congruence]. }
      rewrite Eo. cbn [option_map]. unfold add_fee. rewrite <- Hs.
      apply (costs_eq _ (bill_add (fbill (Z.of_nat (Pos.size_nat m), [])) (fbill (0%Z, [Pos.size_nat m])))).
      { apply bill_eq_iff; cbn [bill_add fbill fst snd b_cons b_aux b_inp b_eqs app]; try reflexivity; lia. }
      eapply costs_bindq; [apply add_loop_costs|]. cbv beta. intros [[rb rl] ri] (nb & _ & _ & Hi). cbn [fst snd app Nat.add] in *. subst ri.
      unfold cs_enforce_equal. cbn [bind]. change (fbill (0%Z, [Pos.size_nat m])) with (bill_eq (Pos.size_nat m) bill0).
      apply costs_Eq, costs_ret. exact I.
    + eapply costs_mono; [exact (fun _ _ => I)|]. apply (addmany_costs true). cbn [ops]. clear E. induction l as [|w l IH]; [discriminate|].
      cbn [forallb] in Ec. destruct (uconst w) eqn:Ew; [destruct (IH Ec) as (x & Hx & Hc); exists x; split; [now right|exact Hc]|exists w; split; [now left|exact Ew]].
Qed.
Lemma addmany_scope_costs l : costs (multieq_scope (@addmany P l))
  (if forallb settled l then bill0 else mkBill (Z.of_nat (add_width (length l)) + 1) (Z.of_nat (add_width (length l))) 0 []) any_result.
Proof.
  assert (Hw : add_width (length l) <= 36 /\ 0 < add_width (length l)) by (unfold add_width; repeat destruct (Nat.leb _ _); lia).
  destruct (Nat.leb_spec 64 (num_bits P)) as [H64|H64].
  - eapply costs_eq; [|apply costs_scope, addmany_any]. destruct (forallb settled l); cbn [negb add_fee]; [reflexivity|].
    unfold bill_scope, fbill. cbn [fst snd b_cons b_aux b_inp b_eqs groups]. rewrite Nat.add_0_l.
    assert (E : Nat.leb (capacity P) (add_width (length l)) = false) by (apply Nat.leb_gt; unfold capacity; lia). rewrite E.
    assert (E' : Nat.ltb 0 (add_width (length l)) = true) by (apply Nat.ltb_lt; lia). rewrite E'. reflexivity.
  - intros r y S. apply scope_spends in S as (z & S & _). unfold addmany in S. assert (E : Nat.leb 64 (num_bits P) = false) by (apply Nat.leb_gt; lia).
    rewrite E in S. cbn [negb] in S. inversion S.
Qed.
End Strict.
