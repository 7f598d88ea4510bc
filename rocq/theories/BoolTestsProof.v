(** Unit tests of the bits: auxiliary lemmas. *)
From Coq Require Import String Ascii.
From Coq Require Import ZArith List Bool Lia Field.
From Verif Require Import Prelude PrimeField Loops BooleanGadget TestCS Scope ScopeRun Names NamesGadgets UnitTests UnitTestsProof BoolTests.
From Verif Require Import Circuit.
Import ListNotations.
Local Open Scope nat_scope.

Section Proofs.
Context {P : PrimeField}.
Local Open Scope F_scope.
Local Open Scope string_scope.
Add Field PFbooltest : (F_field P).

Lemma two_not_0 : (1 + 1 : P) <> 0.
Proof.
  rewrite <- ofZ_2, <- ofZ_0. intros H. apply ofZ_inj_small in H; [discriminate| |]; pose proof (modulus_pos (P := P)); pose proof (modulus_odd (P := P)) as O.
  - assert (modulus P <> 2)%Z by (intros E; rewrite E in O; discriminate). lia.
  - lia.
Qed.
Lemma feqb_yes (x y : P) : x = y -> feqb x y = true. Proof. intros ->. apply feqb_refl. Qed.
Lemma feqb_no (d x y : P) : d <> 0 -> x - y = d -> feqb x y = false.
Proof. intros H E. apply feqb_neq. intros ->. apply H. rewrite <- E. ring. Qed.
Lemma neg_not_0 (x : P) : x <> 0 -> - x <> 0.
Proof. intros H E. apply H. replace x with (- - x) by ring. rewrite E. ring. Qed.
Lemma m1_not_0 : (- (1) : P) <> 0. Proof. apply neg_not_0, f_1_neq_0. Qed.
Lemma m2_not_0 : (- (1 + 1) : P) <> 0. Proof. apply neg_not_0, two_not_0. Qed.

Ltac feq := match goal with |- context [feqb ?a ?b] => first
  [ rewrite (feqb_yes a b) by ring
  | rewrite (feqb_no 1 a b f_1_neq_0) by ring
  | rewrite (feqb_no (- (1)) a b m1_not_0) by ring
  | rewrite (feqb_no (1 + 1) a b two_not_0) by ring
  | rewrite (feqb_no (- (1 + 1)) a b m2_not_0) by ring ] end.

Ltac round := lazy -[fzero fone fadd fsub fmul fneg feqb F]; repeat feq; reflexivity.

Lemma allocated_bit_test : @test_allocated_bit P = Done tt. Proof. round. Qed.
Lemma xor_round a b : two_bits_round (P := P) ab_xor "xor result" xorb a b = Done tt. Proof. destruct a, b; round. Qed.
Lemma and_round a b : two_bits_round (P := P) ab_and "and result" andb a b = Done tt. Proof. destruct a, b; round. Qed.
Lemma and_not_round a b : two_bits_round (P := P) ab_and_not "and not result" (fun a b => andb a (negb b)) a b = Done tt. Proof. destruct a, b; round. Qed.
Lemma nor_round a b : two_bits_round (P := P) ab_nor "nor result" (fun a b => andb (negb a) (negb b)) a b = Done tt. Proof. destruct a, b; round. Qed.
Lemma equal_round ca cb a b na nb : ca && cb = false -> enforce_equal_part (P := P) ca cb a b na nb = Done tt.
Proof. destruct ca, cb; try discriminate; intros _; destruct a, b, na, nb; round. Qed.
Lemma equal_constants_round a b na nb : enforce_equal_constants (P := P) a b na nb = Done tt. Proof. destruct a, b, na, nb; round. Qed.
Lemma negation_test : @test_boolean_negation P = Done tt. Proof. round. Qed.
Lemma xor_table_round x y : table_round (P := P) b_xor xor_table x y = Done tt. Proof. destruct x, y; round. Qed.
Lemma and_table_round x y : table_round (P := P) b_and and_table x y = Done tt. Proof. destruct x, y; round. Qed.
Lemma ch_round x y z : three_round (P := P) b_ch "ch" (fun a b c => xorb (a && b) (negb a && c)) x y z = Done tt. Proof. destruct x, y, z; round. Qed.
Lemma maj_round x y z : three_round (P := P) b_maj "maj" (fun a b c => xorb (xorb (a && b) (a && c)) (b && c)) x y z = Done tt. Proof. destruct x, y, z; round. Qed.
Lemma conditionally_test : @test_alloc_conditionally P = Done tt. Proof. round. Qed.

Lemma all_done {A} (l : list A) (f : A -> outcome unit) : (forall x, f x = Done tt) -> all_of l f = Done tt.
Proof. intros H. induction l as [|x l IH]; cbn [all_of]; [reflexivity|]. now rewrite H. Qed.
Lemma equal_test : @test_enforce_equal P = Done tt.
Proof. unfold test_enforce_equal. do 4 (apply all_done; intros ?). rewrite !equal_round by reflexivity. apply equal_constants_round. Qed.

Lemma cs_test (a b product a' product' : P) : test_cs a b product a' product' =
  if feqb (a * b) product && negb (feqb (a' * b) product) && feqb (a' * b) product' && feqb a' b then Done tt else Panicked.
Proof.
  assert (E : forall x : P, 0 + x * 1 = x) by (intros; ring). assert (E1 : 1 * 1 = (1 : P)) by ring.
  lazy -[fzero fone fadd fsub fmul fneg feqb F andb negb]. rewrite !E, (feqb_refl product), (feqb_refl 1). replace (a' * 1) with a' by ring.
  destruct (feqb (a * b) product); [|reflexivity]. destruct (feqb (a' * b) product); cbn [negb andb].
  - destruct (feqb a' b); reflexivity.
  - destruct (feqb (a' * b) product'); [|reflexivity]. destruct (feqb a' b); reflexivity.
Qed.

(** The result of the gadget of two bits, set to any [w]: *)
Lemma feqb_same (k x y w e : P) : k <> 0 -> x - y = k * (w - e) -> feqb x y = feqb w e.
Proof.
  intros Hk E. destruct (feqb_spec x y) as [->|N], (feqb_spec w e) as [->|M]; try reflexivity; exfalso.
  - assert (Z0 : k * (w - e) = 0) by (rewrite <- E; ring). apply fmul_0 in Z0 as [Z0|Z0]; [contradiction|]. apply M. replace w with (w - e + e) by ring. rewrite Z0. ring.
  - apply N. replace x with (x - y + y) by ring. rewrite E. ring.
Qed.
Definition forced (op : AllocatedBit -> AllocatedBit -> prog P (res AllocatedBit)) (name : string) (a b : bool) (w : P) : outcome bool :=
  do (_, cs) <- circuit (bindq (ns "a" (ab_alloc (Some a))) (fun a => bindq (ns "b" (ab_alloc (Some b))) (fun b => op a b)));
  do cs <- t_set cs name w; is_satisfied cs.
Ltac force w e := lazy -[fzero fone fadd fsub fmul fneg feqb F]; repeat feq;
  match goal with |- context [feqb ?x ?y] => first [ rewrite (feqb_same 1 x y w e f_1_neq_0) by ring | rewrite (feqb_same (- (1)) x y w e m1_not_0) by ring ] end;
  destruct (feqb w e); reflexivity.
Lemma forced_xor a b w : forced ab_xor "xor result" a b w = Done (feqb w (fbit (xorb a b))).
Proof. destruct a, b; [force w (0 : P)|force w (1 : P)|force w (1 : P)|force w (0 : P)]. Qed.
Lemma forced_and a b w : forced ab_and "and result" a b w = Done (feqb w (fbit (andb a b))).
Proof. destruct a, b; [force w (1 : P)|force w (0 : P)|force w (0 : P)|force w (0 : P)]. Qed.
Lemma forced_and_not a b w : forced ab_and_not "and not result" a b w = Done (feqb w (fbit (andb a (negb b)))).
Proof. destruct a, b; [force w (0 : P)|force w (1 : P)|force w (0 : P)|force w (0 : P)]. Qed.
Lemma forced_nor a b w : forced ab_nor "nor result" a b w = Done (feqb w (fbit (andb (negb a) (negb b)))).
Proof. destruct a, b; [force w (0 : P)|force w (0 : P)|force w (0 : P)|force w (1 : P)]. Qed.

(** A gadget that leaves its result open and passes the test *)
Definition open_and (a b : AllocatedBit) : prog P (res AllocatedBit) :=
  let v := match ab_value a, ab_value b with Some x, Some y => Some (x && y) | _, _ => None end in
  let f : res P := match v with Some x => Ok (fbit x) | None => Err AssignmentMissing end in
  bindq (cs_alloc "product" f) (fun t => bind (cs_enforce "product constraint" [(ab_var a, fone)] [(ab_var b, fone)] [(fst t, fone)]) (fun _ =>
  bindq (cs_alloc "and result" f) (fun c => bind (cs_enforce "and constraint" [(fst c, fone)] [(fst c, fone); (one_var, fone)] [(fst t, fadd fone fone)]) (fun _ =>
  Ret (Ok {| ab_var := fst c; ab_value := v |}))))).
Lemma blind : test_two_bits open_and "and result" andb = Done tt /\ forced open_and "and result" false true (- (1)) = Done true /\ - (1) <> (0 : P) /\ - (1) <> (1 : P).
Proof.
  split; [do 2 (apply all_done; intros []); round|]. split; [round|]. split; [exact m1_not_0|]. intros H. apply two_not_0. rewrite <- H at 1. ring.
Qed.

(** ** Numbers to bits *)
Definition right (n : nat) (z : Z) (ib : nat * bool) : bool := Nat.ltb (fst ib) n && Bool.eqb (Z.testbit z (Z.of_nat (fst ib))) (snd ib).
Lemma nth_z n z i : nth_error (z2le n z) i = if Nat.ltb i n then Some (Z.testbit z (Z.of_nat i)) else None.
Proof.
  destruct (Nat.ltb_spec i n).
  - rewrite <- (nth_z2le n z i) by assumption. apply nth_error_nth'. now rewrite z2le_length.
  - apply nth_error_None. now rewrite z2le_length.
Qed.
Lemma all_right {A} (value : A -> option bool) l n z checks : Forall2 (fun x b => value x = Some b) l (z2le n z) ->
  all_of checks (fun ib => do x <- unwrap_o (nth_error l (fst ib)); do v <- unwrap_o (value x); assert (Bool.eqb v (snd ib))) = if forallb (right n z) checks then Done tt else Panicked.
Proof.
  intros H. assert (X : forall i, match nth_error l i with Some x => value x = nth_error (z2le n z) i | None => nth_error (z2le n z) i = None end).
  { induction H as [|x b l m Hx _ IH]; intros [|i]; cbn; auto. exact (IH i). }
  induction checks as [|[i b] checks IH]; [reflexivity|]. cbn [all_of fst snd forallb]. rewrite IH. clear IH. specialize (X i). rewrite nth_z in X.
  assert (R : right n z (i, b) = Nat.ltb i n && Bool.eqb (Z.testbit z (Z.of_nat i)) b) by reflexivity. rewrite R. clear R.
  destruct (nth_error l i) as [x|]; cbn [unwrap_o obind].
  - rewrite X. destruct (Nat.ltb i n); cbn [unwrap_o obind andb]; [|reflexivity]. destruct (Bool.eqb _ b); cbn [assert obind andb]; reflexivity.
  - destruct (Nat.ltb i n); [discriminate|]. reflexivity.
Qed.
Lemma u64_test v checks : test_u64_into_boolean_vec_le (P := P) v checks = if forallb (right 64 v) checks then Done tt else Panicked.
Proof.
  unfold test_u64_into_boolean_vec_le.
  destruct (test_run (P := P) (u64_into_boolean_vec_le (Some v)) (fam "bit ") (fun rho r => Forall2 (bit_hon rho) r (z2le 64 v))) as (bits & s & cs & -> & Hs & Hb & Hsat & _).
  - struct.
  - apply weak, u64_u.
  - intros H. ns_.
  - intros rho H1. now apply u64_into_boolean_vec_le_complete.
  - intros K K1. eapply wpK_mono; [|apply scop_wpK, u64_scop; assumption]. intros [r|e] _; exact I.
  - cbn [obind]. rewrite (satisfied_ok _ (ok_satisfied _ Hs Hsat)). cbn [obind]. rewrite (Forall2_length _ _ _ Hb), z2le_length. cbn [Nat.eqb assert obind].
    apply all_right. clear -Hb. induction Hb as [|x b l m [_ Hx] _ IH]; constructor; assumption.
Qed.
Lemma field_test (r : P) checks : test_field_into_allocated_bits_le r checks = if forallb (right (num_bits P) (toZ r)) checks then Done tt else Panicked.
Proof.
  unfold test_field_into_allocated_bits_le.
  destruct (test_run (P := P) (field_into_allocated_bits_le P (Some r)) (fam "bit ") (fun rho l => Forall2 (abit_hon rho) l (z2le (num_bits P) (toZ r)))) as (bits & s & cs & -> & Hs & Hb & Hsat & _).
  - struct.
  - apply weak, field_bits_u.
  - intros H. ns_.
  - intros rho H1. now apply field_into_allocated_bits_le_complete.
  - intros K K1. eapply wpK_mono; [|apply scop_wpK, field_bits_scop; assumption]. intros [x|e] _; exact I.
  - cbn [obind]. rewrite (satisfied_ok _ (ok_satisfied _ Hs Hsat)). cbn [obind]. rewrite (Forall2_length _ _ _ Hb), z2le_length, Nat.eqb_refl. cbn [assert obind].
    apply all_right. clear -Hb. induction Hb as [|x b l m [_ Hx] _ IH]; constructor; assumption.
Qed.
End Proofs.
