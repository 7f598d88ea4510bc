(** * C82: the unit tests of the bits and of the testing constraint system pass
    The tests of boolean.rs and of test/mod.rs, as modelled in BoolTests.v, return over every field; those with numbers in them
    return exactly for the numbers said below.  Beside it: what the tables in the tests say, and what the tests do not see. *)
From Coq Require Import ZArith List Bool Lia String.
From Verif Require Import Prelude PrimeField Circuit BooleanGadget TestCS UnitTests BoolTests BoolTestsProof Zp Fields Bls.
Import ListNotations.
Local Open Scope nat_scope.
Local Open Scope string_scope.

(** The tests without numbers *)
Theorem C82_tests (P : PrimeField) : @test_allocated_bit P = Done tt /\
  @test_xor P = Done tt /\ @test_and P = Done tt /\ @test_and_not P = Done tt /\ @test_nor P = Done tt /\
  @test_enforce_equal P = Done tt /\ @test_boolean_negation P = Done tt /\ @test_boolean_xor P = Done tt /\ @test_boolean_and P = Done tt /\
  @test_boolean_sha256_ch P = Done tt /\ @test_boolean_sha256_maj P = Done tt /\ @test_alloc_conditionally P = Done tt.
Proof.
  split; [apply allocated_bit_test|].
  split; [do 2 (apply all_done; intros ?); apply xor_round|]. split; [do 2 (apply all_done; intros ?); apply and_round|].
  split; [do 2 (apply all_done; intros ?); apply and_not_round|]. split; [do 2 (apply all_done; intros ?); apply nor_round|].
  split; [apply equal_test|]. split; [apply negation_test|].
  split; [do 2 (apply all_done; intros ?); apply xor_table_round|]. split; [do 2 (apply all_done; intros ?); apply and_table_round|].
  split; [do 3 (apply all_done; intros ?); apply ch_round|]. split; [do 3 (apply all_done; intros ?); apply maj_round|apply conditionally_test].
Qed.
Print Assumptions C82_tests.

(** The tests of conversions: position [i] of the list has to be bit [i] of the number. *)
Theorem C82_bits (P : PrimeField) (checks : list (nat * bool)) :
  (forall v : Z, (test_u64_into_boolean_vec_le (P := P) v checks = Done tt <-> forall i b, In (i, b) checks -> i < 64 /\ Z.testbit v (Z.of_nat i) = b) /\
    (test_u64_into_boolean_vec_le (P := P) v checks = Panicked <-> exists i b, In (i, b) checks /\ (64 <= i \/ Z.testbit v (Z.of_nat i) <> b))) /\
  (forall r : P, (test_field_into_allocated_bits_le r checks = Done tt <-> forall i b, In (i, b) checks -> i < num_bits P /\ Z.testbit (toZ r) (Z.of_nat i) = b) /\
    (test_field_into_allocated_bits_le r checks = Panicked <-> exists i b, In (i, b) checks /\ (num_bits P <= i \/ Z.testbit (toZ r) (Z.of_nat i) <> b))).
Proof.
  assert (X : forall n z, let o := if forallb (right n z) checks then Done tt else Panicked in
    (o = Done tt <-> forall i b, In (i, b) checks -> i < n /\ Z.testbit z (Z.of_nat i) = b) /\
    (o = Panicked <-> exists i b, In (i, b) checks /\ (n <= i \/ Z.testbit z (Z.of_nat i) <> b))).
  { intros n z. cbv zeta.
    assert (Y : forall i b, right n z (i, b) = true <-> i < n /\ Z.testbit z (Z.of_nat i) = b).
    { intros i b. unfold right. cbn [fst snd]. rewrite andb_true_iff, Nat.ltb_lt, eqb_true_iff. tauto. }
    destruct (forallb (right n z) checks) eqn:E.
    - rewrite forallb_forall in E. assert (E' : forall i b, In (i, b) checks -> i < n /\ Z.testbit z (Z.of_nat i) = b) by (intros i b H; apply Y, E, H).
      split; [tauto|]. split; [discriminate|]. intros (i & b & H & Hb). destruct (E' i b H) as [H1 H2]. destruct Hb as [Hb|Hb]; [lia|contradiction].
    - assert (E' : exists x, In x checks /\ right n z x = false).
      { clear Y. induction checks as [|x l IH]; [discriminate|]. cbn [forallb] in E. destruct (right n z x) eqn:Ex; [|exists x; split; [now left|exact Ex]].
        destruct (IH E) as (y & Hy & Hr). exists y. split; [now right|exact Hr]. }
      destruct E' as ([i b] & Hi & Hr).
      split; split; try discriminate; try reflexivity.
      + intros H. specialize (H i b Hi). apply Y in H. congruence.
      + intros _. exists i, b. split; [exact Hi|]. destruct (Nat.le_gt_cases n i) as [|Hlt]; [now left|right]. intros Eb. assert (right n z (i, b) = true) by (apply Y; split; [lia|exact Eb]). congruence. }
  split; [intros v; rewrite u64_test|intros r; rewrite field_test]; apply X.
Qed.
Print Assumptions C82_bits.

(** The test of the testing constraint system, for any numbers *)
Theorem C82_cs (P : PrimeField) (a b product a' product' : P) :
  test_cs a b product a' product' = Done tt <-> product = fmul a b /\ product <> fmul a' b /\ product' = fmul a' b /\ a' = b.
Proof.
  rewrite cs_test. destruct (feqb_spec (fmul a b) product), (feqb_spec (fmul a' b) product), (feqb_spec (fmul a' b) product'), (feqb_spec a' b); cbn [andb negb];
    (split; [intros H; try discriminate H; repeat split; congruence|intros (H1 & H2 & H3 & H4); try reflexivity; exfalso; congruence]).
Qed.
Print Assumptions C82_cs.

(** The two tables of the tests, against the truth tables: the bit they expect is the exclusive or, or the conjunction, of the bits given. *)
Definition bit_of (e : expected) : option bool :=
  match e with
  | EConst b | EIs (Some (_, b)) => Some b
  | ENot (Some (_, b)) => Some (negb b)
  | EIs None | ENot None => None
  end.
Theorem C82_tables (x y : OperandType) :
  (bit_of (xor_table x y) = None \/ bit_of (xor_table x y) = Some (xorb (o_val x) (o_val y))) /\
  (bit_of (and_table x y) = None \/ bit_of (and_table x y) = Some (o_val x && o_val y)) /\
  (bit_of (xor_table x y) = None <-> o_is_constant x <> o_is_constant y).
Proof. destruct x, y; cbn; repeat split; intros; auto; try discriminate; try congruence. Qed.
Print Assumptions C82_tables.

(** What the tests do not see.  They try one wrong value for the result only, the other bit.  The gadgets refuse every value that is not the result: *)
Definition set_result {P : PrimeField} (op : AllocatedBit -> AllocatedBit -> prog P (res AllocatedBit)) (name : string) (a b : bool) (w : P) : outcome bool :=
  do (_, cs) <- circuit (bindq (ns "a" (ab_alloc (Some a))) (fun a => bindq (ns "b" (ab_alloc (Some b))) (fun b => op a b)));
  do cs <- t_set cs name w; is_satisfied cs.
Theorem C82_forced (P : PrimeField) (a b : bool) (w : P) :
  set_result ab_xor "xor result" a b w = Done (feqb w (fbit (xorb a b))) /\
  set_result ab_and "and result" a b w = Done (feqb w (fbit (a && b))) /\
  set_result ab_and_not "and not result" a b w = Done (feqb w (fbit (a && negb b))) /\
  set_result ab_nor "nor result" a b w = Done (feqb w (fbit (negb a && negb b))).
Proof. split; [exact (forced_xor a b w)|]. split; [exact (forced_and a b w)|]. split; [exact (forced_and_not a b w)|exact (forced_nor a b w)]. Qed.
Print Assumptions C82_forced.
(** but a gadget that does not would pass the test: c * (c + 1) = 2 a b has c = -1 as well if a b = 0. *)
Definition weak_and {P : PrimeField} (a b : AllocatedBit) : prog P (res AllocatedBit) :=
  let v := match ab_value a, ab_value b with Some x, Some y => Some (x && y) | _, _ => None end in
  let f : res P := match v with Some x => Ok (fbit x) | None => Err AssignmentMissing end in
  bindq (cs_alloc "product" f) (fun t => bind (cs_enforce "product constraint" [(ab_var a, fone)] [(ab_var b, fone)] [(fst t, fone)]) (fun _ =>
  bindq (cs_alloc "and result" f) (fun c => bind (cs_enforce "and constraint" [(fst c, fone)] [(fst c, fone); (one_var, fone)] [(fst t, fadd fone fone)]) (fun _ =>
  Ret (Ok {| ab_var := fst c; ab_value := v |}))))).
Theorem C82_blind (P : PrimeField) : test_two_bits (P := P) weak_and "and result" andb = Done tt /\
  set_result (P := P) weak_and "and result" false true (fneg fone) = Done true /\ (fneg fone : P) <> fzero /\ (fneg fone : P) <> fone.
Proof. exact blind. Qed.
Print Assumptions C82_blind.

(** ** Examples *)
(** The numbers of the tests, over the field the tests are run with: 17234652694787248421 and a scalar with 253 bits. *)
Example C82_ex_numbers : test_u64_into_boolean_vec_le (P := BlsScalar) 17234652694787248421
    [(63, true); (62, true); (61, true); (60, false); (59, true); (58, true); (43, true); (42, false); (41, false)] = Done tt /\
  num_bits BlsScalar = 255 /\
  test_field_into_allocated_bits_le (ofZ 9147677615426976802526883532204139322118074541891858454835346926874644257775 : BlsScalar)
    [(254, false); (253, false); (252, true); (251, false); (250, true); (249, false); (234, true); (231, true)] = Done tt /\
  test_cs (ofZ 10 : BlsScalar) (ofZ 4) (ofZ 40) (ofZ 4) (ofZ 16) = Done tt.
Proof.
  split; [|split; [reflexivity|split]].
  - rewrite u64_test. vm_compute. reflexivity.
  - rewrite field_test. vm_compute. reflexivity.
  - rewrite cs_test. vm_compute. reflexivity.
Qed.
(** Rounds computed over a small field; the test of conversions with a wrong bit; what is in the tables. *)
Example C82_ex_rounds : three_round (P := Fr64513) b_maj "maj" (fun a b c => xorb (xorb (a && b) (a && c)) (b && c)) AllocatedTrue NegatedAllocatedFalse AllocatedFalse = Done tt /\
  test_u64_into_boolean_vec_le (P := Fr64513) 5 [(0, true); (1, true)] = Panicked /\
  xor_table NegatedAllocatedTrue AllocatedTrue = ENot (Some ("xor result", false)) /\ and_table AllocatedTrue NegatedAllocatedFalse = EIs (Some ("and not result", true)).
Proof. vm_compute. auto. Qed.
