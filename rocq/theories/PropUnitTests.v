(** * C80: the unit tests of the gadgets pass
    The tests of num.rs, lookup.rs, multipack.rs and uint32.rs, as modelled in UnitTests.v, return for whatever their random number
    generators draw, over any field meeting what is said below; where a draw can make a test panic, it is said exactly which. *)
From Coq Require Import ZArith List Bool Lia String.
From Verif Require Import Prelude PrimeField Circuit BooleanGadget NumGadget UInt32 UInt32Proof TestCS UnitTests UnitTestsProof UnitTestsProof2 UnitTestsProof3 UnitTestsProof4 StrictTest Zp Fields Bls.
Import ListNotations.
Local Open Scope nat_scope.

(** A word drawn by [next_u32] *)
Definition is_u32 (z : Z) : Prop := (0 <= z < 2 ^ 32)%Z.

(** num.rs, the tests with fixed numbers: they return unless the wrong value that is put in is right. *)
Theorem C80_num (P : PrimeField) : @test_allocated_num P = Done tt /\
  (forall n w : P, (test_num_squaring n w = Done tt <-> w <> fmul n n) /\ (test_num_squaring n w = Panicked <-> w = fmul n n)) /\
  (forall n m w : P, (test_num_multiplication n m w = Done tt <-> w <> fmul n m) /\ (test_num_multiplication n m w = Panicked <-> w = fmul n m)) /\
  (forall draw : nat -> P, test_num_conditional_reversal draw = Done tt) /\
  (forall n w : P, (test_num_nonzero n w = Done tt <-> n <> fzero /\ fmul n w <> fone) /\ (test_num_nonzero n w = Panicked <-> n = fzero \/ fmul n w = fone)).
Proof.
  split; [apply allocated_num|].
  split; [intros n w; rewrite num_squaring; destruct (feqb w (fmul n n)) eqn:E; [apply feqb_eq in E|apply feqb_neq in E]; (split; split; intros; congruence)|].
  split; [intros n m w; rewrite num_multiplication; destruct (feqb w (fmul n m)) eqn:E; [apply feqb_eq in E|apply feqb_neq in E]; (split; split; intros; congruence)|].
  split; [apply num_reversal|]. intros n w. rewrite num_nonzero.
  destruct (feqb n fzero) eqn:E; [apply feqb_eq in E|apply feqb_neq in E].
  - split; split; intros H; try discriminate; auto. destruct H; contradiction.
  - destruct (feqb (fmul n w) fone) eqn:E2; [apply feqb_eq in E2|apply feqb_neq in E2]; (split; split; intros H; try discriminate; auto); destruct H; contradiction.
Qed.
Print Assumptions C80_num.

(** num.rs [test_into_bits]: it returns unless in one of its 200 rounds the same number is drawn twice. *)
Theorem C80_into_bits (P : PrimeField) (draw : nat -> P * P) : repr_bits P = S (num_bits P) ->
  (test_into_bits draw = Done tt <-> forall i, i < 200 -> snd (draw i) <> fst (draw i)) /\
  (test_into_bits draw = Panicked <-> exists i, i < 200 /\ snd (draw i) = fst (draw i)).
Proof.
  intros HR. unfold test_into_bits.
  assert (X : forall n k, (each k n (fun i => into_bits_round i (fst (draw i)) (snd (draw i))) = Done tt /\ forall i, k <= i < k + n -> snd (draw i) <> fst (draw i)) \/
    (each k n (fun i => into_bits_round i (fst (draw i)) (snd (draw i))) = Panicked /\ exists i, k <= i < k + n /\ snd (draw i) = fst (draw i))).
  { induction n as [|n IH]; intros k; cbn [each]; [left; split; [reflexivity|intros; lia]|].
    rewrite into_bits_ok by exact HR. destruct (feqb (snd (draw k)) (fst (draw k))) eqn:E; cbn [obind].
    - right. split; [reflexivity|]. exists k. split; [lia|now apply feqb_eq].
    - apply feqb_neq in E. destruct (IH (S k)) as [[-> H]|[-> (i & Hi & H)]]; [left|right]; (split; [reflexivity|]).
      + intros i Hi. destruct (Nat.eq_dec i k) as [->|]; [exact E|]. apply H. lia.
      + exists i. split; [lia|exact H]. }
  destruct (X 200 0) as [[-> H]|[-> (i & Hi & H)]]; split; split; intros Y; try discriminate; try reflexivity.
  - intros i Hi. apply H. lia.
  - destruct Y as (i & Hi & Y). elim (H i); [lia|exact Y].
  - elim (Y i); [lia|exact H].
  - exists i. split; [lia|exact H].
Qed.
Print Assumptions C80_into_bits.

(** lookup.rs, and multipack.rs for every list of bits *)
Theorem C80_lookup (P : PrimeField) : (forall coins (draw : nat -> nat -> P * P), test_lookup3_xy coins draw = Done tt) /\
  (forall coins (draw : nat -> nat -> P * P), test_lookup3_xy_with_conditional_negation coins draw = Done tt) /\
  (forall draw : nat -> P, test_synth draw = Done tt).
Proof. split; [exact lookup3_xy_test|split; [exact lookup3_neg_test|exact synth_test]]. Qed.
Print Assumptions C80_lookup.
Theorem C80_multipack (P : PrimeField) : (forall draw, @test_multipacking P draw = Done tt) /\ (forall bits, @multipack_round P bits = Done tt).
Proof. split; [exact multipack_test|exact multipack_ok]. Qed.
Print Assumptions C80_multipack.

(** uint32.rs *)
Definition three (draw : nat -> Z * Z * Z) : Prop := forall i, let '(a, b, c) := draw i in is_u32 a /\ is_u32 b /\ is_u32 c.
Theorem C80_uint32 (P : PrimeField) : (forall draw, test_uint32_from_bits_be draw = Done tt) /\ (forall draw, test_uint32_from_bits draw = Done tt) /\
  (forall draw, three draw -> @test_uint32_xor P draw = Done tt) /\
  (forall draw, three draw -> @test_uint32_sha256_maj P draw = Done tt) /\ (forall draw, three draw -> @test_uint32_sha256_ch P draw = Done tt) /\
  (forall num, is_u32 num -> test_uint32_rotr num = Done tt) /\ (forall draw, (forall k i, is_u32 (draw k i)) -> test_uint32_shr draw = Done tt).
Proof.
  assert (X : forall draw, three draw -> forall i, u32 (fst (fst (draw i))) /\ u32 (snd (fst (draw i))) /\ u32 (snd (draw i))).
  { intros draw H i. specialize (H i). destruct (draw i) as [[a b] c]. exact H. }
  split; [exact from_bits_be_test|]. split; [exact from_bits_test|]. split; [intros d H; exact (xor_test d (X d H))|]. split; [intros d H; exact (maj_test d (X d H))|].
  split; [intros d H; exact (ch_test d (X d H))|]. split; [exact rotr_test|exact shr_test].
Qed.
Print Assumptions C80_uint32.
(** The tests of [addmany] return if the field has 64 bits, and panic if it has not, whatever is drawn. *)
Definition four (draw : nat -> Z * Z * Z * Z) : Prop := forall i, let '(a, b, c, d) := draw i in is_u32 a /\ is_u32 b /\ is_u32 c /\ is_u32 d.
Theorem C80_addmany (P : PrimeField) :
  (64 <= num_bits P -> (forall draw, three draw -> @test_uint32_addmany_constants P draw = Done tt) /\ (forall draw, four draw -> @test_uint32_addmany P draw = Done tt)) /\
  (num_bits P < 64 -> (forall draw, @test_uint32_addmany_constants P draw = Panicked) /\ (forall draw, @test_uint32_addmany P draw = Panicked)).
Proof.
  split.
  - intros H64. split; [|intros draw H; apply addmany_test; assumption]. intros draw H. apply addmany_constants_test; [exact H64|]. intros i. specialize (H i). destruct (draw i) as [[a b] c]. exact H.
  - intros H64. split; [intros draw; apply addmany_constants_narrow, H64|intros draw; apply addmany_narrow, H64].
Qed.
Print Assumptions C80_addmany.

(** num.rs:526-545: the bits of [-1] satisfy the system, and with the last bit that was allocated set to one the first constraint that fails is the
    one of that bit. Over every field; [Scalar] has 255 bits, the last one allocated is "bit 254". *)
Theorem C80_strict (P : PrimeField) : @test_into_bits_strict P = Done tt.
Proof. apply strict_test. Qed.
Print Assumptions C80_strict.

(** ** Examples *)
(** The scalar field of BLS12-381, over which the tests are run, is as the theorems ask, and the numbers the tests have are wrong where they should be. *)
Example C80_ex_bls : repr_bits BlsScalar = S (num_bits BlsScalar) /\ 64 <= num_bits BlsScalar /\ test_num_squaring (ofZ 3 : BlsScalar) (ofZ 10) = Done tt /\
  test_num_multiplication (ofZ 12 : BlsScalar) (ofZ 10) (ofZ 121) = Done tt /\ test_num_nonzero (ofZ 3 : BlsScalar) (ofZ 3) = Done tt.
Proof.
  assert (R : repr_bits BlsScalar = S (num_bits BlsScalar)) by reflexivity. assert (B : num_bits BlsScalar = 255) by reflexivity.
  split; [exact R|]. split; [rewrite B; lia|]. destruct (C80_num BlsScalar) as (_ & H1 & H2 & _ & H3).
  split; [apply H1|split; [apply H2|apply H3; split]]; apply feqb_neq; vm_compute; reflexivity.
Qed.
(** Draws that make [test_into_bits] fail: in its round 7 the second number is the first once more. *)
Example C80_ex_flaky : test_into_bits (fun i => (ofZ (Z.of_nat i) : BlsScalar, if Nat.eqb i 7 then ofZ 7 else fadd (ofZ (Z.of_nat i)) fone)) = Panicked.
Proof. destruct (C80_into_bits BlsScalar (fun i => (ofZ (Z.of_nat i), if Nat.eqb i 7 then ofZ 7 else fadd (ofZ (Z.of_nat i)) fone)) eq_refl) as [_ H]. apply H. exists 7. split; [lia|reflexivity]. Qed.
(** Rounds computed: the lookup with negation, a packing and an exclusive or. *)
Example C80_ex_rounds : lookup3_neg_round 1 0 1 (map (fun z => (ofZ z, ofZ (z + 5))) [10; 20; 30; 40]%Z : list (Fr64513 * Fr64513)) = Done tt /\
  @multipack_round Fr64513 (repeat true 20) = Done tt /\ shr_round 3735928559 33 = Done tt.
Proof. vm_compute. auto. Qed.
(** [test_into_bits_strict] computed over two small fields: the first constraint that fails is the one of the last bit. *)
Example C80_ex_strict : @test_into_bits_strict Fr64513 = Done tt /\ @test_into_bits_strict Goldilocks = Done tt.
Proof. vm_compute. auto. Qed.
