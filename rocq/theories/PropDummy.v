(** Properties C51, C52: the field of the test engine (groth16/src/tests/dummy_engine.rs). *)
From Coq Require Import ZArith List Bool Lia Znumtheory Zpow_facts.
From Verif Require Import Prelude PrimeField Zp Pocklington Fields FModule Groth16 DummyField.
Import ListNotations.
Open Scope Z_scope.

(** A reduced residue. *)
Definition residue (x : Z) : Prop := 0 <= x < 64513.

(** * C51: wrapping 32-bit arithmetic implements the field of integers modulo 64513 *)

Theorem C51_arithmetic x y : residue x -> residue y ->
  fr_add x y = (x + y) mod 64513 /\ fr_sub x y = (x - y) mod 64513 /\ fr_mul x y = (x * y) mod 64513 /\
  fr_neg x = (- x) mod 64513 /\ fr_square x = (x * x) mod 64513 /\ fr_double x = (x + x) mod 64513.
Proof.
  intros Hx Hy. repeat split; auto using fr_add_eq, fr_sub_eq, fr_mul_eq, fr_neg_eq, fr_square_eq.
  rewrite fr_double_eq by auto. f_equal. lia.
Qed.
Print Assumptions C51_arithmetic.

(** Every operation yields a reduced residue, so the hypotheses above hold of all values that are ever computed. *)
Theorem C51_closed x y e word v : residue x -> residue y -> 0 <= e < 2 ^ 64 -> 0 <= word < 2 ^ 32 -> 0 <= v < 2 ^ 64 ->
  residue (fr_add x y) /\ residue (fr_sub x y) /\ residue (fr_mul x y) /\ residue (fr_neg x) /\ residue (fr_square x) /\
  residue (fr_double x) /\ residue (fr_pow x e) /\ residue (fr_random word) /\ residue (fr_from_u64 v).
Proof.
  intros Hx Hy He Hw Hv. unfold residue. repeat split;
    rewrite ?fr_add_eq, ?fr_sub_eq, ?fr_mul_eq, ?fr_neg_eq, ?fr_square_eq, ?fr_double_eq, ?fr_pow_eq by auto;
    unfold fr_random, fr_from_u64, MODULUS_R; rewrite ?wrap32_small by (pose proof (Z.mod_pos_bound v 64513); lia);
    try (apply Z.mod_pos_bound; lia).
Qed.
Print Assumptions C51_closed.

Theorem C51_pow x e : residue x -> 0 <= e < 2 ^ 64 -> fr_pow x e = (x ^ e) mod 64513.
Proof. apply fr_pow_eq. Qed.
Print Assumptions C51_pow.

Theorem C51_invert x : residue x ->
  (x = 0 -> fr_invert x = None) /\ (x <> 0 -> exists y, fr_invert x = Some y /\ residue y /\ (x * y) mod 64513 = 1).
Proof.
  intros Hx. unfold fr_invert, fr_is_zero, MODULUS_R. split; [now intros ->|]. intros N. destruct (Z.eqb_spec x 0); [contradiction|].
  eexists. split; [reflexivity|]. assert (He : 0 <= 64513 - 2 < 2 ^ 64) by lia. split; [now apply fr_pow_reduced|].
  rewrite fr_pow_eq by auto. rewrite Z.mul_mod_idemp_r by lia. rewrite <- Z.pow_succ_r by lia. now apply fermat_M.
Qed.
Print Assumptions C51_invert.

(** The operations are those of the field [Fr64513] that the other examples use. *)
Theorem C51_contract (x y : Fr64513) :
  fr_add (toZ x) (toZ y) = toZ (fadd x y) /\ fr_sub (toZ x) (toZ y) = toZ (fsub x y) /\ fr_mul (toZ x) (toZ y) = toZ (fmul x y) /\
  fr_neg (toZ x) = toZ (fneg x) /\ fr_double (toZ x) = toZ (fdouble x) /\ fr_invert (toZ x) = option_map toZ (finvert x) /\
  fr_to_le_bits (toZ x) = to_le_bits x /\ fr_char_le_bits = char_le_bits Fr64513 /\
  FR_NUM_BITS = Z.of_nat (num_bits Fr64513) /\ FR_CAPACITY = Z.of_nat (capacity Fr64513) /\ FR_S = Z.of_nat (two_adicity Fr64513) /\
  FR_ROOT_OF_UNITY = toZ (root_of_unity Fr64513) /\ FR_GENERATOR = toZ (generator Fr64513).
Proof.
  assert (Hx : reduced (toZ x)) by exact (toZ_range Fr64513 x). assert (Hy : reduced (toZ y)) by exact (toZ_range Fr64513 y).
  split; [now apply fr_add_eq|]. split; [now apply fr_sub_eq|]. split; [now apply fr_mul_eq|]. split; [now apply fr_neg_eq|].
  split; [rewrite fr_double_eq by auto; replace (2 * toZ x) with (toZ x + toZ x) by lia; reflexivity|].
  split.
  - unfold fr_invert, finvert, fr_is_zero. change (feqb x fzero) with (Z.eqb (toZ x) 0). destruct (Z.eqb (toZ x) 0); [reflexivity|].
    cbn [option_map]. f_equal. unfold MODULUS_R. rewrite fr_pow_eq by (auto; lia). change (toZ (finv x)) with (powmod 64513 (toZ x) (64513 - 2) mod 64513).
    rewrite powmod_spec by lia. now rewrite Zmod_mod.
  - repeat split.
Qed.
Print Assumptions C51_contract.

(** The constants: 2 * TWO_INV = 1; the root of unity is g^((p-1)/2^S) and has order exactly 2^S; its inverse; DELTA = g^(2^S); and g
    generates the whole multiplicative group: no smaller power is one. *)
Theorem C51_constants :
  (2 * FR_TWO_INV) mod 64513 = 1 /\ 64513 - 1 = 2 ^ FR_S * 63 /\ Z.odd 63 = true /\
  FR_ROOT_OF_UNITY = (FR_GENERATOR ^ 63) mod 64513 /\ (FR_ROOT_OF_UNITY * FR_ROOT_OF_UNITY_INV) mod 64513 = 1 /\
  FR_DELTA = (FR_GENERATOR ^ (2 ^ FR_S)) mod 64513 /\
  (FR_ROOT_OF_UNITY ^ (2 ^ FR_S)) mod 64513 = 1 /\ (FR_ROOT_OF_UNITY ^ (2 ^ (FR_S - 1))) mod 64513 = 64512 /\
  2 ^ (FR_NUM_BITS - 1) <= 64513 < 2 ^ FR_NUM_BITS /\ FR_CAPACITY = FR_NUM_BITS - 1.
Proof.
  assert (P5 : forall e, 0 <= e -> (FR_GENERATOR ^ e) mod 64513 = powmod 64513 5 e) by (intros; symmetry; apply powmod_spec; lia).
  assert (PR : forall e, 0 <= e -> (FR_ROOT_OF_UNITY ^ e) mod 64513 = powmod 64513 57751 e) by (intros; symmetry; apply powmod_spec; lia).
  rewrite !P5, !PR by (unfold FR_S; lia). unfold FR_NUM_BITS. repeat split; try lia; vm_compute; reflexivity.
Qed.
Print Assumptions C51_constants.

Theorem C51_generator k : 0 < k < 64512 -> (FR_GENERATOR ^ k) mod 64513 <> 1.
Proof.
  unfold FR_GENERATOR. intros Hk E.
  assert (E5 : 5 ^ 64512 mod 64513 = 1 mod 64513) by (rewrite (fermat_M 5 ltac:(unfold reduced; lia) ltac:(lia)); reflexivity).
  change 1 with (1 mod 64513) in E.
  pose proof (pow_one_gcd 64513 5 k 64512 eq_refl (proj1 Hk) eq_refl E E5) as Eg. clear E E5. remember (Z.gcd k 64512) as g eqn:Dg.
  assert (Hg : 0 < g) by (pose proof (Z.gcd_nonneg k 64512); assert (g <> 0) by (rewrite Dg; intros A; apply Z.gcd_eq_0_r in A; lia); lia).
  assert (Dk : (g | k)) by (rewrite Dg; apply Z.gcd_divide_l). assert (D : (g | 64512)) by (rewrite Dg; apply Z.gcd_divide_r). clear Dg.
  assert (Hgk : g <= k) by (apply Z.divide_pos_le; [lia|auto]). destruct D as [q Eq].
  assert (Hq : 1 < q) by nia.
  assert (N : forall r, 0 < r -> (r * (64512 / r) = 64512) -> powmod 64513 5 (64512 / r) <> 1 -> ~ (r | q)).
  { intros r Hr Er Nr [c Ec]. apply Nr. assert (Ex : 64512 / r = g * c) by (clear Eg Nr; nia). assert (Hc : 0 <= c) by (clear Eg Nr; nia).
    rewrite Ex. rewrite powmod_spec; [|reflexivity|clear Eg Nr; nia]. change 1 with (1 mod 64513). apply (pow_one_mul 64513 5 g c eq_refl); [clear Eg Nr; lia|exact Hc|exact Eg]. }
  clear Eg.
  assert (N2 := N 2 ltac:(lia) eq_refl ltac:(vm_compute; discriminate)).
  assert (N3 := N 3 ltac:(lia) eq_refl ltac:(vm_compute; discriminate)).
  assert (N7 := N 7 ltac:(lia) eq_refl ltac:(vm_compute; discriminate)).
  assert (P7 : prime 7) by (apply (trial_prime 7 1); [lia|reflexivity|vm_compute; reflexivity]).
  assert (R : forall r, prime r -> ~ (r | q) -> rel_prime q r) by (intros r Pr Nr; apply rel_prime_sym, prime_rel_prime; auto).
  assert (D : (q | 2 ^ 10 * (3 ^ 2 * 7))) by (exists g; change (2 ^ 10 * (3 ^ 2 * 7)) with 64512; lia).
  apply Gauss in D; [|apply rel_prime_Zpower_r; [lia|]; apply R; auto using prime_2].
  apply Gauss in D; [|apply rel_prime_Zpower_r; [lia|]; apply R; auto using prime_3].
  pose proof (R 7 P7 N7) as R7. assert (X : (q | 1)) by (apply (Gauss q 7 1); [now rewrite Z.mul_1_r|exact R7]).
  apply Z.divide_1_r_nonneg in X; lia.
Qed.
Print Assumptions C51_generator.

(** Representations: the canonical one is read back; exactly the 8-byte strings below the modulus are accepted; bits. *)
Theorem C51_to_repr x : residue x ->
  List.length (fr_to_repr x) = 8%nat /\ Forall (fun b => 0 <= b < 256) (fr_to_repr x) /\ fr_from_repr (fr_to_repr x) = Some x.
Proof.
  intros Hx. unfold residue in Hx. split; [apply le_bytes_length|]. split.
  - unfold fr_to_repr. generalize 8%nat, x. intros n. induction n as [|n IH]; intros v; cbn [le_bytes]; constructor; auto. apply Z.mod_pos_bound. lia.
  - unfold fr_from_repr, fr_to_repr. rewrite of_le_bytes_le_bytes by (change (256 ^ Z.of_nat 8) with (2 ^ 64); lia).
    unfold MODULUS_R. destruct (Z.leb_spec 64513 x); [lia|]. now rewrite wrap32_small by lia.
Qed.
Print Assumptions C51_to_repr.

Theorem C51_from_repr bs : List.length bs = 8%nat -> Forall (fun b => 0 <= b < 256) bs ->
  match fr_from_repr bs with
  | Some x => residue x /\ fr_to_repr x = bs /\ x = of_le_bytes bs
  | None => 64513 <= of_le_bytes bs
  end.
Proof.
  intros L H. unfold fr_from_repr, MODULUS_R. pose proof (of_le_bytes_range bs H). destruct (Z.leb_spec 64513 (of_le_bytes bs)); auto.
  rewrite wrap32_small by lia. split; [unfold residue; lia|]. split; auto. unfold fr_to_repr. rewrite <- L. now apply le_bytes_of_le_bytes.
Qed.
Print Assumptions C51_from_repr.

Theorem C51_bits x : residue x -> List.length (fr_to_le_bits x) = 64%nat /\ le2z (fr_to_le_bits x) = x /\ fr_is_odd x = Z.odd x.
Proof.
  intros Hx. split; [apply z2le_length|]. split; [apply le2z_z2le_small; unfold residue in Hx; change (2 ^ Z.of_nat 64) with (2 ^ 64); lia|].
  unfold fr_is_odd. rewrite Zmod_odd. destruct (Z.odd x); reflexivity.
Qed.
Print Assumptions C51_bits.

(** The pairing is the product, a multi-Miller loop the sum of the products. *)
Theorem C51_pairing (terms : list (Z * Z)) : Forall (fun ab => residue (fst ab) /\ residue (snd ab)) terms ->
  fr_multi_miller_loop terms = (fold_right (fun ab s => fst ab * snd ab + s) 0 terms) mod 64513.
Proof.
  intros H. unfold fr_multi_miller_loop.
  assert (G : forall acc, reduced acc -> fold_left (fun acc ab => fr_add acc (fr_mul (fst ab) (snd ab))) terms acc =
     (acc + fold_right (fun ab s => fst ab * snd ab + s) 0 terms) mod 64513).
  { induction H as [|[a b] l [Ha Hb] _ IH]; intros acc Hacc; cbn [fold_left fold_right fst snd] in *.
    - rewrite Z.add_0_r. symmetry. now apply Z.mod_small.
    - rewrite IH by apply mod_reduced. rewrite fr_add_eq by (auto using mul_reduced). rewrite fr_mul_eq by auto.
      rewrite Z.add_mod_idemp_r, Z.add_mod_idemp_l by lia. f_equal. ring. }
  rewrite G by (unfold reduced; lia). f_equal.
Qed.
Print Assumptions C51_pairing.

Example C51_ex : fr_mul 64512 64512 = 1 /\ fr_sub 3 5 = 64511 /\ fr_neg 0 = 0 /\ fr_invert 2 = Some 32257 /\ fr_double 40000 = 15487 /\
  fr_from_repr [0; 252; 0; 0; 0; 0; 0; 0] = Some 64512 /\ fr_from_repr [1; 252; 0; 0; 0; 0; 0; 0] = None /\
  fr_from_repr [0; 0; 0; 0; 1; 0; 0; 0] = None /\ fr_multi_miller_loop [(3, 5); (64512, 7)] = 8.
Proof. vm_compute. repeat split. Qed.

(** * C52: square roots *)

(** A nonzero square: a root is found, in at most ten rounds. *)
Theorem C52_square x y fuel : residue x -> x <> 0 -> residue y -> (y * y) mod 64513 = x -> (10 < fuel)%nat ->
  exists r, fr_sqrt fuel x = Some (Done (Some r)) /\ residue r /\ (r * r) mod 64513 = x.
Proof.
  intros Hx N Hy E Hf. destruct (euler_sqrt x fuel Hx) as (r & Er & Hr & Sr); auto.
  - apply (residue_p2 x y); auto. now rewrite fr_mul_eq.
  - exists r. rewrite fr_mul_eq in Sr by auto. auto.
Qed.
Print Assumptions C52_square.

(** False in general: the square root of zero is zero, but the inner loop never ends; ... *)
Theorem C52_zero_refuted : exists x, residue x /\ (0 * 0) mod 64513 = x /\ forall fuel, fr_sqrt fuel x = None.
Proof. exists 0. split; [unfold residue; lia|]. split; [reflexivity|]. apply sqrt_zero. Qed.
Print Assumptions C52_zero_refuted.

(** ... and where the answer should be "no root", the computation of [m - i - 1] underflows: for every non-residue. *)
Theorem C52_nonresidue_panics x fuel : residue x -> (forall y, residue y -> (y * y) mod 64513 <> x) -> (10 < fuel)%nat -> fr_sqrt fuel x = Some Panicked.
Proof.
  intros Hx NR Hf. apply sqrt_nonresidue; auto.
  - intros ->. apply (NR 0); [unfold residue; lia|reflexivity].
  - intros y Hy. rewrite fr_mul_eq by auto. now apply NR.
Qed.
Print Assumptions C52_nonresidue_panics.

Example C52_ex : fr_sqrt 11 4 = Some (Done (Some 2)) \/ fr_sqrt 11 4 = Some (Done (Some 64511)).
Proof. vm_compute. tauto. Qed.
Example C52_ex_panics : fr_sqrt 11 5 = Some Panicked /\ fr_sqrt 50 0 = None.
Proof. vm_compute. split; reflexivity. Qed.
