(** The contract of [ff::PrimeField] / [PrimeFieldBits] (external crate), as a record.
    Every theorem about circuits is for an arbitrary value of this record. *)
From Coq Require Import ZArith List Bool Lia Znumtheory Field_theory Field.
From Verif Require Import Prelude.
Import ListNotations.
Open Scope Z_scope.

(** [k]-fold repeated squaring. *)
Fixpoint sqn {A : Type} (mul : A -> A -> A) (x : A) (k : nat) : A :=
  match k with O => x | S j => sqn mul (mul x x) j end.

Record PrimeField := mkPrimeField {
  F :> Type;
  fzero : F; fone : F;
  fadd : F -> F -> F; fmul : F -> F -> F; fsub : F -> F -> F; fneg : F -> F;
  (** total multiplicative inverse; [Field::invert] is [finvert] below *)
  finv : F -> F;
  feqb : F -> F -> bool;
  (** [MODULUS] / characteristic *)
  modulus : Z;
  (** canonical representative and reduction ([From<u64>], [from_repr]) *)
  toZ : F -> Z; ofZ : Z -> F;
  (** [PrimeField::NUM_BITS] *)
  num_bits : nat;
  (** bit length of [PrimeFieldBits::ReprBits] *)
  repr_bits : nat;
  (** [PrimeField::S] *)
  two_adicity : nat;
  (** [PrimeField::ROOT_OF_UNITY] *)
  root_of_unity : F;
  (** [PrimeField::MULTIPLICATIVE_GENERATOR] *)
  generator : F;

  (* laws *)
  F_field : field_theory fzero fone fadd fmul fsub fneg (fun x y => fmul x (finv y)) finv eq;
  feqb_eq : forall x y, feqb x y = true <-> x = y;
  modulus_prime : prime modulus;
  toZ_range : forall x, 0 <= toZ x < modulus;
  ofZ_toZ : forall x, ofZ (toZ x) = x;
  toZ_ofZ : forall z, toZ (ofZ z) = z mod modulus;
  ofZ_add : forall a b, ofZ (a + b) = fadd (ofZ a) (ofZ b);
  ofZ_mul : forall a b, ofZ (a * b) = fmul (ofZ a) (ofZ b);
  ofZ_1 : ofZ 1 = fone;
  num_bits_pos : (0 < num_bits)%nat;
  num_bits_lo : 2 ^ (Z.of_nat num_bits - 1) <= modulus;
  num_bits_hi : modulus < 2 ^ Z.of_nat num_bits;
  repr_bits_ge : (num_bits <= repr_bits)%nat;
  two_adicity_pos : (0 < two_adicity)%nat;
  (** the root of unity has order exactly 2^S *)
  root_order : sqn fmul root_of_unity (two_adicity - 1) = fneg fone;
  (** the multiplicative generator is a quadratic non-residue *)
  generator_nonresidue : forall x, fmul x x <> generator
}.

Arguments fzero {_}. Arguments fone {_}. Arguments fadd {_}. Arguments fmul {_}.
Arguments fsub {_}. Arguments fneg {_}. Arguments finv {_}. Arguments feqb {_}.
Arguments toZ {_}. Arguments ofZ {_}.

Declare Scope F_scope.
Delimit Scope F_scope with F.
Bind Scope F_scope with F.
Notation "0" := fzero : F_scope.
Notation "1" := fone : F_scope.
Notation "x + y" := (fadd x y) : F_scope.
Notation "x * y" := (fmul x y) : F_scope.
Notation "x - y" := (fsub x y) : F_scope.
Notation "- x" := (fneg x) : F_scope.

(** [PrimeField::CAPACITY] = NUM_BITS - 1 (ff documentation: the number of bits that can be
    stored in every element). *)
Definition capacity (P : PrimeField) : nat := num_bits P - 1.

(** [Field::invert]. *)
Definition finvert {P : PrimeField} (x : P) : option P :=
  if feqb x fzero then None else Some (finv x).

(** [Field::double]. *)
Definition fdouble {P : PrimeField} (x : P) : P := fadd x x.

(** [Field::pow_vartime] with a natural exponent. *)
Fixpoint fpow {P : PrimeField} (x : P) (n : nat) : P :=
  match n with O => fone | S m => fmul x (fpow x m) end.

(** [PrimeFieldBits::to_le_bits]: the canonical representative, [repr_bits] bits, LE. *)
Definition to_le_bits {P : PrimeField} (x : P) : list bool := z2le (repr_bits P) (toZ x).

(** [PrimeFieldBits::char_le_bits]. *)
Definition char_le_bits (P : PrimeField) : list bool := z2le (repr_bits P) (modulus P).

(** A boolean as a field element. *)
Definition fbit {P : PrimeField} (b : bool) : P := if b then fone else fzero.

Section Facts.
Context {P : PrimeField}.
Local Open Scope F_scope.
Add Field PFfield : (F_field P).

Lemma modulus_pos : (1 < modulus P)%Z.
Proof. pose proof (prime_ge_2 _ (modulus_prime P)). lia. Qed.

Lemma f_1_neq_0 : (1 : P) <> 0.
Proof. exact (F_1_neq_0 (F_field P)). Qed.

Lemma feqb_refl (x : P) : feqb x x = true.
Proof. now apply feqb_eq. Qed.

Lemma feqb_neq (x y : P) : feqb x y = false <-> x <> y.
Proof.
  destruct (feqb x y) eqn:E; split; intros H; try congruence.
  - apply feqb_eq in E. congruence.
  - intros ->. rewrite feqb_refl in E. congruence.
Qed.

Lemma feqb_spec (x y : P) : reflect (x = y) (feqb x y).
Proof.
  destruct (feqb x y) eqn:E; constructor; [now apply feqb_eq | now apply feqb_neq].
Qed.

Lemma feq_dec (x y : P) : {x = y} + {x <> y}.
Proof. destruct (feqb_spec x y); [left|right]; auto. Qed.

Lemma toZ_inj (x y : P) : toZ x = toZ y -> x = y.
Proof. intros H. rewrite <- (ofZ_toZ P x), <- (ofZ_toZ P y), H. reflexivity. Qed.

Lemma toZ_ofZ_small z : (0 <= z < modulus P)%Z -> toZ (ofZ z : P) = z.
Proof. intros. rewrite toZ_ofZ. now apply Z.mod_small. Qed.

Lemma ofZ_inj_small a b : (0 <= a < modulus P)%Z -> (0 <= b < modulus P)%Z ->
  (ofZ a : P) = ofZ b -> a = b.
Proof.
  intros Ha Hb H. rewrite <- (toZ_ofZ_small a Ha), <- (toZ_ofZ_small b Hb), H. reflexivity.
Qed.

Lemma ofZ_congr a b : (a mod modulus P = b mod modulus P)%Z <-> (ofZ a : P) = ofZ b.
Proof.
  split; intros H.
  - apply toZ_inj. now rewrite !toZ_ofZ.
  - rewrite <- !toZ_ofZ, H. reflexivity.
Qed.

Lemma ofZ_0 : (ofZ 0 : P) = 0.
Proof.
  assert (H : (ofZ 0 : P) + ofZ 0 = ofZ 0) by now rewrite <- ofZ_add.
  transitivity ((ofZ 0 : P) + ofZ 0 - ofZ 0); [ring|]. rewrite H. ring.
Qed.

Lemma ofZ_neg a : (ofZ (- a) : P) = - ofZ a.
Proof.
  assert (H : (ofZ (- a) : P) + ofZ a = 0).
  { rewrite <- ofZ_add. replace (- a + a)%Z with 0%Z by lia. apply ofZ_0. }
  transitivity ((ofZ (- a) : P) + ofZ a - ofZ a); [ring|]. rewrite H. ring.
Qed.

Lemma ofZ_sub a b : (ofZ (a - b) : P) = ofZ a - ofZ b.
Proof.
  replace (a - b)%Z with (a + - b)%Z by lia. rewrite ofZ_add, ofZ_neg. ring.
Qed.

Lemma ofZ_b2z b : (ofZ (Z.b2z b) : P) = fbit b.
Proof. destruct b; cbn [Z.b2z fbit]; [apply ofZ_1 | apply ofZ_0]. Qed.

Lemma toZ_0 : toZ (0 : P) = 0%Z.
Proof. rewrite <- ofZ_0. apply toZ_ofZ_small. pose proof modulus_pos; lia. Qed.

Lemma toZ_1 : toZ (1 : P) = 1%Z.
Proof. rewrite <- (ofZ_1 P). apply toZ_ofZ_small. pose proof modulus_pos; lia. Qed.

Lemma fmul_0 (x y : P) : x * y = 0 -> x = 0 \/ y = 0.
Proof.
  intros H. destruct (feq_dec x 0); [now left|]. right.
  transitivity (finv x * (x * y)).
  - field; auto.
  - rewrite H. ring.
Qed.

Lemma finv_l (x : P) : x <> 0 -> finv x * x = 1.
Proof. intros. field; auto. Qed.

Lemma finv_r (x : P) : x <> 0 -> x * finv x = 1.
Proof. intros. field; auto. Qed.

Lemma finv_neq_0 (x : P) : x <> 0 -> finv x <> 0.
Proof.
  intros H E. apply f_1_neq_0. rewrite <- (finv_l x H), E. ring.
Qed.

Lemma fmul_cancel_l (x y z : P) : x <> 0 -> x * y = x * z -> y = z.
Proof.
  intros Hx H. transitivity (finv x * (x * y)); [field; auto|]. rewrite H. field; auto.
Qed.

Lemma fsub_0_eq (x y : P) : x - y = 0 <-> x = y.
Proof.
  split; intros H; [|subst; ring].
  transitivity (x - y + y); [ring|]. rewrite H. ring.
Qed.

Lemma fbit_inj b c : (fbit b : P) = fbit c -> b = c.
Proof.
  destruct b, c; cbn; intros H; auto; exfalso; [apply f_1_neq_0 | apply f_1_neq_0]; auto.
Qed.

(** ** Powers *)
Lemma fpow_0 (x : P) : fpow x 0 = 1. Proof. reflexivity. Qed.
Lemma fpow_S (x : P) n : fpow x (S n) = x * fpow x n. Proof. reflexivity. Qed.
Lemma fpow_1 (x : P) : fpow x 1 = x. Proof. cbn. ring. Qed.
Lemma fpow_add (x : P) a b : fpow x (a + b) = fpow x a * fpow x b.
Proof. induction a; cbn [Nat.add fpow]; [ring|]. rewrite IHa. ring. Qed.
Lemma fpow_mul (x : P) a b : fpow x (a * b) = fpow (fpow x a) b.
Proof.
  induction b; cbn [fpow]; [now rewrite Nat.mul_0_r|].
  rewrite Nat.mul_succ_r, Nat.add_comm, fpow_add, IHb. reflexivity.
Qed.
Lemma fpow_one n : fpow (1 : P) n = 1.
Proof. induction n; cbn [fpow]; auto. rewrite IHn. ring. Qed.
Lemma fpow_mul_base (x y : P) n : fpow (x * y) n = fpow x n * fpow y n.
Proof. induction n; cbn [fpow]; [ring|]. rewrite IHn. ring. Qed.
Lemma fpow_neq_0 (x : P) n : x <> 0 -> fpow x n <> 0.
Proof.
  intros Hx. induction n; cbn [fpow]; [apply f_1_neq_0|].
  intros H. apply fmul_0 in H. tauto.
Qed.

Lemma sqn_fpow (x : P) k : sqn fmul x k = fpow x (2 ^ k).
Proof.
  revert x; induction k; intros x; cbn [sqn]; [now rewrite fpow_1|].
  rewrite IHk. cbn [Nat.pow]. rewrite fpow_mul. f_equal. cbn. ring.
Qed.

Lemma sqn_S_out (x : P) k : sqn fmul x (S k) = sqn fmul x k * sqn fmul x k.
Proof.
  rewrite !sqn_fpow. rewrite <- fpow_add. f_equal. cbn [Nat.pow]. lia.
Qed.

Lemma sqn_add (x : P) j k : sqn fmul x (j + k) = sqn fmul (sqn fmul x j) k.
Proof. rewrite !sqn_fpow, Nat.pow_add_r, fpow_mul. reflexivity. Qed.

Lemma fsq_1 (x : P) : x * x = 1 -> x = 1 \/ x = - (1).
Proof.
  intros H. assert (E : (x - 1) * (x + 1) = 0) by (transitivity (x * x - 1); [ring|rewrite H; ring]).
  apply fmul_0 in E as [E|E].
  - left. transitivity (x - 1 + 1); [ring|]. rewrite E. ring.
  - right. transitivity (x + 1 - 1); [ring|]. rewrite E. ring.
Qed.

(** An element whose order is a power of two below 2^S is a square. *)
Lemma two_power_torsion_square k : forall x : P, (k < two_adicity P)%nat ->
  sqn fmul x k = 1 -> exists y, y * y = x.
Proof.
  induction k; intros x Hk H.
  - cbn in H. subst. exists 1. ring.
  - rewrite sqn_S_out in H. apply fsq_1 in H as [H|H]; [apply IHk; auto; lia|].
    set (w := sqn fmul (root_of_unity P) (two_adicity P - 1 - k)).
    assert (Hw : sqn fmul w k = - (1)).
    { unfold w. rewrite <- sqn_add.
      replace (two_adicity P - 1 - k + k)%nat with (two_adicity P - 1)%nat by lia.
      apply root_order. }
    assert (Hsq : exists v, v * v = w).
    { exists (sqn fmul (root_of_unity P) (two_adicity P - 2 - k)).
      rewrite <- sqn_S_out. unfold w. f_equal. lia. }
    destruct (IHk (x * w)) as [y Hy]; [lia| |].
    + rewrite sqn_fpow, fpow_mul_base, <- !sqn_fpow, H, Hw. ring.
    + destruct Hsq as [v Hv].
      assert (Hw0 : w <> 0).
      { intros E. rewrite E in Hw. rewrite sqn_fpow in Hw.
        destruct (2 ^ k)%nat eqn:E2; [apply Nat.pow_nonzero in E2; auto; lia|].
        cbn in Hw. apply f_1_neq_0. transitivity (- - (1 : P)); [ring|]. rewrite <- Hw. ring. }
      assert (Hv0 : v <> 0) by (intros E; subst v; apply Hw0; rewrite <- Hv; ring).
      exists (y * finv v).
      transitivity (y * y * finv v * finv v); [ring|]. rewrite Hy, <- Hv. field. auto.
Qed.

Lemma generator_torsion k : (k < two_adicity P)%nat -> fpow (generator P) (2 ^ k) <> 1.
Proof.
  intros Hk H. rewrite <- sqn_fpow in H. apply two_power_torsion_square in H as [y Hy]; auto.
  now apply (generator_nonresidue P) in Hy.
Qed.

Lemma generator_neq_0 : generator P <> 0.
Proof.
  intros E. apply (generator_nonresidue P 0). rewrite E. ring.
Qed.

Lemma modulus_odd : Z.odd (modulus P) = true.
Proof.
  destruct (Z.odd (modulus P)) eqn:E; auto. exfalso.
  assert (E2 : modulus P = 2%Z).
  { pose proof (modulus_prime P) as Hp. rewrite <- Z.negb_even in E.
    apply negb_false_iff in E. apply Z.even_spec in E as [k Hk].
    assert (H2 : (2 | modulus P)%Z) by (exists k; lia).
    apply prime_divisors in H2; auto. destruct H2 as [H|[H|[H|H]]]; pose proof modulus_pos; lia. }
  pose proof (toZ_range P (generator P)) as Hr. rewrite E2 in Hr.
  apply (generator_nonresidue P (generator P)).
  rewrite <- (ofZ_toZ P (generator P)), <- ofZ_mul. f_equal.
  assert (toZ (generator P) = 0 \/ toZ (generator P) = 1)%Z as [-> | ->] by lia; reflexivity.
Qed.

(** ** Two as a field element, powers of two *)
Lemma ofZ_2 : (ofZ 2 : P) = 1 + 1.
Proof. change 2%Z with (1 + 1)%Z. now rewrite ofZ_add, ofZ_1. Qed.

Lemma ofZ_pow2_S n : (ofZ (2 ^ Z.of_nat (S n)) : P) = fdouble (ofZ (2 ^ Z.of_nat n)).
Proof.
  rewrite pow2_S. rewrite ofZ_mul, ofZ_2. unfold fdouble. ring.
Qed.

Lemma ofZ_pow2_0 : (ofZ (2 ^ Z.of_nat 0) : P) = 1.
Proof. change (2 ^ Z.of_nat 0)%Z with 1%Z. apply ofZ_1. Qed.

(** ** Bit representation *)
Lemma pow2_capacity : (2 ^ Z.of_nat (capacity P) <= modulus P)%Z.
Proof.
  pose proof (num_bits_lo P). pose proof (num_bits_pos P). unfold capacity.
  replace (Z.of_nat (num_bits P - 1)) with (Z.of_nat (num_bits P) - 1)%Z by lia. auto.
Qed.

Lemma modulus_repr : (modulus P < 2 ^ Z.of_nat (repr_bits P))%Z.
Proof.
  pose proof (num_bits_hi P). pose proof (repr_bits_ge P).
  eapply Z.lt_le_trans; [eassumption|]. apply Z.pow_le_mono_r; lia.
Qed.

Lemma le2z_to_le_bits (x : P) : le2z (to_le_bits x) = toZ x.
Proof.
  apply le2z_z2le_small. pose proof (toZ_range P x). pose proof modulus_repr. lia.
Qed.

Lemma le2z_char_le_bits : le2z (char_le_bits P) = modulus P.
Proof.
  apply le2z_z2le_small. pose proof modulus_pos. pose proof modulus_repr. lia.
Qed.

End Facts.
