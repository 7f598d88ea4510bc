(** The integers modulo a prime form a [PrimeField]; Fermat's little theorem. *)
From Coq Require Import ZArith List Bool Lia Znumtheory Zpow_facts Field_theory Ring_theory Permutation Eqdep_dec.
From Verif Require Import Prelude PrimeField.
Import ListNotations.
Open Scope Z_scope.

(** Modular exponentiation by squaring. *)
Fixpoint powmod_pos (m x : Z) (e : positive) : Z :=
  match e with
  | xH => x mod m
  | xO q => let y := powmod_pos m x q in (y * y) mod m
  | xI q => let y := powmod_pos m x q in (((y * y) mod m) * x) mod m
  end.

Definition powmod (m x e : Z) : Z :=
  match e with
  | Zpos q => powmod_pos m x q
  | _ => 1 mod m
  end.

Lemma powmod_pos_spec m x e : 0 < m -> powmod_pos m x e = (x ^ Zpos e) mod m.
Proof.
  intros Hm. induction e; cbn [powmod_pos].
  - rewrite IHe. rewrite <- Z.mul_mod by lia.
    rewrite Zmult_mod_idemp_l. f_equal.
    rewrite Pos2Z.inj_xI, Z.pow_add_r, Z.pow_twice_r by lia. ring.
  - rewrite IHe. rewrite <- Z.mul_mod by lia. f_equal.
    rewrite Pos2Z.inj_xO, Z.pow_twice_r. reflexivity.
  - now rewrite Z.pow_1_r.
Qed.

Lemma powmod_spec m x e : 0 < m -> 0 <= e -> powmod m x e = (x ^ e) mod m.
Proof.
  intros Hm He. destruct e; cbn [powmod]; [reflexivity|now apply powmod_pos_spec|lia].
Qed.

Definition zprod (l : list Z) : Z := fold_right Z.mul 1 l.

Lemma zprod_perm l l' : Permutation l l' -> zprod l = zprod l'.
Proof. induction 1; cbn in *; [auto|now f_equal|ring|congruence]. Qed.

Lemma zprod_map_mul a l : zprod (map (Z.mul a) l) = a ^ Z.of_nat (length l) * zprod l.
Proof.
  induction l as [|x t IH]; [reflexivity|].
  cbn [map length zprod fold_right] in *. rewrite Nat2Z.inj_succ, Z.pow_succ_r by lia.
  change (fold_right Z.mul 1 (map (Z.mul a) t)) with (zprod (map (Z.mul a) t)). rewrite IH.
  unfold zprod. ring.
Qed.

Lemma zprod_map_mod p l : 0 < p -> zprod (map (fun x => x mod p) l) mod p = zprod l mod p.
Proof.
  intros Hp. induction l as [|x t IH]; [reflexivity|].
  cbn [map zprod fold_right] in *. rewrite Zmult_mod. 
  change (fold_right Z.mul 1 (map (fun x0 : Z => x0 mod p) t)) with (zprod (map (fun x0 : Z => x0 mod p) t)).
  change (fold_right Z.mul 1 t) with (zprod t) in *. unfold zprod at 1 in IH.
  unfold zprod at 1. rewrite IH, Zmod_mod, <- Zmult_mod. reflexivity.
Qed.

Lemma fermat_little p a : prime p -> ~ (p | a) -> a ^ (p - 1) mod p = 1.
Proof.
  intros Hp Ha. pose proof (prime_ge_2 p Hp) as Hp2.
  set (L := map Z.of_nat (seq 1 (Z.to_nat (p - 1)))).
  assert (HinL : forall x, In x L <-> 1 <= x < p).
  { intros x. unfold L. rewrite in_map_iff. split.
    - intros (n & <- & Hn). apply in_seq in Hn. lia.
    - intros Hx. exists (Z.to_nat x). rewrite in_seq. lia. }
  assert (HND : NoDup L).
  { unfold L. apply FinFun.Injective_map_NoDup; [|apply seq_NoDup].
    intros x y; lia. }
  assert (Hlen : length L = Z.to_nat (p - 1)) by (unfold L; now rewrite map_length, seq_length).
  set (M := map (fun x => x mod p) (map (Z.mul a) L)).
  assert (HMND : NoDup M).
  { unfold M. rewrite map_map. unfold L. rewrite map_map.
    apply NoDup_nth with (d := 0). intros i j Hi Hj Hij.
    rewrite map_length, seq_length in Hi, Hj.
    rewrite !nth_map_seq in Hij by auto.
    assert (Hd : (p | a * (Z.of_nat (1 + i) - Z.of_nat (1 + j)))).
    { rewrite Z.mul_sub_distr_l. apply Z.mod_divide; [lia|].
      rewrite Zminus_mod, Hij, Z.sub_diag. apply Z.mod_0_l. lia. }
    apply prime_mult in Hd as [Hd|Hd]; auto; [contradiction|].
    destruct Hd as [k Hk]. assert (k = 0) by nia. lia. }
  assert (Hperm : Permutation M L).
  { apply NoDup_Permutation_bis; auto.
    - unfold M. rewrite !map_length. lia.
    - intros y Hy. unfold M in Hy. rewrite map_map in Hy. apply in_map_iff in Hy as (x & <- & Hx).
      apply HinL in Hx. apply HinL.
      pose proof (Z.mod_pos_bound (a * x) p). 
      assert ((a * x) mod p <> 0); [|lia].
      intros E. apply Z.mod_divide in E; [|lia]. apply prime_mult in E as [E|E]; auto.
      apply Z.divide_pos_le in E; lia. }
  apply zprod_perm in Hperm.
  assert (E : (a ^ (p - 1) * zprod L) mod p = zprod L mod p).
  { rewrite <- Hperm at 2. unfold M. rewrite zprod_map_mod by lia. rewrite zprod_map_mul.
    rewrite Hlen, Z2Nat.id by lia. reflexivity. }
  assert (Hco : ~ (p | zprod L)).
  { clear - HinL Hp Hp2. assert (H : forall x, In x L -> 1 <= x < p) by (intros; now apply HinL).
    clear HinL. induction L as [|x t IH]; cbn.
    - intros H1. apply Z.divide_1_r in H1. lia.
    - intros H1. apply prime_mult in H1 as [H1|H1]; auto.
      + apply Z.divide_pos_le in H1; [|]; specialize (H x (or_introl eq_refl)); lia.
      + apply IH; auto. intros; apply H; now right. }
  assert (Hd : (p | (a ^ (p - 1) - 1) * zprod L)).
  { rewrite Z.mul_sub_distr_r, Z.mul_1_l. apply Z.mod_divide; [lia|].
    rewrite Zminus_mod, E, Z.sub_diag. apply Z.mod_0_l; lia. }
  apply prime_mult in Hd as [Hd|Hd]; auto; [|contradiction].
  apply Z.mod_divide in Hd; [|lia].
  transitivity (1 mod p); [|apply Z.mod_small; lia].
  replace (a ^ (p - 1)) with ((a ^ (p - 1) - 1) + 1) by lia.
  rewrite Zplus_mod, Hd. rewrite Z.add_0_l, Zmod_mod. reflexivity.
Qed.

Section ZpField.
Variable p : Z.
Hypothesis p_prime : prime p.

Let p2 : 2 <= p := prime_ge_2 p p_prime.

Definition inrange (z : Z) : bool := (0 <=? z) && (z <? p).
Definition Zp : Type := { z : Z | inrange z = true }.
Definition zval (x : Zp) : Z := proj1_sig x.

Lemma zval_range x : 0 <= zval x < p.
Proof. destruct x as [z H]. cbn. unfold inrange in H. lia. Qed.

Lemma zval_inj x y : zval x = zval y -> x = y.
Proof.
  destruct x as [x Hx], y as [y Hy]. cbn. intros <-. f_equal. apply UIP_dec, bool_dec.
Qed.

Lemma mod_inrange z : inrange (z mod p) = true.
Proof. unfold inrange. pose proof (Z.mod_pos_bound z p). lia. Qed.

Definition zmk (z : Z) : Zp := exist _ (z mod p) (mod_inrange z).

Lemma zval_mk z : zval (zmk z) = z mod p. Proof. reflexivity. Qed.
Lemma zmk_val x : zmk (zval x) = x.
Proof. apply zval_inj. rewrite zval_mk. apply Z.mod_small, zval_range. Qed.

Definition zp_add x y := zmk (zval x + zval y).
Definition zp_mul x y := zmk (zval x * zval y).
Definition zp_sub x y := zmk (zval x - zval y).
Definition zp_neg x := zmk (- zval x).
Definition zp_inv x := zmk (powmod p (zval x) (p - 2)).
Definition zp_eqb x y := Z.eqb (zval x) (zval y).

Lemma zmk_eq a b : a mod p = b mod p -> zmk a = zmk b.
Proof. intros. apply zval_inj. now rewrite !zval_mk. Qed.

Ltac zp := intros; unfold zp_add, zp_mul, zp_sub, zp_neg; apply zval_inj; rewrite ?zval_mk.

Lemma zmk_add a b : zmk (a + b) = zp_add (zmk a) (zmk b).
Proof. zp. now rewrite <- Zplus_mod. Qed.
Lemma zmk_mul a b : zmk (a * b) = zp_mul (zmk a) (zmk b).
Proof. zp. now rewrite <- Zmult_mod. Qed.

Lemma zp_field :
  field_theory (zmk 0) (zmk 1) zp_add zp_mul zp_sub zp_neg
    (fun x y => zp_mul x (zp_inv y)) zp_inv eq.
Proof.
  constructor.
  - constructor.
    + zp. rewrite Zmod_0_l, Z.add_0_l. apply Z.mod_small, zval_range.
    + zp. f_equal; ring.
    + zp. rewrite Zplus_mod_idemp_l, Zplus_mod_idemp_r. f_equal; ring.
    + zp. rewrite Zmult_mod_idemp_l. rewrite Z.mul_1_l. apply Z.mod_small, zval_range.
    + zp. f_equal; ring.
    + zp. rewrite Zmult_mod_idemp_l, Zmult_mod_idemp_r. f_equal; ring.
    + zp. rewrite Zmult_mod_idemp_l, <- Zplus_mod. f_equal; ring.
    + zp. rewrite Zplus_mod_idemp_r. f_equal; ring.
    + zp. rewrite Zplus_mod_idemp_r. rewrite Z.add_opp_diag_r. reflexivity.
  - intros H. apply (f_equal zval) in H. rewrite !zval_mk in H.
    rewrite Z.mod_1_l, Z.mod_0_l in H; lia.
  - reflexivity.
  - intros x Hx. unfold zp_inv. zp.
    rewrite Zmult_mod_idemp_l.
    rewrite powmod_spec by lia. rewrite Zmult_mod_idemp_l.
    replace (zval x ^ (p - 2) * zval x) with (zval x ^ (p - 1)).
    2: { replace (p - 1) with (Z.succ (p - 2)) by lia. rewrite Z.pow_succ_r by lia. ring. }
    rewrite fermat_little; auto; [rewrite Z.mod_1_l; lia|].
    intros Hd. apply Hx. apply zval_inj. rewrite zval_mk.
    rewrite Z.mod_0_l by lia.
    destruct (Z.eq_dec (zval x) 0); auto. pose proof (zval_range x).
    apply Z.divide_pos_le in Hd; lia.
Qed.

(** Euler's criterion, the direction needed to certify a non-residue. *)
Lemma zp_nonresidue g : powmod p g ((p - 1) / 2) = p - 1 -> 2 < p ->
  forall x, zp_mul x x <> zmk g.
Proof.
  intros Hg Hp x E. apply (f_equal zval) in E. unfold zp_mul in E. rewrite !zval_mk in E.
  assert (Hodd : p mod 2 = 1).
  { pose proof (Z.mod_pos_bound p 2). assert (p mod 2 <> 0); [|lia].
    intros H2. apply Z.mod_divide in H2; [|lia]. apply prime_divisors in H2; auto.
    destruct H2 as [H2|[H2|[H2|H2]]]; lia. }
  assert (Hhalf : p - 1 = 2 * ((p - 1) / 2)).
  { assert (p = 2 * (p / 2) + 1) by (pose proof (Z.div_mod p 2); lia).
    replace (p - 1) with ((p / 2) * 2) at 2 by lia. rewrite Z.div_mul; lia. }
  assert (Hdiv : ~ (p | zval x)).
  { intros Hd. rewrite powmod_spec in Hg by (try lia; apply Z.div_pos; lia).
    assert (Hg0 : g mod p = 0).
    { rewrite <- E. apply Z.mod_divide; [lia|]. now apply Z.divide_mul_l. }
    rewrite Zpower_mod in Hg by lia. rewrite Hg0 in Hg.
    rewrite Z.pow_0_l in Hg by lia. rewrite Z.mod_0_l in Hg; lia. }
  pose proof (fermat_little p (zval x) p_prime Hdiv) as HF.
  rewrite Hhalf, Z.pow_mul_r in HF by lia.
  rewrite Zpower_mod in HF by lia.
  rewrite Z.pow_2_r, E, <- Zpower_mod in HF by lia.
  rewrite powmod_spec in Hg by lia. lia.
Qed.

Record ZpParams := {
  zpp_bits : nat; zpp_repr : nat; zpp_S : nat; zpp_root : Z; zpp_gen : Z;
  zpp_bits_pos : (0 < zpp_bits)%nat;
  zpp_lo : 2 ^ (Z.of_nat zpp_bits - 1) <= p;
  zpp_hi : p < 2 ^ Z.of_nat zpp_bits;
  zpp_repr_ge : (zpp_bits <= zpp_repr)%nat;
  zpp_S_pos : (0 < zpp_S)%nat;
  zpp_root_order : sqn (fun a b => (a * b) mod p) zpp_root (zpp_S - 1) mod p = p - 1;
  zpp_odd : 2 < p;
  zpp_gen_nr : powmod p zpp_gen ((p - 1) / 2) = p - 1
}.

Lemma zmk_sqn k : forall x, sqn zp_mul (zmk x) k = zmk (sqn (fun a b => (a * b) mod p) x k).
Proof.
  induction k; intros x; cbn [sqn]; auto.
  rewrite <- IHk. f_equal. rewrite <- zmk_mul. apply zmk_eq. now rewrite Zmod_mod.
Qed.

Lemma zp_root_order (q : ZpParams) :
  sqn zp_mul (zmk (zpp_root q)) (zpp_S q - 1) = zp_neg (zmk 1).
Proof.
  rewrite zmk_sqn. apply zval_inj. unfold zp_neg. rewrite !zval_mk.
  rewrite zpp_root_order. rewrite (Z.mod_1_l p) by lia.
  replace (-(1)) with (p - 1 + (-1) * p) by lia. rewrite Z.mod_add by lia.
  symmetry; apply Z.mod_small; lia.
Qed.

Lemma zp_eqb_eq x y : zp_eqb x y = true <-> x = y.
Proof.
  unfold zp_eqb. rewrite Z.eqb_eq. split; [apply zval_inj|now intros ->].
Qed.

Definition ZpField (q : ZpParams) : PrimeField := {|
  F := Zp; fzero := zmk 0; fone := zmk 1; fadd := zp_add; fmul := zp_mul; fsub := zp_sub;
  fneg := zp_neg; finv := zp_inv; feqb := zp_eqb; modulus := p; toZ := zval; ofZ := zmk;
  num_bits := zpp_bits q; repr_bits := zpp_repr q; two_adicity := zpp_S q;
  root_of_unity := zmk (zpp_root q); generator := zmk (zpp_gen q);
  F_field := zp_field; feqb_eq := zp_eqb_eq; modulus_prime := p_prime;
  toZ_range := zval_range; ofZ_toZ := zmk_val; toZ_ofZ := zval_mk;
  ofZ_add := zmk_add; ofZ_mul := zmk_mul; ofZ_1 := eq_refl;
  num_bits_pos := zpp_bits_pos q; num_bits_lo := zpp_lo q; num_bits_hi := zpp_hi q;
  repr_bits_ge := zpp_repr_ge q; two_adicity_pos := zpp_S_pos q;
  root_order := zp_root_order q;
  generator_nonresidue := zp_nonresidue (zpp_gen q) (zpp_gen_nr q) (zpp_odd q)
|}.
End ZpField.
