(** The field of the test engine, groth16/src/tests/dummy_engine.rs:15-333: arithmetic modulo 64513 on [Wrapping<u32>].
    An element is the [u32] it holds, as an integer.  Nothing forces it to be reduced. *)
From Coq Require Import ZArith List Bool Lia Znumtheory Zpow_facts.
From Verif Require Import Prelude PrimeField Zp Fields.
Import ListNotations.
Open Scope Z_scope.

(** [Wrapping<u32>]: results modulo 2^32. *)
Definition wrap32 (z : Z) : Z := z mod 4294967296.

(** dummy_engine.rs:15 [MODULUS_R]. *)
Definition MODULUS_R : Z := 64513.

(** dummy_engine.rs:38-42 [From<u64>]. *)
Definition fr_from_u64 (v : Z) : Z := wrap32 (v mod MODULUS_R).

(** dummy_engine.rs:207-209 [is_zero]. *)
Definition fr_is_zero (x : Z) : bool := x =? 0.

(** dummy_engine.rs:78-87 [neg]. *)
Definition fr_neg (x : Z) : Z := if fr_is_zero x then x else wrap32 (MODULUS_R - x).

(** dummy_engine.rs:108-112 [add_assign]. *)
Definition fr_add (x y : Z) : Z := wrap32 (x + y) mod MODULUS_R.

(** dummy_engine.rs:139-143 [sub_assign]. *)
Definition fr_sub (x y : Z) : Z := wrap32 (wrap32 (MODULUS_R + x) - y) mod MODULUS_R.

(** dummy_engine.rs:170-174 [mul_assign]. *)
Definition fr_mul (x y : Z) : Z := wrap32 (x * y) mod MODULUS_R.

(** dummy_engine.rs:211-213 [square]. *)
Definition fr_square (x : Z) : Z := wrap32 (x * x) mod MODULUS_R.

(** dummy_engine.rs:215-217 [double]. *)
Definition fr_double (x : Z) : Z := wrap32 (Z.shiftl x 1) mod MODULUS_R.

(** dummy_engine.rs:203-205 [random], given the word the generator delivers. *)
Definition fr_random (word : Z) : Z := word mod MODULUS_R.

(** [Field::pow_vartime], provided by the crate ff, for one 64-bit limb: from the most significant bit down, square, then
    multiply if the bit is set. *)
Fixpoint fr_pow_bits (x : Z) (e : Z) (n : nat) (acc : Z) : Z :=
  match n with
  | O => acc
  | S k => let sq := fr_square acc in
           fr_pow_bits x e k (if Z.testbit e (Z.of_nat k) then fr_mul sq x else sq)
  end.
Definition fr_pow (x e : Z) : Z := fr_pow_bits x e 64 1.

(** dummy_engine.rs:219-224 [invert]. *)
Definition fr_invert (x : Z) : option Z := if fr_is_zero x then None else Some (fr_pow x (MODULUS_R - 2)).

(** dummy_engine.rs:297-299, 315-320: the constants. *)
Definition FR_S : Z := 10.
Definition FR_NUM_BITS : Z := 16.
Definition FR_CAPACITY : Z := 15.
Definition FR_TWO_INV : Z := 32257.
Definition FR_GENERATOR : Z := 5.
Definition FR_ROOT_OF_UNITY : Z := 57751.
Definition FR_ROOT_OF_UNITY_INV : Z := 12832.
Definition FR_DELTA : Z := 38779.

(** dummy_engine.rs:242-252: the inner loop of [sqrt]; [None] if it is still running. *)
Fixpoint fr_sqrt_inner (fuel : nat) (t2i i : Z) : option Z :=
  match fuel with
  | O => None
  | S k => if t2i =? 1 then Some i else fr_sqrt_inner k (fr_square t2i) (i + 1)
  end.

(** dummy_engine.rs:241-261: the outer loop, giving r.  [m - i - 1] is computed in [u32] and panics on underflow, as in
    builds with overflow checks; tests are such builds. *)
Fixpoint fr_sqrt_outer (fuel : nat) (c r t m : Z) : option (outcome Z) :=
  match fuel with
  | O => None
  | S k =>
      if t =? 1 then Some (Done r) else
      match fr_sqrt_inner fuel (fr_square t) 1 with
      | None => None
      | Some i =>
          if m - i - 1 <? 0 then Some Panicked else
          let c1 := Nat.iter (Z.to_nat (m - i - 1)) fr_square c in
          let r' := fr_mul r c1 in
          let c' := fr_square c1 in
          let t' := fr_mul t c' in
          fr_sqrt_outer k c' r' t' i
      end
  end.

(** dummy_engine.rs:230-264 [sqrt]. *)
Definition fr_sqrt (fuel : nat) (x : Z) : option (outcome (option Z)) :=
  match fr_sqrt_outer fuel FR_ROOT_OF_UNITY (fr_pow x 32) (fr_pow x 63) FR_S with
  | None => None
  | Some Panicked => Some Panicked
  | Some (Done r) => Some (Done (if fr_mul r r =? x then Some r else None))
  end.

(** [u64::to_le_bytes], [u64::from_le_bytes] (bytes as integers). *)
Fixpoint le_bytes (n : nat) (v : Z) : list Z :=
  match n with O => [] | S k => v mod 256 :: le_bytes k (v / 256) end.
Fixpoint of_le_bytes (l : list Z) : Z :=
  match l with [] => 0 | b :: t => b + 256 * of_le_bytes t end.

(** dummy_engine.rs:276-280, 307-309 [to_repr]. *)
Definition fr_to_repr (x : Z) : list Z := le_bytes 8 x.

(** dummy_engine.rs:301-305 [from_repr]. *)
Definition fr_from_repr (bs : list Z) : option Z :=
  let v := of_le_bytes bs in if MODULUS_R <=? v then None else Some (wrap32 v).

(** dummy_engine.rs:311-313 [is_odd]. *)
Definition fr_is_odd (x : Z) : bool := x mod 2 =? 1.

(** dummy_engine.rs:326-332 [to_le_bits], [char_le_bits]. *)
Definition fr_to_le_bits (x : Z) : list bool := z2le 64 x.
Definition fr_char_le_bits : list bool := z2le 64 MODULUS_R.

(** dummy_engine.rs:358-368 [multi_miller_loop], 348-350 [pairing]: the target group is the field, written additively. *)
Definition fr_multi_miller_loop (terms : list (Z * Z)) : Z :=
  fold_left (fun acc ab => fr_add acc (fr_mul (fst ab) (snd ab))) terms 0.
Definition fr_pairing (p q : Z) : Z := fr_multi_miller_loop [(p, q)].

(** ** Facts *)

Definition reduced (x : Z) : Prop := 0 <= x < 64513.

Lemma wrap32_small z : 0 <= z < 4294967296 -> wrap32 z = z.
Proof. apply Z.mod_small. Qed.

Lemma mod_reduced z : reduced (z mod MODULUS_R).
Proof. unfold reduced, MODULUS_R. apply Z.mod_pos_bound. lia. Qed.

Lemma product_fits x y : reduced x -> reduced y -> 0 <= x * y < 4294967296.
Proof. unfold reduced. nia. Qed.

Lemma fr_add_eq x y : reduced x -> reduced y -> fr_add x y = (x + y) mod 64513.
Proof. unfold fr_add, reduced. intros. now rewrite wrap32_small by lia. Qed.
Lemma fr_mul_eq x y : reduced x -> reduced y -> fr_mul x y = (x * y) mod 64513.
Proof. intros. unfold fr_mul. now rewrite wrap32_small by now apply product_fits. Qed.
Lemma fr_square_eq x : reduced x -> fr_square x = (x * x) mod 64513.
Proof. apply (fun H => fr_mul_eq x x H H). Qed.
Lemma fr_double_eq x : reduced x -> fr_double x = (2 * x) mod 64513.
Proof. unfold fr_double, reduced. intros. rewrite Z.shiftl_mul_pow2 by lia. rewrite wrap32_small by lia. unfold MODULUS_R. f_equal. lia. Qed.
Lemma fr_sub_eq x y : reduced x -> reduced y -> fr_sub x y = (x - y) mod 64513.
Proof.
  unfold fr_sub, reduced, MODULUS_R. intros. rewrite (wrap32_small (64513 + x)) by lia. rewrite wrap32_small by lia.
  replace (64513 + x - y) with (x - y + 1 * 64513) by lia. apply Z.mod_add. lia.
Qed.
Lemma fr_neg_eq x : reduced x -> fr_neg x = (- x) mod 64513.
Proof.
  unfold fr_neg, fr_is_zero, reduced, MODULUS_R. intros. destruct (Z.eqb_spec x 0) as [->|N]; [reflexivity|].
  rewrite wrap32_small by lia. replace (- x) with (64513 - x + (-1) * 64513) by lia. rewrite Z.mod_add by lia. symmetry. apply Z.mod_small. lia.
Qed.

Lemma mul_reduced x y : reduced (fr_mul x y). Proof. apply mod_reduced. Qed.
Lemma square_reduced x : reduced (fr_square x). Proof. apply mod_reduced. Qed.

Lemma shiftr_step e k : 0 <= e -> Z.shiftr e (Z.of_nat k) = 2 * Z.shiftr e (Z.of_nat (S k)) + Z.b2z (Z.testbit e (Z.of_nat k)).
Proof.
  intros He. rewrite Nat2Z.inj_succ, <- Z.add_1_r, <- Z.shiftr_shiftr by lia.
  rewrite (Z.div2_odd (Z.shiftr e (Z.of_nat k))) at 1. rewrite Z.div2_spec. f_equal. f_equal.
  rewrite <- Z.bit0_odd, Z.shiftr_spec by lia. now rewrite Z.add_0_l.
Qed.

Lemma fr_pow_bits_eq x e n : reduced x -> 0 <= e -> forall acc, acc = (x ^ Z.shiftr e (Z.of_nat n)) mod 64513 ->
  fr_pow_bits x e n acc = (x ^ e) mod 64513.
Proof.
  intros Hx He. induction n as [|n IH]; intros acc Ha; cbn [fr_pow_bits].
  - now rewrite Z.shiftr_0_r in Ha.
  - apply IH. assert (Ra : reduced acc) by (subst acc; apply mod_reduced).
    assert (Hs : 0 <= Z.shiftr e (Z.of_nat (S n))) by now apply Z.shiftr_nonneg.
    assert (Es : fr_square acc = (x ^ (2 * Z.shiftr e (Z.of_nat (S n)))) mod 64513).
    { rewrite fr_square_eq by auto. subst acc. rewrite <- Z.mul_mod by lia. f_equal. rewrite Z.pow_twice_r. reflexivity. }
    rewrite (shiftr_step e n He). destruct (Z.testbit e (Z.of_nat n)); cbn [Z.b2z].
    + rewrite fr_mul_eq by (auto using square_reduced). rewrite Es, Z.mul_mod_idemp_l by lia.
      rewrite Z.pow_add_r, Z.pow_1_r by lia. reflexivity.
    + now rewrite Z.add_0_r.
Qed.

Lemma fr_pow_eq x e : reduced x -> 0 <= e < 2 ^ 64 -> fr_pow x e = (x ^ e) mod 64513.
Proof.
  intros Hx He. unfold fr_pow. apply (fr_pow_bits_eq x e 64 Hx (proj1 He)). change (Z.of_nat 64) with 64. rewrite Z.shiftr_div_pow2 by lia.
  rewrite (Z.div_small e) by exact He. reflexivity.
Qed.

Global Opaque fr_pow.

(** Powers of two as exponents. *)
Definition p2 (x : Z) (k : nat) : Z := (x ^ (2 ^ Z.of_nat k)) mod 64513.

Lemma p2_reduced x k : reduced (p2 x k). Proof. apply mod_reduced. Qed.
Lemma p2_0 x : reduced x -> p2 x 0 = x.
Proof. intros. unfold p2. cbn. rewrite Z.mul_1_r. now apply Z.mod_small. Qed.
Lemma p2_S x k : p2 x (S k) = fr_square (p2 x k).
Proof.
  rewrite fr_square_eq by apply p2_reduced. unfold p2. rewrite <- Z.mul_mod by lia. f_equal.
  rewrite pow2_S, Z.pow_twice_r. reflexivity.
Qed.
Lemma p2_p2 x j k : p2 (p2 x j) k = p2 x (j + k).
Proof.
  unfold p2. rewrite <- Zpower_mod by lia. f_equal. rewrite <- Z.pow_mul_r by (pose proof (pow2_pos j); pose proof (pow2_pos k); lia).
  f_equal. rewrite <- Z.pow_add_r by lia. f_equal. lia.
Qed.

Lemma p2_mul x y k : reduced x -> reduced y -> p2 (fr_mul x y) k = fr_mul (p2 x k) (p2 y k).
Proof.
  intros Hx Hy. rewrite fr_mul_eq by auto. rewrite fr_mul_eq by apply p2_reduced. unfold p2.
  rewrite <- Zpower_mod by lia. rewrite <- Z.mul_mod by lia. now rewrite Z.pow_mul_l.
Qed.
Lemma p2_iter x k : reduced x -> Nat.iter k fr_square x = p2 x k.
Proof. intros Hx. induction k as [|k IH]; [now rewrite p2_0|]. cbn [Nat.iter nat_rect]. rewrite p2_S. f_equal. exact IH. Qed.

Lemma prime_M : prime 64513. Proof. exact prime_64513. Qed.

Lemma mul_zero_inv x y : reduced x -> reduced y -> fr_mul x y = 0 -> x = 0 \/ y = 0.
Proof.
  intros Hx Hy E. rewrite fr_mul_eq in E by auto. apply Z.mod_divide in E; [|lia]. unfold reduced in *.
  apply (prime_mult _ prime_M) in E as [D|D]; [left|right].
  - destruct (Z.eq_dec x 0); auto. apply Z.divide_pos_le in D; lia.
  - destruct (Z.eq_dec y 0); auto. apply Z.divide_pos_le in D; lia.
Qed.

Lemma square_one x : reduced x -> fr_square x = 1 -> x = 1 \/ x = 64512.
Proof.
  intros Hx E. rewrite fr_square_eq in E by auto. unfold reduced in *.
  assert (D : (64513 | (x - 1) * (x + 1))).
  { apply Z.mod_divide; [lia|]. replace ((x - 1) * (x + 1)) with (x * x - 1) by ring. rewrite Zminus_mod, E. reflexivity. }
  apply (prime_mult _ prime_M) in D as [D|D]; [left|right].
  - destruct (Z.eq_dec x 1); auto. destruct D as [q D]. nia.
  - destruct D as [q D]. nia.
Qed.

Lemma p2_one k : p2 1 k = 1.
Proof. unfold p2. rewrite Z.pow_1_l by (pose proof (pow2_pos k); lia). reflexivity. Qed.

(** Once a power is one, all later ones are. *)
Lemma p2_stays x j k : p2 x j = 1 -> (j <= k)%nat -> p2 x k = 1.
Proof. intros E H. replace k with (j + (k - j))%nat by lia. now rewrite <- p2_p2, E, p2_one. Qed.

(** The inner loop finds the least exponent. *)
Lemma inner_least t : reduced t -> forall fuel j i, (1 <= j)%nat ->
  fr_sqrt_inner fuel (p2 t j) (Z.of_nat j) = Some i ->
  exists n, i = Z.of_nat n /\ (j <= n)%nat /\ p2 t n = 1 /\ forall l, (j <= l < n)%nat -> p2 t l <> 1.
Proof.
  intros Ht. induction fuel as [|fuel IH]; intros j i Hj E; cbn [fr_sqrt_inner] in E; [discriminate|].
  destruct (Z.eqb_spec (p2 t j) 1) as [E1|E1].
  - injection E as <-. exists j. repeat split; auto. intros l Hl. lia.
  - rewrite <- p2_S in E. replace (Z.of_nat j + 1) with (Z.of_nat (S j)) in E by lia. apply IH in E as (n & -> & Hn & En & Hl); [|lia].
    exists n. split; [reflexivity|]. split; [lia|]. split; [exact En|]. intros l Hll.
    destruct (Nat.eq_dec l j) as [->|]; [exact E1|apply Hl; lia].
Qed.

Lemma inner_runs t n : forall fuel j, (j <= n)%nat -> (n - j < fuel)%nat -> p2 t n = 1 ->
  exists i, fr_sqrt_inner fuel (p2 t j) (Z.of_nat j) = Some i.
Proof.
  induction fuel as [|fuel IH]; intros j Hj Hf E; [lia|]. cbn [fr_sqrt_inner]. destruct (Z.eqb_spec (p2 t j) 1); [eauto|].
  destruct (Nat.eq_dec j n) as [->|]; [congruence|]. rewrite <- p2_S. replace (Z.of_nat j + 1) with (Z.of_nat (S j)) by lia. apply IH; auto; lia.
Qed.

Lemma fr_mul_comm x y : fr_mul x y = fr_mul y x.
Proof. unfold fr_mul. now rewrite Z.mul_comm. Qed.
Lemma fr_mul_assoc x y z : reduced x -> reduced y -> reduced z -> fr_mul x (fr_mul y z) = fr_mul (fr_mul x y) z.
Proof.
  intros Hx Hy Hz. rewrite (fr_mul_eq x (fr_mul y z)), (fr_mul_eq (fr_mul x y) z) by (auto using mul_reduced).
  rewrite !fr_mul_eq by auto. rewrite Z.mul_mod_idemp_r, Z.mul_mod_idemp_l by lia. f_equal. ring.
Qed.
Lemma fr_mul_1 x : reduced x -> fr_mul x 1 = x.
Proof. intros H. rewrite fr_mul_eq by (auto; unfold reduced; lia). rewrite Z.mul_1_r. now apply Z.mod_small. Qed.
Lemma square_mul x : fr_square x = fr_mul x x. Proof. reflexivity. Qed.
Lemma square_of_mul x y : reduced x -> reduced y -> fr_square (fr_mul x y) = fr_mul (fr_square x) (fr_square y).
Proof.
  intros Hx Hy. rewrite fr_square_eq by apply mul_reduced. rewrite (fr_mul_eq (fr_square x)) by apply square_reduced.
  rewrite fr_mul_eq, !fr_square_eq by auto. rewrite <- !Z.mul_mod by lia. f_equal. ring.
Qed.

(** The loop invariant of Tonelli-Shanks: r^2 = x t, c has order 2^m, t^(2^(m-1)) = 1. *)
Lemma outer_correct x : reduced x -> forall m fuel c r t, (1 <= m)%nat -> (m < fuel)%nat -> reduced c -> reduced r -> reduced t ->
  fr_square r = fr_mul x t -> p2 c (m - 1) = 64512 -> p2 t (m - 1) = 1 ->
  exists r', fr_sqrt_outer fuel c r t (Z.of_nat m) = Some (Done r') /\ reduced r' /\ fr_square r' = x.
Proof.
  intros Hx. induction m as [m IH] using lt_wf_ind. intros fuel c r t Hm Hf Hc Hr Ht Er Ec Et.
  destruct fuel as [|fuel]; [lia|]. cbn [fr_sqrt_outer].
  destruct (Z.eqb_spec t 1) as [->|Nt].
  { exists r. repeat split; auto; try apply Hr. now rewrite fr_mul_1 in Er. }
  assert (Hm2 : (2 <= m)%nat).
  { destruct (Nat.eq_dec m 1) as [->|]; [|lia]. cbn [Nat.sub] in Et. rewrite p2_0 in Et by auto. contradiction. }
  assert (E1 : fr_square t = p2 t 1) by (now rewrite p2_S, p2_0). rewrite E1.
  destruct (inner_runs t (m - 1) (S fuel) 1 ltac:(lia) ltac:(lia) Et) as [i Ei]. change (Z.of_nat 1) with 1 in Ei. rewrite Ei.
  apply (inner_least t Ht (S fuel) 1%nat) in Ei as (n & -> & Hn & En & Hl); [|lia].
  assert (Hnm : (n <= m - 1)%nat).
  { destruct (Nat.le_gt_cases n (m - 1)); auto. exfalso. apply (Hl (m - 1)%nat); [lia|exact Et]. }
  destruct (Z.ltb_spec (Z.of_nat m - Z.of_nat n - 1) 0); [lia|].
  replace (Z.to_nat (Z.of_nat m - Z.of_nat n - 1)) with (m - n - 1)%nat by lia. rewrite p2_iter by auto.
  assert (Hneg : p2 t (n - 1) = 64512).
  { destruct (square_one (p2 t (n - 1)) (p2_reduced _ _)) as [A|A]; auto.
    - rewrite <- p2_S. replace (S (n - 1)) with n by lia. exact En.
    - exfalso. destruct (Nat.eq_dec n 1) as [->|]; [cbn [Nat.sub] in A; rewrite p2_0 in A by auto; contradiction|]. apply (Hl (n - 1)%nat); [lia|exact A]. }
  assert (Ec1 : p2 (fr_square (p2 c (m - n - 1))) (n - 1) = 64512).
  { rewrite <- p2_S, p2_p2. replace (S (m - n - 1) + (n - 1))%nat with (m - 1)%nat by lia. exact Ec. }
  apply IH; auto using mul_reduced, square_reduced; try lia.
  - rewrite square_of_mul by (auto using p2_reduced). rewrite Er. symmetry. apply fr_mul_assoc; auto using square_reduced.
  - rewrite p2_mul by (auto using square_reduced). rewrite Hneg, Ec1. reflexivity.
Qed.

Lemma pow_p2 x j k : reduced x -> 0 <= j < 2 ^ 64 -> p2 (fr_pow x j) k = (x ^ (j * 2 ^ Z.of_nat k)) mod 64513.
Proof.
  intros Hx Hj. rewrite fr_pow_eq by auto. unfold p2. rewrite <- Zpower_mod by lia. f_equal.
  rewrite <- Z.pow_mul_r by (pose proof (pow2_pos k); lia). reflexivity.
Qed.
Lemma fr_pow_reduced x e : reduced x -> 0 <= e < 2 ^ 64 -> reduced (fr_pow x e).
Proof. intros. rewrite fr_pow_eq by auto. apply mod_reduced. Qed.

Lemma fermat_M x : reduced x -> x <> 0 -> (x ^ 64512) mod 64513 = 1.
Proof. intros Hx N. apply (fermat_little 64513 x prime_M). intros D. unfold reduced in Hx. apply Z.divide_pos_le in D; lia. Qed.

(** r0^2 = x t0. *)
Lemma sqrt_start x : reduced x -> fr_square (fr_pow x 32) = fr_mul x (fr_pow x 63).
Proof.
  intros Hx. rewrite fr_square_eq by (apply fr_pow_reduced; auto; lia). rewrite fr_mul_eq by (auto; apply fr_pow_reduced; auto; lia).
  rewrite !fr_pow_eq by (auto; lia). rewrite <- Z.mul_mod, Z.mul_mod_idemp_r by lia. f_equal.
  rewrite <- Z.pow_add_r by lia. change (32 + 32) with (Z.succ 63). now rewrite Z.pow_succ_r by lia.
Qed.

Lemma root_p2 : p2 FR_ROOT_OF_UNITY 9 = 64512.
Proof. rewrite <- p2_iter by (unfold reduced, FR_ROOT_OF_UNITY; lia). vm_compute. reflexivity. Qed.

Lemma euler_sqrt x fuel : reduced x -> p2 (fr_pow x 63) 9 = 1 -> (10 < fuel)%nat -> exists r, fr_sqrt fuel x = Some (Done (Some r)) /\ reduced r /\ fr_mul r r = x.
Proof.
  intros Hx E Hf.
  assert (R1 : reduced (fr_pow x 32)) by (apply fr_pow_reduced; [exact Hx|lia]). assert (R2 : reduced (fr_pow x 63)) by (apply fr_pow_reduced; [exact Hx|lia]).
  assert (R3 : reduced FR_ROOT_OF_UNITY) by (unfold reduced, FR_ROOT_OF_UNITY; lia).
  destruct (outer_correct x Hx 10 fuel FR_ROOT_OF_UNITY (fr_pow x 32) (fr_pow x 63) ltac:(lia) Hf R3 R1 R2 (sqrt_start x Hx) root_p2 E) as (r & Er & Rr & Sr).
  unfold fr_sqrt. change FR_S with (Z.of_nat 10). rewrite Er. rewrite square_mul in Sr. rewrite Sr, Z.eqb_refl. eauto.
Qed.

(** Euler's criterion for a square. *)
Lemma residue_p2 x y : reduced x -> reduced y -> x <> 0 -> fr_mul y y = x -> p2 (fr_pow x 63) 9 = 1.
Proof.
  intros Hx Hy N E. rewrite pow_p2 by (auto; lia). assert (Ny : y <> 0) by (intros ->; apply N; rewrite <- E; reflexivity).
  rewrite <- E, fr_mul_eq by auto. rewrite <- Zpower_mod by lia. rewrite <- Z.pow_2_r, <- Z.pow_mul_r by lia.
  rewrite <- (fermat_M y Hy Ny). f_equal.
Qed.

Lemma nonresidue_p2 x : reduced x -> x <> 0 -> (forall y, reduced y -> fr_mul y y <> x) -> p2 (fr_pow x 63) 9 = 64512.
Proof.
  intros Hx N NR. destruct (square_one (p2 (fr_pow x 63) 9) (p2_reduced _ _)) as [A|A]; auto.
  - rewrite <- p2_S, pow_p2 by (auto; lia). rewrite <- (fermat_M x Hx N). f_equal.
  - exfalso. destruct (euler_sqrt x 11 Hx A) as (r & _ & Hr & Er); [lia|]. now apply (NR r).
Qed.

Lemma sqrt_nonresidue x fuel : reduced x -> x <> 0 -> (forall y, reduced y -> fr_mul y y <> x) -> (10 < fuel)%nat -> fr_sqrt fuel x = Some Panicked.
Proof.
  intros Hx N NR Hf. pose proof (nonresidue_p2 x Hx N NR) as E. assert (Ht : reduced (fr_pow x 63)) by (apply fr_pow_reduced; [exact Hx|lia]).
  unfold fr_sqrt. revert E Ht. generalize (fr_pow x 63). generalize (fr_pow x 32). intros r t E Ht.
  assert (E10 : p2 t 10 = 1) by (rewrite (p2_S t 9), E; vm_compute; reflexivity).
  assert (L : forall l, (l < 10)%nat -> p2 t l <> 1) by (intros l Hl A; assert (A9 : p2 t 9 = 1) by (apply (p2_stays t l 9 A); lia); rewrite A9 in E; discriminate E).
  destruct fuel as [|fuel]; [lia|]. cbn [fr_sqrt_outer].
  destruct (Z.eqb_spec t 1) as [A|A]; [exfalso; apply (L 0%nat); [lia|now rewrite p2_0]|].
  assert (E1 : fr_square t = p2 t 1) by (now rewrite p2_S, p2_0). rewrite E1.
  destruct (inner_runs t 10 (S fuel) 1 ltac:(lia) ltac:(lia) E10) as [i Ei]. change (Z.of_nat 1) with 1 in Ei. rewrite Ei.
  apply (inner_least t Ht (S fuel) 1%nat) in Ei as (n & -> & Hn & En & Hl); [|lia].
  assert (10 <= n)%nat by (destruct (Nat.le_gt_cases 10 n); auto; exfalso; now apply (L n)).
  unfold FR_S. destruct (Z.ltb_spec (10 - Z.of_nat n - 1) 0); [reflexivity|lia].
Qed.

Lemma inner_zero fuel : forall i, fr_sqrt_inner fuel 0 i = None.
Proof. induction fuel as [|fuel IH]; intros i; [reflexivity|]. cbn [fr_sqrt_inner Z.eqb]. apply (IH (i + 1)). Qed.
Lemma sqrt_zero fuel : fr_sqrt fuel 0 = None.
Proof.
  unfold fr_sqrt. assert (E : fr_pow 0 63 = 0) by (vm_compute; reflexivity). rewrite E. destruct fuel as [|fuel]; [reflexivity|].
  cbn [fr_sqrt_outer Z.eqb]. change (fr_square 0) with 0. now rewrite inner_zero.
Qed.

(** Representations. *)
Lemma of_le_bytes_le_bytes n : forall v, 0 <= v < 256 ^ Z.of_nat n -> of_le_bytes (le_bytes n v) = v.
Proof.
  induction n as [|n IH]; intros v Hv; cbn [le_bytes of_le_bytes]; [cbn in Hv; lia|].
  rewrite Nat2Z.inj_succ, Z.pow_succ_r in Hv by lia. rewrite IH; [pose proof (Z.div_mod v 256); lia|].
  split; [apply Z.div_pos; lia|apply Z.div_lt_upper_bound; lia].
Qed.
Lemma le_bytes_of_le_bytes l : Forall (fun b => 0 <= b < 256) l -> le_bytes (length l) (of_le_bytes l) = l.
Proof.
  induction 1 as [|b l Hb Hl IH]; [reflexivity|]. cbn [of_le_bytes length le_bytes].
  replace (b + 256 * of_le_bytes l) with (b + of_le_bytes l * 256) by ring. f_equal.
  - rewrite Z.mod_add by lia. now apply Z.mod_small.
  - rewrite Z.div_add by lia. rewrite (Z.div_small b) by auto. exact IH.
Qed.
Lemma le_bytes_length n v : length (le_bytes n v) = n.
Proof. revert v. induction n; intros; cbn [le_bytes length]; auto. Qed.
Lemma of_le_bytes_range l : Forall (fun b => 0 <= b < 256) l -> 0 <= of_le_bytes l.
Proof. induction 1; cbn [of_le_bytes]; lia. Qed.
