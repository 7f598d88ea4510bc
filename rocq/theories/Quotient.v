(** The prover's quotient polynomial: groth16/src/prover.rs:221-242. *)
From Coq Require Import ZArith List Bool Lia Field.
From Verif Require Import Prelude PrimeField FModule Multicore Domain FFTProof DomainProof.
Import ListNotations.
Local Open Scope nat_scope.

(** [?] on the result of a call that may also panic. *)
Definition obindr {A B} (x : outcome (res A)) (f : A -> outcome (res B)) : outcome (res B) :=
  obind x (fun r => match r with Ok a => f a | Err e => Done (Err e) end).

Section Quotient.
Context {P : PrimeField}.
Add Field PFfield_q : (F_field P).
Notation SM := (ScalarMod P).

Ltac sring := match goal with |- ?a = ?b => change (@eq (F P) a b) end; first [ring | cbn; ring].

(** groth16/src/prover.rs:222-240: from the evaluations [prover.a/b/c] to the exponents of [h]. *)
Definition prover_h (w : Worker) (pa pb pc : list P) : outcome (res (list P)) :=
  obindr (from_coeffs (M := SM) pa) (fun a =>
  obindr (from_coeffs (M := SM) pb) (fun b =>
  obindr (from_coeffs (M := SM) pc) (fun c =>
  obind (ifft w a) (fun a => obind (coset_fft w a) (fun a =>
  obind (ifft w b) (fun b => obind (coset_fft w b) (fun b =>
  obind (ifft w c) (fun c => obind (coset_fft w c) (fun c =>
  obind (mul_assign w a b) (fun a =>
  obind (sub_assign w a c) (fun a =>
  obind (divide_by_z_on_coset w a) (fun a =>
  obind (icoset_fft w a) (fun a =>
  let a := coeffs a in
  (* [a.len() - 1] on an empty vector would be an overflow *)
  if length a =? 0 then Panicked else Done (Ok (firstn (length a - 1) a))))))))))))))).

Lemma fsub_cancel (a x y : P) : (a - x)%F = (a - y)%F -> x = y.
Proof. intros H. transitivity (a - (a - x))%F; [sring|]. rewrite H. sring. Qed.
Lemma fmul_comm (x y : P) : (x * y)%F = (y * x)%F.
Proof. sring. Qed.

(** ** Polynomials as coefficient lists *)
Definition coef (l : list P) (n : nat) : P := nth n l fzero.
Definition peval (l : list P) (x : P) : P := fsum (length l) (fun i => coef l i * fpow x i)%F.
(** Coefficient [n] of the product. *)
Definition pmul (l1 l2 : list P) (n : nat) : P := fsum (S n) (fun i => coef l1 i * coef l2 (n - i)%nat)%F.

Lemma fsum_shift i k (f : nat -> P) : fsum (i + k) (fun n => if i <=? n then f n else fzero) = fsum k (fun j => f (i + j)).
Proof.
  rewrite fsum_split, (fsum_zero i).
  - rewrite (fsum_ext k _ (fun j => f (i + j))); [sring|]. intros j _. destruct (Nat.leb_spec i (i + j)); [auto|lia].
  - intros j Hj. destruct (Nat.leb_spec i j); [lia|auto].
Qed.

Lemma coef_out l n : length l <= n -> coef l n = fzero.
Proof. intros. unfold coef. now apply nth_overflow. Qed.

Lemma fsum_extend n m (f : nat -> P) : n <= m -> (forall i, n <= i -> f i = fzero) -> fsum m f = fsum n f.
Proof.
  intros H Hf. replace m with (n + (m - n)) by lia. rewrite fsum_split, (fsum_zero (m - n)); [sring|]. intros; apply Hf; lia.
Qed.

Lemma peval_upto l m x : length l <= m -> peval l x = fsum m (fun i => coef l i * fpow x i)%F.
Proof.
  intros H. unfold peval. symmetry. apply fsum_extend; auto. intros i Hi. rewrite coef_out by auto. ring.
Qed.

Lemma pmul_upto l1 l2 m n : length l1 <= m ->
  pmul l1 l2 n = fsum m (fun i => if i <=? n then coef l1 i * coef l2 (n - i)%nat else 0)%F.
Proof.
  intros H. unfold pmul.
  transitivity (fsum (S n) (fun i => if i <=? n then coef l1 i * coef l2 (n - i)%nat else 0)%F).
  { apply fsum_ext. intros i Hi. destruct (Nat.leb_spec i n); [auto|lia]. }
  assert (X : forall N, fsum (S n + m) (fun i => if i <=? n then coef l1 i * coef l2 (n - i)%nat else 0)%F = N -> N = N) by auto.
  clear X. transitivity (fsum (S n + m) (fun i => if i <=? n then coef l1 i * coef l2 (n - i)%nat else 0)%F); [symmetry|].
  - apply fsum_extend; [lia|]. intros i Hi. destruct (Nat.leb_spec i n); [lia|auto].
  - apply fsum_extend; [lia|]. intros i Hi. destruct (i <=? n); auto. rewrite coef_out by lia. ring.
Qed.

Lemma pmul_eval l1 l2 m x : length l1 <= m -> length l2 <= m ->
  fsum (2 * m) (fun n => pmul l1 l2 n * fpow x n)%F = (peval l1 x * peval l2 x)%F.
Proof.
  intros H1 H2.
  transitivity (fsum (2 * m) (fun n => fsum m (fun i => if i <=? n then coef l1 i * coef l2 (n - i)%nat * fpow x n else 0))%F).
  { apply fsum_ext. intros n _. rewrite (pmul_upto l1 l2 m) by auto. rewrite fsum_mul_r. apply fsum_ext. intros i _.
    destruct (i <=? n); ring. }
  rewrite fsum_swap, (peval_upto l1 m) by auto. rewrite fsum_mul_r. apply fsum_ext. intros i Hi.
  replace (2 * m) with (i + (2 * m - i)) by lia. rewrite (fsum_shift i _ (fun n => coef l1 i * coef l2 (n - i)%nat * fpow x n)%F).
  transitivity (fsum (2 * m - i) (fun j => (coef l1 i * fpow x i) * (coef l2 j * fpow x j))%F).
  { apply fsum_ext. intros j _. replace (i + j - i) with j by lia. rewrite fpow_add. ring. }
  rewrite <- fsum_mul_l. f_equal. rewrite (peval_upto l2 m) by auto. apply fsum_extend; [lia|].
  intros k Hk. rewrite coef_out by lia. ring.
Qed.

Lemma pmul_high l1 l2 m n : length l1 <= m -> length l2 <= m -> 2 * m - 1 <= n -> pmul l1 l2 n = fzero.
Proof.
  intros H1 H2 Hn. unfold pmul. apply fsum_zero. intros i Hi. destruct (Nat.le_gt_cases m i).
  - rewrite (coef_out l1) by lia. ring.
  - rewrite (coef_out l2) by lia. ring.
Qed.

(** ** Division by [x^m - 1] *)
Section Division.
Variables (w : P) (e : nat) (A B C : list P).
Hypothesis Hw : prim w e.
Let m := 2 ^ e.
Hypothesis LA : length A <= m.
Hypothesis LB : length B <= m.
Hypothesis LC : length C <= m.
Hypothesis vanish : forall k, k < m -> (peval A (fpow w k) * peval B (fpow w k))%F = peval C (fpow w k).

Definition Pn (n : nat) : P := (pmul A B n - coef C n)%F.
Definition Qq : list P := map (fun i => Pn (i + m)) (seq 0 m).

Lemma Pn_eval x : fsum (2 * m) (fun n => Pn n * fpow x n)%F = (peval A x * peval B x - peval C x)%F.
Proof.
  rewrite <- (pmul_eval A B m x) by auto. rewrite (peval_upto C (2 * m)) by lia. rewrite <- fsum_sub. apply fsum_ext.
  intros n _. unfold Pn. sring.
Qed.

Lemma Pn_fold x : fpow x m = fone -> fsum m (fun i => (Pn i + Pn (i + m)%nat) * fpow x i)%F = (peval A x * peval B x - peval C x)%F.
Proof.
  intros Hx. rewrite <- Pn_eval. replace (2 * m) with (m + m) by lia. rewrite fsum_split, <- fsum_add. apply fsum_ext.
  intros i _. rewrite (Nat.add_comm m i), (fpow_add x i m), Hx. sring.
Qed.

Lemma Pn_vanish i : i < m -> (Pn i + Pn (i + m)%nat)%F = fzero.
Proof.
  intros Hi. set (f := fun i => (Pn i + Pn (i + m)%nat)%F).
  pose proof (dft_inverse (M := SM) w e f i Hw Hi) as D. change (f i = fzero). rewrite <- D.
  assert (Z : forall k, k < m -> dft (M := SM) w m f k = fzero).
  { intros k Hk. unfold dft.
    transitivity (fsum m (fun i => f i * fpow (fpow w k) i)%F).
    - apply fsum_ext. intros j _. cbn. rewrite <- fpow_mul. rewrite (Nat.mul_comm k). sring.
    - unfold f. rewrite Pn_fold.
      + rewrite vanish by auto. sring.
      + rewrite <- fpow_mul. apply fpow_mod. now apply prim_pow. }
  fold m. replace (dft (M := SM) (finv w) m (dft (M := SM) w m f) i) with (fzero : P).
  - sring.
  - symmetry. unfold dft at 1. apply (gsum_zero (M := SM)). intros j Hj. rewrite Z by auto. sring.
Qed.

Lemma Qq_length : length Qq = m.
Proof. unfold Qq. now rewrite map_length, seq_length. Qed.
Lemma coef_Qq i : coef Qq i = if i <? m then Pn (i + m) else fzero.
Proof.
  unfold coef. destruct (Nat.ltb_spec i m).
  - unfold Qq. now rewrite nth_map_seq.
  - apply nth_overflow. now rewrite Qq_length.
Qed.

Lemma Qq_coeffs n : (pmul A B n - coef C n)%F = ((if n <? m then 0 else coef Qq (n - m)%nat) - coef Qq n)%F.
Proof.
  change (pmul A B n - coef C n)%F with (Pn n). rewrite !coef_Qq. destruct (Nat.ltb_spec n m) as [Hn|Hn].
  - pose proof (Pn_vanish n Hn) as V. transitivity (Pn n + Pn (n + m)%nat - Pn (n + m)%nat)%F; [sring|]. rewrite V. sring.
  - destruct (Nat.ltb_spec (n - m) m).
    + replace (n - m + m) with n by lia. sring.
    + unfold Pn. rewrite (pmul_high A B m) by lia. rewrite coef_out by lia. sring.
Qed.

Lemma Qq_eval x : (peval A x * peval B x - peval C x)%F = (peval Qq x * (fpow x m - 1))%F.
Proof.
  rewrite <- Pn_eval. replace (2 * m) with (m + m) by lia. rewrite fsum_split.
  unfold peval. rewrite Qq_length.
  transitivity (fsum m (fun i => - (coef Qq i * fpow x i)) + fpow x m * fsum m (fun i => coef Qq i * fpow x i))%F.
  - rewrite fsum_mul_l. f_equal; apply fsum_ext; intros i Hi; rewrite coef_Qq; apply Nat.ltb_lt in Hi as Hi'; rewrite Hi'.
    + pose proof (Pn_vanish i Hi) as V. transitivity ((Pn i + Pn (i + m)%nat) * fpow x i - Pn (i + m)%nat * fpow x i)%F; [sring|]. rewrite V. sring.
    + rewrite (Nat.add_comm m i), fpow_add. sring.
  - transitivity ((- (1)) * fsum m (fun i => coef Qq i * fpow x i) + fpow x m * fsum m (fun i => coef Qq i * fpow x i))%F; [|sring].
    f_equal. rewrite fsum_mul_l. apply fsum_ext. intros; sring.
Qed.

Lemma Qq_last : coef Qq (m - 1) = fzero.
Proof.
  rewrite coef_Qq. destruct (Nat.ltb_spec (m - 1) m); auto. unfold Pn. pose proof (pow2_gt0 e). fold m in H0.
  rewrite (pmul_high A B m) by lia. rewrite coef_out by lia. sring.
Qed.
End Division.

(** ** The code *)
Lemma peval_dft (l : list P) n w k x : length l <= n -> 
  dft (M := SM) w n (fun j => fpow x j * coef l j)%F k = peval l (x * fpow w k)%F.
Proof.
  intros H. rewrite (peval_upto l n) by auto. unfold dft. apply fsum_ext. intros j _. cbn.
  rewrite fpow_mul_base, <- fpow_mul, (Nat.mul_comm k). sring.
Qed.

(** [l] are the coefficients of the polynomial of degree below [2^e] with values [v] on the domain. *)
Definition interpolates (w : P) (e : nat) (l v : list P) : Prop :=
  length l <= 2 ^ e /\ forall k, k < 2 ^ e -> peval l (fpow w k) = coef v k.

Lemma interpolates_unique w e l l' v : prim w e -> interpolates w e l v -> interpolates w e l' v -> forall n, coef l n = coef l' n.
Proof.
  intros Hw [L H] [L' H'] n. destruct (Nat.le_gt_cases (2 ^ e) n) as [Hn|Hn]; [now rewrite !coef_out by lia|].
  rewrite <- (dft_inverse (M := SM) w e (coef l) n Hw Hn), <- (dft_inverse (M := SM) w e (coef l') n Hw Hn).
  f_equal. unfold dft at 1 3. apply (gsum_ext (M := SM)). intros k Hk. f_equal.
  assert (E : forall l, length l <= 2 ^ e -> dft (M := SM) w (2 ^ e) (coef l) k = peval l (fpow w k)).
  { intros l0 L0. transitivity (peval l0 (1 * fpow w k)%F); [|f_equal; sring]. rewrite <- (peval_dft l0 (2 ^ e)) by auto.
    unfold dft. apply (gsum_ext (M := SM)). intros j _. cbn. rewrite fpow_one. sring. }
  rewrite !E by auto. now rewrite H, H'.
Qed.

Notation Dom := (EvalDomain SM).

Lemma ifft_interp (wk : Worker) (d : Dom) : wf_worker wk -> ok_domain d -> exists l : list P, ifft wk d = Done (with_coeffs d l) /\
  length l = 2 ^ d_exp d /\ interpolates (omega d) (d_exp d) l (coeffs d).
Proof.
  intros Hk H. rewrite ifft_eq by auto. eexists. split; [reflexivity|]. split; [rewrite map_length; apply dftl_length|].
  set (l := map _ _). assert (L : @length (F P) l = 2 ^ d_exp d) by (unfold l; rewrite map_length; apply dftl_length).
  split; [lia|]. intros k Hk'. transitivity (peval l (1 * fpow (omega d) k)%F); [f_equal; sring|].
  rewrite <- (peval_dft l (2 ^ d_exp d)) by lia.
  pose proof (dft_inverse' (M := SM) (omega d) (d_exp d) (coef (coeffs d)) k (ok_prim _ H) Hk') as D. rewrite <- D.
  unfold dft at 1 2. apply (gsum_ext (M := SM)). intros j Hj. f_equal. rewrite fpow_one.
  unfold coef at 1. unfold l. rewrite (nth_indep _ _ (minv d *g (gzero : SM))) by (now rewrite map_length, dftl_length).
  rewrite (map_nth (fun v => minv d *g v)), nth_dftl by auto. rewrite (ok_minv _ H), (ok_winv _ H). cbn. unfold coef. sring.
Qed.

Lemma coset_vals (wk : Worker) (d : Dom) (l : list P) : wf_worker wk -> ok_domain (with_coeffs d l) ->
  exists v : list P, coset_fft wk (with_coeffs d l) = Done (with_coeffs d v) /\ length v = 2 ^ d_exp d /\
    forall k, k < 2 ^ d_exp d -> coef v k = peval l (generator P * fpow (omega d) k)%F.
Proof.
  intros Hk H. rewrite coset_fft_eq by auto. cbn [with_coeffs coeffs omega d_exp]. eexists. split; [reflexivity|].
  split; [apply dftl_length|]. intros k Hk'. etransitivity; [exact (nth_dftl (M := SM) (omega d) _ _ _ Hk')|].
  assert (L : @length (F P) l = 2 ^ d_exp d) by exact (ok_len _ H).
  rewrite <- (peval_dft l (2 ^ d_exp d)) by lia. unfold dft. apply (gsum_ext (M := SM)). intros j Hj. f_equal.
  rewrite (nth_mapi _ _ (gzero : SM)) by (now rewrite <- L in Hj). reflexivity.
Qed.

Lemma mapi_coef (f : nat -> P -> P) (l : list P) k : k < length l -> coef (mapi f l) k = f k (coef l k).
Proof. intros. unfold coef. now rewrite (nth_mapi f l fzero). Qed.

Theorem prover_h_spec (wk : Worker) (pa pb pc : list P) e : wf_worker wk -> e < two_adicity P ->
  least_pow (length pa) e -> length pb = length pa -> length pc = length pa ->
  let w := sqn fmul (root_of_unity P) (two_adicity P - e) in
  (forall k, (coef pa k * coef pb k)%F = coef pc k) ->
  forall A B C, interpolates w e A pa -> interpolates w e B pb -> interpolates w e C pc ->
  exists h, prover_h wk pa pb pc = Done (Ok h) /\ length h = 2 ^ e - 1 /\
    (forall n, (pmul A B n - coef C n)%F = ((if n <? 2 ^ e then 0 else coef h (n - 2 ^ e)%nat) - coef h n)%F) /\
    (forall x, (peval A x * peval B x - peval C x)%F = (peval h x * (fpow x (2 ^ e) - 1))%F).
Proof.
  intros Hk He Hle Lb Lc w Hv A B C IA IB IC.
  assert (Hw : prim w e) by now apply root_prim.
  pose proof (from_coeffs_spec (M := SM) pa e Hle) as Fa.
  pose proof (from_coeffs_spec (M := SM) pb e (eq_ind_r (fun n => least_pow n e) Hle Lb)) as Fb.
  pose proof (from_coeffs_spec (M := SM) pc e (eq_ind_r (fun n => least_pow n e) Hle Lc)) as Fc.
  apply Nat.ltb_lt in He as He'. rewrite He' in Fa, Fb, Fc.
  destruct Fa as (da & Ea & Oa & Xa & Ca & Wa), Fb as (db & Eb & Ob & Xb & Cb & Wb), Fc as (dc & Ec & Oc & Xc & Cc & Wc).
  assert (Pad : forall (l : list P) n k, coef (l ++ repeat (gzero : SM) n) k = coef l k).
  { intros l n k. unfold coef. destruct (Nat.lt_ge_cases k (length l)); [now rewrite app_nth1|].
    rewrite app_nth2 by auto. rewrite (nth_overflow l) by auto. clear. generalize (k - length l). induction n; intros [|k']; cbn; auto. }
  unfold prover_h. rewrite Ea, Eb, Ec. cbn [obindr obind].
  destruct (ifft_interp wk da Hk Oa) as (la & Ia & La' & Inta). rewrite Ia. cbn [obind].
  destruct (ifft_interp wk db Hk Ob) as (lb & Ib & Lb' & Intb).
  destruct (ifft_interp wk dc Hk Oc) as (lc & Ic & Lc' & Intc).
  destruct (coset_vals wk da la Hk (ok_with _ _ Oa La')) as (va & Va & LVa & HVa). rewrite Va. cbn [obind]. rewrite Ib. cbn [obind].
  destruct (coset_vals wk db lb Hk (ok_with _ _ Ob Lb')) as (vb & Vb & LVb & HVb). rewrite Vb. cbn [obind]. rewrite Ic. cbn [obind].
  destruct (coset_vals wk dc lc Hk (ok_with _ _ Oc Lc')) as (vc & Vc & LVc & HVc). rewrite Vc. cbn [obind].
  rewrite Xa in *. rewrite Xb in *. rewrite Xc in *. rewrite Wa, Wb, Wc in *. fold w in Inta, Intb, Intc, HVa, HVb, HVc.
  assert (EA : forall n, coef la n = coef A n).
  { apply (interpolates_unique w e la A pa Hw); auto. destruct Inta as [? Hi]. split; auto. intros k Hk'. rewrite Hi, Ca by auto. apply Pad. }
  assert (EB : forall n, coef lb n = coef B n).
  { apply (interpolates_unique w e lb B pb Hw); auto. destruct Intb as [? Hi]. split; auto. intros k Hk'. rewrite Hi, Cb by auto. apply Pad. }
  assert (EC : forall n, coef lc n = coef C n).
  { apply (interpolates_unique w e lc C pc Hw); auto. destruct Intc as [? Hi]. split; auto. intros k Hk'. rewrite Hi, Cc by auto. apply Pad. }
  destruct IA as [LA IA], IB as [LB IB], IC as [LC IC].
  assert (PE : forall l l' x, length l <= 2 ^ e -> length l' <= 2 ^ e -> (forall n, coef l n = coef l' n) -> peval l x = peval l' x).
  { intros l l' x L1 L2 E. rewrite (peval_upto l (2 ^ e)), (peval_upto l' (2 ^ e)) by auto. apply fsum_ext. intros i _. now rewrite E. }
  assert (Van : forall k, k < 2 ^ e -> (peval A (fpow w k) * peval B (fpow w k))%F = peval C (fpow w k)).
  { intros k Hk'. rewrite IA, IB, IC by auto. apply Hv. }
  set (Q := Qq e A B C). assert (LQ : length Q = 2 ^ e) by apply Qq_length.
  assert (Hpos : 0 < scope_chunk wk (2 ^ e)) by (apply scope_chunk_pos; auto; apply pow2_gt0).
  (* mul_assign *)
  unfold mul_assign. cbn [with_coeffs coeffs]. change (@length (G P SM)) with (@length (F P)) in *. rewrite LVa, LVb, Nat.eqb_refl.
  rewrite (par_zip_spec wk (2 ^ e) _ va vb fzero) by (auto; lia). cbn [set_coeffs obind]. 
  set (v1 := mapi _ va). assert (Lv1 : length v1 = 2 ^ e) by (unfold v1; now rewrite mapi_length).
  (* sub_assign *)
  unfold sub_assign. cbn [with_coeffs coeffs]. change (@length (G P SM)) with (@length (F P)) in *. rewrite Lv1, LVc, Nat.eqb_refl.
  rewrite (par_zip_spec wk (2 ^ e) _ v1 vc fzero) by (auto; lia). cbn [set_coeffs obind].
  set (v2 := mapi _ v1). assert (Lv2 : length v2 = 2 ^ e) by (unfold v2; now rewrite mapi_length).
  (* divide *)
  unfold divide_by_z_on_coset, z. cbn [with_coeffs coeffs]. change (@length (G P SM)) with (@length (F P)) in *. rewrite Lv2.
  assert (Hg : (fpow (generator P) (2 ^ e) - 1)%F <> fzero).
  { intros E. apply (generator_torsion e He). now apply fsub_0_eq. }
  rewrite (invert_unwrap_ok _ Hg). cbn [obind]. rewrite par_map_spec by auto. cbn [set_coeffs obind].
  set (v3 := map (fun v : SM => finv (fpow (generator P) (2 ^ e) - 1)%F *g v) v2).
  (* the vector is the coset transform of Q *)
  assert (E3 : Done (with_coeffs da v3) = coset_fft wk (with_coeffs da Q)).
  { assert (OQ : ok_domain (with_coeffs da Q)) by (apply ok_with; auto; now rewrite Xa).
    destruct (coset_vals wk da Q Hk OQ) as (vq & -> & LVq & HVq). do 2 f_equal. rewrite Xa, Wa in *. fold w in HVq.
    assert (Lv3 : @length (F P) v3 = 2 ^ e) by (unfold v3; rewrite map_length; exact Lv2).
    apply (nth_ext (A := F P) v3 vq fzero fzero); [now rewrite Lv3, LVq|].
    rewrite Lv3. intros k Hk'. unfold v3. change (nth k vq fzero) with (coef vq k). rewrite HVq by auto.
    set (x := (generator P * fpow w k)%F).
    rewrite (nth_indep _ _ ((finv (fpow (generator P) (2 ^ e) - 1)%F : P) *g (gzero : SM))) by (rewrite map_length; change (@length (G P SM)) with (@length (F P)); lia).
    rewrite (map_nth (fun v => (finv (fpow (generator P) (2 ^ e) - 1)%F : P) *g (v : SM))).
    change (nth k v2 gzero) with (coef v2 k). unfold v2. rewrite mapi_coef by lia. unfold v1. rewrite mapi_coef by lia.
    change (nth k vc fzero) with (coef vc k). change (nth k vb fzero) with (coef vb k).
    rewrite HVa, HVb, HVc by auto. fold x.
    rewrite (PE la A), (PE lb B), (PE lc C) by (auto; lia).
    assert (Hx : fpow x (2 ^ e) = fpow (generator P) (2 ^ e)).
    { unfold x. rewrite fpow_mul_base, <- fpow_mul, fpow_mod by now apply prim_pow. sring. }
    pose proof (Qq_eval w e A B C Hw LA LB LC Van x) as EQ. fold Q in EQ. rewrite Hx in EQ.
    transitivity (finv (fpow (generator P) (2 ^ e) - 1) * (peval A x * peval B x - peval C x))%F; [unfold gsub; sring|].
    rewrite EQ. transitivity (peval Q x * (finv (fpow (generator P) (2 ^ e) - 1) * (fpow (generator P) (2 ^ e) - 1)))%F; [sring|].
    rewrite finv_l by auto. sring. }
  assert (E4 : icoset_fft wk (with_coeffs da v3) = Done (with_coeffs da Q)).
  { pose proof (icoset_coset wk wk (with_coeffs da Q) Hk Hk) as I. rewrite <- E3 in I. apply I. apply ok_with; auto. now rewrite Xa. }
  change (with_coeffs (with_coeffs (with_coeffs (with_coeffs da va) v1) v2) v3) with (with_coeffs da v3). rewrite E4. cbn [obind with_coeffs coeffs]. rewrite LQ.
  pose proof (pow2_gt0 e). destruct (Nat.eqb_spec (2 ^ e) 0); [lia|].
  eexists. split; [reflexivity|]. set (h := firstn (2 ^ e - 1) Q).
  assert (Lh : length h = 2 ^ e - 1) by (unfold h; rewrite firstn_length; lia).
  assert (Ch : forall n, coef h n = coef Q n).
  { intros n0. unfold h, coef. destruct (Nat.lt_ge_cases n0 (2 ^ e - 1)).
    - rewrite <- (firstn_skipn (2 ^ e - 1) Q) at 2. rewrite app_nth1; auto. rewrite firstn_length. lia.
    - rewrite nth_overflow by (rewrite firstn_length; lia). destruct (Nat.eq_dec n0 (2 ^ e - 1)) as [->|].
      + symmetry. apply (Qq_last e A B C LA LB LC).
      + symmetry. apply nth_overflow. lia. }
  split; auto. split.
  - intros n0. rewrite !Ch. apply (Qq_coeffs w e A B C Hw LA LB LC Van).
  - intros x. rewrite (PE h Q) by (auto; lia). apply (Qq_eval w e A B C Hw LA LB LC Van).
Qed.
End Quotient.
