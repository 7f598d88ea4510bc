(** What the unit tests of src/domain.rs and src/multiexp.rs do. *)
From Coq Require Import ZArith List Bool Lia Field.
From Verif Require Import Prelude PrimeField FModule Multicore Domain FFTProof DomainProof Quotient Multiexp MultiexpProof PropDomain PropMultiexp UnitTests LibTests.
Import ListNotations.
Local Open Scope nat_scope.

Lemma each_done n f : forall i, (forall k, i <= k < i + n -> f k = Done tt) -> each i n f = Done tt.
Proof. induction n; intros i H; cbn [each]; [auto|]. rewrite H by lia. cbn [obind]. apply IHn. intros. apply H. lia. Qed.
Lemma each_panics n f : forall i k, i <= k < i + n -> f k = Panicked -> each i n f = Panicked.
Proof.
  induction n; intros i k H E; cbn [each]; [lia|]. destruct (Nat.eq_dec i k) as [->|]; [now rewrite E|].
  destruct (f i) as [[]|]; cbn [obind]; [|auto]. apply (IHn _ k); auto. lia.
Qed.
Lemma each_ext n f g : forall i, (forall k, i <= k < i + n -> f k = g k) -> each i n f = each i n g.
Proof. induction n; intros i H; cbn [each]; [auto|]. rewrite H by lia. destruct (g i) as [[]|]; cbn [obind]; [|auto]. apply IHn. intros. apply H. lia. Qed.

Section DomainTests.
Context {P : PrimeField}.
Add Field PFfield_lt : (F_field P).
Notation SM := (ScalarMod P).
Notation Dom := (EvalDomain SM).
Ltac sring := match goal with |- ?a = ?b => change (@eq (F P) a b) end; first [ring | cbn; ring].

Lemma drawn_length n (f : nat -> P) : length (drawn n f) = n.
Proof. unfold drawn. now rewrite map_length, seq_length. Qed.

Lemma veqb_eq (v w : list P) : veqb v w = true <-> v = w.
Proof.
  revert w. induction v as [|x v IH]; intros [|y w]; cbn [veqb]; try (split; [discriminate|discriminate]); [tauto|].
  rewrite andb_true_iff, IH, (feqb_eq P x y). split; [intros [-> ->]; auto|intros [= -> ->]; auto].
Qed.
Lemma veqb_refl (v : list P) : veqb v v = true. Proof. now apply veqb_eq. Qed.

Lemma zip_assert_ok (v w : list P) : (forall n, n < length v -> n < length w -> coef v n = coef w n) -> zip_assert v w = Done tt.
Proof.
  revert w. induction v as [|x v IH]; intros [|y w] H; cbn [zip_assert]; auto.
  assert (E : x = y) by (apply (H 0); cbn; lia). subst y. rewrite (proj2 (feqb_eq P x x) eq_refl). cbn [assert obind].
  apply IH. intros n Hn Hn'. apply (H (S n)); cbn; lia.
Qed.

(** ** The naive product *)
Lemma peval_upd (l : list P) i c x : i < length l -> peval (upd i (nth i l fzero + c)%F l) x = (peval l x + c * fpow x i)%F.
Proof.
  intros H. unfold peval. rewrite upd_length.
  transitivity (fsum (length l) (fun k => coef l k * fpow x k + (if k =? i then c * fpow x i else 0))%F).
  - apply fsum_ext. intros k Hk. unfold coef. destruct (Nat.eqb_spec k i) as [->|N].
    + rewrite nth_upd_same by auto. ring.
    + rewrite nth_upd_other by auto. ring.
  - rewrite fsum_add. f_equal. unfold fsum. rewrite (gsum_single (M := SM) _ i) by (auto; intros k _ N; now destruct (Nat.eqb_spec k i)).
    now rewrite Nat.eqb_refl.
Qed.
Lemma peval_cons (y : P) l x : peval (y :: l) x = (y + x * peval l x)%F.
Proof.
  unfold peval. cbn [length]. assert (X : forall n (h : nat -> P), fsum (S n) h = (h 0%nat + fsum n (fun i => h (S i)))%F) by (intros; unfold fsum; apply (gsum_S_l (M := SM))).
  rewrite X. unfold coef at 1. cbn [nth fpow]. rewrite fsum_mul_l. f_equal; [sring|]. apply fsum_ext. intros i _. unfold coef. cbn [nth]. cbn [fpow]. ring.
Qed.

Lemma naive_row_spec (b : list P) : forall i (x : P) nv, i + length b <= length nv ->
  exists nv', naive_row i x b nv = Done nv' /\ length nv' = length nv /\
    forall z, peval nv' z = (peval nv z + x * fpow z i * peval b z)%F.
Proof.
  induction b as [|y b IH]; intros i x nv H; cbn [naive_row length] in *.
  - exists nv. repeat split. intros z. unfold peval at 3. cbn. ring.
  - destruct (Nat.ltb_spec i (length nv)); [|lia].
    destruct (IH (S i) x (upd i (nth i nv fzero + x * y)%F nv)) as (nv' & E & L & Hz); [rewrite upd_length; lia|].
    exists nv'. rewrite upd_length in L. repeat split; auto. intros z. rewrite Hz, peval_upd by auto. rewrite peval_cons. cbn [fpow]. ring.
Qed.
Lemma naive_mul_spec (a : list P) : forall i b nv, i + length a + length b <= length nv ->
  exists nv', naive_mul i a b nv = Done nv' /\ length nv' = length nv /\
    forall z, peval nv' z = (peval nv z + fpow z i * (peval a z * peval b z))%F.
Proof.
  induction a as [|x a IH]; intros i b nv H; cbn [naive_mul length] in *.
  - exists nv. repeat split. intros z. unfold peval at 3. cbn. ring.
  - destruct (naive_row_spec b i x nv) as (n1 & E1 & L1 & H1); [lia|]. rewrite E1. cbn [obind].
    destruct (IH (S i) b n1) as (nv' & E & L & Hz); [lia|]. exists nv'. repeat split; [auto|congruence|].
    intros z. rewrite Hz, H1, peval_cons. cbn [fpow]. ring.
Qed.
Lemma peval_repeat n x : peval (repeat (fzero : P) n) x = fzero.
Proof. unfold peval. apply fsum_zero. intros i _. unfold coef. rewrite nth_repeat. ring. Qed.
Lemma peval_pad (l : list P) n x : peval (l ++ repeat fzero n) x = peval l x.
Proof.
  rewrite (peval_upto l (length l + n)) by lia. unfold peval. rewrite app_length, repeat_length. apply fsum_ext. intros i Hi. f_equal.
  unfold coef. destruct (Nat.lt_ge_cases i (length l)); [now rewrite app_nth1|]. rewrite app_nth2 by auto. rewrite nth_repeat. now rewrite nth_overflow.
Qed.

Lemma fft_vals (wk : Worker) (d : Dom) : wf_worker wk -> ok_domain d -> exists v : list P, fft wk d = Done (with_coeffs d v) /\
  length v = 2 ^ d_exp d /\ forall k, k < 2 ^ d_exp d -> coef v k = peval (coeffs d) (fpow (omega d) k).
Proof.
  intros Hk H. rewrite fft_eq by auto. eexists. split; [reflexivity|]. split; [apply dftl_length|].
  intros k Hk'. etransitivity; [exact (nth_dftl (M := SM) (omega d) _ _ _ Hk')|].
  transitivity (peval (coeffs d) (1 * fpow (omega d) k)%F); [|f_equal; sring].
  assert (L : @length (F P) (coeffs d) = 2 ^ d_exp d) by exact (ok_len _ H).
  rewrite <- (peval_dft (coeffs d) (2 ^ d_exp d)) by lia. unfold dft. apply (gsum_ext (M := SM)). intros j Hj. f_equal.
  rewrite fpow_one. cbn. unfold coef. sring.
Qed.

Lemma resize_length n (v : list P) : length v <= n -> length (resize n v) = n.
Proof. intros. unfold resize. rewrite app_length, repeat_length. lia. Qed.

Lemma mul_round_spec (wk : Worker) (a b : list P) e : wf_worker wk -> least_pow (length a + length b) e ->
  mul_round wk a b = if e <? two_adicity P then Done tt else Panicked.
Proof.
  intros Hk He. unfold mul_round.
  destruct (naive_mul_spec a 0 b (repeat fzero (length a + length b))) as (nv & En & Ln & Hn); [rewrite repeat_length; lia|].
  rewrite En. cbn [obind]. clear En. rewrite repeat_length in Ln.
  set (n := length a + length b) in *.
  assert (La : length (resize n a) = n) by (apply resize_length; lia). assert (Lb : length (resize n b) = n) by (apply resize_length; lia).
  pose proof (from_coeffs_spec (M := SM) (resize n a) e (eq_ind_r (fun n => least_pow n e) He La)) as Fa.
  pose proof (from_coeffs_spec (M := SM) (resize n b) e (eq_ind_r (fun n => least_pow n e) He Lb)) as Fb.
  destruct (Nat.ltb_spec e (two_adicity P)) as [Hlt|Hge]; [|now rewrite Fa].
  destruct Fa as (da & Ea & Oa & Xa & Ca & Wa), Fb as (db & Eb & Ob & Xb & Cb & Wb).
  rewrite Ea, Eb. cbn [obind unwrap].
  destruct (fft_vals wk da Hk Oa) as (va & Va & LVa & HVa). rewrite Va. cbn [obind].
  destruct (fft_vals wk db Hk Ob) as (vb & Vb & LVb & HVb). rewrite Vb. cbn [obind].
  rewrite Xa in *. rewrite Xb in *.
  assert (Hpos : 0 < scope_chunk wk (2 ^ e)) by (apply scope_chunk_pos; auto; apply pow2_gt0).
  unfold mul_assign. cbn [with_coeffs coeffs]. change (@length (G P SM)) with (@length (F P)) in *. rewrite LVa, LVb, Nat.eqb_refl.
  rewrite (par_zip_spec wk (2 ^ e) _ va vb fzero) by (auto; lia). cbn [set_coeffs obind]. rewrite with_with.
  set (v1 := mapi _ va). assert (Lv1 : length v1 = 2 ^ e) by (unfold v1; now rewrite mapi_length).
  assert (O1 : ok_domain (with_coeffs da v1)) by (apply ok_with; auto; rewrite Xa; exact Lv1).
  destruct (ifft_interp wk (with_coeffs da v1) Hk O1) as (l & El & Ll & Hl). 
  change ((do da0 <- ifft wk (with_coeffs da v1); zip_assert nv (coeffs da0)) = Done tt). rewrite El. cbn [obind with_coeffs coeffs].
  apply zip_assert_ok. intros k _ _. cbn [with_coeffs omega d_exp coeffs] in Hl.
  apply (interpolates_unique (omega da) (d_exp da) nv l v1); [apply Oa| |exact Hl].
  rewrite Xa. split; [rewrite Ln; apply He|]. intros j Hj.
  unfold v1. rewrite (mapi_coef _ va) by lia. cbn. fold (coef vb j). rewrite HVa, HVb by auto.
  rewrite Ca, Cb, Hn, !peval_pad, peval_repeat. unfold resize. rewrite !peval_pad. rewrite Wa, Wb. cbn [fpow]. ring.
Qed.

Lemma polynomial_arith_spec (wk : Worker) a b : wf_worker wk ->
  polynomial_arith (P := P) wk a b = if 8 <? two_adicity P then Done tt else Panicked.
Proof.
  intros Hk. unfold polynomial_arith. destruct (Nat.ltb_spec 8 (two_adicity P)) as [H|H].
  - apply each_done. intros ca Ha. apply each_done. intros cb Hb.
    destruct (least_pow_ex (ca + cb)) as [e He]. rewrite (mul_round_spec wk _ _ e Hk) by (rewrite !drawn_length; auto).
    assert (e <= 8). { apply He. cbn. lia. } destruct (Nat.ltb_spec e (two_adicity P)); [auto|lia].
  - apply (each_panics _ _ 0 69); [lia|]. apply (each_panics _ _ 0 69); [lia|].
    rewrite (mul_round_spec wk _ _ 8 Hk).
    + destruct (Nat.ltb_spec 8 (two_adicity P)); [lia|auto].
    + rewrite !drawn_length. split; [cbn; lia|]. intros e' H'. destruct (Nat.le_gt_cases 8 e'); auto.
      assert (2 ^ e' <= 2 ^ 7) by (apply Nat.pow_le_mono_r; lia). cbn in H', H1. lia.
Qed.

(** ** Composition *)
Lemma least_pow_pow e : least_pow (2 ^ e) e.
Proof. split; [lia|]. intros e' H. apply Nat.pow_le_mono_r_iff in H; lia. Qed.

Lemma from_coeffs_pow (v : list P) e : length v = 2 ^ e ->
  if e <? two_adicity P then exists d, from_coeffs (M := SM) v = Done (Ok d) /\ ok_domain d /\ d_exp d = e /\ coeffs d = v /\ omega d = sqn fmul (root_of_unity P) (two_adicity P - e)
  else from_coeffs (M := SM) v = Done (Err PolynomialDegreeTooLarge).
Proof.
  intros L. pose proof (from_coeffs_spec (M := SM) v e (eq_ind_r (fun n => least_pow n e) (least_pow_pow e) L)) as X.
  destruct (e <? two_adicity P); auto. destruct X as (d & E & O & Xd & C & W). exists d. split; [auto|]. split; [auto|]. split; [auto|]. split; [|auto].
  rewrite C. replace (2 ^ e - _) with 0 by (change (@length (G P SM) v) with (@length (F P) v); lia). cbn. apply app_nil_r.
Qed.

Lemma two_steps {A} (f g : A -> outcome A) d (k : A -> outcome unit) : obind (f d) g = Done d -> (do x <- f d; do x <- g x; k x) = k d.
Proof. destruct (f d); cbn [obind]; [|discriminate]. intros ->. auto. Qed.

Lemma comp_round_spec (wk : Worker) (v : list P) e : wf_worker wk -> length v = 2 ^ e ->
  comp_round wk v = if e <? two_adicity P then Done tt else Panicked.
Proof.
  intros Hk L. unfold comp_round. pose proof (from_coeffs_pow v e L) as X. destruct (e <? two_adicity P); [|now rewrite X].
  destruct X as (d & E & O & _ & C & _). rewrite E. cbn [obind unwrap].
  rewrite (two_steps (ifft wk) (fft wk) d) by (now apply fft_ifft). rewrite C, veqb_refl. cbn [assert obind].
  rewrite (two_steps (fft wk) (ifft wk) d) by (now apply ifft_fft). rewrite C, veqb_refl. cbn [assert obind].
  rewrite (two_steps (icoset_fft wk) (coset_fft wk) d) by (now apply coset_icoset). rewrite C, veqb_refl. cbn [assert obind].
  rewrite (two_steps (coset_fft wk) (icoset_fft wk) d) by (now apply icoset_coset). now rewrite C, veqb_refl.
Qed.

Lemma fft_composition_spec (wk : Worker) v : wf_worker wk ->
  fft_composition (P := P) wk v = if 9 <? two_adicity P then Done tt else Panicked.
Proof.
  intros Hk. unfold fft_composition. destruct (Nat.ltb_spec 9 (two_adicity P)) as [H|H].
  - apply each_done. intros c Hc. rewrite (comp_round_spec wk _ c Hk (drawn_length _ _)). destruct (Nat.ltb_spec c (two_adicity P)); [auto|lia].
  - apply (each_panics _ _ 0 9); [lia|]. rewrite (comp_round_spec wk _ 9 Hk (drawn_length _ _)). destruct (Nat.ltb_spec 9 (two_adicity P)); [lia|auto].
Qed.

(** ** Consistency *)
(** The round makes one comparison for [log_d] up to two, and none from three on. *)
Lemma consistency_round_spec (pfft : FFT) (wk : Worker) log_d (v : list P) : length v = 2 ^ log_d ->
  consistency_round pfft wk log_d v =
    if log_d <? two_adicity P then
      if log_d <? 3 then
        do v1 <- pfft v wk (sqn fmul (root_of_unity P) (two_adicity P - log_d)) log_d log_d;
        do v2 <- serial_fft (M := SM) v (sqn fmul (root_of_unity P) (two_adicity P - log_d)) log_d;
        assert (veqb v1 v2)
      else Done tt
    else Panicked.
Proof.
  intros L. unfold consistency_round. pose proof (from_coeffs_pow v log_d L) as X. destruct (log_d <? two_adicity P); [|now rewrite X].
  destruct X as (d & E & O & _ & C & W). rewrite E. cbn [obind unwrap]. rewrite C, E. cbn [obind unwrap]. rewrite W, C.
  destruct (Nat.ltb_spec log_d 3).
  - replace (Nat.min (log_d + 1) 3 - log_d) with 1 by lia. cbn [cpus_loop].
    destruct (pfft v wk _ log_d log_d) as [v1|]; cbn [obind]; auto.
    destruct (serial_fft v _ log_d) as [v2|]; cbn [obind]; auto. destruct (veqb v1 v2); reflexivity.
  - replace (Nat.min (log_d + 1) 3 - log_d) with 0 by lia. reflexivity.
Qed.
End DomainTests.

(** ** Multiexponentiation *)
Section MultiexpTest.
Context {P : PrimeField} {M : FMod P}.

Lemma fold_naive (bases : list M) : forall (exps : list P) acc, length bases = length exps ->
  fold_left (fun acc be => acc +g snd be *g fst be)%G (combine bases exps) acc =
  (acc +g gsum (length exps) (fun i => nth i exps fzero *g nth i bases gzero))%G.
Proof.
  induction bases as [|b bases IH]; intros [|x exps] acc L; cbn [length combine fold_left] in *; try lia; [cbn; now rewrite gadd_0_r|].
  rewrite IH by lia. rewrite gsum_S_l. cbn [nth fst snd]. now rewrite gadd_assoc.
Qed.
End MultiexpTest.

(** ** The product of two polynomials through the domain *)
Section Product.
Context {P : PrimeField}.
Add Field PFfield_lt2 : (F_field P).
Notation SM := (ScalarMod P).

(** The operations of src/domain.rs:404-413, for any two lists of coefficients, with the errors kept. *)
Definition product (wk : Worker) (a b : list P) : outcome (res (list P)) :=
  obindr (from_coeffs (M := SM) (resize (length a + length b) a)) (fun da =>
  obindr (from_coeffs (M := SM) (resize (length a + length b) b)) (fun db =>
  do da <- fft wk da; do db <- fft wk db; do da <- mul_assign wk da db; do da <- ifft wk da; Done (Ok (coeffs da)))).

Lemma pmul_out (a b : list P) n : length a + length b <= n -> pmul a b n = fzero.
Proof.
  intros H. unfold pmul. apply fsum_zero. intros i Hi. destruct (Nat.lt_ge_cases i (length a)).
  - rewrite (coef_out b) by lia. ring.
  - rewrite (coef_out a) by lia. ring.
Qed.

Lemma pmul_peval (a b : list P) x : peval (map (pmul a b) (seq 0 (length a + length b))) x = (peval a x * peval b x)%F.
Proof.
  set (m := length a + length b). rewrite <- (pmul_eval a b m x) by lia.
  rewrite (peval_upto _ (2 * m)) by (rewrite map_length, seq_length; lia). apply fsum_ext. intros i Hi. f_equal.
  unfold coef. destruct (Nat.lt_ge_cases i m) as [H|H].
  - rewrite (nth_indep _ _ (pmul a b 0)) by (now rewrite map_length, seq_length). rewrite map_nth, seq_nth by auto. reflexivity.
  - rewrite nth_overflow by (now rewrite map_length, seq_length). symmetry. now apply pmul_out.
Qed.

Lemma product_spec (wk : Worker) (a b : list P) e : wf_worker wk -> least_pow (length a + length b) e ->
  if e <? two_adicity P then exists l, product wk a b = Done (Ok l) /\ length l = 2 ^ e /\ forall n, coef l n = pmul a b n
  else product wk a b = Done (Err PolynomialDegreeTooLarge).
Proof.
  intros Hk He. unfold product. set (n := length a + length b) in *.
  assert (La : length (resize n a) = n) by (apply resize_length; lia). assert (Lb : length (resize n b) = n) by (apply resize_length; lia).
  pose proof (from_coeffs_spec (M := SM) (resize n a) e (eq_ind_r (fun n => least_pow n e) He La)) as Fa.
  pose proof (from_coeffs_spec (M := SM) (resize n b) e (eq_ind_r (fun n => least_pow n e) He Lb)) as Fb.
  destruct (Nat.ltb_spec e (two_adicity P)) as [Hlt|Hge]; [|now rewrite Fa].
  destruct Fa as (da & Ea & Oa & Xa & Ca & Wa), Fb as (db & Eb & Ob & Xb & Cb & Wb).
  rewrite Ea, Eb. cbn [obind obindr].
  destruct (fft_vals wk da Hk Oa) as (va & Va & LVa & HVa). rewrite Va. cbn [obind].
  destruct (fft_vals wk db Hk Ob) as (vb & Vb & LVb & HVb). rewrite Vb. cbn [obind].
  rewrite Xa in *. rewrite Xb in *.
  assert (Hpos : 0 < scope_chunk wk (2 ^ e)) by (apply scope_chunk_pos; auto; apply pow2_gt0).
  unfold mul_assign. cbn [with_coeffs coeffs]. change (@length (G P SM)) with (@length (F P)) in *. rewrite LVa, LVb, Nat.eqb_refl.
  rewrite (par_zip_spec wk (2 ^ e) _ va vb fzero) by (auto; lia). cbn [set_coeffs obind]. rewrite with_with.
  set (v1 := mapi _ va). assert (Lv1 : length v1 = 2 ^ e) by (unfold v1; now rewrite mapi_length).
  assert (O1 : ok_domain (with_coeffs da v1)) by (apply ok_with; auto; rewrite Xa; exact Lv1).
  destruct (ifft_interp wk (with_coeffs da v1) Hk O1) as (l & El & Ll & Hl). 
  exists l. split; [|split].
  - exact (f_equal (fun o => do da0 <- o; Done (Ok (coeffs da0))) El).
  - cbn [with_coeffs d_exp] in Ll. now rewrite Ll, Xa.
  - intros k. cbn [with_coeffs omega d_exp coeffs] in Hl.
    transitivity (coef (map (pmul a b) (seq 0 n)) k).
    + symmetry. apply (interpolates_unique (omega da) (d_exp da) _ l v1); [apply Oa| |exact Hl].
      rewrite Xa. split; [rewrite map_length, seq_length; apply He|]. intros j Hj.
      unfold v1. rewrite (mapi_coef _ va) by lia. cbn. fold (coef vb j). rewrite HVa, HVb by auto.
      assert (Pa : forall z, peval (coeffs da) z = peval a z) by (intros z; rewrite Ca; etransitivity; [exact (peval_pad (resize n a) _ z)|apply peval_pad]).
      assert (Pb : forall z, peval (coeffs db) z = peval b z) by (intros z; rewrite Cb; etransitivity; [exact (peval_pad (resize n b) _ z)|apply peval_pad]).
      rewrite Pa, Pb, Wa, Wb. unfold n. rewrite pmul_peval. ring.
    + unfold coef. destruct (Nat.lt_ge_cases k n) as [H|H].
      * rewrite (nth_indep _ _ (pmul a b 0)) by (now rewrite map_length, seq_length). rewrite map_nth, seq_nth by auto. reflexivity.
      * rewrite nth_overflow by (now rewrite map_length, seq_length). symmetry. now apply pmul_out.
Qed.
End Product.

Section MultiexpCase.
Context {P : PrimeField} {M : FMod P}.
Lemma multiexp_case_spec ln_ceil (g : list M) (v : list P) : sane_ln_ceil ln_ceil -> (Z.of_nat (length v) < 2 ^ 32)%Z ->
  length g = length v ->
  (multiexp_case ln_ceil g v = Panicked <-> exists i, i < length v /\ nth i v fzero <> fzero /\ nth i g gzero = gzero).
Proof.
  intros Hl Hn L. unfold multiexp_case, naive_multiexp. rewrite L, Nat.eqb_refl. cbn [obind].
  rewrite fold_naive, gadd_0_l by auto.
  pose proof (C33_panics_iff ln_ceil g 0 None v Hl Hn) as Hp.
  pose proof (C33_fails_iff ln_ceil g 0 None v Hl Hn ltac:(discriminate)) as Hf.
  pose proof (C32_value ln_ceil g 0 None v) as Hv. cbn [as_density] in *.
  unfold too_few, meets_identity in Hf. cbn [dense_exponents] in Hf, Hv. rewrite Nat.sub_0_r in Hf.
  destruct (multiexp ln_ceil g 0 FullDensity (map exponent_of v)) as [[r|e]|]; cbn [obind unwrap].
  - specialize (Hv r Hl Hn eq_refl). unfold naive_sum in Hv. cbn [Nat.add] in Hv. rewrite <- Hv.
    rewrite (proj2 (geqb_eq _ _ r r) eq_refl). cbn. split; [discriminate|]. intros (i & Hi & Hx & Hz). exfalso.
    destruct (proj2 Hf) as [e E]; [|discriminate]. right. exists i. cbn [Nat.add]. repeat split; auto.
    rewrite <- Hz. apply nth_error_nth'. lia.
  - split; [intros _|auto]. destruct (proj1 Hf (ex_intro _ e eq_refl)) as [H|(i & Hi & Hx & Hz)]; [lia|].
    exists i. repeat split; auto. cbn [Nat.add] in Hz. now apply nth_error_nth.
  - destruct (proj1 Hp eq_refl) as (bits & E & _). discriminate.
Qed.
End MultiexpCase.
