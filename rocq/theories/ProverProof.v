(** What [create_proof] returns. *)
From Coq Require Import String.
From Coq Require Import ZArith List Bool Lia Field.
From Verif Require Import Prelude PrimeField FModule Circuit Multicore Domain FFTProof DomainProof Quotient Multiexp MultiexpProof PropMultiexp Assembly AssemblyProof Groth16 GeneratorProof.
Import ListNotations.
Local Open Scope nat_scope.

(** ** The prover's quotient never panics *)
Section Total.
Context {P : PrimeField}.
Notation SM := (ScalarMod P).

Lemma prover_h_total (wk : Worker) (pa pb pc : list P) e : wf_worker wk ->
  least_pow (length pa) e -> length pb = length pa -> length pc = length pa ->
  if e <? two_adicity P then exists h, prover_h wk pa pb pc = Done (Ok h) /\ length h = 2 ^ e - 1
  else prover_h wk pa pb pc = Done (Err PolynomialDegreeTooLarge).
Proof.
  intros Hk Hle Lb Lc.
  pose proof (from_coeffs_spec (M := SM) pa e Hle) as Fa.
  pose proof (from_coeffs_spec (M := SM) pb e (eq_ind_r (fun n => least_pow n e) Hle Lb)) as Fb.
  pose proof (from_coeffs_spec (M := SM) pc e (eq_ind_r (fun n => least_pow n e) Hle Lc)) as Fc.
  destruct (Nat.ltb_spec e (two_adicity P)) as [He|He]; [|unfold prover_h; now rewrite Fa].
  destruct Fa as (da & Ea & Oa & Xa & Ca & Wa), Fb as (db & Eb & Ob & Xb & Cb & Wb), Fc as (dc & Ec & Oc & Xc & Cc & Wc).
  unfold prover_h. rewrite Ea, Eb, Ec. cbn [obindr obind].
  destruct (ifft_interp wk da Hk Oa) as (la & Ia & La' & Inta). rewrite Ia. cbn [obind].
  destruct (ifft_interp wk db Hk Ob) as (lb & Ib & Lb' & Intb).
  destruct (ifft_interp wk dc Hk Oc) as (lc & Ic & Lc' & Intc).
  destruct (coset_vals wk da la Hk (ok_with _ _ Oa La')) as (va & Va & LVa & HVa). rewrite Va. cbn [obind]. rewrite Ib. cbn [obind].
  destruct (coset_vals wk db lb Hk (ok_with _ _ Ob Lb')) as (vb & Vb & LVb & HVb). rewrite Vb. cbn [obind]. rewrite Ic. cbn [obind].
  destruct (coset_vals wk dc lc Hk (ok_with _ _ Oc Lc')) as (vc & Vc & LVc & HVc). rewrite Vc. cbn [obind].
  rewrite Xa in *. rewrite Xb in *. rewrite Xc in *.
  assert (Hpos : 0 < scope_chunk wk (2 ^ e)) by (apply scope_chunk_pos; auto; apply pow2_gt0).
  unfold mul_assign. cbn [with_coeffs coeffs]. change (@length (G P SM)) with (@length (F P)) in *. rewrite LVa, LVb, Nat.eqb_refl.
  rewrite (par_zip_spec wk (2 ^ e) _ va vb fzero) by (auto; lia). cbn [set_coeffs obind]. 
  set (v1 := mapi _ va). assert (Lv1 : length v1 = 2 ^ e) by (unfold v1; now rewrite mapi_length).
  unfold sub_assign. cbn [with_coeffs coeffs]. change (@length (G P SM)) with (@length (F P)) in *. rewrite Lv1, LVc, Nat.eqb_refl.
  rewrite (par_zip_spec wk (2 ^ e) _ v1 vc fzero) by (auto; lia). cbn [set_coeffs obind].
  set (v2 := mapi _ v1). assert (Lv2 : length v2 = 2 ^ e) by (unfold v2; now rewrite mapi_length).
  unfold divide_by_z_on_coset, z. cbn [with_coeffs coeffs]. change (@length (G P SM)) with (@length (F P)) in *. rewrite Lv2.
  assert (Hg : (fpow (generator P) (2 ^ e) - 1)%F <> fzero).
  { intros E. apply (generator_torsion e He). now apply fsub_0_eq. }
  rewrite (invert_unwrap_ok _ Hg). cbn [obind]. rewrite par_map_spec by auto. cbn [set_coeffs obind].
  set (v3 := map (fun v : SM => finv (fpow (generator P) (2 ^ e) - 1)%F *g v) v2).
  assert (Lv3 : @length (F P) v3 = 2 ^ e) by (unfold v3; rewrite map_length; exact Lv2).
  rewrite !with_with. assert (O3 : ok_domain (with_coeffs da v3)) by (apply ok_with; auto; rewrite Xa; exact Lv3).
  unfold icoset_fft. rewrite ifft_eq by auto. cbn [obind]. rewrite distribute_eq; auto.
  2: { cbn [with_coeffs coeffs d_exp]. intros E0. apply (f_equal (@length _)) in E0. rewrite map_length, dftl_length in E0. cbn in E0. pose proof (pow2_gt0 (d_exp da)). lia. }
  cbn [obind with_coeffs coeffs d_exp]. rewrite Xa. change (@length (G P SM)) with (@length (F P)) in *.
  set (r := mapi _ _). assert (Lr : @length (F P) r = 2 ^ e) by (unfold r; rewrite mapi_length, map_length; apply dftl_length).
  rewrite Lr. pose proof (pow2_gt0 e). destruct (Nat.eqb_spec (2 ^ e) 0); [lia|]. eexists. split; [reflexivity|].
  change (@length (F P) (firstn (2 ^ e - 1) r) = 2 ^ e - 1). rewrite (firstn_length (A := F P)). change (Nat.min (2 ^ e - 1) (@length (F P) r) = 2 ^ e - 1). rewrite Lr. lia.
Qed.
End Total.

Section Sums.
Context {P : PrimeField} {M : FMod P}.

Fixpoint dotl (xs : list P) (vs : list M) : M :=
  match xs, vs with x :: xs, v :: vs => (x *g v) +g dotl xs vs | _, _ => gzero end.

Lemma dotl_nil_r xs : dotl xs [] = gzero. Proof. now destruct xs. Qed.
Lemma gsum_dotl xs : forall start (bases : list M),
  gsum (length xs) (fun i => nth i xs fzero *g nth (start + i) bases gzero) = dotl xs (skipn start bases).
Proof.
  induction xs as [|x xs IH]; intros start bases; [reflexivity|]. cbn [length]. rewrite gsum_S_l. cbn [nth]. rewrite Nat.add_0_r.
  rewrite (gsum_ext _ _ (fun i => nth i xs fzero *g nth (S start + i) bases gzero)) by (intros; now rewrite Nat.add_succ_r).
  rewrite IH. destruct (skipn start bases) as [|b t] eqn:Es.
  - assert (Hl : length bases <= start).
    { pose proof (skipn_length start bases) as L. rewrite Es in L. cbn in L. lia. }
    rewrite nth_overflow, skipn_all2 by lia. now rewrite gmul_0_r, gadd_0_l, dotl_nil_r.
  - cbn [dotl]. f_equal.
    + f_equal. rewrite <- (firstn_skipn start bases), Es. rewrite app_nth2; rewrite firstn_length.
      * replace (start - Nat.min start (length bases)) with 0; [reflexivity|]. destruct (Nat.le_gt_cases start (length bases)); [lia|].
        rewrite skipn_all2 in Es by lia. discriminate.
      * lia.
    + f_equal. change (S start) with (1 + start). rewrite <- skipn_plus, Es. reflexivity.
Qed.
Lemma dotl_app_l xs : forall (a b : list M), length xs <= length a -> dotl xs (a ++ b) = dotl xs a.
Proof. induction xs as [|x xs IH]; intros [|v a] b H; cbn [app dotl length] in *; auto; [lia|]. rewrite IH by lia. reflexivity. Qed.

Lemma dotl_dense xs : forall (vals : list M) bits, (forall i, nth i bits false = false -> nth i vals gzero = gzero) ->
  length xs = length vals -> length bits = length vals -> dotl (dense xs bits) (dense vals bits) = dotl xs vals.
Proof.
  induction xs as [|x xs IH]; intros [|v vals] [|b bits] H L1 L2; cbn [length] in *; try lia; auto.
  assert (H' : forall i, nth i bits false = false -> nth i vals gzero = gzero) by (intros i; apply (H (S i))).
  destruct b; cbn [dense dotl]; rewrite IH by (auto; lia); auto.
  specialize (H 0 eq_refl). cbn in H. subst v. now rewrite gmul_0_r, gadd_0_l.
Qed.
Lemma dense_length {A} (vals : list A) : forall bits, length bits = length vals -> length (dense vals bits) = count_occ bool_dec bits true.
Proof.
  induction vals as [|v vals IH]; intros [|[] bits] L; cbn [length dense count_occ] in *; try lia; auto.
  - destruct (bool_dec true true); [|congruence]. cbn [length]. rewrite IH by lia. reflexivity.
  - destruct (bool_dec false true); [congruence|]. apply IH. lia.
Qed.
Lemma dense_app {A} (v1 : list A) : forall v2 b1 b2, length b1 = length v1 -> dense (v1 ++ v2) (b1 ++ b2) = dense v1 b1 ++ dense v2 b2.
Proof.
  induction v1 as [|v v1 IH]; intros v2 [|b b1] b2 L; cbn [length app dense] in *; try lia; auto.
  destruct b; cbn [app]; rewrite IH by lia; auto.
Qed.

Lemma nonid_le (vals : list M) : forall bits, (forall i, nth i bits false = false -> nth i vals gzero = gzero) -> length bits = length vals ->
  length (nonid vals) <= length (dense vals bits) /\ (length (nonid vals) = length (dense vals bits) -> nonid vals = dense vals bits).
Proof.
  induction vals as [|v vals IH]; intros [|b bits] H L; cbn [length] in *; try lia; [cbn; auto|].
  destruct (IH bits) as [H1 H2]; [intros i; apply (H (S i))|lia|]. unfold nonid, is_identity in *. cbn [filter].
  destruct (geqb_spec v gzero) as [->|Hv]; cbn [negb]; destruct b; cbn [dense length].
  - split; [lia|]. intros Hl. lia.
  - split; [lia|]. intros Hl. auto.
  - split; [lia|]. intros Hl. f_equal. apply H2. lia.
  - specialize (H 0 eq_refl). cbn in H. contradiction.
Qed.

Lemma nonid_nonzero (vals : list M) i x : nth_error (nonid vals) i = Some x -> x <> gzero.
Proof.
  intros E. apply nth_error_In in E. unfold nonid in E. apply filter_In in E as [_ E]. unfold is_identity in E.
  destruct (geqb_spec x gzero); [discriminate|auto].
Qed.

Lemma dotl_fsum (f : Var -> P) (g : M) (xs : list P) (mk : nat -> Var) : forall off,
  dotl xs (map (fun i => f (mk i) *g g) (seq off (length xs))) = fsum (length xs) (fun i => nth i xs fzero * f (mk (off + i)%nat))%F *g g.
Proof.
  induction xs as [|x xs IH]; intros off; cbn [length seq map dotl].
  - cbn. now rewrite gmul_0_l.
  - rewrite IH. assert (X : forall n (h : nat -> P), fsum (S n) h = (h 0%nat + fsum n (fun i => h (S i)))%F) by (intros; unfold fsum; apply gsum_S_l).
    rewrite X, gmul_add_l, <- gmul_mul. cbn [nth]. rewrite Nat.add_0_r. f_equal. f_equal. apply fsum_ext. intros i _. now rewrite Nat.add_succ_r.
Qed.

(** The multiexponentiations over the inputs and over the auxiliary variables with one of the filtered queries. *)
Lemma two_exps (vi va : list M) (bi ba : list bool) (xi xa : list P) (di da : Density) (c1 c2 : nat) :
  0 < c1 < 64 -> 0 < c2 < 64 ->
  (forall i, nth i bi false = false -> nth i vi gzero = gzero) -> (forall i, nth i ba false = false -> nth i va gzero = gzero) ->
  length bi = length vi -> length ba = length va -> length xi = length vi -> length xa = length va ->
  density_iter (length xi) di = bi -> density_iter (length xa) da = ba ->
  let bases := nonid (vi ++ va) in
  let r1 := multiexp_inner bases 0 di (map exponent_of xi) c1 in
  let r2 := multiexp_inner bases (count_occ bool_dec bi true) da (map exponent_of xa) c2 in
  let need := count_occ bool_dec bi true + count_occ bool_dec ba true in
  length bases <= need /\
  (length bases = need -> exists v1 v2, r1 = Done (Ok v1) /\ r2 = Done (Ok v2) /\ v1 +g v2 = dotl xi vi +g dotl xa va) /\
  (length bases < need -> exists r, r1 = Done r /\ ((r = Err (IoError UnexpectedEof)) \/ r2 = Done (Err (IoError UnexpectedEof)))).
Proof.
  intros Hc1 Hc2 Hi Ha Li La Lxi Lxa Di Da bases r1 r2 need.
  assert (Hia : forall i, nth i (bi ++ ba) false = false -> nth i (vi ++ va) gzero = gzero).
  { intros i. destruct (Nat.lt_ge_cases i (length bi)); [rewrite !app_nth1 by lia; auto|]. rewrite !app_nth2 by lia. rewrite Li. auto. }
  destruct (nonid_le (vi ++ va) (bi ++ ba) Hia) as [N1 N2]; [rewrite !app_length; lia|]. rewrite dense_app in N1, N2 by auto.
  assert (Ln : length (dense vi bi ++ dense va ba) = need) by (rewrite app_length, !dense_length by auto; reflexivity).
  rewrite Ln in N1, N2. fold bases in N1, N2.
  assert (Lyi : length (dense xi bi) = count_occ bool_dec bi true) by (apply dense_length; congruence).
  assert (Lya : length (dense xa ba) = count_occ bool_dec ba true) by (apply dense_length; congruence).
  pose proof (multiexp_inner_errs bases 0 di xi c1 Hc1) as X1. cbv zeta in X1. rewrite Di in X1. fold r1 in X1.
  pose proof (multiexp_inner_errs bases (count_occ bool_dec bi true) da xa c2 Hc2) as X2. cbv zeta in X2. rewrite Da in X2. fold r2 in X2.
  assert (B : forall start (ys : list P), ~ exists i, i < length ys /\ nth i ys fzero <> fzero /\ nth_error bases (start + i) = Some gzero).
  { intros start ys (i & _ & _ & Hz). apply nonid_nonzero in Hz. congruence. }
  split; [exact N1|]. split.
  - intros Hl. specialize (N2 Hl). unfold bases in N2 at 1.
    destruct X1 as [(e & _ & [[_ [_ S1]]|[_ S1]])|(E1 & _)]; [rewrite Lyi in S1; unfold need in Hl; lia|now apply B in S1|].
    destruct X2 as [(e & _ & [[_ [_ S1]]|[_ S1]])|(E2 & _)]; [rewrite Lya in S1; unfold need in Hl; lia|now apply B in S1|].
    do 2 eexists. split; [exact E1|]. split; [exact E2|]. rewrite !gsum_dotl. unfold bases. rewrite N2. cbn [skipn].
    rewrite dotl_app_l by (rewrite Lyi, dense_length by auto; lia). rewrite dotl_dense by (auto; lia). f_equal.
    rewrite <- (dense_length vi bi) by auto. rewrite skipn_app, skipn_all, Nat.sub_diag. cbn [app skipn]. apply dotl_dense; auto; lia.
  - intros Hl. destruct X1 as [(e & E1 & [[-> S1]|[_ S1]])|(E1 & S1 & _)]; [eexists; split; [exact E1|]; now left|now apply B in S1|].
    eexists; split; [exact E1|]. right. destruct X2 as [(e & E2 & [[-> _]|[_ S2]])|(E2 & S2 & _)]; [exact E2|now apply B in S2|].
    exfalso. rewrite Lyi in S1. rewrite Lya in S2. unfold need in Hl.
    assert (A1 : count_occ bool_dec bi true <= length bases).
    { destruct (Nat.le_gt_cases (count_occ bool_dec bi true) (length bases)); auto. exfalso. apply S1. split; [|lia].
      intros E0. rewrite E0 in Lyi. cbn in Lyi. lia. }
    apply S2. split; [|lia]. intros E0. rewrite E0 in Lya. cbn in Lya. lia.
Qed.

(** A full multiexponentiation over as many bases. *)
Lemma full_exp (bases : list M) (xs : list P) c : 0 < c < 64 -> length bases = length xs ->
  let r := multiexp_inner bases 0 FullDensity (map exponent_of xs) c in
  (exists e, r = Done (Err e) /\ e = UnexpectedIdentity /\ exists i, i < length xs /\ nth i xs fzero <> fzero /\ nth i bases gzero = gzero) \/
  (r = Done (Ok (dotl xs bases)) /\ forall i, i < length xs -> nth i xs fzero <> fzero -> nth i bases gzero <> gzero).
Proof.
  intros Hc L r. pose proof (multiexp_inner_errs bases 0 FullDensity xs c Hc) as X. cbv zeta in X. fold r in X.
  pose proof (dense_spec xs None ltac:(discriminate)) as D. cbn [as_density dense_exponents] in D. rewrite D in X.
  destruct X as [(e & Er & [[_ [_ H]]|[-> (i & Hi & Hx & Hz)]])|(Er & _ & H)]; [lia|left; eexists; split; [exact Er|]; split; auto; exists i|right].
  - repeat split; auto. now apply nth_error_nth.
  - rewrite gsum_dotl in Er. split; [exact Er|]. intros i Hi Hx Hz. apply H. exists i. repeat split; auto.
    rewrite <- Hz. apply nth_error_nth'. lia.
Qed.
End Sums.

Section Create.
Context {P : PrimeField} (E : Engine P).
Add Field PFcr : (F_field P).
Ltac sring := match goal with |- ?a = ?b => change (@eq (F P) a b) end; first [ring | cbn; ring].
Notation G1 := (E_G1 E).
Notation G2 := (E_G2 E).
Variables (g1 : G1) (g2 : G2) (alpha beta gamma delta tau : P).
Variables (w : Worker) (ln_ceil : Z -> nat) (circuit : prog P (res unit)) (t : ProvingAssignment P) (ps : PState P) (e : nat).
Hypothesis Hw : wf_worker w.
Hypothesis Hln : sane_ln_ceil ln_ceil.
Hypothesis Hsynth : synthesize_prover circuit = Done (Ok t).
Hypothesis HP : PInv t ps.
Notation ni := (List.length (p_inputs ps)).
Notation na := (List.length (p_aux ps)).
Notation cons := (p_cons ps).
Hypothesis Hok : Forall (con_ok ni na) cons.
Hypothesis He : e < two_adicity P.
Hypothesis Hle : least_pow (List.length cons) e.
Hypothesis Hcap : (Z.of_nat (2 ^ e) <= 2 ^ 32)%Z.
Hypothesis Hni : (Z.of_nat ni < 2 ^ 32)%Z.
Hypothesis Hna : (Z.of_nat na < 2 ^ 32)%Z.

Let q sel v := qap tau e sel cons v.
Let params := params_of E g1 g2 alpha beta gamma delta tau e (shape_of ps).
Let rho := asgl (p_inputs ps) (p_aux ps).
Definition SI (f : Var -> P) : P := fsum ni (fun i => nth i (p_inputs ps) fzero * f (Input i))%F.
Definition SA (f : Var -> P) : P := fsum na (fun i => nth i (p_aux ps) fzero * f (Aux i))%F.

Lemma qap_unmentioned sel v : ~ mentions sel v cons -> q sel v = fzero.
Proof.
  intros H. unfold q, qap. rewrite (at_tau_ext e tau _ (fun _ => fzero)); [apply at_tau_zero|]. intros k Hk. rewrite col_coeff_column.
  cbn [Nat.leb]. rewrite Nat.sub_0_r. destruct (nth_error cons k) as [c|] eqn:Ec; auto. apply lc_coeff_unmentioned. intros Hm. apply H.
  unfold mentions. apply Exists_exists. exists c. split; auto. eapply nth_error_In; eauto.
Qed.

(** the combination of the variables' polynomials is the interpolation of the constraints' values *)
Lemma qap_total sel : Forall (fun c => lc_ok ni na (sel c)) cons ->
  (SI (q sel) + SA (q sel))%F = at_tau e tau (coef (map (fun c => eval rho (sel c)) cons)).
Proof.
  intros H. unfold SI, SA, q, qap.
  rewrite (fsum_ext ni _ (fun i => at_tau e tau (fun k => nth i (p_inputs ps) fzero * col_coeff (column_from 0 sel (Input i) cons) k)%F)) by (intros; now rewrite at_tau_mul).
  rewrite (fsum_ext na _ (fun i => at_tau e tau (fun k => nth i (p_aux ps) fzero * col_coeff (column_from 0 sel (Aux i) cons) k)%F)) by (intros; now rewrite at_tau_mul).
  rewrite <- !at_tau_fsum, <- at_tau_add. apply at_tau_ext. intros k _. unfold coef.
  destruct (nth_error cons k) as [c|] eqn:Ec.
  - erewrite nth_error_nth by (rewrite nth_error_map, Ec; reflexivity).
    assert (Hc : lc_ok ni na (sel c)) by (rewrite Forall_forall in H; apply H; eapply nth_error_In; eauto).
    rewrite (eval_coeffs ni na rho (sel c) Hc). f_equal; apply fsum_ext; intros i _; rewrite col_coeff_column; cbn [Nat.leb]; rewrite Nat.sub_0_r, Ec; cbn; ring.
  - rewrite nth_overflow by (rewrite map_length; apply nth_error_None; auto).
    rewrite !fsum_zero; [ring| |]; intros i _; rewrite col_coeff_column; cbn [Nat.leb]; rewrite Nat.sub_0_r, Ec; ring.
Qed.

Definition TA : P := at_tau e tau (coef (pa_a t)).
Definition TB : P := at_tau e tau (coef (pa_b t)).
Definition TC : P := at_tau e tau (coef (pa_c t)).

Lemma totals : (SI (q sel_a) + SA (q sel_a))%F = TA /\ (SI (q sel_b) + SA (q sel_b))%F = TB /\ (SI (q sel_c) + SA (q sel_c))%F = TC.
Proof.
  unfold TA, TB, TC. rewrite (pi_a _ _ HP), (pi_b _ _ HP), (pi_c _ _ HP).
  repeat split; apply qap_total; eapply Forall_impl; try exact Hok; intros c (A & B & C); auto.
Qed.

Definition aligned : Prop :=
  List.length (p_a params) = ni + dt_get_total_density (a_aux_density t) /\
  List.length (p_b_g1 params) = dt_get_total_density (b_input_density t) + dt_get_total_density (b_aux_density t) /\
  List.length (p_b_g2 params) = dt_get_total_density (b_input_density t) + dt_get_total_density (b_aux_density t).
Definition h_fine (h : list P) : Prop := forall i, i < List.length h -> nth i h fzero <> fzero -> nth i (p_h params) gzero <> gzero.
Definition l_fine : Prop := forall i, i < na -> nth i (p_aux ps) fzero <> fzero -> nth i (p_l params) gzero <> gzero.

Definition ext_of (inv : P) (v : Var) : P := ((q sel_a v * beta + q sel_b v * alpha + q sel_c v) * inv)%F.
Definition scalar_a (r : P) : P := (r * delta + alpha + TA)%F.
Definition scalar_b (s : P) : P := (s * delta + beta + TB)%F.
Definition scalar_c (r s : P) (h : list P) : P :=
  (r * s * delta + s * alpha + r * beta + s * TA + r * TB + peval h tau * ((fpow tau (2 ^ e) - 1) * finv delta) + SA (ext_of (finv delta)))%F.
Definition proof_of (r s : P) (h : list P) : Proof_ E := mkProof (scalar_a r *g g1) (scalar_b s *g g2) (scalar_c r s h *g g1).

Lemma start_ok {M : FMod P} (bases : list M) start d (xs : list P) : (forall bv, d = Tracked bv -> List.length bv = List.length xs) ->
  multiexp_start ln_ceil bases start d (map exponent_of xs) = Done (multiexp_inner bases start d (map exponent_of xs) (window_size ln_ceil (List.length xs))).
Proof.
  intros H. unfold multiexp_start. rewrite map_length. destruct d as [|bv]; cbn [get_query_size]; auto. rewrite (H bv eq_refl), Nat.eqb_refl. reflexivity.
Qed.

Lemma at_g {M : FMod P} (f : Var -> P) (g : M) (mk : nat -> Var) (xs : list P) :
  dotl xs (map (fun i => f (mk i) *g g) (seq 0 (List.length xs))) = fsum (List.length xs) (fun i => nth i xs fzero * f (mk i))%F *g g.
Proof. apply dotl_fsum. Qed.

Lemma query_pair {M : FMod P} (g : M) sel di bi ba :
  (forall i, nth i bi false = false -> i < ni -> ~ mentions sel (Input i) cons) -> List.length bi = ni ->
  tracks Aux na sel cons ba -> density_iter ni di = bi ->
  let bases := nonid (map (fun v => q sel v *g g) (vars_of ni na)) in
  let need := count_occ bool_dec bi true + count_occ bool_dec ba true in
  let r1 := multiexp_inner bases 0 di (map exponent_of (p_inputs ps)) (window_size ln_ceil ni) in
  let r2 := multiexp_inner bases (count_occ bool_dec bi true) (Tracked ba) (map exponent_of (p_aux ps)) (window_size ln_ceil na) in
  (List.length bases = need -> exists v1 v2, r1 = Done (Ok v1) /\ r2 = Done (Ok v2) /\ v1 +g v2 = (SI (q sel) + SA (q sel))%F *g g) /\
  (List.length bases <> need -> exists r, r1 = Done r /\ (r = Err (IoError UnexpectedEof) \/ r2 = Done (Err (IoError UnexpectedEof)))).
Proof.
  intros Hbi Lbi [Lba Hba] Hdi bases need r1 r2.
  assert (Eb : map (fun v => q sel v *g g) (vars_of ni na) = map (fun i => q sel (Input i) *g g) (seq 0 ni) ++ map (fun i => q sel (Aux i) *g g) (seq 0 na)).
  { unfold vars_of. now rewrite map_app, !map_map. }
  assert (Z : forall mk n bits, List.length bits = n -> (forall i, nth i bits false = false -> i < n -> ~ mentions sel (mk i) cons) ->
            forall i, nth i bits false = false -> nth i (map (fun i => q sel (mk i) *g g) (seq 0 n)) gzero = gzero).
  { intros mk n bits Ln H i Hi. destruct (Nat.lt_ge_cases i n) as [Hlt|Hge]; [|apply nth_overflow; now rewrite map_length, seq_length].
    rewrite (nth_indep _ gzero (q sel (mk 0) *g g)) by now rewrite map_length, seq_length. rewrite (map_nth (fun i => q sel (mk i) *g g) (seq 0 n) 0 i), seq_nth by auto. cbn [plus].
    rewrite qap_unmentioned by auto. apply gmul_0_l. }
  pose proof (two_exps (map (fun i => q sel (Input i) *g g) (seq 0 ni)) (map (fun i => q sel (Aux i) *g g) (seq 0 na)) bi ba (p_inputs ps) (p_aux ps) di (Tracked ba)
    (window_size ln_ceil ni) (window_size ln_ceil na) (window_ok _ _ Hln Hni) (window_ok _ _ Hln Hna)) as T.
  assert (Haux : forall i, nth i ba false = false -> i < na -> ~ mentions sel (Aux i) cons).
  { intros i Hi _ Hm. apply Hba in Hm. congruence. }
  specialize (T (Z Input ni bi Lbi Hbi) (Z Aux na ba Lba Haux)).
  rewrite !map_length, !seq_length in T. specialize (T Lbi Lba eq_refl eq_refl Hdi eq_refl). cbv zeta in T.
  rewrite <- Eb in T. fold bases need in T. fold r1 r2 in T. destruct T as (T1 & T2 & T3). split.
  - intros Hl. destruct (T2 Hl) as (v1 & v2 & E1 & E2 & E3). exists v1, v2. repeat split; auto. rewrite E3, !at_g. unfold SI, SA. now rewrite gmul_add_l.
  - intros Hl. apply T3. lia.
Qed.

Lemma h_dot (h : list P) : List.length h = 2 ^ e - 1 ->
  dotl h (p_h params) = (peval h tau * ((fpow tau (2 ^ e) - 1) * finv delta))%F *g g1.
Proof.
  intros L. unfold params, params_of, p_h, h_of. rewrite <- L.
  pose proof (dotl_fsum (M := G1) (fun v => match v with Input i => (fpow tau i * ((fpow tau (2 ^ e) - 1) * finv delta))%F | Aux _ => fzero end) g1 h Input 0) as D.
  cbn [plus] in D. rewrite D. f_equal. rewrite (fsum_ext _ _ (fun i => (coef h i * fpow tau i) * ((fpow tau (2 ^ e) - 1) * finv delta))%F) by (intros; unfold coef; sring).
  rewrite <- fsum_mul_r. reflexivity.
Qed.

Theorem create_spec r s : exists h, prover_h w (pa_a t) (pa_b t) (pa_c t) = Done (Ok h) /\ List.length h = 2 ^ e - 1 /\
  ((is_identity (delta *g g1) || is_identity (delta *g g2) = true /\ create_proof w ln_ceil circuit params r s = Done (Err UnexpectedIdentity)) \/
   (is_identity (delta *g g1) || is_identity (delta *g g2) = false /\
     ((aligned /\ h_fine h /\ l_fine /\ create_proof w ln_ceil circuit params r s = Done (Ok (proof_of r s h))) \/
      (~ (aligned /\ h_fine h /\ l_fine) /\ exists err, create_proof w ln_ceil circuit params r s = Done (Err err))))).
Proof.
  assert (La : List.length (pa_a t) = List.length cons) by (rewrite (pi_a _ _ HP); apply map_length).
  assert (Lb : List.length (pa_b t) = List.length (pa_a t)) by (rewrite La, (pi_b _ _ HP); apply map_length).
  assert (Lc : List.length (pa_c t) = List.length (pa_a t)) by (rewrite La, (pi_c _ _ HP); apply map_length).
  assert (Hle' : least_pow (List.length (pa_a t)) e) by now rewrite La.
  pose proof (prover_h_total w (pa_a t) (pa_b t) (pa_c t) e Hw Hle' Lb Lc) as HT.
  destruct (Nat.ltb_spec e (two_adicity P)); [|lia]. destruct HT as (h & Eh & Lh). exists h. split; [exact Eh|]. split; [exact Lh|].
  pose proof (pow2_gt0 e) as Hpe.
  assert (Hlh : (Z.of_nat (List.length h) < 2 ^ 32)%Z) by lia.
  pose proof (pi_da _ _ HP) as Da. pose proof (pi_dbi _ _ HP) as Dbi. pose proof (pi_dba _ _ HP) as Dba.
  (* the six filtered multiexponentiations *)
  pose proof (query_pair g1 sel_a FullDensity (repeat true ni) (a_aux_density t)) as QA.
  assert (Hr : forall i, nth i (repeat true ni) false = false -> i < ni -> ~ mentions sel_a (Input i) cons).
  { intros i Hi Hlt. assert (X : nth_error (repeat true ni) i = Some true) by now apply nth_error_repeat. apply nth_error_nth with (d := false) in X. congruence. }
  specialize (QA Hr (repeat_length _ _) Da eq_refl). cbv zeta in QA.
  assert (Cr : count_occ bool_dec (repeat true ni) true = ni).
  { generalize ni. intros n. induction n as [|n IHn]; cbn; auto. }
  rewrite Cr in QA. fold (dt_get_total_density (a_aux_density t)) in QA.
  assert (Hbi : forall i, nth i (b_input_density t) false = false -> i < ni -> ~ mentions sel_b (Input i) cons).
  { intros i Hi _ Hm. apply Dbi in Hm. congruence. }
  pose proof (query_pair g1 sel_b (Tracked (b_input_density t)) (b_input_density t) (b_aux_density t) Hbi (proj1 Dbi) Dba eq_refl) as QB1.
  pose proof (query_pair g2 sel_b (Tracked (b_input_density t)) (b_input_density t) (b_aux_density t) Hbi (proj1 Dbi) Dba eq_refl) as QB2.
  cbv zeta in QB1, QB2. fold (dt_get_total_density (b_input_density t)) in QB1, QB2. fold (dt_get_total_density (b_aux_density t)) in QB1, QB2.
  change (nonid (map (fun v => q sel_a v *g g1) (vars_of ni na))) with (p_a params) in QA.
  change (nonid (map (fun v => q sel_b v *g g1) (vars_of ni na))) with (p_b_g1 params) in QB1.
  change (nonid (map (fun v => q sel_b v *g g2) (vars_of ni na))) with (p_b_g2 params) in QB2.
  (* the two full ones *)
  assert (Lph : List.length (p_h params) = List.length h) by (unfold params, params_of, p_h, h_of; rewrite map_length, seq_length; auto).
  assert (Lpl : List.length (p_l params) = na) by (unfold params, params_of, p_l; now rewrite map_length, seq_length).
  pose proof (full_exp (p_h params) h _ (window_ok _ _ Hln Hlh) Lph) as QH. cbv zeta in QH.
  pose proof (full_exp (p_l params) (p_aux ps) _ (window_ok _ _ Hln Hna) Lpl) as QL. cbv zeta in QL.
  destruct totals as (TTa & TTb & _).
  unfold create_proof. rewrite Hsynth. cbn [obindr obind]. rewrite Eh. cbn [obindr obind].
  rewrite (pi_inputs _ _ HP), (pi_aux _ _ HP), !map_length.
  rewrite !start_ok by (intros ? Q; first [discriminate Q | injection Q as <-; first [apply Dba|apply Dbi|apply Da]]).
  cbn [obind]. change (delta_g1 (p_vk params)) with (delta *g g1). change (delta_g2 (p_vk params)) with (delta *g g2).
  destruct (is_identity (delta *g g1) || is_identity (delta *g g2))%bool; [left; split; reflexivity|right; split; [reflexivity|]].
  destruct (Nat.eq_dec (List.length (p_a params)) (ni + dt_get_total_density (a_aux_density t))) as [Aa|Aa].
  2: { right. split; [intros [A _]; apply Aa, A|]. destruct (proj2 QA Aa) as (x & -> & [->|E2]); cbn [obindr obind]; [eauto|].
       destruct x; cbn [obindr obind]; [rewrite E2; cbn [obindr obind]|]; eauto. }
  destruct (proj1 QA Aa) as (va1 & va2 & Ea1 & Ea2 & Ea3). rewrite Ea1. cbn [obindr obind]. rewrite Ea2. cbn [obindr obind].
  destruct (Nat.eq_dec (List.length (p_b_g1 params)) (dt_get_total_density (b_input_density t) + dt_get_total_density (b_aux_density t))) as [Ab|Ab].
  2: { right. split; [intros [A _]; apply Ab, A|]. destruct (proj2 QB1 Ab) as (x & -> & [->|E2]); cbn [obindr obind]; [eauto|].
       destruct x; cbn [obindr obind]; [rewrite E2; cbn [obindr obind]|]; eauto. }
  destruct (proj1 QB1 Ab) as (vb1 & vb2 & Eb1 & Eb2 & Eb3). rewrite Eb1. cbn [obindr obind]. rewrite Eb2. cbn [obindr obind].
  destruct (Nat.eq_dec (List.length (p_b_g2 params)) (dt_get_total_density (b_input_density t) + dt_get_total_density (b_aux_density t))) as [Ab2|Ab2].
  2: { right. split; [intros [A _]; apply Ab2, A|]. destruct (proj2 QB2 Ab2) as (x & -> & [->|E2]); cbn [obindr obind]; [eauto|].
       destruct x; cbn [obindr obind]; [rewrite E2; cbn [obindr obind]|]; eauto. }
  destruct (proj1 QB2 Ab2) as (vc1 & vc2 & Ec1 & Ec2 & Ec3). rewrite Ec1. cbn [obindr obind]. rewrite Ec2. cbn [obindr obind].
  destruct QH as [(err & -> & -> & i & Hi & Hx & Hz)|[-> Hf]]; cbn [obindr obind].
  { right. split; [|eauto]. intros (_ & F & _). exact (F i Hi Hx Hz). }
  destruct QL as [(err & -> & -> & i & Hi & Hx & Hz)|[-> Hf']]; cbn [obindr obind].
  { right. split; [|eauto]. intros (_ & _ & F). exact (F i Hi Hx Hz). }
  left. split; [repeat split; auto|]. split; [exact Hf|]. split; [exact Hf'|]. do 2 f_equal. unfold proof_of.
  rewrite Ea3, Eb3, Ec3, h_dot by auto. rewrite TTa, TTb.
  change (p_l params) with (map (fun i => ext_of (finv delta) (Aux i) *g g1) (seq 0 na)). rewrite at_g. fold (SA (ext_of (finv delta))).
  change (alpha_g1 (p_vk params)) with (alpha *g g1). change (beta_g1 (p_vk params)) with (beta *g g1). change (beta_g2 (p_vk params)) with (beta *g g2).
  rewrite <- !gmul_mul, <- !gmul_add_l. unfold scalar_a, scalar_b, scalar_c. f_equal; (apply (f_equal (fun x => x *g _))); sring.
Qed.

(** ** When the bookkeeping agrees *)
Lemma nonid_dense {M : FMod P} (vals : list M) : forall bits, List.length bits = List.length vals ->
  (forall i, i < List.length vals -> nth i bits false = true <-> nth i vals gzero <> gzero) -> nonid vals = dense vals bits.
Proof.
  induction vals as [|v vals IH]; intros [|b bits] L H; cbn [List.length] in *; try lia; [reflexivity|].
  unfold nonid, is_identity in *. cbn [filter]. rewrite (IH bits) by (try lia; intros i Hi; apply (H (S i)); lia).
  specialize (H 0 ltac:(lia)). cbn [nth] in H. destruct (geqb_spec v gzero) as [Hv|Hv]; destruct b; cbn [negb dense]; auto.
  - exfalso. now apply H.
  - exfalso. assert (false = true) by (apply H; auto). discriminate.
Qed.
Lemma nonid_dense_conv {M : FMod P} (vals : list M) : forall bits, List.length bits = List.length vals ->
  (forall i, nth i bits false = false -> nth i vals gzero = gzero) -> List.length (nonid vals) = List.length (dense vals bits) ->
  forall i, nth i bits false = true -> nth i vals gzero <> gzero.
Proof.
  induction vals as [|v vals IH]; intros [|b bits] L H Hl i Hi; cbn [List.length] in *; try lia.
  - destruct i; discriminate.
  - assert (H' : forall i, nth i bits false = false -> nth i vals gzero = gzero) by (intros j; apply (H (S j))).
    destruct (nonid_le vals bits H' ltac:(lia)) as [N _].
    unfold nonid, is_identity in *. cbn [filter] in Hl. destruct (geqb_spec v gzero) as [Hv|Hv]; destruct b; cbn [negb dense List.length] in Hl.
    + lia.
    + destruct i; [discriminate|]. cbn [nth] in *. apply (IH bits); auto.
    + destruct i; [exact Hv|]. cbn [nth] in *. apply (IH bits); auto.
    + exfalso. apply Hv. apply (H 0). reflexivity.
Qed.

Lemma gmul_nz {M : FMod P} (x : P) (g : M) : g <> gzero -> (x *g g <> gzero <-> x <> fzero).
Proof. intros Hg. split; intros H E0; [subst; apply H, gmul_0_l|]. destruct (gmul_cancel x g E0); contradiction. Qed.

Lemma vals_length {M : FMod P} sel (g : M) : List.length (map (fun v => q sel v *g g) (vars_of ni na)) = ni + na.
Proof. unfold vars_of. now rewrite map_length, app_length, !map_length, !seq_length. Qed.
Lemma vals_nth {M : FMod P} sel (g : M) i : i < ni + na ->
  nth i (map (fun v => q sel v *g g) (vars_of ni na)) gzero = (if i <? ni then q sel (Input i) else q sel (Aux (i - ni))) *g g.
Proof.
  intros Hi. unfold vars_of. rewrite map_app, !map_map. destruct (Nat.ltb_spec i ni) as [H|H].
  - rewrite app_nth1 by (now rewrite map_length, seq_length). apply nth_error_nth.
    apply (map_nth_error (fun i => q sel (Input i) *g g)). rewrite (nth_error_nth' _ 0) by now rewrite seq_length. now rewrite seq_nth.
  - rewrite app_nth2 by (now rewrite map_length, seq_length). rewrite map_length, seq_length. apply nth_error_nth.
    apply (map_nth_error (fun i => q sel (Aux i) *g g)). rewrite (nth_error_nth' _ 0) by (rewrite seq_length; lia). rewrite seq_nth by lia. reflexivity.
Qed.

(** the numbers of elements agree exactly when every variable tracked has a non-zero element *)
Lemma query_len {M : FMod P} sel (g : M) bi ba : List.length bi = ni -> List.length ba = na -> g <> gzero ->
  (forall i, nth i bi false = false -> i < ni -> ~ mentions sel (Input i) cons) ->
  (forall i, nth i ba false = true <-> mentions sel (Aux i) cons) ->
  (List.length (nonid (map (fun v => q sel v *g g) (vars_of ni na))) = count_occ bool_dec bi true + count_occ bool_dec ba true <->
   (forall i, i < ni -> nth i bi false = true -> q sel (Input i) <> fzero) /\ (forall i, i < na -> mentions sel (Aux i) cons -> q sel (Aux i) <> fzero)).
Proof.
  intros Lbi Lba Hg Hbi Hba.
  assert (Lc : count_occ bool_dec bi true + count_occ bool_dec ba true = List.length (dense (map (fun v => q sel v *g g) (vars_of ni na)) (bi ++ ba))).
  { rewrite dense_length by (rewrite vals_length, app_length; lia). symmetry. apply count_occ_app. }
  rewrite Lc. split.
  - intros Hl. pose proof (nonid_dense_conv (map (fun v => q sel v *g g) (vars_of ni na)) (bi ++ ba)) as X. rewrite vals_length, app_length in X.
    assert (Z : forall i, nth i (bi ++ ba) false = false -> nth i (map (fun v => q sel v *g g) (vars_of ni na)) gzero = gzero).
    { intros i Hi. destruct (Nat.lt_ge_cases i (ni + na)) as [H|H]; [|apply nth_overflow; rewrite vals_length; lia]. rewrite vals_nth by auto.
      destruct (Nat.ltb_spec i ni).
      - rewrite app_nth1 in Hi by lia. rewrite qap_unmentioned by auto. apply gmul_0_l.
      - rewrite app_nth2 in Hi by lia. rewrite Lbi in Hi. rewrite qap_unmentioned; [apply gmul_0_l|]. intros Hm. apply Hba in Hm. congruence. }
    specialize (X ltac:(lia) Z Hl). split.
    + intros i Hi Hb. specialize (X i). rewrite app_nth1 in X by lia. specialize (X Hb). rewrite vals_nth in X by lia.
      destruct (Nat.ltb_spec i ni); [|lia]. now apply (gmul_nz _ g Hg).
    + intros i Hi Hm. specialize (X (ni + i)). rewrite app_nth2 in X by lia. replace (ni + i - List.length bi) with i in X by lia. apply Hba in Hm. specialize (X Hm).
      rewrite vals_nth in X by lia. destruct (Nat.ltb_spec (ni + i) ni); [lia|]. replace (ni + i - ni) with i in X by lia. now apply (gmul_nz _ g Hg).
  - intros [HI HA]. f_equal. apply nonid_dense; [rewrite vals_length, app_length; lia|]. rewrite vals_length. intros i Hi. rewrite vals_nth by auto.
    rewrite (gmul_nz _ g Hg). destruct (Nat.ltb_spec i ni) as [H|H].
    + rewrite app_nth1 by lia. split; [auto|]. intros Hq. destruct (nth i bi false) eqn:Eb; auto. exfalso. apply Hq, qap_unmentioned. auto.
    + rewrite app_nth2 by lia. rewrite Lbi. split; [intros Hb; apply HA; [lia|now apply Hba]|]. intros Hq.
      destruct (nth (i - ni) ba false) eqn:Eb; auto. exfalso. apply Hq, qap_unmentioned. intros Hm. apply Hba in Hm. congruence.
Qed.

Lemma aligned_iff : g1 <> gzero -> g2 <> gzero ->
  (aligned <->
   (forall i, i < ni -> q sel_a (Input i) <> fzero) /\ (forall i, i < na -> mentions sel_a (Aux i) cons -> q sel_a (Aux i) <> fzero) /\
   (forall i, i < ni -> mentions sel_b (Input i) cons -> q sel_b (Input i) <> fzero) /\ (forall i, i < na -> mentions sel_b (Aux i) cons -> q sel_b (Aux i) <> fzero)).
Proof.
  intros H1 H2. pose proof (pi_da _ _ HP) as [LDa Da]. pose proof (pi_dbi _ _ HP) as [LDbi Dbi]. pose proof (pi_dba _ _ HP) as [LDba Dba].
  assert (Cr : count_occ bool_dec (repeat true ni) true = ni).
  { generalize ni. intros n. induction n as [|n IHn]; cbn; auto. }
  assert (Nr : forall i, i < ni -> nth i (repeat true ni) false = true).
  { intros i Hi. apply nth_error_nth. now apply nth_error_repeat. }
  pose proof (query_len sel_a g1 (repeat true ni) (a_aux_density t) (repeat_length _ _) LDa H1) as QA.
  specialize (QA ltac:(intros i Hi Hlt; rewrite Nr in Hi by auto; discriminate) Da). rewrite Cr in QA.
  assert (Hbi : forall i, nth i (b_input_density t) false = false -> i < ni -> ~ mentions sel_b (Input i) cons).
  { intros i Hi _ Hm. apply Dbi in Hm. congruence. }
  pose proof (query_len sel_b g1 _ _ LDbi LDba H1 Hbi Dba) as QB1. pose proof (query_len sel_b g2 _ _ LDbi LDba H2 Hbi Dba) as QB2.
  unfold aligned. change (p_a params) with (nonid (map (fun v => q sel_a v *g g1) (vars_of ni na))).
  change (p_b_g1 params) with (nonid (map (fun v => q sel_b v *g g1) (vars_of ni na))).
  change (p_b_g2 params) with (nonid (map (fun v => q sel_b v *g g2) (vars_of ni na))). unfold dt_get_total_density.
  rewrite QA, QB1, QB2. split.
  - intros ((A1 & A2) & (B1 & B2) & _). repeat split; auto. intros i Hi Hm. apply B1; auto. now apply Dbi.
  - intros (A1 & A2 & B1 & B2). repeat split; auto; intros i Hi Hm; apply B1; auto; now apply Dbi.
Qed.

Lemma h_fine_if h : List.length h = 2 ^ e - 1 -> g1 <> gzero -> delta <> fzero -> tau <> fzero -> fpow tau (2 ^ e) <> fone -> h_fine h.
Proof.
  intros Lh H1 Hd Ht Htm i Hi _. unfold params, params_of, h_of. cbn [p_h].
  erewrite nth_error_nth.
  2: { apply (map_nth_error (fun i => (fpow tau i * ((fpow tau (2 ^ e) - 1) * finv delta))%F *g g1)). rewrite (nth_error_nth' _ 0) by (rewrite seq_length; lia).
       rewrite seq_nth by lia. reflexivity. }
  apply (gmul_nz _ g1 H1). cbn [plus]. intros E0. apply fmul_0 in E0 as [E0|E0]; [now apply (fpow_neq_0 _ _ Ht) in E0|].
  apply fmul_0 in E0 as [E0|E0]; [apply Htm; now apply fsub_0_eq|]. exact (finv_neq_0 _ Hd E0).
Qed.
Lemma l_fine_if : existsb is_identity (p_l params) = false -> l_fine.
Proof.
  intros H i Hi _ Hz. assert (Lpl : List.length (p_l params) = na) by (unfold params, params_of, p_l; now rewrite map_length, seq_length).
  assert (X : existsb is_identity (p_l params) = true).
  { apply existsb_exists. exists gzero. split; [rewrite <- Hz; apply nth_In; lia|]. unfold is_identity. destruct (geqb_spec (gzero : G1) gzero); congruence. }
  congruence.
Qed.

(** ** The verification equation *)
Hypothesis Hsat : forall k, (coef (pa_a t) k * coef (pa_b t) k)%F = coef (pa_c t) k.
Hypothesis Hone : exists rest, p_inputs ps = fone :: rest.
Hypothesis Hgamma : gamma <> fzero.
Hypothesis Hdelta : delta <> fzero.

Lemma SI_ext inv : SI (ext_of inv) = ((SI (q sel_a) * beta + SI (q sel_b) * alpha + SI (q sel_c)) * inv)%F.
Proof.
  unfold SI. rewrite !fsum_mul_r, <- !fsum_add, fsum_mul_r. apply fsum_ext. intros i _. unfold ext_of. ring.
Qed.
Lemma SA_ext inv : SA (ext_of inv) = ((SA (q sel_a) * beta + SA (q sel_b) * alpha + SA (q sel_c)) * inv)%F.
Proof.
  unfold SA. rewrite !fsum_mul_r, <- !fsum_add, fsum_mul_r. apply fsum_ext. intros i _. unfold ext_of. ring.
Qed.

Lemma quotient_at_tau h : prover_h w (pa_a t) (pa_b t) (pa_c t) = Done (Ok h) ->
  (TA * TB - TC)%F = (peval h tau * (fpow tau (2 ^ e) - 1))%F.
Proof.
  intros Eh.
  assert (La : List.length (pa_a t) = List.length cons) by (rewrite (pi_a _ _ HP); apply map_length).
  assert (Lb : List.length (pa_b t) = List.length (pa_a t)) by (rewrite La, (pi_b _ _ HP); apply map_length).
  assert (Lc : List.length (pa_c t) = List.length (pa_a t)) by (rewrite La, (pi_c _ _ HP); apply map_length).
  assert (Hle' : least_pow (List.length (pa_a t)) e) by now rewrite La.
  pose proof (interp_values e (pa_a t) He) as IA. pose proof (interp_values e (pa_b t) He) as IB. pose proof (interp_values e (pa_c t) He) as IC.
  destruct (prover_h_spec w (pa_a t) (pa_b t) (pa_c t) e Hw He Hle' Lb Lc Hsat _ _ _ IA IB IC) as (h' & Eh' & _ & _ & X).
  rewrite Eh in Eh'. assert (h' = h) by congruence. subst h'. unfold TA, TB, TC.
  rewrite (at_tau_interp e tau _ _ He IA), (at_tau_interp e tau _ _ He IB), (at_tau_interp e tau _ _ He IC). apply X.
Qed.

Lemma scalar_identity r s h : prover_h w (pa_a t) (pa_b t) (pa_c t) = Done (Ok h) ->
  (scalar_a r * scalar_b s)%F = (alpha * beta + SI (ext_of (finv gamma)) * gamma + scalar_c r s h * delta)%F.
Proof.
  intros Eh. pose proof (quotient_at_tau h Eh) as X. destruct totals as (T1 & T2 & T3). rewrite SI_ext.
  unfold scalar_a, scalar_b, scalar_c. rewrite SA_ext.
  transitivity (alpha * beta + (SI (q sel_a) * beta + SI (q sel_b) * alpha + SI (q sel_c))
     + (r * s * delta * delta + s * alpha * delta + r * beta * delta + s * TA * delta + r * TB * delta
        + peval h tau * (fpow tau (2 ^ e) - 1) + (SA (q sel_a) * beta + SA (q sel_b) * alpha + SA (q sel_c))))%F.
  - rewrite <- X, <- T1, <- T2, <- T3. ring.
  - field. auto.
Qed.

Lemma fold_inputs_dotl (rest : list P) : forall (acc : G1) ics, fold_inputs acc rest ics = acc +g dotl rest ics.
Proof.
  unfold fold_inputs. induction rest as [|x rest IH]; intros acc ics; cbn [combine fold_left dotl]; [now rewrite gadd_0_r|].
  destruct ics as [|i ics]; cbn [combine fold_left dotl]; [now rewrite gadd_0_r|]. rewrite IH. cbn [fst snd]. now rewrite gadd_assoc.
Qed.

Theorem proof_verifies r s h : prover_h w (pa_a t) (pa_b t) (pa_c t) = Done (Ok h) ->
  verify_proof (prepare_verifying_key (p_vk params)) (proof_of r s h) (tl (p_inputs ps)) = Done (Ok tt).
Proof.
  intros Eh. destruct Hone as [rest Er].
  set (ics := map (fun i => ext_of (finv gamma) (Input i) *g g1) (seq 0 ni)).
  assert (Eic : pvk_ic (prepare_verifying_key (p_vk params)) = ics) by reflexivity.
  unfold verify_proof. rewrite Eic.
  assert (Lic : List.length ics = ni) by (unfold ics; now rewrite map_length, seq_length).
  rewrite Lic. rewrite Er. cbn [tl List.length]. rewrite Nat.add_1_r, Nat.eqb_refl. cbn [negb].
  pose proof (at_g (M := G1) (ext_of (finv gamma)) g1 Input (p_inputs ps)) as D. fold (SI (ext_of (finv gamma))) in D. fold ics in D.
  destruct ics as [|ic0 ics'] eqn:Ei; [rewrite Er in Lic; discriminate|]. cbn [skipn]. rewrite fold_inputs_dotl.
  rewrite Er in D at 1. cbn [dotl] in D. rewrite gmul_1 in D. rewrite D.
  change (alpha_g1_beta_g2 (prepare_verifying_key (p_vk params))) with (pair (alpha *g g1) (beta *g g2)).
  change (neg_gamma_g2 (prepare_verifying_key (p_vk params))) with (gneg (gamma *g g2)).
  change (neg_delta_g2 (prepare_verifying_key (p_vk params))) with (gneg (delta *g g2)).
  unfold multi_pairing, proof_of. cbn [fold_left fst snd proof_a proof_b proof_c].
  rewrite <- !gmul_neg_l. rewrite !pair_mul_l, !pair_mul_r, <- !gmul_mul, gadd_0_l, <- !gmul_add_l.
  destruct (geqb_spec ((alpha * beta)%F *g pair g1 g2)
    ((scalar_a r * scalar_b s + SI (ext_of (finv gamma)) * - gamma + scalar_c r s h * - delta)%F *g pair g1 g2)) as [_|N]; auto.
  exfalso. apply N. apply (f_equal (fun x => x *g _)). rewrite (scalar_identity r s h Eh). ring.
Qed.
End Create.
