(** What [generate_parameters] returns. *)
From Coq Require Import String.
From Coq Require Import ZArith List Bool Lia Field.
From Verif Require Import Prelude PrimeField FModule Circuit Multicore Domain FFTProof DomainProof Quotient Multiexp MultiexpProof Assembly AssemblyProof PropAssembly Groth16.
Import ListNotations.
Local Open Scope nat_scope.

Section Lagrange.
Context {P : PrimeField}.
Add Field PFfield_lag : (F_field P).
Notation SM := (ScalarMod P).
Ltac sring := match goal with |- ?a = ?b => change (@eq (F P) a b) end; first [ring | cbn; ring].

(** The root of unity of the domain of size [2^e], and the Lagrange coefficients at [tau]. *)
Definition dom_root (e : nat) : P := sqn fmul (root_of_unity P) (two_adicity P - e).
Definition lag (e : nat) (tau : P) (k : nat) : P :=
  (finv (ofZ (Z.of_nat (2 ^ e))) * fsum (2 ^ e) (fun i => fpow (finv (dom_root e)) (i * k)%nat * fpow tau i))%F.
(** The value at [tau] of the polynomial with values [v] on the domain. *)
Definition at_tau (e : nat) (tau : P) (v : nat -> P) : P := fsum (2 ^ e) (fun k => v k * lag e tau k)%F.

Lemma at_tau_ext e tau v v' : (forall k, k < 2 ^ e -> v k = v' k) -> at_tau e tau v = at_tau e tau v'.
Proof. intros H. apply fsum_ext. intros k Hk. now rewrite H. Qed.
Lemma at_tau_zero e tau : at_tau e tau (fun _ => fzero) = fzero.
Proof. apply fsum_zero. intros. ring. Qed.
Lemma at_tau_add e tau v v' : at_tau e tau (fun k => v k + v' k)%F = (at_tau e tau v + at_tau e tau v')%F.
Proof. unfold at_tau. rewrite <- fsum_add. apply fsum_ext. intros. sring. Qed.
Lemma at_tau_mul e tau c v : at_tau e tau (fun k => c * v k)%F = (c * at_tau e tau v)%F.
Proof. unfold at_tau. rewrite fsum_mul_l. apply fsum_ext. intros. sring. Qed.
Lemma at_tau_fsum e tau n (f : nat -> nat -> P) : at_tau e tau (fun k => fsum n (fun i => f i k)) = fsum n (fun i => at_tau e tau (f i)).
Proof. unfold at_tau. rewrite fsum_swap. apply fsum_ext. intros k _. rewrite fsum_mul_r. reflexivity. Qed.

Lemma at_tau_interp e tau l v : e < two_adicity P -> interpolates (dom_root e) e l v -> at_tau e tau (coef v) = peval l tau.
Proof.
  intros He [L H]. pose proof (root_prim e He) as Hw. fold (dom_root e) in Hw. set (w := dom_root e) in *. set (m := 2 ^ e) in *.
  assert (C : forall i, i < m -> coef l i = (finv (ofZ (Z.of_nat m)) * fsum m (fun k => fpow (finv w) (k * i)%nat * coef v k))%F).
  { intros i Hi. pose proof (dft_inverse (M := SM) w e (coef l) i Hw Hi) as D. fold m in D. rewrite <- D at 1. cbn. f_equal.
    unfold dft at 1. apply fsum_ext. intros k Hk. cbn. f_equal. rewrite <- H by auto.
    pose proof (peval_dft l m w k fone L) as Q. transitivity (dft (M := SM) w m (fun j => (fpow 1 j * coef l j)%F) k).
    - unfold dft. apply fsum_ext. intros j _. cbn. rewrite fpow_one. f_equal. sring.
    - rewrite Q. f_equal. sring. }
  rewrite (peval_upto l m) by auto. unfold at_tau, lag. fold m w.
  transitivity (fsum m (fun k => fsum m (fun i => finv (ofZ (Z.of_nat m)) * (fpow (finv w) (i * k)%nat * coef v k) * fpow tau i))%F).
  - apply fsum_ext. intros k _. rewrite fsum_mul_l, fsum_mul_l. apply fsum_ext. intros i _. sring.
  - rewrite fsum_swap. apply fsum_ext. intros i Hi. rewrite C by auto. rewrite fsum_mul_l, fsum_mul_r. apply fsum_ext. intros k _.
    rewrite (Nat.mul_comm k i). sring.
Qed.

(** Every vector has an interpolation. *)
Definition interp_poly e (v : list P) : list P :=
  map (fun i => finv (ofZ (Z.of_nat (2 ^ e))) *g dft (M := SM) (finv (dom_root e)) (2 ^ e) (coef v) i) (seq 0 (2 ^ e)).
Lemma interp_values e (v : list P) : e < two_adicity P -> interpolates (dom_root e) e (interp_poly e v) v.
Proof.
  intros He. pose proof (root_prim e He) as Hw. fold (dom_root e) in Hw. unfold interp_poly. set (w := dom_root e) in *.
  split; [now rewrite map_length, seq_length|]. intros k Hk.
  rewrite (peval_upto _ (2 ^ e)) by now rewrite map_length, seq_length.
  rewrite <- (dft_inverse' (M := SM) w e (coef v) k Hw Hk). unfold dft at 2. apply fsum_ext. intros i Hi.
  unfold coef at 1. rewrite (nth_map_seq (fun i => finv (ofZ (Z.of_nat (2 ^ e))) *g dft (M := SM) (finv w) (2 ^ e) (coef v) i)) by auto. cbn.
  rewrite <- fpow_mul, (Nat.mul_comm k i). sring.
Qed.

Lemma interp_exists e (v : list P) : e < two_adicity P -> exists l, interpolates (dom_root e) e l v.
Proof. intros He. eexists. now apply interp_values. Qed.

Lemma eval_at_tau_spec (pot : list P) col : Forall (fun t => snd t < length pot) col ->
  forall acc, eval_at_tau_from pot acc col = Done (acc + fsum (length pot) (fun k => col_coeff col k * nth k pot 0))%F.
Proof.
  induction 1 as [|[c j] col Hj H IH]; intros acc; cbn [eval_at_tau_from].
  - rewrite fsum_zero; [f_equal; ring|]. intros. cbn. ring.
  - cbn [snd] in Hj. rewrite (nth_error_nth' pot fzero Hj), IH. f_equal.
    transitivity (acc + (fsum (length pot) (fun k => if Nat.eqb j k then c * nth k pot 0 else 0) + fsum (length pot) (fun k => col_coeff col k * nth k pot 0)))%F.
    + rewrite (fsum_delta _ j (fun k => c * nth k pot 0)%F) by auto. sring.
    + rewrite <- fsum_add. f_equal. apply fsum_ext. intros k _. rewrite col_coeff_cons. cbn [fst snd]. destruct (Nat.eqb j k); sring.
Qed.

Lemma column_range sel v cons : forall k, Forall (fun t => snd t < k + length cons) (column_from k sel v cons : list (P * nat)).
Proof.
  induction cons as [|c cons IH]; intros k; cbn [column_from length]; [constructor|]. apply Forall_app. split.
  - unfold entries. apply Forall_map, Forall_forall. intros t _. cbn. lia.
  - eapply Forall_impl; [|apply IH]. cbn. lia.
Qed.
End Lagrange.

Lemma omap_id_done {A} (l : list A) : omap (fun x => x) (map Done l) = Done l.
Proof. induction l; cbn; auto. rewrite IHl. reflexivity. Qed.

Lemma map_combine3 {A B C D} (f : A -> B -> C -> D) (l : list nat) (a : nat -> A) (b : nat -> B) (c : nat -> C) :
  map (fun x => f (fst (fst x)) (snd (fst x)) (snd x)) (combine (combine (map a l) (map b l)) (map c l)) = map (fun i => f (a i) (b i) (c i)) l.
Proof. induction l; cbn; congruence. Qed.

Lemma list_as_map {A} (l : list A) d : l = map (fun i => nth i l d) (seq 0 (length l)).
Proof.
  apply nth_ext with (d := d) (d' := d); [now rewrite map_length, seq_length|]. intros i Hi.
  now rewrite (nth_map_seq (fun i => nth i l d)).
Qed.

Section Generator.
Context {P : PrimeField} (E : Engine P).
Add Field PFfield_gen : (F_field P).
Notation SM := (ScalarMod P).
Ltac sring := match goal with |- ?a = ?b => change (@eq (F P) a b) end; first [ring | cbn; ring].
Notation G1 := (E_G1 E).
Notation G2 := (E_G2 E).
Variables (g1 : G1) (g2 : G2) (alpha beta gamma delta tau : P).

(** The QAP polynomial of variable [v] in one of the three matrices, at [tau]. *)
Definition qap (e : nat) (sel : Constraint P -> LC P) (cons : list (Constraint P)) (v : Var) : P :=
  at_tau e tau (col_coeff (column_from 0 sel v cons)).

Definition ext_scalar e cons (inv : P) (v : Var) : P :=
  ((qap e sel_a cons v * beta + qap e sel_b cons v * alpha + qap e sel_c cons v) * inv)%F.

Definition quad_of e cons (inv : P) (v : Var) : quad E :=
  (qap e sel_a cons v *g g1, qap e sel_b cons v *g g1, qap e sel_b cons v *g g2, ext_scalar e cons inv v *g g1).

Lemma eval_at_tau_column e (pot : list P) sel v cons : length pot = 2 ^ e -> (forall k, k < 2 ^ e -> nth k pot fzero = lag e tau k) -> length cons <= 2 ^ e ->
  eval_at_tau pot (column_from 0 sel v cons) = Done (qap e sel cons v).
Proof.
  intros Lp Hp Hc. unfold eval_at_tau. rewrite eval_at_tau_spec.
  - f_equal. rewrite Lp. unfold qap, at_tau. transitivity (fsum (2 ^ e) (fun k => col_coeff (column_from 0 sel v cons) k * nth k pot 0))%F; [sring|].
    apply fsum_ext. intros k Hk. now rewrite Hp.
  - eapply Forall_impl; [|apply (column_range sel v cons 0)]. cbn. lia.
Qed.

Lemma eval_one_column e (pot : list P) inv v cons : length pot = 2 ^ e -> (forall k, k < 2 ^ e -> nth k pot fzero = lag e tau k) -> length cons <= 2 ^ e ->
  eval_one g1 g2 pot inv alpha beta (column_from 0 sel_a v cons, column_from 0 sel_b v cons, column_from 0 sel_c v cons) = Done (quad_of e cons inv v).
Proof.
  intros Lp Hp Hc. unfold eval_one. rewrite !(eval_at_tau_column e) by auto. cbn [obind]. unfold quad_of, ext_scalar. f_equal.
  destruct (feqb_spec (qap e sel_a cons v) fzero) as [->|]; destruct (feqb_spec (qap e sel_b cons v) fzero) as [->|]; cbn [negb]; now rewrite ?gmul_0_l.
Qed.

Lemma eval_vars_column (w : Worker) e (pot : list P) inv cons (at_ bt ct : list (list (P * nat))) n (mk : nat -> Var) :
  length pot = 2 ^ e -> (forall k, k < 2 ^ e -> nth k pot fzero = lag e tau k) -> length cons <= 2 ^ e ->
  length at_ = n -> length bt = n -> length ct = n ->
  (forall i, i < n -> nth i at_ [] = column_from 0 sel_a (mk i) cons) -> (forall i, i < n -> nth i bt [] = column_from 0 sel_b (mk i) cons) ->
  (forall i, i < n -> nth i ct [] = column_from 0 sel_c (mk i) cons) ->
  0 < scope_chunk w n ->
  eval_vars w g1 g2 pot at_ bt ct n inv alpha beta = Done (map (fun i => quad_of e cons inv (mk i)) (seq 0 n)).
Proof.
  intros Lp Hp Hc La Lb Lc Ha Hb Hct Hw. unfold eval_vars. rewrite La, Lb, Lc, Nat.eqb_refl. cbn [andb].
  rewrite (par_zip_spec w n _ _ _ ([], [], [])) by (auto; rewrite !combine_length, repeat_length; lia). cbn [obind].
  assert (X : mapi (fun i (_ : outcome (quad E)) => eval_one g1 g2 pot inv alpha beta (nth i (combine (combine at_ bt) ct) ([], [], []))) (repeat (Done (quad_identity E)) n)
              = map Done (map (fun i => quad_of e cons inv (mk i)) (seq 0 n))).
  { apply nth_ext with (d := Panicked) (d' := Panicked); [now rewrite mapi_length, !map_length, repeat_length, seq_length|].
    rewrite mapi_length, repeat_length. intros i Hi. rewrite (nth_mapi _ _ Panicked) by now rewrite repeat_length.
    rewrite map_map, (nth_map_seq (fun x => Done (quad_of e cons inv (mk x)))) by auto.
    rewrite combine_nth by (rewrite combine_length; lia). rewrite combine_nth by lia. rewrite Ha, Hb, Hct by auto. now apply eval_one_column. }
  rewrite X. apply omap_id_done.
Qed.

Definition h_of e : list G1 := map (fun i => (fpow tau i * ((fpow tau (2 ^ e) - 1) * finv delta))%F *g g1) (seq 0 (2 ^ e - 1)).
Definition vars_of (ni na : nat) : list Var := map Input (seq 0 ni) ++ map Aux (seq 0 na).
Definition nonid {M : FMod P} (l : list M) : list M := filter (fun e => negb (is_identity e)) l.

Definition params_of e (ks : KState P) : Parameters E :=
  let cons := k_cons ks in
  let vars := vars_of (k_inputs ks) (k_aux ks) in
  mkParams
    (mkVK (alpha *g g1) (beta *g g1) (beta *g g2) (gamma *g g2) (delta *g g1) (delta *g g2)
       (map (fun i => ext_scalar e cons (finv gamma) (Input i) *g g1) (seq 0 (k_inputs ks))))
    (h_of e)
    (map (fun i => ext_scalar e cons (finv delta) (Aux i) *g g1) (seq 0 (k_aux ks)))
    (nonid (map (fun v => qap e sel_a cons v *g g1) vars))
    (nonid (map (fun v => qap e sel_b cons v *g g1) vars))
    (nonid (map (fun v => qap e sel_b cons v *g g2) vars)).

Lemma mapi_const_fun {A B} (f : nat -> B) (l : list A) : mapi (fun i _ => f i) l = map f (seq 0 (length l)).
Proof. unfold mapi. generalize 0. induction l; intros n; cbn; auto. now rewrite IHl. Qed.

Lemma invert_or_error_eq (x : P) : invert_or_error x = if feqb x fzero then Err UnexpectedIdentity else Ok (finv x).
Proof. unfold invert_or_error, finvert. now destruct (feqb x fzero). Qed.

Theorem generate_spec (w : Worker) circuit (s : KeypairAssembly P) ks e :
  wf_worker w -> synthesize_keypair circuit = Done (Ok s) -> KInv s ks -> least_pow (length (k_cons ks)) e ->
  0 < k_inputs ks -> (w = Single -> e < two_adicity P -> gamma <> fzero -> delta <> fzero -> 1 < 2 ^ e /\ 0 < k_aux ks) ->
  generate_parameters w circuit g1 g2 alpha beta gamma delta tau =
    if negb (e <? two_adicity P) then Done (Err PolynomialDegreeTooLarge)
    else if (feqb gamma fzero || feqb delta fzero)%bool then Done (Err UnexpectedIdentity)
    else if existsb is_identity (p_l (params_of e ks)) then Done (Err UnconstrainedVariable)
    else Done (Ok (params_of e ks)).
Proof.
  intros Hw Es [K1 K2 K3 K4 [[La1 La2] Ga] [[Lb1 Lb2] Gb] [[Lc1 Lc2] Gc]] He Hin Hsingle. unfold generate_parameters. rewrite Es. cbn [obindr obind].
  pose proof (from_coeffs_spec (M := SM) (repeat fzero (num_constraints s)) e) as F. rewrite repeat_length, K3 in F. specialize (F He). rewrite K3.
  destruct (Nat.ltb_spec e (two_adicity P)) as [Hlt|Hge]; cbn [negb]; [|now rewrite F].
  destruct F as (d & Ed & Od & Xd & Cd & Wd). rewrite Ed. cbn [obindr obind]. rewrite !invert_or_error_eq. unfold Done_res.
  destruct (feqb_spec gamma fzero) as [|Hg]; cbn [orb obindr obind]; auto. destruct (feqb_spec delta fzero) as [|Hd]; cbn [obindr obind]; auto.
  set (m := 2 ^ e) in *. assert (Hm : 0 < m) by apply pow2_gt0.
  assert (Lm : length (coeffs d) = m) by (rewrite (ok_len _ Od), Xd; reflexivity). rewrite Lm.
  (* powers of tau *)
  rewrite (par_for_spec w m _ _ (fun _ k st => st = fpow tau k) (fun k (_ : P) => fpow tau k)); [|now apply scope_chunk_pos|reflexivity|].
  2: { intros i k st a _ ->. eexists. split; [reflexivity|]. rewrite fpow_S. sring. }
  cbn [obind]. set (ps := mapi (fun k (_ : P) => fpow tau k) (coeffs d)).
  assert (Eps : ps = map (fpow tau) (seq 0 m)) by (unfold ps; rewrite mapi_const_fun; now rewrite <- Lm).
  assert (Lps : @length (F P) ps = m) by (rewrite Eps; now rewrite map_length, seq_length).
  unfold z at 1. cbn [with_coeffs coeffs]. change (@length (G P SM)) with (@length (F P)) in *. rewrite Lps.
  (* h *)
  assert (Hc1 : 0 < scope_chunk w (m - 1)).
  { destruct w as [t|]; [apply scope_chunk_pos_multi; apply Hw|]. destruct Hsingle; auto. cbn [scope_chunk]. lia. }
  rewrite (par_zip_spec w (m - 1) _ (repeat gzero (m - 1)) ps fzero) by (auto; rewrite repeat_length; lia). cbn [obind].
  assert (Eh : mapi (fun i (_ : G1) => (nth i ps 0 * ((fpow tau m - 1) * finv delta))%F *g g1) (repeat gzero (m - 1)) = h_of e).
  { rewrite mapi_const_fun, repeat_length. unfold h_of. apply map_ext_in. intros i Hi. apply in_seq in Hi. rewrite Eps, nth_map_seq by (fold m; lia). reflexivity. }
  rewrite Eh.
  (* Lagrange coefficients *)
  assert (Ops : ok_domain (with_coeffs d ps)) by (apply ok_with; auto; rewrite Xd; exact Lps).
  rewrite ifft_eq by auto. cbn [obind with_coeffs coeffs d_exp omegainv minv]. rewrite (ok_winv _ Od), (ok_minv _ Od), Wd, Xd. fold m.
  set (pot := map (fun v : SM => finv (ofZ (Z.of_nat m)) *g v) (dftl (finv (sqn fmul (root_of_unity P) (two_adicity P - e))) m ps)). assert (Lpot : @length (F P) pot = m).
  { unfold pot. rewrite map_length. apply dftl_length. }
  assert (Hpot : forall k, k < 2 ^ e -> nth k pot fzero = lag e tau k).
  { intros k Hk. unfold pot.
    rewrite (nth_indep _ _ (finv (ofZ (Z.of_nat m)) *g (gzero : SM))) by (fold pot; change (@length (G P SM)) with (@length (F P)); rewrite Lpot; exact Hk).
    rewrite (map_nth (fun v => finv (ofZ (Z.of_nat m)) *g (v : SM))). rewrite nth_dftl by auto. unfold lag. fold m. cbn. f_equal.
    unfold dft. apply fsum_ext. intros i Hi. cbn. f_equal. rewrite Eps. now rewrite nth_map_seq. }
  assert (Hle : length (k_cons ks) <= 2 ^ e) by apply He.
  rewrite (eval_vars_column w e pot (finv gamma) (k_cons ks) _ _ _ (num_inputs s) Input); auto; try lia;
    [|intros i _; apply (Ga (Input i))|intros i _; apply (Gb (Input i))|intros i _; apply (Gc (Input i))|].
  2: { destruct w as [t|]; [apply scope_chunk_pos_multi; apply Hw|]. cbn [scope_chunk]. rewrite K1. auto. }
  cbn [obind].
  rewrite (eval_vars_column w e pot (finv delta) (k_cons ks) _ _ _ (num_aux s) Aux); auto; try lia;
    [|intros i _; apply (Ga (Aux i))|intros i _; apply (Gb (Aux i))|intros i _; apply (Gc (Aux i))|].
  2: { destruct w as [t|]; [apply scope_chunk_pos_multi; apply Hw|]. cbn [scope_chunk]. rewrite K2. apply Hsingle; auto. }
  cbn [obind]. rewrite !map_map. cbn [q_a q_b1 q_b2 q_ext quad_of fst snd]. unfold params_of. cbn [p_l]. rewrite K1, K2.
  destruct (existsb is_identity _); auto. unfold vars_of, nonid. rewrite !map_app, !map_map. reflexivity.
Qed.

Lemma obind_panics {A B} (x : outcome A) (f : A -> outcome B) : (forall a, f a = Panicked) -> obind x f = Panicked.
Proof. destruct x; cbn; auto. Qed.
Lemma par_zip_single0 {A B} (f : A -> B -> A) a b : par_zip Single 0 f a b = Panicked.
Proof. reflexivity. Qed.

(** The single-threaded [scope] over nothing asks [chunks_mut] for chunks of no elements. *)
Theorem generate_single_panics circuit (s : KeypairAssembly P) ks e :
  synthesize_keypair circuit = Done (Ok s) -> KInv s ks -> least_pow (length (k_cons ks)) e ->
  e < two_adicity P -> gamma <> fzero -> delta <> fzero -> (2 ^ e = 1 \/ k_aux ks = 0) ->
  generate_parameters Single circuit g1 g2 alpha beta gamma delta tau = Panicked.
Proof.
  intros Es [K1 K2 K3 K4 _ _ _] He Hlt Hg Hd Hdeg. unfold generate_parameters. rewrite Es. cbn [obindr obind].
  pose proof (from_coeffs_spec (M := SM) (repeat fzero (num_constraints s)) e) as F. rewrite repeat_length, K3 in F. specialize (F He). rewrite K3.
  destruct (Nat.ltb_spec e (two_adicity P)) as [_|]; [|lia].
  destruct F as (d & Ed & Od & Xd & Cd & Wd). rewrite Ed. cbn [obindr obind]. rewrite !invert_or_error_eq. unfold Done_res.
  destruct (feqb_spec gamma fzero) as [|_]; [contradiction|]. destruct (feqb_spec delta fzero) as [|_]; [contradiction|]. cbn [obindr obind].
  assert (Lm : length (coeffs d) = 2 ^ e) by (rewrite (ok_len _ Od), Xd; reflexivity). rewrite Lm.
  apply obind_panics. intros pt. destruct Hdeg as [H1|H0]; [now rewrite H1, Nat.sub_diag|].
  do 3 (apply obind_panics; intros). rewrite K2, H0. unfold eval_vars. destruct (_ && _)%bool; reflexivity.
Qed.
End Generator.

Section Pos.
Context {P : PrimeField}.
Lemma shape_inputs_mono {A} (p : prog P A) : forall s a s', run (ShapeCS P) p s = Done (a, s') -> k_inputs s <= k_inputs s'.
Proof.
  induction p as [a0| |n f k IH|n f k IH|n x y z k IH|n l r k IH|n k IH|k IH]; cbn; intros s a s' H; try discriminate; try (apply IH in H; cbn in H; lia).
  - injection H as <- <-. lia.
Qed.
Lemma shape_pos circuit (ks : KState P) : synthesize_shape circuit = Done (Ok ks) -> 0 < k_inputs ks /\ k_inputs ks <= length (k_cons ks).
Proof.
  unfold synthesize_shape, synthesize, bindq, cs_alloc_input. cbn [bind run m_alloc_input ShapeCS obind fst snd shape_new k_inputs k_aux k_cons].
  destruct (run (ShapeCS P) circuit _) as [[[r|] s]|] eqn:E; cbn [obind]; try discriminate. apply shape_inputs_mono in E. cbn [k_inputs] in E.
  rewrite shape_enforce_inputs. cbn [obind]. intros [= <-]. cbn [k_inputs k_cons]. rewrite app_length, map_length, seq_length. lia.
Qed.
End Pos.
