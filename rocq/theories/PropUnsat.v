(** Property C61: proofs created from witnesses that do not satisfy the constraints. *)
From Coq Require Import String.
From Coq Require Import ZArith List Bool Lia Field.
From Verif Require Import Prelude PrimeField Fields FModule GRing Circuit Multicore Multiexp MultiexpProof PropMultiexp Assembly AssemblyProof PropAssembly Groth16 GeneratorProof ProverProof PropGenerator PropGroth16 BatchProof PropVerifier PropDeterminism.
From Verif Require Import FFTProof DomainProof Quotient Roots.
From Verif Require PropDomain.
Import ListNotations.
Local Open Scope nat_scope.

(** * C61 *)
Section C61.
Context {P : PrimeField} {E : Engine P}.
Add Field PFc61 : (F_field P).

(** What a constraint is off by. *)
Definition violation (wit : PState P) (k : Constraint P) : P :=
  let '(a, b, c) := k in (eval (PropGroth16.value wit) a * eval (PropGroth16.value wit) b - eval (PropGroth16.value wit) c)%F.

Lemma at_waste (g1 : E_G1 E) (g2 : E_G2 E) alpha beta gamma delta tau t (wit : PState P) e : PInv t wit ->
  Forall (con_ok (List.length (p_inputs wit)) (List.length (p_aux wit))) (p_cons wit) ->
  (exists rest, p_inputs wit = fone :: rest) -> gamma <> fzero -> delta <> fzero ->
  forall r s h, verifies (p_vk (params_of E g1 g2 alpha beta gamma delta tau e (shape_of wit)))
                  (proof_of E g1 g2 alpha beta delta tau t wit e r s h) (public_inputs wit) <->
    (TA tau t e * TB tau t e - TC tau t e - peval h tau * (fpow tau (2 ^ e) - 1))%F *g pair g1 g2 = gzero.
Proof.
  intros PI Hok [rest Er] Hg Hd r s h. destruct (totals tau t wit e PI Hok) as (T1 & T2 & T3).
  set (f := ext_of alpha beta tau wit e (finv gamma)).
  assert (St : exists ic0 ics, ic (p_vk (params_of E g1 g2 alpha beta gamma delta tau e (shape_of wit))) = ic0 :: ics /\
            List.length rest = List.length ics /\ ic0 +g combination rest ics = SI wit f *g g1).
  { set (ics := map (fun i => f (Input i) *g g1) (seq 0 (List.length (p_inputs wit)))).
    change (ic (p_vk (params_of E g1 g2 alpha beta gamma delta tau e (shape_of wit)))) with ics.
    pose proof (at_g (M := E_G1 E) f g1 Input (p_inputs wit)) as D. fold (SI wit f) in D. fold ics in D. rewrite Er in D at 1.
    assert (L : List.length ics = S (List.length rest)) by (unfold ics; now rewrite map_length, seq_length, Er).
    destruct ics as [|ic0 ics']; [discriminate|]. exists ic0, ics'. split; [reflexivity|]. cbn in L. split; [lia|].
    rewrite <- D. cbn [dotl]. now rewrite gmul_1, combination_dotl. }
  destruct St as (ic0 & ics & Ei & Li & St). unfold public_inputs. rewrite Er. cbn [tl].
  assert (X : verifies (p_vk (params_of E g1 g2 alpha beta gamma delta tau e (shape_of wit)))
                  (proof_of E g1 g2 alpha beta delta tau t wit e r s h) rest <->
     pair (scalar_a alpha delta tau t e r *g g1) (scalar_b beta delta tau t e s *g g2) =
     pair (alpha *g g1) (beta *g g2) +g pair (SI wit f *g g1) (gamma *g g2) +g pair (scalar_c alpha beta delta tau t wit e r s h *g g1) (delta *g g2)).
  { rewrite <- St. split.
    - intros (i0 & is' & E0 & _ & H). rewrite Ei in E0. injection E0 as <- <-. exact H.
    - intros H. exists ic0, ics. auto. }
  rewrite X. rewrite !pair_mul_l, !pair_mul_r, <- !gmul_mul, <- !gmul_add_l.
  assert (Y : (scalar_a alpha delta tau t e r * scalar_b beta delta tau t e s - (alpha * beta + SI wit f * gamma + scalar_c alpha beta delta tau t wit e r s h * delta))%F =
    (TA tau t e * TB tau t e - TC tau t e - peval h tau * (fpow tau (2 ^ e) - 1))%F).
  { unfold f. rewrite SI_ext. unfold scalar_a, scalar_b, scalar_c. rewrite SA_ext. rewrite <- T1, <- T2, <- T3. field. auto. }
  rewrite <- Y. clear. set (x := (_ * _)%F). set (y := (alpha * beta + _ + _)%F). split.
  - intros H. transitivity (x *g pair g1 g2 -g y *g pair g1 g2); [gcoeffs; ring|]. rewrite H. apply gsub_diag.
  - intros H. transitivity ((x - y)%F *g pair g1 g2 +g y *g pair g1 g2); [gcoeffs; ring|]. rewrite H. apply gadd_0_l.
Qed.

(** The coefficients of [A B - C - h (x^m - 1)]. *)
Definition error_poly (m : nat) (A B C h : list P) : list P :=
  map (fun n => (pmul A B n - coef C n - (if n <? m then 0 else coef h (n - m)%nat) + coef h n)%F) (seq 0 (2 * m - 1)).
Lemma error_poly_eval m A B C h x : 0 < m -> List.length A <= m -> List.length B <= m -> List.length C <= m -> List.length h <= m - 1 ->
  peval (error_poly m A B C h) x = (peval A x * peval B x - peval C x - peval h x * (fpow x m - 1))%F.
Proof.
  intros Hm LA LB LC Lh.
  assert (Lt : List.length (error_poly m A B C h) = 2 * m - 1) by (unfold error_poly; now rewrite map_length, seq_length).
  rewrite (peval_upto (error_poly m A B C h) (2 * m)) by lia.
  rewrite <- (pmul_eval A B m x) by auto. rewrite (peval_upto C (2 * m)), (peval_upto h (2 * m)) by lia.
  assert (Hh : (fsum (2 * m) (fun n => coef h n * fpow x n) * fpow x m = fsum (2 * m) (fun n => (if n <? m then 0 else coef h (n - m)%nat) * fpow x n))%F).
  { rewrite <- (peval_upto h (2 * m)) by lia. rewrite (peval_upto h m) by lia. replace (2 * m) with (m + m) by lia. rewrite fsum_split.
    rewrite (fsum_zero m (fun n => (if n <? m then 0 else coef h (n - m)%nat) * fpow x n)%F).
    2: { intros i Hi. apply Nat.ltb_lt in Hi as Hi'. rewrite Hi'. ring. }
    rewrite fsum_mul_r. transitivity (fsum m (fun i => coef h i * fpow x i * fpow x m)%F); [reflexivity|].
    transitivity (0 + fsum m (fun i => coef h i * fpow x i * fpow x m))%F; [ring|]. f_equal. apply fsum_ext. intros i Hi.
    destruct (Nat.ltb_spec (m + i) m); [lia|]. replace (m + i - m) with i by lia. rewrite fpow_add. ring. }
  transitivity (fsum (2 * m) (fun n => pmul A B n * fpow x n) - fsum (2 * m) (fun n => coef C n * fpow x n)
     - fsum (2 * m) (fun n => (if n <? m then 0 else coef h (n - m)%nat) * fpow x n) + fsum (2 * m) (fun n => coef h n * fpow x n))%F.
  2: { rewrite <- Hh. ring. }
  rewrite <- !fsum_sub, <- fsum_add. apply fsum_ext. intros n Hn. destruct (Nat.eq_dec n (2 * m - 1)) as [->|Hne].
  - rewrite (coef_out (error_poly m A B C h)) by lia. rewrite (pmul_high A B m), (coef_out C), (coef_out h (2 * m - 1)), (coef_out h (2 * m - 1 - m)) by lia.
    destruct (_ <? _); ring.
  - unfold coef at 1. unfold error_poly. erewrite nth_error_nth.
    2: { apply (map_nth_error (fun n => (pmul A B n - coef C n - (if n <? m then 0 else coef h (n - m)%nat) + coef h n)%F)). rewrite (nth_error_nth' _ 0) by (rewrite seq_length; lia).
         rewrite seq_nth by lia. reflexivity. }
    cbn [Nat.add]. ring.
Qed.

(** For every circuit and witness there is one polynomial, of degree at most [2 * 2^e - 2], that decides: whatever the rest of the toxic
    waste, the generators, the randomness and the threads, a proof created from the witness is accepted exactly when the polynomial
    vanishes at [tau].  On the domain its values are what the constraints are off by. *)
Theorem C61_error_polynomial (prover_circuit : prog P (res unit)) (inst : KState P) (wit : PState P) e :
  assigns prover_circuit wit -> same_circuit inst wit -> addressable wit -> PropDomain.domain_exponent (List.length (k_cons inst)) e -> e < two_adicity P ->
  exists D : list P, List.length D = 2 * 2 ^ e - 1 /\
    (forall k c, nth_error (p_cons wit) k = Some c -> PropDomain.eval D (fpow (domain_generator e) k) = violation wit c) /\
    (satisfying wit -> Forall (fun d => d = fzero) D) /\
    forall (w w' : Worker) (ln_ceil : Z -> nat) (keygen_circuit : prog P (res unit)) (g1 : E_G1 E) (g2 : E_G2 E) alpha beta gamma delta tau params r s proof,
      wf_worker w -> wf_worker w' -> sane_ln_ceil ln_ceil -> describes keygen_circuit inst ->
      generate_parameters w keygen_circuit g1 g2 alpha beta gamma delta tau = Done (Ok params) ->
      create_proof w' ln_ceil prover_circuit params r s = Done (Ok proof) ->
      (verify_proof (prepare_verifying_key (p_vk params)) proof (public_inputs wit) = Done (Ok tt) <->
       PropDomain.eval D tau *g pair g1 g2 = gzero).
Proof.
  intros Hwit Hsame Haddr He HS. pose proof Hsame as (_ & _ & Hc). rewrite Hc in He. pose proof (PropDomain.domain_exponent_least _ _ He) as Hle.
  set (vals := fun sel : Constraint P -> LC P => map (fun c => eval (asgl (p_inputs wit) (p_aux wit)) (sel c)) (p_cons wit)).
  assert (Lv : forall sel, List.length (vals sel) = List.length (p_cons wit)) by (intros sel; apply map_length).
  assert (Hm : 0 < 2 ^ e) by (apply Nat.neq_0_lt_0, Nat.pow_nonzero; lia).
  pose proof (interp_values e (vals sel_a) HS) as IA. pose proof (interp_values e (vals sel_b) HS) as IB. pose proof (interp_values e (vals sel_c) HS) as IC.
  assert (Gv : forall sel k c, nth_error (p_cons wit) k = Some c -> coef (vals sel) k = eval (PropGroth16.value wit) (sel c)).
  { intros sel k c Hk. unfold coef, vals. apply nth_error_nth. erewrite map_nth_error by exact Hk. reflexivity. }
  pose proof (prover_h_total Single (vals sel_a) (vals sel_b) (vals sel_c) e I) as HT. rewrite !Lv in HT. specialize (HT Hle eq_refl eq_refl).
  apply Nat.ltb_lt in HS as HS'. rewrite HS' in HT. destruct HT as (h & Eh & Lh).
  set (A := interp_poly e (vals sel_a)) in *. set (B := interp_poly e (vals sel_b)) in *. set (C := interp_poly e (vals sel_c)) in *.
  pose proof IA as [LA HA]. pose proof IB as [LB HB]. pose proof IC as [LC HC].
  assert (EE : forall x, PropDomain.eval (error_poly (2 ^ e) A B C h) x = (peval A x * peval B x - peval C x - peval h x * (fpow x (2 ^ e) - 1))%F).
  { intros x. apply (error_poly_eval (2 ^ e) A B C h x Hm LA LB LC). lia. }
  exists (error_poly (2 ^ e) A B C h). split; [unfold error_poly; now rewrite map_length, seq_length|]. split; [|split].
  - intros k c Hk. rewrite EE. assert (Hlt : k < 2 ^ e).
    { pose proof (proj1 Hle). assert (k < List.length (p_cons wit)) by (apply nth_error_Some; congruence). lia. }
    rewrite dom_gen_eq by lia. rewrite HA, HB, HC by auto. rewrite !(Gv _ k c Hk).
    assert (Z : fpow (fpow (dom_root e) k) (2 ^ e) = (fone : P)).
    { rewrite <- fpow_mul. apply fpow_mod, prim_pow. now apply root_prim. }
    rewrite Z. unfold violation. destruct c as [[a b] c]. unfold sel_a, sel_b, sel_c. cbn [fst snd]. ring.
  - intros Hsat.
    assert (HV : forall k, (coef (vals sel_a) k * coef (vals sel_b) k)%F = coef (vals sel_c) k).
    { intros k. destruct (nth_error (p_cons wit) k) as [[[a b] c]|] eqn:Ek.
      - rewrite !(Gv _ k _ Ek). apply Hsat. eapply nth_error_In; eauto.
      - apply nth_error_None in Ek. unfold coef. rewrite !nth_overflow by (rewrite Lv; auto). ring. }
    destruct (prover_h_spec Single (vals sel_a) (vals sel_b) (vals sel_c) e I HS) with (A := A) (B := B) (C := C) as (h' & Eh' & _ & X & _); auto; rewrite ?Lv; auto.
    rewrite Eh in Eh'. injection Eh' as <-. unfold error_poly. apply Forall_forall. intros d Hd. apply in_map_iff in Hd as (n & <- & _).
    rewrite X. ring.
  - intros w w' ln_ceil keygen_circuit g1 g2 alpha beta gamma delta tau params r s proof Hw Hw' Hln Hinst Hgen Hcr.
    destruct (create_ok_inv g1 g2 alpha beta gamma delta tau w w' ln_ceil keygen_circuit prover_circuit inst wit params Hw Hw' Hln Hgen Hinst Hwit Hsame Haddr r s proof Hcr)
      as (t & e' & h' & Et & PI & Hok & _ & Hle' & _ & Hg & Hd & Ep & Eh' & _ & _ & ->).
    assert (e' = e) by (now apply (least_pow_unique (List.length (p_cons wit)))). subst e'.
    rewrite C38_accepts_iff, Ep. rewrite at_waste by (auto; now apply (assigns_one prover_circuit)).
    rewrite (prover_h_workers w' Single) in Eh' by (auto; exact I).
    assert (Ea : pa_a t = vals sel_a) by (rewrite (pi_a _ _ PI); reflexivity). assert (Eb : pa_b t = vals sel_b) by (rewrite (pi_b _ _ PI); reflexivity).
    assert (Ec : pa_c t = vals sel_c) by (rewrite (pi_c _ _ PI); reflexivity). rewrite Ea, Eb, Ec, Eh in Eh'. injection Eh' as <-.
    unfold TA, TB, TC. rewrite Ea, Eb, Ec, EE.
    rewrite (at_tau_interp e tau _ _ HS IA), (at_tau_interp e tau _ _ HS IB), (at_tau_interp e tau _ _ HS IC). reflexivity.
Qed.

(** So from one witness that does not satisfy the constraints proofs are accepted for at most [2 * 2^e - 2] values of [tau] together. *)
Theorem C61_few_accepted (keygen_circuit prover_circuit : prog P (res unit)) (inst : KState P) (wit : PState P) e (bad : list P) :
  describes keygen_circuit inst -> assigns prover_circuit wit -> same_circuit inst wit -> addressable wit -> ~ satisfying wit ->
  PropDomain.domain_exponent (List.length (k_cons inst)) e ->
  NoDup bad ->
  (forall tau, In tau bad -> exists w w' ln_ceil (g1 : E_G1 E) (g2 : E_G2 E) alpha beta gamma delta params r s proof,
     wf_worker w /\ wf_worker w' /\ sane_ln_ceil ln_ceil /\ pair g1 g2 <> gzero /\
     generate_parameters w keygen_circuit g1 g2 alpha beta gamma delta tau = Done (Ok params) /\
     create_proof w' ln_ceil prover_circuit params r s = Done (Ok proof) /\
     verify_proof (prepare_verifying_key (p_vk params)) proof (public_inputs wit) = Done (Ok tt)) ->
  List.length bad <= 2 * 2 ^ e - 2.
Proof.
  intros Hinst Hwit Hsame Haddr Hns He Hn Hbad. destruct bad as [|tau0 bad']; [cbn; lia|]. set (bad := tau0 :: bad') in *.
  assert (HS : e < two_adicity P).
  { destruct (Hbad tau0 (or_introl eq_refl)) as (w & w' & ln & g1 & g2 & alpha & beta & gamma & delta & params & r & s & proof & Hw & _ & _ & _ & Hg & _).
    destruct (generate_ok_inv g1 g2 alpha beta gamma delta tau0 w keygen_circuit params Hw Hg) as (s' & ks & e' & _ & _ & Ek & He' & Hle & HS & _).
    unfold describes in Hinst. rewrite Ek in Hinst. injection Hinst as ->.
    assert (e' = e) by (apply (least_pow_unique (List.length (k_cons inst))); now apply PropDomain.domain_exponent_least). now subst e'. }
  destruct (C61_error_polynomial prover_circuit inst wit e Hwit Hsame Haddr He HS) as (D & LD & VD & _ & X).
  assert (ND : ~ all_zero D).
  { intros Z. apply Hns. intros a b c Hin. apply In_nth_error in Hin as [k Hk]. specialize (VD k _ Hk).
    change (PropDomain.eval D (fpow (domain_generator e) k)) with (peval D (fpow (domain_generator e) k)) in VD.
    rewrite all_zero_eval in VD by auto. unfold violation in VD. set (x := (_ * _)%F) in *. set (y := eval _ c) in *.
    transitivity (x - y + y)%F; [ring|]. rewrite <- VD. ring. }
  replace (2 * 2 ^ e - 2) with (List.length D - 1) by lia. apply (few_roots D bad ND Hn).
  intros tau Ht. destruct (Hbad tau Ht) as (w & w' & ln & g1 & g2 & alpha & beta & gamma & delta & params & r & s & proof & Hw & Hw' & Hln & Hp & Hg & Hc & Hv).
  apply (X w w' ln keygen_circuit g1 g2 alpha beta gamma delta tau params r s proof Hw Hw' Hln Hinst Hg Hc) in Hv.
  destruct (gmul_cancel _ _ Hv) as [Z|Z]; [exact Z|contradiction].
Qed.
End C61.
Print Assumptions C61_error_polynomial.
Print Assumptions C61_few_accepted.

(** z = 2xy (see [C06_ex]) with x = 3, y = 5 and z = 31, and 10 for the variable that should be 7: proofs are accepted for at most 6 of the 64513 values of [tau].  With [tau] = 13
    the proof is refused, with 34304 it is accepted. *)
Definition c61_calls : list (call Fr64513) :=
  [CallAlloc (ofZ 3); CallAlloc (ofZ 5); CallAllocInput (ofZ 31);
   CallEnforce [(Aux 0, fone); (Aux 0, fone)] [(Aux 1, fone)] [(Input 1, fone)];
   CallAlloc (ofZ 10); CallEnforce [(Aux 2, fone)] [(Input 0, fone)] [(Input 0, ofZ 7)]].
Definition c61_run (tau : Z) : option bool :=
  match generate_parameters (E := DummyEngine Fr64513) (Multicore 3) (circuit_of c06_calls) fone (ofZ 2) (ofZ 3) (ofZ 5) (ofZ 7) (ofZ 11) (ofZ tau) with
  | Done (Ok params) =>
      match create_proof (Multicore 2) (fun _ => 3) (circuit_of c61_calls) params (ofZ 17) (ofZ 19) with
      | Done (Ok proof) =>
          match verify_proof (prepare_verifying_key (p_vk params)) proof [ofZ 31] with Done (Ok tt) => Some true | Done (Err InvalidProof) => Some false | _ => None end
      | _ => None
      end
  | _ => None
  end.
Example C61_ex :
  (exists inst wit, describes (circuit_of c06_calls) inst /\ assigns (circuit_of c61_calls) wit /\ same_circuit inst wit /\ addressable wit /\ ~ satisfying wit /\
     PropDomain.domain_exponent (List.length (k_cons inst)) 2 /\ (2 < two_adicity Fr64513)%nat) /\
  c61_run 13 = Some false /\ c61_run 34304 = Some true.
Proof.
  split; [|split; vm_compute; reflexivity].
  pose proof (shape_synth c06_calls) as D. pose proof (honest_synth c61_calls) as A. unfold synthesize_shape, shape_new in D. unfold synthesize_honest, honest_new in A.
  eexists. eexists. split; [exact D|]. split; [exact A|]. split; [repeat split|]. split; [repeat split; cbn; lia|]. split.
  - intros Hs. specialize (Hs _ _ _ (or_introl eq_refl)). apply (f_equal toZ) in Hs. vm_compute in Hs. discriminate.
  - split; [|vm_compute; lia]. split; [vm_compute; lia|]. intros e' He'. assert (e' = 0 \/ e' = 1) as [-> | ->] by lia; cbn; lia.
Qed.
