(** Properties C56, C57, C58: which proofs there are - as functions of the randomness, for the verifier, and without a witness. *)
From Coq Require Import String.
From Coq Require Import ZArith List Bool Lia Field.
From Coq Require Import Strings.Byte.
From Verif Require Import Prelude PrimeField Fields FModule GRing Circuit Multicore Multiexp MultiexpProof PropMultiexp Assembly AssemblyProof PropAssembly Groth16 GeneratorProof ProverProof PropGenerator PropGroth16 Encoding EncodingProof PropEncoding BatchProof PropVerifier.
From Verif Require Import Quotient.
From Verif Require PropDomain DomainProof.
Import ListNotations.
Local Open Scope nat_scope.

(** * C56 *)
Section C56.
Context {P : PrimeField} {E : Engine P}.
Add Field PFc56 : (F_field P).

(** Whether proving succeeds does not depend on the randomness, whatever the parameters; the proof is affine in [r] and in [s]. *)
Theorem C56_affine (w : Worker) (ln_ceil : Z -> nat) (circuit : prog P (res unit)) (params : Parameters E) r0 s0 proof0 :
  create_proof w ln_ceil circuit params r0 s0 = Done (Ok proof0) ->
  exists a b1 b2 c, delta_g1 (p_vk params) <> gzero /\ delta_g2 (p_vk params) <> gzero /\
    forall r s, create_proof w ln_ceil circuit params r s =
      Done (Ok (mkProof (a +g r *g delta_g1 (p_vk params)) (b2 +g s *g delta_g2 (p_vk params))
                        (c +g r *g b1 +g s *g a +g (r * s)%F *g delta_g1 (p_vk params)))).
Proof.
  unfold create_proof. intros H.
  destruct (synthesize_prover circuit) as [[prover|]|]; try discriminate. cbn [obindr obind] in *.
  destruct (prover_h w (pa_a prover) (pa_b prover) (pa_c prover)) as [[hs|]|]; try discriminate. cbn [obindr obind] in *.
  destruct (multiexp_start ln_ceil (p_h params) _ _ _) as [h|]; try discriminate. cbn [obindr obind] in *.
  destruct (multiexp_start ln_ceil (p_l params) _ _ _) as [l|]; try discriminate. cbn [obindr obind] in *.
  destruct (multiexp_start ln_ceil (p_a params) 0 _ _) as [ai|]; try discriminate. cbn [obindr obind] in *.
  destruct (multiexp_start ln_ceil (p_a params) _ _ _) as [aa|]; try discriminate. cbn [obindr obind] in *.
  destruct (multiexp_start ln_ceil (p_b_g1 params) 0 _ _) as [b1i|]; try discriminate. cbn [obindr obind] in *.
  destruct (multiexp_start ln_ceil (p_b_g1 params) _ _ _) as [b1a|]; try discriminate. cbn [obindr obind] in *.
  destruct (multiexp_start ln_ceil (p_b_g2 params) 0 _ _) as [b2i|]; try discriminate. cbn [obindr obind] in *.
  destruct (multiexp_start ln_ceil (p_b_g2 params) _ _ _) as [b2a|]; try discriminate. cbn [obindr obind] in *.
  destruct (is_identity (delta_g1 (p_vk params)) || is_identity (delta_g2 (p_vk params)))%bool eqn:I; [discriminate|]. apply orb_false_iff in I as [I1 I2].
  destruct ai as [[ai|]|]; [|discriminate..]. cbn [obindr obind] in *. destruct aa as [[aa|]|]; [|discriminate..]. cbn [obindr obind] in *.
  destruct b1i as [[b1i|]|]; [|discriminate..]. cbn [obindr obind] in *. destruct b1a as [[b1a|]|]; [|discriminate..]. cbn [obindr obind] in *.
  destruct b2i as [[b2i|]|]; [|discriminate..]. cbn [obindr obind] in *. destruct b2a as [[b2a|]|]; [|discriminate..]. cbn [obindr obind] in *.
  destruct h as [[h|]|]; [|discriminate..]. cbn [obindr obind] in *. destruct l as [[l|]|]; [|discriminate..]. cbn [obindr obind] in *.
  exists (alpha_g1 (p_vk params) +g (ai +g aa)), (beta_g1 (p_vk params) +g (b1i +g b1a)), (beta_g2 (p_vk params) +g (b2i +g b2a)), (h +g l).
  unfold is_identity in *. split; [destruct (geqb_spec (delta_g1 (p_vk params)) gzero); congruence|]. split; [destruct (geqb_spec (delta_g2 (p_vk params)) gzero); congruence|].
  intros r s. do 2 f_equal. f_equal; gcoeffs; ring.
Qed.

(** Proofs that [Proof::read] does not read back (those with the identity in them): all with one [r] at most, and besides at most two
    [s] for each [r]. *)
Theorem C56_readable (B1 : GroupBytes (E_G1 E)) (B2 : GroupBytes (E_G2 E)) (w : Worker) (ln_ceil : Z -> nat) (circuit : prog P (res unit)) (params : Parameters E) r0 s0 proof0 :
  create_proof w ln_ceil circuit params r0 s0 = Done (Ok proof0) ->
  let readable r s := exists proof, create_proof w ln_ceil circuit params r s = Done (Ok proof) /\
    forall rest k, proof_read B1 B2 (mkReader (written (fst (proof_write B1 B2 proof (mkWriter [] None))) ++ rest) k) = Ok (proof, mkReader rest k) in
  exists exception : P -> Prop, (forall r r', exception r -> exception r' -> r = r') /\
    (forall r s, exception r -> ~ readable r s) /\
    (forall r, ~ exception r -> forall ss, NoDup ss -> (forall s, In s ss -> ~ readable r s) -> List.length ss <= 2).
Proof.
  intros H readable. destruct (C56_affine w ln_ceil circuit params r0 s0 proof0 H) as (a & b1 & b2 & c & D1 & D2 & X). clear H.
  set (d1 := delta_g1 (p_vk params)) in *. set (d2 := delta_g2 (p_vk params)) in *. clearbody d1 d2.
  exists (fun r => a +g r *g d1 = gzero). split; [|split].
  - intros r r' Hr Hr'. assert (Z : (r - r')%F *g d1 = gzero).
    { transitivity ((a +g r *g d1) -g (a +g r' *g d1)); [gcoeffs; ring|]. rewrite Hr, Hr'. apply gsub_diag. }
    apply gmul_cancel in Z as [Z|Z]; [|contradiction]. transitivity (r - r' + r')%F; [ring|]. rewrite Z. ring.
  - intros r s Hr (proof & Hc & Hrd). rewrite X in Hc. injection Hc as <-.
    specialize (Hrd [] UnexpectedEof). rewrite (proj1 (C43_write B1 B2 _ [])) in Hrd. cbn [fst written app proof_a proof_b proof_c] in Hrd.
    rewrite <- !app_assoc, C43_rejects in Hrd; auto using to_bytes_length; [discriminate|]. left. right. rewrite from_to_bytes. now rewrite Hr.
  - intros r Hr ss Hn Hs.
    assert (B : forall s, In s ss -> b2 +g s *g d2 = gzero \/ c +g r *g b1 +g s *g a +g (r * s)%F *g d1 = gzero).
    { intros s Hin. destruct (geqb_spec (b2 +g s *g d2) gzero) as [|N1]; [auto|]. destruct (geqb_spec (c +g r *g b1 +g s *g a +g (r * s)%F *g d1) gzero) as [|N2]; [auto|].
      exfalso. apply (Hs s Hin). eexists. split; [apply X|]. intros rest k. apply C43_roundtrip; auto. }
    assert (U1 : forall s s', b2 +g s *g d2 = gzero -> b2 +g s' *g d2 = gzero -> s = s').
    { intros s s' E1 E2. assert (Z : (s - s')%F *g d2 = gzero).
      { transitivity ((b2 +g s *g d2) -g (b2 +g s' *g d2)); [gcoeffs; ring|]. rewrite E1, E2. apply gsub_diag. }
      apply gmul_cancel in Z as [Z|Z]; [|contradiction]. transitivity (s - s' + s')%F; [ring|]. rewrite Z. ring. }
    assert (U2 : forall s s', c +g r *g b1 +g s *g a +g (r * s)%F *g d1 = gzero -> c +g r *g b1 +g s' *g a +g (r * s')%F *g d1 = gzero -> s = s').
    { intros s s' E1 E2. assert (Z : (s - s')%F *g (a +g r *g d1) = gzero).
      { transitivity ((c +g r *g b1 +g s *g a +g (r * s)%F *g d1) -g (c +g r *g b1 +g s' *g a +g (r * s')%F *g d1)); [gcoeffs; ring|]. rewrite E1, E2. apply gsub_diag. }
      apply gmul_cancel in Z as [Z|Z]; [|contradiction]. transitivity (s - s' + s')%F; [ring|]. rewrite Z. ring. }
    destruct ss as [|x [|y [|z0 ss]]]; cbn; try lia. exfalso.
    inversion Hn as [|? ? N1 Hn']; subst. inversion Hn' as [|? ? N2 _]; subst. cbn in N1, N2.
    pose proof (B x (or_introl eq_refl)) as Bx. pose proof (B y (or_intror (or_introl eq_refl))) as By. pose proof (B z0 (or_intror (or_intror (or_introl eq_refl)))) as Bz.
    destruct Bx as [Bx|Bx], By as [By|By], Bz as [Bz|Bz];
      first [assert (x = y) by eauto; subst; tauto | assert (x = z0) by eauto; subst; tauto | assert (y = z0) by eauto; subst; tauto].
Qed.
End C56.
Print Assumptions C56_affine.
Print Assumptions C56_readable.

(** The key of [C37_ex], where delta1 = 11 and delta2 = 22: the proof is affine in (17, 19); with r = 44638 it always has the identity in it, and
    with r = 17 for two values of s. *)
Definition c56_proof (r s : Z) : option (Z * Z * Z) :=
  match c37_params with
  | Done (Ok params) =>
      match create_proof (Multicore 2) (fun _ => 3) (circuit_of c06_calls) params (ofZ r) (ofZ s) with
      | Done (Ok proof) => Some (toZ (proof_a proof : Fr64513), toZ (proof_b proof : Fr64513), toZ (proof_c proof : Fr64513))
      | _ => None
      end
  | _ => None
  end.
Example C56_ex :
  c56_proof 0 0 = Some (25086, 62729, 33426)%Z /\ c56_proof 1 0 = Some (25086 + 11, 62729, 33426 - 892)%Z /\
  c56_proof 17 19 = Some (25086 + 17 * 11, 62729 + 19 * 22, (33426 - 17 * 892 + 19 * 25086 + 17 * 19 * 11) mod 64513)%Z /\
  c56_proof 44638 19 = Some (0, 63147, 20851)%Z /\ c56_proof 17 35270 = Some (25273, 0, 20851)%Z /\ c56_proof 17 56862 = Some (25273, 23433, 0)%Z.
Proof. vm_compute. repeat split. Qed.

(** * C57 *)
Section C57.
Context {P : PrimeField} {E : Engine P}.
Add Field PFc57 : (F_field P).

(** From one accepted proof others follow that are accepted for the same inputs, without a witness or any secret. *)
Theorem C57_malleable (vk : VerifyingKey E) (a : E_G1 E) (b : E_G2 E) (c : E_G1 E) inputs (k t : P) : k <> fzero ->
  verify_proof (prepare_verifying_key vk) (mkProof a b c) inputs = Done (Ok tt) ->
  verify_proof (prepare_verifying_key vk) (mkProof (k *g a) (finv k *g b) c) inputs = Done (Ok tt) /\
  verify_proof (prepare_verifying_key vk) (mkProof a (b +g t *g delta_g2 vk) (c +g t *g a)) inputs = Done (Ok tt).
Proof.
  intros Hk H. apply C38_accepts_iff in H as (ic0 & ics & Ei & Hl & H). cbn [proof_a proof_b proof_c] in H.
  split; apply C38_accepts_iff; exists ic0, ics; (split; [exact Ei|]); (split; [exact Hl|]); cbn [proof_a proof_b proof_c].
  - rewrite pair_mul_l, pair_mul_r, H. gcoeffs; field; auto.
  - rewrite pair_add_r, pair_mul_r, (pair_add_l P E c), pair_mul_l, H. gcoeffs; ring.
Qed.

(** But the third element is determined by the others and the inputs. *)
Theorem C57_determined (vk : VerifyingKey E) (a : E_G1 E) (b : E_G2 E) (c c' : E_G1 E) inputs :
  (forall x, pair x (delta_g2 vk) = gzero -> x = gzero) ->
  verify_proof (prepare_verifying_key vk) (mkProof a b c) inputs = Done (Ok tt) ->
  verify_proof (prepare_verifying_key vk) (mkProof a b c') inputs = Done (Ok tt) ->
  c = c'.
Proof.
  intros Hnd H H'. apply C38_accepts_iff in H as (ic0 & ics & Ei & Hl & H). apply C38_accepts_iff in H' as (ic0' & ics' & Ei' & Hl' & H').
  rewrite Ei in Ei'. injection Ei' as <- <-. cbn [proof_a proof_b proof_c] in *. rewrite H in H'. apply gadd_cancel_l in H'.
  apply gsub_0_eq. apply Hnd. rewrite gsub_mul, pair_add_l, pair_mul_l, H'. gcoeffs; ring.
Qed.

(** Nor can the inputs be exchanged: two accepted input vectors have the same image under the key. *)
Theorem C57_inputs (vk : VerifyingKey E) proof inputs inputs' :
  (forall x, pair x (gamma_g2 vk) = gzero -> x = gzero) ->
  verify_proof (prepare_verifying_key vk) proof inputs = Done (Ok tt) ->
  verify_proof (prepare_verifying_key vk) proof inputs' = Done (Ok tt) ->
  combination inputs (tl (ic vk)) = combination inputs' (tl (ic vk)).
Proof.
  intros Hnd H H'. apply C38_accepts_iff in H as (ic0 & ics & Ei & Hl & H). apply C38_accepts_iff in H' as (ic0' & ics' & Ei' & Hl' & H').
  rewrite Ei in Ei'. injection Ei' as <- <-. rewrite Ei. cbn [tl]. rewrite H in H'. apply gadd_cancel_r, gadd_cancel_l in H'.
  apply (gadd_cancel_l _ _ ic0). apply gsub_0_eq. apply Hnd. rewrite gsub_mul, pair_add_l, pair_mul_l, H'. gcoeffs; ring.
Qed.
End C57.
Print Assumptions C57_malleable.
Print Assumptions C57_determined.
Print Assumptions C57_inputs.

(** The proof of [C37_ex] with (3 A, B / 3, C), and with (A, B + 5 delta, C + 5 A); another C is refused. *)
Example C57_ex :
  match c37_params with
  | Done (Ok params) =>
      match create_proof (Multicore 2) (fun _ => 3) (circuit_of c06_calls) params (ofZ 17) (ofZ 19) with
      | Done (Ok proof) =>
          let a := proof_a proof in let b := proof_b proof in let c := proof_c proof in
          let check a b c := verify_proof (prepare_verifying_key (p_vk params)) (mkProof (E := DummyEngine Fr64513) a b c) [ofZ 30] in
          check (ofZ 3 *g a) (finv (ofZ 3) *g b) c = Done (Ok tt) /\
          check a (b +g ofZ 5 *g delta_g2 (p_vk params)) (c +g ofZ 5 *g a) = Done (Ok tt) /\
          check a b (c +g a) = Done (Err InvalidProof)
      | _ => False
      end
  | _ => False
  end.
Proof. vm_compute. repeat split. Qed.
(** On the test engine the pairing is the product, so the hypotheses of [C57_determined] and [C57_inputs] hold when delta2 and gamma2 are not zero. *)
Example C57_ex_nondegenerate (q : E_G2 (DummyEngine Fr64513)) : q <> gzero -> forall x, pair x q = gzero -> x = gzero.
Proof. intros Hq x H. apply fmul_0 in H as [H|H]; [exact H|contradiction]. Qed.

(** * C58 *)
Section C58.
Context {P : PrimeField} {E : Engine P} (g1 : E_G1 E) (g2 : E_G2 E) (alpha beta gamma delta tau : P).
Add Field PFc58 : (F_field P).

(** A proof made with the toxic waste, without a witness. *)
Definition simulated (vk : VerifyingKey E) (inputs : list P) (a b : P) : Proof_ E :=
  let statement := match ic vk with [] => gzero | ic0 :: ics => ic0 +g combination inputs ics end in
  mkProof (a *g g1) (b *g g2) (finv delta *g (((a * b - alpha * beta)%F *g g1) -g (gamma *g statement))).

(** It is accepted for any inputs. *)
Theorem C58_accepted (w : Worker) (circuit : prog P (res unit)) params inputs a b : wf_worker w ->
  generate_parameters w circuit g1 g2 alpha beta gamma delta tau = Done (Ok params) ->
  List.length (ic (p_vk params)) = List.length inputs + 1 ->
  verify_proof (prepare_verifying_key (p_vk params)) (simulated (p_vk params) inputs a b) inputs = Done (Ok tt).
Proof.
  intros Hw Hg Hl. destruct (generate_ok_inv g1 g2 alpha beta gamma delta tau w circuit params Hw Hg) as (s & ks & e & Es & KI & Ek & He & Hle & HS & Hga & Hd & Ep & Ex).
  apply C38_accepts_iff. destruct (ic (p_vk params)) as [|ic0 ics] eqn:Ei; [cbn in Hl; lia|]. exists ic0, ics. split; [exact Ei|]. cbn in Hl. split; [lia|].
  unfold simulated. rewrite Ei. rewrite Ep. cbn [params_of p_vk alpha_g1 beta_g2 gamma_g2 delta_g2 proof_a proof_b proof_c].
  rewrite !gsub_mul. rewrite !pair_mul_l, !pair_mul_r, !pair_add_l, !pair_mul_l, ?pair_add_l. gcoeffs; field; auto.
Qed.

(** For a satisfying witness, every simulated proof is created by exactly one choice of [r] and [s]: the proofs created with random [r]
    and [s] are distributed like the simulated ones with random [a] and [b], and so say nothing about the witness. *)
Theorem C58_perfect (w w' : Worker) (ln_ceil : Z -> nat) (keygen_circuit prover_circuit : prog P (res unit)) inst wit params r0 s0 proof0 :
  wf_worker w -> wf_worker w' -> sane_ln_ceil ln_ceil ->
  generate_parameters w keygen_circuit g1 g2 alpha beta gamma delta tau = Done (Ok params) ->
  describes keygen_circuit inst -> assigns prover_circuit wit -> same_circuit inst wit -> addressable wit -> satisfying wit ->
  g1 <> gzero -> g2 <> gzero ->
  create_proof w' ln_ceil prover_circuit params r0 s0 = Done (Ok proof0) ->
  (forall r s, exists a b, create_proof w' ln_ceil prover_circuit params r s = Done (Ok (simulated (p_vk params) (public_inputs wit) a b))) /\
  (forall a b, exists r s, create_proof w' ln_ceil prover_circuit params r s = Done (Ok (simulated (p_vk params) (public_inputs wit) a b)) /\
     forall r' s', create_proof w' ln_ceil prover_circuit params r' s' = Done (Ok (simulated (p_vk params) (public_inputs wit) a b)) -> r' = r /\ s' = s).
Proof.
  intros Hw Hw' Hln Hgen Hinst Hwit Hsame Haddr Hsat H1 H2 H0.
  destruct (C56_affine w' ln_ceil prover_circuit params r0 s0 proof0 H0) as (A & B1 & B2 & C & _ & _ & X).
  destruct (create_ok_inv g1 g2 alpha beta gamma delta tau w w' ln_ceil keygen_circuit prover_circuit inst wit params Hw Hw' Hln Hgen Hinst Hwit Hsame Haddr r0 s0 proof0 H0)
    as (t & e & h & Et & PI & Hok & HS & Hle & He & Hg & Hd & Ep & Eh & Lh & _ & _).
  assert (Y : forall r s, create_proof w' ln_ceil prover_circuit params r s = Done (Ok (proof_of E g1 g2 alpha beta delta tau t wit e r s h))).
  { intros r s. specialize (X r s). rewrite X.
    destruct (create_ok_inv g1 g2 alpha beta gamma delta tau w w' ln_ceil keygen_circuit prover_circuit inst wit params Hw Hw' Hln Hgen Hinst Hwit Hsame Haddr r s _ X)
      as (t' & e' & h' & Et' & _ & _ & _ & _ & He' & _ & _ & _ & Eh' & _ & _ & Eq).
    rewrite Et in Et'. injection Et' as <-. rewrite Eh in Eh'. injection Eh' as <-.
    assert (e' = e) by (apply (DomainProof.least_pow_unique (List.length (k_cons inst))); now apply PropDomain.domain_exponent_least). subst e'. now rewrite Eq. }
  assert (S : forall r s, proof_of E g1 g2 alpha beta delta tau t wit e r s h =
                simulated (p_vk params) (public_inputs wit) (scalar_a alpha delta tau t e r) (scalar_b beta delta tau t e s)).
  { intros r s. unfold proof_of, simulated. f_equal.
    pose proof (scalar_identity alpha beta gamma delta tau w' t wit e Hw' PI Hok HS Hle (satisfying_coef t wit PI Hsat) Hg Hd r s h Eh) as I.
    assert (St : match ic (p_vk params) with [] => gzero | ic0 :: ics => ic0 +g combination (public_inputs wit) ics end = SI wit (ext_of alpha beta tau wit e (finv gamma)) *g g1).
    { destruct (assigns_one _ _ Hwit) as [rest Er]. unfold public_inputs. rewrite Er. cbn [tl].
      set (ics := map (fun i => ext_of alpha beta tau wit e (finv gamma) (Input i) *g g1) (seq 0 (List.length (p_inputs wit)))).
      assert (Eic : ic (p_vk params) = ics) by (rewrite Ep; reflexivity). rewrite Eic.
      pose proof (at_g (M := E_G1 E) (ext_of alpha beta tau wit e (finv gamma)) g1 Input (p_inputs wit)) as D. fold (SI wit (ext_of alpha beta tau wit e (finv gamma))) in D. fold ics in D.
      rewrite <- D. rewrite Er at 1. destruct ics as [|ic0 ics'] eqn:Ei; [reflexivity|]. cbn [dotl]. now rewrite gmul_1, combination_dotl. }
    rewrite St, I. gcoeffs; field; auto. }
  split.
  - intros r s. eexists _, _. rewrite Y, S. reflexivity.
  - intros a b. exists ((a - alpha - TA tau t e) * finv delta)%F, ((b - beta - TB tau t e) * finv delta)%F.
    assert (Ea : forall r, scalar_a alpha delta tau t e r = a <-> r = ((a - alpha - TA tau t e) * finv delta)%F).
    { intros r. unfold scalar_a. split; [intros <-|intros ->]; field; auto. }
    assert (Eb : forall s, scalar_b beta delta tau t e s = b <-> s = ((b - beta - TB tau t e) * finv delta)%F).
    { intros s. unfold scalar_b. split; [intros <-|intros ->]; field; auto. }
    split; [rewrite Y, S, (proj2 (Ea _) eq_refl), (proj2 (Eb _) eq_refl); reflexivity|].
    intros r s Hrs. rewrite Y in Hrs. assert (Q : proof_of E g1 g2 alpha beta delta tau t wit e r s h = simulated (p_vk params) (public_inputs wit) a b) by congruence.
    assert (Cx : forall (M : FMod P) (x y : P) (g : M), g <> gzero -> x *g g = y *g g -> x = y).
    { intros M x y g Ng Exy. assert (Z : (x - y)%F *g g = gzero) by (rewrite gmul_sub_l, Exy; apply gsub_diag).
      apply gmul_cancel in Z as [Z|Z]; [|contradiction]. transitivity (x - y + y)%F; [ring|]. rewrite Z. ring. }
    split; [apply Ea; apply (Cx _ _ _ g1 H1); exact (f_equal proof_a Q)|apply Eb; apply (Cx _ _ _ g2 H2); exact (f_equal proof_b Q)].
Qed.
End C58.
Print Assumptions C58_accepted.
Print Assumptions C58_perfect.

(** With the key of [C37_ex], a simulated proof for the input 31 is accepted for 31 and not for 30; the proof of [C37_ex] is the simulated one with
    a = 25273 and b = 63147 / 2 for the input 30. *)
Example C58_ex :
  match c37_params with
  | Done (Ok params) =>
      match create_proof (Multicore 2) (fun _ => 3) (circuit_of c06_calls) params (ofZ 17) (ofZ 19) with
      | Done (Ok proof) =>
          let sim := simulated (E := DummyEngine Fr64513) fone (ofZ 2) (ofZ 3) (ofZ 5) (ofZ 7) (ofZ 11) (p_vk params) in
          verify_proof (prepare_verifying_key (p_vk params)) (sim [ofZ 31] (ofZ 4) (ofZ 9)) [ofZ 31] = Done (Ok tt) /\
          verify_proof (prepare_verifying_key (p_vk params)) (sim [ofZ 31] (ofZ 4) (ofZ 9)) [ofZ 30] = Done (Err InvalidProof) /\
          let same := sim [ofZ 30] (ofZ 25273) (ofZ 63147 * finv (ofZ 2))%F in
          toZ (proof_a same : Fr64513) = toZ (proof_a proof : Fr64513) /\ toZ (proof_b same : Fr64513) = toZ (proof_b proof : Fr64513) /\
          toZ (proof_c same : Fr64513) = toZ (proof_c proof : Fr64513)
      | _ => False
      end
  | _ => False
  end.
Proof. vm_compute. repeat split. Qed.
