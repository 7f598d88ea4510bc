(** Property C85: which randomness of the prover makes an element of a proof the identity. *)
From Coq Require Import String.
From Coq Require Import ZArith List Bool Lia Field.
From Coq Require Import Strings.Byte.
From Verif Require Import Prelude PrimeField Fields FModule Circuit Multicore Domain FFTProof DomainProof Quotient Multiexp MultiexpProof PropMultiexp Assembly AssemblyProof PropAssembly Groth16 GeneratorProof ProverProof
  PropGenerator PropGroth16 Encoding EncodingProof PropEncoding PropStorage Mimc MimcProof PropMimc Session SerializeTest SerializeTestProof PropSerializeTest.
From Verif Require PropDomain PropSession.
Import ListNotations.
Local Open Scope nat_scope.

(** * C85 *)
Section C85.
Context {P : PrimeField} {E : Engine P} (B1 : GroupBytes (E_G1 E)) (B2 : GroupBytes (E_G2 E)).
Context (g1 : E_G1 E) (g2 : E_G2 E) (alpha beta gamma delta tau : P).
Context (w w' : Worker) (ln_ceil : Z -> nat) (keygen_circuit prover_circuit : prog P (res unit)) (inst : KState P) (wit : PState P) (params : Parameters E).
Add Field PFc85 : (F_field P).
Notation create r s := (create_proof w' ln_ceil prover_circuit params r s).

(** One [r] makes the first element of the proof the identity, one [s] the second; for every other [r] one [s] the third. The witness may be
    any, satisfying or not. *)
Theorem C85_identity : wf_worker w -> wf_worker w' -> sane_ln_ceil ln_ceil ->
  generate_parameters w keygen_circuit g1 g2 alpha beta gamma delta tau = Done (Ok params) ->
  describes keygen_circuit inst -> assigns prover_circuit wit -> same_circuit inst wit -> addressable wit ->
  g1 <> gzero -> g2 <> gzero ->
  exists (r0 s0 : P) (s1 : P -> P), forall r s proof, create r s = Done (Ok proof) ->
    (proof_a proof = gzero <-> r = r0) /\ (proof_b proof = gzero <-> s = s0) /\ (r <> r0 -> (proof_c proof = gzero <-> s = s1 r)).
Proof.
  intros Hw Hw' Hln Hgen Hinst Hwit Hsame Haddr N1 N2.
  destruct (synthesize_prover prover_circuit) as [[t|err]|] eqn:Et; [|exists fzero, fzero, (fun _ => fzero); intros r s p C; unfold create_proof in C; rewrite Et in C; discriminate..].
  destruct (PropDomain.C25_exponent_exists (List.length (k_cons inst))) as (e & He & Ue).
  set (h := match prover_h w' (pa_a t) (pa_b t) (pa_c t) with Done (Ok h) => h | _ => [] end).
  set (A := TA tau t e). set (B := TB tau t e). set (K := scalar_c alpha beta delta tau t wit e fzero fzero h).
  exists (- (alpha + A) * finv delta)%F, (- (beta + B) * finv delta)%F, (fun r => - (K + r * (beta + B)) * finv (r * delta + alpha + A))%F.
  intros r s proof C.
  destruct (create_ok_inv g1 g2 alpha beta gamma delta tau w w' ln_ceil keygen_circuit prover_circuit inst wit params Hw Hw' Hln Hgen Hinst Hwit Hsame Haddr r s proof C)
    as (t' & e' & h' & Et' & _ & _ & _ & _ & He' & _ & Hd & _ & Eh & _ & _ & ->).
  apply Ue in He'. subst e'. rewrite Et in Et'. assert (t' = t) by congruence. subst t'.
  assert (h' = h) by (unfold h; now rewrite Eh). subst h'. clearbody h. unfold proof_of. cbn [proof_a proof_b proof_c].
  assert (X : forall u v x : P, v <> fzero -> ((x * v + u)%F = fzero <-> x = (- u * finv v)%F)).
  { intros u v x Hv. split; intros Z.
    - transitivity ((x * v + u - u) * finv v)%F; [field; exact Hv|]. rewrite Z. ring.
    - rewrite Z. field. exact Hv. }
  rewrite !gmul_zero_iff by assumption. split; [|split].
  - unfold scalar_a. fold A. rewrite <- (X (alpha + A)%F delta r Hd). replace (r * delta + alpha + A)%F with (r * delta + (alpha + A))%F by ring. tauto.
  - unfold scalar_b. fold B. rewrite <- (X (beta + B)%F delta s Hd). replace (s * delta + beta + B)%F with (s * delta + (beta + B))%F by ring. tauto.
  - intros Hr. assert (Hv : (r * delta + alpha + A)%F <> fzero).
    { intros Z. apply Hr. apply (X (alpha + A)%F delta r Hd). rewrite <- Z. ring. }
    rewrite <- (X (K + r * (beta + B))%F (r * delta + alpha + A)%F s Hv).
    replace (s * (r * delta + alpha + A) + (K + r * (beta + B)))%F with (scalar_c alpha beta delta tau t wit e r s h); [tauto|].
    unfold K, scalar_c. fold A B. ring.
Qed.

(** Of the pairs [(r, s)] with [r] in a list and [s] in a list, few give a proof with an identity element: with [q] values each, at most [3 q] of [q^2]. *)
Theorem C85_few : wf_worker w -> wf_worker w' -> sane_ln_ceil ln_ceil ->
  generate_parameters w keygen_circuit g1 g2 alpha beta gamma delta tau = Done (Ok params) ->
  describes keygen_circuit inst -> assigns prover_circuit wit -> same_circuit inst wit -> addressable wit ->
  g1 <> gzero -> g2 <> gzero ->
  forall (rs ss : list P) (bad : list (P * P)), NoDup bad ->
  (forall r s, In (r, s) bad -> In r rs /\ In s ss /\
     exists proof, create r s = Done (Ok proof) /\ (proof_a proof = gzero \/ proof_b proof = gzero \/ proof_c proof = gzero)) ->
  List.length bad <= 2 * List.length rs + List.length ss.
Proof.
  intros Hw Hw' Hln Hgen Hinst Hwit Hsame Haddr N1 N2 rs ss bad Hn Hbad.
  destruct (C85_identity Hw Hw' Hln Hgen Hinst Hwit Hsame Haddr N1 N2) as (r0 & s0 & s1 & X).
  assert (I : incl bad (map (fun r => (r, s0)) rs ++ map (fun r => (r, s1 r)) rs ++ map (fun s => (r0, s)) ss)).
  { intros [r s] Hin. destruct (Hbad r s Hin) as (Hr & Hs & proof & C & Hi). destruct (X r s proof C) as (Xa & Xb & Xc). rewrite !in_app_iff, !in_map_iff.
    destruct (feq_dec r r0) as [Er|Nr]; [right; right; exists s; subst r; auto|].
    destruct Hi as [Hi|[Hi|Hi]]; [exfalso; apply Nr, Xa, Hi|left|right; left].
    - exists r. split; [|exact Hr]. f_equal. symmetry. apply Xb, Hi.
    - exists r. split; [|exact Hr]. f_equal. symmetry. apply (Xc Nr), Hi. }
  apply (NoDup_incl_length Hn) in I. rewrite !app_length, !map_length in I. lia.
Qed.

(** Any other proof can be read back from its file, whatever follows it there. *)
Theorem C85_comes_back : wf_worker w -> wf_worker w' -> sane_ln_ceil ln_ceil ->
  generate_parameters w keygen_circuit g1 g2 alpha beta gamma delta tau = Done (Ok params) ->
  describes keygen_circuit inst -> assigns prover_circuit wit -> same_circuit inst wit -> addressable wit ->
  g1 <> gzero -> g2 <> gzero ->
  exists (r0 s0 : P) (s1 : P -> P), forall r s proof rest k, create r s = Done (Ok proof) ->
    (r <> r0 -> s <> s0 -> s <> s1 r -> proof_read B1 B2 (mkReader (proof_file B1 B2 proof ++ rest) k) = Ok (proof, mkReader rest k)) /\
    (r = r0 \/ s = s0 \/ s = s1 r -> proof_read B1 B2 (mkReader (proof_file B1 B2 proof ++ rest) k) = Err InvalidData).
Proof.
  intros Hw Hw' Hln Hgen Hinst Hwit Hsame Haddr N1 N2.
  destruct (C85_identity Hw Hw' Hln Hgen Hinst Hwit Hsame Haddr N1 N2) as (r0 & s0 & s1 & X).
  exists r0, s0, s1. intros r s proof rest k C. destruct (X r s proof C) as (Xa & Xb & Xc).
  unfold proof_file. rewrite proof_write_eq. unfold write_all. cbn [room fst written app]. rewrite proof_own.
  assert (Ia := is_identity_iff (proof_a proof)). assert (Ib := is_identity_iff (proof_b proof)). assert (Ic := is_identity_iff (proof_c proof)). split.
  - intros Nr Ns Ns1.
    destruct (is_identity (proof_a proof)); [exfalso; apply Nr, Xa, Ia; reflexivity|]. destruct (is_identity (proof_b proof)); [exfalso; apply Ns, Xb, Ib; reflexivity|].
    destruct (is_identity (proof_c proof)); [exfalso; apply Ns1, (Xc Nr), Ic; reflexivity|]. reflexivity.
  - intros H. destruct (feq_dec r r0) as [Er|Nr].
    + apply Xa, Ia in Er. rewrite Er. reflexivity.
    + destruct H as [H|[H|H]]; [contradiction| |].
      * apply Xb, Ib in H. rewrite H. now rewrite orb_true_r.
      * apply (Xc Nr), Ic in H. rewrite H. now rewrite !orb_true_r.
Qed.
End C85.

(** The rounds of the test [serialization] (C84): with a sound key and [a], [b] other than 0, 1, few pairs [(r, s)] make a round panic. *)
Theorem C85_test_rounds {P : PrimeField} {E : Engine P} (B1 : GroupBytes (E_G1 E)) (B2 : GroupBytes (E_G2 E)) (g1 : E_G1 E) (g2 : E_G2 E) (alpha beta gamma delta tau : P)
    (w w' : Worker) (ln_ceil : Z -> nat) params (a b : P) (rs ss : list P) (bad : list (P * P)) :
  2 < two_adicity P -> wf_worker w -> wf_worker w' -> sane_ln_ceil ln_ceil -> sizes B1 B2 -> nondegenerate (E := E) ->
  sound_waste g1 g2 alpha beta gamma delta tau ->
  generate_parameters w (silly None None) g1 g2 alpha beta gamma delta tau = Done (Ok params) ->
  a <> fzero -> b <> fone -> NoDup bad ->
  (forall r s, In (r, s) bad -> In r rs /\ In s ss /\
     proof_part B1 B2 (prepare_verifying_key (p_vk params)) a (a * b)%F (create_proof w' ln_ceil (silly (Some a) (Some b)) params r s) <> Done tt) ->
  List.length bad <= 2 * List.length rs + List.length ss.
Proof.
  intros H2 Hw Hw' Hln Hs Hnd HS Hg Na Nb Hn Hbad. pose proof HS as (N1 & N2 & _).
  apply (C85_few g1 g2 alpha beta gamma delta tau w w' ln_ceil (silly None None) (silly (Some a) (Some b)) silly_inst (silly_wit a b) params
    Hw Hw' Hln Hg silly_describes (silly_assigns a b) (silly_same a b) (silly_addressable a b) N1 N2 rs ss bad Hn).
  intros r s Hin. destruct (Hbad r s Hin) as (Hr & Hss & K). split; [exact Hr|]. split; [exact Hss|].
  destruct (C84_round B1 B2 w w' ln_ceil g1 g2 alpha beta gamma delta tau params a b r s H2 Hw Hw' Hln Hs Hnd HS Hg) as (proof & Hp & A & _).
  exists proof. split; [exact Hp|].
  destruct (geqb_spec (proof_a proof) gzero) as [Z|KA]; [left; exact Z|]. destruct (geqb_spec (proof_b proof) gzero) as [Z|KB]; [right; left; exact Z|].
  destruct (geqb_spec (proof_c proof) gzero) as [Z|KC]; [right; right; exact Z|].
  exfalso. apply K. exact (A (conj (conj KA (conj KB KC)) (conj Na Nb))).
Qed.

(** The samples of the MiMC tests (C55): for one preimage, the draws for which a proof is created that cannot be read back. *)
Theorem C85_mimc {P : PrimeField} {E : Engine P} (R : Rng E) (B1 : GroupBytes (E_G1 E)) (B2 : GroupBytes (E_G2 E)) (g1 : E_G1 E) (g2 : E_G2 E) (alpha beta gamma delta tau : P)
    (w w' : Worker) (ln_ceil : Z -> nat) rounds constants params (xl xr : P) :
  wf_worker w -> wf_worker w' -> sane_ln_ceil ln_ceil -> 0 < rounds -> (Z.of_nat rounds < 2 ^ 30)%Z -> List.length constants = rounds ->
  generate_parameters w (mimc_circuit rounds None None constants) g1 g2 alpha beta gamma delta tau = Done (Ok params) ->
  g1 <> gzero -> g2 <> gzero ->
  exists (r0 s0 : P) (s1 : P -> P), forall rng, draws R rng 0 = xl -> draws R rng 1 = xr ->
  let r := draws R rng 2 in let s := draws R rng 3 in
  sample R B1 B2 w' ln_ceil rounds constants params (prepare_verifying_key (p_vk params)) rng = Err UnwrapRead <->
  (exists proof, create_proof w' ln_ceil (mimc_circuit rounds (Some xl) (Some xr) constants) params r s = Done (Ok proof)) /\ (r = r0 \/ s = s0 \/ s = s1 r).
Proof.
  intros Hw Hw' Hln Hr Hb Hl Hg N1 N2. destruct (C53_complete rounds xl xr constants Hl Hr) as (wit & Hwit & _).
  pose proof (describes_mimc rounds constants Hl (length_pos _ _ Hl Hr)) as Hd. pose proof (same_mimc rounds xl xr constants _ wit Hl Hr Hd Hwit) as Hs.
  pose proof (addressable_mimc rounds xl xr constants wit Hl Hr Hb Hwit) as Ha.
  destruct (C85_identity g1 g2 alpha beta gamma delta tau w w' ln_ceil _ _ _ wit params Hw Hw' Hln Hg Hd Hwit Hs Ha N1 N2) as (r0 & s0 & s1 & X).
  exists r0, s0, s1. intros rng Hxl Hxr. cbv zeta.
  pose proof (PropSession.C55_sample R B1 B2 w w' ln_ceil rounds Hw Hw' Hln Hr Hb constants g1 g2 alpha beta gamma delta tau params rng Hl Hg) as S. cbv zeta in S. rewrite Hxl, Hxr in S.
  set (r := draws R rng 2) in *. set (s := draws R rng 3) in *.
  destruct (create_proof w' ln_ceil (mimc_circuit rounds (Some xl) (Some xr) constants) params r s) as [[proof|err]|] eqn:Ec; [|rewrite S; split; [discriminate|intros [[p K] _]; discriminate]|contradiction].
  destruct (X r s proof Ec) as (Xa & Xb & Xc). destruct S as [S1 S2].
  assert (HI : PropSession.has_identity proof <-> (r = r0 \/ s = s0 \/ s = s1 r)).
  { unfold PropSession.has_identity. destruct (feq_dec r r0) as [Er|Nr].
    - split; intros _; left; [exact Er|apply Xa, Er].
    - split; intros [K|[K|K]]; [left; apply Xa, K|right; left; apply Xb, K|right; right; apply (Xc Nr), K|contradiction|right; left; apply Xb, K|right; right; apply (Xc Nr), K]. }
  split.
  - intros K. split; [exists proof; reflexivity|]. apply HI. unfold PropSession.has_identity in *.
    destruct (geqb_spec (proof_a proof) gzero) as [Z|KA]; [left; exact Z|]. destruct (geqb_spec (proof_b proof) gzero) as [Z|KB]; [right; left; exact Z|].
    destruct (geqb_spec (proof_c proof) gzero) as [Z|KC]; [right; right; exact Z|]. exfalso.
    rewrite (proj1 (S2 (fun H => match H with or_introl A => KA A | or_intror (or_introl B) => KB B | or_intror (or_intror C) => KC C end))) in K. discriminate.
  - intros [_ K]. apply S1, HI, K.
Qed.
Print Assumptions C85_identity.
Print Assumptions C85_few.
Print Assumptions C85_comes_back.
Print Assumptions C85_test_rounds.
Print Assumptions C85_mimc.

(** The circuit of the test [serialization] with a = 5, b = 6 on the test engine: here r0 = 7337, s0 = 64188 and s1 17 = 10802. *)
Definition c85_params := generate_parameters (E := DummyEngine Fr64513) (Multicore 3) (silly None None) fone (ofZ 2) (ofZ 3) (ofZ 5) (ofZ 7) (ofZ 11) (ofZ 13).
Definition c85_read (r s : Z) : option (list Z * (bool + io_kind)) :=
  match c85_params with
  | Done (Ok params) =>
      match create_proof (E := DummyEngine Fr64513) (Multicore 2) (fun _ => 3) (silly (Some (ofZ 5)) (Some (ofZ 6))) params (ofZ r) (ofZ s) with
      | Done (Ok p) =>
          Some ([toZ (proof_a p : Fr64513); toZ (proof_b p : Fr64513); toZ (proof_c p : Fr64513)],
                match proof_read (E := DummyEngine Fr64513) bytes_64513 bytes_64513 (mkReader (proof_file (E := DummyEngine Fr64513) bytes_64513 bytes_64513 p) UnexpectedEof) with
                | Ok _ => inl true | Err k => inr k end)
      | _ => None
      end
  | _ => None
  end.
Example C85_ex :
  c85_read 7337 19 = Some ([0; 7568; 54009]%Z, inr InvalidData) /\ c85_read 17 64188 = Some ([48506; 0; 54009]%Z, inr InvalidData) /\
  c85_read 17 10802 = Some ([48506; 51255; 0]%Z, inr InvalidData) /\ c85_read 17 19 = Some ([48506; 7568; 31206]%Z, inl true).
Proof. vm_compute. repeat split. Qed.
Example C85_ex_hypotheses : wf_worker (Multicore 3) /\ wf_worker (Multicore 2) /\ sane_ln_ceil (fun _ => 3) /\ match c85_params with Done (Ok _) => True | _ => False end /\
  describes (P := Fr64513) (silly None None) silly_inst /\ assigns (P := Fr64513) (silly (Some (ofZ 5)) (Some (ofZ 6))) (silly_wit (ofZ 5) (ofZ 6)) /\
  same_circuit (P := Fr64513) silly_inst (silly_wit (ofZ 5) (ofZ 6)) /\ addressable (P := Fr64513) (silly_wit (ofZ 5) (ofZ 6)).
Proof.
  split; [split; [lia|reflexivity]|]. split; [split; [lia|reflexivity]|]. split; [intros n _; lia|].
  split; [vm_compute; exact I|].
  split; [exact (@silly_describes Fr64513)|]. split; [exact (@silly_assigns Fr64513 (ofZ 5) (ofZ 6))|].
  split; [exact (@silly_same Fr64513 (ofZ 5) (ofZ 6))|exact (@silly_addressable Fr64513 (ofZ 5) (ofZ 6))].
Qed.

(** Two rounds of MiMC, the preimage 5, 6, and the draws that follow it: here r0 = 63380, s0 = 60844 and s1 17 = 55091. *)
Definition c85_constants : list Fr64513 := [ofZ 9; ofZ 10].
Definition c85_mimc_params := generate_parameters (E := DummyEngine Fr64513) (Multicore 3) (mimc_circuit 2 None None c85_constants) fone (ofZ 2) (ofZ 3) (ofZ 5) (ofZ 7) (ofZ 11) (ofZ 13).
Definition c85_rng (r s : Z) : Rng (DummyEngine Fr64513) :=
  @Build_Rng Fr64513 (DummyEngine Fr64513) nat (fun k => (ofZ (nth k [5; 6; r; s]%Z 0%Z), S k)) (fun k => (ofZ 2, S k)) (fun k => (ofZ 3, S k)).
Definition c85_sample (r s : Z) : option stop :=
  match c85_mimc_params with
  | Done (Ok params) =>
      match sample (c85_rng r s) bytes_64513 bytes_64513 (Multicore 2) (fun _ => 3) 2 c85_constants params (prepare_verifying_key (p_vk params)) 0 with
      | Err e => Some e | Ok _ => None end
  | _ => Some OtherPanic
  end.
Example C85_ex_mimc : c85_sample 63380 19 = Some UnwrapRead /\ c85_sample 17 60844 = Some UnwrapRead /\ c85_sample 17 55091 = Some UnwrapRead /\ c85_sample 17 19 = None.
Proof. vm_compute. repeat split. Qed.
Example C85_ex_mimc_hypotheses : match c85_mimc_params with Done (Ok _) => True | _ => False end /\ List.length c85_constants = 2 /\
  draws (c85_rng 17 19) 0 0 = ofZ 5 /\ draws (c85_rng 17 19) 0 1 = ofZ 6 /\ draws (c85_rng 17 19) 0 2 = ofZ 17 /\ draws (c85_rng 17 19) 0 3 = ofZ 19.
Proof. split; [vm_compute; exact I|]. repeat split. Qed.
