(** Property C53: the MiMC circuit of the integration tests. *)
From Coq Require Import String.
From Coq Require Import ZArith List Bool Lia Field.
From Verif Require Import Prelude PrimeField Fields FModule Circuit Multicore Multiexp MultiexpProof PropMultiexp Assembly AssemblyProof PropAssembly Loops Groth16 PropGenerator PropGroth16 PropRandom Mimc MimcProof.
From Verif Require PropDomain.
Import ListNotations.
Local Open Scope nat_scope.

(** ** Specification: LongsightF322p3, for any number of rounds: [for c in constants { xL, xR := xR + (xL + c)^3, xL }; return xL] *)
Fixpoint longsight {P : PrimeField} (xl xr : P) (constants : list P) : P :=
  match constants with [] => xl | c :: t => longsight (xr + fpow (xl + c) 3)%F xl t end.

(** * C53 *)
Section C53.
Context {P : PrimeField}.
Add Field PFc53 : (F_field P).

Lemma image_longsight cs : forall l r : P, image l r cs = longsight l r cs.
Proof. induction cs as [|c cs IH]; intros l r; cbn [image longsight]; [reflexivity|]. rewrite IH. f_equal. cbn [fpow]. ring. Qed.

(** The function the tests compare with. *)
Theorem C53_hash rounds (xl xr : P) constants :
  (List.length constants = rounds -> mimc rounds xl xr constants = Done (longsight xl xr constants)) /\
  (List.length constants <> rounds -> mimc rounds xl xr constants = Panicked).
Proof.
  unfold mimc. split; intros H.
  - rewrite H, Nat.eqb_refl, fold_image, image_longsight. reflexivity.
  - apply Nat.eqb_neq in H. now rewrite H.
Qed.

Lemma describes_mimc rounds (constants : list P) : List.length constants = rounds -> constants <> [] ->
  describes (mimc_circuit rounds None None constants)
    {| k_inputs := 2; k_aux := 2 * rounds + 1; k_cons := all_cons 2 1 (Aux 0) (Aux 1) constants ++ map input_constraint [0; 1] |}.
Proof.
  intros Hl Hn. change (synthesize_shape (mimc_circuit rounds None None constants) =
    Done (Ok {| k_inputs := 2; k_aux := 2 * rounds + 1; k_cons := all_cons 2 1 (Aux 0) (Aux 1) constants ++ map input_constraint [0; 1] |})).
  rewrite (shape_calls rounds constants fzero fzero Hl), shape_synth. destruct (mimc_facts fzero fzero constants Hn) as (A & B & C). unfold all_constraints. rewrite A, B, C.
  cbn [List.length]. rewrite all_aux_length by auto. rewrite Hl. replace (S (S (2 * rounds - 1))) with (2 * rounds + 1); [reflexivity|].
  destruct constants; [contradiction|]. cbn in Hl. lia.
Qed.
Lemma assigns_mimc rounds (xl xr : P) constants : List.length constants = rounds -> constants <> [] ->
  assigns (mimc_circuit rounds (Some xl) (Some xr) constants)
    {| p_inputs := [fone; longsight xl xr constants]; p_aux := xl :: xr :: all_aux xl xr constants; p_cons := all_cons 2 1 (Aux 0) (Aux 1) constants ++ map input_constraint [0; 1] |}.
Proof.
  intros Hl Hn. change (synthesize_honest (mimc_circuit rounds (Some xl) (Some xr) constants) =
    Done (Ok {| p_inputs := [fone; longsight xl xr constants]; p_aux := xl :: xr :: all_aux xl xr constants; p_cons := all_cons 2 1 (Aux 0) (Aux 1) constants ++ map input_constraint [0; 1] |})).
  rewrite (honest_calls rounds constants xl xr Hl), honest_synth. destruct (mimc_facts xl xr constants Hn) as (A & B & C). unfold all_constraints. rewrite A, B, C, image_longsight. reflexivity.
Qed.
Lemma length_pos {A} (l : list A) n : List.length l = n -> 0 < n -> l <> [].
Proof. intros <- H ->. cbn in H. lia. Qed.

(** Whatever the preimage, the prover's assignment satisfies the constraints; its one public input is the image. *)
Theorem C53_complete rounds (xl xr : P) constants : List.length constants = rounds -> 0 < rounds ->
  exists wit, assigns (mimc_circuit rounds (Some xl) (Some xr) constants) wit /\ satisfying wit /\
    public_inputs wit = [longsight xl xr constants] /\ value wit (Aux 0) = xl /\ value wit (Aux 1) = xr.
Proof.
  intros Hl Hr. pose proof (length_pos _ _ Hl Hr) as Hn. eexists. split; [exact (assigns_mimc rounds xl xr constants Hl Hn)|]. split; [|repeat split].
  intros a b c Hin. cbn [p_cons] in Hin. apply in_app_or in Hin as [Hin|Hin].
  - match type of Hin with _ => set (wit := {| p_inputs := _; p_aux := _; p_cons := _ |}) end.
    assert (S : sat (value wit) (all_cons 2 1 (Aux 0) (Aux 1) constants)).
    { apply all_cons_complete; [reflexivity|exact Hn| |].
      - intros j x Hj. change (2 + j) with (S (S j)). unfold wit, value. cbn [p_aux nth]. now apply nth_error_nth.
      - rewrite image_longsight. reflexivity. }
    unfold sat in S. rewrite Forall_forall in S. apply (S _ Hin).
  - apply in_map_iff in Hin as (i & [= <- <- <-] & _). rewrite !eval_nil. apply mul_0_r_.
Qed.

(** Whatever satisfies the constraints of the generated keys has the image of the first two auxiliary values as its public input. *)
Theorem C53_sound rounds (constants : list P) inst (rho : Var -> P) : List.length constants = rounds -> 0 < rounds ->
  describes (mimc_circuit rounds None None constants) inst ->
  rho (Input 0) = fone -> (forall a b c, In (a, b, c) (k_cons inst) -> (eval rho a * eval rho b)%F = eval rho c) ->
  k_inputs inst = 2 /\ rho (Input 1) = longsight (rho (Aux 0)) (rho (Aux 1)) constants.
Proof.
  intros Hl Hr Hd H1 Hs. pose proof (length_pos _ _ Hl Hr) as Hn. pose proof (describes_mimc rounds constants Hl Hn) as D. unfold describes in *. rewrite D in Hd. injection Hd as <-. cbn [k_inputs k_cons] in *.
  split; [reflexivity|]. rewrite <- image_longsight. apply (all_cons_sound rho H1 constants 2 1 (Aux 0) (Aux 1) Hn). unfold sat. apply Forall_forall. intros [[a b] c] Hin. apply Hs, in_or_app. now left.
Qed.

(** So the public inputs for which there is a satisfying assignment are exactly the images. *)
Theorem C53_statement rounds (constants : list P) inst y : List.length constants = rounds -> 0 < rounds -> describes (mimc_circuit rounds None None constants) inst ->
  ((exists rho : Var -> P, rho (Input 0) = fone /\ rho (Input 1) = y /\ forall a b c, In (a, b, c) (k_cons inst) -> (eval rho a * eval rho b)%F = eval rho c) <->
   exists xl xr, y = longsight xl xr constants).
Proof.
  intros Hl Hr Hd. split.
  - intros (rho & H1 & <- & Hs). exists (rho (Aux 0)), (rho (Aux 1)). now apply (C53_sound rounds constants inst rho Hl Hr Hd H1 Hs).
  - intros (xl & xr & ->). pose proof (length_pos _ _ Hl Hr) as Hn. destruct (C53_complete rounds xl xr constants Hl Hr) as (wit & Ha & Hs & _).
    pose proof (assigns_mimc rounds xl xr constants Hl Hn) as A. unfold assigns in *. rewrite A in Ha. injection Ha as <-.
    pose proof (describes_mimc rounds constants Hl Hn) as D. unfold describes in *. rewrite D in Hd. injection Hd as <-.
    eexists. split; [|split; [|exact Hs]]; reflexivity.
Qed.

(** ** With keys and proofs *)
Section Keys.
Context {E : Engine P} (g1 : E_G1 E) (g2 : E_G2 E).

Lemma same_mimc rounds (xl xr : P) constants inst wit : List.length constants = rounds -> 0 < rounds ->
  describes (mimc_circuit rounds None None constants) inst -> assigns (mimc_circuit rounds (Some xl) (Some xr) constants) wit -> same_circuit inst wit.
Proof.
  intros Hl Hr Hi Hw. pose proof (length_pos _ _ Hl Hr) as Hn. pose proof (describes_mimc rounds constants Hl Hn) as D. pose proof (assigns_mimc rounds xl xr constants Hl Hn) as A.
  unfold describes, assigns in *. rewrite D in Hi. rewrite A in Hw. injection Hi as <-. injection Hw as <-. unfold same_circuit. cbn [k_inputs k_aux k_cons p_inputs p_aux p_cons List.length].
  rewrite all_aux_length, Hl by auto. repeat split. lia.
Qed.
Lemma addressable_mimc rounds (xl xr : P) constants wit : List.length constants = rounds -> 0 < rounds -> (Z.of_nat rounds < 2 ^ 30)%Z ->
  assigns (mimc_circuit rounds (Some xl) (Some xr) constants) wit -> addressable wit.
Proof.
  intros Hl Hr Hb Hw. pose proof (length_pos _ _ Hl Hr) as Hn. pose proof (assigns_mimc rounds xl xr constants Hl Hn) as A.
  unfold assigns in *. rewrite A in Hw. injection Hw as <-. unfold addressable. cbn [p_inputs p_aux p_cons List.length].
  rewrite app_length, all_cons_length, all_aux_length, Hl by auto. cbn [map List.length]. lia.
Qed.

(** Every proof made with generated keys verifies against the image computed by [mimc]. *)
Theorem C53_proofs_verify (w w' : Worker) (ln_ceil : Z -> nat) rounds (alpha beta gamma delta tau r s xl xr : P) constants params proof y :
  wf_worker w -> wf_worker w' -> sane_ln_ceil ln_ceil -> 0 < rounds -> (Z.of_nat rounds < 2 ^ 30)%Z ->
  generate_parameters w (mimc_circuit rounds None None constants) g1 g2 alpha beta gamma delta tau = Done (Ok params) ->
  create_proof w' ln_ceil (mimc_circuit rounds (Some xl) (Some xr) constants) params r s = Done (Ok proof) ->
  mimc rounds xl xr constants = Done y ->
  verify_proof (prepare_verifying_key (p_vk params)) proof [y] = Done (Ok tt).
Proof.
  intros Hw Hw' Hln Hr Hb Hg Hc Hy. assert (Hl : List.length constants = rounds).
  { unfold mimc in Hy. destruct (Nat.eqb_spec (List.length constants) rounds); [auto|discriminate]. }
  rewrite (proj1 (C53_hash rounds xl xr constants) Hl) in Hy. assert (y = longsight xl xr constants) by congruence. subst y.
  pose proof (length_pos _ _ Hl Hr) as Hn. destruct (C53_complete rounds xl xr constants Hl Hr) as (wit & Ha & Hs & Hp & _). rewrite <- Hp.
  pose proof (describes_mimc rounds constants Hl Hn) as D.
  eapply C37_proofs_verify; [exact Hw|exact Hw'|exact Hln|exact Hg|exact D|exact Ha|eapply same_mimc; eauto|eapply addressable_mimc; eauto|exact Hs|exact Hc].
Qed.

(** Key generation, proving and verification all succeed, except for few values of [tau]. *)
Theorem C53_few_failures (w w' : Worker) (ln_ceil : Z -> nat) rounds constants e (alpha beta gamma delta xl xr : P) (bad : list P) :
  wf_worker w -> wf_worker w' -> sane_ln_ceil ln_ceil -> List.length constants = rounds -> 0 < rounds -> (Z.of_nat rounds < 2 ^ 30)%Z ->
  PropDomain.domain_exponent (2 * rounds + 2) e -> e < two_adicity P ->
  g1 <> gzero -> g2 <> gzero -> alpha <> fzero -> gamma <> fzero -> delta <> fzero ->
  NoDup bad ->
  (forall tau, In tau bad -> ~ all_goes_well w w' ln_ceil (mimc_circuit rounds None None constants) (mimc_circuit rounds (Some xl) (Some xr) constants)
                                 g1 g2 alpha beta gamma delta [longsight xl xr constants] tau) ->
  List.length bad <= 2 ^ e + 1 + (6 * rounds + 7) * (2 ^ e - 1).
Proof.
  intros Hw Hw' Hln Hl Hr Hb He HS H1 H2 Ha Hg Hd Hnd Hbad. pose proof (length_pos _ _ Hl Hr) as Hn.
  destruct (C53_complete rounds xl xr constants Hl Hr) as (wit & Hwit & Hs & Hp & _). rewrite <- Hp in Hbad.
  pose proof (describes_mimc rounds constants Hl Hn) as D. pose proof (assigns_mimc rounds xl xr constants Hl Hn) as A.
  pose proof (same_mimc _ _ _ _ _ _ Hl Hr D Hwit) as Hsame. pose proof (addressable_mimc _ _ _ _ _ Hl Hr Hb Hwit) as Haddr.
  destruct (proj1 (C06_keygen_defined (mimc_calls xl xr constants)) (mimc_scoped xl xr constants)) as [ks Ek].
  destruct (prover_defined _ _ Ek) as [t Et]. rewrite <- (prover_calls rounds constants xl xr Hl) in Et. rewrite <- (keypair_calls rounds constants xl xr Hl) in Ek.
  assert (Ew : p_cons wit = all_cons 2 1 (Aux 0) (Aux 1) constants ++ map input_constraint [0; 1] /\ List.length (p_aux wit) = 2 * rounds + 1).
  { unfold assigns in *. rewrite A in Hwit. injection Hwit as <-. cbn [p_cons p_aux List.length]. rewrite all_aux_length, Hl by auto. split; [reflexivity|lia]. }
  destruct Ew as [Ew La].
  assert (Lc : List.length (all_cons 2 1 (Aux 0) (Aux 1) constants ++ map input_constraint [0; 1]) = 2 * rounds + 2).
  { rewrite app_length, all_cons_length, Hl. reflexivity. }
  replace ((6 * rounds + 7) * (2 ^ e - 1)) with ((2 * 2 + 3 * (2 * rounds + 1)) * (2 ^ e - 1)) by (f_equal; lia).
  refine (C54_few_failures w w' ln_ceil _ _ ks t _ wit e g1 g2 alpha beta gamma delta bad Hw Hw' Hln Ek D Et Hwit Hsame Haddr Hs _ HS _ H1 H2 Hg Hd _ Hnd Hbad).
  - cbn [k_cons]. rewrite Lc. exact He.
  - intros _. cbn [k_aux]. split; [|lia]. destruct e; [|lia]. destruct He as [He _]. cbn in He. lia.
  - assert (ND : forall k, In k (p_cons wit) -> NoDup (map fst (part_A k)) /\ NoDup (map fst (part_B k))).
    { intros k Hk. rewrite Ew in Hk. apply in_app_or in Hk as [Hk|Hk]; [apply all_cons_nodup in Hk; eauto|].
      apply in_map_iff in Hk as (i & <- & _). cbn. split; repeat constructor. intros []. }
    split; [|split].
    + intros i (k & c & Hk & Hin & Hc). exists k. split; auto. rewrite (coefficient_nodup _ _ c); auto. now apply ND.
    + intros v (k & c & Hk & Hin & Hc). exists k. split; auto. rewrite (coefficient_nodup _ _ c); auto. now apply ND.
    + intros i Hi. rewrite La in Hi. destruct (all_cons_effect alpha beta constants Ha 2 1 0 1 i) as (k & Hk & X); auto; [lia|].
      exists k. split; [rewrite Ew; apply in_or_app; now left|exact X].
Qed.

(** With the 322 rounds of the tests: less than two million of the values of [tau]. *)
Theorem C53_few_failures_322 (w w' : Worker) (ln_ceil : Z -> nat) constants (alpha beta gamma delta xl xr : P) (bad : list P) :
  wf_worker w -> wf_worker w' -> sane_ln_ceil ln_ceil -> List.length constants = MIMC_ROUNDS -> 10 < two_adicity P ->
  g1 <> gzero -> g2 <> gzero -> alpha <> fzero -> gamma <> fzero -> delta <> fzero ->
  NoDup bad ->
  (forall tau, In tau bad -> ~ all_goes_well w w' ln_ceil (mimc_circuit MIMC_ROUNDS None None constants) (mimc_circuit MIMC_ROUNDS (Some xl) (Some xr) constants)
                                 g1 g2 alpha beta gamma delta [longsight xl xr constants] tau) ->
  (Z.of_nat (List.length bad) <= 1984622)%Z.
Proof.
  intros Hw Hw' Hln Hl HS H1 H2 Ha Hg Hd Hnd Hbad.
  assert (X : List.length bad <= 2 ^ 10 + 1 + (6 * MIMC_ROUNDS + 7) * (2 ^ 10 - 1)).
  { apply (C53_few_failures w w' ln_ceil MIMC_ROUNDS constants 10 alpha beta gamma delta xl xr bad); auto; unfold MIMC_ROUNDS; try lia.
    split; [apply Nat.leb_le; reflexivity|]. intros e' He'. apply (Nat.le_lt_trans _ (2 ^ 9)); [apply Nat.pow_le_mono_r; lia|apply Nat.ltb_lt; reflexivity]. }
  apply inj_le in X. rewrite Nat2Z.inj_add, Nat2Z.inj_mul in X. exact X.
Qed.

(** The wrong number of round constants makes key generation and proving panic. *)
Theorem C53_wrong_length (w : Worker) (ln_ceil : Z -> nat) rounds constants xl xr (alpha beta gamma delta tau r s : P) (params : Parameters E) :
  List.length constants <> rounds ->
  generate_parameters w (mimc_circuit rounds xl xr constants) g1 g2 alpha beta gamma delta tau = Panicked /\
  create_proof w ln_ceil (mimc_circuit rounds xl xr constants) params r s = Panicked.
Proof.
  intros H. unfold generate_parameters, create_proof, synthesize_keypair, synthesize_prover, synthesize, mimc_circuit. apply Nat.eqb_neq in H. rewrite H. split; reflexivity.
Qed.

(** A missing half of the preimage is an error of the prover ... *)
Theorem C53_missing (w : Worker) (ln_ceil : Z -> nat) rounds constants xl xr (r s : P) (params : Parameters E) :
  List.length constants = rounds -> xl = None \/ xr = None ->
  create_proof w ln_ceil (mimc_circuit rounds xl xr constants) params r s = Done (Err AssignmentMissing).
Proof.
  intros H Hm. unfold create_proof, synthesize_prover, synthesize, mimc_circuit. rewrite H, Nat.eqb_refl.
  destruct xl as [xl|]; [|reflexivity]. destruct Hm as [[=]| ->]. reflexivity.
Qed.

(** ... and the second half alone missing makes key generation panic. *)
Theorem C53_half_key (w : Worker) rounds constants xl (alpha beta gamma delta tau : P) :
  List.length constants = rounds -> 0 < rounds ->
  generate_parameters w (mimc_circuit rounds (Some xl) None constants) g1 g2 alpha beta gamma delta tau = Panicked.
Proof.
  intros H Hr. unfold generate_parameters, synthesize_keypair, synthesize, mimc_circuit. rewrite H, Nat.eqb_refl. destruct constants as [|c cs]; [cbn in H; lia|].
  reflexivity.
Qed.
End Keys.
End C53.
Print Assumptions C53_hash.
Print Assumptions C53_complete.
Print Assumptions C53_sound.
Print Assumptions C53_statement.
Print Assumptions C53_proofs_verify.
Print Assumptions C53_few_failures.
Print Assumptions C53_few_failures_322.
Print Assumptions C53_wrong_length.
Print Assumptions C53_missing.
Print Assumptions C53_half_key.

(** Two rounds on the field of the test engine: the image of (1, 2); keys, a proof, its verification; errors. *)
Definition c53_constants : list Fr64513 := [ofZ 3; ofZ 5].
Definition c53_params := generate_parameters (E := DummyEngine Fr64513) (Multicore 3) (mimc_circuit 2 None None c53_constants) fone (ofZ 2) (ofZ 3) (ofZ 5) (ofZ 7) (ofZ 11) (ofZ 13).
Example C53_ex :
  match mimc 2 (ofZ 1) (ofZ 2) c53_constants with Done y => toZ y | Panicked => 0%Z end = 35347%Z /\
  toZ (longsight (ofZ 1) (ofZ 2) c53_constants) = 35347%Z /\
  match synthesize_honest (mimc_circuit 2 (Some (ofZ 1)) (Some (ofZ 2)) c53_constants) with
  | Done (Ok wit) => (map toZ (p_inputs wit), map toZ (p_aux wit), List.length (p_cons wit)) = ([1; 35347]%Z, [1; 2; 16; 66; 5041]%Z, 6)
  | _ => False
  end /\
  match c53_params with
  | Done (Ok params) =>
      match create_proof (Multicore 2) (fun _ => 3) (mimc_circuit 2 (Some (ofZ 1)) (Some (ofZ 2)) c53_constants) params (ofZ 17) (ofZ 19) with
      | Done (Ok proof) =>
          verify_proof (prepare_verifying_key (p_vk params)) proof [ofZ 35347] = Done (Ok tt) /\
          verify_proof (prepare_verifying_key (p_vk params)) proof [ofZ 35348] = Done (Err InvalidProof)
      | _ => False
      end /\
      match create_proof (Multicore 2) (fun _ => 3) (mimc_circuit 2 (Some (ofZ 1)) None c53_constants) params (ofZ 17) (ofZ 19) with Done (Err AssignmentMissing) => true | _ => false end = true
  | _ => False
  end /\
  match generate_parameters (E := DummyEngine Fr64513) (Multicore 3) (mimc_circuit 2 (Some (ofZ 1)) None c53_constants) fone (ofZ 2) (ofZ 3) (ofZ 5) (ofZ 7) (ofZ 11) (ofZ 13) with Panicked => true | _ => false end = true.
Proof. vm_compute. repeat split. Qed.

(** 322 rounds on a field of 2^64 - 2^32 + 1 elements. *)
Example C53_322_ex (bad : list Goldilocks) :
  NoDup bad ->
  (forall tau, In tau bad -> ~ all_goes_well (E := DummyEngine Goldilocks) (Multicore 3) (Multicore 2) (fun _ => 3)
                                 (mimc_circuit MIMC_ROUNDS None None (repeat (ofZ 9) MIMC_ROUNDS)) (mimc_circuit MIMC_ROUNDS (Some (ofZ 1)) (Some (ofZ 2)) (repeat (ofZ 9) MIMC_ROUNDS))
                                 fone (ofZ 2) (ofZ 3) (ofZ 5) (ofZ 7) (ofZ 11) [longsight (ofZ 1) (ofZ 2) (repeat (ofZ 9) MIMC_ROUNDS)] tau) ->
  (Z.of_nat (List.length bad) <= 1984622)%Z.
Proof.
  assert (NZ : forall x : Goldilocks, toZ x <> 0%Z -> x <> fzero) by (intros x H ->; apply H; reflexivity).
  intros Hn Hbad. refine (C53_few_failures_322 _ _ _ _ _ (repeat (ofZ 9) MIMC_ROUNDS) _ _ _ _ _ _ bad _ _ _ _ _ _ _ _ _ _ Hn Hbad).
  1, 2: cbn; lia.
  1: intros z; cbn; lia.
  1: apply repeat_length.
  1: cbn; lia.
  all: apply NZ; vm_compute; discriminate.
Qed.
