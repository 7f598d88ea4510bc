(** Property C55: the randomised entry points, and the assertions of the integration tests. *)
From Coq Require Import String.
From Coq Require Import ZArith List Bool Lia.
From Coq Require Import Strings.Byte.
From Verif Require Import Prelude PrimeField Fields FModule Circuit Multicore Multiexp MultiexpProof PropMultiexp Assembly AssemblyProof PropAssembly Groth16 PropGenerator PropGroth16 Encoding EncodingProof PropEncoding PropVerifier Mimc MimcProof PropMimc Session.
From Verif Require PropDomain Batch.
Import ListNotations.
Local Open Scope nat_scope.

(** ** Specification *)
Definition has_identity {P : PrimeField} {E : Engine P} (p : Proof_ E) : Prop := proof_a p = gzero \/ proof_b p = gzero \/ proof_c p = gzero.

(** * C55 *)
Section C55.
Context {P : PrimeField} {E : Engine P} (R : Rng E).

Lemma state_after_snoc k : forall rng, state_after R rng (S k) = snd (random_fr R (state_after R rng k)).
Proof. induction k as [|k IH]; intros rng; [reflexivity|]. change (state_after R rng (S (S k))) with (state_after R (snd (random_fr R rng)) (S k)). rewrite IH. reflexivity. Qed.

Lemma random_constants_spec n : forall rng, random_constants R n rng = (map (draws R rng) (seq 0 n), state_after R rng n).
Proof.
  induction n as [|n IH]; intros rng; [reflexivity|]. cbn [random_constants seq map state_after]. unfold draws at 1. cbn [state_after].
  destruct (random_fr R rng) as [c rng'] eqn:Er. cbn [fst snd]. rewrite IH. f_equal. f_equal. rewrite <- seq_shift, map_map. apply map_ext. intros k. unfold draws. cbn [state_after]. now rewrite Er.
Qed.

(** The group elements are drawn before alpha, beta, gamma, delta, tau; the prover draws r, then s. *)
Theorem C55_random_parameters (w : Worker) circuit (rng : rng_state R) :
  let rng1 := snd (random_g1 R rng) in
  let rng2 := snd (random_g2 R rng1) in
  generate_random_parameters R w circuit rng =
    (generate_parameters w circuit (fst (random_g1 R rng)) (fst (random_g2 R rng1)) (draws R rng2 0) (draws R rng2 1) (draws R rng2 2) (draws R rng2 3) (draws R rng2 4),
     state_after R rng2 5).
Proof.
  cbv zeta. unfold generate_random_parameters, draws. cbn [state_after]. destruct (random_g1 R rng) as [g1 rng1]. cbn [fst snd]. destruct (random_g2 R rng1) as [g2 rng2]. cbn [fst snd].
  destruct (random_fr R rng2) as [x1 s1]. cbn [fst snd]. destruct (random_fr R s1) as [x2 s2]. cbn [fst snd]. destruct (random_fr R s2) as [x3 s3]. cbn [fst snd].
  destruct (random_fr R s3) as [x4 s4]. cbn [fst snd]. destruct (random_fr R s4) as [x5 s5]. reflexivity.
Qed.
Theorem C55_random_proof (w : Worker) ln_ceil circuit params (rng : rng_state R) :
  create_random_proof R w ln_ceil circuit params rng = (create_proof w ln_ceil circuit params (draws R rng 0) (draws R rng 1), state_after R rng 2).
Proof.
  unfold create_random_proof, draws. cbn [state_after]. destruct (random_fr R rng) as [r s1]. cbn [fst snd]. destruct (random_fr R s1) as [s s2]. reflexivity.
Qed.

Context (B1 : GroupBytes (E_G1 E)) (B2 : GroupBytes (E_G2 E)) (w w' : Worker) (ln_ceil : Z -> nat) (rounds : nat).
Hypothesis Hw : wf_worker w.
Hypothesis Hw' : wf_worker w'.
Hypothesis Hln : sane_ln_ceil ln_ceil.
Hypothesis Hr : 0 < rounds.
Hypothesis Hb : (Z.of_nat rounds < 2 ^ 30)%Z.

Lemma mimc_prover_done constants (xl xr : P) (params : Parameters E) r s : List.length constants = rounds ->
  exists x, create_proof w' ln_ceil (mimc_circuit rounds (Some xl) (Some xr) constants) params r s = Done x.
Proof.
  intros Hl. destruct (C53_complete rounds xl xr constants Hl Hr) as (wit & Hwit & _).
  destruct (proj1 (C06_keygen_defined (mimc_calls xl xr constants)) (mimc_scoped xl xr constants)) as [ks Ek].
  destruct (prover_defined _ _ Ek) as [t Et]. rewrite <- (prover_calls rounds constants xl xr Hl) in Et.
  apply (C46_never_panics w' ln_ceil _ params r s t wit Hw' Hln Et Hwit). eapply addressable_mimc; eauto.
Qed.
Lemma mimc_keygen_done constants (g1 : E_G1 E) (g2 : E_G2 E) (alpha beta gamma delta tau : P) : List.length constants = rounds ->
  exists x, generate_parameters w (mimc_circuit rounds None None constants) g1 g2 alpha beta gamma delta tau = Done x.
Proof.
  intros Hl. destruct (proj1 (C06_keygen_defined (mimc_calls fzero fzero constants)) (mimc_scoped fzero fzero constants)) as [ks Ek].
  rewrite <- (keypair_calls rounds constants fzero fzero Hl) in Ek. pose proof (length_pos _ _ Hl Hr) as Hn. pose proof (describes_mimc rounds constants Hl Hn) as D.
  destruct (generate_cases g1 g2 alpha beta gamma delta tau w _ _ Hw Ek) as (inst & e & Ei & He & Hle & _ & G & _).
  unfold describes in *. rewrite D in Ei. injection Ei as <-. cbn [k_cons k_aux] in *.
  assert (Y : w = Single -> 1 < 2 ^ e /\ 0 < 2 * rounds + 1).
  { intros _. split; [|lia]. rewrite app_length, all_cons_length, Hl in Hle. cbn in Hle. lia. }
  rewrite (G Y). clear. destruct (negb _); [eexists; reflexivity|]. destruct (_ || _)%bool; [eexists; reflexivity|]. destruct (existsb _ _); eexists; reflexivity.
Qed.

(** One round of the tests: the four elements drawn are the preimage and the randomness of the proof.  It stops only because no proof
    is created, or because the proof created contains the identity, which [Proof::read] does not accept. *)
Theorem C55_sample constants (g1 : E_G1 E) (g2 : E_G2 E) (alpha beta gamma delta tau : P) params (rng : rng_state R) :
  List.length constants = rounds ->
  generate_parameters w (mimc_circuit rounds None None constants) g1 g2 alpha beta gamma delta tau = Done (Ok params) ->
  let xl := draws R rng 0 in
  let xr := draws R rng 1 in
  let result := sample R B1 B2 w' ln_ceil rounds constants params (prepare_verifying_key (p_vk params)) rng in
  match create_proof w' ln_ceil (mimc_circuit rounds (Some xl) (Some xr) constants) params (draws R rng 2) (draws R rng 3) with
  | Panicked => False
  | Done (Err _) => result = Err UnwrapCreate
  | Done (Ok proof) =>
      (has_identity proof -> result = Err UnwrapRead) /\
      (~ has_identity proof -> result = Ok (Batch.mkItem proof [longsight xl xr constants], state_after R rng 4) /\
                               verify_proof (prepare_verifying_key (p_vk params)) proof [longsight xl xr constants] = Done (Ok tt))
  end.
Proof.
  intros Hl Hg xl xr result. unfold result, sample. clear result.
  change (draws R rng 2) with (draws R (state_after R rng 2) 0). change (draws R rng 3) with (draws R (state_after R rng 2) 1).
  change (state_after R rng 4) with (state_after R (state_after R rng 2) 2). change (state_after R rng 2) with (snd (random_fr R (snd (random_fr R rng)))).
  subst xl xr. change (draws R rng 0) with (fst (random_fr R rng)). change (draws R rng 1) with (fst (random_fr R (snd (random_fr R rng)))).
  destruct (random_fr R rng) as [xl s1]. cbn [fst snd]. destruct (random_fr R s1) as [xr s2]. cbn [fst snd].
  rewrite (proj1 (C53_hash rounds xl xr constants) Hl), C55_random_proof.
  destruct (mimc_prover_done constants xl xr params (draws R s2 0) (draws R s2 1) Hl) as (x & Ex). rewrite Ex. destruct x as [proof|err]; [|reflexivity].
  pose proof (proj1 (C43_write B1 B2 proof [])) as Ew. rewrite Ew. cbn [app].
  assert (Ev : verify_proof (prepare_verifying_key (p_vk params)) proof [longsight xl xr constants] = Done (Ok tt)).
  { eapply C53_proofs_verify; [exact Hw|exact Hw'|exact Hln|exact Hr|exact Hb|exact Hg|exact Ex|]. now apply C53_hash. }
  split; intros Hid.
  - cbn [written]. rewrite <- (app_nil_r (to_bytes B1 (proof_c proof))), C43_rejects; auto using to_bytes_length. rewrite !from_to_bytes. destruct Hid as [-> |[-> | ->]]; auto.
  - pose proof (C43_roundtrip B1 B2 proof [] UnexpectedEof) as X. rewrite Ew, app_nil_r in X. cbn [fst written app] in *.
    unfold has_identity in Hid. rewrite X by tauto. rewrite Ev. split; reflexivity.
Qed.

Lemma samples_ends constants (g1 : E_G1 E) (g2 : E_G2 E) (alpha beta gamma delta tau : P) params n :
  List.length constants = rounds ->
  generate_parameters w (mimc_circuit rounds None None constants) g1 g2 alpha beta gamma delta tau = Done (Ok params) ->
  forall rng queue,
  (forall item, In item queue -> Batch.verify_single item (prepare_verifying_key (p_vk params)) = Done (Ok tt)) ->
  match samples R B1 B2 w' ln_ceil rounds constants params (prepare_verifying_key (p_vk params)) n rng queue with
  | Ok (queue', _) => List.length queue' = List.length queue + n /\ forall item, In item queue' -> Batch.verify_single item (prepare_verifying_key (p_vk params)) = Done (Ok tt)
  | Err e => e = UnwrapCreate \/ e = UnwrapRead
  end.
Proof.
  intros Hl Hg. induction n as [|n IH]; intros rng queue Hq; cbn [samples]; [split; [lia|exact Hq]|].
  pose proof (C55_sample constants g1 g2 alpha beta gamma delta tau params rng Hl Hg) as X. cbv zeta in X.
  destruct (create_proof w' ln_ceil _ params _ _) as [[proof|err]|]; [|rewrite X; auto|destruct X].
  destruct X as [X1 X2].
  assert (D : has_identity proof \/ ~ has_identity proof).
  { unfold has_identity. destruct (geqb_spec (proof_a proof) gzero), (geqb_spec (proof_b proof) gzero), (geqb_spec (proof_c proof) gzero); tauto. }
  destruct D as [D|D]; [rewrite (X1 D); auto|]. destruct (X2 D) as [-> V].
  match goal with |- match samples _ _ _ _ _ _ _ _ _ _ ?rng' ?q with _ => _ end => specialize (IH rng' q) end.
  assert (Hq' : forall item, In item (queue ++ [Batch.mkItem proof [longsight (draws R rng 0) (draws R rng 1) constants]]) -> Batch.verify_single item (prepare_verifying_key (p_vk params)) = Done (Ok tt)).
  { intros item Hi. apply in_app_or in Hi as [Hi|[<-|[]]]; auto. }
  specialize (IH Hq'). destruct (samples _ _ _ _ _ _ _ _ _ _ _ _) as [[q r]|e]; [|exact IH]. rewrite app_length in IH. cbn [List.length] in IH. split; [lia|apply IH].
Qed.

(** The assertions of the tests never fail, whatever is drawn: they end well, or at one of three [unwrap]s. *)
Theorem C55_test_mimc n (rng : rng_state R) :
  match test_mimc R B1 B2 w w' ln_ceil rounds n rng with
  | Ok _ => True
  | Err e => e = UnwrapGenerate \/ e = UnwrapCreate \/ e = UnwrapRead
  end.
Proof.
  unfold test_mimc. rewrite random_constants_spec. set (constants := map (draws R rng) (seq 0 rounds)).
  assert (Hl : List.length constants = rounds) by (unfold constants; now rewrite map_length, seq_length). clearbody constants.
  rewrite C55_random_parameters. set (rng0 := state_after R rng rounds). clearbody rng0.
  match goal with |- match match unwrap_generate (generate_parameters _ _ ?g1 ?g2 ?a ?b ?c ?d ?t) with _ => _ end with _ => _ end =>
    destruct (mimc_keygen_done constants g1 g2 a b c d t Hl) as (x & Ex); rewrite Ex; pose proof (samples_ends constants g1 g2 a b c d t) as X end.
  destruct x as [params|err]; cbn [unwrap_generate]; [|auto]. specialize (X params n Hl Ex (state_after R (snd (random_g2 R (snd (random_g1 R rng0)))) 5) [] ltac:(contradiction)).
  destruct (samples _ _ _ _ _ _ _ _ _ _ _ _) as [[q r]|e]; auto.
Qed.

Theorem C55_test_batch (M : Batch.Miller E) fuel n (rng : rng_state R) :
  match test_batch_verify R M B1 B2 w w' ln_ceil fuel rounds n rng with
  | None => True
  | Some (Ok _) => True
  | Some (Err e) => e = UnwrapGenerate \/ e = UnwrapCreate \/ e = UnwrapRead
  end.
Proof.
  unfold test_batch_verify. rewrite random_constants_spec. set (constants := map (draws R rng) (seq 0 rounds)).
  assert (Hl : List.length constants = rounds) by (unfold constants; now rewrite map_length, seq_length). clearbody constants.
  rewrite C55_random_parameters. set (rng0 := state_after R rng rounds). clearbody rng0.
  match goal with |- match match unwrap_generate (generate_parameters _ _ ?g1 ?g2 ?a ?b ?c ?d ?t) with _ => _ end with _ => _ end =>
    destruct (mimc_keygen_done constants g1 g2 a b c d t Hl) as (x & Ex); rewrite Ex; pose proof (samples_ends constants g1 g2 a b c d t) as X end.
  destruct x as [params|err]; cbn [unwrap_generate]; [|auto]. specialize (X params n Hl Ex (state_after R (snd (random_g2 R (snd (random_g1 R rng0)))) 5) [] ltac:(contradiction)).
  destruct (samples _ _ _ _ _ _ _ _ _ _ _ _) as [[q r]|e]; [|auto]. destruct X as [_ X].
  destruct (proj1 (C40_verify M (p_vk params) q (draws R r) X) fuel) as [-> | ->]; auto.
Qed.
End C55.
Print Assumptions C55_random_parameters.
Print Assumptions C55_random_proof.
Print Assumptions C55_sample.
Print Assumptions C55_test_mimc.
Print Assumptions C55_test_batch.

(** Draws 17, 28, 39, ... on the test engine: two rounds, three samples; and a generator that only returns zero. *)
Definition c55_rng : Rng (DummyEngine Fr64513) :=
  @Build_Rng Fr64513 (DummyEngine Fr64513) nat (fun k => (ofZ (17 + 11 * Z.of_nat k), S k)) (fun k => (ofZ (2 + Z.of_nat k), S k)) (fun k => (ofZ (3 + Z.of_nat k), S k)).
Definition c55_zero : Rng (DummyEngine Fr64513) := @Build_Rng Fr64513 (DummyEngine Fr64513) nat (fun k => (fzero, S k)) (fun k => (ofZ 2, S k)) (fun k => (ofZ 3, S k)).
Example C55_ex :
  test_batch_verify c55_rng (Batch.DummyMiller Fr64513) bytes_64513 bytes_64513 (Multicore 2) (Multicore 3) (fun _ => 3) 5 2 3 0 = Some (Ok tt) /\
  test_mimc c55_rng bytes_64513 bytes_64513 (Multicore 2) Single (fun _ => 3) 2 3 7 = Ok tt /\
  test_mimc c55_zero bytes_64513 bytes_64513 (Multicore 2) Single (fun _ => 3) 2 3 7 = Err UnwrapGenerate.
Proof. vm_compute. repeat split. Qed.
