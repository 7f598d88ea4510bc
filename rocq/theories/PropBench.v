(** Property C78: the keys of the MiMC circuit serve every prover, and what the benchmarks measure. *)
From Coq Require Import String.
From Coq Require Import ZArith List Bool Lia Field.
From Verif Require Import Prelude PrimeField Fields FModule Circuit Multicore Multiexp MultiexpProof PropMultiexp Assembly AssemblyProof PropAssembly Groth16 PropGenerator PropGroth16 Encoding EncodingProof PropEncoding PropVerifier Mimc MimcProof PropMimc Session PropSession Bench.
From Verif Require Import PropCovered PropDense.
From Verif Require Bls DomainProof PropDomain PropRandom Batch.
Import ListNotations.
Local Open Scope nat_scope.

(** * C78 *)
Section Mimc.
Context {P : PrimeField}.
Add Field PFc78 : (F_field P).

(** The circuit of the tests and of the benchmark, whatever its constants: every variable is constrained and none cancels. *)
Theorem C78_mimc_ready rounds (constants : list P) inst : List.length constants = rounds -> 0 < rounds ->
  describes (mimc_circuit rounds None None constants) inst -> all_constrained inst /\ uncancelled inst.
Proof.
  intros Hl Hr Hd. pose proof (length_pos _ _ Hl Hr) as Hn. pose proof (describes_mimc rounds constants Hl Hn) as D.
  unfold describes in *. rewrite D in Hd. injection Hd as <-. clear D. split.
  - intros i Hi. cbn [k_aux k_cons] in *. destruct (all_cons_effect fone fone constants f_1_neq_0 2 1 0 1 i) as (k & Hk & X); auto; [rewrite Hl; lia|].
    exists k. split; [apply in_or_app; now left|]. destruct k as [[a b] c]. unfold effect, constrained_by in *. cbn [part_A part_B PropRandom.part_C fst snd] in X.
    destruct (feqb_spec (coefficient a (Aux i)) fzero) as [Ea|]; [|auto]. destruct (feqb_spec (coefficient b (Aux i)) fzero) as [Eb|]; [|auto]. right. right. intros Ec.
    apply X. rewrite Ea, Eb, Ec. ring.
  - assert (ND : forall k, In k (all_cons 2 1 (Aux 0) (Aux 1) constants ++ map input_constraint [0; 1]) -> NoDup (map fst (part_A k)) /\ NoDup (map fst (part_B k))).
    { intros k Hk. apply in_app_or in Hk as [Hk|Hk]; [apply all_cons_nodup in Hk; eauto|].
      apply in_map_iff in Hk as (i & <- & _). cbn. split; repeat constructor. intros []. }
    intros v _. cbn [k_cons]. split.
    + intros _ (k & c & Hk & Hin & Hc). exists k. split; auto. rewrite (coefficient_nodup _ _ c); auto. now apply ND.
    + intros (k & c & Hk & Hin & Hc). exists k. split; auto. rewrite (coefficient_nodup _ _ c); auto. now apply ND.
Qed.

Lemma mimc_size rounds (constants : list P) inst : List.length constants = rounds -> 0 < rounds -> describes (mimc_circuit rounds None None constants) inst ->
  k_inputs inst = 2 /\ k_aux inst = 2 * rounds + 1 /\ List.length (k_cons inst) = 2 * rounds + 2.
Proof.
  intros Hl Hr Hd. pose proof (describes_mimc rounds constants Hl (length_pos _ _ Hl Hr)) as D. unfold describes in *. rewrite D in Hd. injection Hd as <-.
  cbn [k_inputs k_aux k_cons]. rewrite app_length, all_cons_length, Hl. repeat split.
Qed.
Lemma mimc_keypair rounds (constants : list P) : List.length constants = rounds -> exists s, synthesize_keypair (mimc_circuit rounds None None constants) = Done (Ok s).
Proof.
  intros Hl. destruct (proj1 (C06_keygen_defined (mimc_calls fzero fzero constants)) (mimc_scoped fzero fzero constants)) as [ks Ek].
  rewrite <- (keypair_calls rounds constants fzero fzero Hl) in Ek. eauto.
Qed.

Section Keys.
Context {E : Engine P} (g1 : E_G1 E) (g2 : E_G2 E).

(** All but few of the values of [alpha], [beta], [tau] that may be drawn give keys with which no prover ever fails. *)
Theorem C78_mimc_keys (w : Worker) rounds constants inst e (gamma delta : P) (D : list P) (bad : list (P * P * P)) :
  wf_worker w -> List.length constants = rounds -> 0 < rounds -> describes (mimc_circuit rounds None None constants) inst ->
  PropDomain.domain_exponent (2 * rounds + 2) e -> e < two_adicity P ->
  g1 <> gzero -> g2 <> gzero -> gamma <> fzero -> delta <> fzero -> NoDup D -> NoDup bad ->
  (forall alpha beta tau, In (alpha, beta, tau) bad -> In alpha D /\ In beta D /\ In tau D /\
     ~ keys_serve w (mimc_circuit rounds None None constants) inst g1 g2 alpha beta gamma delta tau) ->
  List.length bad <= (2 ^ e + 1 + (4 * rounds + 6) * (2 ^ e - 1) + (2 * rounds + 1) * (2 ^ e + 1)) * List.length D ^ 2.
Proof.
  intros Hw Hl Hr Hd He HS H1 H2 Hg Hdl ND NB HB. destruct (mimc_keypair rounds constants Hl) as [s Es].
  destruct (C78_mimc_ready rounds constants inst Hl Hr Hd) as [Hc Hu]. destruct (mimc_size rounds constants inst Hl Hr Hd) as (Si & Sa & Sc).
  replace (4 * rounds + 6) with (2 * k_inputs inst + 2 * k_aux inst) by (rewrite Si, Sa; lia). rewrite <- Sa. rewrite <- Sc in He.
  eapply (C71_keys_serve w _ s inst e g1 g2 gamma delta D bad); eauto.
  intros _. rewrite Sa. split; [|lia]. destruct e; [|lia]. destruct He as [He _]. rewrite Sc in He. cbn in He. lia.
Qed.

(** With the 322 rounds of the tests and benchmarks: less than [2^21] in [|D|]. *)
Theorem C78_mimc_keys_322 (w : Worker) constants inst (gamma delta : P) (D : list P) (bad : list (P * P * P)) :
  wf_worker w -> List.length constants = MIMC_ROUNDS -> describes (mimc_circuit MIMC_ROUNDS None None constants) inst -> 10 < two_adicity P ->
  g1 <> gzero -> g2 <> gzero -> gamma <> fzero -> delta <> fzero -> NoDup D -> NoDup bad ->
  (forall alpha beta tau, In (alpha, beta, tau) bad -> In alpha D /\ In beta D /\ In tau D /\
     ~ keys_serve w (mimc_circuit MIMC_ROUNDS None None constants) inst g1 g2 alpha beta gamma delta tau) ->
  (Z.of_nat (List.length bad) <= 1985912 * Z.of_nat (List.length D) ^ 2)%Z.
Proof.
  intros Hw Hl Hd HS H1 H2 Hg Hdl ND NB HB.
  assert (X : List.length bad <= (2 ^ 10 + 1 + (4 * MIMC_ROUNDS + 6) * (2 ^ 10 - 1) + (2 * MIMC_ROUNDS + 1) * (2 ^ 10 + 1)) * List.length D ^ 2).
  { apply (C78_mimc_keys w MIMC_ROUNDS constants inst 10 gamma delta D bad); auto; unfold MIMC_ROUNDS; try lia.
    split; [apply Nat.leb_le; reflexivity|]. intros e' He'. apply (Nat.le_lt_trans _ (2 ^ 9)); [apply Nat.pow_le_mono_r; lia|apply Nat.ltb_lt; reflexivity]. }
  set (K := 2 ^ 10 + 1 + (4 * MIMC_ROUNDS + 6) * (2 ^ 10 - 1) + (2 * MIMC_ROUNDS + 1) * (2 ^ 10 + 1)) in X.
  assert (EK : Z.of_nat K = 1985912%Z) by (unfold K; rewrite !Nat2Z.inj_add, !Nat2Z.inj_mul; reflexivity). clearbody K.
  apply inj_le in X. rewrite Nat2Z.inj_mul, EK in X. cbn [Nat.pow] in X. rewrite Nat.mul_1_r, Nat2Z.inj_mul in X.
  rewrite Z.pow_2_r. exact X.
Qed.
End Keys.

(** Whoever has made one proof knows that the keys serve everyone. *)
Theorem C78_one_for_all {E : Engine P} (w w1 : Worker) ln_ceil1 (circuit circuit1 : prog P (res unit)) inst wit1 e (g1 : E_G1 E) (g2 : E_G2 E) (alpha beta gamma delta tau : P) params r1 s1 proof1 :
  wf_worker w -> wf_worker w1 -> sane_ln_ceil ln_ceil1 -> describes circuit inst -> assigns circuit1 wit1 -> same_circuit inst wit1 -> addressable wit1 ->
  g1 <> gzero -> g2 <> gzero -> PropDomain.domain_exponent (List.length (k_cons inst)) e -> tau <> fzero -> fpow tau (2 ^ e) <> fone ->
  generate_parameters w circuit g1 g2 alpha beta gamma delta tau = Done (Ok params) -> create_proof w1 ln_ceil1 circuit1 params r1 s1 = Done (Ok proof1) ->
  keys_serve w circuit inst g1 g2 alpha beta gamma delta tau.
Proof.
  intros Hw Hw1 Hln1 Hd Ha1 Hs1 Had1 H1 H2 He Ht Htm Hg Hc1. exists params. split; [exact Hg|]. intros w' ln_ceil circuit' t' wit r s Hw' Hln Et Ha Hs Had Hsat.
  destruct (create_ok_inv g1 g2 alpha beta gamma delta tau w w1 ln_ceil1 circuit circuit1 inst wit1 params Hw Hw1 Hln1 Hg Hd Ha1 Hs1 Had1 r1 s1 proof1 Hc1)
    as (t1 & e1 & _ & Et1 & _ & _ & HS & _ & He1 & _).
  assert (e1 = e) by (apply (DomainProof.least_pow_unique (List.length (k_cons inst))); now apply PropDomain.domain_exponent_least). subst e1.
  destruct (polys_exist inst e HS) as (U & V & W & HQ).
  pose proof (proj1 (proj1 (C37_prover_succeeds_iff g1 g2 alpha beta gamma delta tau w w1 ln_ceil1 circuit circuit1 inst wit1 params t1 e U V W r1 s1 Hw Hw1 Hln1 Hg Hd Ha1 Hs1 Had1 Et1 H1 H2 He Ht Htm HQ)) (ex_intro _ proof1 Hc1)) as B1.
  assert (B : bookkeeping_agrees wit U V tau).
  { destruct Hs as (L1 & L1' & L1''), Hs1 as (L2 & L2' & L2''). unfold bookkeeping_agrees, occurs in *. rewrite <- L1, <- L1', <- L1''. rewrite <- L2, <- L2', <- L2'' in B1. exact B1. }
  destruct (proj2 (proj1 (C37_prover_succeeds_iff g1 g2 alpha beta gamma delta tau w w' ln_ceil circuit circuit' inst wit params t' e U V W r s Hw Hw' Hln Hg Hd Ha Hs Had Et H1 H2 He Ht Htm HQ)) B) as [proof Hp].
  exists proof. split; [exact Hp|]. eapply C37_proofs_verify; [exact Hw|exact Hw'|exact Hln|exact Hg|exact Hd|exact Ha|exact Hs|exact Had|exact Hsat|exact Hp].
Qed.
End Mimc.

Section Flow.
Context {P : PrimeField} {E : Engine P} (R : Rng E).
Context (w w' : Worker) (ln_ceil : Z -> nat) (rounds : nat).
Hypothesis Hw : wf_worker w.
Hypothesis Hw' : wf_worker w'.
Hypothesis Hln : sane_ln_ceil ln_ceil.
Hypothesis Hr : 0 < rounds.
Hypothesis Hb : (Z.of_nat rounds < 2 ^ 30)%Z.

Lemma bench_proof_eq constants params rng : List.length constants = rounds ->
  bench_proof R w' ln_ceil rounds constants params rng =
  match create_proof w' ln_ceil (mimc_circuit rounds (Some (draws R rng 0)) (Some (draws R rng 1)) constants) params (draws R rng 2) (draws R rng 3) with
  | Panicked => Err OtherPanic
  | Done (Err _) => Err UnwrapCreate
  | Done (Ok proof) => Ok (proof, longsight (draws R rng 0) (draws R rng 1) constants, state_after R rng 4)
  end.
Proof.
  intros Hl. unfold bench_proof.
  change (draws R rng 2) with (draws R (state_after R rng 2) 0). change (draws R rng 3) with (draws R (state_after R rng 2) 1).
  change (state_after R rng 4) with (state_after R (state_after R rng 2) 2). change (state_after R rng 2) with (snd (random_fr R (snd (random_fr R rng)))).
  change (draws R rng 0) with (fst (random_fr R rng)). change (draws R rng 1) with (fst (random_fr R (snd (random_fr R rng)))).
  destruct (random_fr R rng) as [xl s1]. cbn [fst snd]. destruct (random_fr R s1) as [xr s2]. cbn [fst snd].
  rewrite (proj1 (C53_hash rounds xl xr constants) Hl), C55_random_proof. reflexivity.
Qed.

Lemma bench_proofs_end constants (g1 : E_G1 E) (g2 : E_G2 E) (alpha beta gamma delta tau : P) params n :
  List.length constants = rounds ->
  generate_parameters w (mimc_circuit rounds None None constants) g1 g2 alpha beta gamma delta tau = Done (Ok params) ->
  forall rng,
  match bench_proofs R w' ln_ceil rounds constants params n rng with
  | Ok proofs => List.length proofs = n /\ Forall (fun '(proof, input) => verify_proof (prepare_verifying_key (p_vk params)) proof [input] = Done (Ok tt)) proofs
  | Err e => e = UnwrapCreate
  end.
Proof.
  intros Hl Hg. induction n as [|n IH]; intros rng; cbn [bench_proofs]; [split; [reflexivity|constructor]|].
  rewrite (bench_proof_eq constants params rng Hl). destruct (mimc_prover_done w' ln_ceil rounds Hw' Hln Hr Hb constants (draws R rng 0) (draws R rng 1) params (draws R rng 2) (draws R rng 3) Hl) as (x & Ex).
  rewrite Ex. destruct x as [proof|err]; [|reflexivity].
  assert (Ev : verify_proof (prepare_verifying_key (p_vk params)) proof [longsight (draws R rng 0) (draws R rng 1) constants] = Done (Ok tt)).
  { eapply C53_proofs_verify; [exact Hw|exact Hw'|exact Hln|exact Hr|exact Hb|exact Hg|exact Ex|]. now apply C53_hash. }
  specialize (IH (state_after R rng 4)). destruct (bench_proofs _ _ _ _ _ _ n _) as [proofs|e]; [|exact IH]. destruct IH as [L F]. cbn [List.length]. split; [now rewrite L|]. constructor; assumption.
Qed.
Lemma unbatched_all (pvk : PreparedVerifyingKey E) proofs : Forall (fun '(proof, input) => verify_proof pvk proof [input] = Done (Ok tt)) proofs ->
  unbatched pvk proofs = Done (repeat (Ok tt) (List.length proofs)).
Proof. induction 1 as [|[proof input] proofs Hp Hps IH]; cbn [unbatched List.length repeat]; [reflexivity|]. now rewrite Hp, IH. Qed.
Lemma bench_queue_eq (proofs : list (Proof_ E * P)) : bench_queue proofs = map (fun '(proof, input) => Batch.mkItem proof [input]) proofs.
Proof.
  assert (H : forall q, fold_left (fun queue '(proof, input) => queue ++ [Batch.mkItem proof [input]]) proofs q = q ++ map (fun '(proof, input) => Batch.mkItem proof [input]) proofs).
  { induction proofs as [|[proof input] proofs IH]; intros q; cbn [fold_left map]; [now rewrite app_nil_r|]. rewrite IH, <- app_assoc. reflexivity. }
  apply H.
Qed.
Lemma batched_all (M : Batch.Miller E) (vk : VerifyingKey E) proofs rng : Forall (fun '(proof, input) => verify_proof (prepare_verifying_key vk) proof [input] = Done (Ok tt)) proofs ->
  (forall fuel, batched R M fuel rng vk proofs = None \/ batched R M fuel rng vk proofs = Some (Done (Ok tt))) /\
  (never_dries_up (draws R rng) -> exists fuel0, forall fuel, fuel0 <= fuel -> batched R M fuel rng vk proofs = Some (Done (Ok tt))).
Proof.
  intros H. unfold batched. apply C40_verify. rewrite bench_queue_eq. intros item Hi. apply in_map_iff in Hi as ([proof input] & <- & Hin). rewrite Forall_forall in H. apply (H _ Hin).
Qed.

(** Whatever is drawn: the benchmark stops at one of its two [unwrap]s, or everything it measures is the verification of correct proofs that
    succeeds: [n] times in each unbatched run, and in each batched run (once non-zero values have been drawn). *)
Theorem C78_bench_batch (M : Batch.Miller E) n runs rngs (rng : rng_state R) :
  (forall fuel,
    match bench_batch_verify R M w w' ln_ceil fuel rounds n runs rngs rng with
    | Err e => e = UnwrapGenerate \/ e = UnwrapCreate
    | Ok m => unbatched_runs m = repeat (Done (repeat (Ok tt) n)) runs /\ List.length (batched_runs m) = List.length rngs /\
              Forall (fun x => x = None \/ x = Some (Done (Ok tt))) (batched_runs m)
    end) /\
  ((forall rng', In rng' rngs -> never_dries_up (draws R rng')) -> exists fuel0, forall fuel, fuel0 <= fuel ->
    match bench_batch_verify R M w w' ln_ceil fuel rounds n runs rngs rng with Err _ => True | Ok m => batched_runs m = repeat (Some (Done (Ok tt))) (List.length rngs) end).
Proof.
  unfold bench_batch_verify. rewrite random_constants_spec. set (constants := map (draws R rng) (seq 0 rounds)).
  assert (Hl : List.length constants = rounds) by (unfold constants; now rewrite map_length, seq_length). clearbody constants.
  rewrite C55_random_parameters. set (rng0 := state_after R rng rounds). clearbody rng0.
  match goal with |- context [generate_parameters _ _ ?g1 ?g2 ?a ?b ?c ?d ?t] =>
    destruct (mimc_keygen_done w rounds Hw Hr constants g1 g2 a b c d t Hl) as (x & Ex); rewrite Ex; pose proof (bench_proofs_end constants g1 g2 a b c d t) as X end.
  destruct x as [params|err]; cbn [unwrap_generate]; [|split; [auto|intros _; exists 0; auto]].
  specialize (X params n Hl Ex (state_after R (snd (random_g2 R (snd (random_g1 R rng0)))) 5)).
  destruct (bench_proofs _ _ _ _ _ _ n _) as [proofs|e]; [|split; [auto|intros _; exists 0; auto]]. destruct X as [L F]. cbn [unbatched_runs batched_runs]. split.
  - intros fuel. rewrite (unbatched_all _ _ F), L, map_length. split; [reflexivity|]. split; [reflexivity|]. apply Forall_forall. intros x Hx. apply in_map_iff in Hx as (rng' & <- & _).
    apply (batched_all M _ proofs rng' F).
  - clear L Ex. intros Hd. induction rngs as [|rng' rngs IH]; [exists 0; auto|]. destruct IH as [f1 IH]; [intros; apply Hd; now right|].
    destruct (proj2 (batched_all M _ proofs rng' F)) as [f2 H2]; [apply Hd; now left|]. exists (Nat.max f1 f2). intros fuel Hf. cbn [map List.length repeat]. rewrite H2, IH by lia. reflexivity.
Qed.

(** With keys that serve every prover ([C78_mimc_keys]: nearly all are) it stops at neither [unwrap]; and the tests can only stop at a proof
    with the identity in it ([C56_readable]: few of the values of [r] and [s] give one). *)
Definition drawn_keys_serve (rng : rng_state R) : Prop :=
  let constants := map (draws R rng) (seq 0 rounds) in
  let rng0 := state_after R rng rounds in
  let rng1 := snd (random_g1 R rng0) in
  let rng2 := snd (random_g2 R rng1) in
  exists inst, describes (mimc_circuit rounds None None constants) inst /\
    keys_serve w (mimc_circuit rounds None None constants) inst (fst (random_g1 R rng0)) (fst (random_g2 R rng1)) (draws R rng2 0) (draws R rng2 1) (draws R rng2 2) (draws R rng2 3) (draws R rng2 4).

Lemma serve_create constants (g1 : E_G1 E) (g2 : E_G2 E) (alpha beta gamma delta tau xl xr r s : P) inst params : List.length constants = rounds ->
  describes (mimc_circuit rounds None None constants) inst ->
  keys_serve w (mimc_circuit rounds None None constants) inst g1 g2 alpha beta gamma delta tau ->
  generate_parameters w (mimc_circuit rounds None None constants) g1 g2 alpha beta gamma delta tau = Done (Ok params) ->
  exists proof, create_proof w' ln_ceil (mimc_circuit rounds (Some xl) (Some xr) constants) params r s = Done (Ok proof).
Proof.
  intros Hl Hd (params' & Eg & K) Eg'. rewrite Eg in Eg'. assert (params' = params) by congruence. subst params'. destruct (C53_complete rounds xl xr constants Hl Hr) as (wit & Hwit & Hs & _).
  destruct (proj1 (C06_keygen_defined (mimc_calls xl xr constants)) (mimc_scoped xl xr constants)) as [ks Ek].
  destruct (prover_defined _ _ Ek) as [t Et]. rewrite <- (prover_calls rounds constants xl xr Hl) in Et.
  destruct (K w' ln_ceil _ t wit r s Hw' Hln Et Hwit) as (proof & Hp & _); eauto.
  - eapply same_mimc; eauto.
  - eapply addressable_mimc; eauto.
Qed.
Lemma serve_proofs constants (g1 : E_G1 E) (g2 : E_G2 E) (alpha beta gamma delta tau : P) inst params n : List.length constants = rounds ->
  describes (mimc_circuit rounds None None constants) inst ->
  keys_serve w (mimc_circuit rounds None None constants) inst g1 g2 alpha beta gamma delta tau ->
  generate_parameters w (mimc_circuit rounds None None constants) g1 g2 alpha beta gamma delta tau = Done (Ok params) ->
  forall rng, exists proofs, bench_proofs R w' ln_ceil rounds constants params n rng = Ok proofs.
Proof.
  intros Hl Hd K Eg. induction n as [|n IH]; intros rng; cbn [bench_proofs]; [eauto|]. rewrite (bench_proof_eq constants params rng Hl).
  destruct (serve_create constants g1 g2 alpha beta gamma delta tau (draws R rng 0) (draws R rng 1) (draws R rng 2) (draws R rng 3) inst params Hl Hd K Eg) as [proof ->].
  destruct (IH (state_after R rng 4)) as [proofs ->]. eauto.
Qed.
Theorem C78_bench_serves (M : Batch.Miller E) fuel n runs rngs (rng : rng_state R) : drawn_keys_serve rng ->
  exists m, bench_batch_verify R M w w' ln_ceil fuel rounds n runs rngs rng = Ok m.
Proof.
  unfold drawn_keys_serve, bench_batch_verify. cbv zeta. rewrite random_constants_spec. set (constants := map (draws R rng) (seq 0 rounds)).
  assert (Hl : List.length constants = rounds) by (unfold constants; now rewrite map_length, seq_length). clearbody constants.
  rewrite C55_random_parameters. set (rng0 := state_after R rng rounds). clearbody rng0. intros (inst & Hd & K). pose proof K as (params & Eg & _). rewrite Eg. cbn [unwrap_generate].
  destruct (serve_proofs constants _ _ _ _ _ _ _ inst params n Hl Hd K Eg (state_after R (snd (random_g2 R (snd (random_g1 R rng0)))) 5)) as [proofs ->]. eauto.
Qed.
Theorem C78_tests_serve (B1 : GroupBytes (E_G1 E)) (B2 : GroupBytes (E_G2 E)) (M : Batch.Miller E) fuel n (rng : rng_state R) : drawn_keys_serve rng ->
  (test_mimc R B1 B2 w w' ln_ceil rounds n rng = Ok tt \/ test_mimc R B1 B2 w w' ln_ceil rounds n rng = Err UnwrapRead) /\
  (test_batch_verify R M B1 B2 w w' ln_ceil fuel rounds n rng = None \/ test_batch_verify R M B1 B2 w w' ln_ceil fuel rounds n rng = Some (Ok tt) \/
   test_batch_verify R M B1 B2 w w' ln_ceil fuel rounds n rng = Some (Err UnwrapRead)).
Proof.
  intros Hk. pose proof (C55_test_batch R B1 B2 w w' ln_ceil rounds Hw Hw' Hln Hr Hb M fuel n rng) as Y. revert Hk Y.
  unfold drawn_keys_serve, test_mimc, test_batch_verify. cbv zeta. rewrite random_constants_spec. set (constants := map (draws R rng) (seq 0 rounds)).
  assert (Hl : List.length constants = rounds) by (unfold constants; now rewrite map_length, seq_length). clearbody constants.
  rewrite C55_random_parameters. set (rng0 := state_after R rng rounds). clearbody rng0. intros (inst & Hd & K). pose proof K as (params & Eg & _). rewrite Eg. cbn [unwrap_generate].
  assert (S : forall m rng' queue, match samples R B1 B2 w' ln_ceil rounds constants params (prepare_verifying_key (p_vk params)) m rng' queue with Ok _ => True | Err e => e = UnwrapRead end).
  { induction m as [|m IH]; intros rng' queue; cbn [samples]; [exact I|]. pose proof (C55_sample R B1 B2 w w' ln_ceil rounds Hw Hw' Hln Hr Hb constants _ _ _ _ _ _ _ params rng' Hl Eg) as X. cbv zeta in X.
    destruct (serve_create constants _ _ _ _ _ _ _ (draws R rng' 0) (draws R rng' 1) (draws R rng' 2) (draws R rng' 3) inst params Hl Hd K Eg) as [proof Ep]. rewrite Ep in X. destruct X as [X1 X2].
    assert (D : has_identity proof \/ ~ has_identity proof).
    { unfold has_identity. destruct (geqb_spec (proof_a proof) gzero), (geqb_spec (proof_b proof) gzero), (geqb_spec (proof_c proof) gzero); tauto. }
    destruct D as [D|D]; [now rewrite (X1 D)|]. destruct (X2 D) as [-> _]. apply IH. }
  specialize (S n (state_after R (snd (random_g2 R (snd (random_g1 R rng0)))) 5) []). destruct (samples _ _ _ _ _ _ _ _ _ _ _ _) as [[queue rng1]|e].
  - intros Y. split; [auto|]. destruct (Batch.verify _ _ _ _ _) as [[[[]|e]|]|]; auto; destruct Y as [Y|[Y|Y]]; discriminate.
  - intros _. subst e. auto.
Qed.

(** benches/slow.rs: the [unwrap] panics only when the identity is drawn for a base (with an exponent that is not zero); otherwise every run computes
    the sum of the products. *)
Theorem C78_bench_multiexp samples (rng : rng_state R) : (Z.of_nat samples < 2 ^ 32)%Z ->
  let v := map (draws R rng) (seq 0 samples) in
  let g := fst (random_points R samples (state_after R rng samples)) in
  let identity_drawn := exists i, i < samples /\ nth i v fzero <> fzero /\ nth i g gzero = gzero in
  List.length g = samples /\ (identity_drawn -> bench_parts R ln_ceil samples rng = Panicked) /\
  (~ identity_drawn -> bench_parts R ln_ceil samples rng = Done (gsum samples (fun i => nth i v fzero *g nth i g gzero))).
Proof.
  intros Hn v g identity_drawn.
  assert (Lv : List.length v = samples) by (unfold v; now rewrite map_length, seq_length).
  assert (Lg : List.length g = samples).
  { unfold g. generalize (state_after R rng samples). clear. induction samples as [|n IH]; intros s; cbn [random_points]; [reflexivity|]. destruct (random_g1 R s) as [x s']. specialize (IH s').
    destruct (random_points R n s'). cbn [fst List.length] in *. now rewrite IH. }
  split; [exact Lg|]. unfold bench_parts. rewrite random_constants_spec. fold v. subst g. destruct (random_points R samples (state_after R rng samples)) as [g s']. cbn [fst] in *.
  rewrite <- Lv in Hn.
  pose proof (C33_panics_iff ln_ceil g 0 None v Hln Hn) as NP. pose proof (C33_fails_iff ln_ceil g 0 None v Hln Hn ltac:(discriminate)) as NF. cbn [as_density] in *.
  assert (I : identity_drawn <-> too_few g 0 None v \/ meets_identity g 0 None v).
  { unfold too_few, meets_identity, identity_drawn. cbn [dense_exponents]. rewrite Lv, Lg. split.
    - intros (i & Hi & Hx & Hg). right. exists i. split; [exact Hi|]. split; [exact Hx|]. cbn [Nat.add]. rewrite <- Hg. apply nth_error_nth'. lia.
    - intros [H|(i & Hi & Hx & Hg)]; [lia|]. exists i. split; [exact Hi|]. split; [exact Hx|]. cbn [Nat.add] in Hg. now apply nth_error_nth with (d := gzero) in Hg. }
  rewrite <- I in NF. clear I. pose proof (C32_value ln_ceil g 0 None v) as V. cbn [as_density] in V.
  destruct (multiexp ln_ceil g 0 FullDensity (map exponent_of v)) as [[x|err]|].
  - split; intros H; [apply NF in H as [err H]; discriminate|]. rewrite (V x Hln Hn eq_refl). unfold naive_sum. cbn [dense_exponents Nat.add]. now rewrite Lv.
  - split; intros H; [reflexivity|]. exfalso. apply H, NF. eauto.
  - destruct NP as [NP _]. destruct (NP eq_refl) as (bits & B & _). discriminate.
Qed.
End Flow.
Print Assumptions C78_mimc_ready.
Print Assumptions C78_mimc_keys.
Print Assumptions C78_mimc_keys_322.
Print Assumptions C78_one_for_all.
Print Assumptions C78_bench_batch.
Print Assumptions C78_bench_serves.
Print Assumptions C78_tests_serve.
Print Assumptions C78_bench_multiexp.

(** Examples, with the generators of C55_ex.  Two rounds of MiMC, three proofs, two unbatched and two batched runs; *)
Example C78_ex_bench :
  bench_batch_verify c55_rng (Batch.DummyMiller Fr64513) (Multicore 2) (Multicore 3) (fun _ => 3) 5 2 3 2 [100; 200] 0 =
    Ok {| unbatched_runs := [Done [Ok tt; Ok tt; Ok tt]; Done [Ok tt; Ok tt; Ok tt]]; batched_runs := [Some (Done (Ok tt)); Some (Done (Ok tt))] |} /\
  bench_batch_verify c55_zero (Batch.DummyMiller Fr64513) (Multicore 2) (Multicore 3) (fun _ => 3) 5 2 3 2 [100; 200] 0 = Err UnwrapGenerate.
Proof. vm_compute. split; reflexivity. Qed.
(** the keys drawn serve every prover, as one proof made with them shows; *)
Definition c78_proof_made : bool :=
  let constants := map (draws c55_rng 0) (seq 0 2) in
  match generate_parameters (E := DummyEngine Fr64513) (Multicore 2) (mimc_circuit 2 None None constants) (ofZ 4) (ofZ 6) (draws c55_rng 4 0) (draws c55_rng 4 1) (draws c55_rng 4 2) (draws c55_rng 4 3) (draws c55_rng 4 4) with
  | Done (Ok params) => match create_proof Single (fun _ => 3) (mimc_circuit 2 (Some (ofZ 1)) (Some (ofZ 2)) constants) params fzero fzero with Done (Ok _) => true | _ => false end
  | _ => false
  end.
Example C78_ex_serve : drawn_keys_serve c55_rng (Multicore 2) 2 0.
Proof.
  assert (X : c78_proof_made = true) by (vm_compute; reflexivity). unfold c78_proof_made in X. unfold drawn_keys_serve. cbv zeta in *.
  set (constants := map (draws c55_rng 0) (seq 0 2)) in *. assert (Hl : List.length constants = 2) by reflexivity. clearbody constants.
  pose proof (describes_mimc 2 constants Hl (length_pos _ _ Hl ltac:(lia))) as D. eexists. split; [exact D|].
  change (state_after c55_rng 0 2) with 2. change (snd (random_g1 c55_rng 2)) with 3. change (snd (random_g2 c55_rng 3)) with 4. change (fst (random_g1 c55_rng 2)) with (ofZ 4 : Fr64513). change (fst (random_g2 c55_rng 3)) with (ofZ 6 : Fr64513).
  destruct (generate_parameters _ _ _ _ _ _ _ _ _) as [[params|]|] eqn:Eg; [|discriminate X..]. destruct (create_proof _ _ _ _ _ _) as [[proof|]|] eqn:Ec; [|discriminate X..].
  destruct (C53_complete 2 (ofZ 1 : Fr64513) (ofZ 2) constants Hl ltac:(lia)) as (wit & Hwit & _).
  refine (C78_one_for_all (Multicore 2) Single (fun _ => 3) _ _ _ wit 3 _ _ _ _ _ _ _ params fzero fzero proof _ _ _ D Hwit _ _ _ _ _ _ _ Eg Ec).
  - cbn. lia.
  - exact I.
  - intros n _. lia.
  - eapply same_mimc; eauto.
  - eapply addressable_mimc; eauto. lia.
  - intros H. apply (f_equal (toZ (p := Fr64513))) in H. vm_compute in H. discriminate H.
  - intros H. apply (f_equal (toZ (p := Fr64513))) in H. vm_compute in H. discriminate H.
  - destruct (mimc_size 2 constants _ Hl ltac:(lia) D) as (_ & _ & ->). split; [cbn; lia|]. intros [|[|[|e']]] He'; cbn; lia.
  - intros H. apply (f_equal (toZ (p := Fr64513))) in H. vm_compute in H. discriminate H.
  - intros H. apply (f_equal (toZ (p := Fr64513))) in H. vm_compute in H. discriminate H.
Qed.
(** a sum of forty products, and a generator that returns the identity; the hypotheses of [C78_mimc_keys_322] hold in the scalar field of BLS12-381. *)
Definition c78_identity : Rng (DummyEngine Fr64513) :=
  @Build_Rng Fr64513 (DummyEngine Fr64513) nat (fun k => (ofZ (17 + 11 * Z.of_nat k), S k)) (fun k => (ofZ (if k =? 70 then 0 else 2), S k)) (fun k => (ofZ 3, S k)).
Example C78_ex_multiexp :
  match bench_parts c55_rng (fun _ => 4) 40 0 with Done x => Some (toZ (x : Fr64513)) | Panicked => None end = Some 47503%Z /\
  match bench_parts c78_identity (fun _ => 4) 40 0 with Done _ => false | Panicked => true end = true /\
  10 < two_adicity Bls.BlsScalar.
Proof. split; [vm_compute; reflexivity|]. split; [vm_compute; reflexivity|]. exact (Nat.lt_trans 10 17 _ ltac:(lia) (proj1 (proj2 (proj2 C71_ex_headers)))). Qed.
