(** Property C54: with how many values of [tau] key generation, proving and verification can fail. *)
From Coq Require Import String.
From Coq Require Import ZArith List Bool Lia Field.
From Verif Require Import Prelude PrimeField Fields FModule Circuit Multicore Domain FFTProof DomainProof Quotient Multiexp MultiexpProof PropMultiexp Assembly AssemblyProof PropAssembly Groth16 GeneratorProof ProverProof PropGenerator PropGroth16 Roots.
From Verif Require PropDomain.
Import ListNotations.
Local Open Scope nat_scope.

(** ** Specification *)
Definition part_C {P : PrimeField} (k : Constraint P) : LC P := snd k.

(** The coefficients of a variable do not add up to zero everywhere. *)
Definition effective {P : PrimeField} (wit : PState P) (f : Constraint P -> P) : Prop := exists k, In k (p_cons wit) /\ f k <> fzero.
Definition no_cancellation {P : PrimeField} (alpha beta : P) (wit : PState P) : Prop :=
  (forall i, occurs part_A wit (Aux i) -> effective wit (fun k => coefficient (part_A k) (Aux i))) /\
  (forall v, occurs part_B wit v -> effective wit (fun k => coefficient (part_B k) v)) /\
  (forall i, i < List.length (p_aux wit) ->
    effective wit (fun k => (beta * coefficient (part_A k) (Aux i) + alpha * coefficient (part_B k) (Aux i) + coefficient (part_C k) (Aux i))%F)).

(** Keys are generated, and with them every proof is created and verifies, whatever its randomness. *)
Definition all_goes_well {P : PrimeField} {E : Engine P} (w w' : Worker) (ln_ceil : Z -> nat) (keygen_circuit prover_circuit : prog P (res unit))
    (g1 : E_G1 E) (g2 : E_G2 E) (alpha beta gamma delta : P) (inputs : list P) (tau : P) : Prop :=
  exists params, generate_parameters w keygen_circuit g1 g2 alpha beta gamma delta tau = Done (Ok params) /\
    forall r s, exists proof, create_proof w' ln_ceil prover_circuit params r s = Done (Ok proof) /\
      verify_proof (prepare_verifying_key (p_vk params)) proof inputs = Done (Ok tt).

(** * C54 *)
Section C54.
Context {P : PrimeField} {E : Engine P}.
Add Field PFc54 : (F_field P).

Lemma interpolates e (U : list P) (cons : list (Constraint P)) (f : Constraint P -> P) k :
  List.length cons <= 2 ^ e -> PropDomain.has_values (domain_generator e) (2 ^ e) U (map f cons) -> In k cons -> 
  exists j, j < 2 ^ e /\ nth_error cons j = Some k /\ peval U (fpow (domain_generator e) j) = f k.
Proof.
  intros Hl [_ HU] Hk. apply In_nth_error in Hk as [j Hj]. assert (j < List.length cons) by (apply nth_error_Some; congruence).
  exists j. split; [lia|]. split; auto. change (PropDomain.eval U (fpow (domain_generator e) j) = f k). rewrite HU by lia.
  apply nth_error_nth. now rewrite nth_error_map, Hj.
Qed.

Theorem C54_few_failures (w w' : Worker) (ln_ceil : Z -> nat) (keygen_circuit prover_circuit : prog P (res unit)) s t inst wit e
    (g1 : E_G1 E) (g2 : E_G2 E) (alpha beta gamma delta : P) (bad : list P) :
  wf_worker w -> wf_worker w' -> sane_ln_ceil ln_ceil ->
  synthesize_keypair keygen_circuit = Done (Ok s) -> describes keygen_circuit inst ->
  synthesize_prover prover_circuit = Done (Ok t) -> assigns prover_circuit wit ->
  same_circuit inst wit -> addressable wit -> satisfying wit ->
  PropDomain.domain_exponent (List.length (k_cons inst)) e -> e < two_adicity P ->
  (w = Single -> 0 < e /\ 0 < k_aux inst) ->
  g1 <> gzero -> g2 <> gzero -> gamma <> fzero -> delta <> fzero -> no_cancellation alpha beta wit ->
  NoDup bad ->
  (forall tau, In tau bad -> ~ all_goes_well w w' ln_ceil keygen_circuit prover_circuit g1 g2 alpha beta gamma delta (public_inputs wit) tau) ->
  List.length bad <= 2 ^ e + 1 + (2 * k_inputs inst + 3 * k_aux inst) * (2 ^ e - 1).
Proof.
  intros Hw Hw' Hln Es Hinst Et Hwit Hsame Haddr Hsat He HS Hsingle H1 H2 Hg Hd (NA & NB & NL) Hn Hbad.
  destruct (polys_exist inst e HS) as (U & V & W & HQ). pose proof Hsame as (S1 & S2 & S3). pose proof (proj1 He) as Hl.
  assert (Hm : 0 < 2 ^ e) by (apply Nat.neq_0_lt_0, Nat.pow_nonzero; lia).
  set (m := 2 ^ e) in *.
  set (ps := [x_poly; minus_one m] ++ map (fun i => U (Input i)) (seq 0 (k_inputs inst)) ++ map (fun i => not_zero (U (Aux i))) (seq 0 (k_aux inst))
             ++ map (fun i => not_zero (V (Input i))) (seq 0 (k_inputs inst)) ++ map (fun i => not_zero (V (Aux i))) (seq 0 (k_aux inst))
             ++ map (fun i => lin m beta alpha (U (Aux i)) (V (Aux i)) (W (Aux i))) (seq 0 (k_aux inst))).
  assert (LU : forall v, List.length (U v) <= m) by (intros v; apply (HQ v)).
  assert (LV : forall v, List.length (V v) <= m) by (intros v; apply (HQ v)).
  assert (LW : forall v, List.length (W v) <= m) by (intros v; apply (HQ v)).
  assert (CU : forall v, PropDomain.has_values (domain_generator e) m (U v) (map (fun k => coefficient (part_A k) v) (k_cons inst))).
  { intros v. destruct (HQ v) as (H & _ & _). unfold column_A in H. erewrite map_ext; [exact H|]. intros [[a b] c]. reflexivity. }
  assert (CV : forall v, PropDomain.has_values (domain_generator e) m (V v) (map (fun k => coefficient (part_B k) v) (k_cons inst))).
  { intros v. destruct (HQ v) as (_ & H & _). unfold column_B in H. erewrite map_ext; [exact H|]. intros [[a b] c]. reflexivity. }
  assert (CW : forall v, PropDomain.has_values (domain_generator e) m (W v) (map (fun k => coefficient (part_C k) v) (k_cons inst))).
  { intros v. destruct (HQ v) as (_ & _ & H). unfold column_C in H. erewrite map_ext; [exact H|]. intros [[a b] c]. reflexivity. }
  (* the input polynomials do not vanish *)
  assert (ZI : forall i, i < k_inputs inst -> exists x, peval (U (Input i)) x <> fzero).
  { intros i Hi. assert (Hk : In (([(Input i, fone)], [], []) : Constraint P) (k_cons inst)).
    { rewrite S3. unfold assigns, synthesize in Hwit. destruct (run _ _ _) as [[[r|] s0]|]; cbn [obind] in Hwit; try discriminate.
      rewrite honest_enforce_inputs in Hwit. cbn [obind] in Hwit. injection Hwit as <-. cbn [p_cons p_inputs] in *. apply in_or_app. right.
      apply in_map_iff. exists i. split; [reflexivity|]. apply in_seq. cbn [p_inputs] in S1. lia. }
    destruct (interpolates e _ _ _ _ Hl (CU (Input i)) Hk) as (j & _ & _ & Ej). eexists. rewrite Ej. cbn. rewrite Nat.eqb_refl.
    replace (1 + 0)%F with (fone : P) by ring. apply f_1_neq_0. }
  assert (ZU : forall i, i < k_aux inst -> occurs part_A wit (Aux i) -> exists x, peval (U (Aux i)) x <> fzero).
  { intros i Hi Ho. destruct (NA i Ho) as (k & Hk & Hc). rewrite <- S3 in Hk. destruct (interpolates e _ _ _ _ Hl (CU (Aux i)) Hk) as (j & _ & _ & Ej). eexists. now rewrite Ej. }
  assert (ZV : forall v, occurs part_B wit v -> exists x, peval (V v) x <> fzero).
  { intros v Ho. destruct (NB v Ho) as (k & Hk & Hc). rewrite <- S3 in Hk. destruct (interpolates e _ _ _ _ Hl (CV v) Hk) as (j & _ & _ & Ej). eexists. now rewrite Ej. }
  assert (ZL : forall i, i < k_aux inst -> exists x, peval (lin m beta alpha (U (Aux i)) (V (Aux i)) (W (Aux i))) x <> fzero).
  { intros i Hi. rewrite S2 in Hi. destruct (NL i Hi) as (k & Hk & Hc). rewrite <- S3 in Hk. destruct (interpolates e _ _ _ _ Hl (CU (Aux i)) Hk) as (j & Hj & Nj & Ej).
    exists (fpow (domain_generator e) j). rewrite lin_eval by auto.
    assert (B : forall (X : list P) f, PropDomain.has_values (domain_generator e) m X (map f (k_cons inst)) -> peval X (fpow (domain_generator e) j) = f k).
    { intros X f [_ H]. change (PropDomain.eval X (fpow (domain_generator e) j) = f k). rewrite H by auto. apply nth_error_nth. now rewrite nth_error_map, Nj. }
    rewrite (B _ _ (CU (Aux i))), (B _ _ (CV (Aux i))), (B _ _ (CW (Aux i))). exact Hc. }
  assert (EZ : forall p, (exists x, peval p x <> (fzero : P)) -> ~ all_zero p) by (intros p [x Hx] F; apply Hx, all_zero_eval, F).
  assert (Hps : forall p, In p ps -> ~ all_zero p).
  { intros p Hp. unfold ps in Hp. rewrite !in_app_iff, !in_map_iff in Hp. destruct Hp as [[<-|[<-|[]]]|[(i & <- & Hi)|[(i & <- & Hi)|[(i & <- & Hi)|[(i & <- & Hi)|(i & <- & Hi)]]]]].
    - apply EZ. exists fone. rewrite x_eval. apply f_1_neq_0.
    - unfold minus_one, all_zero. rewrite Forall_forall. intros F. apply (@f_1_neq_0 P), F. right. apply in_or_app. right. now left.
    - apply in_seq in Hi. apply EZ, ZI. lia.
    - apply not_zero_ok.
    - apply not_zero_ok.
    - apply not_zero_ok.
    - apply in_seq in Hi. apply EZ, ZL. lia. }
  assert (Key : forall tau, existsb (root_of tau) ps = false -> all_goes_well w w' ln_ceil keygen_circuit prover_circuit g1 g2 alpha beta gamma delta (public_inputs wit) tau).
  { intros tau Hx. assert (R : forall p, In p ps -> peval p tau <> fzero).
    { intros p Hp Ez. assert (existsb (root_of tau) ps = true); [|congruence]. apply existsb_exists. exists p. split; auto. unfold root_of. rewrite Ez. destruct (feqb_spec (fzero : P) fzero); congruence. }
    clear Hx. unfold ps in R.
    assert (R0 : tau <> fzero) by (rewrite <- (x_eval tau); apply R; now left).
    assert (R1 : fpow tau m <> fone).
    { intros Eq. apply (R (minus_one m)); [right; now left|]. rewrite minus_one_eval, Eq by auto. ring. }
    assert (R2 : forall i, i < k_inputs inst -> peval (U (Input i)) tau <> fzero).
    { intros i Hi. apply R. rewrite !in_app_iff. right. left. apply in_map_iff. exists i. split; auto. apply in_seq. lia. }
    assert (R3 : forall i, i < k_aux inst -> occurs part_A wit (Aux i) -> peval (U (Aux i)) tau <> fzero).
    { intros i Hi Ho. destruct (ZU i Hi Ho) as [x Hxx]. rewrite <- (not_zero_id _ _ Hxx). apply R. rewrite !in_app_iff. right. right. left. apply in_map_iff. exists i. split; auto. apply in_seq. lia. }
    assert (R4 : forall i, i < k_inputs inst -> occurs part_B wit (Input i) -> peval (V (Input i)) tau <> fzero).
    { intros i Hi Ho. destruct (ZV _ Ho) as [x Hxx]. rewrite <- (not_zero_id _ _ Hxx). apply R. rewrite !in_app_iff. do 3 right. left. apply in_map_iff. exists i. split; auto. apply in_seq. lia. }
    assert (R5 : forall i, i < k_aux inst -> occurs part_B wit (Aux i) -> peval (V (Aux i)) tau <> fzero).
    { intros i Hi Ho. destruct (ZV _ Ho) as [x Hxx]. rewrite <- (not_zero_id _ _ Hxx). apply R. rewrite !in_app_iff. do 4 right. left. apply in_map_iff. exists i. split; auto. apply in_seq. lia. }
    assert (R6 : forall i, i < k_aux inst -> (beta * peval (U (Aux i)) tau + alpha * peval (V (Aux i)) tau + peval (W (Aux i)) tau)%F <> fzero).
    { intros i Hi. rewrite <- (lin_eval m) by auto. apply R. rewrite !in_app_iff. do 5 right. apply in_map_iff. exists i. split; auto. apply in_seq. lia. }
    clear R.
    destruct (generate_cases g1 g2 alpha beta gamma delta tau w keygen_circuit s Hw Es) as (ks & e' & Ek & He' & Hl' & _ & G & _).
    unfold describes in *. assert (ks = inst) by congruence. subst ks.
    assert (e' = e) by (apply (least_pow_unique (List.length (k_cons inst))); now apply PropDomain.domain_exponent_least). subst e'.
    assert (Ex : existsb is_identity (p_l (params_of E g1 g2 alpha beta gamma delta tau e inst)) = false).
    { destruct (existsb _ _) eqn:Ex; auto. exfalso. apply (existsb_l g1 g2 alpha beta gamma delta tau inst e U V W HS Hl Hg Hd HQ) in Ex as (i & Hi & Ei).
      apply gmul_zero_iff in Ei; [|exact H1]. apply (R6 i Hi). change (PropDomain.eval ?p ?x) with (peval p x) in Ei.
      assert (X : forall y : P, (y * finv delta)%F = fzero -> y = fzero).
      { intros y Hy. replace y with ((y * finv delta) * delta)%F by (field; auto). rewrite Hy. ring. }
      now apply X. }
    rewrite Ex in G. destruct (Nat.ltb_spec e (two_adicity P)) as [_|]; [|lia]. cbn [negb] in G.
    destruct (feqb_spec gamma fzero); [contradiction|]. destruct (feqb_spec delta fzero); [contradiction|]. cbn [orb] in G.
    assert (Gok : generate_parameters w keygen_circuit g1 g2 alpha beta gamma delta tau = Done (Ok (params_of E g1 g2 alpha beta gamma delta tau e inst))).
    { apply G. intros Hs. destruct (Hsingle Hs) as [A B]. split; auto. destruct e; [lia|]. cbn [Nat.pow]. assert (2 ^ e <> 0) by (apply Nat.pow_nonzero; lia). lia. }
    clear G. eexists. split; [exact Gok|]. intros r s0.
    destruct (C37_prover_succeeds_iff g1 g2 alpha beta gamma delta tau w w' ln_ceil keygen_circuit prover_circuit inst wit _ t e U V W r s0
      Hw Hw' Hln Gok Hinst Hwit Hsame Haddr Et H1 H2 He R0 R1 HQ) as [[_ X] _].
    destruct X as (proof & Ec).
    { rewrite S1 in R2, R4. rewrite S2 in R3, R5. split; [exact R2|]. split; [exact R3|]. split; [exact R4|exact R5]. }
    exists proof. split; [exact Ec|].
    exact (C37_proofs_verify g1 g2 alpha beta gamma delta tau w w' ln_ceil _ _ inst wit _ r s0 proof Hw Hw' Hln Gok Hinst Hwit Hsame Haddr Hsat Ec). }
  assert (Len : List.length bad <= list_sum (map (fun p : list P => List.length p - 1) ps)).
  { apply few_bad; auto. intros tau Hin. destruct (existsb (root_of tau) ps) eqn:Ex; auto. exfalso. apply (Hbad tau Hin), Key, Ex. }
  assert (LS : forall (f : nat -> list P) l, (forall i, List.length (f i) <= m) -> list_sum (map (fun p => List.length p - 1) (map f l)) <= List.length l * (m - 1)).
  { intros f l Hf. induction l as [|i l IH]; [cbn; lia|]. cbn [map List.length].
    change (list_sum (?x :: ?y)) with (x + list_sum y). specialize (Hf i). cbn [Nat.mul]. lia. }
  unfold ps in Len. rewrite !map_app, !list_sum_app in Len.
  change (list_sum (map (fun p : list P => List.length p - 1) [x_poly; minus_one m])) with (1 + (List.length (minus_one (P := P) m) - 1 + 0)) in Len. rewrite minus_one_length in Len by auto.
  pose proof (LS (fun i => U (Input i)) (seq 0 (k_inputs inst)) (fun i => LU _)) as B1.
  pose proof (LS (fun i => not_zero (U (Aux i))) (seq 0 (k_aux inst)) (fun i => not_zero_length _ m Hm (LU _))) as B2.
  pose proof (LS (fun i => not_zero (V (Input i))) (seq 0 (k_inputs inst)) (fun i => not_zero_length _ m Hm (LV _))) as B3.
  pose proof (LS (fun i => not_zero (V (Aux i))) (seq 0 (k_aux inst)) (fun i => not_zero_length _ m Hm (LV _))) as B4.
  pose proof (LS (fun i => lin m beta alpha (U (Aux i)) (V (Aux i)) (W (Aux i))) (seq 0 (k_aux inst)) (fun i => Nat.eq_le_incl _ _ (lin_length m beta alpha _ _ _))) as B5.
  rewrite seq_length in *. clearbody m. clear - Len B1 B2 B3 B4 B5. nia.
Qed.
(** The same for a straight-line circuit. *)
Theorem C54_calls (w w' : Worker) (ln_ceil : Z -> nat) (calls : list (call P)) wit e (g1 : E_G1 E) (g2 : E_G2 E) (alpha beta gamma delta : P) (bad : list P) :
  wf_worker w -> wf_worker w' -> sane_ln_ceil ln_ceil -> scoped calls ->
  assigns (circuit_of calls) wit -> addressable wit -> satisfying wit ->
  PropDomain.domain_exponent (List.length (p_cons wit)) e -> e < two_adicity P ->
  (w = Single -> 0 < e /\ p_aux wit <> []) ->
  g1 <> gzero -> g2 <> gzero -> gamma <> fzero -> delta <> fzero -> no_cancellation alpha beta wit ->
  NoDup bad ->
  (forall tau, In tau bad -> ~ all_goes_well w w' ln_ceil (circuit_of calls) (circuit_of calls) g1 g2 alpha beta gamma delta (public_inputs wit) tau) ->
  List.length bad <= 2 ^ e + 1 + (2 * List.length (p_inputs wit) + 3 * List.length (p_aux wit)) * (2 ^ e - 1).
Proof.
  intros Hw Hw' Hln Hsc Ha Hadd Hs He HS H0 H1 H2 Hg Hd Hn Hnd Hbad.
  destruct (proj1 (C06_keygen_defined calls) Hsc) as [ks Ek]. destruct (prover_defined _ _ Ek) as [t Et].
  pose proof (shape_synth calls) as D. pose proof (honest_synth calls) as A. unfold synthesize_shape, shape_new in D. unfold synthesize_honest, honest_new in A.
  pose proof Ha as Ha'. unfold assigns in Ha'. rewrite A in Ha'. injection Ha' as Ha'. subst wit.
  cbn [p_inputs p_aux p_cons] in *.
  refine (C54_few_failures w w' ln_ceil _ _ ks t _ _ e g1 g2 alpha beta gamma delta bad Hw Hw' Hln Ek D Et Ha _ Hadd Hs He HS _ H1 H2 Hg Hd Hn Hnd Hbad).
  - repeat split.
  - intros E1. destruct (H0 E1) as [X Y]. split; auto. cbn [k_aux]. destruct (the_aux calls); [contradiction|cbn; lia].
Qed.
End C54.
Print Assumptions C54_few_failures.
Print Assumptions C54_calls.

(** The circuit of [C06_ex] on the field of the test engine: at most 44 of the 64513 values of [tau] are bad; 13 is not. *)
Example C54_ex :
  (forall bad : list Fr64513, NoDup bad ->
    (forall tau, In tau bad -> ~ all_goes_well (E := DummyEngine Fr64513) (Multicore 3) (Multicore 2) (fun _ => 3) (circuit_of c06_calls) (circuit_of c06_calls)
                                   fone (ofZ 2) (ofZ 3) (ofZ 5) (ofZ 7) (ofZ 11) [ofZ 30] tau) ->
    List.length bad <= 44) /\
  match generate_parameters (E := DummyEngine Fr64513) (Multicore 3) (circuit_of c06_calls) fone (ofZ 2) (ofZ 3) (ofZ 5) (ofZ 7) (ofZ 11) (ofZ 13) with Done (Ok _) => true | _ => false end = true /\
  match generate_parameters (E := DummyEngine Fr64513) (Multicore 3) (circuit_of c06_calls) fone (ofZ 2) (ofZ 3) (ofZ 5) (ofZ 7) (ofZ 11) (ofZ 1) with Done (Err UnconstrainedVariable) => true | _ => false end = true.
Proof.
  split; [|split; vm_compute; reflexivity].
  intros bad Hn Hbad.
  destruct C06_ex as [Sc _]. pose proof (honest_synth c06_calls) as A.
  assert (NZ : forall x : Fr64513, toZ x <> 0%Z -> x <> fzero) by (intros x H ->; apply H; reflexivity).
  refine (C54_calls (Multicore 3) (Multicore 2) (fun _ => 3) c06_calls _ 2 _ _ _ _ _ _ bad _ _ _ Sc A _ _ _ _ _ _ _ _ _ _ Hn Hbad).
  1, 2: cbn; lia.
  1: intros z; cbn; lia.
  - unfold addressable. cbn. lia.
  - intros a b c Hin. apply toZ_inj.
    repeat (destruct Hin as [[= <- <- <-]|Hin]; [vm_compute; reflexivity|]). destruct Hin.
  - split; [cbn; lia|]. intros e' He'. assert (e' = 0 \/ e' = 1) as [-> | ->] by lia; cbn; lia.
  - cbn. lia.
  - discriminate.
  - apply NZ; vm_compute; discriminate.
  - apply NZ; vm_compute; discriminate.
  - apply NZ; vm_compute; discriminate.
  - apply NZ; vm_compute; discriminate.
  - set (k0 := ([(Aux 0, fone); (Aux 0, fone)], [(Aux 1, fone)], [(Input 1, fone)]) : Constraint Fr64513).
    set (k1 := ([(Aux 2, fone)], [(Input 0, fone)], [(Input 0, ofZ 7)]) : Constraint Fr64513).
    split; [|split].
    + intros i (k & c & Hk & Hin & _). destruct Hk as [<-|[<-|[<-|[<-|[]]]]]; cbn in Hin;
        repeat (destruct Hin as [Q|Hin]; [try discriminate Q; injection Q as <- <-; first [exists k0; split; [now left|apply NZ; vm_compute; discriminate]|exists k1; split; [right; now left|apply NZ; vm_compute; discriminate]]|]); destruct Hin.
    + intros v (k & c & Hk & Hin & _). destruct Hk as [<-|[<-|[<-|[<-|[]]]]]; cbn in Hin;
        repeat (destruct Hin as [Q|Hin]; [try discriminate Q; injection Q as <- <-; first [exists k0; split; [now left|apply NZ; vm_compute; discriminate]|exists k1; split; [right; now left|apply NZ; vm_compute; discriminate]]|]); destruct Hin.
    + intros i Hi. change (i < 3) in Hi. destruct i as [|[|[|i]]]; [exists k0; split; [now left|]|exists k0; split; [now left|]|exists k1; split; [right; now left|]|lia]; apply NZ; vm_compute; discriminate.
Qed.
