(** Properties C37, C39, C46, C47: Groth16 proofs. *)
From Coq Require Import String.
From Coq Require Import ZArith List Bool Lia Field.
From Verif Require Import Prelude PrimeField Fields FModule Circuit Multicore Domain FFTProof DomainProof Quotient Multiexp MultiexpProof PropMultiexp Assembly AssemblyProof PropAssembly Groth16 GeneratorProof ProverProof PropGenerator.
From Verif Require PropDomain.
Import ListNotations.
Local Open Scope nat_scope.

(** ** Specification *)

(** Run by the prover, the circuit assigns these values and enforces these constraints (those for the inputs included). *)
Definition assigns {P : PrimeField} (circuit : prog P (res unit)) (wit : PState P) : Prop :=
  synthesize (HonestCS P) {| p_inputs := []; p_aux := []; p_cons := [] |} (fun s => List.length (p_inputs s)) circuit = Done (Ok wit).

(** The instance and the assignment are of the same circuit. *)
Definition same_circuit {P : PrimeField} (inst : KState P) (wit : PState P) : Prop :=
  k_inputs inst = List.length (p_inputs wit) /\ k_aux inst = List.length (p_aux wit) /\ k_cons inst = p_cons wit.

Definition value {P : PrimeField} (wit : PState P) (v : Var) : P :=
  match v with Input i => nth i (p_inputs wit) fzero | Aux i => nth i (p_aux wit) fzero end.
Definition satisfying {P : PrimeField} (wit : PState P) : Prop :=
  forall a b c, In (a, b, c) (p_cons wit) -> (eval (value wit) a * eval (value wit) b)%F = eval (value wit) c.

(** The public inputs, without the constant one. *)
Definition public_inputs {P : PrimeField} (wit : PState P) : list P := tl (p_inputs wit).

(** Fewer than 2^32 variables of either kind and at most 2^32 constraints (see [exponents.len() as u32], src/multiexp.rs:319). *)
Definition addressable {P : PrimeField} (wit : PState P) : Prop :=
  (Z.of_nat (List.length (p_inputs wit)) < 2 ^ 32)%Z /\ (Z.of_nat (List.length (p_aux wit)) < 2 ^ 32)%Z /\
  (Z.of_nat (List.length (p_cons wit)) <= 2 ^ 32)%Z.

(** A variable occurs with a non-zero coefficient. *)
Definition occurs {P : PrimeField} (part : Constraint P -> LC P) (wit : PState P) (v : Var) : Prop :=
  exists k c, In k (p_cons wit) /\ In (v, c) (part k) /\ c <> fzero.
Definition part_A {P : PrimeField} (k : Constraint P) : LC P := fst (fst k).
Definition part_B {P : PrimeField} (k : Constraint P) : LC P := snd (fst k).

(** The prover's bookkeeping agrees with the elements present in the queries: no polynomial it counts vanishes at [tau]. *)
Definition bookkeeping_agrees {P : PrimeField} (wit : PState P) (U V : Var -> list P) (tau : P) : Prop :=
  (forall i, i < List.length (p_inputs wit) -> PropDomain.eval (U (Input i)) tau <> fzero) /\
  (forall i, i < List.length (p_aux wit) -> occurs part_A wit (Aux i) -> PropDomain.eval (U (Aux i)) tau <> fzero) /\
  (forall i, i < List.length (p_inputs wit) -> occurs part_B wit (Input i) -> PropDomain.eval (V (Input i)) tau <> fzero) /\
  (forall i, i < List.length (p_aux wit) -> occurs part_B wit (Aux i) -> PropDomain.eval (V (Aux i)) tau <> fzero).

(** ** Auxiliary *)
Section Aux.
Context {P : PrimeField}.
Add Field PFpgr : (F_field P).
Context {E : Engine P} (g1 : E_G1 E) (g2 : E_G2 E) (alpha beta gamma delta tau : P).

Lemma mul_0_r_ (x : P) : (x * 0)%F = 0%F.
Proof. ring. Qed.
Lemma same_shape_of inst (wit : PState P) : same_circuit inst wit -> inst = shape_of wit.
Proof. intros (H1 & H2 & H3). destruct inst. cbn in *. unfold shape_of. congruence. Qed.

Lemma pow2_cap len e : least_pow len e -> (Z.of_nat len <= 2 ^ 32)%Z -> (Z.of_nat (2 ^ e) <= 2 ^ 32)%Z.
Proof.
  intros [_ H] Hl. assert (e <= 32).
  { apply H. apply Nat2Z.inj_le. rewrite Nat2Z.inj_pow. exact Hl. }
  rewrite Nat2Z.inj_pow. apply Z.pow_le_mono_r; lia.
Qed.

Lemma assigns_one circuit (wit : PState P) : assigns circuit wit -> exists rest, p_inputs wit = fone :: rest.
Proof.
  unfold assigns, synthesize, bindq, cs_alloc_input. cbn [bind run m_alloc_input HonestCS obind fst snd p_inputs p_aux p_cons app].
  destruct (run (HonestCS P) circuit _) as [[[r|] s]|] eqn:Er; cbn [obind]; try discriminate. apply honest_extends in Er as ((l & El) & _). cbn [p_inputs] in El.
  rewrite honest_enforce_inputs. cbn [obind]. intros [= <-]. cbn [p_inputs]. rewrite El. cbn. eauto.
Qed.

Lemma satisfying_coef t (wit : PState P) : PInv t wit -> satisfying wit ->
  forall k, (coef (pa_a t) k * coef (pa_b t) k)%F = coef (pa_c t) k.
Proof.
  intros I Hs k. unfold coef. rewrite (pi_a _ _ I), (pi_b _ _ I), (pi_c _ _ I).
  destruct (nth_error (p_cons wit) k) as [[[a b] c]|] eqn:Ek.
  - assert (N : forall sel, nth k (map (fun c => eval (asgl (p_inputs wit) (p_aux wit)) (sel c)) (p_cons wit)) fzero = eval (value wit) (sel (a, b, c) : LC P)).
    { intros sel. apply nth_error_nth. erewrite map_nth_error by exact Ek. reflexivity. }
    rewrite !N. apply Hs. eapply nth_error_In; eauto.
  - apply nth_error_None in Ek. rewrite !nth_overflow by (rewrite map_length; auto). ring.
Qed.

Lemma mentions_occurs sel (wit : PState P) v : mentions sel v (p_cons wit) <-> occurs sel wit v.
Proof.
  unfold mentions, occurs. rewrite Exists_exists. unfold lc_mentions. split.
  - intros (k & Hk & c & Hc & Hin). exists k, c. auto.
  - intros (k & c & Hk & Hin & Hc). exists k. split; auto. exists c. auto.
Qed.

Variables (w w' : Worker) (ln_ceil : Z -> nat) (keygen_circuit prover_circuit : prog P (res unit)) (inst : KState P) (wit : PState P) (params : Parameters E).
Hypothesis Hw : wf_worker w.
Hypothesis Hw' : wf_worker w'.
Hypothesis Hln : sane_ln_ceil ln_ceil.
Hypothesis Hgen : generate_parameters w keygen_circuit g1 g2 alpha beta gamma delta tau = Done (Ok params).
Hypothesis Hinst : describes keygen_circuit inst.
Hypothesis Hwit : assigns prover_circuit wit.
Hypothesis Hsame : same_circuit inst wit.
Hypothesis Haddr : addressable wit.

Lemma setup t : synthesize_prover prover_circuit = Done (Ok t) ->
  exists e, PropDomain.domain_exponent (List.length (k_cons inst)) e /\ PInv t wit /\ 
    Forall (con_ok (List.length (p_inputs wit)) (List.length (p_aux wit))) (p_cons wit) /\
    e < two_adicity P /\ least_pow (List.length (p_cons wit)) e /\ (Z.of_nat (2 ^ e) <= 2 ^ 32)%Z /\ gamma <> fzero /\ delta <> fzero /\
    params = params_of E g1 g2 alpha beta gamma delta tau e (shape_of wit) /\ existsb is_identity (p_l params) = false.
Proof.
  intros Et. destruct (generate_ok_inv g1 g2 alpha beta gamma delta tau w keygen_circuit params Hw Hgen) as (s & ks & e & Es & KI & Ek & He & Hl & HS & Hg & Hd & Ep & Ex).
  unfold describes in *. rewrite Hinst in Ek. assert (ks = inst) by congruence. subst ks. pose proof (same_shape_of _ _ Hsame) as Ei.
  destruct (synthesize_prover_spec _ _ Et) as (ps & Eps & PI). unfold synthesize_honest, honest_new in Eps. unfold assigns in Hwit. rewrite Hwit in Eps.
  assert (ps = wit) by congruence. subst ps. exists e. split; [exact He|]. split; [exact PI|].
  rewrite Ei in He, KI. cbn [shape_of k_cons] in He. apply PropDomain.domain_exponent_least in He.
  split; [exact (ki_ok _ _ KI)|]. split; [exact HS|]. split; [exact He|]. split; [eapply pow2_cap; [exact He|apply Haddr]|].
  split; [exact Hg|]. split; [exact Hd|]. split; [now rewrite Ep, Ei|exact Ex].
Qed.

Lemma agree_aligned t e U V W : PInv t wit -> e < two_adicity P -> List.length (p_cons wit) <= 2 ^ e -> g1 <> gzero -> g2 <> gzero -> qap_polynomials inst e U V W ->
  (aligned E g1 g2 alpha beta gamma delta tau t wit e <-> bookkeeping_agrees wit U V tau).
Proof.
  intros PI HS Hl H1 H2 HQ. rewrite (aligned_iff E g1 g2 alpha beta gamma delta tau t wit e PI HS H1 H2).
  pose proof (same_shape_of _ _ Hsame) as Ei.
  assert (QU : forall v, qap tau e sel_a (p_cons wit) v = PropDomain.eval (U v) tau).
  { intros v. apply qap_eval; auto. destruct (HQ v) as (H & _ & _). unfold column_A in H. rewrite Ei in H. cbn [shape_of k_cons] in H. now rewrite (proj1 (map_sel (fun lc => coefficient lc v) _)) in H. }
  assert (QV : forall v, qap tau e sel_b (p_cons wit) v = PropDomain.eval (V v) tau).
  { intros v. apply qap_eval; auto. destruct (HQ v) as (_ & H & _). unfold column_B in H. rewrite Ei in H. cbn [shape_of k_cons] in H. now rewrite (proj1 (proj2 (map_sel (fun lc => coefficient lc v) _))) in H. }
  unfold bookkeeping_agrees. 
  split; intros (A & B & C & D); (split; [|split; [|split]]).
  - intros i Hi. rewrite <- QU. auto.
  - intros i Hi Ho. rewrite <- QU. apply B; auto. now apply mentions_occurs.
  - intros i Hi Ho. rewrite <- QV. apply C; auto. now apply mentions_occurs.
  - intros i Hi Ho. rewrite <- QV. apply D; auto. now apply mentions_occurs.
  - intros i Hi. rewrite QU. auto.
  - intros i Hi Ho. rewrite QU. apply B; auto. now apply mentions_occurs.
  - intros i Hi Ho. rewrite QV. apply C; auto. now apply mentions_occurs.
  - intros i Hi Ho. rewrite QV. apply D; auto. now apply mentions_occurs.
Qed.

Lemma create_ok_inv r s proof : create_proof w' ln_ceil prover_circuit params r s = Done (Ok proof) ->
  exists t e h, synthesize_prover prover_circuit = Done (Ok t) /\ PInv t wit /\ 
    Forall (con_ok (List.length (p_inputs wit)) (List.length (p_aux wit))) (p_cons wit) /\ e < two_adicity P /\ least_pow (List.length (p_cons wit)) e /\
    PropDomain.domain_exponent (List.length (k_cons inst)) e /\ gamma <> fzero /\ delta <> fzero /\
    params = params_of E g1 g2 alpha beta gamma delta tau e (shape_of wit) /\
    prover_h w' (pa_a t) (pa_b t) (pa_c t) = Done (Ok h) /\ List.length h = 2 ^ e - 1 /\
    aligned E g1 g2 alpha beta gamma delta tau t wit e /\
    proof = proof_of E g1 g2 alpha beta delta tau t wit e r s h.
Proof.
  intros Ec. destruct (synthesize_prover prover_circuit) as [[t|err]|] eqn:Et; [|unfold create_proof in Ec; rewrite Et in Ec; discriminate..].
  destruct (setup t Et) as (e & He & PI & Hok & HS & Hle & Hcap & Hg & Hd & Ep & Ex). destruct Haddr as (A1 & A2 & A3).
  destruct (create_spec E g1 g2 alpha beta gamma delta tau w' ln_ceil prover_circuit t wit e Hw' Hln Et PI Hok HS Hle Hcap A1 A2 r s) as (h & Eh & Lh & X).
  rewrite <- Ep in X. exists t, e, h.
  destruct X as [[_ X]|[_ [(Al & _ & _ & X)|(_ & err & X)]]]; rewrite Ec in X; [discriminate| |discriminate]. split; [reflexivity|].
  repeat (split; [assumption|]). congruence.
Qed.
End Aux.

(** * C37 *)
Section C37.
Context {P : PrimeField} {E : Engine P} (g1 : E_G1 E) (g2 : E_G2 E) (alpha beta gamma delta tau : P).

(** Every proof created from a satisfying witness verifies.  [keygen_circuit] and [prover_circuit] are the circuit without and with its
    witness; the worker threads and the logarithm used for window sizes are arbitrary. *)
Theorem C37_proofs_verify (w w' : Worker) (ln_ceil : Z -> nat) (keygen_circuit prover_circuit : prog P (res unit)) inst wit params r s proof :
  wf_worker w -> wf_worker w' -> sane_ln_ceil ln_ceil ->
  generate_parameters w keygen_circuit g1 g2 alpha beta gamma delta tau = Done (Ok params) ->
  describes keygen_circuit inst -> assigns prover_circuit wit -> same_circuit inst wit -> addressable wit ->
  satisfying wit ->
  create_proof w' ln_ceil prover_circuit params r s = Done (Ok proof) ->
  verify_proof (prepare_verifying_key (p_vk params)) proof (public_inputs wit) = Done (Ok tt).
Proof.
  intros Hw Hw' Hln Hgen Hinst Hwit Hsame Haddr Hsat Ec.
  destruct (create_ok_inv g1 g2 alpha beta gamma delta tau w w' ln_ceil keygen_circuit prover_circuit inst wit params Hw Hw' Hln Hgen Hinst Hwit Hsame Haddr r s proof Ec)
    as (t & e & h & Et & PI & Hok & HS & Hle & _ & Hg & Hd & Ep & Eh & Lh & _ & ->).
  rewrite Ep. apply (proof_verifies E g1 g2 alpha beta gamma delta tau w' t wit e Hw' PI Hok HS Hle (satisfying_coef t wit PI Hsat) (assigns_one _ _ Hwit) Hg Hd r s h Eh).
Qed.

(** The prover succeeds exactly when its bookkeeping agrees with the non-zero query elements, for toxic waste where no [h] element is the
    identity.  (No hypothesis on the witness: the prover does not check it.) *)
Theorem C37_prover_succeeds_iff (w w' : Worker) (ln_ceil : Z -> nat) (keygen_circuit prover_circuit : prog P (res unit)) inst wit params t e U V W r s :
  wf_worker w -> wf_worker w' -> sane_ln_ceil ln_ceil ->
  generate_parameters w keygen_circuit g1 g2 alpha beta gamma delta tau = Done (Ok params) ->
  describes keygen_circuit inst -> assigns prover_circuit wit -> same_circuit inst wit -> addressable wit ->
  synthesize_prover prover_circuit = Done (Ok t) ->
  g1 <> gzero -> g2 <> gzero -> PropDomain.domain_exponent (List.length (k_cons inst)) e -> tau <> fzero -> fpow tau (2 ^ e) <> fone ->
  qap_polynomials inst e U V W ->
  ((exists proof, create_proof w' ln_ceil prover_circuit params r s = Done (Ok proof)) <-> bookkeeping_agrees wit U V tau) /\
  (~ bookkeeping_agrees wit U V tau -> exists err, create_proof w' ln_ceil prover_circuit params r s = Done (Err err)).
Proof.
  intros Hw Hw' Hln Hgen Hinst Hwit Hsame Haddr Et H1 H2 He0 Ht Htm HQ.
  destruct (setup g1 g2 alpha beta gamma delta tau w keygen_circuit prover_circuit inst wit params Hw Hgen Hinst Hwit Hsame Haddr t Et)
    as (e' & He & PI & Hok & HS & Hle & Hcap & Hg & Hd & Ep & Ex).
  assert (e' = e) by (apply (least_pow_unique (List.length (k_cons inst))); now apply PropDomain.domain_exponent_least). subst e'.
  pose proof Haddr as (A1 & A2 & A3).
  pose proof (agree_aligned g1 g2 alpha beta gamma delta tau inst wit Hsame t e U V W PI HS (proj1 Hle) H1 H2 HQ) as AG.
  destruct (create_spec E g1 g2 alpha beta gamma delta tau w' ln_ceil prover_circuit t wit e Hw' Hln Et PI Hok HS Hle Hcap A1 A2 r s) as (h & Eh & Lh & X).
  rewrite <- Ep in X. pose proof (h_fine_if E g1 g2 alpha beta gamma delta tau wit e HS h Lh H1 Hd Ht Htm) as HF.
  assert (LF : l_fine E g1 g2 alpha beta gamma delta tau wit e) by (apply (l_fine_if E g1 g2 alpha beta gamma delta tau wit e HS); now rewrite <- Ep).
  assert (ND : is_identity (delta *g g1) || is_identity (delta *g g2) = false).
  { unfold is_identity. destruct (geqb_spec (delta *g g1) gzero) as [Z|_]; [destruct (gmul_cancel _ _ Z); contradiction|].
    destruct (geqb_spec (delta *g g2) gzero) as [Z|_]; [destruct (gmul_cancel _ _ Z); contradiction|reflexivity]. }
  destruct X as [[X _]|[_ X]]; [congruence|]. destruct X as [(Al & _ & _ & X)|(Nal & err & X)]; rewrite X.
  - split; [split; [intros _; now apply AG|eauto]|]. intros NB. exfalso. apply NB, AG, Al.
  - split; [split; [intros [pr F]; discriminate|]|eauto]. intros B. exfalso. apply Nal. split; [now apply AG|auto].
Qed.

(** Both together, for a circuit given by its sequence of calls. *)
Theorem C37_complete (w w' : Worker) (ln_ceil : Z -> nat) (calls : list (call P)) inst params e U V W r s :
  let wit := {| p_inputs := the_inputs calls; p_aux := the_aux calls;
                p_cons := the_constraints calls ++ map (fun i => ([(Input i, fone)], [], [])) (seq 0 (List.length (the_inputs calls))) |} in
  wf_worker w -> wf_worker w' -> sane_ln_ceil ln_ceil ->
  generate_parameters w (circuit_of calls) g1 g2 alpha beta gamma delta tau = Done (Ok params) ->
  describes (circuit_of calls) inst -> addressable wit ->
  (forall a b c, In (a, b, c) (the_constraints calls) -> (eval (value wit) a * eval (value wit) b)%F = eval (value wit) c) ->
  g1 <> gzero -> g2 <> gzero -> PropDomain.domain_exponent (List.length (k_cons inst)) e -> tau <> fzero -> fpow tau (2 ^ e) <> fone ->
  qap_polynomials inst e U V W -> bookkeeping_agrees wit U V tau ->
  exists proof, create_proof w' ln_ceil (circuit_of calls) params r s = Done (Ok proof) /\
    verify_proof (prepare_verifying_key (p_vk params)) proof (tl (the_inputs calls)) = Done (Ok tt).
Proof.
  intros wit Hw Hw' Hln Hgen Hinst Haddr Hsat H1 H2 He Ht Htm HQ HB.
  assert (Hwit : assigns (circuit_of calls) wit) by exact (honest_synth calls).
  pose proof Hinst as Hi. unfold describes in Hi. pose proof (shape_synth calls) as Sy. unfold synthesize_shape, shape_new in Sy. rewrite Sy in Hi.
  assert (Hsame : same_circuit inst wit) by (injection Hi as <-; repeat split).
  destruct (generate_ok_inv g1 g2 alpha beta gamma delta tau w _ params Hw Hgen) as (s0 & _ & _ & Es & _).
  destruct (prover_defined _ _ Es) as (t & Et).
  destruct (C37_prover_succeeds_iff w w' ln_ceil _ _ inst wit params t e U V W r s Hw Hw' Hln Hgen Hinst Hwit Hsame Haddr Et H1 H2 He Ht Htm HQ) as [[_ X] _].
  destruct (X HB) as (proof & Ec). exists proof. split; [exact Ec|].
  apply (C37_proofs_verify w w' ln_ceil _ _ inst wit params r s proof Hw Hw' Hln Hgen Hinst Hwit Hsame Haddr); auto.
  intros a b c Hin. unfold wit in Hin. cbn [p_cons] in Hin. apply in_app_iff in Hin as [Hin|Hin]; [now apply Hsat|].
  apply in_map_iff in Hin as (i & [= <- <- <-] & _). rewrite !eval_nil. apply mul_0_r_.
Qed.
End C37.
Print Assumptions C37_proofs_verify.
Print Assumptions C37_prover_succeeds_iff.
Print Assumptions C37_complete.

(** The multiplication circuit of [C06_ex]: keys generated with 3 threads, proof by 2, r = 17, s = 19; it verifies, and does not for another input. *)
Definition c37_params := generate_parameters (E := DummyEngine Fr64513) (Multicore 3) (circuit_of c06_calls) fone (ofZ 2) (ofZ 3) (ofZ 5) (ofZ 7) (ofZ 11) (ofZ 13).
Example C37_ex :
  match c37_params with
  | Done (Ok params) =>
      match create_proof (Multicore 2) (fun _ => 3) (circuit_of c06_calls) params (ofZ 17) (ofZ 19) with
      | Done (Ok proof) =>
          verify_proof (prepare_verifying_key (p_vk params)) proof [ofZ 30] = Done (Ok tt) /\
          verify_proof (prepare_verifying_key (p_vk params)) proof [ofZ 31] = Done (Err InvalidProof)
      | _ => False
      end
  | _ => False
  end.
Proof. vm_compute. split; reflexivity. Qed.

(** * C39 *)
Section C39.
Context {P : PrimeField}.
Add Field PFc39 : (F_field P).
Context {E : Engine P} (g1 : E_G1 E) (g2 : E_G2 E) (alpha beta gamma delta tau : P).

(** Proofs from two witnesses with the same public inputs differ by a translation of the randomness: whatever the proof, the witness it
    was made from cannot be told. *)
Theorem C39_same_distribution (w w1 w2 : Worker) (ln_ceil1 ln_ceil2 : Z -> nat) (keygen_circuit circuit1 circuit2 : prog P (res unit)) inst wit1 wit2 params :
  wf_worker w -> wf_worker w1 -> wf_worker w2 -> sane_ln_ceil ln_ceil1 -> sane_ln_ceil ln_ceil2 ->
  generate_parameters w keygen_circuit g1 g2 alpha beta gamma delta tau = Done (Ok params) -> describes keygen_circuit inst ->
  assigns circuit1 wit1 -> same_circuit inst wit1 -> addressable wit1 -> satisfying wit1 ->
  assigns circuit2 wit2 -> same_circuit inst wit2 -> addressable wit2 -> satisfying wit2 ->
  public_inputs wit1 = public_inputs wit2 ->
  exists dr ds : P, forall r s proof1 proof2,
    create_proof w1 ln_ceil1 circuit1 params r s = Done (Ok proof1) ->
    create_proof w2 ln_ceil2 circuit2 params (r + dr)%F (s + ds)%F = Done (Ok proof2) ->
    proof1 = proof2.
Proof.
  intros Hw Hw1 Hw2 Hl1 Hl2 Hgen Hinst W1 S1 A1 Sat1 W2 S2 A2 Sat2 Hpub.
  destruct (synthesize_prover circuit1) as [[t1|err]|] eqn:Et1; [|exists fzero, fzero; intros r s p1 p2 C1; unfold create_proof in C1; rewrite Et1 in C1; discriminate..].
  destruct (synthesize_prover circuit2) as [[t2|err]|] eqn:Et2; [|exists fzero, fzero; intros r s p1 p2 _ C1; unfold create_proof in C1; rewrite Et2 in C1; discriminate..].
  destruct (PropDomain.C25_exponent_exists (List.length (k_cons inst))) as (e & He & Ue).
  exists ((TA tau t1 e - TA tau t2 e) * finv delta)%F, ((TB tau t1 e - TB tau t2 e) * finv delta)%F.
  intros r s p1 p2 C1 C2.
  destruct (create_ok_inv g1 g2 alpha beta gamma delta tau w w1 ln_ceil1 keygen_circuit circuit1 inst wit1 params Hw Hw1 Hl1 Hgen Hinst W1 S1 A1 r s p1 C1)
    as (t1' & e1 & h1 & E1 & PI1 & Hok1 & HS1 & Hle1 & He1 & Hg & Hd & Ep1 & Eh1 & Lh1 & _ & ->).
  destruct (create_ok_inv g1 g2 alpha beta gamma delta tau w w2 ln_ceil2 keygen_circuit circuit2 inst wit2 params Hw Hw2 Hl2 Hgen Hinst W2 S2 A2 _ _ p2 C2)
    as (t2' & e2 & h2 & E2 & PI2 & Hok2 & HS2 & Hle2 & He2 & _ & _ & Ep2 & Eh2 & Lh2 & _ & ->).
  apply Ue in He1. apply Ue in He2. subst e1 e2. rewrite Et1 in E1. rewrite Et2 in E2. assert (t1' = t1) by congruence. assert (t2' = t2) by congruence. subst t1' t2'.
  pose proof (scalar_identity alpha beta gamma delta tau w1 t1 wit1 e Hw1 PI1 Hok1 HS1 Hle1 (satisfying_coef t1 wit1 PI1 Sat1) Hg Hd r s h1 Eh1) as I1.
  pose proof (scalar_identity alpha beta gamma delta tau w2 t2 wit2 e Hw2 PI2 Hok2 HS2 Hle2 (satisfying_coef t2 wit2 PI2 Sat2) Hg Hd
    (r + (TA tau t1 e - TA tau t2 e) * finv delta)%F (s + (TB tau t1 e - TB tau t2 e) * finv delta)%F h2 Eh2) as I2.
  assert (EA : scalar_a alpha delta tau t2 e (r + (TA tau t1 e - TA tau t2 e) * finv delta)%F = scalar_a alpha delta tau t1 e r) by (unfold scalar_a; field; auto).
  assert (EB : scalar_b beta delta tau t2 e (s + (TB tau t1 e - TB tau t2 e) * finv delta)%F = scalar_b beta delta tau t1 e s) by (unfold scalar_b; field; auto).
  rewrite EA, EB, I1 in I2.
  assert (Ei : p_inputs wit1 = p_inputs wit2).
  { destruct (assigns_one _ _ W1) as [l1 L1], (assigns_one _ _ W2) as [l2 L2]. unfold public_inputs in Hpub. rewrite L1, L2 in *. cbn in Hpub. congruence. }
  assert (Ec : p_cons wit1 = p_cons wit2) by (destruct S1 as (_ & _ & <-), S2 as (_ & _ & <-); reflexivity).
  assert (ES : SI wit1 (ext_of alpha beta tau wit1 e (finv gamma)) = SI wit2 (ext_of alpha beta tau wit2 e (finv gamma))).
  { unfold SI, ext_of. now rewrite Ei, Ec. }
  rewrite ES in I2. set (c1 := scalar_c _ _ _ _ _ _ _ r s h1) in *. set (c2 := scalar_c _ _ _ _ _ _ _ _ _ h2) in *.
  assert (C : (c1 * delta)%F = (c2 * delta)%F).
  { set (k := (alpha * beta + SI wit2 (ext_of alpha beta tau wit2 e (finv gamma)) * gamma)%F) in I2.
    transitivity ((k + c1 * delta) - k)%F; [ring|]. rewrite I2. ring. }
  assert (C' : c1 = c2) by (transitivity (c1 * delta * finv delta)%F; [field; auto|]; rewrite C; field; auto).
  unfold proof_of. fold c1 c2. rewrite EA, EB, C'. reflexivity.
Qed.

(** For toxic waste where no [h] element is the identity, the translated randomness also succeeds, with the identical proof. *)
Theorem C39_identical_proof (w w1 w2 : Worker) (ln_ceil1 ln_ceil2 : Z -> nat) (keygen_circuit circuit1 circuit2 : prog P (res unit)) inst wit1 wit2 params e t2 :
  wf_worker w -> wf_worker w1 -> wf_worker w2 -> sane_ln_ceil ln_ceil1 -> sane_ln_ceil ln_ceil2 ->
  generate_parameters w keygen_circuit g1 g2 alpha beta gamma delta tau = Done (Ok params) -> describes keygen_circuit inst ->
  assigns circuit1 wit1 -> same_circuit inst wit1 -> addressable wit1 -> satisfying wit1 ->
  assigns circuit2 wit2 -> same_circuit inst wit2 -> addressable wit2 -> satisfying wit2 -> synthesize_prover circuit2 = Done (Ok t2) ->
  public_inputs wit1 = public_inputs wit2 ->
  g1 <> gzero -> g2 <> gzero -> PropDomain.domain_exponent (List.length (k_cons inst)) e -> tau <> fzero -> fpow tau (2 ^ e) <> fone ->
  exists dr ds : P, forall r s proof,
    create_proof w1 ln_ceil1 circuit1 params r s = Done (Ok proof) ->
    create_proof w2 ln_ceil2 circuit2 params (r + dr)%F (s + ds)%F = Done (Ok proof).
Proof.
  intros Hw Hw1 Hw2 Hl1 Hl2 Hgen Hinst W1 S1 A1 Sat1 W2 S2 A2 Sat2 Et2 Hpub H1 H2 He Ht Htm.
  destruct (C39_same_distribution w w1 w2 ln_ceil1 ln_ceil2 keygen_circuit circuit1 circuit2 inst wit1 wit2 params Hw Hw1 Hw2 Hl1 Hl2 Hgen Hinst W1 S1 A1 Sat1 W2 S2 A2 Sat2 Hpub)
    as (dr & ds & X).
  exists dr, ds. intros r s proof C1.
  destruct (create_ok_inv g1 g2 alpha beta gamma delta tau w w1 ln_ceil1 keygen_circuit circuit1 inst wit1 params Hw Hw1 Hl1 Hgen Hinst W1 S1 A1 r s proof C1)
    as (t1 & e1 & h1 & E1 & PI1 & Hok1 & HS1 & Hle1 & He1 & _).
  assert (e1 = e) by (apply (least_pow_unique (List.length (k_cons inst))); now apply PropDomain.domain_exponent_least). subst e1.
  destruct (polys_exist inst e HS1) as (U & V & W & HQ).
  destruct (C37_prover_succeeds_iff g1 g2 alpha beta gamma delta tau w w1 ln_ceil1 keygen_circuit circuit1 inst wit1 params t1 e U V W r s Hw Hw1 Hl1 Hgen Hinst W1 S1 A1 E1 H1 H2 He Ht Htm HQ) as [[B1 _] _].
  destruct (C37_prover_succeeds_iff g1 g2 alpha beta gamma delta tau w w2 ln_ceil2 keygen_circuit circuit2 inst wit2 params t2 e U V W (r + dr)%F (s + ds)%F Hw Hw2 Hl2 Hgen Hinst W2 S2 A2 Et2 H1 H2 He Ht Htm HQ) as [[_ B2] _].
  assert (B : bookkeeping_agrees wit2 U V tau).
  { specialize (B1 (ex_intro _ proof C1)). destruct S1 as (L1 & L1' & L1''), S2 as (L2 & L2' & L2''). unfold bookkeeping_agrees, occurs in *.
    rewrite <- L2, <- L2', <- L2''. rewrite <- L1, <- L1', <- L1'' in B1. exact B1. }
  destruct (B2 B) as (proof2 & C2). rewrite C2. do 2 f_equal. symmetry. eapply X; eauto.
Qed.
End C39.
Print Assumptions C39_same_distribution.
Print Assumptions C39_identical_proof.

(** Two witnesses for x * y = 30: (3, 10) and (5, 6); on the test engine the proofs agree after translating the randomness by (58540, 11946). *)
Definition c39_calls (x y : Z) : list (call Fr64513) :=
  [CallAlloc (ofZ x); CallAlloc (ofZ y); CallAllocInput (ofZ 30); CallEnforce [(Aux 0, fone)] [(Aux 1, fone)] [(Input 1, fone)]].
Definition c39_proof (x y r s : Z) : option (Z * Z * Z) :=
  match generate_parameters (E := DummyEngine Fr64513) (Multicore 3) (circuit_of (c39_calls x y)) fone (ofZ 2) (ofZ 3) (ofZ 5) (ofZ 7) (ofZ 11) (ofZ 13) with
  | Done (Ok params) =>
      match create_proof (Multicore 2) (fun _ => 3) (circuit_of (c39_calls x y)) params (ofZ r) (ofZ s) with
      | Done (Ok proof) => Some (toZ (proof_a proof), toZ (proof_b proof), toZ (proof_c proof))
      | _ => None
      end
  | _ => None
  end.
Example C39_ex : c39_proof 3 10 17 19 = c39_proof 5 6 (17 + 58540) (19 + 11946) /\ c39_proof 3 10 17 19 <> c39_proof 5 6 17 19 /\ c39_proof 3 10 17 19 <> None.
Proof. vm_compute. repeat split; discriminate. Qed.

(** * C46 *)
Section C46.
Context {P : PrimeField} {E : Engine P}.

Theorem C46_synthesis_error (w : Worker) (ln_ceil : Z -> nat) (circuit : prog P (res unit)) (params : Parameters E) r s err :
  synthesize_prover circuit = Done (Err err) -> create_proof w ln_ceil circuit params r s = Done (Err err).
Proof. intros H. unfold create_proof. now rewrite H. Qed.

Lemma prover_lengths circuit (t : ProvingAssignment P) wit : synthesize_prover circuit = Done (Ok t) -> assigns circuit wit ->
  PInv t wit /\ List.length (pa_a t) = List.length (p_cons wit) /\ List.length (pa_b t) = List.length (pa_a t) /\ List.length (pa_c t) = List.length (pa_a t).
Proof.
  intros Et Hwit. destruct (synthesize_prover_spec _ _ Et) as (ps & Eps & PI). unfold synthesize_honest, honest_new in Eps. unfold assigns in Hwit. rewrite Hwit in Eps.
  assert (ps = wit) by congruence. subst ps. split; [exact PI|]. rewrite (pi_a _ _ PI), (pi_b _ _ PI), (pi_c _ _ PI), !map_length. auto.
Qed.

Theorem C46_too_many_constraints (w : Worker) (ln_ceil : Z -> nat) (circuit : prog P (res unit)) (params : Parameters E) r s t wit e :
  wf_worker w -> synthesize_prover circuit = Done (Ok t) -> assigns circuit wit ->
  PropDomain.domain_exponent (List.length (p_cons wit)) e -> two_adicity P <= e ->
  create_proof w ln_ceil circuit params r s = Done (Err PolynomialDegreeTooLarge).
Proof.
  intros Hw Et Hwit He HS. destruct (prover_lengths _ _ _ Et Hwit) as (PI & La & Lb & Lc).
  apply PropDomain.domain_exponent_least in He. rewrite <- La in He. pose proof (prover_h_total w (pa_a t) (pa_b t) (pa_c t) e Hw He Lb Lc) as H.
  destruct (Nat.ltb_spec e (two_adicity P)); [lia|]. unfold create_proof. rewrite Et. cbn [obindr obind]. rewrite H. reflexivity.
Qed.

(** Whatever the parameters are, generated or not. *)
Theorem C46_delta_identity (w : Worker) (ln_ceil : Z -> nat) (circuit : prog P (res unit)) (params : Parameters E) r s t wit e :
  wf_worker w -> synthesize_prover circuit = Done (Ok t) -> assigns circuit wit ->
  PropDomain.domain_exponent (List.length (p_cons wit)) e -> e < two_adicity P ->
  delta_g1 (p_vk params) = gzero \/ delta_g2 (p_vk params) = gzero ->
  create_proof w ln_ceil circuit params r s = Done (Err UnexpectedIdentity).
Proof.
  intros Hw Et Hwit He HS Hd. destruct (prover_lengths _ _ _ Et Hwit) as (PI & La & Lb & Lc).
  apply PropDomain.domain_exponent_least in He. rewrite <- La in He. pose proof (prover_h_total w (pa_a t) (pa_b t) (pa_c t) e Hw He Lb Lc) as H.
  destruct (Nat.ltb_spec e (two_adicity P)); [|lia]. destruct H as (h & Eh & _). unfold create_proof. rewrite Et. cbn [obindr obind]. rewrite Eh. cbn [obindr obind].
  rewrite (pi_inputs _ _ PI), (pi_aux _ _ PI). pose proof (pi_da _ _ PI) as [D1 _]. pose proof (pi_dbi _ _ PI) as [D2 _]. pose proof (pi_dba _ _ PI) as [D3 _].
  rewrite !start_ok by (intros ? Q; first [discriminate Q | injection Q as <-; assumption]). cbn [obind]. unfold is_identity.
  destruct (geqb_spec (delta_g1 (p_vk params)) gzero); cbn [orb]; auto. destruct (geqb_spec (delta_g2 (p_vk params)) gzero); cbn [orb]; auto. tauto.
Qed.

Lemma inner_done {M : FMod P} (bases : list M) start d (xs : list P) c : 0 < c < 64 -> exists r, multiexp_inner bases start d (map exponent_of xs) c = Done r.
Proof. intros Hc. pose proof (multiexp_inner_errs bases start d xs c Hc) as X. cbv zeta in X. destruct X as [(e & -> & _)|(-> & _)]; eauto. Qed.

(** And it never panics, with whatever parameters, once the circuit has been synthesized. *)
Theorem C46_never_panics (w : Worker) (ln_ceil : Z -> nat) (circuit : prog P (res unit)) (params : Parameters E) r s t wit :
  wf_worker w -> sane_ln_ceil ln_ceil -> synthesize_prover circuit = Done (Ok t) -> assigns circuit wit -> addressable wit ->
  exists result, create_proof w ln_ceil circuit params r s = Done result.
Proof.
  intros Hw Hln Et Hwit (A1 & A2 & A3). destruct (prover_lengths _ _ _ Et Hwit) as (PI & La & Lb & Lc).
  destruct (least_pow_ex (List.length (p_cons wit))) as [e He]. pose proof He as He'. rewrite <- La in He'.
  pose proof (prover_h_total w (pa_a t) (pa_b t) (pa_c t) e Hw He' Lb Lc) as H.
  unfold create_proof. rewrite Et. cbn [obindr obind].
  destruct (Nat.ltb_spec e (two_adicity P)); [|rewrite H; cbn; eauto]. destruct H as (h & Eh & Lh). rewrite Eh. cbn [obindr obind].
  assert (Hlh : (Z.of_nat (List.length h) < 2 ^ 32)%Z).
  { pose proof (pow2_cap _ _ He A3). pose proof (pow2_gt0 e). lia. }
  rewrite (pi_inputs _ _ PI), (pi_aux _ _ PI). pose proof (pi_da _ _ PI) as [D1 _]. pose proof (pi_dbi _ _ PI) as [D2 _]. pose proof (pi_dba _ _ PI) as [D3 _].
  rewrite !start_ok by (intros ? Q; first [discriminate Q | injection Q as <-; assumption]). cbn [obind].
  destruct (_ || _)%bool; [eauto|].
  assert (Wi := window_ok _ _ Hln A1). assert (Wa := window_ok _ _ Hln A2). assert (Wh := window_ok _ _ Hln Hlh).
  repeat match goal with |- context [multiexp_inner ?b ?st ?d (map exponent_of ?xs) ?c] =>
    let r := fresh "res" in let Er := fresh "Er" in destruct (inner_done b st d xs c ltac:(assumption)) as [r Er]; rewrite Er; cbn [obindr obind]; clear Er;
    destruct r as [?|?]; cbn [obindr obind]; [|eauto; fail] end.
  eauto.
Qed.
End C46.
Print Assumptions C46_synthesis_error.
Print Assumptions C46_too_many_constraints.
Print Assumptions C46_delta_identity.
Print Assumptions C46_never_panics.

(** A missing assignment; and a key whose delta is the identity. *)
Example C46_ex :
  match c37_params with
  | Done (Ok params) =>
      let missing := AllocInput "x" (Err AssignmentMissing) (fun r _ => match r with Ok _ => Ret (Ok tt) | Err e => Ret (Err e) end) : prog Fr64513 (res unit) in
      let vk := p_vk params in
      let bad := mkParams (E := DummyEngine Fr64513) (mkVK (alpha_g1 vk) (beta_g1 vk) (beta_g2 vk) (gamma_g2 vk) (delta_g1 vk) fzero (ic vk))
                   (p_h params) (p_l params) (p_a params) (p_b_g1 params) (p_b_g2 params) in
      c36_error (create_proof (Multicore 2) (fun _ => 3) missing params (ofZ 17) (ofZ 19)) = Some AssignmentMissing /\
      c36_error (create_proof (Multicore 2) (fun _ => 3) (circuit_of c06_calls) bad (ofZ 17) (ofZ 19)) = Some UnexpectedIdentity
  | _ => False
  end.
Proof. vm_compute. split; reflexivity. Qed.

(** * C47 *)

(** False as stated: x is mentioned as [x - x], so the prover expects an element for x in the [a] query, but the generator left it out as
    its polynomial is zero.  The witness satisfies the constraint ((x - x) * x = 0), parameters are generated, no proof can be created. *)
Definition c47_calls : list (call Fr64513) := [CallAlloc (ofZ 3); CallEnforce [(Aux 0, fone); (Aux 0, ofZ (-1))] [(Aux 0, fone)] []].
Theorem C47_cancelling_refuted : exists (calls : list (call Fr64513)) params,
  scoped calls /\
  (let value v := match v with Input i => nth i (the_inputs calls) fzero | Aux i => nth i (the_aux calls) fzero end in
   forall a b c, In (a, b, c) (the_constraints calls) -> (eval value a * eval value b)%F = eval value c) /\
  generate_parameters (E := DummyEngine Fr64513) (Multicore 2) (circuit_of calls) fone fone (ofZ 3) (ofZ 5) (ofZ 7) (ofZ 11) (ofZ 13) = Done (Ok params) /\
  create_proof (E := DummyEngine Fr64513) (Multicore 2) (fun _ => 3) (circuit_of calls) params (ofZ 17) (ofZ 19) = Done (Err (IoError UnexpectedEof)).
Proof.
  exists c47_calls.
  assert (X : match generate_parameters (E := DummyEngine Fr64513) (Multicore 2) (circuit_of c47_calls) fone fone (ofZ 3) (ofZ 5) (ofZ 7) (ofZ 11) (ofZ 13) with
    | Done (Ok params) => c36_error (create_proof (E := DummyEngine Fr64513) (Multicore 2) (fun _ => 3) (circuit_of c47_calls) params (ofZ 17) (ofZ 19)) = Some (IoError UnexpectedEof)
    | _ => False end) by (vm_compute; reflexivity).
  destruct (generate_parameters (E := DummyEngine Fr64513) _ (circuit_of c47_calls) _ _ _ _ _ _ _) as [[params|]|]; try contradiction. exists params.
  split; [|split; [|split; [reflexivity|]]].
  - apply (scoped_snoc [CallAlloc (ofZ 3)]); [|intros a b c [= <- <- <-]; repeat constructor; cbn; lia].
    apply (scoped_snoc []); [|discriminate]. intros before ? ? ? ? ? E. destruct before; discriminate.
  - intros value a b c [[= <- <- <-]|[]]. apply (feqb_eq Fr64513). vm_compute. reflexivity.
  - destruct (create_proof _ _ _ _ _ _) as [[?|err]|]; try discriminate X. injection X as ->. reflexivity.
Qed.
Print Assumptions C47_cancelling_refuted.

(** In general: if some variable occurs in the A parts, or in the B parts, but its coefficients there cancel in every constraint, then no
    proof is ever created, whatever the toxic waste, witness and randomness.  (For the A parts only an auxiliary variable can be meant:
    an input occurs alone in its own constraint.) *)
Theorem C47_never_proves {P : PrimeField} {E : Engine P} (g1 : E_G1 E) (g2 : E_G2 E) (alpha beta gamma delta tau : P)
    (w w' : Worker) (ln_ceil : Z -> nat) (keygen_circuit prover_circuit : prog P (res unit)) inst wit params r s proof (part : Constraint P -> LC P) v :
  wf_worker w -> wf_worker w' -> sane_ln_ceil ln_ceil ->
  generate_parameters w keygen_circuit g1 g2 alpha beta gamma delta tau = Done (Ok params) ->
  describes keygen_circuit inst -> assigns prover_circuit wit -> same_circuit inst wit -> addressable wit -> g1 <> gzero -> g2 <> gzero ->
  part = part_A \/ part = part_B ->
  match v with Input i => i < List.length (p_inputs wit) | Aux i => i < List.length (p_aux wit) end ->
  occurs part wit v -> (forall k, In k (p_cons wit) -> coefficient (part k) v = fzero) ->
  create_proof w' ln_ceil prover_circuit params r s <> Done (Ok proof).
Proof.
  intros Hw Hw' Hln Hgen Hinst Hwit Hsame Haddr H1 H2 Hpart Hi Ho Hz Ec.
  destruct (create_ok_inv g1 g2 alpha beta gamma delta tau w w' ln_ceil keygen_circuit prover_circuit inst wit params Hw Hw' Hln Hgen Hinst Hwit Hsame Haddr r s proof Ec)
    as (t & e & h & Et & PI & Hok & HS & Hle & _ & Hg & Hd & Ep & Eh & Lh & Al & _).
  assert (Z : qap tau e part (p_cons wit) v = fzero).
  { unfold qap. rewrite (at_tau_ext e tau _ (fun _ => fzero)); [apply at_tau_zero|]. intros k _. rewrite col_coeff_column. cbn [Nat.leb].
    destruct (nth_error (p_cons wit) (k - 0)) as [c|] eqn:Ek; auto. rewrite <- coefficient_eq. apply (Hz c). eapply nth_error_In; eauto. }
  apply (aligned_iff E g1 g2 alpha beta gamma delta tau t wit e PI HS H1 H2) in Al as (A & B & C & D). apply mentions_occurs in Ho.
  destruct Hpart as [-> | ->], v as [i|i]; [apply (A i Hi)|apply (B i Hi)|apply (C i Hi)|apply (D i Hi)]; assumption.
Qed.
Print Assumptions C47_never_proves.

(** An input in the B parts: 3 * (y - y) = 0 with the public input y = 4; the hypotheses on [y] hold, and proving fails. *)
Definition c47_calls_b : list (call Fr64513) :=
  [CallAllocInput (ofZ 4); CallAlloc (ofZ 3); CallEnforce [(Aux 0, fone)] [(Input 1, fone); (Input 1, ofZ (-1))] []].
Definition c47_wit_b : PState Fr64513 :=
  {| p_inputs := the_inputs c47_calls_b; p_aux := the_aux c47_calls_b;
     p_cons := the_constraints c47_calls_b ++ map (fun i => ([(Input i, fone)], [], [])) (seq 0 2) |}.
Example C47_ex_b :
  occurs part_B c47_wit_b (Input 1) /\ (forall k, In k (p_cons c47_wit_b) -> coefficient (part_B k) (Input 1) = fzero) /\
  match generate_parameters (E := DummyEngine Fr64513) (Multicore 2) (circuit_of c47_calls_b) fone fone (ofZ 3) (ofZ 5) (ofZ 7) (ofZ 11) (ofZ 13) with
  | Done (Ok params) => c36_error (create_proof (E := DummyEngine Fr64513) (Multicore 2) (fun _ => 3) (circuit_of c47_calls_b) params (ofZ 17) (ofZ 19)) = Some (IoError UnexpectedEof)
  | _ => False
  end.
Proof.
  split; [|split].
  - eexists _, fone. split; [now left|]. split; [now left|]. intros H. apply (f_equal toZ) in H. vm_compute in H. discriminate.
  - intros k [<-|[<-|[<-|[]]]]; apply (feqb_eq Fr64513); vm_compute; reflexivity.
  - vm_compute. reflexivity.
Qed.
