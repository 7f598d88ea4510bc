(** Property theorem C74: circuits put together from the gadgets mean what they say.  A circuit here is any straight-line program of calls
    (Straight.v); what it is for is a function, [meaning], that knows nothing of constraints. *)
From Coq Require Import String.
From Coq Require Import ZArith List Bool Lia Field.
From Verif Require Import Prelude PrimeField Fields FModule Circuit Multicore Multiexp MultiexpProof PropMultiexp Assembly AssemblyProof PropAssembly Loops Groth16
  Multipack Spec Sha256Spec GeneratorProof PropGenerator PropGroth16 Scope PropScope PropSound PropSha256d Straight StraightProof.
From Verif Require PropDomain.
Import Circuit.
Import ListNotations.
Local Open Scope nat_scope.

(** The values that an assignment has for the program's unknown bits and numbers. *)
Definition read_choices {P : PrimeField} (rho : Var -> P) (code : list (stmt P)) : list (option (val P)) :=
  choices rho {| k_inputs := 1; k_aux := 0; k_cons := [] |} [] code.

Section C74.
Context {P : PrimeField}.
Add Field PFc74 : (F_field P).
Implicit Types (code : list (stmt P)) (w : list (option (val P))).

(** The prover that knows values for which the program runs through has, with them, an assignment that satisfies the constraints of the keys
    and makes public what the program does. *)
Theorem C74_complete code w outs : 64 <= num_bits P -> meaning w [] code = Some outs ->
  exists (inst : KState P) (wit : PState P), describes (circuit blank code) inst /\ assigns (circuit w code) wit /\ same_circuit inst wit /\ satisfying wit /\
    p_inputs wit = fone :: outs.
Proof.
  intros H64 E. destruct (circuit_runs code w outs honest_one H64) as (s3 & cs & Eh & _ & Hc & Hs & Hi & Es); [exists []; reflexivity|exact E|]. specialize (Es blank).
  exists {| k_inputs := length (p_inputs s3); k_aux := length (p_aux s3); k_cons := p_cons s3 ++ map input_constraint (seq 0 (length (p_inputs s3))) |}.
  exists {| p_inputs := p_inputs s3; p_aux := p_aux s3; p_cons := p_cons s3 ++ map input_constraint (seq 0 (length (p_inputs s3))) |}.
  split; [|split; [|split; [|split]]].
  - unfold describes, synthesize. rewrite start_s. change shape_one with (shape_of (@honest_one P)). rewrite Es. cbn [obind]. rewrite shape_enforce_inputs. reflexivity.
  - unfold assigns, synthesize. rewrite start_h. rewrite Eh. cbn [obind]. rewrite honest_enforce_inputs. reflexivity.
  - repeat split.
  - intros a b c Hin. cbn [p_cons] in Hin. apply in_app_or in Hin as [Hin|Hin].
    + rewrite Hc in Hin. cbn [honest_one p_cons app] in Hin. unfold sat in Hs. rewrite Forall_forall in Hs. exact (Hs _ Hin).
    + apply in_map_iff in Hin as (i & [= <- <- <-] & _). rewrite !eval_nil. apply mul_0_r_.
  - exact Hi.
Qed.

(** Whatever satisfies the constraints of the keys makes public what the program does with the values that can be read off it. *)
Theorem C74_sound code (inst : KState P) (rho : Var -> P) : describes (circuit blank code) inst -> satisfies inst rho ->
  meaning (read_choices rho code) [] code = Some (inputs_of inst rho).
Proof.
  intros Hd [H1 Hs]. unfold describes, synthesize in Hd. rewrite start_s in Hd.
  destruct (run (ShapeCS P) (circuit blank code) shape_one) as [[[[]|e] k]|] eqn:Ek; cbn [obind] in Hd; try discriminate Hd.
  rewrite shape_enforce_inputs in Hd. cbn [obind] in Hd. apply Done_inj in Hd. injection Hd as <-. cbn [k_cons] in Hs.
  unfold circuit in Ek. rewrite Mimc.run_bindq in Ek. destruct (run (ShapeCS P) (compile blank 0 [] code) shape_one) as [[[r|er] k2]|] eqn:E2; cbn [obind fst snd run] in Ek; try discriminate Ek.
  injection Ek as ->. destruct (compile_sound rho H1 code 0 [] [] shape_one r k (Forall2_nil _) E2) as (outs & Eo & Hi & Hm).
  { unfold sat. apply Forall_forall. intros [[a b] c] Hin. apply Hs, in_or_app. now left. }
  unfold read_choices. change {| k_inputs := 1; k_aux := 0; k_cons := [] |} with (@shape_one P). rewrite Eo. f_equal. unfold inputs_of. cbn [k_inputs]. rewrite Hi. cbn [shape_one k_inputs].
  rewrite Nat.add_sub_swap, Nat.sub_diag by lia. cbn [Nat.add]. rewrite <- Hm at 1. rewrite <- seq_shift, map_map. reflexivity.
Qed.

(** So a list of numbers can be proved exactly if the program makes it public for some values. *)
Theorem C74_statement code (inst : KState P) outs : 64 <= num_bits P -> describes (circuit blank code) inst ->
  (exists rho, satisfies inst rho /\ inputs_of inst rho = outs) <-> (exists w, meaning w [] code = Some outs).
Proof.
  intros H64 Hd. split.
  - intros (rho & Hs & <-). eexists. exact (C74_sound code inst rho Hd Hs).
  - intros (w & E). destruct (C74_complete code w outs H64 E) as (inst' & wit & A & B & C & D & I). rewrite (one_instance _ _ _ Hd A). destruct C as (C1 & C2 & C3).
    exists (value wit). exact (satisfying_satisfies inst' wit _ D (eq_sym C3) I (eq_sym C1)).
Qed.

Lemma straight_in_scope code w : in_scope [] (circuit w code) (fun _ => []).
Proof. apply in_scope_of. intros K K1 _. eapply wpK_mono; [|apply circuit_wpK; exact K1]. intros [r|e]; cbn; auto. Qed.

(** The real key generator and the real prover make it through synthesis. *)
Theorem C74_synthesis code w outs : 64 <= num_bits P -> meaning w [] code = Some outs ->
  (exists s, synthesize_keypair (circuit blank code) = Done (Ok s)) /\ (exists t, synthesize_prover (circuit w code) = Done (Ok t)).
Proof.
  intros H64 E. destruct (C74_complete code w outs H64 E) as (inst & wit & A & B & _). split.
  - destruct (C66_circuits _ _ (straight_in_scope code blank)) as [K _]. unfold describes in A. destruct (synthesize_keypair _) as [[s|e]|]; [eauto| |]; rewrite A in K; discriminate K.
  - destruct (C66_circuits _ _ (straight_in_scope code w)) as [_ K]. unfold assigns in B. destruct (synthesize_prover _) as [[s|e]|]; [eauto| |]; rewrite B in K; discriminate K.
Qed.

Section Keys.
Context {E : Engine P} (g1 : E_G1 E) (g2 : E_G2 E) (alpha beta gamma delta tau : P).
(** Nor does the prover panic later on; and its proofs verify for what the program makes public. *)
Theorem C74_proofs_verify wk wk' ln_ceil (params : Parameters E) code w outs r s : 64 <= num_bits P -> wf_worker wk -> wf_worker wk' -> sane_ln_ceil ln_ceil ->
  meaning w [] code = Some outs -> (forall wit, assigns (circuit w code) wit -> addressable wit) ->
  generate_parameters wk (circuit blank code) g1 g2 alpha beta gamma delta tau = Done (Ok params) ->
  exists result, create_proof wk' ln_ceil (circuit w code) params r s = Done result /\
    forall proof, result = Ok proof -> verify_proof (prepare_verifying_key (p_vk params)) proof outs = Done (Ok tt).
Proof.
  intros H64 Hw Hw' Hln Hm Hadr Hg. destruct (C74_complete code w outs H64 Hm) as (inst & wit & A & B & C & D & I).
  destruct (C74_synthesis code w outs H64 Hm) as (_ & t & Ht).
  destruct (C46_never_panics wk' ln_ceil _ params r s t wit Hw' Hln Ht B (Hadr wit B)) as [result Hr]. exists result. split; [exact Hr|]. intros proof ->.
  pose proof (C37_proofs_verify g1 g2 alpha beta gamma delta tau wk wk' ln_ceil _ _ inst wit params r s proof Hw Hw' Hln Hg A B C (Hadr wit B) D Hr) as V.
  rewrite (public_of _ _ I) in V. exact V.
Qed.
End Keys.

(** Who can make proofs for some numbers accepted (by a fixed rule, for more of the toxic waste than a fraction of [(3 * 2^e + 5) / N]) has
    values for which the program makes them public. *)
Theorem C74_knowledge {E : Engine P} code (inst : KState P) e (D : list P) (a : @plan1 P) (b : @plan2 P) (c : @plan1 P) outs (accepted : list (P * P * P * P * P)) :
  describes (circuit blank code) inst -> PropDomain.domain_exponent (length (k_cons inst)) e ->
  length (x_tau a) <= 2 ^ e -> length (y_tau b) <= 2 ^ e -> length (x_tau c) <= 2 ^ e ->
  NoDup D -> NoDup accepted ->
  (forall alpha beta gamma delta tau, In (alpha, beta, gamma, delta, tau) accepted ->
     In alpha D /\ In beta D /\ In gamma D /\ In delta D /\ In tau D /\
     exists wk (g1 : E_G1 E) (g2 : E_G2 E) params, wf_worker wk /\ pair g1 g2 <> gzero /\
       generate_parameters wk (circuit blank code) g1 g2 alpha beta gamma delta tau = Done (Ok params) /\
       verify_proof (prepare_verifying_key (p_vk params)) (put_together g1 g2 tau params a b c) outs = Done (Ok tt)) ->
  (3 * 2 ^ e + 5) * length D ^ 4 < length accepted ->
  meaning (read_choices (value (extracted inst outs c)) code) [] code = Some outs.
Proof.
  intros Hd He La Lb Lc HD Hn Hacc Hmany. destruct (C62_witness_known _ inst e D a b c outs accepted Hd He La Lb Lc HD Hn Hacc Hmany) as [Hs Hk].
  destruct (satisfying_satisfies inst (extracted inst outs c) outs Hs eq_refl eq_refl Hk) as [S1 S2].
  rewrite (C74_sound code inst _ Hd S1), S2. reflexivity.
Qed.
End C74.
Print Assumptions C74_complete.
Print Assumptions C74_sound.
Print Assumptions C74_statement.
Print Assumptions C74_synthesis.
Print Assumptions C74_proofs_verify.
Print Assumptions C74_knowledge.

(** Over Goldilocks.  Two bits and two numbers; the numbers' product is swapped with the first of them if the bits differ; then the first
    result must be five more than the first bit and the second not zero, and the second and the bits (with their XOR) are made public. *)
Definition c74_code : list (stmt Goldilocks) :=
  [SBit; SBit; SXor 0 1; SNum; SNum; SMul 3 4; SSwap 3 5 2; SLinear (fzero, [(fone, 6)]) (fone, []) (ofZ 5, [(fone, 0)]); SNonzero 7; SInput 7; SPack [0; 1; 2]].
Definition c74_values (x y : Z) : list (option (val Goldilocks)) := [Some (VBit true); Some (VBit false); None; Some (VNum (ofZ x)); Some (VNum (ofZ y))].
(** One byte and its SHA-256 hash. *)
Definition c74_hash : list (stmt Goldilocks) := repeat SBit 8 ++ [SSha256 (seq 0 8); SPack (seq 8 256)].
Definition c74_byte : list (option (val Goldilocks)) := map (fun b => Some (VBit b)) (bits_of_byte 42).
Definition c74_digest : list Z := [7853870754789659158; 5286102875642671749; 8705282401758189581; 2275610650734247659; 8]%Z.
Definition shown (o : option (list Goldilocks)) : option (list Z) := match o with Some l => Some (map toZ l) | None => None end.
Lemma shown_some o l : shown o = Some l -> exists outs, o = Some outs /\ map toZ outs = l.
Proof. destruct o as [outs|]; cbn [shown]; [|discriminate]. intros E. exists outs. split; [reflexivity|]. congruence. Qed.
Lemma c74_means : shown (meaning (c74_values 2 3) [] c74_code) = Some [2; 5]%Z /\ shown (meaning (c74_values 2 4) [] c74_code) = None /\
  shown (meaning (c74_values 0 3) [] c74_code) = None /\ shown (meaning c74_byte [] c74_hash) = Some c74_digest.
Proof. vm_compute. repeat split; reflexivity. Qed.
Lemma gold_bits : 64 <= num_bits Goldilocks. Proof. cbn. lia. Qed.
Example C74_ex :
  (exists outs (inst : KState Goldilocks) (wit : PState Goldilocks), map toZ outs = [2; 5]%Z /\ meaning (c74_values 2 3) [] c74_code = Some outs /\
     describes (circuit blank c74_code) inst /\ assigns (circuit (c74_values 2 3) c74_code) wit /\ same_circuit inst wit /\ satisfying wit /\ p_inputs wit = fone :: outs) /\
  meaning (c74_values 2 4) [] c74_code = None /\ meaning (c74_values 0 3) [] c74_code = None /\
  (exists outs (inst : KState Goldilocks) (rho : Var -> Goldilocks), map toZ outs = c74_digest /\ describes (circuit blank c74_hash) inst /\
     satisfies inst rho /\ inputs_of inst rho = outs /\ meaning (read_choices rho c74_hash) [] c74_hash = Some outs).
Proof.
  destruct c74_means as (A & B & C & D). destruct (shown_some _ _ A) as (oa & Ea & Va). destruct (shown_some _ _ D) as (od & Ed & Vd). split; [|split; [|split]].
  - destruct (C74_complete _ _ _ gold_bits Ea) as (inst & wit & H). exists oa, inst, wit. exact (conj Va (conj Ea H)).
  - destruct (meaning (c74_values 2 4) [] c74_code); [discriminate B|reflexivity].
  - destruct (meaning (c74_values 0 3) [] c74_code); [discriminate C|reflexivity].
  - destruct (C74_complete _ _ _ gold_bits Ed) as (inst & _ & Hd & _). destruct (proj2 (C74_statement _ inst od gold_bits Hd) (ex_intro _ _ Ed)) as (rho & Hs & Hi).
    exists od, inst, rho. pose proof (C74_sound _ _ _ Hd Hs) as M. rewrite Hi in M. exact (conj Vd (conj Hd (conj Hs (conj Hi M)))).
Qed.

(** The other statements.  Two words and a condition that is not set together with another; the words are mixed, and a point of a table is chosen
    and (if the condition says so) reflected; the sum of its coordinates, and a hundred more if exactly one of the two is set, must be as given. *)
Definition c74_mix (sum : Z) : list (stmt Goldilocks) :=
  [SWord; SWord; SWordXor (seq 0 32) (seq 32 32); SRotr (seq 64 32) 7; SShr (seq 64 32) 3; SWordCh (seq 0 32) (seq 96 32) (seq 128 32);
   SWordMaj (seq 0 32) (seq 32 32) (seq 160 32); SPack (seq 192 32);
   SAllocated; SUnless 224; SGate GXor 224 225; SGate GAnd 224 225; SGate GAndNot 224 225; SGate GNor 224 225; SFrom 225; SFrom 226;
   SLookupNeg 0 1 230 [(ofZ 1, ofZ 2); (ofZ 3, ofZ 4); (ofZ 5, ofZ 6); (ofZ 7, ofZ 8)]; SZero; SAddBit 234 231 (ofZ 100);
   SLinear (fzero, [(fone, 232); (fone, 233); (fone, 235)]) (fone, []) (ofZ sum, [])].
Definition c74_mixed (b c : bool) : list (option (val Goldilocks)) := [Some (VInt 2863311530); Some (VInt 305419896)] ++ repeat None 6 ++ [Some (VBit b); Some (VBit c)] ++ repeat None 10.
Lemma c74_mix_means : shown (meaning (c74_mixed false true) [] (c74_mix 99)) = Some [2989522616]%Z /\ shown (meaning (c74_mixed false true) [] (c74_mix 111)) = None /\
  shown (meaning (c74_mixed true false) [] (c74_mix 111)) = Some [2989522616]%Z /\ shown (meaning (c74_mixed true true) [] (c74_mix 99)) = None.
Proof. vm_compute. repeat split; reflexivity. Qed.
Example C74_ex_words :
  (exists (inst : KState Goldilocks) (rho : Var -> Goldilocks), describes (circuit blank (c74_mix 99)) inst /\ satisfies inst rho /\ map toZ (inputs_of inst rho) = [2989522616]%Z) /\
  (forall (inst : KState Goldilocks), describes (circuit blank (c74_mix 99)) inst ->
     ~ exists rho, satisfies inst rho /\ read_choices rho (c74_mix 99) = c74_mixed true true).
Proof.
  destruct c74_mix_means as (A & _ & _ & D). destruct (shown_some _ _ A) as (oa & Ea & Va). split.
  - destruct (C74_complete _ _ _ gold_bits Ea) as (inst & _ & Hd & _). destruct (proj2 (C74_statement _ inst oa gold_bits Hd) (ex_intro _ _ Ea)) as (rho & Hs & Hi).
    exists inst, rho. rewrite Hi. exact (conj Hd (conj Hs Va)).
  - intros inst Hd (rho & Hs & E). pose proof (C74_sound _ _ _ Hd Hs) as M. rewrite E in M. rewrite M in D. discriminate D.
Qed.
