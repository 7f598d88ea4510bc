(** Property theorem C77: tidy programs can be used with Groth16.  C76 has a check on the constraints of a program ([ready]) that decides whether
    keys for it work; here is a check on its text. *)
From Coq Require Import String.
From Coq Require Import ZArith List Bool Lia Field.
From Verif Require Import Prelude PrimeField Fields FModule Circuit Multicore Multiexp MultiexpProof PropMultiexp Assembly AssemblyProof PropAssembly Loops Groth16
  Spec GeneratorProof ProverProof PropGenerator PropGroth16 Scope Covered PropScope PropSound PropSha256d PropCovered PropDense Mimc Straight StraightProof PropStraight PropProgram Dense DenseSha Tidy TidyProof.
From Verif Require PropDomain.
From Verif Require Import DomainProof.
Import Circuit.
Import ListNotations.
Local Open Scope nat_scope.

(** The specification is that of C76: [ready] (computed from the constraints) and [keys_work].  The check on the text is [tidy] (Tidy.v), which goes
    through the statements once and knows of each result only whether it is a bit or a number and which results its variable can come from. *)

Section C77.
Context {P : PrimeField}.
Add Field PFc77 : (F_field P).

(** ** C77 *)

(** Whatever values are given, the constraints of a tidy program pass the check of C76. *)
Theorem C77_tidy_ready (code : list (stmt P)) w (inst : KState P) : tidy code = true -> describes (circuit w code) inst -> ready inst = true.
Proof.
  intros HT Hd. set (G := fun v => existsb (fun k : Constraint P => negb (feqb (cf v (fst (fst k))) fzero) && negb (feqb (cf v (snd (fst k))) fzero)) (k_cons inst)).
  assert (HG : forall v, G v = true -> exists k, In k (k_cons inst) /\ cf v (fst (fst k)) <> fzero /\ cf v (snd (fst k)) <> fzero).
  { intros v Hv. apply existsb_exists in Hv as (k & Hk & Hb). apply andb_true_iff in Hb as [Ha Hb]. exists k. split; [exact Hk|].
    destruct (feqb_spec (cf v (fst (fst k))) fzero); [discriminate|]. destruct (feqb_spec (cf v (snd (fst k))) fzero); [discriminate|]. auto. }
  assert (HG1 : forall v, G v = true -> exists k, In k (k_cons inst) /\ hits v k) by (intros v Hv; destruct (HG v Hv) as (k & Hk & Ha & _); exists k; split; [exact Hk|now left]).
  assert (HG2 : forall k v, In k (k_cons inst) -> cf v (fst (fst k)) <> fzero -> cf v (snd (fst k)) <> fzero -> G v = true).
  { intros k v Hk Ha Hb. apply existsb_exists. exists k. split; [exact Hk|]. destruct (feqb_spec (cf v (fst (fst k))) fzero); [contradiction|]. destruct (feqb_spec (cf v (snd (fst k))) fzero); [contradiction|]. reflexivity. }
  unfold describes, synthesize in Hd. rewrite start_s in Hd. unfold circuit in Hd. rewrite run_bindq in Hd.
  destruct (run (ShapeCS P) (compile w 0 [] code) shape_one) as [[[rr|err] t]|] eqn:Er; cbn [obind fst snd run] in Hd; try discriminate Hd.
  rewrite shape_enforce_inputs in Hd. cbn [obind] in Hd. apply Done_inj in Hd. injection Hd as Hd.
  assert (Hc : k_cons inst = k_cons t ++ map input_constraint (seq 0 (k_inputs t))) by (subst inst; reflexivity).
  assert (Ha : k_aux inst = k_aux t) by (subst inst; reflexivity).
  destruct (compile_tidy G (k_cons inst) HG2 HG1 code w 0 [] [] [] (fun _ => 0) shape_one rr t) as (new & En & S & _ & A).
  - apply at_nil.
  - intros [|i]; discriminate.
  - constructor.
  - cbn. lia.
  - exact HT.
  - exact Er.
  - rewrite Hc. apply incl_appl, incl_refl.
  - cbn [shape_one k_cons app] in En. subst new. rewrite Forall_forall in S. apply ready_iff. split.
    + intros i Hi. rewrite Ha in Hi. destruct (A i) as (k & Hk & Hh); [cbn; lia|]. exists k. split; [exact Hk|]. unfold hits in Hh. rewrite !cf_coefficient in Hh.
      destruct k as [[x y] z]. exact Hh.
    + intros v _. split.
      * intros Hv (k & c & Hk & Hin & Hnz). destruct (G v) eqn:Eg; [destruct (HG v Eg) as (k' & K1 & K2 & _); exists k'; split; [exact K1|]; unfold part_A; now rewrite <- cf_coefficient|].
        exists k. split; [exact Hk|]. rewrite Hc in Hk. apply in_app_or in Hk as [Hk|Hk].
        -- unfold part_A. rewrite <- cf_coefficient. apply (proj1 (S k Hk)); [destruct v; [contradiction|exact I]|exact Eg|exact (ex_intro _ c (conj Hin Hnz))].
        -- exfalso. apply in_map_iff in Hk as (i & <- & _). destruct Hin as [Hin|[]]. injection Hin as <- _. exact Hv.
      * intros (k & c & Hk & Hin & Hnz). destruct (G v) eqn:Eg; [destruct (HG v Eg) as (k' & K1 & _ & K2); exists k'; split; [exact K1|]; unfold part_B; now rewrite <- cf_coefficient|].
        exists k. split; [exact Hk|]. rewrite Hc in Hk. apply in_app_or in Hk as [Hk|Hk].
        -- unfold part_B. rewrite <- cf_coefficient. apply (proj2 (S k Hk)); [exact I|exact Eg|exact (ex_intro _ c (conj Hin Hnz))].
        -- exfalso. apply in_map_iff in Hk as (i & <- & _). destruct Hin.
Qed.

Context {E : Engine P}.

(** So keys for a tidy program serve everyone who knows values with which it runs through, for all but few choices of [alpha], [beta], [tau]. *)
Theorem C77_keys_work (wk : Worker) code (inst : KState P) e (g1 : E_G1 E) (g2 : E_G2 E) (gamma delta : P) (D : list P) (bad : list (P * P * P)) :
  64 <= num_bits P -> wf_worker wk -> tidy code = true -> describes (circuit blank code) inst -> fits inst ->
  PropDomain.domain_exponent (length (k_cons inst)) e -> e < two_adicity P -> (wk = Single -> 0 < e /\ 0 < k_aux inst) ->
  g1 <> gzero -> g2 <> gzero -> gamma <> fzero -> delta <> fzero -> NoDup D -> NoDup bad ->
  (forall alpha beta tau, In (alpha, beta, tau) bad -> In alpha D /\ In beta D /\ In tau D /\ ~ keys_work wk code g1 g2 alpha beta gamma delta tau) ->
  length bad <= (2 ^ e + 1 + (2 * k_inputs inst + 2 * k_aux inst) * (2 ^ e - 1) + k_aux inst * (2 ^ e + 1)) * length D ^ 2.
Proof. intros H64 Hw HT Hd Hf. exact (C76_keys_work wk code inst e g1 g2 gamma delta D bad H64 Hw Hd Hf (C77_tidy_ready code blank inst HT Hd)). Qed.
End C77.
Print Assumptions C77_tidy_ready.
Print Assumptions C77_keys_work.

(** The programs of C74 and C76, one of them a hash of 25 thousand constraints which need not be looked at: tidy. *)
(** Not tidy, and rightly so: a number without a constraint; the sum of a word and its opposite (the variable of the AND cancels). *)
Definition c77_free : list (stmt Goldilocks) := [SNum; SNum; SMul 0 0; SInput 2].
Definition c77_opposites : list (stmt Goldilocks) := [SBit; SBit; SAnd 0 1; SNot 2; SConst false; SAdd [2 :: repeat 4 31; 3 :: repeat 4 31]].
Definition c77_gates : list (stmt Goldilocks) :=
  [SBit; SBit; SAnd 0 1; SConst false; SAdd [2 :: repeat 3 31; 0 :: repeat 3 31]; SNum; SLinear (fzero, [(fone, 36); (ofZ 3, 2)]) (ofZ 2, []) (ofZ 7, [])].
Definition c77_sums : list (stmt Goldilocks) :=
  [SNum; SOf 0; SBit; SBit; SBit; SAnd 2 3; SAddBit 1 5 (ofZ 5); SLookupNeg 2 3 4 [(ofZ 3, ofZ 4); (ofZ 5, ofZ 6); (ofZ 7, ofZ 8); (ofZ 9, ofZ 11)];
   SLinear (fzero, [(fone, 6); (ofZ 2, 7); (ofZ 3, 8)]) (ofZ 2, []) (ofZ 7, [])].
Definition c77_cancelled : list (stmt Goldilocks) := [SNum; SOf 0; SLinear (fone, [(fone, 0); ((- (1))%F, 1)]) (fone, []) (fone, [])].
Definition c77_blake : list (stmt Goldilocks) := repeat SBit 8 ++ [SBlake2s (seq 0 8) [1; 2; 3; 4; 5; 6; 7; 8]%Z; SPack (seq 8 256)].
Lemma c77_blake_means : tidy c77_blake = true /\
  shown (meaning (repeat (Some (VBit true)) 8) [] c77_blake) = Some [3201362210295013614; 8766203106085605093; 2856788007317968018; 5863181680672830789; 10]%Z.
Proof. vm_compute. split; reflexivity. Qed.
Lemma c77_computed : tidy c74_code = true /\ tidy c76_code = true /\ tidy c74_hash = true /\ tidy c77_gates = true /\ tidy c77_free = false /\ tidy c77_opposites = false /\ tidy c77_sums = true /\ tidy c77_cancelled = false /\
  c76_check c77_gates = Some (true, 1, 37, 39) /\ c76_check c77_free = Some (false, 2, 3, 4) /\ c76_check c77_opposites = Some (false, 1, 36, 38) /\
  c76_check c77_sums = Some (true, 1, 7, 8) /\ c76_check c77_cancelled = Some (false, 1, 1, 2).
Proof. vm_compute. repeat split; reflexivity. Qed.
Example C77_ex :
  (exists inst, describes (circuit blank c77_blake) inst /\ ready inst = true) /\
  (exists inst, describes (circuit blank c74_hash) inst /\ ready inst = true) /\
  (exists inst, describes (circuit blank c77_gates) inst /\ ready inst = true) /\
  tidy c77_free = false /\ (exists inst, describes (circuit blank c77_free) inst /\ ready inst = false) /\
  tidy c77_opposites = false /\ (exists inst, describes (circuit blank c77_opposites) inst /\ ready inst = false) /\
  (exists inst, describes (circuit blank c77_sums) inst /\ ready inst = true) /\
  tidy c77_cancelled = false /\ (exists inst, describes (circuit blank c77_cancelled) inst /\ ready inst = false).
Proof.
  split.
  { destruct c77_blake_means as [T M]. destruct (shown_some _ _ M) as (o & Eo & _). destruct (C74_complete _ _ _ gold_bits Eo) as (inst & _ & Hd & _).
    exists inst. split; [exact Hd|]. exact (C77_tidy_ready _ _ _ T Hd). }
  destruct c77_computed as (_ & _ & A & B & C & D & A' & B' & E & F & H & I & J). split; [|split; [|split; [|split; [|split; [|split; [|split; [|split]]]]]]].
  - destruct c74_means as (_ & _ & _ & M). destruct (shown_some _ _ M) as (o & Eo & _). destruct (C74_complete _ _ _ gold_bits Eo) as (inst & _ & Hd & _).
    exists inst. split; [exact Hd|]. exact (C77_tidy_ready _ _ _ A Hd).
  - destruct (c76_instance _ _ _ _ _ E) as (inst & Hd & _). exists inst. split; [exact Hd|]. exact (C77_tidy_ready _ _ _ B Hd).
  - exact C.
  - destruct (c76_instance _ _ _ _ _ F) as (inst & Hd & Hr & _). eauto.
  - exact D.
  - destruct (c76_instance _ _ _ _ _ H) as (inst & Hd & Hr & _). eauto.
  - destruct (c76_instance _ _ _ _ _ I) as (inst & Hd & _). exists inst. split; [exact Hd|]. exact (C77_tidy_ready _ _ _ A' Hd).
  - exact B'.
  - destruct (c76_instance _ _ _ _ _ J) as (inst & Hd & Hr & _). eauto.
Qed.
