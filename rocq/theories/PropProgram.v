(** Property theorem C76: programs of gadget calls as statements to be proved.  C74 says what the constraints of a program mean, C71 when keys
    serve every prover; here is what follows for the users of a program. *)
From Coq Require Import String.
From Coq Require Import ZArith List Bool Lia Field.
From Verif Require Import Prelude PrimeField Fields FModule Circuit Multicore Multiexp MultiexpProof PropMultiexp Assembly AssemblyProof PropAssembly Loops Groth16
  Spec GeneratorProof ProverProof PropGenerator PropGroth16 Scope PropScope PropSound PropSha256d PropCovered PropDense Straight StraightProof PropStraight.
From Verif Require PropDomain.
From Verif Require Import DomainProof.
Import Circuit.
Import ListNotations.
Local Open Scope nat_scope.

(** ** Specification *)

(** A check on constraints: each auxiliary variable is constrained, and none that is written down cancels. *)
Definition constrainedb {P : PrimeField} (inst : KState P) : bool :=
  forallb (fun i => existsb (fun k : Constraint P => negb (feqb (coefficient (fst (fst k)) (Aux i)) fzero && feqb (coefficient (snd (fst k)) (Aux i)) fzero && feqb (coefficient (snd k) (Aux i)) fzero))
    (k_cons inst)) (seq 0 (k_aux inst)).
Definition ready {P : PrimeField} (inst : KState P) : bool := constrainedb inst && uncancelledb inst.

(** At most 2^32 - 1 variables of either kind and 2^32 constraints. *)
Definition fits {P : PrimeField} (inst : KState P) : Prop :=
  (Z.of_nat (k_inputs inst) < 2 ^ 32)%Z /\ (Z.of_nat (k_aux inst) < 2 ^ 32)%Z /\ (Z.of_nat (length (k_cons inst)) <= 2 ^ 32)%Z.

(** Keys are generated with which everyone who knows values for which the program runs through gets a proof, and it verifies for what the
    program makes public. *)
Definition keys_work {P : PrimeField} {E : Engine P} (wk : Worker) (code : list (stmt P)) (g1 : E_G1 E) (g2 : E_G2 E) (alpha beta gamma delta tau : P) : Prop :=
  exists params, generate_parameters wk (circuit blank code) g1 g2 alpha beta gamma delta tau = Done (Ok params) /\
    forall wk' ln_ceil w outs r s, wf_worker wk' -> sane_ln_ceil ln_ceil -> meaning w [] code = Some outs ->
    exists proof, create_proof wk' ln_ceil (circuit w code) params r s = Done (Ok proof) /\
      verify_proof (prepare_verifying_key (p_vk params)) proof outs = Done (Ok tt).

(** ** Auxiliary *)
Section Aux.
Context {P : PrimeField}.
Lemma constrainedb_spec (inst : KState P) : constrainedb inst = true <-> all_constrained inst.
Proof.
  assert (X : forall (k : Constraint P) v, negb (feqb (coefficient (fst (fst k)) v) fzero && feqb (coefficient (snd (fst k)) v) fzero && feqb (coefficient (snd k) v) fzero) = true <-> constrained_by k v).
  { intros [[a b] c] v. cbn [fst snd constrained_by]. destruct (feqb_spec (coefficient a v) fzero), (feqb_spec (coefficient b v) fzero), (feqb_spec (coefficient c v) fzero); cbn; intuition congruence. }
  unfold constrainedb, all_constrained. rewrite forallb_forall. split.
  - intros H i Hi. specialize (H i (proj2 (in_seq _ _ _) (conj (Nat.le_0_l _) Hi))). apply existsb_exists in H as (k & Hk & H). apply X in H. eauto.
  - intros H i Hi. apply in_seq in Hi. destruct (H i ltac:(lia)) as (k & Hk & Hc). apply existsb_exists. exists k. split; [exact Hk|]. now apply X.
Qed.
Lemma uncancelledb_iff (inst : KState P) : uncancelledb inst = true <-> uncancelled inst.
Proof.
  split; [apply uncancelledb_spec|]. intros H. unfold uncancelledb. apply andb_true_iff. split; apply forallb_forall; intros i Hi; apply in_seq in Hi.
  - destruct (H (Aux i) (proj2 Hi)) as [A B]. rewrite <- someb_spec, <- writtenb_spec in A, B. specialize (A I).
    apply andb_true_iff. split; [destruct (writtenb part_A _ _)|destruct (writtenb part_B _ _)]; cbn [implb]; auto.
  - destruct (H (Input i) (proj2 Hi)) as [_ B]. rewrite <- someb_spec, <- writtenb_spec in B. destruct (writtenb part_B _ _); cbn [implb]; auto.
Qed.
Lemma ready_iff (inst : KState P) : ready inst = true <-> all_constrained inst /\ uncancelled inst.
Proof. unfold ready. rewrite andb_true_iff, constrainedb_spec, uncancelledb_iff. tauto. Qed.
Lemma fits_addressable inst (wit : PState P) : fits inst -> same_circuit inst wit -> addressable wit.
Proof. intros (A & B & C) (S1 & S2 & S3). unfold addressable. now rewrite <- S1, <- S2, <- S3. Qed.
Lemma generated_constrained {E : Engine P} (g1 : E_G1 E) (g2 : E_G2 E) alpha beta gamma delta tau wk circuit (inst : KState P) params : wf_worker wk -> describes circuit inst ->
  generate_parameters wk circuit g1 g2 alpha beta gamma delta tau = Done (Ok params) -> all_constrained inst.
Proof.
  intros Hw Hd Hg. destruct (generate_ok_inv g1 g2 alpha beta gamma delta tau wk circuit params Hw Hg) as (s & ks & e & _ & _ & Ek & _ & _ & _ & _ & _ & Ep & Ex).
  unfold describes in *. rewrite Hd in Ek. assert (ks = inst) by congruence. subst ks.
  apply constrainedb_spec. destruct (constrainedb inst) eqn:Ec; [reflexivity|]. exfalso.
  assert (N : exists i, i < k_aux inst /\ forall k, In k (k_cons inst) -> ~ constrained_by k (Aux i)).
  { unfold constrainedb in Ec. rewrite <- not_true_iff_false, forallb_forall in Ec.
    destruct (existsb (fun i => negb (existsb (fun k : Constraint P => negb (feqb (coefficient (fst (fst k)) (Aux i)) fzero && feqb (coefficient (snd (fst k)) (Aux i)) fzero && feqb (coefficient (snd k) (Aux i)) fzero)) (k_cons inst))) (seq 0 (k_aux inst))) eqn:Ee.
    - apply existsb_exists in Ee as (i & Hi & He). apply in_seq in Hi. exists i. split; [lia|]. intros [[a b] c] Hk Hc. apply negb_true_iff in He. rewrite <- not_true_iff_false in He. apply He.
      apply existsb_exists. exists (a, b, c). split; [exact Hk|]. cbn [fst snd constrained_by] in *.
      destruct (feqb_spec (coefficient a (Aux i)) fzero), (feqb_spec (coefficient b (Aux i)) fzero), (feqb_spec (coefficient c (Aux i)) fzero); cbn; auto; tauto.
    - exfalso. apply Ec. intros i Hi. destruct (existsb _ (k_cons inst)) eqn:E1; [reflexivity|]. exfalso. rewrite <- not_true_iff_false in Ee. apply Ee. apply existsb_exists. exists i. split; [exact Hi|]. now rewrite E1. }
  destruct N as (i & Hi & Hno).
  assert (Z : forall sel, (forall c : Constraint P, In c (k_cons inst) -> coefficient (sel c) (Aux i) = fzero) -> qap tau e sel (k_cons inst) (Aux i) = fzero).
  { intros sel H. unfold qap. rewrite (at_tau_ext e tau _ (fun _ => fzero)); [apply at_tau_zero|]. intros k _. rewrite col_coeff_column. cbn [Nat.leb].
    destruct (nth_error (k_cons inst) (k - 0)) as [c|] eqn:Ecc; auto. rewrite <- coefficient_eq. apply (H c). eapply nth_error_In; eauto. }
  assert (C3 : forall a b c, In (a, b, c) (k_cons inst) -> coefficient a (Aux i) = fzero /\ coefficient b (Aux i) = fzero /\ coefficient c (Aux i) = fzero).
  { intros a b c Hk. specialize (Hno _ Hk). cbn [constrained_by] in Hno.
    destruct (feqb_spec (coefficient a (Aux i)) fzero), (feqb_spec (coefficient b (Aux i)) fzero), (feqb_spec (coefficient c (Aux i)) fzero); tauto. }
  assert (X : existsb is_identity (p_l params) = true); [|congruence].
  rewrite Ep. apply existsb_exists. exists gzero. split; [|unfold is_identity; destruct (geqb_spec (gzero : E_G1 E) gzero); congruence].
  unfold params_of. cbn [p_l]. apply in_map_iff. exists i. split; [|apply in_seq; lia]. unfold ext_scalar.
  rewrite !Z; [|intros [[a b] c] Hc; cbn [sel_a sel_b sel_c fst snd]; apply (C3 a b c Hc)..]. rewrite <- (gmul_0_l g1). f_equal. apply c36_zero.
Qed.
End Aux.

(** * C76 *)
Section C76.
Context {P : PrimeField} {E : Engine P}.
Implicit Types (code : list (stmt P)).

(** If the check passes, keys work for all toxic waste but a small part. *)
Theorem C76_keys_work (wk : Worker) code (inst : KState P) e (g1 : E_G1 E) (g2 : E_G2 E) (gamma delta : P) (D : list P) (bad : list (P * P * P)) :
  64 <= num_bits P -> wf_worker wk -> describes (circuit blank code) inst -> fits inst -> ready inst = true ->
  PropDomain.domain_exponent (length (k_cons inst)) e -> e < two_adicity P -> (wk = Single -> 0 < e /\ 0 < k_aux inst) ->
  g1 <> gzero -> g2 <> gzero -> gamma <> fzero -> delta <> fzero -> NoDup D -> NoDup bad ->
  (forall alpha beta tau, In (alpha, beta, tau) bad -> In alpha D /\ In beta D /\ In tau D /\ ~ keys_work wk code g1 g2 alpha beta gamma delta tau) ->
  length bad <= (2 ^ e + 1 + (2 * k_inputs inst + 2 * k_aux inst) * (2 ^ e - 1) + k_aux inst * (2 ^ e + 1)) * length D ^ 2.
Proof.
  intros H64 Hw Hd Hf Hr He HS Hsingle Hg1 Hg2 Hg Hdl ND NB HB. apply ready_iff in Hr as [Hc Hu].
  assert (K : exists s, synthesize_keypair (circuit blank code) = Done (Ok s)).
  { destruct (C66_circuits _ _ (straight_in_scope code blank)) as [K _]. unfold describes in Hd. destruct (synthesize_keypair _) as [[s|er]|]; [eauto| |]; rewrite Hd in K; discriminate K. }
  destruct K as [s Hs]. apply (C71_keys_serve wk (circuit blank code) s inst e g1 g2 gamma delta D bad); auto.
  intros alpha beta tau Hin. destruct (HB alpha beta tau Hin) as (A & B & C & N). repeat (split; [assumption|]). intros (params & Hgen & Hserve). apply N.
  exists params. split; [exact Hgen|]. intros wk' ln_ceil w outs r s0 Hw' Hln Hm.
  destruct (C74_complete code w outs H64 Hm) as (inst' & wit & A' & B' & C' & D' & I'). rewrite <- (one_instance _ _ _ Hd A') in C'.
  destruct (C74_synthesis code w outs H64 Hm) as (_ & t & Ht).
  destruct (Hserve wk' ln_ceil _ t wit r s0 Hw' Hln Ht B' C' (fits_addressable _ _ Hf C') D') as (proof & Hp & V). exists proof. split; [exact Hp|]. rewrite (public_of _ _ I') in V. exact V.
Qed.

(** The check is exact, for any circuit: if it fails, no keys whatever and no prover whatever get to a proof. *)
Theorem C76_check_exact (wk wk' : Worker) ln_ceil (keygen_circuit prover_circuit : prog P (res unit)) (inst : KState P) wit (g1 : E_G1 E) (g2 : E_G2 E) alpha beta gamma delta tau params r s proof :
  wf_worker wk -> wf_worker wk' -> sane_ln_ceil ln_ceil -> describes keygen_circuit inst -> assigns prover_circuit wit -> same_circuit inst wit -> addressable wit -> g1 <> gzero -> g2 <> gzero ->
  generate_parameters wk keygen_circuit g1 g2 alpha beta gamma delta tau = Done (Ok params) -> create_proof wk' ln_ceil prover_circuit params r s = Done (Ok proof) -> ready inst = true.
Proof.
  intros Hw Hw' Hln Hd Ha Hs Had Hg1 Hg2 Hg Hc. apply ready_iff. split; [exact (generated_constrained g1 g2 alpha beta gamma delta tau wk keygen_circuit inst params Hw Hd Hg)|].
  exact (C71_needed wk wk' ln_ceil keygen_circuit prover_circuit inst wit g1 g2 alpha beta gamma delta tau params r s proof Hw Hw' Hln Hd Ha Hs Had Hg1 Hg2 Hg Hc).
Qed.

(** Values with the same public numbers give the same proofs, up to a shift of the randomness. *)
Theorem C76_hides (wk wk1 wk2 : Worker) ln_ceil1 ln_ceil2 code (inst : KState P) e w1 w2 outs (g1 : E_G1 E) (g2 : E_G2 E) alpha beta gamma delta tau params :
  64 <= num_bits P -> wf_worker wk -> wf_worker wk1 -> wf_worker wk2 -> sane_ln_ceil ln_ceil1 -> sane_ln_ceil ln_ceil2 ->
  describes (circuit blank code) inst -> fits inst -> PropDomain.domain_exponent (length (k_cons inst)) e -> g1 <> gzero -> g2 <> gzero -> tau <> fzero -> fpow tau (2 ^ e) <> fone ->
  generate_parameters wk (circuit blank code) g1 g2 alpha beta gamma delta tau = Done (Ok params) ->
  meaning w1 [] code = Some outs -> meaning w2 [] code = Some outs ->
  exists dr ds, forall r s proof, create_proof wk1 ln_ceil1 (circuit w1 code) params r s = Done (Ok proof) <-> create_proof wk2 ln_ceil2 (circuit w2 code) params (r + dr)%F (s + ds)%F = Done (Ok proof).
Proof.
  intros H64 Hw Hw1 Hw2 Hl1 Hl2 Hd Hf He Hg1 Hg2 Ht Htm Hg M1 M2.
  destruct (C74_complete code w1 outs H64 M1) as (i1 & wit1 & A1 & B1 & C1 & D1 & I1). rewrite <- (one_instance _ _ _ Hd A1) in C1.
  destruct (C74_complete code w2 outs H64 M2) as (i2 & wit2 & A2 & B2 & C2 & D2 & I2). rewrite <- (one_instance _ _ _ Hd A2) in C2.
  destruct (C74_synthesis code w1 outs H64 M1) as (_ & t1 & T1). destruct (C74_synthesis code w2 outs H64 M2) as (_ & t2 & T2).
  assert (Hp : public_inputs wit1 = public_inputs wit2) by (unfold public_inputs; now rewrite I1, I2).
  destruct (C39_identical_proof g1 g2 alpha beta gamma delta tau wk wk1 wk2 ln_ceil1 ln_ceil2 _ _ _ inst wit1 wit2 params e t2 Hw Hw1 Hw2 Hl1 Hl2 Hg Hd
    B1 C1 (fits_addressable _ _ Hf C1) D1 B2 C2 (fits_addressable _ _ Hf C2) D2 T2 Hp Hg1 Hg2 He Ht Htm) as (dr & ds & X).
  exists dr, ds. intros r s proof. split; [apply X|]. intros Hc2.
  (* the prover succeeds with the first values too, since it does with the second; then the proofs agree *)
  destruct (generate_ok_inv g1 g2 alpha beta gamma delta tau wk _ params Hw Hg) as (s0 & ks & e1 & _ & _ & Ek & He1 & _ & HS & _).
  unfold describes in Hd, Ek. rewrite Hd in Ek. assert (ks = inst) by congruence. subst ks.
  assert (e1 = e) by (apply (least_pow_unique (List.length (k_cons inst))); now apply PropDomain.domain_exponent_least). subst e1.
  destruct (polys_exist inst e HS) as (U & V & W & HQ).
  destruct (C37_prover_succeeds_iff g1 g2 alpha beta gamma delta tau wk wk1 ln_ceil1 _ _ inst wit1 params t1 e U V W r s Hw Hw1 Hl1 Hg Hd B1 C1 (fits_addressable _ _ Hf C1) T1 Hg1 Hg2 He Ht Htm HQ) as [[_ R1] _].
  destruct (C37_prover_succeeds_iff g1 g2 alpha beta gamma delta tau wk wk2 ln_ceil2 _ _ inst wit2 params t2 e U V W (r + dr)%F (s + ds)%F Hw Hw2 Hl2 Hg Hd B2 C2 (fits_addressable _ _ Hf C2) T2 Hg1 Hg2 He Ht Htm HQ) as [[R2 _] _].
  specialize (R2 (ex_intro _ proof Hc2)).
  assert (Bk : bookkeeping_agrees wit1 U V tau).
  { destruct C1 as (L1 & L1' & L1''), C2 as (L2 & L2' & L2''). unfold bookkeeping_agrees, occurs in *. rewrite <- L1, <- L1', <- L1''. rewrite <- L2, <- L2', <- L2'' in R2. exact R2. }
  destruct (R1 Bk) as [proof1 Hc1]. pose proof (X r s proof1 Hc1) as Y. rewrite Hc2 in Y. injection Y as ->. exact Hc1.
Qed.
End C76.
Print Assumptions C76_keys_work.
Print Assumptions C76_check_exact.
Print Assumptions C76_hides.

(** The program of [C74_ex] passes the check, and two choices of its numbers make the same numbers public. *)
Definition c76_check (code : list (stmt Goldilocks)) : option (bool * nat * nat * nat) :=
  match synthesize (ShapeCS Goldilocks) {| k_inputs := 0; k_aux := 0; k_cons := [] |} k_inputs (circuit blank code) with
  | Done (Ok i) => Some (ready i, k_inputs i, k_aux i, length (k_cons i)) | _ => None end.
(** A product known to be made of two factors: 6 = 2 * 3 = 1 * 6. *)
Definition c76_code : list (stmt Goldilocks) := [SNum; SNum; SMul 0 1; SNonzero 2; SInput 2].
Definition c76_values (x y : Z) : list (option (val Goldilocks)) := [Some (VNum (ofZ x)); Some (VNum (ofZ y))].
Lemma c76_computed : c76_check c74_code = Some (true, 3, 9, 13) /\ c76_check c76_code = Some (true, 2, 4, 5) /\
  c76_check [SNum; SNum; SMul 0 0; SInput 2] = Some (false, 2, 3, 4) /\
  shown (meaning (c76_values 2 3) [] c76_code) = Some [6]%Z /\ shown (meaning (c76_values 1 6) [] c76_code) = Some [6]%Z.
Proof. vm_compute. repeat split; reflexivity. Qed.
Lemma c76_instance code b x y z : c76_check code = Some (b, x, y, z) -> exists inst, describes (circuit blank code) inst /\ ready inst = b /\ k_inputs inst = x /\ k_aux inst = y /\ length (k_cons inst) = z.
Proof.
  unfold c76_check, describes. destruct (synthesize _ _ _ (circuit blank code)) as [[inst|]|]; intros H; try discriminate H.
  exists inst. split; [reflexivity|]. repeat split; congruence.
Qed.
Example C76_ex :
  (exists inst outs, describes (circuit blank c76_code) inst /\ ready inst = true /\ fits inst /\ PropDomain.domain_exponent (length (k_cons inst)) 3 /\ 3 < two_adicity Goldilocks /\ k_aux inst = 4 /\
     map toZ outs = [6]%Z /\ meaning (c76_values 2 3) [] c76_code = Some outs /\ meaning (c76_values 1 6) [] c76_code = Some outs) /\
  (exists inst, describes (circuit blank c74_code) inst /\ ready inst = true) /\
  (exists inst, describes (circuit blank [SNum; SNum; SMul 0 0; SInput 2] : prog Goldilocks _) inst /\ ready inst = false).
Proof.
  destruct c76_computed as (A & B & C & D & E). split; [|split].
  - destruct (c76_instance _ _ _ _ _ B) as (inst & Hd & Hr & Hi & Ha & Hc). destruct (shown_some _ _ D) as (o & Eo & Vo). destruct (shown_some _ _ E) as (o' & Eo' & Vo').
    assert (o' = o) as ->.
    { rewrite <- Vo in Vo'. clear - Vo'. revert o Vo'. induction o' as [|x l IH]; intros [|y m] H; cbn [map] in H; try discriminate; [reflexivity|]. inversion H. f_equal; [|now apply IH].
      now apply (toZ_inj (P := Goldilocks)). }
    exists inst, o. split; [exact Hd|]. split; [exact Hr|]. split; [unfold fits; rewrite Hi, Ha, Hc; cbn; lia|]. rewrite Hc. split; [split; [cbn; lia|intros [|[|[|k]]] Hk; cbn in Hk |- *; lia]|].
    split; [cbn; lia|]. split; [exact Ha|]. split; [exact Vo|]. split; [exact Eo|exact Eo'].
  - destruct (c76_instance _ _ _ _ _ A) as (inst & Hd & Hr & _). eauto.
  - destruct (c76_instance _ _ _ _ _ C) as (inst & Hd & Hr & _). eauto.
Qed.
