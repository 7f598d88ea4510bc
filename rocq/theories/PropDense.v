(** Property theorem C71: when keys serve every prover, and that those of the circuit of the crate documentation do. *)
From Coq Require Import String.
From Coq Require Import ZArith List Bool Lia Field.
From Verif Require Import Prelude PrimeField Fields FModule Circuit Loops Mimc BooleanGadget NumGadget Multipack MultiEq UInt32 Sha256
  Multicore Domain FFTProof DomainProof Quotient Multiexp MultiexpProof PropMultiexp Assembly AssemblyProof Groth16 GeneratorProof ProverProof Roots MPoly Scope Covered
  PropAssembly PropGenerator PropGroth16 PropRandom PropScope Sha256d Sha256dProof Bls PropSha256d PropCovered Dense DenseSha.
From Verif Require PropDomain.
Import ListNotations.
Local Open Scope nat_scope.

(** ** Specification *)

(** The prover expects a point in the keys for each auxiliary variable written down in an A part and for each variable written down in a B part.
    In the part in question, the coefficients of such a variable must not add up to zero in all constraints. *)
Definition uncancelled {P : PrimeField} (inst : KState P) : Prop :=
  forall v, match v with Input i => i < k_inputs inst | Aux i => i < k_aux inst end ->
  (match v with Input _ => False | Aux _ => True end ->
     (exists k c, In k (k_cons inst) /\ In (v, c) (part_A k) /\ c <> fzero) -> exists k, In k (k_cons inst) /\ coefficient (part_A k) v <> fzero) /\
  ((exists k c, In k (k_cons inst) /\ In (v, c) (part_B k) /\ c <> fzero) -> exists k, In k (k_cons inst) /\ coefficient (part_B k) v <> fzero).

(** Keys are generated, and with them everyone with a satisfying assignment can make a proof that verifies. *)
Definition keys_serve {P : PrimeField} {E : Engine P} (w : Worker) (circuit : prog P (res unit)) (inst : KState P)
    (g1 : E_G1 E) (g2 : E_G2 E) (alpha beta gamma delta tau : P) : Prop :=
  exists params, generate_parameters w circuit g1 g2 alpha beta gamma delta tau = Done (Ok params) /\
    forall w' ln_ceil prover_circuit t wit r s, wf_worker w' -> sane_ln_ceil ln_ceil -> synthesize_prover prover_circuit = Done (Ok t) -> assigns prover_circuit wit ->
      same_circuit inst wit -> addressable wit -> satisfying wit ->
      exists proof, create_proof w' ln_ceil prover_circuit params r s = Done (Ok proof) /\ verify_proof (prepare_verifying_key (p_vk params)) proof (public_inputs wit) = Done (Ok tt).

Section C71.
Context {P : PrimeField}.
Add Field PFc71 : (F_field P).

(** ** Auxiliary *)
(** Triples at which one of finitely many polynomials is zero *)
Lemma few_common (D : list P) (ps : list (mp (P := P) 3 * list nat)) : forall bad : list (P * P * P), NoDup D -> NoDup bad ->
  (forall p ds, In (p, ds) ps -> ~ mzero 3 p /\ mdeg 3 p ds) ->
  (forall al be t, In (al, be, t) bad -> In al D /\ In be D /\ In t D) ->
  (forall al be t, In (al, be, t) bad -> existsb (fun pd => zero_at 3 (fst pd) [al; be; t]) ps = true) ->
  length bad <= list_sum (map (fun pd => list_sum (snd pd)) ps) * length D ^ 2.
Proof.
  induction ps as [|[p ds] ps IH]; intros bad ND NB Hps HD Hex.
  - destruct bad as [|[[al be] t] bad]; [cbn; lia|]. specialize (Hex al be t (or_introl eq_refl)). discriminate.
  - set (f := fun x : P * P * P => zero_at 3 p [fst (fst x); snd (fst x); snd x]).
    assert (S1 : length (filter f bad) <= list_sum ds * length D ^ 2).
    { destruct (Hps p ds (or_introl eq_refl)) as [Nz Dg].
      pose proof (few_zeros D 2 p ds (map (fun '(al, be, t) => [al; be; t]) (filter f bad)) ND Nz Dg) as F. rewrite map_length in F. apply F.
      - apply FinFun.Injective_map_NoDup; [|now apply NoDup_filter]. intros [[a b] c] [[a' b'] c'] X. now injection X as -> -> ->.
      - intros xs Hxs. apply in_map_iff in Hxs as ([[al be] t] & <- & Hin). apply filter_In in Hin as [Hin Hz]. destruct (HD al be t Hin) as (I1 & I2 & I3).
        split; [reflexivity|]. split; [intros x [<-|[<-|[<-|[]]]]; assumption|]. unfold f, zero_at in Hz. cbn [fst snd] in Hz.
        destruct (feqb_spec (mev 3 p [al; be; t]) fzero); [assumption|discriminate]. }
    assert (S2 : length (filter (fun x => negb (f x)) bad) <= list_sum (map (fun pd => list_sum (snd pd)) ps) * length D ^ 2).
    { apply IH; [exact ND|now apply NoDup_filter|intros q dq Hq; apply Hps; now right| |].
      - intros al be t Hx. apply filter_In in Hx as [Hx _]. auto.
      - intros al be t Hx. apply filter_In in Hx as [Hx Hf]. specialize (Hex al be t Hx). cbn [existsb fst] in Hex. unfold f in Hf. cbn [fst snd] in Hf.
        destruct (zero_at 3 p [al; be; t]); [discriminate|exact Hex]. }
    assert (S3 : length bad = length (filter f bad) + length (filter (fun x => negb (f x)) bad)).
    { clear. induction bad as [|x bad IH]; [reflexivity|]. cbn [filter length]. destruct (f x); cbn [negb length]; lia. }
    cbn [map list_sum fold_right snd]. change (fold_right Nat.add 0 (map (fun pd : mp 3 * list nat => list_sum (snd pd)) ps)) with (list_sum (map (fun pd : mp (P := P) 3 * list nat => list_sum (snd pd)) ps)).
    change (fold_right Nat.add 0 ds) with (list_sum ds). rewrite Nat.mul_add_distr_r. lia.
Qed.
(** A polynomial in [tau] *)
Definition in_tau (q : list P) : mp (P := P) 3 := [[q]].
Lemma mev1 (l : list P) t : mev 1 (l : mp (P := P) 1) [t] = peval l t.
Proof. rewrite <- hev_peval. unfold mev. f_equal. apply (map_id l). Qed.
Lemma in_tau_ev q al be t : mev 3 (in_tau q) [al; be; t] = peval q t.
Proof. rewrite <- mev1. unfold in_tau. cbn [mev map hev]. ring. Qed.
Lemma in_tau_zero q : ~ all_zero q -> ~ mzero 3 (in_tau q).
Proof. intros H Z. apply H. unfold in_tau in Z. cbn [mzero] in Z. inversion_clear Z as [|? ? Z1 _]. inversion_clear Z1 as [|? ? Z2 _]. exact Z2. Qed.
Lemma deg1 (q : list P) d : length q <= S d -> mdeg 1 (q : mp (P := P) 1) [d].
Proof. intros H. split; [exact H|apply Forall_forall; reflexivity]. Qed.
Lemma in_tau_deg q d : length q <= S d -> mdeg 3 (in_tau q) [0; 0; d].
Proof.
  intros H. unfold in_tau. repeat match goal with
    | |- mdeg (S (S _)) _ _ => split; [cbn; lia|]
    | |- mdeg 1 _ _ => apply deg1; exact H
    | |- Forall _ [] => constructor
    | |- Forall _ (_ :: _) => constructor
    end.
Qed.

Context {E : Engine P}.

(** ** C71 *)

(** If all variables are constrained (C70) and none cancels, then for all but a fraction of about [(2 * k_inputs + 3 * k_aux) * 2^e / |D|] of the
    values of [alpha], [beta] and [tau] in [D], the keys serve every prover (not counting [gamma] or [delta] zero and circuits too large for the field) ... *)
Theorem C71_keys_serve (w : Worker) (circuit : prog P (res unit)) s (inst : KState P) e (g1 : E_G1 E) (g2 : E_G2 E) (gamma delta : P) (D : list P) (bad : list (P * P * P)) :
  wf_worker w -> synthesize_keypair circuit = Done (Ok s) -> describes circuit inst -> all_constrained inst -> uncancelled inst ->
  PropDomain.domain_exponent (length (k_cons inst)) e -> e < two_adicity P -> (w = Single -> 0 < e /\ 0 < k_aux inst) ->
  g1 <> gzero -> g2 <> gzero -> gamma <> fzero -> delta <> fzero -> NoDup D -> NoDup bad ->
  (forall alpha beta tau, In (alpha, beta, tau) bad -> In alpha D /\ In beta D /\ In tau D /\ ~ keys_serve w circuit inst g1 g2 alpha beta gamma delta tau) ->
  length bad <= (2 ^ e + 1 + (2 * k_inputs inst + 2 * k_aux inst) * (2 ^ e - 1) + k_aux inst * (2 ^ e + 1)) * length D ^ 2.
Proof.
  intros Hw Es Hinst Hall Hun He HS Hsingle Hg1 Hg2 Hg Hd ND NB HB. destruct (polys_exist inst e HS) as (U & V & W & HQ). pose proof (proj1 He) as Hl.
  assert (Hm : 0 < 2 ^ e) by (apply Nat.neq_0_lt_0, Nat.pow_nonzero; lia). set (m := 2 ^ e) in *.
  set (eqn := fun i => [ [W (Aux i); U (Aux i)]; [V (Aux i)] ] : mp (P := P) 3).
  set (ps := [(in_tau x_poly, [0; 0; 1]); (in_tau (minus_one m), [0; 0; m])]
             ++ map (fun i => (in_tau (U (Input i)), [0; 0; m - 1])) (seq 0 (k_inputs inst)) ++ map (fun i => (in_tau (not_zero (U (Aux i))), [0; 0; m - 1])) (seq 0 (k_aux inst))
             ++ map (fun i => (in_tau (not_zero (V (Input i))), [0; 0; m - 1])) (seq 0 (k_inputs inst)) ++ map (fun i => (in_tau (not_zero (V (Aux i))), [0; 0; m - 1])) (seq 0 (k_aux inst))
             ++ map (fun i => (eqn i, [1; 1; m - 1])) (seq 0 (k_aux inst))).
  assert (LU : forall v, length (U v) <= m) by (intros v; apply (HQ v)).
  assert (LV : forall v, length (V v) <= m) by (intros v; apply (HQ v)).
  assert (LW : forall v, length (W v) <= m) by (intros v; apply (HQ v)).
  assert (CU : forall v, PropDomain.has_values (domain_generator e) m (U v) (map (fun k => coefficient (part_A k) v) (k_cons inst))).
  { intros v. destruct (HQ v) as (H & _ & _). unfold column_A in H. erewrite map_ext; [exact H|]. intros [[a b] c]. reflexivity. }
  assert (CV : forall v, PropDomain.has_values (domain_generator e) m (V v) (map (fun k => coefficient (part_B k) v) (k_cons inst))).
  { intros v. destruct (HQ v) as (_ & H & _). unfold column_B in H. erewrite map_ext; [exact H|]. intros [[a b] c]. reflexivity. }
  assert (ev : forall i al be t, mev 3 (eqn i) [al; be; t] = (be * peval (U (Aux i)) t + al * peval (V (Aux i)) t + peval (W (Aux i)) t)%F).
  { intros i al be t. rewrite <- !mev1. unfold eqn. cbn [mev map hev]. ring. }
  (* the polynomials are not zero *)
  assert (EZ : forall p, (exists x, peval p x <> (fzero : P)) -> ~ all_zero p) by (intros p [x Hx] F; apply Hx, all_zero_eval, F).
  assert (ZI : forall i, i < k_inputs inst -> exists x, peval (U (Input i)) x <> fzero).
  { intros i Hi. assert (Hk : In (([(Input i, fone)], [], []) : Constraint P) (k_cons inst)).
    { clear - Hinst Hi. unfold describes, synthesize in Hinst. destruct (run _ _ _) as [[[r|] s0]|]; cbn [obind] in Hinst; try discriminate.
      rewrite shape_enforce_inputs in Hinst. cbn [obind] in Hinst. apply Done_inj in Hinst. injection Hinst as <-. cbn [k_cons k_inputs] in *. apply in_or_app. right.
      apply in_map_iff. exists i. split; [reflexivity|]. apply in_seq. lia. }
    destruct (interpolates e _ _ _ _ Hl (CU (Input i)) Hk) as (j & _ & _ & Ej). eexists. rewrite Ej. cbn. rewrite Nat.eqb_refl.
    replace (1 + 0)%F with (fone : P) by ring. apply f_1_neq_0. }
  assert (ZU : forall i, i < k_aux inst -> (exists k c, In k (k_cons inst) /\ In (Aux i, c) (part_A k) /\ c <> fzero) -> exists x, peval (U (Aux i)) x <> fzero).
  { intros i Hi Ho. destruct (proj1 (Hun (Aux i) Hi) I Ho) as (k & Hk & Hc). destruct (interpolates e _ _ _ _ Hl (CU (Aux i)) Hk) as (j & _ & _ & Ej). eexists. now rewrite Ej. }
  assert (ZV : forall v, match v with Input i => i < k_inputs inst | Aux i => i < k_aux inst end ->
             (exists k c, In k (k_cons inst) /\ In (v, c) (part_B k) /\ c <> fzero) -> exists x, peval (V v) x <> fzero).
  { intros v Hv Ho. destruct (proj2 (Hun v Hv) Ho) as (k & Hk & Hc). destruct (interpolates e _ _ _ _ Hl (CV v) Hk) as (j & _ & _ & Ej). eexists. now rewrite Ej. }
  assert (Nz : forall i, i < k_aux inst -> ~ mzero 3 (eqn i)).
  { intros i Hi Z. destruct (Hall i Hi) as ([[a b] c] & Hk & Y). apply In_nth_error in Hk as [j Hj]. assert (Hj' : j < length (k_cons inst)) by (apply nth_error_Some; congruence).
    unfold eqn in Z. cbn [mzero] in Z. inversion_clear Z as [|? ? Z1 Z2]. inversion_clear Z1 as [|? ? ZW Z3]. inversion_clear Z3 as [|? ? ZU' _]. inversion_clear Z2 as [|? ? Z4 _]. inversion_clear Z4 as [|? ? ZV' _].
    destruct (HQ (Aux i)) as ([_ VU] & [_ VV] & [_ VW]). specialize (VU j ltac:(lia)). specialize (VV j ltac:(lia)). specialize (VW j ltac:(lia)).
    change (@PropDomain.eval P) with (@peval P) in VU, VV, VW. rewrite (all_zero_eval _ _ ZU') in VU. rewrite (all_zero_eval _ _ ZV') in VV. rewrite (all_zero_eval _ _ ZW) in VW.
    unfold column_A in VU. unfold column_B in VV. unfold column_C in VW.
    assert (N : forall f : Constraint P -> P, nth j (map f (k_cons inst)) fzero = f (a, b, c)) by (intros f; apply nth_error_nth; now apply map_nth_error).
    rewrite N in VU, VV, VW. destruct Y as [Y|[Y|Y]]; congruence. }
  assert (Dg : forall i, mdeg 3 (eqn i) [1; 1; m - 1]).
  { intros i. unfold eqn. repeat match goal with
      | |- mdeg (S (S _)) _ _ => split; [cbn; lia|]
      | |- mdeg 1 (U _) _ => apply deg1; specialize (LU (Aux i)); lia
      | |- mdeg 1 (V _) _ => apply deg1; specialize (LV (Aux i)); lia
      | |- mdeg 1 (W _) _ => apply deg1; specialize (LW (Aux i)); lia
      | |- Forall _ [] => constructor
      | |- Forall _ (_ :: _) => constructor
      end. }
  assert (Hps : forall p ds, In (p, ds) ps -> ~ mzero 3 p /\ mdeg 3 p ds).
  { intros p ds Hp. unfold ps in Hp. rewrite !in_app_iff, !in_map_iff in Hp.
    assert (T : forall q d, ~ all_zero q -> length q <= S d -> (in_tau q, [0; 0; d]) = (p, ds) -> ~ mzero 3 p /\ mdeg 3 p ds).
    { intros q d Hq Hlq X. injection X as <- <-. split; [now apply in_tau_zero|now apply in_tau_deg]. }
    destruct Hp as [[Hp|[Hp|[]]]|[(i & Hp & Hi)|[(i & Hp & Hi)|[(i & Hp & Hi)|[(i & Hp & Hi)|(i & Hp & Hi)]]]]]; try apply in_seq in Hi.
    - revert Hp. apply T; [|reflexivity]. apply EZ. exists fone. rewrite x_eval. apply f_1_neq_0.
    - revert Hp. apply T; [|rewrite minus_one_length by exact Hm; reflexivity]. unfold minus_one, all_zero. rewrite Forall_forall. intros F. apply (@f_1_neq_0 P), F. right. apply in_or_app. right. now left.
    - revert Hp. apply T; [apply EZ, ZI; lia|]. specialize (LU (Input i)). lia.
    - revert Hp. apply T; [apply not_zero_ok|]. pose proof (not_zero_length _ m Hm (LU (Aux i))). lia.
    - revert Hp. apply T; [apply not_zero_ok|]. pose proof (not_zero_length _ m Hm (LV (Input i))). lia.
    - revert Hp. apply T; [apply not_zero_ok|]. pose proof (not_zero_length _ m Hm (LV (Aux i))). lia.
    - injection Hp as <- <-. split; [apply Nz; lia|apply Dg]. }
  (* where none of them is zero, the keys serve *)
  assert (Key : forall al be t, existsb (fun pd => zero_at 3 (fst pd) [al; be; t]) ps = false -> keys_serve w circuit inst g1 g2 al be gamma delta t).
  { intros al be t Hx. assert (R : forall p ds, In (p, ds) ps -> mev 3 p [al; be; t] <> fzero).
    { intros p ds Hp Ez. assert (existsb (fun pd => zero_at 3 (fst pd) [al; be; t]) ps = true); [|congruence]. apply existsb_exists. exists (p, ds). split; [exact Hp|]. unfold zero_at. cbn [fst]. rewrite Ez. now destruct (feqb_spec (fzero : P) fzero). }
    assert (T : forall q d, In (in_tau q, [0; 0; d]) ps -> peval q t <> fzero) by (intros q d Hq; rewrite <- (in_tau_ev q al be t); exact (R _ _ Hq)).
    clear Hx. unfold ps in R, T.
    assert (R0 : t <> fzero) by (rewrite <- (x_eval t); apply (T _ 1); now left).
    assert (R1 : fpow t m <> fone).
    { intros Eq. apply (T (minus_one m) m); [right; now left|]. rewrite minus_one_eval, Eq by exact Hm. ring. }
    assert (R2 : forall i, i < k_inputs inst -> peval (U (Input i)) t <> fzero).
    { intros i Hi. apply (T _ (m - 1)). rewrite !in_app_iff. right. left. apply in_map_iff. exists i. split; [reflexivity|]. apply in_seq. lia. }
    assert (R3 : forall i, i < k_aux inst -> (exists k c, In k (k_cons inst) /\ In (Aux i, c) (part_A k) /\ c <> fzero) -> peval (U (Aux i)) t <> fzero).
    { intros i Hi Ho. destruct (ZU i Hi Ho) as [x Hxx]. rewrite <- (not_zero_id _ _ Hxx). apply (T _ (m - 1)). rewrite !in_app_iff. right. right. left. apply in_map_iff. exists i. split; [reflexivity|]. apply in_seq. lia. }
    assert (R4 : forall i, i < k_inputs inst -> (exists k c, In k (k_cons inst) /\ In (Input i, c) (part_B k) /\ c <> fzero) -> peval (V (Input i)) t <> fzero).
    { intros i Hi Ho. destruct (ZV (Input i) Hi Ho) as [x Hxx]. rewrite <- (not_zero_id _ _ Hxx). apply (T _ (m - 1)). rewrite !in_app_iff. do 3 right. left. apply in_map_iff. exists i. split; [reflexivity|]. apply in_seq. lia. }
    assert (R5 : forall i, i < k_aux inst -> (exists k c, In k (k_cons inst) /\ In (Aux i, c) (part_B k) /\ c <> fzero) -> peval (V (Aux i)) t <> fzero).
    { intros i Hi Ho. destruct (ZV (Aux i) Hi Ho) as [x Hxx]. rewrite <- (not_zero_id _ _ Hxx). apply (T _ (m - 1)). rewrite !in_app_iff. do 4 right. left. apply in_map_iff. exists i. split; [reflexivity|]. apply in_seq. lia. }
    assert (R6 : forall i, i < k_aux inst -> (be * peval (U (Aux i)) t + al * peval (V (Aux i)) t + peval (W (Aux i)) t)%F <> fzero).
    { intros i Hi. rewrite <- ev. apply (R _ [1; 1; m - 1]). rewrite !in_app_iff. do 5 right. apply in_map_iff. exists i. split; [reflexivity|]. apply in_seq. lia. }
    clear R T.
    destruct (generate_cases g1 g2 al be gamma delta t w circuit s Hw Es) as (ks & e' & Ek & He' & Hl' & _ & G & _).
    unfold describes in *. assert (ks = inst) by congruence. subst ks.
    assert (e' = e) by (apply (least_pow_unique (List.length (k_cons inst))); now apply PropDomain.domain_exponent_least). subst e'.
    assert (Ex : existsb is_identity (p_l (params_of E g1 g2 al be gamma delta t e inst)) = false).
    { destruct (existsb _ _) eqn:Ex; auto. exfalso. apply (existsb_l g1 g2 al be gamma delta t inst e U V W HS Hl Hg Hd HQ) in Ex as (i & Hi & Ei).
      apply gmul_zero_iff in Ei; [|exact Hg1]. apply (R6 i Hi). change (PropDomain.eval ?p ?x) with (peval p x) in Ei.
      assert (X : forall y : P, (y * finv delta)%F = fzero -> y = fzero).
      { intros y Hy. replace y with ((y * finv delta) * delta)%F by (field; auto). rewrite Hy. ring. }
      now apply X. }
    rewrite Ex in G. destruct (Nat.ltb_spec e (two_adicity P)) as [_|]; [|lia]. cbn [negb] in G.
    destruct (feqb_spec gamma fzero); [contradiction|]. destruct (feqb_spec delta fzero); [contradiction|]. cbn [orb] in G.
    assert (Gok : generate_parameters w circuit g1 g2 al be gamma delta t = Done (Ok (params_of E g1 g2 al be gamma delta t e inst))).
    { apply G. intros Hs. destruct (Hsingle Hs) as [A B]. split; auto. destruct e; [lia|]. cbn [Nat.pow]. assert (2 ^ e <> 0) by (apply Nat.pow_nonzero; lia). lia. }
    clear G. eexists. split; [exact Gok|]. intros w' ln_ceil prover_circuit t0 wit r s0 Hw' Hln Et Hwit Hsame Haddr Hsat.
    destruct (C37_prover_succeeds_iff g1 g2 al be gamma delta t w w' ln_ceil circuit prover_circuit inst wit _ t0 e U V W r s0
      Hw Hw' Hln Gok Hinst Hwit Hsame Haddr Et Hg1 Hg2 He R0 R1 HQ) as [[_ X] _].
    pose proof Hsame as (S1 & S2 & S3). destruct X as (proof & Ec).
    { rewrite S1 in R2, R4. rewrite S2 in R3, R5. rewrite S3 in R3, R4, R5. split; [exact R2|]. split; [exact R3|]. split; [exact R4|exact R5]. }
    exists proof. split; [exact Ec|].
    exact (C37_proofs_verify g1 g2 al be gamma delta t w w' ln_ceil _ _ inst wit _ r s0 proof Hw Hw' Hln Gok Hinst Hwit Hsame Haddr Hsat Ec). }
  assert (Len : length bad <= list_sum (map (fun pd : mp (P := P) 3 * list nat => list_sum (snd pd)) ps) * length D ^ 2).
  { apply few_common; [exact ND|exact NB|exact Hps|intros al be t Hin; destruct (HB al be t Hin) as (I1 & I2 & I3 & _); auto|].
    intros al be t Hin. destruct (existsb _ ps) eqn:Ex; [reflexivity|]. exfalso. apply (HB al be t Hin). now apply Key. }
  eapply Nat.le_trans; [exact Len|]. apply Nat.mul_le_mono_r.
  assert (LS : forall (f : nat -> mp (P := P) 3) ds l, list_sum (map (fun pd : mp (P := P) 3 * list nat => list_sum (snd pd)) (map (fun i => (f i, ds)) l)) = length l * list_sum ds).
  { intros f ds l. induction l as [|i l IH]; [reflexivity|]. cbn [map length snd]. change (list_sum (?x :: ?y)) with (x + list_sum y). rewrite IH. cbn [Nat.mul]. reflexivity. }
  unfold ps. rewrite !map_app, !list_sum_app, !LS, !seq_length. cbn [map snd list_sum fold_right]. clear - Hm. nia.
Qed.

(** ... and if proofs can be made at all, then none cancels. *)
Theorem C71_needed (w w' : Worker) ln_ceil (circuit prover_circuit : prog P (res unit)) (inst : KState P) wit (g1 : E_G1 E) (g2 : E_G2 E) (alpha beta gamma delta tau : P) params r s proof :
  wf_worker w -> wf_worker w' -> sane_ln_ceil ln_ceil -> describes circuit inst -> assigns prover_circuit wit -> same_circuit inst wit -> addressable wit -> g1 <> gzero -> g2 <> gzero ->
  generate_parameters w circuit g1 g2 alpha beta gamma delta tau = Done (Ok params) -> create_proof w' ln_ceil prover_circuit params r s = Done (Ok proof) -> uncancelled inst.
Proof.
  intros Hw Hw' Hln Hinst Hwit Hsame Haddr Hg1 Hg2 Hgen Hc. pose proof Hsame as (S1 & S2 & S3).
  assert (X : forall (part : Constraint P -> LC P) v, part = part_A \/ part = part_B -> match v with Input i => i < k_inputs inst | Aux i => i < k_aux inst end ->
    (exists k c, In k (k_cons inst) /\ In (v, c) (part k) /\ c <> fzero) -> exists k, In k (k_cons inst) /\ coefficient (part k) v <> fzero).
  { intros part v Hp Hv Ho. destruct (existsb (fun k => negb (feqb (coefficient (part k) v) fzero)) (k_cons inst)) eqn:Ex.
    - apply existsb_exists in Ex as (k & Hk & Hn). exists k. split; [exact Hk|]. destruct (feqb_spec (coefficient (part k) v) fzero); [discriminate|assumption].
    - exfalso. refine (C47_never_proves g1 g2 alpha beta gamma delta tau w w' ln_ceil circuit prover_circuit inst wit params r s proof part v
        Hw Hw' Hln Hgen Hinst Hwit Hsame Haddr Hg1 Hg2 Hp _ _ _ Hc).
      + destruct v as [i|i]; [now rewrite <- S1|now rewrite <- S2].
      + unfold occurs. now rewrite <- S3.
      + intros k Hk. rewrite <- S3 in Hk. destruct (feqb_spec (coefficient (part k) v) fzero) as [|Hn]; [assumption|]. exfalso.
        assert (Y : existsb (fun k => negb (feqb (coefficient (part k) v) fzero)) (k_cons inst) = true); [|congruence].
        apply existsb_exists. exists k. split; [exact Hk|]. now destruct (feqb_spec (coefficient (part k) v) fzero). }
  intros v Hv. split; [intros _|]; apply X; auto.
Qed.

(** In the circuit of the crate documentation (C67), none cancels ... *)
Theorem C71_sha256d n preimage (inst : KState P) : describes (my_circuit n preimage) inst -> uncancelled inst.
Proof.
  intros Hd. set (G := fun v => existsb (fun k : Constraint P => negb (feqb (cf v (fst (fst k))) fzero) && negb (feqb (cf v (snd (fst k))) fzero)) (k_cons inst)).
  assert (HG : forall v, G v = true -> exists k, In k (k_cons inst) /\ coefficient (part_A k) v <> fzero /\ coefficient (part_B k) v <> fzero).
  { intros v Hv. apply existsb_exists in Hv as (k & Hk & Hb). apply andb_true_iff in Hb as [Ha Hb]. exists k. split; [exact Hk|]. unfold part_A, part_B. rewrite <- !cf_coefficient.
    destruct (feqb_spec (cf v (fst (fst k))) fzero); [discriminate|]. destruct (feqb_spec (cf v (snd (fst k))) fzero); [discriminate|]. auto. }
  unfold describes, synthesize in Hd. rewrite start_s in Hd. destruct (run (ShapeCS P) (my_circuit n preimage) shape_one) as [[[[]|err] t]|] eqn:Er; cbn [obind] in Hd; try discriminate Hd.
  rewrite shape_enforce_inputs in Hd. cbn [obind] in Hd. apply Done_inj in Hd. injection Hd as Hd.
  pose proof (my_circuit_dn (P := P) G 0 n preimage) as W. destruct (wpD_run G _ _ shape_one (Ok tt) t W Er) as (new & E1 & H). cbn [shape_one k_cons app] in E1. subst new.
  assert (Hc : k_cons inst = k_cons t ++ map input_constraint (seq 0 (k_inputs t))) by (subst inst; reflexivity).
  destruct H as [H _].
  { intros k v Hk Ha Hb. apply existsb_exists. exists k. split; [rewrite Hc; apply in_or_app; now left|].
    destruct (feqb_spec (cf v (fst (fst k))) fzero); [contradiction|]. destruct (feqb_spec (cf v (snd (fst k))) fzero); [contradiction|]. reflexivity. }
  rewrite Forall_forall in H.
  intros v _. split.
  - intros Ha (k & c & Hk & Hin & Hnz). destruct (G v) eqn:Eg; [destruct (HG v Eg) as (k' & K1 & K2 & _); eauto|].
    exists k. split; [exact Hk|]. rewrite Hc in Hk. apply in_app_or in Hk as [Hk|Hk].
    + unfold part_A. rewrite <- cf_coefficient. apply (proj1 (H k Hk)); [destruct v; [contradiction|exact I]|exact Eg|exact (ex_intro _ c (conj Hin Hnz))].
    + exfalso. apply in_map_iff in Hk as (i & <- & _). destruct Hin as [Hin|[]]. injection Hin as <- _. exact Ha.
  - intros (k & c & Hk & Hin & Hnz). destruct (G v) eqn:Eg; [destruct (HG v Eg) as (k' & K1 & _ & K2); eauto|].
    exists k. split; [exact Hk|]. rewrite Hc in Hk. apply in_app_or in Hk as [Hk|Hk].
    + unfold part_B. rewrite <- cf_coefficient. apply (proj2 (H k Hk)); [exact I|exact Eg|exact (ex_intro _ c (conj Hin Hnz))].
    + exfalso. apply in_map_iff in Hk as (i & <- & _). destruct Hin.
Qed.

(** ... so in the scalar field of BLS12-381 (capacity 254, two-adicity 32), all but [2^35] out of [|D|] values of [alpha], [beta] and [tau] in [D], which
    may be the whole field, give keys with which there is a proof for every block header of 80 bytes. *)
Theorem C71_headers (w : Worker) (g1 : E_G1 E) (g2 : E_G2 E) (gamma delta : P) (D : list P) (bad : list (P * P * P)) :
  capacity P = 254 -> 64 <= num_bits P -> 17 < two_adicity P -> wf_worker w -> g1 <> gzero -> g2 <> gzero -> gamma <> fzero -> delta <> fzero -> NoDup D -> NoDup bad ->
  (forall alpha beta tau, In (alpha, beta, tau) bad -> In alpha D /\ In beta D /\ In tau D /\
     ~ (exists params, generate_parameters w (my_circuit 80 None) g1 g2 alpha beta gamma delta tau = Done (Ok params) /\
        forall w' ln_ceil bytes r s, wf_worker w' -> sane_ln_ceil ln_ceil -> length bytes = 80 ->
        exists proof, create_proof w' ln_ceil (my_circuit 80 (Some bytes)) params r s = Done (Ok proof) /\
          verify_proof (prepare_verifying_key (p_vk params)) proof (packed (SHA256d bytes)) = Done (Ok tt))) ->
  (Z.of_nat (length bad) <= 2 ^ 35 * Z.of_nat (length D) ^ 2)%Z.
Proof.
  intros Hc H64 HS Hw Hg1 Hg2 Hg Hd ND NB HB.
  destruct (keys_synthesis 80 H64) as [s Hs]. destruct (whole 80 (repeat 1%Z 80) H64 (repeat_length _ _)) as (inst & _ & A & _).
  destruct (C67_sizes inst Hc H64 A) as (S1 & S2 & S3).
  pose proof (C71_keys_serve w _ s inst 17 g1 g2 gamma delta D bad Hw Hs A (proj2 (C70_sha256d 80 None inst) A) (C71_sha256d 80 None inst A) (exponent_17 _ S3) HS) as H.
  specialize (H ltac:(intros _; split; [lia|apply Nat2Z.inj_lt; rewrite S2; reflexivity]) Hg1 Hg2 Hg Hd ND NB).
  assert (L : length bad <= (2 ^ 17 + 1 + (2 * k_inputs inst + 2 * k_aux inst) * (2 ^ 17 - 1) + k_aux inst * (2 ^ 17 + 1)) * length D ^ 2).
  { apply H. intros alpha beta tau Hin. destruct (HB alpha beta tau Hin) as (I1 & I2 & I3 & N). repeat (split; [assumption|]). intros (params & Gp & Pr). apply N. exists params. split; [exact Gp|].
    intros w' ln_ceil bytes r s0 Hw' Hln Hl. destruct (whole 80 bytes H64 Hl) as (inst' & wit & A' & B & C & D' & I & _). rewrite <- (one_instance _ _ _ A A') in C.
    destruct (prover_synthesis 80 bytes H64 Hl) as [t Ht]. destruct (Pr w' ln_ceil _ t wit r s0 Hw' Hln Ht B C (header_addressable bytes H64 Hl wit B) D') as (proof & P1 & P2).
    exists proof. split; [exact P1|]. rewrite (public_of _ _ I) in P2. exact P2. }
  clear - L S1 S2. rewrite S1 in L. apply Nat2Z.inj_le in L. eapply Z.le_trans; [exact L|].
  assert (Em : (Z.of_nat (2 ^ 17) = 131072)%Z) by (rewrite Nat2Z.inj_pow; now vm_compute). generalize dependent (2 ^ 17). intros m _ Em.
  rewrite Nat2Z.inj_mul, Nat2Z.inj_pow. apply Z.mul_le_mono_nonneg_r; [apply Z.pow_nonneg; lia|].
  rewrite !Nat2Z.inj_add, !Nat2Z.inj_mul, Nat2Z.inj_sub by lia. rewrite !Nat2Z.inj_add, !Nat2Z.inj_mul, S2, Em. now vm_compute.
Qed.
End C71.
Print Assumptions C71_keys_serve.
Print Assumptions C71_needed.
Print Assumptions C71_sha256d.
Print Assumptions C71_headers.

(** Examples.  In the circuit of C66_ex (a conjunction and a majority, 5 variables) none cancels; *)
Definition someb {P : PrimeField} (part : Constraint P -> LC P) (v : Var) (cons : list (Constraint P)) : bool := existsb (fun k => negb (feqb (coefficient (part k) v) fzero)) cons.
Definition writtenb {P : PrimeField} (part : Constraint P -> LC P) (v : Var) (cons : list (Constraint P)) : bool :=
  existsb (fun k => existsb (fun t => var_eqb (fst t) v && negb (feqb (snd t) fzero)) (part k)) cons.
Definition uncancelledb {P : PrimeField} (inst : KState P) : bool :=
  forallb (fun i => implb (writtenb part_A (Aux i) (k_cons inst)) (someb part_A (Aux i) (k_cons inst)) && implb (writtenb part_B (Aux i) (k_cons inst)) (someb part_B (Aux i) (k_cons inst))) (seq 0 (k_aux inst)) &&
  forallb (fun i => implb (writtenb part_B (Input i) (k_cons inst)) (someb part_B (Input i) (k_cons inst))) (seq 0 (k_inputs inst)).
Lemma someb_spec {P : PrimeField} (part : Constraint P -> LC P) v cons : someb part v cons = true <-> exists k, In k cons /\ coefficient (part k) v <> fzero.
Proof.
  unfold someb. rewrite existsb_exists. split; intros (k & Hk & H); exists k; (split; [exact Hk|]); destruct (feqb_spec (coefficient (part k) v) fzero); try discriminate; try contradiction; auto.
Qed.
Lemma writtenb_spec {P : PrimeField} (part : Constraint P -> LC P) v cons : writtenb part v cons = true <-> exists k c, In k cons /\ In (v, c) (part k) /\ c <> fzero.
Proof.
  unfold writtenb. rewrite existsb_exists. split.
  - intros (k & Hk & H). apply existsb_exists in H as ([u c] & Hin & H). cbn [fst snd] in H. apply andb_true_iff in H as [H1 H2]. exists k, c.
    destruct (Scope.var_eqb_spec u v) as [->|]; [|discriminate]. destruct (feqb_spec c fzero); [discriminate|]. auto.
  - intros (k & c & Hk & Hin & Hc). exists k. split; [exact Hk|]. apply existsb_exists. exists (v, c). split; [exact Hin|]. cbn [fst snd].
    destruct (Scope.var_eqb_spec v v); [|contradiction]. now destruct (feqb_spec c fzero).
Qed.
Lemma uncancelledb_spec {P : PrimeField} (inst : KState P) : uncancelledb inst = true -> uncancelled inst.
Proof.
  unfold uncancelledb. intros H. apply andb_true_iff in H as [H1 H2]. rewrite forallb_forall in H1, H2. intros v Hv. rewrite <- !someb_spec, <- !writtenb_spec.
  destruct v as [i|i].
  - specialize (H2 i (proj2 (in_seq _ _ _) (conj (Nat.le_0_l _) Hv))). split; [intros []|]. intros W. now rewrite W in H2.
  - specialize (H1 i (proj2 (in_seq _ _ _) (conj (Nat.le_0_l _) Hv))). apply andb_true_iff in H1 as [H1 H3]. split; [intros _ W; now rewrite W in H1|intros W; now rewrite W in H3].
Qed.
Example C71_ex : exists inst, describes sc_maj inst /\ k_inputs inst = 1 /\ k_aux inst = 5 /\ all_constrained inst /\ uncancelled inst.
Proof.
  destruct C70_ex as (_ & inst & D & A & _ & H).
  assert (X : match synthesize (ShapeCS Goldilocks) {| k_inputs := 0; k_aux := 0; k_cons := [] |} k_inputs sc_maj with
              | Done (Ok i) => (k_inputs i, uncancelledb i) | _ => (0, false) end = (1, true)) by (vm_compute; reflexivity).
  unfold describes in D. rewrite D in X. injection X as X1 X2. exists inst. split; [exact D|]. split; [exact X1|]. split; [exact A|]. split; [exact H|exact (uncancelledb_spec inst X2)].
Qed.
(** and the hypotheses of [C71_headers] hold in the scalar field of BLS12-381 for some [gamma] and [delta]. *)
Example C71_ex_headers : capacity BlsScalar = 254 /\ 64 <= num_bits BlsScalar /\ 17 < two_adicity BlsScalar /\ (fone : BlsScalar) <> fzero.
Proof. destruct C70_ex_header as (H1 & H2 & H3). repeat (split; [assumption|]). apply f_1_neq_0. Qed.
