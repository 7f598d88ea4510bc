(** Property theorem C70: gadgets constrain every variable they allocate, so that keys can be generated. *)
From Coq Require Import String.
From Coq Require Import ZArith List Bool Lia Field.
From Verif Require Import Prelude PrimeField Fields FModule Circuit Loops Mimc BooleanGadget NumGadget LookupGadget Multipack MultiEq UInt32 Sha256 Blake2s
  Multicore Domain FFTProof DomainProof Quotient Multiexp Assembly AssemblyProof Groth16 GeneratorProof Roots MPoly Scope ScopeRun Covered PropAssembly PropGenerator PropGroth16 PropScope.
From Verif Require Import Sha256d Sha256dProof Bls PropSha256d.
From Verif Require PropDomain.
Import ListNotations.
Local Open Scope nat_scope.

(** ** Specification *)

(** The coefficients of [v] in a part of the constraint do not add up to zero. *)
Definition constrained_by {P : PrimeField} (k : Constraint P) (v : Var) : Prop :=
  let '(a, b, c) := k in coefficient a v <> fzero \/ coefficient b v <> fzero \/ coefficient c v <> fzero.

(** Wherever [needs] and the variable for 1 exist: if [p] succeeds, then each auxiliary variable it has allocated is in one of the constraints it
    has added; and so is each variable in [also]. *)
Definition constrains {P : PrimeField} {A} (needs : list Var) (p : prog P (res A)) (also : list Var) : Prop :=
  forall t r t', Forall (present (k_inputs t) (k_aux t)) (one_var :: needs) -> run (ShapeCS P) p t = Done (Ok r, t') ->
  exists new, k_cons t' = k_cons t ++ new /\
    (forall i, k_aux t <= i < k_aux t' -> exists k, In k new /\ constrained_by k (Aux i)) /\
    (forall v, In v also -> exists k, In k new /\ constrained_by k v).

(** The same for a whole circuit. *)
Definition all_constrained {P : PrimeField} (inst : KState P) : Prop := forall i, i < k_aux inst -> exists k, In k (k_cons inst) /\ constrained_by k (Aux i).

(** ** Auxiliary *)
Section Aux.
Context {P : PrimeField}.
Lemma hits_iff v (k : Constraint P) : hits v k <-> constrained_by k v.
Proof. destruct k as [[a b] c]. unfold hits, constrained_by. cbn [fst snd]. now rewrite !cf_coefficient. Qed.
Lemma constrains_scop {A} needs (p : prog P (res A)) (Q : (Var -> Prop) -> A -> Prop) :
  (forall K : Var -> Prop, K one_var -> Forall K needs -> scop K p (Q K)) -> constrains needs p [].
Proof.
  intros H t r t' Hn Er. inversion_clear Hn as [|? ? H1 H2].
  destruct (wpC_run is_err p (fun K => okP (Q K)) t (Ok r) t') as (new & M & [[]|H3]); [|exact Er|].
  - intros K HK. apply H; [now apply HK|]. exact (Forall_impl _ HK H2).
  - exists new. split; [apply M|]. split; [|intros v []]. intros i Hi. destruct (H3 i Hi) as (k & Hk & Hh). exists k. split; [exact Hk|now apply hits_iff].
Qed.
End Aux.
Ltac cover_prep R := apply constrains_scop with (Q := R); intros K K1 HN; repeat match type of HN with Forall _ (_ ++ _) => let H := fresh "HN" in apply Forall_app in HN as [H HN] end.

Section C70.
Context {P : PrimeField}.
Add Field PFc70 : (F_field P).

(** boolean.rs *)
Theorem C70_bits (v : option bool) (w : option Z) (Q : PrimeField) (x : option Q) (a b : AllocatedBit) (p q r : Boolean) :
  constrains [] (@ab_alloc P v) [] /\
  constrains [ab_var a] (@ab_alloc_conditionally P v a) [] /\
  constrains [ab_var a; ab_var b] (@ab_xor P a b) [] /\
  constrains [ab_var a; ab_var b] (@ab_and P a b) [] /\
  constrains [ab_var a; ab_var b] (@ab_and_not P a b) [] /\
  constrains [ab_var a; ab_var b] (@ab_nor P a b) [] /\
  constrains [] (@u64_into_boolean_vec_le P w) [] /\
  constrains [] (@field_into_allocated_bits_le P Q x) [] /\
  constrains [] (@field_into_boolean_vec_le P Q x) [] /\
  constrains (bit_vars p ++ bit_vars q) (@b_xor P p q) [] /\
  constrains (bit_vars p ++ bit_vars q) (@b_and P p q) [] /\
  constrains (bit_vars p ++ bit_vars q ++ bit_vars r) (@b_ch P p q r) [] /\
  constrains (bit_vars p ++ bit_vars q ++ bit_vars r) (@b_maj P p q r) [].
Proof.
  split; [cover_prep (@ka); apply ab_alloc_scop; assumption|].
  split; [cover_prep (@ka); apply one_iff in HN; apply cond_scop; assumption|].
  split; [cover_prep (@ka); inversion_clear HN as [|? ? Ha Hb]; apply one_iff in Hb; apply ab_xor_scop; assumption|].
  split; [cover_prep (@ka); inversion_clear HN as [|? ? Ha Hb]; apply one_iff in Hb; apply ab_and_scop; assumption|].
  split; [cover_prep (@ka); inversion_clear HN as [|? ? Ha Hb]; apply one_iff in Hb; apply ab_and_not_scop; assumption|].
  split; [cover_prep (@ka); inversion_clear HN as [|? ? Ha Hb]; apply one_iff in Hb; apply ab_nor_scop; assumption|].
  split; [cover_prep (fun K => Forall (kb K)); apply u64_scop; assumption|].
  split; [cover_prep (fun K => Forall (ka K)); apply field_bits_scop; assumption|].
  split; [cover_prep (fun K => Forall (kb K)); apply field_vec_scop; assumption|].
  split; [cover_prep (@kb); apply kb_vars in HN, HN0; apply b_xor_scop; assumption|].
  split; [cover_prep (@kb); apply kb_vars in HN, HN0; apply b_and_scop; assumption|].
  split; [cover_prep (@kb); apply kb_vars in HN, HN0, HN1; apply b_ch_scop; assumption|].
  cover_prep (@kb); apply kb_vars in HN, HN0, HN1; apply b_maj_scop; assumption.
Qed.

(** uint32.rs; [addmany] in a [MultiEq] of its own.  Words have 32 bits. *)
Theorem C70_words (v : option Z) (a b c : UInt32) (ops : list UInt32) :
  constrains [] (@u_alloc P v) [] /\
  (Forall (fun w => length (u_bits w) = 32) [a; b; c] ->
     constrains (word_vars a ++ word_vars b) (@u_xor P a b) [] /\
     constrains (word_vars a ++ word_vars b ++ word_vars c) (@u_ch P a b c) [] /\
     constrains (word_vars a ++ word_vars b ++ word_vars c) (@u_maj P a b c) []) /\
  (Forall (fun w => length (u_bits w) = 32) ops -> constrains (flat_map word_vars ops) (multieq_scope (@addmany P ops)) []).
Proof.
  split; [|split].
  - cover_prep (@kw). apply u_alloc_scop; assumption.
  - intros HL. inversion_clear HL as [|? ? La HL']. inversion_clear HL' as [|? ? Lb HL]. inversion_clear HL as [|? ? Lc _].
    split; [|split]; cover_prep (@kw); unfold word_vars in *;
      repeat match goal with H : Forall _ (bits_vars _) |- _ => apply kbs_vars in H end.
    + apply u_xor_scop; first [assumption|split; assumption].
    + apply u_ch_scop; first [assumption|split; assumption].
    + apply u_maj_scop; first [assumption|split; assumption].
  - intros HL. cover_prep (@kw). apply multieq_scop; [assumption|]. apply addmany_scop; [assumption|].
    clear K1. induction HL as [|w ops Hw _ IH]; [constructor|]. cbn [flat_map] in HN. apply Forall_app in HN as [H1 H2]. constructor; [|auto].
    split; [now apply kbs_vars|exact Hw].
Qed.

(** num.rs, lookup.rs, multipack.rs.  [AllocatedNum::alloc] only allocates: [C70_compose] and [C70_ex_alone]. *)
Theorem C70_numbers (a b : AllocatedNum P) (p : Boolean) (coords : list (P * P)) (bits : list Boolean) :
  constrains [an_var a] (@an_inputize P a) [] /\
  constrains [an_var a; an_var b] (@an_mul P a b) [] /\
  constrains [an_var a] (@an_square P a) [] /\
  constrains [an_var a] (@an_assert_nonzero P a) [] /\
  constrains ([an_var a; an_var b] ++ bit_vars p) (@an_conditionally_reverse P a b p) [] /\
  constrains [an_var a] (@to_bits_le P a) [] /\
  constrains [an_var a] (@to_bits_le_strict P a) [] /\
  constrains (bits_vars bits) (@lookup3_xy P bits coords) [] /\
  constrains (bits_vars bits) (@lookup3_xy_neg P bits coords) [] /\
  constrains (bits_vars bits) (@pack_into_inputs P bits) [].
Proof.
  split; [cover_prep (fun (K : Var -> Prop) (_ : unit) => True); apply one_iff in HN; apply inputize_scop; assumption|].
  split; [cover_prep (@kn P); inversion_clear HN as [|? ? Ha Hb]; apply one_iff in Hb; apply mul_scop; assumption|].
  split; [cover_prep (@kn P); apply one_iff in HN; apply square_scop; assumption|].
  split; [cover_prep (fun (K : Var -> Prop) (_ : unit) => True); apply one_iff in HN; apply nonzero_scop; assumption|].
  split; [cover_prep (fun K (r : AllocatedNum P * AllocatedNum P) => kn K (fst r) /\ kn K (snd r)); apply kb_vars in HN; inversion_clear HN0 as [|? ? Ha Hb]; apply one_iff in Hb; apply reverse_scop; assumption|].
  split; [cover_prep (fun K => Forall (kb K)); apply one_iff in HN; apply to_bits_scop; assumption|].
  split; [cover_prep (fun K => Forall (kb K)); apply one_iff in HN; apply strict_scop; assumption|].
  split; [cover_prep (fun K (r : AllocatedNum P * AllocatedNum P) => kn K (fst r) /\ kn K (snd r)); apply kbs_vars in HN; apply lookup3_scop; assumption|].
  split; [cover_prep (fun K (r : Num P * Num P) => knum K (fst r) /\ knum K (snd r)); apply kbs_vars in HN; apply lookup3_neg_scop; assumption|].
  cover_prep (fun (K : Var -> Prop) (_ : unit) => True); apply kbs_vars in HN; apply pack_scop; assumption.
Qed.

(** sha256.rs, blake2s.rs *)
Theorem C70_hashes (input : list Boolean) (person : list Z) : Forall (fun b => 0 <= b < 256)%Z person ->
  constrains (bits_vars input) (@sha256 P input) [] /\
  constrains (bits_vars input) (@sha256_block_no_padding P input) [] /\
  constrains (bits_vars input) (@blake2s P input person) [].
Proof.
  intros HB. split; [|split]; cover_prep (fun K => Forall (kb K)); apply kbs_vars in HN.
  - apply sha256_scop; assumption.
  - apply sha256_block_scop; assumption.
  - apply blake2s_scop; assumption.
Qed.

(** Circuits are put together: in sequence, in namespaces; a variable that is merely allocated has to be constrained by what follows; a constraint
    constrains the variables whose coefficients in it do not cancel. *)
Definition columns_for (t : KState P) : KeypairAssembly P :=
  let c := mkCols (repeat [] (k_inputs t)) (repeat [] (k_aux t)) in mkKA (k_inputs t) (k_aux t) 0 c c c.
Lemma scope_shape {A} needs (p : prog P (res A)) gives t r t' others : in_scope needs p gives -> Forall (present (k_inputs t) (k_aux t)) (one_var :: needs ++ others) ->
  run (ShapeCS P) p t = Done (r, t') -> Forall (present (k_inputs t') (k_aux t')) (one_var :: needs ++ others ++ given gives r).
Proof.
  intros (H & _) Hn Er. specialize (H (columns_for t) t others). destruct (run (KeypairCS P) p (columns_for t)) as [[r1 s1]|].
  - destruct H as ([_ H] & t1 & Et & T1 & T2); [|reflexivity..|].
    + split; [|exact Hn]. intros m [<-|[<-|[<-|[]]]]; cbn; now rewrite !repeat_length.
    + rewrite Er in Et. apply Done_inj in Et. injection Et as <- <-. now rewrite T1, T2.
  - rewrite H in Er; [discriminate| |reflexivity..]. split; [|exact Hn]. intros m [<-|[<-|[<-|[]]]]; cbn; now rewrite !repeat_length.
Qed.
Theorem C70_compose {A B} (needs more also : list Var) (p : prog P (res A)) (gives : A -> list Var) (g : A -> prog P (res B)) (h : Var * bool -> prog P (res B))
    (f : res P) (name : string) (a b c : LC P) :
  (constrains needs p also -> incl needs more -> constrains more p also) /\
  (in_scope needs p gives -> constrains needs p also -> (forall r, constrains (needs ++ gives r) (g r) []) -> constrains needs (bindq p g) also) /\
  (in_scope needs p gives -> constrains needs p [] -> (forall r, constrains (needs ++ gives r) (g r) also) -> constrains needs (bindq p g) also) /\
  (constrains needs p also -> constrains needs (ns name p) also) /\
  ((forall v x, ~ In v (one_var :: needs) -> constrains (v :: needs) (h (v, x)) (v :: also)) -> constrains needs (bindq (cs_alloc name f) h) also) /\
  ((forall v x, ~ In v (one_var :: needs) -> constrains (v :: needs) (h (v, x)) also) -> constrains needs (bindq (cs_alloc_input name f) h) also) /\
  (Forall (constrained_by (a, b, c)) also -> constrains needs (bind (cs_enforce name a b c) (fun _ => Ret (Ok tt))) also).
Proof.
  assert (Seq : forall also1 also2, in_scope needs p gives -> constrains needs p also1 -> (forall r, constrains (needs ++ gives r) (g r) also2) -> constrains needs (bindq p g) (also1 ++ also2)).
  { intros also1 also2 Hs Hp Hg t r t' Hn Er. rewrite run_bindq in Er. destruct (run (ShapeCS P) p t) as [[r1 t1]|] eqn:E1; [|discriminate]. cbn [obind fst snd] in Er.
    destruct r1 as [r1|e1]; [|discriminate].
    assert (Hn1 := scope_shape needs p gives t (Ok r1) t1 [] Hs). rewrite app_nil_r in Hn1. cbn [app given] in Hn1.
    destruct (Hp t r1 t1 Hn E1) as (n1 & C1 & D1 & F1). destruct (Hg r1 t1 r t' (Hn1 Hn E1) Er) as (n2 & C2 & D2 & F2).
    exists (n1 ++ n2). split; [rewrite C2, C1, app_assoc; reflexivity|]. split.
    - intros i Hi. destruct (Nat.lt_ge_cases i (k_aux t1)) as [Hl|Hl].
      + destruct (D1 i (conj (proj1 Hi) Hl)) as (k & Hk & X). exists k. split; [apply in_or_app; now left|exact X].
      + destruct (D2 i (conj Hl (proj2 Hi))) as (k & Hk & X). exists k. split; [apply in_or_app; now right|exact X].
    - intros v Hv. apply in_app_or in Hv as [Hv|Hv].
      + destruct (F1 v Hv) as (k & Hk & X). exists k. split; [apply in_or_app; now left|exact X].
      + destruct (F2 v Hv) as (k & Hk & X). exists k. split; [apply in_or_app; now right|exact X]. }
  split; [|split; [|split; [|split; [|split; [|split]]]]].
  - intros Hp Hi t r t' Hn Er. apply (Hp t r t'); [|exact Er]. inversion_clear Hn as [|? ? H1 H2]. constructor; [exact H1|]. rewrite Forall_forall in *. auto.
  - intros Hs Hp Hg. rewrite <- (app_nil_r also). exact (Seq also [] Hs Hp Hg).
  - intros Hs Hp Hg. exact (Seq [] also Hs Hp Hg).
  - intros Hp t r t' Hn Er. rewrite run_ns in Er. cbn [m_push m_pop ShapeCS obind] in Er. destruct (run (ShapeCS P) p t) as [[r1 t1]|] eqn:E1; [|discriminate].
    cbn [obind fst snd] in Er. apply Done_inj in Er. injection Er as -> ->. exact (Hp t r t' Hn E1).
  - intros Hh t r t' Hn Er. unfold bindq, cs_alloc in Er. cbn [bind run m_alloc ShapeCS obind fst snd] in Er.
    assert (New : ~ In (Aux (k_aux t)) (one_var :: needs)).
    { intros Hin. rewrite Forall_forall in Hn. specialize (Hn _ Hin). cbn in Hn. lia. }
    edestruct (fun X => Hh _ false New _ r t' X Er) as (new & C & D & F).
    + inversion_clear Hn as [|? ? H1 H2]. cbn [k_inputs k_aux]. constructor; [exact H1|]. constructor; [cbn; lia|]. eapply Forall_impl; [|exact H2]. intros [i|i]; cbn; lia.
    + cbn [k_cons k_inputs k_aux] in *. exists new. split; [exact C|]. split; [|intros v Hv; apply F; now right].
      intros i Hi. destruct (Nat.eq_dec i (k_aux t)) as [->|]; [apply F; now left|]. apply D. lia.
  - intros Hh t r t' Hn Er. unfold bindq, cs_alloc_input in Er. cbn [bind run m_alloc_input ShapeCS obind fst snd] in Er.
    assert (New : ~ In (Input (k_inputs t)) (one_var :: needs)).
    { intros Hin. rewrite Forall_forall in Hn. specialize (Hn _ Hin). cbn in Hn. lia. }
    edestruct (fun X => Hh _ false New _ r t' X Er) as (new & C & D & F).
    + inversion_clear Hn as [|? ? H1 H2]. cbn [k_inputs k_aux]. constructor; [cbn in *; lia|]. constructor; [cbn; lia|]. eapply Forall_impl; [|exact H2]. intros [i|i]; cbn; lia.
    + cbn [k_cons k_inputs k_aux] in *. exists new. split; [exact C|]. split; [exact D|exact F].
  - intros Hal t r t' Hn Er. cbn [bind cs_enforce run m_enforce ShapeCS obind] in Er. apply Done_inj in Er. injection Er as <- <-. exists [(a, b, c)].
    cbn [k_cons k_aux]. split; [reflexivity|]. split; [intros i Hi; lia|]. intros v Hv. exists (a, b, c). rewrite Forall_forall in Hal. split; [now left|auto].
Qed.

(** Whole circuits *)
Theorem C70_circuits (circuit : prog P (res unit)) (inst : KState P) : constrains [] circuit [] -> describes circuit inst -> all_constrained inst.
Proof.
  intros H D i Hi. unfold describes, synthesize in D. rewrite start_s in D. destruct (run (ShapeCS P) circuit shape_one) as [[[[]|] t]|] eqn:Er; try discriminate D.
  destruct (H shape_one tt t) as (new & C & X & _); [repeat constructor|exact Er|]. cbn [obind] in D. rewrite shape_enforce_inputs in D. cbn [obind] in D.
  injection D as <-. cbn [k_cons k_aux shape_one app] in *. destruct (X i) as (k & Hk & Y); [lia|]. exists k. split; [apply in_or_app; left; now rewrite C|exact Y].
Qed.

(** What it is good for.  If all variables are constrained, then key generation fails (not counting [gamma] or [delta] zero and circuits too large for
    the field) for at most a fraction of [k_aux * (2^e + 1) / |D|] of the values of [alpha], [beta] and [tau] in [D] ... *)
Context {E : Engine P}.
Theorem C70_keys (w : Worker) (circuit : prog P (res unit)) s (inst : KState P) e (g1 : E_G1 E) (g2 : E_G2 E) (gamma delta : P) (D : list P) (bad : list (P * P * P)) :
  wf_worker w -> synthesize_keypair circuit = Done (Ok s) -> describes circuit inst -> all_constrained inst ->
  PropDomain.domain_exponent (length (k_cons inst)) e -> e < two_adicity P -> (w = Single -> 0 < e /\ 0 < k_aux inst) ->
  g1 <> gzero -> gamma <> fzero -> delta <> fzero -> NoDup D -> NoDup bad ->
  (forall alpha beta tau, In (alpha, beta, tau) bad -> In alpha D /\ In beta D /\ In tau D /\
     forall params, generate_parameters w circuit g1 g2 alpha beta gamma delta tau <> Done (Ok params)) ->
  length bad <= k_aux inst * ((2 ^ e + 1) * length D ^ 2).
Proof.
  intros Hw Es Hd Hall He HS H0 Hg1 Hg Hdl ND NB HB. destruct (polys_exist inst e HS) as (U & V & W & HQ).
  set (eqn := fun i => [ [W (Aux i); U (Aux i)]; [V (Aux i)] ] : mp (P := P) 3).
  pose proof (proj1 He) as Hl.
  assert (ev : forall i al be t, mev 3 (eqn i) [al; be; t] = (be * peval (U (Aux i)) t + al * peval (V (Aux i)) t + peval (W (Aux i)) t)%F).
  { intros i al be t. rewrite <- !hev_peval. unfold eqn, mev. cbn [map]. assert (ID : forall l : list P, hev (map (fun q : mp (P := P) 0 => q) l) t = hev l t) by (intros l; f_equal; apply (map_id l)).
    rewrite !ID. cbn [hev]. ring. }
  assert (Nz : forall i, i < k_aux inst -> ~ mzero 3 (eqn i)).
  { intros i Hi Z. destruct (Hall i Hi) as ([[a b] c] & Hk & Y). apply In_nth_error in Hk as [j Hj]. assert (Hj' : j < length (k_cons inst)) by (apply nth_error_Some; congruence).
    unfold eqn in Z. cbn [mzero] in Z. inversion_clear Z as [|? ? Z1 Z2]. inversion_clear Z1 as [|? ? ZW Z3]. inversion_clear Z3 as [|? ? ZU _]. inversion_clear Z2 as [|? ? Z4 _]. inversion_clear Z4 as [|? ? ZV _].
    destruct (HQ (Aux i)) as ([_ VU] & [_ VV] & [_ VW]). specialize (VU j ltac:(lia)). specialize (VV j ltac:(lia)). specialize (VW j ltac:(lia)).
    change (@PropDomain.eval P) with (@peval P) in VU, VV, VW. rewrite (all_zero_eval _ _ ZU) in VU. rewrite (all_zero_eval _ _ ZV) in VV. rewrite (all_zero_eval _ _ ZW) in VW.
    unfold column_A in VU. unfold column_B in VV. unfold column_C in VW.
    assert (N : forall f : Constraint P -> P, nth j (map f (k_cons inst)) fzero = f (a, b, c)) by (intros f; apply nth_error_nth; now apply map_nth_error).
    rewrite N in VU, VV, VW.
    destruct Y as [Y|[Y|Y]]; congruence. }
  assert (Dg : forall i, mdeg 3 (eqn i) [1; 1; 2 ^ e - 1]).
  { intros i. destruct (HQ (Aux i)) as ([LU _] & [LV _] & [LW _]).
    assert (L1 : forall q : list P, length q <= 2 ^ e -> length q <= S (2 ^ e - 1) /\ Forall (fun q : P => @nil nat = []) q) by (intros q Hq; split; [lia|apply Forall_forall; reflexivity]).
    unfold eqn. repeat match goal with
      | |- mdeg (S (S _)) _ _ => split; [cbn; lia|]
      | |- mdeg 1 _ _ => apply L1; assumption
      | |- Forall _ [] => constructor
      | |- Forall _ (_ :: _) => constructor
      end. }
  (* each failure is a zero of one of them *)
  assert (Key : forall al be t, In (al, be, t) bad -> existsb (fun i => zero_at 3 (eqn i) [al; be; t]) (seq 0 (k_aux inst)) = true).
  { intros al be t Hin. destruct (HB al be t Hin) as (_ & _ & _ & Hno).
    destruct (generate_cases g1 g2 al be gamma delta t w circuit s Hw Es) as (ks & e' & Ek & He' & _ & _ & G & _).
    unfold describes in *. assert (ks = inst) by congruence. subst ks.
    assert (e' = e) by (apply (least_pow_unique (List.length (k_cons inst))); now apply PropDomain.domain_exponent_least). subst e'.
    destruct (Nat.ltb_spec e (two_adicity P)) as [_|]; [|lia]. cbn [negb] in G.
    destruct (feqb_spec gamma fzero); [contradiction|]. destruct (feqb_spec delta fzero); [contradiction|]. cbn [orb] in G.
    destruct (existsb is_identity (p_l (params_of E g1 g2 al be gamma delta t e inst))) eqn:Ex.
    - apply (existsb_l g1 g2 al be gamma delta t inst e U V W HS Hl Hg Hdl HQ) in Ex as (i & Hi & Ei). apply existsb_exists. exists i. split; [apply in_seq; lia|].
      unfold zero_at. rewrite ev. apply gmul_zero_iff in Ei; [|exact Hg1]. change (@PropDomain.eval P) with (@peval P) in Ei.
      assert (X : (be * peval (U (Aux i)) t + al * peval (V (Aux i)) t + peval (W (Aux i)) t)%F = fzero).
      { match goal with |- ?y = _ => replace y with ((y * finv delta) * delta)%F by (field; auto) end. rewrite Ei. ring. }
      rewrite X. now destruct (feqb_spec (fzero : P) fzero).
    - exfalso. eapply Hno. apply G. intros Hs. destruct (H0 Hs) as [A0 B0]. split; auto. destruct e; [lia|]. cbn [Nat.pow]. pose proof (pow2_gt0 e). lia. }
  assert (Count : forall l (bd : list (P * P * P)), (forall i, In i l -> i < k_aux inst) -> NoDup bd -> (forall x, In x bd -> In x bad) ->
            (forall al be t, In (al, be, t) bd -> existsb (fun i => zero_at 3 (eqn i) [al; be; t]) l = true) -> length bd <= length l * ((2 ^ e + 1) * length D ^ 2)).
  { clear Key. induction l as [|i l IH]; intros bd Hil Nbd Hsub Hex.
    - destruct bd as [|[[al be] t] bd]; [cbn; lia|]. specialize (Hex al be t (or_introl eq_refl)). discriminate.
    - set (f := fun x : P * P * P => zero_at 3 (eqn i) [fst (fst x); snd (fst x); snd x]).
      assert (S1 : length (filter f bd) <= (2 ^ e + 1) * length D ^ 2).
      { pose proof (few_zeros D 2 (eqn i) [1; 1; 2 ^ e - 1] (map (fun '(al, be, t) => [al; be; t]) (filter f bd)) ND (Nz i (Hil i (or_introl eq_refl))) (Dg i)) as F.
        rewrite map_length in F. cbn [list_sum fold_right] in F. pose proof (pow2_gt0 e). replace (1 + (1 + (2 ^ e - 1 + 0))) with (2 ^ e + 1) in F by lia. apply F.
        - apply FinFun.Injective_map_NoDup; [|now apply NoDup_filter]. intros [[a b] c] [[a' b'] c'] X. now injection X as -> -> ->.
        - intros xs Hxs. apply in_map_iff in Hxs as ([[al be] t] & <- & Hin). apply filter_In in Hin as [Hin Hz]. destruct (HB al be t (Hsub _ Hin)) as (I1 & I2 & I3 & _).
          split; [reflexivity|]. split; [intros x [<-|[<-|[<-|[]]]]; assumption|]. unfold f, zero_at in Hz. cbn [fst snd] in Hz.
          destruct (feqb_spec (mev 3 (eqn i) [al; be; t]) fzero); [assumption|discriminate]. }
      assert (S2 : length (filter (fun x => negb (f x)) bd) <= length l * ((2 ^ e + 1) * length D ^ 2)).
      { apply IH; [intros j Hj; apply Hil; now right|now apply NoDup_filter| |].
        - intros x Hx. apply filter_In in Hx as [Hx _]. auto.
        - intros al be t Hx. apply filter_In in Hx as [Hx Hf]. specialize (Hex al be t Hx). cbn [existsb] in Hex. unfold f in Hf. cbn [fst snd] in Hf.
          destruct (zero_at 3 (eqn i) [al; be; t]); [discriminate|exact Hex]. }
      assert (S3 : length bd = length (filter f bd) + length (filter (fun x => negb (f x)) bd)).
      { clear. induction bd as [|x bd IH]; [reflexivity|]. cbn [filter length]. destruct (f x); cbn [negb length]; lia. }
      cbn [length Nat.mul]. rewrite S3. apply Nat.add_le_mono; assumption. }
  rewrite <- (seq_length (k_aux inst) 0). apply (Count (seq 0 (k_aux inst)) bad); auto. intros i Hi. apply in_seq in Hi. lia.
Qed.

(** ... and if one is not, it fails for all of them. *)
Theorem C70_needed (w : Worker) (circuit : prog P (res unit)) (inst : KState P) (g1 : E_G1 E) (g2 : E_G2 E) (alpha beta gamma delta tau : P) params :
  wf_worker w -> describes circuit inst -> generate_parameters w circuit g1 g2 alpha beta gamma delta tau = Done (Ok params) -> all_constrained inst.
Proof.
  intros Hw Hd Hg i Hi. destruct (generate_ok_inv g1 g2 alpha beta gamma delta tau w circuit params Hw Hg) as (s & ks & e & Es & KI & Hd' & He & Hl & HS & Hgm & Hdl & -> & Hno).
  unfold describes in *. assert (ks = inst) by congruence. subst ks. destruct (polys_exist inst e HS) as (U & V & W & HQ).
  destruct (Forall_Exists_dec (fun k : Constraint P => ~ constrained_by k (Aux i))) with (l := k_cons inst) as [N|N].
  - intros [[a b] c]. unfold constrained_by. destruct (feqb_spec (coefficient a (Aux i)) fzero), (feqb_spec (coefficient b (Aux i)) fzero), (feqb_spec (coefficient c (Aux i)) fzero); tauto.
  - exfalso. rewrite Forall_forall in N.
    assert (Z : forall sel, (forall c : Constraint P, In c (k_cons inst) -> coefficient (sel c) (Aux i) = fzero) -> qap tau e sel (k_cons inst) (Aux i) = fzero).
    { intros sel H. unfold qap. rewrite (at_tau_ext e tau _ (fun _ => fzero)); [apply at_tau_zero|]. intros k _. rewrite col_coeff_column. cbn [Nat.leb].
      destruct (nth_error (k_cons inst) (k - 0)) as [c|] eqn:Ec; auto. apply nth_error_In in Ec. rewrite <- coefficient_eq. auto. }
    enough (X : existsb is_identity (p_l (params_of E g1 g2 alpha beta gamma delta tau e inst)) = true) by congruence.
    apply existsb_exists. exists gzero. split; [|unfold is_identity; destruct (geqb_spec (gzero : E_G1 E) gzero); congruence].
    unfold params_of. cbn [p_l]. apply in_map_iff. exists i. split; [|apply in_seq; lia]. unfold ext_scalar.
    rewrite !Z; [rewrite <- (gmul_0_l g1); f_equal; ring|intros [[a b] c] Hc; specialize (N _ Hc); unfold constrained_by in N; cbn [sel_a sel_b sel_c fst snd] ..].
    all: match goal with |- ?x = fzero => destruct (feqb_spec x fzero) as [|Y]; [assumption|exfalso; apply N; auto] end.
  - apply Exists_exists in N as (k & Hk & Y). exists k. split; [exact Hk|]. destruct k as [[a b] c]. unfold constrained_by in *.
    destruct (feqb_spec (coefficient a (Aux i)) fzero), (feqb_spec (coefficient b (Aux i)) fzero), (feqb_spec (coefficient c (Aux i)) fzero); tauto.
Qed.

(** The circuit of the crate documentation (C67): all its variables are constrained ... *)
Theorem C70_sha256d n (preimage : option (list Z)) (inst : KState P) : constrains [] (@my_circuit P n preimage) [] /\ (describes (my_circuit n preimage) inst -> all_constrained inst).
Proof.
  assert (H : constrains [] (@my_circuit P n preimage) []).
  { apply constrains_scop with (Q := fun (K : Var -> Prop) (_ : unit) => True). intros K K1 _. apply circuit_scop. exact K1. }
  split; [exact H|]. now apply C70_circuits.
Qed.
Lemma F_add_0_l (x : P) : (0 + x)%F = x.
Proof. ring. Qed.
Lemma exponent_17 len : Z.of_nat len = 77081%Z -> PropDomain.domain_exponent len 17.
Proof.
  intros H. split.
  - apply Nat2Z.inj_le. rewrite H, Nat2Z.inj_pow. now vm_compute.
  - intros e' He. apply Nat2Z.inj_lt. rewrite H, Nat2Z.inj_pow. apply Z.le_lt_trans with (Z.of_nat 2 ^ Z.of_nat 16)%Z; [apply Z.pow_le_mono_r; lia|now vm_compute].
Qed.
(** ... so for block headers of 80 bytes, keys can be generated in the scalar field of BLS12-381 (capacity 254, two-adicity 32) except for less
    than [2^34] out of [|D|] values of [alpha], [beta] and [tau], where [D] may be the whole field. *)
Theorem C70_header_keys (w : Worker) (g1 : E_G1 E) (g2 : E_G2 E) (gamma delta : P) (D : list P) (bad : list (P * P * P)) :
  capacity P = 254 -> 64 <= num_bits P -> 17 < two_adicity P -> wf_worker w -> g1 <> gzero -> gamma <> fzero -> delta <> fzero -> NoDup D -> NoDup bad ->
  (forall alpha beta tau, In (alpha, beta, tau) bad -> In alpha D /\ In beta D /\ In tau D /\
     forall params, generate_parameters w (my_circuit 80 None) g1 g2 alpha beta gamma delta tau <> Done (Ok params)) ->
  (Z.of_nat (length bad) <= 76998 * 131073 * Z.of_nat (length D) ^ 2 < 2 ^ 34 * Z.of_nat (length D) ^ 2 \/ D = [] /\ bad = [])%Z.
Proof.
  intros Hc H64 HS Hw Hg1 Hg Hd ND NB HB. destruct D as [|x D].
  { right. split; [reflexivity|]. destruct bad as [|[[al be] t] bad]; [reflexivity|]. destruct (HB al be t (or_introl eq_refl)) as ([] & _). }
  left. remember (x :: D) as D' eqn:HD. assert (HD0 : (0 < Z.of_nat (length D'))%Z) by (subst D'; cbn [length]; lia). clear HD x D.
  destruct (keys_synthesis 80 H64) as [s Hs]. destruct (whole 80 (repeat 1%Z 80) H64 (repeat_length _ _)) as (inst & _ & A & _).
  destruct (C67_sizes inst Hc H64 A) as (_ & S2 & S3).
  pose proof (C70_keys w _ s inst 17 g1 g2 gamma delta D' bad Hw Hs A (proj2 (C70_sha256d 80 None inst) A) (exponent_17 _ S3) HS) as H.
  specialize (H ltac:(intros _; split; [lia|apply Nat2Z.inj_lt; rewrite S2; reflexivity]) Hg1 Hg Hd ND NB HB).
  clear - H S2 HD0. apply Nat2Z.inj_le in H. rewrite !Nat2Z.inj_mul, S2, Nat2Z.inj_add, !Nat2Z.inj_pow in H.
  change (Z.of_nat 2 ^ Z.of_nat 17 + Z.of_nat 1)%Z with 131073%Z in H. change (Z.of_nat 2) with 2%Z in H. rewrite Z.mul_assoc in H. split; [exact H|].
  apply Z.mul_lt_mono_pos_r; [apply Z.pow_pos_nonneg; lia|now vm_compute].
Qed.
End C70.
Print Assumptions C70_bits.
Print Assumptions C70_words.
Print Assumptions C70_numbers.
Print Assumptions C70_hashes.
Print Assumptions C70_compose.
Print Assumptions C70_circuits.
Print Assumptions C70_keys.
Print Assumptions C70_needed.
Print Assumptions C70_sha256d.
Print Assumptions C70_header_keys.

(** Examples.  The circuit of C66_ex is put together from what constrains its variables, so all of them are; *)
Local Open Scope prog_scope.
Local Open Scope string_scope.
Lemma cov_step {A B} needs (p : prog Goldilocks (res A)) gives (g : A -> prog Goldilocks (res B)) n more :
  in_scope more p gives -> constrains more p [] -> incl more needs -> (forall r, constrains (needs ++ gives r) (g r) []) -> constrains needs (bindq (ns n p) g) [].
Proof.
  intros H1 C1 H2 H3. pose (h := fun _ : Var * bool => @Ret Goldilocks (res B) (Err AssignmentMissing)).
  destruct (C66_compose more needs p gives g (fun _ => []) (Ok fone) n [] [] []) as (W & _).
  destruct (C66_compose needs needs p gives g (fun _ => []) (Ok fone) n [] [] []) as (_ & _ & N & _).
  destruct (C70_compose more needs [] p gives g h (Ok fone) n [] [] []) as (W' & _).
  destruct (C70_compose needs needs [] p gives g h (Ok fone) n [] [] []) as (_ & _ & _ & N' & _).
  destruct (C70_compose needs needs [] (ns n p) gives g h (Ok fone) n [] [] []) as (_ & B' & _). auto.
Qed.
Example C70_ex : constrains [] sc_maj [] /\ exists inst, describes sc_maj inst /\ k_aux inst = 5 /\ length (k_cons inst) = 6 /\ all_constrained inst.
Proof.
  assert (H : constrains [] sc_maj []).
  { pose (nil_ := {| ab_var := Aux 0; ab_value := None |}).
    eapply cov_step; [apply (C66_bits (Some true) None Goldilocks None nil_ nil_ (BConst true) (BConst true) (BConst true))
      |apply (C70_bits (Some true) None Goldilocks None nil_ nil_ (BConst true) (BConst true) (BConst true))|apply incl_refl|]. intros a.
    eapply cov_step; [apply (C66_bits (Some false) None Goldilocks None nil_ nil_ (BConst true) (BConst true) (BConst true))
      |apply (C70_bits (Some false) None Goldilocks None nil_ nil_ (BConst true) (BConst true) (BConst true))|intros v []|]. intros b.
    destruct (C66_bits (P := Goldilocks) None None Goldilocks None a b (BIs a) (BNot b) (BConst true)) as (_ & _ & _ & _ & _ & _ & _ & _ & _ & _ & _ & Ha & _).
    destruct (C70_bits (P := Goldilocks) None None Goldilocks None a b (BIs a) (BNot b) (BConst true)) as (_ & _ & _ & _ & _ & _ & _ & _ & _ & _ & Ha' & _).
    eapply cov_step; [exact Ha|exact Ha'|intros v [<-|[<-|[]]]; cbn; auto|]. intros c.
    destruct (C66_bits (P := Goldilocks) None None Goldilocks None a b (BIs a) (BNot b) c) as (_ & _ & _ & _ & _ & _ & _ & _ & _ & _ & _ & _ & _ & Hm).
    destruct (C70_bits (P := Goldilocks) None None Goldilocks None a b (BIs a) (BNot b) c) as (_ & _ & _ & _ & _ & _ & _ & _ & _ & _ & _ & _ & Hm').
    eapply cov_step; [exact Hm|exact Hm'| |].
    - intros v. cbn [bit_vars app In]. tauto.
    - intros m t r t' _ Er. cbn [run] in Er. apply Done_inj in Er. injection Er as <- <-. exists []. rewrite app_nil_r. split; [reflexivity|]. split; [intros i Hi; lia|intros v []]. }
  split; [exact H|].
  assert (X : match synthesize (ShapeCS Goldilocks) {| k_inputs := 0; k_aux := 0; k_cons := [] |} k_inputs sc_maj with
              | Done (Ok i) => (k_aux i, length (k_cons i)) | _ => (0, 0) end = (5, 6)) by (vm_compute; reflexivity).
  destruct (synthesize (ShapeCS Goldilocks) {| k_inputs := 0; k_aux := 0; k_cons := [] |} k_inputs sc_maj) as [[inst|]|] eqn:Ei; try discriminate X.
  injection X as X1 X2. exists inst. split; [exact Ei|]. split; [exact X1|]. split; [exact X2|]. exact (C70_circuits sc_maj inst H Ei).
Qed.
(** a number that is allocated and not used is not constrained, and no keys can be generated; *)
Definition alone : prog Goldilocks (res unit) := let* x := ns "x" (an_alloc (Ok (ofZ 5))) in Ret (Ok tt).
Example C70_ex_alone : ~ constrains [] alone [] /\
  forall (E : Engine Goldilocks) w g1 g2 alpha beta gamma delta tau params, wf_worker w -> generate_parameters (E := E) w alone g1 g2 alpha beta gamma delta tau <> Done (Ok params).
Proof.
  assert (N : forall inst, describes alone inst -> ~ all_constrained inst).
  { intros inst D H. assert (X : match synthesize (ShapeCS Goldilocks) {| k_inputs := 0; k_aux := 0; k_cons := [] |} k_inputs alone with
      | Done (Ok i) => Nat.eqb (k_aux i) 1 && forallb (fun '(a, b, c) => forallb (fun t => match fst t with Aux _ => false | _ => true end) (a ++ b ++ c)) (k_cons i) | _ => false end = true) by (vm_compute; reflexivity).
    unfold describes in D. rewrite D in X. apply andb_true_iff in X as [X1 X2]. apply Nat.eqb_eq in X1. destruct (H 0) as ([[a b] c] & Hk & Y); [lia|].
    rewrite forallb_forall in X2. specialize (X2 _ Hk). cbv beta iota in X2. rewrite !forallb_app in X2.
    assert (Z : forall l : LC Goldilocks, forallb (fun t => match fst t with Aux _ => false | _ => true end) l = true -> coefficient l (Aux 0) = fzero).
    { induction l as [|[[i|i] x] l IH]; cbn [forallb fst andb]; [reflexivity| |discriminate]. intros Hl. cbn [coefficient]. rewrite IH by exact Hl. apply (F_add_0_l (P := Goldilocks)). }
    apply andb_true_iff in X2 as [Xa X2]. apply andb_true_iff in X2 as [Xb Xc]. unfold constrained_by in Y. rewrite !Z in Y by assumption. intuition. }
  assert (D : exists inst, describes alone inst).
  { assert (X : match synthesize (ShapeCS Goldilocks) {| k_inputs := 0; k_aux := 0; k_cons := [] |} k_inputs alone with Done (Ok i) => true | _ => false end = true) by (vm_compute; reflexivity).
    unfold describes. destruct (synthesize _ _ _ alone) as [[inst|]|]; try discriminate X. eauto. }
  destruct D as [inst D]. split; [intros H; exact (N inst D (C70_circuits alone inst H D))|].
  intros E w g1 g2 alpha beta gamma delta tau params Hw Hg. exact (N inst D (C70_needed w alone inst g1 g2 alpha beta gamma delta tau params Hw D Hg)).
Qed.
(** and the hypotheses of [C70_header_keys] hold in the scalar field of BLS12-381. *)
Example C70_ex_header : capacity BlsScalar = 254 /\ 64 <= num_bits BlsScalar /\ 17 < two_adicity BlsScalar.
Proof. split; [reflexivity|]. split; [exact bls_bits|]. cbn. lia. Qed.
