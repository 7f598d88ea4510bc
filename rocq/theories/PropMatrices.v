(** Property C64: keys are functions of the three matrices, and tell them apart. *)
From Coq Require Import String.
From Coq Require Import ZArith List Bool Lia Field.
From Verif Require Import Prelude PrimeField Fields FModule GRing Circuit Multicore Multiexp Assembly AssemblyProof PropAssembly Groth16 GeneratorProof PropGenerator.
From Verif Require Import FFTProof DomainProof Quotient Roots MPoly.
From Verif Require PropDomain.
Import ListNotations.
Local Open Scope nat_scope.

(** ** Specification *)
Section Spec.
Context {P : PrimeField}.

(** Two systems with the same numbers of inputs, auxiliary variables and constraints, and with the same matrices: in every constraint,
    the coefficients of a variable add up to the same.  The order of the terms, repeated terms, and terms with coefficient zero play no role. *)
Definition same_lc (inst : KState P) (x y : LC P) : Prop :=
  forall v, In v (variables (k_inputs inst) (k_aux inst)) -> coefficient x v = coefficient y v.
Definition same_constraint (inst : KState P) (x y : Constraint P) : Prop :=
  let '(a, b, c) := x in let '(a', b', c') := y in same_lc inst a a' /\ same_lc inst b b' /\ same_lc inst c c'.
Definition same_system (inst inst' : KState P) : Prop :=
  k_inputs inst = k_inputs inst' /\ k_aux inst = k_aux inst' /\ Forall2 (same_constraint inst) (k_cons inst) (k_cons inst').
End Spec.

(** * C64 *)
Section C64.
Context {P : PrimeField} {E : Engine P}.
Add Field PFc64 : (F_field P).

Definition row (inst : KState P) j : Constraint P := nth j (k_cons inst) ([], [], []).

Lemma qap_row tau e sel (inst : KState P) v : sel ([], [], []) = @nil (Var * P) ->
  qap tau e sel (k_cons inst) v = at_tau e tau (fun j => coefficient (sel (row inst j)) v).
Proof.
  intros Hn. unfold qap. apply at_tau_ext. intros k _. rewrite col_coeff_column. cbn [Nat.leb]. rewrite Nat.sub_0_r. unfold row.
  destruct (nth_error (k_cons inst) k) as [c|] eqn:Ec.
  - rewrite (nth_error_nth _ _ _ Ec). now rewrite coefficient_eq.
  - rewrite nth_overflow by now apply nth_error_None. now rewrite Hn.
Qed.
Lemma forall2_nth {A} (R : A -> A -> Prop) d l l' : R d d -> Forall2 R l l' -> forall j, R (nth j l d) (nth j l' d).
Proof. intros Hd H. induction H as [|x y l l' Hxy H IH]; intros [|j]; cbn [nth]; auto. Qed.
Lemma forall2_of_nth {A} (R : A -> A -> Prop) d l : forall l', List.length l = List.length l' -> (forall j, j < List.length l -> R (nth j l d) (nth j l' d)) -> Forall2 R l l'.
Proof.
  induction l as [|x l IH]; intros [|y l'] L H; cbn [List.length] in *; try discriminate; constructor.
  - apply (H 0). lia.
  - apply IH; [lia|]. intros j Hj. apply (H (S j)). lia.
Qed.
Lemma same_rows (inst inst' : KState P) j v : same_system inst inst' -> In v (variables (k_inputs inst) (k_aux inst)) ->
  coefficient (sel_a (row inst j)) v = coefficient (sel_a (row inst' j)) v /\
  coefficient (sel_b (row inst j)) v = coefficient (sel_b (row inst' j)) v /\
  coefficient (sel_c (row inst j)) v = coefficient (sel_c (row inst' j)) v.
Proof.
  intros (_ & _ & H) Hv.
  assert (N : same_constraint inst ([], [], []) ([], [], [])) by (repeat split; intros; reflexivity).
  assert (X : same_constraint inst (row inst j) (row inst' j)) by exact (forall2_nth _ ([], [], []) _ _ N H j).
  destruct (row inst j) as [[a b] c], (row inst' j) as [[a' b'] c']. destruct X as (X1 & X2 & X3). auto.
Qed.
Lemma same_qaps tau e (inst inst' : KState P) v : same_system inst inst' -> In v (variables (k_inputs inst) (k_aux inst)) ->
  qap tau e sel_a (k_cons inst) v = qap tau e sel_a (k_cons inst') v /\
  qap tau e sel_b (k_cons inst) v = qap tau e sel_b (k_cons inst') v /\
  qap tau e sel_c (k_cons inst) v = qap tau e sel_c (k_cons inst') v.
Proof.
  intros HS Hv. rewrite !qap_row by reflexivity. repeat split; apply at_tau_ext; intros j _; apply (same_rows inst inst' j v HS Hv).
Qed.
Lemma in_vars ni na i : (i < ni -> In (Input i) (variables ni na)) /\ (i < na -> In (Aux i) (variables ni na)).
Proof.
  unfold variables. split; intros H; apply in_or_app; [left; apply (in_map Input)|right; apply (in_map Aux)]; apply in_seq; lia.
Qed.
Lemma same_params (g1 : E_G1 E) (g2 : E_G2 E) alpha beta gamma delta tau e (inst inst' : KState P) : same_system inst inst' ->
  params_of E g1 g2 alpha beta gamma delta tau e inst = params_of E g1 g2 alpha beta gamma delta tau e inst'.
Proof.
  intros HS. pose proof HS as (Hi & Ha & _).
  assert (X : forall inv v, In v (variables (k_inputs inst) (k_aux inst)) -> ext_scalar alpha beta tau e (k_cons inst) inv v = ext_scalar alpha beta tau e (k_cons inst') inv v).
  { intros inv v Hv. unfold ext_scalar. destruct (same_qaps tau e inst inst' v HS Hv) as (-> & -> & ->). reflexivity. }
  unfold params_of. rewrite <- Hi, <- Ha. unfold vars_of. fold (variables (k_inputs inst) (k_aux inst)). f_equal.
  - f_equal. apply map_ext_in. intros i H. apply in_seq in H. rewrite X; auto. apply in_vars. lia.
  - apply map_ext_in. intros i H. apply in_seq in H. rewrite X; auto. apply in_vars. lia.
  - f_equal. apply map_ext_in. intros v Hv. now rewrite (proj1 (same_qaps tau e inst inst' v HS Hv)).
  - f_equal. apply map_ext_in. intros v Hv. now rewrite (proj1 (proj2 (same_qaps tau e inst inst' v HS Hv))).
  - f_equal. apply map_ext_in. intros v Hv. now rewrite (proj1 (proj2 (same_qaps tau e inst inst' v HS Hv))).
Qed.

(** Circuits describing the same system have the same key, or fail in the same way: for all toxic waste, with any worker. *)
Theorem C64_same_key (w : Worker) circuit circuit' s s' (inst inst' : KState P) (g1 : E_G1 E) (g2 : E_G2 E) alpha beta gamma delta tau : wf_worker w ->
  synthesize_keypair circuit = Done (Ok s) -> synthesize_keypair circuit' = Done (Ok s') ->
  describes circuit inst -> describes circuit' inst' -> same_system inst inst' ->
  generate_parameters w circuit g1 g2 alpha beta gamma delta tau = generate_parameters w circuit' g1 g2 alpha beta gamma delta tau.
Proof.
  intros Hw Es Es' D D' HS. pose proof (same_params g1 g2 alpha beta gamma delta tau) as SP.
  destruct (generate_cases g1 g2 alpha beta gamma delta tau w circuit s Hw Es) as (ks & e & Ek & He & _ & _ & G & GP & GE).
  destruct (generate_cases g1 g2 alpha beta gamma delta tau w circuit' s' Hw Es') as (ks' & e' & Ek' & He' & _ & _ & G' & GP' & GE').
  unfold describes in *. assert (ks = inst) by congruence. assert (ks' = inst') by congruence. subst ks ks'.
  pose proof HS as (_ & Ha & Hc). apply Forall2_length in Hc.
  assert (e' = e) by (apply (least_pow_unique (List.length (k_cons inst))); apply PropDomain.domain_exponent_least; congruence). subst e'.
  rewrite <- (SP e inst inst' HS), <- Ha in *.
  destruct w as [t|].
  - rewrite G, G' by discriminate. reflexivity.
  - destruct (Nat.lt_ge_cases e (two_adicity P)) as [A|A]; [destruct (feq_dec gamma fzero) as [B|B]; [|destruct (feq_dec delta fzero) as [C|C]]|].
    + now rewrite GE, GE' by tauto.
    + now rewrite GE, GE' by tauto.
    + destruct (Nat.lt_ge_cases 1 (2 ^ e)); [destruct (Nat.lt_ge_cases 0 (k_aux inst))|].
      * now rewrite G, G' by auto.
      * rewrite GP, GP' by (auto; lia). reflexivity.
      * rewrite GP, GP' by (auto; lia). reflexivity.
    + rewrite GE, GE' by (auto; lia). reflexivity.
Qed.

(** The last constraint is the one for the last input. *)
Lemma last_row circuit (inst : KState P) : describes circuit inst ->
  0 < k_inputs inst /\ 0 < List.length (k_cons inst) /\ coefficient (sel_a (row inst (List.length (k_cons inst) - 1))) (Input (k_inputs inst - 1)) = fone.
Proof.
  unfold describes, synthesize, bindq, cs_alloc_input. cbn [bind run m_alloc_input ShapeCS obind fst snd k_inputs k_aux k_cons].
  destruct (run (ShapeCS P) circuit _) as [[[r|] s]|] eqn:Er; cbn [obind]; try discriminate. apply shape_inputs_mono in Er. cbn [k_inputs] in Er.
  rewrite shape_enforce_inputs. cbn [obind]. intros [= <-]. cbn [k_inputs k_cons]. rewrite app_length, map_length, seq_length.
  split; [lia|]. split; [lia|]. unfold row. cbn [k_cons]. rewrite app_nth2 by lia.
  replace (List.length (k_cons s) + k_inputs s - 1 - List.length (k_cons s)) with (k_inputs s - 1) by lia.
  rewrite (nth_indep _ _ (input_constraint 0)) by (rewrite map_length, seq_length; lia). rewrite map_nth, seq_nth by lia. cbn -[Nat.sub Nat.eqb].
  rewrite Nat.eqb_refl. ring.
Qed.

(** The difference of two polynomials *)
Definition pdiff (p q : list P) : list P := padd p (psc (- fone)%F q).
Lemma hev_pdiff p q x : hev (pdiff p q) x = (hev p x - hev q x)%F.
Proof. unfold pdiff. rewrite hev_padd, hev_psc. ring. Qed.

Lemma find_dec {A} (Q : A -> Prop) l : (forall a, Q a \/ ~ Q a) -> (forall a, In a l -> Q a) \/ exists a, In a l /\ ~ Q a.
Proof.
  intros H. induction l as [|a l IH]; [left; intros ? []|]. destruct (H a) as [A1|A1]; [|right; exists a; split; [now left|auto]].
  destruct IH as [IH|(b & B1 & B2)]; [left; intros x [<-|Hx]; auto|right; exists b; split; [now right|auto]].
Qed.
Lemma map_seq_eq {A} (f g : nat -> A) n m : map f (seq 0 n) = map g (seq 0 m) -> n = m /\ forall i, i < n -> f i = g i.
Proof.
  intros H. assert (L : n = m) by (apply (f_equal (@List.length A)) in H; now rewrite !map_length, !seq_length in H). split; auto. subst m. intros i Hi.
  apply (f_equal (fun l => nth i l (f 0))) in H. rewrite !(nth_indep _ (f 0) (f i)) in H by (rewrite map_length, seq_length; auto). 
  rewrite (nth_indep (map g _) (f i) (g 0)) in H by (rewrite map_length, seq_length; auto). rewrite (nth_indep (map f _) (f i) (f 0)) in H by (rewrite map_length, seq_length; auto).
  rewrite !map_nth, seq_nth in H by auto. exact H.
Qed.
Lemma gmul_cancel {M : FMod P} (x y : P) (g : M) : g <> gzero -> x *g g = y *g g -> x = y.
Proof.
  intros Hg H. assert (Z : (x - y)%F *g g = gzero).
  { replace (x - y)%F with (x + (- fone) * y)%F by ring. rewrite gmul_add_l, gmul_mul, H. transitivity ((fone + - fone)%F *g (y *g g)).
    - rewrite gmul_add_l, gmul_1. reflexivity.
    - replace (fone + - fone)%F with (fzero : P) by ring. apply gmul_0_l. }
  apply (gmul_zero_iff _ g Hg) in Z. transitivity (x - y + y)%F; [ring|]. rewrite Z. ring.
Qed.

(** Circuits that have the same key for many choices of alpha, beta and tau describe the same system. *)
Theorem C64_different_keys circuit circuit' (inst inst' : KState P) e (D : list P) (good : list (P * P * P)) :
  describes circuit inst -> describes circuit' inst' -> PropDomain.domain_exponent (List.length (k_cons inst)) e ->
  NoDup D -> NoDup good ->
  (forall alpha beta tau, In (alpha, beta, tau) good -> In alpha D /\ In beta D /\ In tau D /\
     exists w w' (g1 : E_G1 E) (g2 : E_G2 E) gamma delta params, wf_worker w /\ wf_worker w' /\ g1 <> gzero /\
       generate_parameters w circuit g1 g2 alpha beta gamma delta tau = Done (Ok params) /\
       generate_parameters w' circuit' g1 g2 alpha beta gamma delta tau = Done (Ok params)) ->
  (2 ^ e + 1) * List.length D ^ 2 < List.length good ->
  same_system inst inst'.
Proof.
  intros D1 D2 He ND NG HG Hmany.
  (* what one waste tells *)
  assert (HX : forall alpha beta tau, In (alpha, beta, tau) good -> In alpha D /\ In beta D /\ In tau D /\
            e < two_adicity P /\ k_inputs inst = k_inputs inst' /\ k_aux inst = k_aux inst' /\ List.length (k_cons inst) <= 2 ^ e /\
            PropDomain.domain_exponent (List.length (k_cons inst')) e /\ List.length (k_cons inst') <= 2 ^ e /\
            forall U V W U' V' W', qap_polynomials inst e U V W -> qap_polynomials inst' e U' V' W' ->
            forall v, In v (variables (k_inputs inst) (k_aux inst)) ->
            (beta * hev (U v) tau + alpha * hev (V v) tau + hev (W v) tau = beta * hev (U' v) tau + alpha * hev (V' v) tau + hev (W' v) tau)%F).
  { intros alpha beta tau Hin. destruct (HG _ _ _ Hin) as (H1 & H2 & H3 & w & w' & g1 & g2 & gamma & delta & params & Hw & Hw' & Hg1 & G1 & G2). clear HG.
    split; [exact H1|]. split; [exact H2|]. split; [exact H3|].
    destruct (generate_ok_inv g1 g2 alpha beta gamma delta tau w circuit params Hw G1) as (s & ks & e1 & _ & _ & K1 & E1 & L1 & S1 & Hg & Hd & P1 & _).
    destruct (generate_ok_inv g1 g2 alpha beta gamma delta tau w' circuit' params Hw' G2) as (s' & ks' & e2 & _ & _ & K2 & E2 & L2 & S2 & _ & _ & P2 & _).
    unfold describes in *. assert (ks = inst) by congruence. assert (ks' = inst') by congruence. subst ks ks'.
    assert (e1 = e) by (apply (least_pow_unique (List.length (k_cons inst))); apply PropDomain.domain_exponent_least; auto). subst e1.
    assert (e2 = e). 
    { apply (f_equal (fun p => List.length (p_h p))) in P1, P2. unfold params_of in P1, P2. cbn [p_h] in P1, P2. unfold h_of in P1, P2. rewrite map_length, seq_length in P1, P2.
      assert (2 ^ e = 2 ^ e2) by (pose proof (pow2_gt0 e); pose proof (pow2_gt0 e2); lia). symmetry. apply (Nat.pow_inj_r 2); auto. }
    subst e2.
    assert (Hi : k_inputs inst = k_inputs inst').
    { pose proof P1 as Q1. pose proof P2 as Q2. apply (f_equal (fun p => List.length (ic (p_vk p)))) in Q1, Q2. unfold params_of in Q1, Q2. cbn [p_vk ic] in Q1, Q2. rewrite map_length, seq_length in Q1, Q2. congruence. }
    assert (Ha : k_aux inst = k_aux inst').
    { pose proof P1 as Q1. pose proof P2 as Q2. apply (f_equal (fun p => List.length (p_l p))) in Q1, Q2. unfold params_of in Q1, Q2. cbn [p_l] in Q1, Q2. rewrite map_length, seq_length in Q1, Q2. congruence. }
    split; [exact S1|]. split; [exact Hi|]. split; [exact Ha|]. split; [exact L1|]. split; [exact E2|]. split; [exact L2|].
    intros U V W U' V' W' Q Q' v Hv.
    pose proof (params_documented g1 g2 alpha beta gamma delta tau inst e U V W S1 L1 Hg Hd Q) as DA. pose proof (params_documented g1 g2 alpha beta gamma delta tau inst' e U' V' W' S1 L2 Hg Hd Q') as DB.
    rewrite <- P1 in DA. rewrite <- P2 in DB. destruct DA as [_ _ _ _ _ _ Aic Al _ _ _ _], DB as [_ _ _ _ _ _ Bic Bl _ _ _ _].
    rewrite Aic in Bic. rewrite Al in Bl. clear Aic Al. apply map_seq_eq in Bic as [_ Bic]. apply map_seq_eq in Bl as [_ Bl].
    assert (Fin : forall (x y inv : P), inv <> fzero -> (x * finv inv)%F *g g1 = (y * finv inv)%F *g g1 -> x = y).
    { intros x y inv Hinv Hxy. apply (gmul_cancel _ _ g1 Hg1) in Hxy. transitivity (x * finv inv * inv)%F; [field; auto|]. rewrite Hxy. field; auto. }
    rewrite !hev_peval.
    unfold variables in Hv. apply in_app_or in Hv as [Hv|Hv]; apply in_map_iff in Hv as (i & <- & Hi'); apply in_seq in Hi'.
    - apply (Fin _ _ gamma Hg). apply Bic. lia.
    - apply (Fin _ _ delta Hd). apply Bl. lia. }
  clear HG. destruct good as [|[[al0 be0] t0] good0]; [cbn in Hmany; lia|]. set (good := (al0, be0, t0) :: good0) in *.
  destruct (HX al0 be0 t0 (or_introl eq_refl)) as (_ & _ & _ & S1 & Hi & Ha & L1 & E2 & L2 & _).
  destruct (polys_exist inst e S1) as (U & V & W & Q). destruct (polys_exist inst' e S1) as (U' & V' & W' & Q').
  set (eqn := fun v => [ [pdiff (W v) (W' v); pdiff (U v) (U' v)]; [pdiff (V v) (V' v)] ] : mp (P := P) 3).
  assert (Hz : forall v, In v (variables (k_inputs inst) (k_aux inst)) -> mzero 3 (eqn v)).
  { destruct (find_dec (fun v => mzero 3 (eqn v)) (variables (k_inputs inst) (k_aux inst)) (fun v => mzero_dec 3 (eqn v))) as [Hz|(v & Hv & Nz)]; [exact Hz|exfalso].
    assert (Ld : forall p q : list P, List.length p <= 2 ^ e -> List.length q <= 2 ^ e -> List.length (pdiff p q) <= S (2 ^ e - 1) /\ Forall (fun q : P => @nil nat = []) (pdiff p q)).
    { intros p q Hp Hq. split; [|apply Forall_forall; reflexivity]. unfold pdiff. rewrite padd_length, psc_length. lia. }
    destruct (Q v) as ([LU _] & [LV _] & [LW _]). destruct (Q' v) as ([LU' _] & [LV' _] & [LW' _]).
    assert (Dg : mdeg 3 (eqn v) [1; 1; 2 ^ e - 1]).
    { unfold eqn. repeat match goal with
      | |- mdeg (S (S _)) _ _ => split; [cbn; lia|]
      | |- mdeg 1 _ _ => apply Ld; assumption
      | |- Forall _ [] => constructor
      | |- Forall _ (_ :: _) => constructor
      end. }
    pose proof (few_zeros D 2 (eqn v) [1; 1; 2 ^ e - 1] (map (fun '(al, be, t) => [al; be; t]) good) ND Nz Dg) as F.
    rewrite map_length in F. 
    assert (B : List.length good <= list_sum [1; 1; 2 ^ e - 1] * List.length D ^ 2).
    { apply F.
      - apply FinFun.Injective_map_NoDup; [|exact NG]. intros [[a b] c] [[a' b'] c'] X. now injection X as -> -> ->.
      - intros xs Hxs. apply in_map_iff in Hxs as ([[al be] t] & <- & Hin). destruct (HX al be t Hin) as (I1 & I2 & I3 & _ & _ & _ & _ & _ & _ & Eq).
        split; [reflexivity|]. split; [intros x [<-|[<-|[<-|[]]]]; assumption|].
        specialize (Eq U V W U' V' W' Q Q' v Hv).
        unfold eqn, mev. cbn [map]. assert (ID : forall l : list P, hev (map (fun q : mp (P := P) 0 => q) l) t = hev l t) by (intros l; f_equal; apply (map_id l)). rewrite !ID. clear ID.
        rewrite !hev_pdiff. cbn [hev].
        transitivity ((be * hev (U v) t + al * hev (V v) t + hev (W v) t) - (be * hev (U' v) t + al * hev (V' v) t + hev (W' v) t))%F; [ring|]. rewrite Eq. ring. }
    cbn [list_sum fold_right] in B. pose proof (pow2_gt0 e). replace (1 + (1 + (2 ^ e - 1 + 0))) with (2 ^ e + 1) in B by lia.
    exact (Nat.lt_irrefl _ (Nat.lt_le_trans _ _ _ Hmany B)). }
  assert (Ze : forall p q : list P, all_zero (pdiff p q) -> forall x, PropDomain.eval p x = PropDomain.eval q x).
  { intros p q Z x. change (peval p x = peval q x). rewrite <- !hev_peval. pose proof (zero_hev _ x Z) as Y. rewrite hev_pdiff in Y.
    transitivity (hev p x - hev q x + hev q x)%F; [ring|]. rewrite Y. ring. }
  assert (Col : forall v, In v (variables (k_inputs inst) (k_aux inst)) -> forall j, j < 2 ^ e ->
     coefficient (sel_a (row inst j)) v = coefficient (sel_a (row inst' j)) v /\
     coefficient (sel_b (row inst j)) v = coefficient (sel_b (row inst' j)) v /\
     coefficient (sel_c (row inst j)) v = coefficient (sel_c (row inst' j)) v).
  { intros v Hv j Hj. specialize (Hz v Hv). unfold eqn in Hz. cbn [mzero mp] in Hz.
    inversion Hz as [|? ? Z1 Z2]; subst. inversion Z2 as [|? ? Z3 _]; subst. inversion Z1 as [|? ? ZW Z4]; subst. inversion Z4 as [|? ? ZU _]; subst. inversion Z3 as [|? ? ZV _]; subst.
    destruct (Q v) as ([_ QU] & [_ QV] & [_ QW]). destruct (Q' v) as ([_ QU'] & [_ QV'] & [_ QW']).
    specialize (QU j Hj). specialize (QV j Hj). specialize (QW j Hj). specialize (QU' j Hj). specialize (QV' j Hj). specialize (QW' j Hj).
    rewrite (Ze _ _ ZU) in QU. rewrite (Ze _ _ ZV) in QV. rewrite (Ze _ _ ZW) in QW. rewrite QU in QU'. rewrite QV in QV'. rewrite QW in QW'.
    unfold column_A, column_B, column_C in QU', QV', QW'. unfold row.
    destruct (map_sel (fun lc => coefficient lc v) (k_cons inst)) as (M1 & M2 & M3). rewrite M1 in QU'. rewrite M2 in QV'. rewrite M3 in QW'. clear M1 M2 M3.
    destruct (map_sel (fun lc => coefficient lc v) (k_cons inst')) as (M1 & M2 & M3). rewrite M1 in QU'. rewrite M2 in QV'. rewrite M3 in QW'. clear M1 M2 M3.
    assert (Nm : forall (sel : Constraint P -> LC P) cons, sel ([], [], []) = [] -> nth j (map (fun c => coefficient (sel c) v) cons) fzero = coefficient (sel (nth j cons ([], [], []))) v).
    { intros sel cons Hs. replace (fzero : P) with (coefficient (sel ([], [], [])) v) by now rewrite Hs. apply (map_nth (fun c => coefficient (sel c) v)). }
    rewrite !Nm in QU', QV', QW' by reflexivity. auto. }
  destruct (last_row circuit inst D1) as (I0 & I1 & I2). destruct (last_row circuit' inst' D2) as (J0 & J1 & J2).
  assert (LE : List.length (k_cons inst) = List.length (k_cons inst')).
  { pose proof (f_1_neq_0 (P := P)) as H10. destruct (Nat.lt_trichotomy (List.length (k_cons inst)) (List.length (k_cons inst'))) as [Hlt|[|Hlt]]; auto; exfalso; apply H10.
    - rewrite <- J2. transitivity (coefficient (sel_a (row inst (List.length (k_cons inst') - 1))) (Input (k_inputs inst' - 1))).
      + symmetry. apply Col; [apply in_vars|]; lia.
      + unfold row. rewrite nth_overflow by lia. reflexivity.
    - rewrite <- I2. transitivity (coefficient (sel_a (row inst' (List.length (k_cons inst) - 1))) (Input (k_inputs inst - 1))).
      + apply Col; [apply in_vars|]; lia.
      + unfold row. rewrite nth_overflow by lia. reflexivity. }
  split; [exact Hi|]. split; [exact Ha|]. apply (forall2_of_nth _ ([], [], [])); [exact LE|]. intros j Hj.
  change (same_constraint inst (row inst j) (row inst' j)).
  assert (Hj' : j < 2 ^ e) by (eapply Nat.lt_le_trans; [exact Hj|exact L1]). unfold same_constraint, same_lc. pose proof (fun v Hv => Col v Hv j Hj') as C.
  destruct (row inst j) as [[a b] c], (row inst' j) as [[a' b'] c']. cbn [sel_a sel_b sel_c] in C. repeat split; intros v Hv; apply C; exact Hv.
Qed.
End C64.
Print Assumptions C64_same_key.
Print Assumptions C64_different_keys.

(** 2 x * x = 6 x, written in two ways: with a repeated term, and with terms of coefficient zero and in another order. *)
Definition c64_x : list (call Fr64513) := [CallAlloc (ofZ 3); CallEnforce [(Aux 0, fone); (Aux 0, fone)] [(Aux 0, fone)] [(Aux 0, ofZ 6)]].
Definition c64_y : list (call Fr64513) :=
  [CallAlloc (ofZ 3); CallEnforce [(Input 0, fzero); (Aux 0, ofZ 2)] [(Aux 0, ofZ 5); (Input 0, fzero); (Aux 0, fneg (ofZ 4))] [(Aux 0, ofZ 6)]].
Definition c64_run calls alpha beta tau := generate_parameters (E := DummyEngine Fr64513) (Multicore 3) (circuit_of calls) fone (ofZ 2) alpha beta (ofZ 7) (ofZ 11) tau.
Definition c64_ok {A} (r : outcome (res A)) : bool := match r with Done (Ok _) => true | _ => false end.
Definition c64_D : list Fr64513 := map ofZ [2; 3; 4; 5; 6]%Z.
Definition c64_good (D : list Fr64513) := filter (fun '(alpha, beta, tau) => c64_ok (c64_run c64_x alpha beta tau)) (list_prod (list_prod D D) D).

Section C64_count.
Variable D : list Fr64513.
Lemma c64_in alpha beta tau : In (alpha, beta, tau) (c64_good D) -> In alpha D /\ In beta D /\ In tau D /\ exists p, c64_run c64_x alpha beta tau = Done (Ok p).
Proof.
  unfold c64_good. intros H. apply filter_In in H as [H1 H2]. repeat rewrite in_prod_iff in H1. destruct H1 as [[A B] C]. repeat (split; [assumption|]).
  destruct (c64_run c64_x alpha beta tau) as [[p|]|]; [exists p; reflexivity|discriminate H2..].
Qed.
Lemma c64_nodup : NoDup D -> NoDup (c64_good D).
Proof. intros H. apply NoDup_filter. repeat apply NoDup_prod; exact H. Qed.
End C64_count.

Lemma c64_same x y s s' inst inst' alpha beta tau : synthesize_keypair (circuit_of x) = Done (Ok s) -> synthesize_keypair (circuit_of y) = Done (Ok s') ->
  describes (circuit_of x) inst -> describes (circuit_of y) inst' -> same_system inst inst' -> c64_run x alpha beta tau = c64_run y alpha beta tau.
Proof. intros. unfold c64_run. apply (C64_same_key (E := DummyEngine Fr64513) (Multicore 3) (circuit_of x) (circuit_of y) s s' inst inst'); auto. cbn. lia. Qed.
Lemma c64_ok_inv {A} (r : outcome (res A)) : c64_ok r = true -> exists a, r = Done (Ok a).
Proof. destruct r as [[a|]|]; intros H; [exists a; reflexivity|discriminate H..]. Qed.

Example C64_ex : exists inst inst' s s',
  describes (circuit_of c64_x) inst /\ describes (circuit_of c64_y) inst' /\
  synthesize_keypair (circuit_of c64_x) = Done (Ok s) /\ synthesize_keypair (circuit_of c64_y) = Done (Ok s') /\
  same_system inst inst' /\ PropDomain.domain_exponent (List.length (k_cons inst)) 1 /\ NoDup c64_D /\ NoDup (c64_good c64_D) /\
  (forall alpha beta tau, In (alpha, beta, tau) (c64_good c64_D) -> In alpha c64_D /\ In beta c64_D /\ In tau c64_D /\
     exists p, c64_run c64_x alpha beta tau = Done (Ok p) /\ c64_run c64_y alpha beta tau = Done (Ok p)) /\
  (2 ^ 1 + 1) * List.length c64_D ^ 2 < List.length (c64_good c64_D).
Proof.
  pose proof (shape_synth c64_x) as SX. pose proof (shape_synth c64_y) as SY. unfold synthesize_shape, shape_new in SX, SY.
  remember {| k_inputs := List.length (the_inputs c64_x); k_aux := List.length (the_aux c64_x); k_cons := all_constraints c64_x |} as inst eqn:Ei.
  remember {| k_inputs := List.length (the_inputs c64_y); k_aux := List.length (the_aux c64_y); k_cons := all_constraints c64_y |} as inst' eqn:Ei'.
  destruct (c64_ok_inv (synthesize_keypair (circuit_of c64_x))) as [s Es]; [vm_compute; reflexivity|].
  destruct (c64_ok_inv (synthesize_keypair (circuit_of c64_y))) as [s' Es']; [vm_compute; reflexivity|].
  assert (HS : same_system inst inst').
  { rewrite Ei, Ei'. split; [reflexivity|]. split; [reflexivity|]. cbn [k_cons].
    apply (forall2_of_nth _ ([], [], [])); [reflexivity|]. change (List.length (all_constraints c64_x)) with 2. intros j Hj.
    assert (j = 0 \/ j = 1) as [-> | ->] by lia; unfold same_constraint; repeat split; intros v Hv; change (In v [Input 0; Aux 0]) in Hv;
      destruct Hv as [<-|[<-|[]]]; apply toZ_inj; vm_compute; reflexivity. }
  assert (ND : NoDup c64_D).
  { apply (NoDup_map_inv toZ). vm_compute. repeat constructor; cbn; intuition discriminate. }
  exists inst, inst', s, s'. split; [exact SX|]. split; [exact SY|]. split; [exact Es|]. split; [exact Es'|]. split; [exact HS|].
  split. { rewrite Ei. split; [cbn; lia|]. intros e' He'. assert (e' = 0) as -> by lia. cbn. lia. }
  split; [exact ND|]. split; [exact (c64_nodup c64_D ND)|]. split.
  - intros alpha beta tau Hin. destruct (c64_in c64_D alpha beta tau Hin) as (A & B & C & p & Hp). repeat (split; [assumption|]). exists p. split; [exact Hp|].
    rewrite <- Hp. symmetry. exact (c64_same c64_x c64_y s s' inst inst' alpha beta tau Es Es' SX SY HS).
  - apply Nat.ltb_lt. vm_compute. reflexivity.
Qed.
