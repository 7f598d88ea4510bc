(** What the two groth16 constraint systems record. *)
From Coq Require Import String.
From Coq Require Import ZArith List Bool Lia Field.
From Verif Require Import Prelude PrimeField FModule Circuit Multiexp Assembly DomainProof.
Import ListNotations.
Local Open Scope nat_scope.

Lemma Done_inj {A} (x y : A) : Done x = Done y -> x = y.
Proof. now intros [= ->]. Qed.

(** ** Generic refinement of machines *)
Section Refine.
Context {P : PrimeField}.
Variables (M1 M2 : Machine P) (R : St M1 -> St M2 -> Prop).
Hypothesis R_alloc : forall s1 s2 n f s1' r b, R s1 s2 -> m_alloc M1 s1 n f = Done (s1', r, b) ->
  exists s2', m_alloc M2 s2 n f = Done (s2', r, b) /\ R s1' s2'.
Hypothesis R_alloc_input : forall s1 s2 n f s1' r b, R s1 s2 -> m_alloc_input M1 s1 n f = Done (s1', r, b) ->
  exists s2', m_alloc_input M2 s2 n f = Done (s2', r, b) /\ R s1' s2'.
Hypothesis R_enforce : forall s1 s2 n a b c s1', R s1 s2 -> m_enforce M1 s1 n a b c = Done s1' ->
  exists s2', m_enforce M2 s2 n a b c = Done s2' /\ R s1' s2'.
Hypothesis R_push : forall s1 s2 n s1', R s1 s2 -> m_push M1 s1 n = Done s1' -> exists s2', m_push M2 s2 n = Done s2' /\ R s1' s2'.
Hypothesis R_pop : forall s1 s2 s1', R s1 s2 -> m_pop M1 s1 = Done s1' -> exists s2', m_pop M2 s2 = Done s2' /\ R s1' s2'.

Lemma run_refines {A} (p : prog P A) : forall s1 s2 a s1', R s1 s2 -> run M1 p s1 = Done (a, s1') ->
  exists s2', run M2 p s2 = Done (a, s2') /\ R s1' s2'.
Proof.
  induction p as [a| |n f k IH|n f k IH|n a b c k IH|n l r k IH|n k IH|k IH]; cbn [run]; intros s1 s2 x s1' HR E.
  - injection E as <- <-. eauto.
  - discriminate.
  - destruct (m_alloc M1 s1 n f) as [[[t r] b]|] eqn:Em; [|discriminate]. destruct (R_alloc _ _ _ _ _ _ _ HR Em) as (t' & Et & HR').
    rewrite Et. cbn [obind fst snd] in *. eauto.
  - destruct (m_alloc_input M1 s1 n f) as [[[t r] b]|] eqn:Em; [|discriminate]. destruct (R_alloc_input _ _ _ _ _ _ _ HR Em) as (t' & Et & HR').
    rewrite Et. cbn [obind fst snd] in *. eauto.
  - destruct (m_enforce M1 s1 n a b c) as [t|] eqn:Em; [|discriminate]. destruct (R_enforce _ _ _ _ _ _ _ HR Em) as (t' & Et & HR').
    rewrite Et. cbn [obind] in *. eauto.
  - discriminate.
  - destruct (m_push M1 s1 n) as [t|] eqn:Em; [|discriminate]. destruct (R_push _ _ _ _ HR Em) as (t' & Et & HR').
    rewrite Et. cbn [obind] in *. eauto.
  - destruct (m_pop M1 s1) as [t|] eqn:Em; [|discriminate]. destruct (R_pop _ _ _ HR Em) as (t' & Et & HR').
    rewrite Et. cbn [obind] in *. eauto.
Qed.

Lemma enforce_inputs_refines is_ : forall s1 s2 s1', R s1 s2 -> enforce_inputs M1 is_ s1 = Done s1' ->
  exists s2', enforce_inputs M2 is_ s2 = Done s2' /\ R s1' s2'.
Proof.
  induction is_ as [|i is_ IH]; cbn [enforce_inputs]; intros s1 s2 s1' HR E; [injection E as <-; eauto|].
  destruct (m_enforce M1 s1 "" (input_lc i) lc_zero lc_zero) as [t|] eqn:Em; [|discriminate].
  destruct (R_enforce _ _ _ _ _ _ _ HR Em) as (t' & Et & HR'). rewrite Et. cbn [obind] in *. eauto.
Qed.

Lemma synthesize_refines start1 start2 (in1 : St M1 -> nat) (in2 : St M2 -> nat) circuit r :
  R start1 start2 -> (forall s1 s2, R s1 s2 -> in1 s1 = in2 s2) -> synthesize M1 start1 in1 circuit = Done r ->
  match r with
  | Err e => synthesize M2 start2 in2 circuit = Done (Err e)
  | Ok s1 => exists s2, synthesize M2 start2 in2 circuit = Done (Ok s2) /\ R s1 s2
  end.
Proof.
  intros HR Hin E. unfold synthesize in *.
  destruct (run M1 (bindq (cs_alloc_input "" (Ok fone)) (fun _ => circuit)) start1) as [[x s1]|] eqn:Er; [|discriminate].
  destruct (run_refines _ _ _ _ _ HR Er) as (s2 & Er2 & HR2). rewrite Er2. cbn [obind] in *. destruct x as [u|e].
  - rewrite <- (Hin _ _ HR2). destruct (enforce_inputs M1 (seq 0 (in1 s1)) s1) as [t|] eqn:Ei; [|discriminate].
    destruct (enforce_inputs_refines _ _ _ _ HR2 Ei) as (t' & Et & HR'). rewrite Et. cbn [obind] in *. injection E as <-. eauto.
  - injection E as <-. reflexivity.
Qed.
End Refine.

(** The reference machines start before the "one" input is allocated. *)
Definition shape_new {P} : KState P := {| k_inputs := 0; k_aux := 0; k_cons := [] |}.
Definition honest_new {P} : PState P := {| p_inputs := []; p_aux := []; p_cons := [] |}.
Definition synthesize_shape {P} (circuit : prog P (res unit)) : outcome (res (KState P)) :=
  synthesize (ShapeCS P) shape_new k_inputs circuit.
Definition synthesize_honest {P} (circuit : prog P (res unit)) : outcome (res (PState P)) :=
  synthesize (HonestCS P) honest_new (fun s => List.length (p_inputs s)) circuit.

Section Spec.
Context {P : PrimeField}.
Add Field PFfield_as : (F_field P).

(** ** Vocabulary *)
Definition sel_a (c : Constraint P) : LC P := fst (fst c).
Definition sel_b (c : Constraint P) : LC P := snd (fst c).
Definition sel_c (c : Constraint P) : LC P := snd c.

Definition v_ok (ni na : nat) (v : Var) : Prop := match v with Input i => i < ni | Aux i => i < na end.
Definition lc_ok (ni na : nat) (lc : LC P) : Prop := Forall (fun t => v_ok ni na (fst t)) lc.
Definition con_ok (ni na : nat) (c : Constraint P) : Prop := lc_ok ni na (sel_a c) /\ lc_ok ni na (sel_b c) /\ lc_ok ni na (sel_c c).

Definition entries (k : nat) (lc : LC P) (v : Var) : list (P * nat) :=
  map (fun t => (snd t, k)) (filter (fun t => var_eqb (fst t) v) lc).
Fixpoint column_from (k : nat) (sel : Constraint P -> LC P) (v : Var) (cons : list (Constraint P)) : list (P * nat) :=
  match cons with
  | [] => []
  | c :: t => entries k (sel c) v ++ column_from (S k) sel v t
  end.
Definition getcol (c : Cols P) (v : Var) : list (P * nat) :=
  match v with Input i => nth i (col_inputs c) [] | Aux i => nth i (col_aux c) [] end.

Lemma var_eqb_spec v w : reflect (v = w) (var_eqb v w).
Proof.
  destruct v as [i|i], w as [j|j]; cbn; try (constructor; discriminate);
    destruct (Nat.eqb_spec i j); constructor; congruence.
Qed.

Lemma column_app k sel v c1 c2 : column_from k sel v (c1 ++ c2) = column_from k sel v c1 ++ column_from (k + List.length c1) sel v c2.
Proof.
  revert k; induction c1 as [|c c1 IH]; intros k; cbn [app column_from length]; [now rewrite Nat.add_0_r|].
  rewrite IH, app_assoc, Nat.add_succ_comm. reflexivity.
Qed.

Lemma entries_out k lc v ni na : lc_ok ni na lc -> ~ v_ok ni na v -> entries k lc v = [].
Proof.
  intros H Hv. unfold entries. induction H as [|[w c] lc Hw H IH]; cbn [filter fst]; auto.
  destruct (var_eqb_spec w v) as [->|]; [contradiction|auto].
Qed.
Lemma column_out sel v ni na cons : Forall (fun c => lc_ok ni na (sel c)) cons -> ~ v_ok ni na v -> forall k, column_from k sel v cons = [].
Proof. intros H Hv. induction H; intros k; cbn; auto. rewrite IHForall. now rewrite (entries_out k (sel x) v ni na). Qed.

(** ** Key generation *)
Lemma push_at_spec {A} id (x : A) l l' : push_at id x l = Done l' ->
  id < List.length l /\ List.length l' = List.length l /\ forall j, nth j l' [] = nth j l [] ++ (if Nat.eqb id j then [x] else []).
Proof.
  unfold push_at. destruct (nth_error l id) as [old|] eqn:E; [|discriminate]. intros H. apply Done_inj in H as <-.
  assert (Hid : id < List.length l) by (apply nth_error_Some; congruence). split; auto. split; [apply upd_length|].
  intros j. rewrite nth_upd. destruct (Nat.eqb_spec id j) as [->|]; [|now rewrite app_nil_r].
  apply Nat.ltb_lt in Hid. rewrite Hid. cbn [andb]. f_equal. symmetry. now apply nth_error_nth.
Qed.

Definition cols_len (ni na : nat) (c : Cols P) : Prop := List.length (col_inputs c) = ni /\ List.length (col_aux c) = na.

Lemma ka_eval_spec k ni na (lc : LC P) : forall c c', cols_len ni na c -> ka_eval k lc c = Done c' ->
  lc_ok ni na lc /\ cols_len ni na c' /\ forall v, getcol c' v = getcol c v ++ entries k lc v.
Proof.
  induction lc as [|[v x] lc IH]; intros c c' [L1 L2] E; cbn [ka_eval] in E.
  - apply Done_inj in E as <-. split; [constructor|]. split; [split; auto|]. intros v. cbn. now rewrite app_nil_r.
  - unfold ka_eval_term in E. cbn [fst snd] in E.
    assert (X : exists c1, ka_eval k lc c1 = Done c' /\ v_ok ni na v /\ cols_len ni na c1 /\
                forall w, getcol c1 w = getcol c w ++ (if var_eqb v w then [(x, k)] else [])).
    { destruct v as [i|i].
      - destruct (push_at i (x, k) (col_inputs c)) as [l|] eqn:Ep; [|discriminate]. apply push_at_spec in Ep as (Hi & Hl & Hn).
        cbn [obind] in E. eexists. split; [exact E|]. split; [cbn; lia|]. split; [split; cbn; congruence|].
        intros [j|j]; cbn [getcol col_inputs col_aux var_eqb]; [apply Hn|now rewrite app_nil_r].
      - destruct (push_at i (x, k) (col_aux c)) as [l|] eqn:Ep; [|discriminate]. apply push_at_spec in Ep as (Hi & Hl & Hn).
        cbn [obind] in E. eexists. split; [exact E|]. split; [cbn; lia|]. split; [split; cbn; congruence|].
        intros [j|j]; cbn [getcol col_inputs col_aux var_eqb]; [now rewrite app_nil_r|apply Hn]. }
    destruct X as (c1 & E1 & Hv & Hc1 & Hg). destruct (IH _ _ Hc1 E1) as (H1 & H2 & H3). split; [constructor; auto|]. split; auto.
    intros w. rewrite H3, Hg. unfold entries. cbn [filter fst]. destruct (var_eqb v w); cbn [map app snd]; rewrite <- app_assoc; reflexivity.
Qed.

Lemma ka_eval_total k ni na (lc : LC P) : forall c, cols_len ni na c -> lc_ok ni na lc -> exists c', ka_eval k lc c = Done c'.
Proof.
  induction lc as [|[v x] lc IH]; intros c [L1 L2] H; [cbn; eauto|]. inversion H as [|? ? Hv Hl]; subst. cbn [ka_eval ka_eval_term fst snd] in *.
  destruct v as [i|i]; cbn [v_ok] in Hv; unfold ka_eval_term; cbn [fst snd]; unfold push_at at 1.
  - destruct (nth_error (col_inputs c) i) eqn:E; [|apply nth_error_None in E; lia]. cbn [obind]. apply IH; auto. split; cbn; auto. apply upd_length.
  - destruct (nth_error (col_aux c) i) eqn:E; [|apply nth_error_None in E; lia]. cbn [obind]. apply IH; auto. split; cbn; auto. apply upd_length.
Qed.

Definition cols_ok (ni na : nat) (sel : Constraint P -> LC P) (cons : list (Constraint P)) (c : Cols P) : Prop :=
  cols_len ni na c /\ forall v, getcol c v = column_from 0 sel v cons.

Record KInv (s : KeypairAssembly P) (ks : KState P) : Prop := {
  ki_inputs : num_inputs s = k_inputs ks;
  ki_aux : num_aux s = k_aux ks;
  ki_cons : num_constraints s = List.length (k_cons ks);
  ki_ok : Forall (con_ok (k_inputs ks) (k_aux ks)) (k_cons ks);
  ki_at : cols_ok (k_inputs ks) (k_aux ks) sel_a (k_cons ks) (ka_at s);
  ki_bt : cols_ok (k_inputs ks) (k_aux ks) sel_b (k_cons ks) (ka_bt s);
  ki_ct : cols_ok (k_inputs ks) (k_aux ks) sel_c (k_cons ks) (ka_ct s)
}.

Lemma lc_ok_mono ni na ni' na' lc : ni <= ni' -> na <= na' -> lc_ok ni na lc -> lc_ok ni' na' lc.
Proof. intros H1 H2. apply Forall_impl. intros [[i|i] c]; cbn; lia. Qed.
Lemma con_ok_mono ni na ni' na' c : ni <= ni' -> na <= na' -> con_ok ni na c -> con_ok ni' na' c.
Proof. intros H1 H2 (A & B & C). repeat split; eapply lc_ok_mono; eauto. Qed.

Lemma getcol_add_aux c v : getcol (add_aux_col c) v = getcol c v.
Proof.
  destruct v as [i|i]; cbn; auto. destruct (Nat.lt_ge_cases i (List.length (col_aux c))); [now rewrite app_nth1|].
  rewrite app_nth2, (nth_overflow (col_aux c)) by auto. destruct (i - List.length (col_aux c)) as [|[|]]; reflexivity.
Qed.
Lemma getcol_add_input c v : getcol (add_input_col c) v = getcol c v.
Proof.
  destruct v as [i|i]; cbn; auto. destruct (Nat.lt_ge_cases i (List.length (col_inputs c))); [now rewrite app_nth1|].
  rewrite app_nth2, (nth_overflow (col_inputs c)) by auto. destruct (i - List.length (col_inputs c)) as [|[|]]; reflexivity.
Qed.

Lemma KInv_alloc s1 s2 n f s1' r b : KInv s1 s2 -> m_alloc (KeypairCS P) s1 n f = Done (s1', r, b) ->
  exists s2', m_alloc (ShapeCS P) s2 n f = Done (s2', r, b) /\ KInv s1' s2'.
Proof.
  intros [H1 H2 H3 H4 [[A1 A2] A3] [[B1 B2] B3] [[C1 C2] C3]] E. cbn [m_alloc KeypairCS] in E. apply Done_inj in E. injection E as <- <- <-.
  cbn [m_alloc ShapeCS]. rewrite H2. eexists. split; [reflexivity|]. split; cbn [num_inputs num_aux num_constraints k_inputs k_aux k_cons ka_at ka_bt ka_ct]; auto; try lia.
  - eapply Forall_impl; [|exact H4]. intros c. apply con_ok_mono; lia.
  - split; [split; cbn; rewrite ?app_length; cbn; lia|]. intros v. rewrite getcol_add_aux. auto.
  - split; [split; cbn; rewrite ?app_length; cbn; lia|]. intros v. rewrite getcol_add_aux. auto.
  - split; [split; cbn; rewrite ?app_length; cbn; lia|]. intros v. rewrite getcol_add_aux. auto.
Qed.
Lemma KInv_alloc_input s1 s2 n f s1' r b : KInv s1 s2 -> m_alloc_input (KeypairCS P) s1 n f = Done (s1', r, b) ->
  exists s2', m_alloc_input (ShapeCS P) s2 n f = Done (s2', r, b) /\ KInv s1' s2'.
Proof.
  intros [H1 H2 H3 H4 [[A1 A2] A3] [[B1 B2] B3] [[C1 C2] C3]] E. cbn [m_alloc_input KeypairCS] in E. apply Done_inj in E. injection E as <- <- <-.
  cbn [m_alloc_input ShapeCS]. rewrite H1. eexists. split; [reflexivity|]. split; cbn [num_inputs num_aux num_constraints k_inputs k_aux k_cons ka_at ka_bt ka_ct]; auto; try lia.
  - eapply Forall_impl; [|exact H4]. intros c. apply con_ok_mono; lia.
  - split; [split; cbn; rewrite ?app_length; cbn; lia|]. intros v. rewrite getcol_add_input. auto.
  - split; [split; cbn; rewrite ?app_length; cbn; lia|]. intros v. rewrite getcol_add_input. auto.
  - split; [split; cbn; rewrite ?app_length; cbn; lia|]. intros v. rewrite getcol_add_input. auto.
Qed.
Lemma KInv_enforce s1 s2 n a b c s1' : KInv s1 s2 -> m_enforce (KeypairCS P) s1 n a b c = Done s1' ->
  exists s2', m_enforce (ShapeCS P) s2 n a b c = Done s2' /\ KInv s1' s2'.
Proof.
  intros [H1 H2 H3 H4 [A1 A3] [B1 B3] [C1 C3]] E. cbn [m_enforce KeypairCS] in E.
  destruct (ka_eval (num_constraints s1) a (ka_at s1)) as [at'|] eqn:Ea; [|discriminate]. cbn [obind] in E.
  destruct (ka_eval (num_constraints s1) b (ka_bt s1)) as [bt'|] eqn:Eb; [|discriminate]. cbn [obind] in E.
  destruct (ka_eval (num_constraints s1) c (ka_ct s1)) as [ct'|] eqn:Ec; [|discriminate]. cbn [obind] in E.
  apply Done_inj in E as <-. cbn [m_enforce ShapeCS]. eexists. split; [reflexivity|].
  destruct (ka_eval_spec _ _ _ _ _ _ A1 Ea) as (Oa & La & Ga). destruct (ka_eval_spec _ _ _ _ _ _ B1 Eb) as (Ob & Lb & Gb).
  destruct (ka_eval_spec _ _ _ _ _ _ C1 Ec) as (Oc & Lc & Gc).
  split; cbn [num_inputs num_aux num_constraints k_inputs k_aux k_cons ka_at ka_bt ka_ct]; auto.
  - rewrite app_length. cbn. lia.
  - apply Forall_app. split; auto. constructor; auto. repeat split; auto.
  - split; auto. intros v. rewrite Ga, A3, column_app. cbn [column_from sel_a fst]. rewrite H3, app_nil_r. reflexivity.
  - split; auto. intros v. rewrite Gb, B3, column_app. cbn [column_from sel_b fst snd]. rewrite H3, app_nil_r. reflexivity.
  - split; auto. intros v. rewrite Gc, C3, column_app. cbn [column_from sel_c fst snd]. rewrite H3, app_nil_r. reflexivity.
Qed.

Lemma KInv_new : KInv ka_new shape_new.
Proof.
  split; cbn; auto; split; try (split; reflexivity); intros [[|i]|[|i]]; reflexivity.
Qed.

Theorem synthesize_keypair_spec circuit r : synthesize_keypair (P := P) circuit = Done r ->
  match r with
  | Err e => synthesize_shape circuit = Done (Err e)
  | Ok s => exists ks, synthesize_shape circuit = Done (Ok ks) /\ KInv s ks
  end.
Proof.
  apply (synthesize_refines (KeypairCS P) (ShapeCS P) KInv KInv_alloc KInv_alloc_input KInv_enforce).
  - intros s1 s2 n s1' HR [= <-]. exists s2. split; auto.
  - intros s1 s2 s1' HR [= <-]. exists s2. split; auto.
  - apply KInv_new.
  - intros s1 s2 H. apply H.
Qed.

(** ** Proving *)
Definition asgl (ia aa : list P) (v : Var) : P := match v with Input i => nth i ia fzero | Aux i => nth i aa fzero end.
Definition lc_nz_ok (ni na : nat) (lc : LC P) : Prop := Forall (fun t => snd t <> fzero -> v_ok ni na (fst t)) lc.
Definition con_nz_ok (ni na : nat) (c : Constraint P) : Prop := lc_nz_ok ni na (sel_a c) /\ lc_nz_ok ni na (sel_b c) /\ lc_nz_ok ni na (sel_c c).
Definition lc_mentions (lc : LC P) (v : Var) : Prop := exists c, c <> fzero /\ In (v, c) lc.
Definition mentions (sel : Constraint P -> LC P) (v : Var) (cons : list (Constraint P)) : Prop := Exists (fun c => lc_mentions (sel c) v) cons.

(** how a density tracker changes *)
Definition dens_upd (mk : nat -> Var) (lc : LC P) (d d' : option DensityTracker) : Prop :=
  match d, d' with
  | None, None => True
  | Some d, Some d' => List.length d' = List.length d /\ forall i, nth i d' false = true <-> nth i d false = true \/ lc_mentions lc (mk i)
  | _, _ => False
  end.

Lemma dens_upd_refl mk d : dens_upd mk [] d d.
Proof. destruct d as [d|]; cbn; auto. split; auto. intros i. split; auto. intros [|(c & _ & [])]; auto. Qed.

Lemma lc_mentions_cons v c lc w : lc_mentions ((v, c) :: lc) w <-> (v = w /\ c <> fzero) \/ lc_mentions lc w.
Proof.
  unfold lc_mentions. cbn [In]. split.
  - intros (x & Hx & [[= -> ->]|H]); eauto.
  - intros [[-> H]|(x & Hx & H)]; eauto.
Qed.
Lemma lc_mentions_nil w : ~ lc_mentions [] w.
Proof. intros (c & _ & []). Qed.

Lemma dens_upd_skip mk v c lc d d' : (forall i, v = mk i -> c = fzero) -> dens_upd mk lc d d' -> dens_upd mk ((v, c) :: lc) d d'.
Proof.
  intros Hv. destruct d as [d|], d' as [d'|]; cbn; auto. intros [L H]. split; auto. intros i. rewrite H, lc_mentions_cons.
  split; [tauto|]. intros [|[[E Hc]|]]; auto. apply Hv in E. contradiction.
Qed.
Lemma dens_upd_inc mk i c lc d d1 d' : (forall j, mk i = mk j -> i = j) -> c <> fzero ->
  opt_inc i d = Done d1 -> dens_upd mk lc d1 d' -> dens_upd mk ((mk i, c) :: lc) d d'.
Proof.
  intros Hinj Hc Ei. destruct d as [d|]; cbn in Ei; [|injection Ei as <-; destruct d'; cbn; auto].
  unfold dt_inc in Ei. destruct (nth_error d i) as [b|] eqn:En; [|discriminate]. cbn [obind] in Ei. apply Done_inj in Ei as <-.
  destruct d' as [d'|]; cbn; auto. assert (Hi : i < List.length d) by (apply nth_error_Some; congruence).
  assert (X : forall j, nth j (if negb b then upd i true d else d) false = true <-> nth j d false = true \/ i = j).
  { intros j. apply nth_error_nth with (d := false) in En. apply Nat.ltb_lt in Hi. destruct b; cbn [negb].
    - split; auto. intros [|<-]; auto.
    - rewrite nth_upd. destruct (Nat.eqb_spec i j) as [->|]; [rewrite Hi; tauto|]. cbn [andb]. split; auto. intros [|]; [auto|congruence]. }
  intros [L H]. split; [rewrite L; destruct b; cbn [negb]; auto; apply upd_length|].
  intros j. rewrite H, X, lc_mentions_cons. split; [|].
  - intros [[?| ->]|?]; auto.
  - intros [?|[[E _]|?]]; auto.
Qed.

Lemma pa_eval_spec ia aa (lc : LC P) : forall din daux acc v din' daux', pa_eval lc din daux ia aa acc = Done (v, din', daux') ->
  v = (acc + eval (asgl ia aa) lc)%F /\ lc_nz_ok (List.length ia) (List.length aa) lc /\ dens_upd Input lc din din' /\ dens_upd Aux lc daux daux'.
Proof.
  induction lc as [|[w c] lc IH]; intros din daux acc v din' daux' E; cbn [pa_eval] in E.
  - apply Done_inj in E. injection E as <- <- <-. rewrite eval_nil. split; [ring|]. split; [constructor|]. split; apply dens_upd_refl.
  - destruct (feqb_spec c fzero) as [->|Hc]; cbn [negb] in E.
    + destruct (IH _ _ _ _ _ _ E) as (-> & N & D1 & D2). rewrite eval_cons. split; [ring|].
      split; [constructor; auto; cbn; congruence|]. split; apply dens_upd_skip; auto.
    + assert (T : forall tmp : P, (if negb (feqb c fone) then tmp * c else tmp)%F = (c * tmp)%F).
      { intros tmp. destruct (feqb_spec c fone) as [->|]; cbn [negb]; ring. }
      destruct w as [i|i].
      * unfold index_or_panic in E. destruct (nth_error ia i) as [tmp|] eqn:Ei; [|discriminate]. cbn [obind] in E.
        destruct (opt_inc i din) as [d1|] eqn:Eo; [|discriminate]. cbn [obind] in E. rewrite T in E.
        destruct (IH _ _ _ _ _ _ E) as (-> & N & D1 & D2). rewrite eval_cons. cbn [asgl]. rewrite (nth_error_nth _ _ _ Ei).
        split; [ring|]. split; [constructor; auto; intros _; cbn; apply nth_error_Some; congruence|].
        split; [eapply dens_upd_inc; eauto; intros j [= ->]; auto|apply dens_upd_skip; auto; discriminate].
      * unfold index_or_panic in E. destruct (nth_error aa i) as [tmp|] eqn:Ei; [|discriminate]. cbn [obind] in E.
        destruct (opt_inc i daux) as [d1|] eqn:Eo; [|discriminate]. cbn [obind] in E. rewrite T in E.
        destruct (IH _ _ _ _ _ _ E) as (-> & N & D1 & D2). rewrite eval_cons. cbn [asgl]. rewrite (nth_error_nth _ _ _ Ei).
        split; [ring|]. split; [constructor; auto; intros _; cbn; apply nth_error_Some; congruence|].
        split; [apply dens_upd_skip; auto; discriminate|eapply dens_upd_inc; eauto; intros j [= ->]; auto].
Qed.

Definition dens_len (n : nat) (d : option DensityTracker) : Prop := match d with None => True | Some d => List.length d = n end.
Lemma pa_eval_total ia aa (lc : LC P) : forall din daux acc, lc_nz_ok (List.length ia) (List.length aa) lc ->
  dens_len (List.length ia) din -> dens_len (List.length aa) daux -> exists r, pa_eval lc din daux ia aa acc = Done r.
Proof.
  assert (O : forall n i d, i < n -> dens_len n d -> exists d', opt_inc i d = Done d' /\ dens_len n d').
  { intros n i [d|] Hi Hd; cbn in *; [|eauto]. unfold dt_inc. destruct (nth_error d i) as [b|] eqn:E; [|apply nth_error_None in E; lia].
    cbn. eexists. split; [reflexivity|]. cbn. destruct (negb b); auto. now rewrite upd_length. }
  induction lc as [|[w c] lc IH]; intros din daux acc H D1 D2; [cbn; eauto|]. inversion H as [|? ? Hw Hl]; subst. cbn [fst snd] in Hw. cbn [pa_eval].
  destruct (feqb_spec c fzero) as [->|Hc]; cbn [negb]; [apply IH; auto|]. specialize (Hw Hc).
  destruct w as [i|i]; cbn [v_ok] in Hw; unfold index_or_panic.
  - destruct (nth_error ia i) eqn:E; [|apply nth_error_None in E; lia]. cbn [obind]. destruct (O _ _ _ Hw D1) as (d' & -> & Hd). cbn [obind]. apply IH; auto.
  - destruct (nth_error aa i) eqn:E; [|apply nth_error_None in E; lia]. cbn [obind]. destruct (O _ _ _ Hw D2) as (d' & -> & Hd). cbn [obind]. apply IH; auto.
Qed.

(** Growing the assignment changes nothing for what has been enforced. *)
Lemma eval_extend (ia aa ia' aa' : list P) lc : lc_nz_ok (List.length ia) (List.length aa) lc ->
  eval (asgl (ia ++ ia') (aa ++ aa')) lc = eval (asgl ia aa) lc.
Proof.
  induction 1 as [|[v c] lc Hv H IH]; auto. rewrite !eval_cons, IH. cbn [fst snd] in Hv. f_equal.
  destruct (feq_dec c fzero) as [->|Hc]; [ring|]. specialize (Hv Hc). f_equal. destruct v; cbn in *; now rewrite app_nth1.
Qed.

Definition tracks (mk : nat -> Var) (n : nat) (sel : Constraint P -> LC P) (cons : list (Constraint P)) (d : DensityTracker) : Prop :=
  List.length d = n /\ forall i, nth i d false = true <-> mentions sel (mk i) cons.

Record PInv (s : ProvingAssignment P) (ps : PState P) : Prop := {
  pi_inputs : input_assignment s = p_inputs ps;
  pi_aux : aux_assignment s = p_aux ps;
  pi_ok : Forall (con_nz_ok (List.length (p_inputs ps)) (List.length (p_aux ps))) (p_cons ps);
  pi_a : pa_a s = map (fun c => eval (asgl (p_inputs ps) (p_aux ps)) (sel_a c)) (p_cons ps);
  pi_b : pa_b s = map (fun c => eval (asgl (p_inputs ps) (p_aux ps)) (sel_b c)) (p_cons ps);
  pi_c : pa_c s = map (fun c => eval (asgl (p_inputs ps) (p_aux ps)) (sel_c c)) (p_cons ps);
  pi_da : tracks Aux (List.length (p_aux ps)) sel_a (p_cons ps) (a_aux_density s);
  pi_dbi : tracks Input (List.length (p_inputs ps)) sel_b (p_cons ps) (b_input_density s);
  pi_dba : tracks Aux (List.length (p_aux ps)) sel_b (p_cons ps) (b_aux_density s)
}.

Lemma lc_nz_ok_mono ni na ni' na' lc : ni <= ni' -> na <= na' -> lc_nz_ok ni na lc -> lc_nz_ok ni' na' lc.
Proof. intros H1 H2. apply Forall_impl. intros [[i|i] c] H Hc; specialize (H Hc); cbn in *; lia. Qed.
Lemma con_nz_ok_mono ni na ni' na' c : ni <= ni' -> na <= na' -> con_nz_ok ni na c -> con_nz_ok ni' na' c.
Proof. intros H1 H2 (A & B & C). repeat split; eapply lc_nz_ok_mono; eauto. Qed.

Lemma tracks_add mk n sel cons d : tracks mk n sel cons d -> tracks mk (S n) sel cons (dt_add_element d).
Proof.
  intros [L H]. split; [unfold dt_add_element; rewrite app_length; cbn; lia|]. intros i. rewrite <- H. unfold dt_add_element.
  destruct (Nat.lt_ge_cases i (List.length d)); [now rewrite app_nth1|]. rewrite app_nth2, (nth_overflow d) by auto.
  destruct (i - List.length d) as [|[|]]; cbn; tauto.
Qed.
Lemma mentions_app sel v c1 c2 : mentions sel v (c1 ++ c2) <-> mentions sel v c1 \/ mentions sel v c2.
Proof. apply Exists_app. Qed.
Lemma tracks_snoc mk n sel cons d d' c : tracks mk n sel cons d -> dens_upd mk (sel c) (Some d) (Some d') -> tracks mk n sel (cons ++ [c]) d'.
Proof.
  intros [L H] [L' H']. split; [congruence|]. intros i. rewrite H', H, mentions_app. unfold mentions at 3. rewrite Exists_cons, Exists_nil. tauto.
Qed.

Lemma evals_extend ia aa ia' aa' (sel : Constraint P -> LC P) cons : Forall (fun c => lc_nz_ok (List.length ia) (List.length aa) (sel c)) cons ->
  map (fun c => eval (asgl (ia ++ ia') (aa ++ aa')) (sel c)) cons = map (fun c => eval (asgl ia aa) (sel c)) cons.
Proof. intros H. apply map_ext_Forall. eapply Forall_impl; [|exact H]. cbn. intros c. apply eval_extend. Qed.

Lemma con_nz_sel ni na cons : Forall (con_nz_ok ni na) cons ->
  Forall (fun c => lc_nz_ok ni na (sel_a c)) cons /\ Forall (fun c => lc_nz_ok ni na (sel_b c)) cons /\ Forall (fun c => lc_nz_ok ni na (sel_c c)) cons.
Proof. intros H. repeat split; eapply Forall_impl; try exact H; intros c Hc; apply Hc. Qed.

Lemma PInv_alloc s1 s2 n f s1' r b : PInv s1 s2 -> m_alloc (ProvingCS P) s1 n f = Done (s1', r, b) ->
  exists s2', m_alloc (HonestCS P) s2 n f = Done (s2', r, b) /\ PInv s1' s2'.
Proof.
  intros I E. cbn [m_alloc ProvingCS HonestCS] in *. apply Done_inj in E. destruct f as [x|e]; injection E as <- <- <-; [|eauto].
  destruct I as [I1 I2 I3 I4 I5 I6 I7 I8 I9]. destruct (con_nz_sel _ _ _ I3) as (Na & Nb & Nc).
  eexists. split; [rewrite app_length, I2; cbn [length]; rewrite Nat.add_sub; reflexivity|].
  split; cbn [p_inputs p_aux p_cons a_aux_density b_input_density b_aux_density pa_a pa_b pa_c input_assignment aux_assignment]; auto; try congruence.
  - eapply Forall_impl; [|exact I3]. intros c. apply con_nz_ok_mono; rewrite ?app_length; lia.
  - rewrite I4. pose proof (evals_extend (p_inputs s2) (p_aux s2) [] [x] sel_a _ Na) as X. rewrite app_nil_r in X. now symmetry.
  - rewrite I5. pose proof (evals_extend (p_inputs s2) (p_aux s2) [] [x] sel_b _ Nb) as X. rewrite app_nil_r in X. now symmetry.
  - rewrite I6. pose proof (evals_extend (p_inputs s2) (p_aux s2) [] [x] sel_c _ Nc) as X. rewrite app_nil_r in X. now symmetry.
  - rewrite app_length, Nat.add_1_r. now apply tracks_add.
  - rewrite app_length, Nat.add_1_r. now apply tracks_add.
Qed.
Lemma PInv_alloc_input s1 s2 n f s1' r b : PInv s1 s2 -> m_alloc_input (ProvingCS P) s1 n f = Done (s1', r, b) ->
  exists s2', m_alloc_input (HonestCS P) s2 n f = Done (s2', r, b) /\ PInv s1' s2'.
Proof.
  intros I E. cbn [m_alloc_input ProvingCS HonestCS] in *. apply Done_inj in E. destruct f as [x|e]; injection E as <- <- <-; [|eauto].
  destruct I as [I1 I2 I3 I4 I5 I6 I7 I8 I9]. destruct (con_nz_sel _ _ _ I3) as (Na & Nb & Nc).
  eexists. split; [rewrite app_length, I1; cbn [length]; rewrite Nat.add_sub; reflexivity|].
  split; cbn [p_inputs p_aux p_cons a_aux_density b_input_density b_aux_density pa_a pa_b pa_c input_assignment aux_assignment]; auto; try congruence.
  - eapply Forall_impl; [|exact I3]. intros c. apply con_nz_ok_mono; rewrite ?app_length; lia.
  - rewrite I4. pose proof (evals_extend (p_inputs s2) (p_aux s2) [x] [] sel_a _ Na) as X. rewrite app_nil_r in X. now symmetry.
  - rewrite I5. pose proof (evals_extend (p_inputs s2) (p_aux s2) [x] [] sel_b _ Nb) as X. rewrite app_nil_r in X. now symmetry.
  - rewrite I6. pose proof (evals_extend (p_inputs s2) (p_aux s2) [x] [] sel_c _ Nc) as X. rewrite app_nil_r in X. now symmetry.
  - rewrite app_length, Nat.add_1_r. now apply tracks_add.
Qed.
Lemma PInv_enforce s1 s2 n a b c s1' : PInv s1 s2 -> m_enforce (ProvingCS P) s1 n a b c = Done s1' ->
  exists s2', m_enforce (HonestCS P) s2 n a b c = Done s2' /\ PInv s1' s2'.
Proof.
  intros [I1 I2 I3 I4 I5 I6 I7 I8 I9] E. cbn [m_enforce ProvingCS HonestCS] in *. rewrite I1, I2 in E.
  destruct (pa_eval a _ _ _ _ _) as [[[va ?] da]|] eqn:Ea; [|discriminate]. cbn [obind] in E.
  destruct (pa_eval b _ _ _ _ _) as [[[vb dbi] dba]|] eqn:Eb; [|discriminate]. cbn [obind] in E.
  destruct (pa_eval c _ _ _ _ _) as [[[vc ?] ?]|] eqn:Ec; [|discriminate]. cbn [obind] in E. apply Done_inj in E as <-.
  destruct (pa_eval_spec _ _ _ _ _ _ _ _ _ Ea) as (-> & Na & _ & Da). destruct (pa_eval_spec _ _ _ _ _ _ _ _ _ Eb) as (-> & Nb & Dbi & Dba).
  destruct (pa_eval_spec _ _ _ _ _ _ _ _ _ Ec) as (-> & Nc & _ & _).
  destruct da as [da|]; [|destruct Da]. destruct dbi as [dbi|]; [|destruct Dbi]. destruct dba as [dba|]; [|destruct Dba]. cbn [unopt].
  eexists. split; [reflexivity|].
  split; cbn [p_inputs p_aux p_cons a_aux_density b_input_density b_aux_density pa_a pa_b pa_c input_assignment aux_assignment]; auto.
  - apply Forall_app. split; auto. constructor; auto. repeat split; auto.
  - rewrite map_app, I4. cbn [map sel_a fst snd]. do 2 f_equal. ring.
  - rewrite map_app, I5. cbn [map sel_b fst snd]. do 2 f_equal. ring.
  - rewrite map_app, I6. cbn [map sel_c fst snd]. do 2 f_equal. ring.
  - eapply tracks_snoc; eauto.
  - eapply tracks_snoc; eauto.
  - eapply tracks_snoc; eauto.
Qed.

Lemma PInv_new : PInv pa_new honest_new.
Proof.
  split; cbn; auto; split; auto; intros i; (split; [destruct i; discriminate|intros H; inversion H]).
Qed.

Theorem synthesize_prover_spec circuit r : synthesize_prover (P := P) circuit = Done r ->
  match r with
  | Err e => synthesize_honest circuit = Done (Err e)
  | Ok s => exists ps, synthesize_honest circuit = Done (Ok ps) /\ PInv s ps
  end.
Proof.
  apply (synthesize_refines (ProvingCS P) (HonestCS P) PInv PInv_alloc PInv_alloc_input PInv_enforce).
  - intros s1 s2 n s1' HR [= <-]. exists s2. split; auto.
  - intros s1 s2 s1' HR [= <-]. exists s2. split; auto.
  - apply PInv_new.
  - intros s1 s2 H. now rewrite (pi_inputs _ _ H).
Qed.

(** ** Coefficients *)
Definition lc_coeff (lc : LC P) (v : Var) : P := fold_right (fun t acc => if var_eqb (fst t) v then (snd t + acc)%F else acc) fzero lc.
(** The sum of the coefficients a column holds for constraint [k]. *)
Definition col_coeff (col : list (P * nat)) (k : nat) : P :=
  fold_right (fun t acc => if Nat.eqb (snd t) k then (fst t + acc)%F else acc) fzero col.

Lemma col_coeff_cons t c k : col_coeff (t :: c) k = if Nat.eqb (snd t) k then (fst t + col_coeff c k)%F else col_coeff c k.
Proof. reflexivity. Qed.
Lemma col_coeff_app c1 c2 k : col_coeff (c1 ++ c2) k = (col_coeff c1 k + col_coeff c2 k)%F.
Proof. induction c1 as [|[c j] c1 IH]; cbn [app]; [cbn; ring|]. rewrite !col_coeff_cons, IH. cbn [fst snd]. destruct (Nat.eqb j k); ring. Qed.
Lemma col_coeff_entries k j lc v : col_coeff (entries j lc v) k = if Nat.eqb j k then lc_coeff lc v else fzero.
Proof.
  induction lc as [|[w c] lc IH]; [cbn; now destruct (Nat.eqb j k)|]. unfold entries in *. cbn [filter fst lc_coeff fold_right snd].
  destruct (var_eqb w v); auto. cbn [map]. rewrite col_coeff_cons, IH. cbn [fst snd]. fold (lc_coeff lc v).
  destruct (Nat.eqb j k); reflexivity.
Qed.
Lemma col_coeff_column sel v cons : forall j k, col_coeff (column_from j sel v cons) k =
  if Nat.leb j k then match nth_error cons (k - j) with Some c => lc_coeff (sel c) v | None => fzero end else fzero.
Proof.
  induction cons as [|c cons IH]; intros j k; cbn [column_from].
  - cbn. destruct (Nat.leb j k); auto. now destruct (k - j).
  - rewrite col_coeff_app, col_coeff_entries, IH. destruct (Nat.eqb_spec j k) as [->|Hne].
    + rewrite Nat.leb_refl, Nat.sub_diag. cbn [nth_error]. destruct (Nat.leb_spec (S k) k); [lia|]. ring.
    + destruct (Nat.leb_spec j k) as [H|H].
      * destruct (Nat.leb_spec (S j) k); [|lia]. replace (k - j) with (S (k - S j)) by lia. cbn [nth_error]. ring.
      * destruct (Nat.leb_spec (S j) k); [lia|]. ring.
Qed.

Lemma fsum_delta n i (c : nat -> P) : i < n -> fsum n (fun j => if Nat.eqb i j then c j else fzero)%F = c i.
Proof.
  intros H. unfold fsum. rewrite (gsum_single n i); auto; [now rewrite Nat.eqb_refl|].
  intros j _ Hj. destruct (Nat.eqb_spec i j); [congruence|auto].
Qed.

(** A linear combination is the sum over all variables of coefficient times value. *)
Lemma eval_coeffs ni na rho lc : lc_ok ni na lc ->
  eval rho lc = (fsum ni (fun i => lc_coeff lc (Input i) * rho (Input i)) + fsum na (fun i => lc_coeff lc (Aux i) * rho (Aux i)))%F.
Proof.
  induction 1 as [|[v c] lc Hv H IH].
  - rewrite eval_nil, !fsum_zero; [ring|intros; cbn; ring|intros; cbn; ring].
  - rewrite eval_cons, IH. cbn [fst] in Hv. destruct v as [i|i]; cbn [v_ok] in Hv.
    + transitivity ((fsum ni (fun j => if Nat.eqb i j then c * rho (Input j) else 0) + fsum ni (fun j => lc_coeff lc (Input j) * rho (Input j)))
         + fsum na (fun j => lc_coeff lc (Aux j) * rho (Aux j)))%F.
      * rewrite (fsum_delta ni i (fun j => c * rho (Input j))%F) by auto. ring.
      * f_equal. rewrite <- fsum_add. apply fsum_ext. intros j _. cbn [lc_coeff fold_right fst snd var_eqb]. fold (lc_coeff lc (Input j)).
        destruct (Nat.eqb i j); ring.
    + transitivity (fsum ni (fun j => lc_coeff lc (Input j) * rho (Input j)) + (fsum na (fun j => if Nat.eqb i j then c * rho (Aux j) else 0)
         + fsum na (fun j => lc_coeff lc (Aux j) * rho (Aux j))))%F.
      * rewrite (fsum_delta na i (fun j => c * rho (Aux j))%F) by auto. ring.
      * f_equal. rewrite <- fsum_add. apply fsum_ext. intros j _. cbn [lc_coeff fold_right fst snd var_eqb]. fold (lc_coeff lc (Aux j)).
        destruct (Nat.eqb i j); ring.
Qed.

Lemma lc_coeff_unmentioned lc v : ~ lc_mentions lc v -> lc_coeff lc v = fzero.
Proof.
  induction lc as [|[w c] lc IH]; intros H; [reflexivity|]. rewrite lc_mentions_cons in H. cbn [lc_coeff fold_right fst snd]. fold (lc_coeff lc v).
  rewrite IH by tauto. destruct (var_eqb_spec w v) as [->|]; auto. destruct (feq_dec c fzero) as [->|]; [ring|tauto].
Qed.
End Spec.
