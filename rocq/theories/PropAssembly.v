(** Property C06: the key generator and the prover see the same instance. *)
From Coq Require Import String.
From Coq Require Import ZArith List Bool Lia Field.
From Verif Require Import Prelude PrimeField Fields FModule Circuit Multiexp Assembly DomainProof AssemblyProof.
Import ListNotations.
Local Open Scope nat_scope.
Notation "'Σ' i '<' n ',' f" := (gsum n (fun i => f)) (at level 60, i at level 0, n at level 50, right associativity).

(** ** Specification *)

(** What a circuit does to its constraint system. *)
Inductive call (P : PrimeField) :=
| CallAlloc (x : P) | CallAllocInput (x : P) | CallEnforce (a b c : LC P).
Arguments CallAlloc {P}. Arguments CallAllocInput {P}. Arguments CallEnforce {P}.

(** A circuit performing these calls in order. *)
Fixpoint circuit_of {P : PrimeField} (calls : list (call P)) : prog P (res unit) :=
  match calls with
  | [] => Ret (Ok tt)
  | CallAlloc x :: t => Alloc "" (Ok x) (fun r _ => match r with Ok _ => circuit_of t | Err e => Ret (Err e) end)
  | CallAllocInput x :: t => AllocInput "" (Ok x) (fun r _ => match r with Ok _ => circuit_of t | Err e => Ret (Err e) end)
  | CallEnforce a b c :: t => Enforce "" a b c (circuit_of t)
  end.

(** The instance these calls describe; input 0 is the constant one. *)
Definition the_inputs {P : PrimeField} (calls : list (call P)) : list P :=
  fone :: flat_map (fun c => match c with CallAllocInput x => [x] | _ => [] end) calls.
Definition the_aux {P : PrimeField} (calls : list (call P)) : list P :=
  flat_map (fun c => match c with CallAlloc x => [x] | _ => [] end) calls.
Definition the_constraints {P : PrimeField} (calls : list (call P)) : list (Constraint P) :=
  flat_map (fun c => match c with CallEnforce a b c => [(a, b, c)] | _ => [] end) calls.

(** The sum of the coefficients recorded in a column for constraint [k]. *)
Fixpoint recorded {P : PrimeField} (column : list (P * nat)) (k : nat) : P :=
  match column with
  | [] => fzero
  | (c, k') :: t => if Nat.eqb k' k then (c + recorded t k)%F else recorded t k
  end.

(** Entry [k] according to the key generator's columns and the prover's assignment. *)
Definition dot {P : PrimeField} (cols : Cols P) (inputs aux : list P) (k : nat) : P :=
  ((Σ i < List.length inputs, recorded (nth i (col_inputs cols) []) k * nth i inputs 0) +
   (Σ i < List.length aux, recorded (nth i (col_aux cols) []) k * nth i aux 0))%F.

(** Every constraint only mentions variables allocated before it. *)
Definition scoped {P : PrimeField} (calls : list (call P)) : Prop :=
  forall before a b c after v, calls = before ++ CallEnforce a b c :: after ->
    In v (map fst (a ++ b ++ c)) ->
    match v with Input i => i < List.length (the_inputs before) | Aux i => i < List.length (the_aux before) end.

(** ** Auxiliary *)
Section Aux.
Context {P : PrimeField}.
Add Field PFfield_pas : (F_field P).

Lemma recorded_col_coeff col k : recorded (P := P) col k = col_coeff col k.
Proof. induction col as [|[c j] col IH]; [reflexivity|]. rewrite col_coeff_cons. cbn [recorded fst snd]. now rewrite IH. Qed.

Lemma c06_one (x : P) : (1 * x + 0)%F = x.
Proof. ring. Qed.

Definition input_constraint (i : nat) : Constraint P := ([(Input i, fone)], [], []).

Lemma honest_enforce_inputs is_ : forall s, enforce_inputs (HonestCS P) is_ s =
  Done {| p_inputs := p_inputs s; p_aux := p_aux s; p_cons := p_cons s ++ map input_constraint is_ |}.
Proof.
  induction is_ as [|i is_ IH]; intros s; cbn [enforce_inputs map]; [rewrite app_nil_r; now destruct s|].
  cbn [m_enforce HonestCS obind]. rewrite IH. cbn [p_inputs p_aux p_cons]. now rewrite <- app_assoc.
Qed.
Lemma shape_enforce_inputs is_ : forall s, enforce_inputs (ShapeCS P) is_ s =
  Done {| k_inputs := k_inputs s; k_aux := k_aux s; k_cons := k_cons s ++ map input_constraint is_ |}.
Proof.
  induction is_ as [|i is_ IH]; intros s; cbn [enforce_inputs map]; [rewrite app_nil_r; now destruct s|].
  cbn [m_enforce ShapeCS obind]. rewrite IH. cbn [k_inputs k_aux k_cons]. now rewrite <- app_assoc.
Qed.

Lemma honest_replay calls : forall s, run (HonestCS P) (circuit_of calls) s =
  Done (Ok tt, {| p_inputs := p_inputs s ++ flat_map (fun c => match c with CallAllocInput x => [x] | _ => [] end) calls;
                  p_aux := p_aux s ++ the_aux calls; p_cons := p_cons s ++ the_constraints calls |}).
Proof.
  induction calls as [|[x|x|a b c] calls IH]; intros s; cbn [circuit_of run the_aux the_constraints flat_map app].
  - rewrite !app_nil_r. now destruct s.
  - cbn [m_alloc HonestCS obind fst snd]. rewrite IH. cbn [p_inputs p_aux p_cons]. now rewrite <- app_assoc.
  - cbn [m_alloc_input HonestCS obind fst snd]. rewrite IH. cbn [p_inputs p_aux p_cons]. now rewrite <- app_assoc.
  - cbn [m_enforce HonestCS obind]. rewrite IH. cbn [p_inputs p_aux p_cons]. now rewrite <- app_assoc.
Qed.
Lemma shape_replay calls : forall s, run (ShapeCS P) (circuit_of calls) s =
  Done (Ok tt, {| k_inputs := k_inputs s + List.length (flat_map (fun c => match c with CallAllocInput x => [x] | _ => [] end) calls);
                  k_aux := k_aux s + List.length (the_aux calls); k_cons := k_cons s ++ the_constraints calls |}).
Proof.
  induction calls as [|[x|x|a b c] calls IH]; intros s; cbn [circuit_of run the_aux the_constraints flat_map app].
  - rewrite !app_nil_r. cbn [length]. rewrite !Nat.add_0_r. now destruct s.
  - cbn [m_alloc ShapeCS obind fst snd]. rewrite IH. cbn [k_inputs k_aux k_cons length]. do 3 f_equal; apply Nat.add_succ_comm.
  - cbn [m_alloc_input ShapeCS obind fst snd]. rewrite IH. cbn [k_inputs k_aux k_cons length]. do 3 f_equal; apply Nat.add_succ_comm.
  - cbn [m_enforce ShapeCS obind]. rewrite IH. cbn [k_inputs k_aux k_cons]. now rewrite <- app_assoc.
Qed.

Definition all_constraints (calls : list (call P)) : list (Constraint P) :=
  the_constraints calls ++ map input_constraint (seq 0 (List.length (the_inputs calls))).

Lemma honest_synth calls : synthesize_honest (circuit_of calls) =
  Done (Ok {| p_inputs := the_inputs calls; p_aux := the_aux calls; p_cons := all_constraints calls |}).
Proof.
  unfold synthesize_honest, synthesize. cbn [bindq cs_alloc_input bind run m_alloc_input HonestCS obind honest_new p_inputs p_aux p_cons app length fst snd].
  rewrite honest_replay. cbn [obind p_inputs p_aux p_cons app]. rewrite honest_enforce_inputs. cbn [obind p_inputs p_aux p_cons].
  rewrite <- ?app_assoc. reflexivity.
Qed.
Lemma shape_synth calls : synthesize_shape (circuit_of calls) =
  Done (Ok {| k_inputs := List.length (the_inputs calls); k_aux := List.length (the_aux calls); k_cons := all_constraints calls |}).
Proof.
  unfold synthesize_shape, synthesize. cbn [bindq cs_alloc_input bind run m_alloc_input ShapeCS obind shape_new k_inputs k_aux k_cons app length fst snd].
  rewrite shape_replay. cbn [obind k_inputs k_aux k_cons app]. rewrite shape_enforce_inputs. cbn [obind k_inputs k_aux k_cons].
  rewrite <- ?app_assoc. reflexivity.
Qed.

Lemma entry_dot ni na (inputs aux : list P) sel cons (cols : Cols P) k c :
  ni = List.length inputs -> na = List.length aux -> cols_ok ni na sel cons cols -> lc_ok ni na (sel c) -> nth_error cons k = Some c ->
  eval (asgl inputs aux) (sel c) = dot cols inputs aux k.
Proof.
  intros -> -> [_ G] Hok Hk. rewrite (eval_coeffs _ _ _ _ Hok). unfold dot. f_equal.
  - apply fsum_ext. intros i _. change (nth i (col_inputs cols) []) with (getcol cols (Input i)). rewrite recorded_col_coeff, G, col_coeff_column.
    cbn [Nat.leb]. now rewrite Nat.sub_0_r, Hk.
  - apply fsum_ext. intros i _. change (nth i (col_aux cols) []) with (getcol cols (Aux i)). rewrite recorded_col_coeff, G, col_coeff_column.
    cbn [Nat.leb]. now rewrite Nat.sub_0_r, Hk.
Qed.

(** The same for any two circuits of equal shape. *)
Lemma same_shape s ks t ps : KInv (P := P) s ks -> PInv t ps -> ks = shape_of ps ->
  num_inputs s = List.length (input_assignment t) /\ num_aux s = List.length (aux_assignment t) /\
  num_constraints s = List.length (pa_a t) /\ num_constraints s = List.length (pa_b t) /\ num_constraints s = List.length (pa_c t) /\
  forall k, k < num_constraints s ->
    nth k (pa_a t) fzero = dot (ka_at s) (input_assignment t) (aux_assignment t) k /\
    nth k (pa_b t) fzero = dot (ka_bt s) (input_assignment t) (aux_assignment t) k /\
    nth k (pa_c t) fzero = dot (ka_ct s) (input_assignment t) (aux_assignment t) k.
Proof.
  intros [K1 K2 K3 K4 Ka Kb Kc] [P1 P2 P3 Pa Pb Pc _ _ _] ->. cbn [shape_of k_inputs k_aux k_cons] in *. rewrite P1, P2, Pa, Pb, Pc, !map_length.
  repeat (split; [assumption|]). intros k Hk. rewrite K3 in Hk. destruct (nth_error (p_cons ps) k) as [c|] eqn:E; [|apply nth_error_None in E; lia].
  assert (N : forall sel, nth k (map (fun c => eval (asgl (p_inputs ps) (p_aux ps)) (sel c)) (p_cons ps)) fzero = eval (asgl (p_inputs ps) (p_aux ps)) (sel c : LC P)).
  { intros sel. apply nth_error_nth. now apply (map_nth_error (fun c => eval (asgl (p_inputs ps) (p_aux ps)) (sel c))). }
  rewrite (N sel_a), (N sel_b), (N sel_c). apply nth_error_In in E as Hin. rewrite Forall_forall in K4. apply K4 in Hin as (Oa & Ob & Oc).
  split; [|split]; eapply entry_dot; try reflexivity; eauto.
Qed.

Lemma scoped_inv (calls : list (call P)) x : scoped (calls ++ [x]) -> scoped calls /\
  (forall a b c, x = CallEnforce a b c -> con_ok (List.length (the_inputs calls)) (List.length (the_aux calls)) (a, b, c)).
Proof.
  intros H. split.
  - intros before a b c after v -> Hv. apply (H before a b c (after ++ [x]) v); auto. rewrite <- app_assoc. reflexivity.
  - intros a b c ->. assert (X : forall v, In v (map fst (a ++ b ++ c)) -> v_ok (List.length (the_inputs calls)) (List.length (the_aux calls)) v).
    { intros v Hv. specialize (H calls a b c [] v eq_refl Hv). destruct v; exact H. }
    repeat split; apply Forall_forall; intros t Ht; apply X; apply in_map; rewrite !in_app_iff; cbn [sel_a sel_b sel_c fst snd] in Ht; auto.
Qed.
Lemma scoped_snoc (calls : list (call P)) x : scoped calls ->
  (forall a b c, x = CallEnforce a b c -> con_ok (List.length (the_inputs calls)) (List.length (the_aux calls)) (a, b, c)) -> scoped (calls ++ [x]).
Proof.
  intros H Hx before a b c after v E Hv. destruct after as [|y after] using rev_ind.
  - apply app_inj_tail in E as [E1 E2]; subst before x. destruct (Hx _ _ _ eq_refl) as (Oa & Ob & Oc). unfold lc_ok in *. rewrite Forall_forall in Oa, Ob, Oc.
    apply in_map_iff in Hv as (t & <- & Ht). rewrite !in_app_iff in Ht. specialize (Oa t). specialize (Ob t). specialize (Oc t).
    cbn [sel_a sel_b sel_c fst snd] in *. assert (V : v_ok (List.length (the_inputs calls)) (List.length (the_aux calls)) (fst t)) by tauto.
    destruct (fst t); exact V.
  - clear IHafter. change (CallEnforce a b c :: after ++ [y]) with ((CallEnforce a b c :: after) ++ [y]) in E. rewrite app_assoc in E.
    apply app_inj_tail in E as [-> _]. eapply H; eauto.
Qed.

Definition step_ka (x : call P) (s : KeypairAssembly P) : outcome (KeypairAssembly P) :=
  match x with
  | CallAlloc v => obind (m_alloc (KeypairCS P) s "" (Ok v)) (fun r => Done (fst (fst r)))
  | CallAllocInput v => obind (m_alloc_input (KeypairCS P) s "" (Ok v)) (fun r => Done (fst (fst r)))
  | CallEnforce a b c => m_enforce (KeypairCS P) s "" a b c
  end.
Fixpoint steps_ka (calls : list (call P)) (s : KeypairAssembly P) : outcome (KeypairAssembly P) :=
  match calls with [] => Done s | x :: t => obind (step_ka x s) (steps_ka t) end.
Lemma run_steps_ka calls : forall s, run (KeypairCS P) (circuit_of calls) s = obind (steps_ka calls s) (fun s => Done (Ok tt, s)).
Proof.
  induction calls as [|[x|x|a b c] calls IH]; intros s; cbn [circuit_of run steps_ka step_ka]; auto.
  - cbn [m_alloc KeypairCS obind fst snd]. apply IH.
  - cbn [m_alloc_input KeypairCS obind fst snd]. apply IH.
  - destruct (m_enforce (KeypairCS P) s "" a b c) as [s'|]; cbn [obind]; auto.
Qed.
Lemma steps_ka_app c1 : forall c2 s, steps_ka (c1 ++ c2) s = obind (steps_ka c1 s) (steps_ka c2).
Proof. induction c1 as [|x c1 IH]; intros c2 s; cbn [app steps_ka obind]; auto. destruct (step_ka x s); cbn [obind]; auto. Qed.

Definition ka_start : KeypairAssembly P := mkKA 1 0 0 (mkCols [[]] []) (mkCols [[]] []) (mkCols [[]] []).
Definition shape_at (calls : list (call P)) : KState P :=
  {| k_inputs := List.length (the_inputs calls); k_aux := List.length (the_aux calls); k_cons := the_constraints calls |}.

Lemma ka_enforce_total s ks a b c : KInv (P := P) s ks -> con_ok (k_inputs ks) (k_aux ks) (a, b, c) ->
  exists s', m_enforce (KeypairCS P) s "" a b c = Done s'.
Proof.
  intros [H1 H2 H3 H4 [La _] [Lb _] [Lc _]] (Oa & Ob & Oc). cbn [m_enforce KeypairCS sel_a sel_b sel_c fst snd] in *.
  destruct (ka_eval_total (num_constraints s) _ _ _ _ La Oa) as (x & ->). destruct (ka_eval_total (num_constraints s) _ _ _ _ Lb Ob) as (y & ->).
  destruct (ka_eval_total (num_constraints s) _ _ _ _ Lc Oc) as (z & ->). cbn [obind]. eauto.
Qed.

Lemma steps_ka_spec calls :
  match steps_ka calls ka_start with
  | Done s => scoped calls /\ KInv s (shape_at calls)
  | Panicked => ~ scoped calls
  end.
Proof.
  induction calls as [|x calls IH] using rev_ind.
  - cbn. split.
    + intros before a b c after v E. destruct before; discriminate.
    + split; cbn; auto; (split; [split; reflexivity|]); intros [[|[|]]|[|]]; reflexivity.
  - rewrite steps_ka_app. destruct (steps_ka calls ka_start) as [s|] eqn:Es; cbn [obind].
    + destruct IH as [Sc I]. cbn [steps_ka obind].
      assert (F : shape_at (calls ++ [x]) = {| k_inputs := List.length (the_inputs calls) + match x with CallAllocInput _ => 1 | _ => 0 end;
         k_aux := List.length (the_aux calls) + match x with CallAlloc _ => 1 | _ => 0 end;
         k_cons := the_constraints calls ++ match x with CallEnforce a b c => [(a, b, c)] | _ => [] end |}).
      { unfold shape_at, the_inputs, the_aux, the_constraints. rewrite !flat_map_app. cbn [length flat_map]. rewrite !app_length.
        destruct x; cbn [app length]; rewrite ?app_nil_r; reflexivity. }
      destruct x as [v|v|a b c]; cbn [step_ka].
      * destruct (KInv_alloc s (shape_at calls) "" (Ok v) _ _ _ I eq_refl) as (s2 & E2 & I2). cbn [m_alloc KeypairCS obind fst] in *.
        split; [apply scoped_snoc; auto; discriminate|]. rewrite F, app_nil_r. injection E2 as <- _. rewrite Nat.add_0_r, (Nat.add_1_r (List.length _)). exact I2.
      * destruct (KInv_alloc_input s (shape_at calls) "" (Ok v) _ _ _ I eq_refl) as (s2 & E2 & I2). cbn [m_alloc_input KeypairCS obind fst] in *.
        split; [apply scoped_snoc; auto; discriminate|]. rewrite F, app_nil_r. injection E2 as <- _. rewrite Nat.add_0_r, (Nat.add_1_r (List.length _)). exact I2.
      * destruct (m_enforce (KeypairCS P) s "" a b c) as [s'|] eqn:E; cbn [obind].
        -- destruct (KInv_enforce _ _ _ _ _ _ _ I E) as (s2 & E2 & I2). injection E2 as <-. rewrite F, !Nat.add_0_r. split; [|exact I2].
           apply scoped_snoc; auto. intros a' b' c' [= <- <- <-]. pose proof (ki_ok _ _ I2) as K. cbn [k_cons k_inputs k_aux] in K.
           apply Forall_app in K as [_ K]. now inversion K.
        -- intros Hs. apply scoped_inv in Hs as [_ Hs]. destruct (ka_enforce_total s _ a b c I (Hs a b c eq_refl)) as (s' & E'). congruence.
    + intros Hs. apply IH. now apply scoped_inv in Hs.
Qed.

Lemma ka_enforce_inputs_total is_ : forall s ks, KInv s ks -> (forall i, In i is_ -> i < k_inputs ks) ->
  exists s', enforce_inputs (KeypairCS P) is_ s = Done s'.
Proof.
  induction is_ as [|i is_ IH]; intros s ks I H; cbn [enforce_inputs]; [eauto|].
  destruct (ka_enforce_total s ks (input_lc i) lc_zero lc_zero I) as (s' & E).
  { repeat split; try constructor; cbn; auto. apply H. now left. }
  rewrite E. cbn [obind]. destruct (KInv_enforce _ _ _ _ _ _ _ I E) as (s2 & E2 & I2). injection E2 as <-.
  apply (IH s' _ I2). cbn. intros j Hj. apply H. now right.
Qed.

Lemma lc_ok_nz ni na (lc : LC P) : lc_ok ni na lc -> lc_nz_ok ni na lc.
Proof. apply Forall_impl. auto. Qed.

Lemma pa_enforce_total t ps a b c : PInv t ps -> con_ok (List.length (p_inputs ps)) (List.length (p_aux ps)) (a, b, c) ->
  exists t', m_enforce (ProvingCS P) t "" a b c = Done t'.
Proof.
  intros [I1 I2 I3 _ _ _ [L7 _] [L8 _] [L9 _]] (Oa & Ob & Oc). cbn [m_enforce ProvingCS sel_a sel_b sel_c fst snd] in *. rewrite I1, I2.
  destruct (pa_eval_total (p_inputs ps) (p_aux ps) a None (Some (a_aux_density t)) fzero) as ([[x1 x2] x3] & ->); cbn; auto using lc_ok_nz.
  destruct (pa_eval_total (p_inputs ps) (p_aux ps) b (Some (b_input_density t)) (Some (b_aux_density t)) fzero) as ([[y1 y2] y3] & ->); cbn; auto using lc_ok_nz.
  destruct (pa_eval_total (p_inputs ps) (p_aux ps) c None None fzero) as ([[z1 z2] z3] & ->); cbn; auto using lc_ok_nz. eauto.
Qed.

(** The prover never panics where the key generator does not. *)
Lemma lockstep calls : forall s s' t ps, KInv s (shape_of ps) -> PInv t ps -> steps_ka calls s = Done s' ->
  exists t' ps', run (ProvingCS P) (circuit_of calls) t = Done (Ok tt, t') /\ KInv s' (shape_of ps') /\ PInv t' ps'.
Proof.
  induction calls as [|x calls IH]; intros s s' t ps KI PI E; cbn [steps_ka] in E.
  - injection E as <-. cbn. eauto 6.
  - destruct (step_ka x s) as [s1|] eqn:E1; [|discriminate]. cbn [obind] in E. destruct x as [v|v|a b c]; cbn [step_ka circuit_of run] in *.
    + destruct (PInv_alloc t ps "" (Ok v) _ _ _ PI eq_refl) as (ps1 & Ep & PI1). injection Ep as <- _.
      destruct (KInv_alloc s (shape_of ps) "" (Ok v) _ _ _ KI eq_refl) as (k1 & Ek & KI1). injection Ek as <- _.
      cbn [m_alloc KeypairCS ProvingCS obind fst snd] in *. injection E1 as <-. eapply IH; [|exact PI1|exact E].
      unfold shape_of. cbn [p_inputs p_aux p_cons k_inputs k_aux k_cons]. rewrite app_length. cbn [length]. rewrite (Nat.add_1_r (List.length _)). exact KI1.
    + destruct (PInv_alloc_input t ps "" (Ok v) _ _ _ PI eq_refl) as (ps1 & Ep & PI1). injection Ep as <- _.
      destruct (KInv_alloc_input s (shape_of ps) "" (Ok v) _ _ _ KI eq_refl) as (k1 & Ek & KI1). injection Ek as <- _.
      cbn [m_alloc_input KeypairCS ProvingCS obind fst snd] in *. injection E1 as <-. eapply IH; [|exact PI1|exact E].
      unfold shape_of. cbn [p_inputs p_aux p_cons k_inputs k_aux k_cons]. rewrite app_length. cbn [length]. rewrite (Nat.add_1_r (List.length _)). exact KI1.
    + destruct (KInv_enforce _ _ _ _ _ _ _ KI E1) as (k1 & Ek & KI1). injection Ek as <-.
      destruct (pa_enforce_total t ps a b c PI) as (t1 & Et).
      { pose proof (ki_ok _ _ KI1) as K. cbn [k_cons k_inputs k_aux shape_of] in K. apply Forall_app in K as [_ K]. now inversion K. }
      rewrite Et. cbn [obind]. destruct (PInv_enforce _ _ _ _ _ _ _ PI Et) as (ps1 & Ep & PI1). injection Ep as <-.
      eapply IH; [|exact PI1|exact E]. exact KI1.
Qed.
Lemma pa_enforce_inputs_total is_ : forall t ps, PInv t ps -> (forall i, In i is_ -> i < List.length (p_inputs ps)) ->
  exists t', enforce_inputs (ProvingCS P) is_ t = Done t'.
Proof.
  induction is_ as [|i is_ IH]; intros s ks I H; cbn [enforce_inputs]; [eauto|].
  destruct (pa_enforce_total s ks (input_lc i) lc_zero lc_zero I) as (s' & E).
  { repeat split; try constructor; cbn; auto. apply H. now left. }
  rewrite E. cbn [obind]. destruct (PInv_enforce _ _ _ _ _ _ _ I E) as (s2 & E2 & I2). injection E2 as <-.
  apply (IH s' _ I2). cbn. intros j Hj. apply H. now right.
Qed.

Lemma keypair_unfold (calls : list (call P)) : synthesize_keypair (circuit_of calls) = obind (steps_ka calls ka_start) (fun s =>
     obind (enforce_inputs (KeypairCS P) (seq 0 (num_inputs s)) s) (fun s => Done (Ok s))).
Proof.
  unfold synthesize_keypair, synthesize, bindq, cs_alloc_input. cbn [bind run m_alloc_input KeypairCS obind fst snd].
  change (mkKA (num_inputs ka_new + 1) (num_aux ka_new) (num_constraints ka_new) (add_input_col (ka_at ka_new))
      (add_input_col (ka_bt ka_new)) (add_input_col (ka_ct ka_new))) with ka_start.
  rewrite run_steps_ka. destruct (steps_ka calls ka_start); reflexivity.
Qed.

Lemma prover_defined (calls : list (call P)) s : synthesize_keypair (circuit_of calls) = Done (Ok s) ->
  exists t, synthesize_prover (circuit_of calls) = Done (Ok t).
Proof.
  rewrite keypair_unfold. destruct (steps_ka calls ka_start) as [s1|] eqn:Es; [|discriminate]. intros _.
  destruct (PInv_alloc_input (P := P) pa_new honest_new "" (Ok fone) _ _ _ PInv_new eq_refl) as (ps1 & Ep & PI1). injection Ep as <-.
  assert (K1 : KInv ka_start (shape_of {| p_inputs := [fone]; p_aux := []; p_cons := [] |})).
  { split; cbn; auto; (split; [split; reflexivity|]); intros [[|[|]]|[|]]; reflexivity. }
  destruct (lockstep calls _ _ _ _ K1 PI1 Es) as (t' & ps' & Et & K' & P').
  unfold synthesize_prover, synthesize, bindq, cs_alloc_input. cbn [bind run m_alloc_input ProvingCS obind fst snd].
  cbn [fst] in Et. rewrite Et. cbn [obind].
  destruct (pa_enforce_inputs_total (seq 0 (List.length (input_assignment t'))) t' ps' P') as (t2 & ->); [|cbn; eauto].
  intros i Hi. apply in_seq in Hi. rewrite (pi_inputs _ _ P') in Hi. lia.
Qed.
End Aux.

(** * C06 *)

(** Key generation accepts the calls exactly when every constraint mentions only variables allocated before it, and panics
    otherwise. *)
Theorem C06_keygen_defined {P : PrimeField} (calls : list (call P)) :
  (scoped calls -> exists s, synthesize_keypair (circuit_of calls) = Done (Ok s)) /\
  (~ scoped calls -> synthesize_keypair (circuit_of calls) = Panicked).
Proof.
  rewrite keypair_unfold. pose proof (steps_ka_spec calls) as X. split.
  - intros Hs. destruct (steps_ka calls ka_start) as [s|]; [|contradiction]. destruct X as [_ I]. cbn [obind].
    destruct (ka_enforce_inputs_total (seq 0 (num_inputs s)) s _ I) as (s' & ->); [|cbn; eauto].
    intros i Hi. apply in_seq in Hi. rewrite (ki_inputs _ _ I) in Hi. lia.
  - intros Hs. destruct (steps_ka calls ka_start) as [s|]; [tauto|reflexivity].
Qed.
Print Assumptions C06_keygen_defined.

(** Whenever key generation accepts the calls, so does the prover, and both record the same instance. *)
Theorem C06_same_instance {P : PrimeField} (calls : list (call P)) (s : KeypairAssembly P) :
  synthesize_keypair (circuit_of calls) = Done (Ok s) ->
  exists t, synthesize_prover (circuit_of calls) = Done (Ok t) /\
    input_assignment t = the_inputs calls /\ aux_assignment t = the_aux calls /\
    num_inputs s = List.length (the_inputs calls) /\ num_aux s = List.length (the_aux calls) /\
    num_constraints s = List.length (the_constraints calls) + List.length (the_inputs calls) /\
    List.length (pa_a t) = num_constraints s /\ List.length (pa_b t) = num_constraints s /\ List.length (pa_c t) = num_constraints s /\
    forall k, k < num_constraints s ->
      nth k (pa_a t) fzero = dot (ka_at s) (the_inputs calls) (the_aux calls) k /\
      nth k (pa_b t) fzero = dot (ka_bt s) (the_inputs calls) (the_aux calls) k /\
      nth k (pa_c t) fzero = dot (ka_ct s) (the_inputs calls) (the_aux calls) k.
Proof.
  intros E. destruct (synthesize_keypair_spec _ _ E) as (ks & Ek & KI). rewrite shape_synth in Ek. injection Ek as <-.
  destruct (prover_defined _ _ E) as (t & Et). exists t. split; [exact Et|].
  destruct (synthesize_prover_spec _ _ Et) as (ps & Ep & PI). rewrite honest_synth in Ep. injection Ep as <-.
  destruct (same_shape _ _ _ _ KI PI eq_refl) as (N1 & N2 & N3 & N4 & N5 & N).
  rewrite (pi_inputs _ _ PI), (pi_aux _ _ PI) in *. cbn [p_inputs p_aux] in *.
  repeat (split; [congruence|]). split; [|repeat (split; [congruence|]); exact N].
  rewrite (ki_cons _ _ KI). cbn [k_cons]. unfold all_constraints. now rewrite app_length, map_length, seq_length.
Qed.
Print Assumptions C06_same_instance.

(** The entries are those of the calls' own constraints, followed by [x * 0 = 0] for every input [x]. *)
Theorem C06_entries {P : PrimeField} (calls : list (call P)) (t : ProvingAssignment P) :
  synthesize_prover (circuit_of calls) = Done (Ok t) ->
  let value v := match v with Input i => nth i (the_inputs calls) 0%F | Aux i => nth i (the_aux calls) 0%F end in
  pa_a t = map (fun c => eval value (fst (fst c))) (the_constraints calls) ++ the_inputs calls /\
  pa_b t = map (fun c => eval value (snd (fst c))) (the_constraints calls) ++ repeat 0%F (List.length (the_inputs calls)) /\
  pa_c t = map (fun c => eval value (snd c)) (the_constraints calls) ++ repeat 0%F (List.length (the_inputs calls)).
Proof.
  intros Et value. destruct (synthesize_prover_spec _ _ Et) as (ps & Ep & PI). rewrite honest_synth in Ep. injection Ep as <-.
  rewrite (pi_a _ _ PI), (pi_b _ _ PI), (pi_c _ _ PI). cbn [p_inputs p_aux p_cons]. unfold all_constraints. rewrite !map_app, !map_map.
  assert (R : forall {A} (l : list A), map (fun _ => 0%F : P) l = repeat 0%F (List.length l)) by (intros A l; induction l; cbn; congruence).
  split; [|split]; f_equal.
  - cbn [input_constraint sel_a fst snd]. rewrite (map_ext _ (fun i => nth i (the_inputs calls) 0%F)).
    + apply nth_ext with (d := 0%F) (d' := 0%F); [now rewrite map_length, seq_length|]. intros i Hi. rewrite map_length, seq_length in Hi.
      rewrite (nth_indep _ 0%F (nth 0 (the_inputs calls) 0%F)) by now rewrite map_length, seq_length.
      rewrite (map_nth (fun i => nth i (the_inputs calls) 0%F)). now rewrite seq_nth.
    + intros i. rewrite eval_cons, eval_nil. cbn [asgl]. apply c06_one.
  - rewrite <- (seq_length (List.length (the_inputs calls)) 0) at 2. rewrite <- R. reflexivity.
  - rewrite <- (seq_length (List.length (the_inputs calls)) 0) at 2. rewrite <- R. reflexivity.
Qed.
Print Assumptions C06_entries.

(** The same instance is also seen when key generation and proving run two different programs -- the circuit without and with
    its witness -- of the same shape (C24 shows that the gadgets are such). *)
Theorem C06_same_shape {P : PrimeField} (keygen_circuit prover_circuit : prog P (res unit)) (s : KeypairAssembly P) (t : ProvingAssignment P) ks ps :
  synthesize_keypair keygen_circuit = Done (Ok s) -> synthesize_prover prover_circuit = Done (Ok t) ->
  synthesize (ShapeCS P) {| k_inputs := 0; k_aux := 0; k_cons := [] |} k_inputs keygen_circuit = Done (Ok ks) ->
  synthesize (HonestCS P) {| p_inputs := []; p_aux := []; p_cons := [] |} (fun s => List.length (p_inputs s)) prover_circuit = Done (Ok ps) ->
  ks = shape_of ps ->
  num_inputs s = List.length (input_assignment t) /\ num_aux s = List.length (aux_assignment t) /\
  num_constraints s = List.length (pa_a t) /\ num_constraints s = List.length (pa_b t) /\ num_constraints s = List.length (pa_c t) /\
  forall k, k < num_constraints s ->
    nth k (pa_a t) fzero = dot (ka_at s) (input_assignment t) (aux_assignment t) k /\
    nth k (pa_b t) fzero = dot (ka_bt s) (input_assignment t) (aux_assignment t) k /\
    nth k (pa_c t) fzero = dot (ka_ct s) (input_assignment t) (aux_assignment t) k.
Proof.
  intros Es Et Ek Ep Hs. destruct (synthesize_keypair_spec _ _ Es) as (ks' & Ek' & KI). destruct (synthesize_prover_spec _ _ Et) as (ps' & Ep' & PI).
  unfold synthesize_shape, shape_new in Ek'. unfold synthesize_honest, honest_new in Ep'. rewrite Ek in Ek'. rewrite Ep in Ep'.
  injection Ek' as <-. injection Ep' as <-. eapply same_shape; eauto.
Qed.
Print Assumptions C06_same_shape.

(** z = 2xy: two inputs (with the constant), three auxiliary variables, 2 + 2 constraints. *)
Definition c06_calls : list (call Fr64513) :=
  [CallAlloc (ofZ 3); CallAlloc (ofZ 5); CallAllocInput (ofZ 30);
   CallEnforce [(Aux 0, fone); (Aux 0, fone)] [(Aux 1, fone)] [(Input 1, fone)];
   CallAlloc (ofZ 7); CallEnforce [(Aux 2, fone)] [(Input 0, fone)] [(Input 0, ofZ 7)]].
Example C06_ex : scoped c06_calls /\
  match synthesize_keypair (circuit_of c06_calls), synthesize_prover (circuit_of c06_calls) with
  | Done (Ok s), Done (Ok t) =>
      num_inputs s = 2 /\ num_aux s = 3 /\ num_constraints s = 4 /\
      map toZ (pa_a t) = [6; 7; 1; 30]%Z /\ map toZ (pa_b t) = [5; 1; 0; 0]%Z /\ map toZ (pa_c t) = [30; 7; 0; 0]%Z /\
      map snd (nth 0 (col_aux (ka_at s)) []) = [0; 0]
  | _, _ => False
  end.
Proof.
  split.
  - assert (E0 : scoped (firstn 0 c06_calls)) by (intros before ? ? ? ? ? E; destruct before; discriminate).
    assert (E3 : scoped (firstn 3 c06_calls)).
    { apply (scoped_snoc (firstn 2 c06_calls) (CallAllocInput (ofZ 30))); [|discriminate].
      apply (scoped_snoc (firstn 1 c06_calls) (CallAlloc (ofZ 5))); [|discriminate].
      apply (scoped_snoc (firstn 0 c06_calls) (CallAlloc (ofZ 3))); [exact E0|discriminate]. }
    apply (scoped_snoc (firstn 5 c06_calls) (CallEnforce _ _ _)); [|intros ? ? ? [= <- <- <-]; repeat constructor; cbn; lia].
    apply (scoped_snoc (firstn 4 c06_calls) (CallAlloc (ofZ 7))); [|discriminate].
    apply (scoped_snoc (firstn 3 c06_calls) (CallEnforce _ _ _)); [exact E3|intros ? ? ? [= <- <- <-]; repeat constructor; cbn; lia].
  - vm_compute. repeat split.
Qed.
