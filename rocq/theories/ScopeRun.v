(** What scoping means for the constraint systems: auxiliary lemmas. *)
From Coq Require Import String.
From Coq Require Import ZArith List Bool Lia.
From Verif Require Import Prelude PrimeField Circuit TestCS Multiexp Assembly AssemblyProof Scope.
Import ListNotations.
Local Open Scope nat_scope.

Section Generic.
Context {P : PrimeField}.
Variables (M : Machine P) (inv : St M -> Prop) (ex : St M -> Var -> Prop).
Definition step_ok (s s' : St M) : Prop := inv s' /\ forall v, ex s v -> ex s' v.
Hypothesis Halloc : forall s n f s' r b, inv s -> m_alloc M s n f = Done (s', r, b) -> step_ok s s' /\ (forall v, r = Ok v -> ex s' v).
Hypothesis Hinput : forall s n f s' r b, inv s -> m_alloc_input M s n f = Done (s', r, b) -> step_ok s s' /\ (forall v, r = Ok v -> ex s' v).
Hypothesis Henf : forall s n a b c s', inv s -> lck (ex s) a -> lck (ex s) b -> lck (ex s) c -> m_enforce M s n a b c = Done s' -> step_ok s s'.
Hypothesis Hpush : forall s n s', inv s -> m_push M s n = Done s' -> step_ok s s'.
Hypothesis Hpop : forall s s', inv s -> m_pop M s = Done s' -> step_ok s s'.

Lemma scope_keeps {A} (p : prog P A) (Q : (Var -> Prop) -> A -> Prop) : forall s r s', inv s ->
  (forall K : Var -> Prop, (forall v, ex s v -> K v) -> wpK K p (Q K)) -> run M p s = Done (r, s') ->
  inv s' /\ (forall v, ex s v -> ex s' v) /\ Q (ex s') r.
Proof.
  induction p as [a| |n f k IH|n f k IH|n a b c k IH|n l rr k IH|n k IH|k IH]; intros s r s' Hi HK E; cbn [run] in E; try discriminate.
  - inversion E; subst. split; [exact Hi|]. split; [auto|]. apply (HK (ex s')). auto.
  - destruct (m_alloc M s n f) as [[[s1 r1] b1]|] eqn:Es; [|discriminate]. cbn [obind fst snd] in E.
    destruct (Halloc _ _ _ _ _ _ Hi Es) as [[Hi1 Hm] Hr]. edestruct (fun H => IH _ _ _ _ _ Hi1 H E) as (R1 & R2 & R3).
    + intros K HKK. destruct r1 as [v|e]; (destruct (HK K) as [X1 X2]; [intros; auto|]); [apply X1; auto|apply X2].
    + split; auto.
  - destruct (m_alloc_input M s n f) as [[[s1 r1] b1]|] eqn:Es; [|discriminate]. cbn [obind fst snd] in E.
    destruct (Hinput _ _ _ _ _ _ Hi Es) as [[Hi1 Hm] Hr]. edestruct (fun H => IH _ _ _ _ _ Hi1 H E) as (R1 & R2 & R3).
    + intros K HKK. destruct r1 as [v|e]; (destruct (HK K) as [X1 X2]; [intros; auto|]); [apply X1; auto|apply X2].
    + split; auto.
  - destruct (m_enforce M s n a b c) as [s1|] eqn:Es; [|discriminate]. cbn [obind] in E.
    destruct (HK (ex s) (fun v H => H)) as (Ha & Hb & Hc & _). destruct (Henf _ _ _ _ _ _ Hi Ha Hb Hc Es) as [Hi1 Hm].
    edestruct (fun H => IH _ _ _ Hi1 H E) as (R1 & R2 & R3); [|split; auto]. intros K HKK. destruct (HK K) as (_ & _ & _ & X); auto.
  - destruct (m_push M s n) as [s1|] eqn:Es; [|discriminate]. cbn [obind] in E. destruct (Hpush _ _ _ Hi Es) as [Hi1 Hm].
    edestruct (fun H => IH _ _ _ Hi1 H E) as (R1 & R2 & R3); [|split; auto]. intros K HKK. apply HK; auto.
  - destruct (m_pop M s) as [s1|] eqn:Es; [|discriminate]. cbn [obind] in E. destruct (Hpop _ _ Hi Es) as [Hi1 Hm].
    edestruct (fun H => IH _ _ _ Hi1 H E) as (R1 & R2 & R3); [|split; auto]. intros K HKK. apply HK; auto.
Qed.

(** [M] panics only where [M2] does. *)
Variables (M2 : Machine P) (R : St M -> St M2 -> Prop).
Hypothesis Lalloc : forall s t n f, inv s -> R s t -> exists s' t' r b, m_alloc M s n f = Done (s', r, b) /\ m_alloc M2 t n f = Done (t', r, b) /\ R s' t'.
Hypothesis Linput : forall s t n f, inv s -> R s t -> exists s' t' r b, m_alloc_input M s n f = Done (s', r, b) /\ m_alloc_input M2 t n f = Done (t', r, b) /\ R s' t'.
Hypothesis Lenf : forall s t n a b c, inv s -> R s t -> lck (ex s) a -> lck (ex s) b -> lck (ex s) c ->
  exists s' t', m_enforce M s n a b c = Done s' /\ m_enforce M2 t n a b c = Done t' /\ R s' t'.
Hypothesis Lpush : forall s t n, inv s -> R s t -> exists s' t', m_push M s n = Done s' /\ m_push M2 t n = Done t' /\ R s' t'.
Hypothesis Lpop : forall s t, inv s -> R s t -> exists s' t', m_pop M s = Done s' /\ m_pop M2 t = Done t' /\ R s' t'.

Lemma scope_lockstep {A} (p : prog P A) (Q : (Var -> Prop) -> A -> Prop) : forall s t, inv s -> R s t ->
  (forall K : Var -> Prop, (forall v, ex s v -> K v) -> wpK K p (Q K)) ->
  match run M p s with
  | Done (r, s') => exists t', run M2 p t = Done (r, t') /\ R s' t'
  | Panicked => run M2 p t = Panicked
  end.
Proof.
  induction p as [a| |n f k IH|n f k IH|n a b c k IH|n l rr k IH|n k IH|k IH]; intros s t Hi HR HK; cbn [run].
  - eauto.
  - reflexivity.
  - destruct (Lalloc s t n f Hi HR) as (s1 & t1 & r1 & b1 & Es & Et & HR1). rewrite Es, Et. cbn [obind fst snd].
    destruct (Halloc _ _ _ _ _ _ Hi Es) as [[Hi1 Hm] Hr]. apply IH; auto.
    intros K HKK. destruct r1 as [v|e]; (destruct (HK K) as [X1 X2]; [intros; auto|]); [apply X1; auto|apply X2].
  - destruct (Linput s t n f Hi HR) as (s1 & t1 & r1 & b1 & Es & Et & HR1). rewrite Es, Et. cbn [obind fst snd].
    destruct (Hinput _ _ _ _ _ _ Hi Es) as [[Hi1 Hm] Hr]. apply IH; auto.
    intros K HKK. destruct r1 as [v|e]; (destruct (HK K) as [X1 X2]; [intros; auto|]); [apply X1; auto|apply X2].
  - destruct (HK (ex s) (fun v H => H)) as (Ha & Hb & Hc & _). destruct (Lenf s t n a b c Hi HR Ha Hb Hc) as (s1 & t1 & Es & Et & HR1). rewrite Es, Et. cbn [obind].
    destruct (Henf _ _ _ _ _ _ Hi Ha Hb Hc Es) as [Hi1 Hm]. apply IH; auto. intros K HKK. destruct (HK K) as (_ & _ & _ & X); auto.
  - reflexivity.
  - destruct (Lpush s t n Hi HR) as (s1 & t1 & Es & Et & HR1). rewrite Es, Et. cbn [obind]. destruct (Hpush _ _ _ Hi Es) as [Hi1 Hm]. apply IH; auto.
    intros K HKK. apply HK; auto.
  - destruct (Lpop s t Hi HR) as (s1 & t1 & Es & Et & HR1). rewrite Es, Et. cbn [obind]. destruct (Hpop _ _ Hi Es) as [Hi1 Hm]. apply IH; auto.
    intros K HKK. apply HK; auto.
Qed.
End Generic.

Section Machines.
Context {P : PrimeField}.

Lemma lck_lc_ok ni na (l : LC P) : lck (v_ok ni na) l -> lc_ok ni na l. Proof. auto. Qed.
Lemma lck_nz_ok ni na (l : LC P) : lck (v_ok ni na) l -> lc_nz_ok ni na l.
Proof. apply Forall_impl. auto. Qed.

(** ** Key generation *)
Definition ka_fit (s : KeypairAssembly P) : Prop :=
  cols_len (num_inputs s) (num_aux s) (ka_at s) /\ cols_len (num_inputs s) (num_aux s) (ka_bt s) /\ cols_len (num_inputs s) (num_aux s) (ka_ct s).
Definition ka_ex (s : KeypairAssembly P) : Var -> Prop := v_ok (num_inputs s) (num_aux s).
Definition ka_same (s : KeypairAssembly P) (t : KState P) : Prop := k_inputs t = num_inputs s /\ k_aux t = num_aux s.

Lemma ka_halloc s n f s' r b : ka_fit s -> m_alloc (KeypairCS P) s n f = Done (s', r, b) ->
  step_ok (KeypairCS P) ka_fit ka_ex s s' /\ (forall v, r = Ok v -> ka_ex s' v).
Proof.
  intros ([A1 A2] & [B1 B2] & [C1 C2]) E. cbn in E. apply Done_inj in E. injection E as <- <- <-. split; [split|].
  - repeat split; cbn; rewrite ?app_length; cbn; lia.
  - intros [i|i]; cbn; lia.
  - intros v [= <-]. cbn. lia.
Qed.
Lemma ka_hinput s n f s' r b : ka_fit s -> m_alloc_input (KeypairCS P) s n f = Done (s', r, b) ->
  step_ok (KeypairCS P) ka_fit ka_ex s s' /\ (forall v, r = Ok v -> ka_ex s' v).
Proof.
  intros ([A1 A2] & [B1 B2] & [C1 C2]) E. cbn in E. apply Done_inj in E. injection E as <- <- <-. split; [split|].
  - repeat split; cbn; rewrite ?app_length; cbn; lia.
  - intros [i|i]; cbn; lia.
  - intros v [= <-]. cbn. lia.
Qed.
Lemma ka_henf s n a b c s' : ka_fit s -> lck (ka_ex s) a -> lck (ka_ex s) b -> lck (ka_ex s) c ->
  m_enforce (KeypairCS P) s n a b c = Done s' -> step_ok (KeypairCS P) ka_fit ka_ex s s'.
Proof.
  intros (HA & HB & HC) _ _ _ E. cbn [m_enforce KeypairCS] in E.
  destruct (ka_eval (num_constraints s) a (ka_at s)) as [at'|] eqn:Ea; [|discriminate]. cbn [obind] in E.
  destruct (ka_eval (num_constraints s) b (ka_bt s)) as [bt'|] eqn:Eb; [|discriminate]. cbn [obind] in E.
  destruct (ka_eval (num_constraints s) c (ka_ct s)) as [ct'|] eqn:Ec; [|discriminate]. cbn [obind] in E. apply Done_inj in E as <-.
  destruct (ka_eval_spec _ _ _ _ _ _ HA Ea) as (_ & La & _). destruct (ka_eval_spec _ _ _ _ _ _ HB Eb) as (_ & Lb & _).
  destruct (ka_eval_spec _ _ _ _ _ _ HC Ec) as (_ & Lc & _). split; [split; [exact La|split; [exact Lb|exact Lc]]|]. auto.
Qed.
Lemma ka_lenf s t n a b c : ka_fit s -> ka_same s t -> lck (ka_ex s) a -> lck (ka_ex s) b -> lck (ka_ex s) c ->
  exists s' t', m_enforce (KeypairCS P) s n a b c = Done s' /\ m_enforce (ShapeCS P) t n a b c = Done t' /\ ka_same s' t'.
Proof.
  intros (HA & HB & HC) [S1 S2] Ka Kb Kc. cbn [m_enforce KeypairCS ShapeCS].
  destruct (ka_eval_total (num_constraints s) _ _ a _ HA Ka) as [at' Ea]. destruct (ka_eval_total (num_constraints s) _ _ b _ HB Kb) as [bt' Eb].
  destruct (ka_eval_total (num_constraints s) _ _ c _ HC Kc) as [ct' Ec]. rewrite Ea, Eb, Ec. cbn [obind].
  eexists. eexists. split; [reflexivity|]. split; [reflexivity|]. split; assumption.
Qed.

Lemma ka_hpush s n s' : ka_fit s -> m_push (KeypairCS P) s n = Done s' -> step_ok (KeypairCS P) ka_fit ka_ex s s'.
Proof. intros H E. cbn in E. apply Done_inj in E as <-. split; auto. Qed.
Lemma ka_hpop s s' : ka_fit s -> m_pop (KeypairCS P) s = Done s' -> step_ok (KeypairCS P) ka_fit ka_ex s s'.
Proof. intros H E. cbn in E. apply Done_inj in E as <-. split; auto. Qed.

Lemma ka_scope {A} (p : prog P A) (Q : (Var -> Prop) -> A -> Prop) s t : ka_fit s -> ka_same s t ->
  (forall K : Var -> Prop, (forall v, ka_ex s v -> K v) -> wpK K p (Q K)) ->
  match run (KeypairCS P) p s with
  | Done (r, s') => ka_fit s' /\ (forall v, ka_ex s v -> ka_ex s' v) /\ Q (ka_ex s') r /\
                    exists t', run (ShapeCS P) p t = Done (r, t') /\ ka_same s' t'
  | Panicked => run (ShapeCS P) p t = Panicked
  end.
Proof.
  intros Hf HS HK.
  assert (L := scope_lockstep (KeypairCS P) ka_fit ka_ex ka_halloc ka_hinput ka_henf
    ka_hpush ka_hpop
    (ShapeCS P) ka_same).
  assert (K0 := scope_keeps (KeypairCS P) ka_fit ka_ex ka_halloc ka_hinput ka_henf
    ka_hpush ka_hpop
    p Q s).
  specialize (fun a b c d e => L a b c d e _ p Q s t Hf HS HK).
  destruct (run (KeypairCS P) p s) as [[r s']|].
  - destruct (K0 r s' Hf HK eq_refl) as (R1 & R2 & R3). split; [exact R1|]. split; [exact R2|]. split; [exact R3|]. apply L; clear; cbn.
    + intros s t n f _ [S1 S2]. do 4 eexists. split; [reflexivity|]. split; [rewrite S2; reflexivity|]. split; cbn; lia.
    + intros s t n f _ [S1 S2]. do 4 eexists. split; [reflexivity|]. split; [rewrite S1; reflexivity|]. split; cbn; lia.
    + exact ka_lenf.
    + intros s t n _ HR. eauto.
    + intros s t _ HR. eauto.
  - apply L; clear; cbn.
    + intros s t n f _ [S1 S2]. do 4 eexists. split; [reflexivity|]. split; [rewrite S2; reflexivity|]. split; cbn; lia.
    + intros s t n f _ [S1 S2]. do 4 eexists. split; [reflexivity|]. split; [rewrite S1; reflexivity|]. split; cbn; lia.
    + exact ka_lenf.
    + intros s t n _ HR. eauto.
    + intros s t _ HR. eauto.
Qed.

(** ** Proving *)
Definition pa_fit (s : ProvingAssignment P) : Prop :=
  List.length (a_aux_density s) = List.length (aux_assignment s) /\ List.length (b_input_density s) = List.length (input_assignment s) /\
  List.length (b_aux_density s) = List.length (aux_assignment s).
Definition pa_ex (s : ProvingAssignment P) : Var -> Prop := v_ok (List.length (input_assignment s)) (List.length (aux_assignment s)).
Definition pa_same (s : ProvingAssignment P) (t : PState P) : Prop := p_inputs t = input_assignment s /\ p_aux t = aux_assignment s.

Lemma pa_halloc s n f s' r b : pa_fit s -> m_alloc (ProvingCS P) s n f = Done (s', r, b) ->
  step_ok (ProvingCS P) pa_fit pa_ex s s' /\ (forall v, r = Ok v -> pa_ex s' v).
Proof.
  intros (A1 & A2 & A3) E. cbn [m_alloc ProvingCS] in E. apply Done_inj in E. destruct f as [x|e]; injection E as <- <- <-.
  - unfold pa_fit, pa_ex, step_ok. cbn. unfold dt_add_element. split; [split|].
    + rewrite !app_length. cbn. lia.
    + intros [i|i]; cbn; rewrite ?app_length; lia.
    + intros v [= <-]. cbn. rewrite app_length. cbn. lia.
  - split; [split; [repeat split; assumption|auto]|discriminate].
Qed.
Lemma pa_hinput s n f s' r b : pa_fit s -> m_alloc_input (ProvingCS P) s n f = Done (s', r, b) ->
  step_ok (ProvingCS P) pa_fit pa_ex s s' /\ (forall v, r = Ok v -> pa_ex s' v).
Proof.
  intros (A1 & A2 & A3) E. cbn [m_alloc_input ProvingCS] in E. apply Done_inj in E. destruct f as [x|e]; injection E as <- <- <-.
  - unfold pa_fit, pa_ex, step_ok. cbn. unfold dt_add_element. split; [split|].
    + rewrite !app_length. cbn. lia.
    + intros [i|i]; cbn; rewrite ?app_length; lia.
    + intros v [= <-]. cbn. rewrite app_length. cbn. lia.
  - split; [split; [repeat split; assumption|auto]|discriminate].
Qed.
Lemma pa_henf s n a b c s' : pa_fit s -> lck (pa_ex s) a -> lck (pa_ex s) b -> lck (pa_ex s) c ->
  m_enforce (ProvingCS P) s n a b c = Done s' -> step_ok (ProvingCS P) pa_fit pa_ex s s'.
Proof.
  intros (A1 & A2 & A3) _ _ _ E. cbn [m_enforce ProvingCS] in E.
  destruct (pa_eval a _ _ _ _ _) as [[[va ?] da]|] eqn:Ea; [|discriminate]. cbn [obind] in E.
  destruct (pa_eval b _ _ _ _ _) as [[[vb dbi] dba]|] eqn:Eb; [|discriminate]. cbn [obind] in E.
  destruct (pa_eval c _ _ _ _ _) as [[[vc ?] ?]|] eqn:Ec; [|discriminate]. cbn [obind] in E. apply Done_inj in E as <-.
  destruct (pa_eval_spec _ _ _ _ _ _ _ _ _ Ea) as (_ & _ & _ & Da). destruct (pa_eval_spec _ _ _ _ _ _ _ _ _ Eb) as (_ & _ & Dbi & Dba).
  destruct da as [da|]; [|destruct Da]. destruct dbi as [dbi|]; [|destruct Dbi]. destruct dba as [dba|]; [|destruct Dba].
  destruct Da as [Da _], Dbi as [Dbi _], Dba as [Dba _]. split; [|auto]. unfold pa_fit. cbn. repeat split; congruence.
Qed.
Lemma pa_lenf s t n a b c : pa_fit s -> pa_same s t -> lck (pa_ex s) a -> lck (pa_ex s) b -> lck (pa_ex s) c ->
  exists s' t', m_enforce (ProvingCS P) s n a b c = Done s' /\ m_enforce (HonestCS P) t n a b c = Done t' /\ pa_same s' t'.
Proof.
  intros (A1 & A2 & A3) [S1 S2] Ka Kb Kc. cbn [m_enforce ProvingCS HonestCS].
  match goal with |- context [pa_eval a ?x ?y ?z ?w ?u] => destruct (pa_eval_total z w a x y u (lck_nz_ok _ _ _ Ka)) as [[[va ?] da] Ea]; [exact I|exact A1|rewrite Ea] end.
  cbn [obind].
  match goal with |- context [pa_eval b ?x ?y ?z ?w ?u] => destruct (pa_eval_total z w b x y u (lck_nz_ok _ _ _ Kb)) as [[[vb dbi] dba] Eb]; [exact A2|exact A3|rewrite Eb] end.
  cbn [obind].
  match goal with |- context [pa_eval c ?x ?y ?z ?w ?u] => destruct (pa_eval_total z w c x y u (lck_nz_ok _ _ _ Kc)) as [[[vc ?] ?] Ec]; [exact I|exact I|rewrite Ec] end.
  cbn [obind]. eexists. eexists. split; [reflexivity|]. split; [reflexivity|]. split; assumption.
Qed.

Lemma pa_hpush s n s' : pa_fit s -> m_push (ProvingCS P) s n = Done s' -> step_ok (ProvingCS P) pa_fit pa_ex s s'.
Proof. intros H E. cbn in E. apply Done_inj in E as <-. split; auto. Qed.
Lemma pa_hpop s s' : pa_fit s -> m_pop (ProvingCS P) s = Done s' -> step_ok (ProvingCS P) pa_fit pa_ex s s'.
Proof. intros H E. cbn in E. apply Done_inj in E as <-. split; auto. Qed.

Lemma pa_scope {A} (p : prog P A) (Q : (Var -> Prop) -> A -> Prop) s t : pa_fit s -> pa_same s t ->
  (forall K : Var -> Prop, (forall v, pa_ex s v -> K v) -> wpK K p (Q K)) ->
  match run (ProvingCS P) p s with
  | Done (r, s') => pa_fit s' /\ (forall v, pa_ex s v -> pa_ex s' v) /\ Q (pa_ex s') r /\
                    exists t', run (HonestCS P) p t = Done (r, t') /\ pa_same s' t'
  | Panicked => run (HonestCS P) p t = Panicked
  end.
Proof.
  intros Hf HS HK.
  assert (L := scope_lockstep (ProvingCS P) pa_fit pa_ex pa_halloc pa_hinput pa_henf
    pa_hpush pa_hpop
    (HonestCS P) pa_same).
  assert (K0 := scope_keeps (ProvingCS P) pa_fit pa_ex pa_halloc pa_hinput pa_henf
    pa_hpush pa_hpop
    p Q s).
  specialize (fun a b c d e => L a b c d e _ p Q s t Hf HS HK).
  assert (L' := L). clear L.
  match type of L' with ?a -> ?b -> ?c -> ?d -> ?e -> _ => assert (Ha : a /\ b /\ c /\ d /\ e) end.
  { clear. cbn. split; [|split; [|split; [exact pa_lenf|split]]].
    - intros s t n [x|e] _ [S1 S2]; do 4 eexists; (split; [reflexivity|]).
      + split; [rewrite S2, app_length; cbn [length]; rewrite Nat.add_sub; reflexivity|]. split; cbn; congruence.
      + split; [reflexivity|]. split; assumption.
    - intros s t n [x|e] _ [S1 S2]; do 4 eexists; (split; [reflexivity|]).
      + split; [rewrite S1, app_length; cbn [length]; rewrite Nat.add_sub; reflexivity|]. split; cbn; congruence.
      + split; [reflexivity|]. split; assumption.
    - intros s t n _ HR. eauto.
    - intros s t _ HR. eauto. }
  destruct Ha as (X1 & X2 & X3 & X4 & X5). specialize (L' X1 X2 X3 X4 X5). clear X1 X2 X3 X4 X5.
  destruct (run (ProvingCS P) p s) as [[r s']|]; [|exact L'].
  destruct (K0 r s' Hf HK eq_refl) as (R1 & R2 & R3). split; [exact R1|]. split; [exact R2|]. split; [exact R3|]. exact L'.
Qed.

(** ** The constraints for the inputs *)
Lemma ka_inputs l : forall s t, ka_fit s -> ka_same s t -> Forall (fun i => i < num_inputs s) l ->
  exists s' t', enforce_inputs (KeypairCS P) l s = Done s' /\ enforce_inputs (ShapeCS P) l t = Done t' /\ num_inputs s' = num_inputs s /\ num_aux s' = num_aux s /\ ka_same s' t'.
Proof.
  induction l as [|i l IH]; intros s t Hf HS HL; [exists s, t; auto|]. inversion_clear HL as [|? ? Hi Hl]. cbn [enforce_inputs].
  assert (X : lck (ka_ex s) (input_lc (P := P) i)) by (constructor; [exact Hi|constructor]).
  destruct (ka_lenf s t EmptyString _ lc_zero lc_zero Hf HS X) as (s1 & t1 & E1 & E2 & S1); [constructor..|]. rewrite E1, E2. cbn [obind].
  destruct (ka_henf _ _ _ _ _ _ Hf X (Forall_nil _) (Forall_nil _) E1) as [Hf1 _].
  assert (En : num_inputs s1 = num_inputs s /\ num_aux s1 = num_aux s).
  { destruct S1 as [<- <-], HS as [<- <-]. cbn in E2. apply Done_inj in E2 as <-. auto. }
  destruct En as [En Ea]. rewrite <- En, <- Ea. apply IH; auto. now rewrite En.
Qed.
Lemma pa_inputs l : forall s t, pa_fit s -> pa_same s t -> Forall (fun i => i < List.length (input_assignment s)) l ->
  exists s' t', enforce_inputs (ProvingCS P) l s = Done s' /\ enforce_inputs (HonestCS P) l t = Done t' /\
    input_assignment s' = input_assignment s /\ aux_assignment s' = aux_assignment s /\ pa_same s' t'.
Proof.
  induction l as [|i l IH]; intros s t Hf HS HL; [exists s, t; auto|]. inversion_clear HL as [|? ? Hi Hl]. cbn [enforce_inputs].
  assert (X : lck (pa_ex s) (input_lc (P := P) i)) by (constructor; [exact Hi|constructor]).
  destruct (pa_lenf s t EmptyString _ lc_zero lc_zero Hf HS X) as (s1 & t1 & E1 & E2 & S1); [constructor..|]. rewrite E1, E2. cbn [obind].
  destruct (pa_henf _ _ _ _ _ _ Hf X (Forall_nil _) (Forall_nil _) E1) as [Hf1 _].
  assert (En : input_assignment s1 = input_assignment s /\ aux_assignment s1 = aux_assignment s).
  { destruct S1 as [<- <-], HS as [<- <-]. cbn in E2. apply Done_inj in E2 as <-. auto. }
  destruct En as [En Ea]. rewrite <- En, <- Ea. apply IH; auto. now rewrite En.
Qed.

(** ** The test constraint system *)
Definition t_ex (s : TState P) : Var -> Prop := v_ok (List.length (t_inputs s)) (List.length (t_aux s)).
Definition con_ex (s : TState P) (c : LC P * LC P * LC P * string) : Prop :=
  lck (t_ex s) (fst (fst (fst c))) /\ lck (t_ex s) (snd (fst (fst c))) /\ lck (t_ex s) (snd (fst c)).
Definition t_fit (s : TState P) : Prop := Forall (con_ex s) (t_cons s).
Lemma lck_mono (K K' : Var -> Prop) (l : LC P) : (forall v, K v -> K' v) -> lck K l -> lck K' l.
Proof. intros H. apply Forall_impl. auto. Qed.
Lemma t_fit_mono s s' : t_cons s' = t_cons s -> (forall v, t_ex s v -> t_ex s' v) -> t_fit s -> t_fit s'.
Proof. unfold t_fit. intros -> H. apply Forall_impl. intros c (A & B & C). repeat split; eapply lck_mono; eauto. Qed.
Lemma named_obj s path o s' : set_named_obj s path o = Done s' -> t_cons s' = t_cons s /\ t_inputs s' = t_inputs s /\ t_aux s' = t_aux s (P := P).
Proof. unfold set_named_obj. destruct (find_obj _ _); [discriminate|]. intros H. apply Done_inj in H as <-. auto. Qed.
Lemma t_halloc s n f s' r b : t_fit s -> m_alloc (TestCS (P := P)) s n f = Done (s', r, b) ->
  step_ok TestCS t_fit t_ex s s' /\ (forall v, r = Ok v -> t_ex s' v).
Proof.
  intros Hf E. cbn [m_alloc TestCS] in E. unfold t_alloc in E. destruct (compute_path _ _) as [path|]; [|discriminate]. cbn [obind] in E.
  destruct f as [x|e].
  - match type of E with obind ?o _ = _ => destruct o as [s2|] eqn:Es; [|discriminate] end. cbn [obind] in E. apply Done_inj in E. injection E as <- <- <-.
    apply named_obj in Es as (E1 & E2 & E3). cbn [t_cons t_inputs t_aux] in E1, E2, E3.
    assert (Hx : forall v, t_ex s v -> t_ex s2 v) by (unfold t_ex; rewrite E2, E3, app_length; intros [i|i]; cbn; lia).
    split; [split; [|exact Hx]|].
    + eapply t_fit_mono; [exact E1|exact Hx|exact Hf].
    + intros v [= <-]. unfold t_ex. rewrite E3, app_length. cbn. lia.
  - apply Done_inj in E. injection E as <- <- <-. split; [split; auto|discriminate].
Qed.
Lemma t_hinput s n f s' r b : t_fit s -> m_alloc_input (TestCS (P := P)) s n f = Done (s', r, b) ->
  step_ok TestCS t_fit t_ex s s' /\ (forall v, r = Ok v -> t_ex s' v).
Proof.
  intros Hf E. cbn [m_alloc_input TestCS] in E. unfold t_alloc_input in E. destruct (compute_path _ _) as [path|]; [|discriminate]. cbn [obind] in E.
  destruct f as [x|e].
  - match type of E with obind ?o _ = _ => destruct o as [s2|] eqn:Es; [|discriminate] end. cbn [obind] in E. apply Done_inj in E. injection E as <- <- <-.
    apply named_obj in Es as (E1 & E2 & E3). cbn [t_cons t_inputs t_aux] in E1, E2, E3.
    assert (Hx : forall v, t_ex s v -> t_ex s2 v) by (unfold t_ex; rewrite E2, E3, app_length; intros [i|i]; cbn; lia).
    split; [split; [|exact Hx]|].
    + eapply t_fit_mono; [exact E1|exact Hx|exact Hf].
    + intros v [= <-]. unfold t_ex. rewrite E2, app_length. cbn. lia.
  - apply Done_inj in E. injection E as <- <- <-. split; [split; auto|discriminate].
Qed.
Lemma t_henf s n a b c s' : t_fit s -> lck (t_ex s) a -> lck (t_ex s) b -> lck (t_ex s) c ->
  m_enforce (TestCS (P := P)) s n a b c = Done s' -> step_ok TestCS t_fit t_ex s s'.
Proof.
  intros Hf Ka Kb Kc E. cbn [m_enforce TestCS] in E. unfold t_enforce in E. destruct (compute_path _ _) as [path|]; [|discriminate]. cbn [obind] in E.
  destruct (set_named_obj s path _) as [s1|] eqn:Es; [|discriminate]. cbn [obind] in E. apply Done_inj in E as <-.
  apply named_obj in Es as (E1 & E2 & E3). unfold step_ok, t_fit, t_ex, con_ex in *. unfold t_ex. cbn [t_cons t_inputs t_aux]. rewrite E1, E2, E3.
  split; [|auto]. apply Forall_app. split; [exact Hf|]. constructor; [|constructor]. auto.
Qed.
Lemma t_hpush s n s' : t_fit s -> m_push (TestCS (P := P)) s n = Done s' -> step_ok TestCS t_fit t_ex s s'.
Proof.
  intros Hf E. cbn [m_push TestCS] in E. unfold t_push in E. destruct (compute_path _ _) as [path|]; [|discriminate]. cbn [obind] in E.
  destruct (set_named_obj s path _) as [s1|] eqn:Es; [|discriminate]. cbn [obind] in E. apply Done_inj in E as <-.
  apply named_obj in Es as (E1 & E2 & E3). unfold step_ok, t_fit, t_ex, con_ex in *. unfold t_ex. cbn [t_cons t_inputs t_aux]. rewrite E1, E2, E3. auto.
Qed.
Lemma t_hpop s s' : t_fit s -> m_pop (TestCS (P := P)) s = Done s' -> step_ok TestCS t_fit t_ex s s'.
Proof.
  intros Hf E. cbn [m_pop TestCS] in E. unfold t_pop in E. destruct (t_ns s); [discriminate|]. apply Done_inj in E as <-. split; [exact Hf|auto].
Qed.
Lemma t_scope {A} (p : prog P A) (Q : (Var -> Prop) -> A -> Prop) s r s' : t_fit s ->
  (forall K : Var -> Prop, (forall v, t_ex s v -> K v) -> wpK K p (Q K)) -> run TestCS p s = Done (r, s') ->
  t_fit s' /\ (forall v, t_ex s v -> t_ex s' v) /\ Q (t_ex s') r.
Proof. intros. eapply (scope_keeps TestCS t_fit t_ex t_halloc t_hinput t_henf t_hpush t_hpop); eauto. Qed.

(** ... evaluates what it has been given *)
Lemma eval_lc_defined (s : TState P) l : lck (t_ex s) l -> exists x, eval_lc s l = Done x.
Proof.
  intros H. unfold eval_lc. generalize (fzero : P). induction H as [|[v c] l Hv _ IH]; intros x; cbn [fold_left]; [eauto|].
  cbn [obind fst snd]. assert (E : exists e, entry s v = Some e).
  { cbn [fst] in Hv. destruct v as [i|i]; cbn in Hv |- *;
      [destruct (nth_error (t_inputs s) i) eqn:E|destruct (nth_error (t_aux s) i) eqn:E]; eauto; apply nth_error_None in E; lia. }
  destruct E as [e ->]. apply IH.
Qed.
Lemma satisfied_defined (s : TState P) : t_fit s -> exists b, is_satisfied s = Done b.
Proof.
  intros H. unfold is_satisfied, which_is_unsatisfied. assert (E : exists o, first_unsatisfied s (t_cons s) = Done o).
  { induction H as [|[[[a b] c] path] cs (Ha & Hb & Hc) _ IH]; cbn [first_unsatisfied]; [eauto|]. cbn [fst snd] in *.
    destruct (eval_lc_defined s a Ha) as [x ->], (eval_lc_defined s b Hb) as [y ->], (eval_lc_defined s c Hc) as [z ->]. cbn [obind].
    destruct (feqb _ _); eauto. }
  destruct E as [o ->]. cbn. eauto.
Qed.
End Machines.
