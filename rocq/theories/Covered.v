(** Allocated variables are constrained: auxiliary lemmas. *)
From Coq Require Import String.
From Coq Require Import ZArith List Bool Lia Field.
From Verif Require Import Prelude PrimeField Circuit AssemblyProof PropGenerator Scope.
Import ListNotations.
Local Open Scope nat_scope.

Section Covered.
Context {P : PrimeField}.
Add Field PFcovered : (F_field P).

Lemma cf_coefficient v (l : LC P) : cf v l = coefficient l v.
Proof.
  induction l as [|[[i|i] c] l IH]; [reflexivity| |]; cbn [cf coefficient fst snd]; rewrite IH; destruct v as [j|j]; cbn [var_eqb]; try (destruct (i =? j)); ring.
Qed.

(** The coefficient of [v] in some part of the constraint is not zero. *)
Definition hits (v : Var) (k : Constraint P) : Prop := cf v (fst (fst k)) <> fzero \/ cf v (snd (fst k)) <> fzero \/ cf v (snd k) <> fzero.
Definition old (t : KState P) (v : Var) : Prop := match v with Input i => i < k_inputs t | Aux i => i < k_aux t end.
Definition more (t t' : KState P) (new : list (Constraint P)) : Prop := k_cons t' = k_cons t ++ new /\ k_inputs t <= k_inputs t' /\ k_aux t <= k_aux t'.

Lemma more_same t : more t t []. Proof. split; [now rewrite app_nil_r|lia]. Qed.
Lemma run_more {A} (p : prog P A) : forall t r t', run (ShapeCS P) p t = Done (r, t') -> exists new, more t t' new.
Proof.
  induction p as [a| |n f k IH|n f k IH|n a b c k IH|n l rr k IH|n k IH|k IH]; intros t r t' E; cbn [run m_alloc m_alloc_input m_enforce m_push m_pop ShapeCS obind fst snd] in E; try discriminate.
  - injection E as <- <-. exists []. apply more_same.
  - apply IH in E as (new & E1 & E2 & E3). exists new. cbn [k_cons k_inputs k_aux] in *. split; [exact E1|lia].
  - apply IH in E as (new & E1 & E2 & E3). exists new. cbn [k_cons k_inputs k_aux] in *. split; [exact E1|lia].
  - apply IH in E as (new & E1 & E2 & E3). exists ((a, b, c) :: new). cbn [k_cons k_inputs k_aux] in *. split; [|lia]. rewrite E1, <- app_assoc. reflexivity.
  - now apply IH in E.
  - now apply IH in E.
Qed.

Lemma cov_run {A} (E : A -> Prop) v (p : prog P A) : cov E v p -> forall t r t', old t v -> run (ShapeCS P) p t = Done (r, t') ->
  exists new, more t t' new /\ (E r \/ exists k, In k new /\ hits v k).
Proof.
  induction p as [a| |n f k IH|n f k IH|n a b c k IH|n l rr k IH|n k IH|k IH]; intros HC t r t' Ho Er;
    cbn [run m_alloc m_alloc_input m_enforce m_push m_pop ShapeCS obind fst snd cov] in *; try discriminate.
  - injection Er as <- <-. exists []. split; [apply more_same|now left].
  - destruct HC as [HC _]. destruct (IH (Ok (Aux (k_aux t))) false) with (t := {| k_inputs := k_inputs t; k_aux := S (k_aux t); k_cons := k_cons t |}) (r := r) (t' := t') as (new & (E1 & E2 & E3) & H).
    + apply HC. intros <-. cbn in Ho. lia.
    + destruct v; cbn in *; lia.
    + exact Er.
    + exists new. split; [|exact H]. cbn [k_cons k_inputs k_aux] in *. split; [exact E1|lia].
  - destruct HC as [HC _]. destruct (IH (Ok (Input (k_inputs t))) false) with (t := {| k_inputs := S (k_inputs t); k_aux := k_aux t; k_cons := k_cons t |}) (r := r) (t' := t') as (new & (E1 & E2 & E3) & H).
    + apply HC. intros <-. cbn in Ho. lia.
    + destruct v; cbn in *; lia.
    + exact Er.
    + exists new. split; [|exact H]. cbn [k_cons k_inputs k_aux] in *. split; [exact E1|lia].
  - destruct (run_more _ _ _ _ Er) as (new & E1 & E2 & E3). cbn [k_cons k_inputs k_aux] in *.
    assert (M : more t t' ((a, b, c) :: new)) by (split; [rewrite E1, <- app_assoc; reflexivity|lia]).
    assert (H3 : (cf v a <> fzero \/ cf v b <> fzero \/ cf v c <> fzero) \/ cov E v k) by tauto. destruct H3 as [H3|H3].
    + exists ((a, b, c) :: new). split; [exact M|]. right. exists (a, b, c). split; [now left|exact H3].
    + destruct (IH H3 _ _ _ (Ho : old {| k_inputs := k_inputs t; k_aux := k_aux t; k_cons := k_cons t ++ [(a, b, c)] |} v) Er) as (new' & (F1 & F2 & F3) & H). cbn [k_cons k_inputs k_aux] in *.
      exists ((a, b, c) :: new'). split; [split; [rewrite F1, <- app_assoc; reflexivity|lia]|]. destruct H as [H|(x & Hx & H)]; [now left|right]. exists x. split; [now right|exact H].
  - exact (IH HC _ _ _ Ho Er).
  - exact (IH HC _ _ _ Ho Er).
Qed.

Lemma wpC_run {A} (E : A -> Prop) (p : prog P A) (Q : (Var -> Prop) -> A -> Prop) : forall t r t',
  (forall K : Var -> Prop, (forall v, old t v -> K v) -> wpC K E p (Q K)) -> run (ShapeCS P) p t = Done (r, t') ->
  exists new, more t t' new /\ (E r \/ forall i, k_aux t <= i < k_aux t' -> exists k, In k new /\ hits (Aux i) k).
Proof.
  induction p as [a| |n f k IH|n f k IH|n a b c k IH|n l rr k IH|n k IH|k IH]; intros t r t' HK Er;
    cbn [run m_alloc m_alloc_input m_enforce m_push m_pop ShapeCS obind fst snd wpC] in *; try discriminate.
  - injection Er as <- <-. exists []. split; [apply more_same|]. right. intros i Hi. lia.
  - set (t1 := {| k_inputs := k_inputs t; k_aux := S (k_aux t); k_cons := k_cons t |}) in *.
    assert (O1 : forall v, old t v -> old t1 v) by (intros [i|i]; cbn; lia).
    destruct (HK (old t) (fun v H => H)) as ((S & HS & Hc) & _).
    assert (F : ~ In (Aux (k_aux t)) S). { intros H. rewrite Forall_forall in HS. specialize (HS _ H). cbn in HS. lia. }
    destruct (cov_run _ _ _ (Hc _ false F) t1 r t') as (new & M & H); [cbn; lia|exact Er|].
    destruct (IH (Ok (Aux (k_aux t))) false t1 r t') as (new' & M' & H'); [|exact Er|].
    { intros K HKK. destruct (HK K) as (_ & H1 & _); [auto|]. apply H1, HKK. cbn. lia. }
    assert (new' = new). { destruct M as [M _], M' as [M' _]. rewrite M in M'. now apply app_inv_head in M'. } subst new'.
    exists new. destruct M as (M1 & M2 & M3). cbn [k_cons k_inputs k_aux t1] in *. split; [split; [exact M1|lia]|].
    destruct H as [H|H]; [now left|]. destruct H' as [H'|H']; [now left|]. right. intros i Hi. destruct (Nat.eq_dec i (k_aux t)) as [->|]; [exact H|]. apply H'. lia.
  - set (t1 := {| k_inputs := S (k_inputs t); k_aux := k_aux t; k_cons := k_cons t |}) in *.
    assert (O1 : forall v, old t v -> old t1 v) by (intros [i|i]; cbn; lia).
    destruct (IH (Ok (Input (k_inputs t))) false t1 r t') as (new & (M1 & M2 & M3) & H); [|exact Er|].
    { intros K HKK. destruct (HK K) as (H1 & _); [auto|]. apply H1, HKK. cbn. lia. }
    exists new. cbn [k_cons k_inputs k_aux t1] in *. split; [split; [exact M1|lia]|exact H].
  - edestruct IH as (new & (M1 & M2 & M3) & H); [|exact Er|].
    { intros K HKK. destruct (HK K HKK) as (_ & _ & _ & X). exact X. }
    cbn [k_cons k_inputs k_aux] in *. exists ((a, b, c) :: new). split; [split; [rewrite M1, <- app_assoc; reflexivity|lia]|].
    destruct H as [H|H]; [now left|]. right. intros i Hi. destruct (H i Hi) as (x & Hx & Hh). exists x. split; [now right|exact Hh].
  - exact (IH _ _ _ HK Er).
  - exact (IH _ _ _ HK Er).
Qed.
End Covered.
