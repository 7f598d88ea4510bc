(** What programs spend: constraints, allocations, and the widths of the equalities handed to MultiEq. *)
From Coq Require Import String.
From Coq Require Import ZArith List Bool Lia Field.
From Verif Require Import Prelude PrimeField Circuit Loops BooleanGadget MultiEq CostSpec.
Import ListNotations.
Local Open Scope nat_scope.

Record bill := mkBill { b_cons : Z; b_aux : Z; b_inp : Z; b_eqs : list nat }.
Definition bill0 : bill := mkBill 0 0 0 [].
Definition bill_add (x y : bill) : bill := mkBill (b_cons x + b_cons y)%Z (b_aux x + b_aux y)%Z (b_inp x + b_inp y)%Z (b_eqs x ++ b_eqs y).
Definition bill_con (x : bill) : bill := mkBill (1 + b_cons x)%Z (b_aux x) (b_inp x) (b_eqs x).
Definition bill_aux (x : bill) : bill := mkBill (b_cons x) (1 + b_aux x)%Z (b_inp x) (b_eqs x).
Definition bill_inp (x : bill) : bill := mkBill (b_cons x) (b_aux x) (1 + b_inp x)%Z (b_eqs x).
Definition bill_eq (n : nat) (x : bill) : bill := mkBill (b_cons x) (b_aux x) (b_inp x) (n :: b_eqs x).
Lemma bill_add_0 x : bill_add bill0 x = x. Proof. destruct x; reflexivity. Qed.
Lemma bill_add_0r x : bill_add x bill0 = x. Proof. destruct x; unfold bill_add; cbn. now rewrite !Z.add_0_r, app_nil_r. Qed.
Lemma bill_eq_iff x y : b_cons x = b_cons y -> b_aux x = b_aux y -> b_inp x = b_inp y -> b_eqs x = b_eqs y -> x = y.
Proof. destruct x, y; cbn. now intros -> -> -> ->. Qed.
Ltac bill_lia := apply bill_eq_iff; cbn [bill_add bill_con bill_aux bill_inp bill_eq bill0 b_cons b_aux b_inp b_eqs app]; try reflexivity; lia.
Lemma bill_add_con x y : bill_add (bill_con x) y = bill_con (bill_add x y). Proof. bill_lia. Qed.
Lemma bill_add_aux x y : bill_add (bill_aux x) y = bill_aux (bill_add x y). Proof. bill_lia. Qed.
Lemma bill_add_inp x y : bill_add (bill_inp x) y = bill_inp (bill_add x y). Proof. bill_lia. Qed.

Section Cost.
Context {P : PrimeField}.

(** [spends p r x]: [p] may finish with [r] having spent [x]; an allocation may fail, and is then not counted. *)
Inductive spends {A} : prog P A -> A -> bill -> Prop :=
| sp_ret a : spends (Ret a) a bill0
| sp_alloc n f k v b a x : spends (k (Ok v) b) a x -> spends (Alloc n f k) a (bill_aux x)
| sp_alloc_err n f k e b a x : spends (k (Err e) b) a x -> spends (Alloc n f k) a x
| sp_input n f k v b a x : spends (k (Ok v) b) a x -> spends (AllocInput n f k) a (bill_inp x)
| sp_input_err n f k e b a x : spends (k (Err e) b) a x -> spends (AllocInput n f k) a x
| sp_enforce n u v w k a x : spends k a x -> spends (Enforce n u v w k) a (bill_con x)
| sp_eq n l r k a x : spends k a x -> spends (EnforceEq n l r k) a (bill_eq n x)
| sp_push n k a x : spends k a x -> spends (PushNs n k) a x
| sp_pop k a x : spends k a x -> spends (PopNs k) a x.

Lemma emits_spends {A} (p : prog P A) r cs es : emits p r cs es ->
  exists x, spends p r x /\ b_cons x = Z.of_nat (List.length cs) /\ b_eqs x = map req_n es.
Proof.
  induction 1 as [|n f k [v|e] b a cs es H (x & S & C & Q)|n f k [v|e] b a cs es H (x & S & C & Q)|
    n u v w k a cs es H (x & S & C & Q)|n l rr k a cs es H (x & S & C & Q)|n k a cs es H (x & S & C & Q)|k a cs es H (x & S & C & Q)].
  - exists bill0. repeat split. constructor.
  - exists (bill_aux x). repeat split; auto. econstructor; eauto.
  - exists x. repeat split; auto. eapply sp_alloc_err; eauto.
  - exists (bill_inp x). repeat split; auto. econstructor; eauto.
  - exists x. repeat split; auto. eapply sp_input_err; eauto.
  - exists (bill_con x). repeat split; [constructor; auto|cbn [bill_con b_cons List.length]; lia|auto].
  - exists (bill_eq n x). repeat split; [constructor; auto|auto|]. cbn. rewrite Q. reflexivity.
  - exists x. repeat split; auto. constructor; auto.
  - exists x. repeat split; auto. constructor; auto.
Qed.

Lemma shape_spends {A} (p : prog P A) : forall s r s', run (ShapeCS P) p s = Done (r, s') ->
  exists x, spends p r x /\ b_eqs x = [] /\ Z.of_nat (k_aux s') = (Z.of_nat (k_aux s) + b_aux x)%Z /\ Z.of_nat (k_inputs s') = (Z.of_nat (k_inputs s) + b_inp x)%Z /\
    Z.of_nat (List.length (k_cons s')) = (Z.of_nat (List.length (k_cons s)) + b_cons x)%Z.
Proof.
  induction p as [a| |n f k IH|n f k IH|n a b c k IH|n l r k IH|n k IH|k IH]; intros s r0 s' H; cbn in H; try discriminate.
  - inversion H; subst. exists bill0. repeat split; try (cbn [bill_aux bill_inp bill_con bill0 b_aux b_inp b_cons]; lia). constructor.
  - apply IH in H as (x & S & E & A1 & A2 & A3). cbn [k_aux k_inputs k_cons] in *. exists (bill_aux x). repeat split; auto; try (cbn [bill_aux bill_inp bill_con bill0 b_aux b_inp b_cons]; lia). econstructor; eauto.
  - apply IH in H as (x & S & E & A1 & A2 & A3). cbn [k_aux k_inputs k_cons] in *. exists (bill_inp x). repeat split; auto; try (cbn [bill_aux bill_inp bill_con bill0 b_aux b_inp b_cons]; lia). econstructor; eauto.
  - apply IH in H as (x & S & E & A1 & A2 & A3). cbn [k_aux k_inputs k_cons] in *. rewrite app_length in A3. cbn [List.length] in A3.
    exists (bill_con x). repeat split; auto; try (cbn [bill_aux bill_inp bill_con bill0 b_aux b_inp b_cons]; lia). econstructor; eauto.
  - apply IH in H as (x & S & E & A1 & A2 & A3). exists x. repeat split; auto. econstructor; eauto.
  - apply IH in H as (x & S & E & A1 & A2 & A3). exists x. repeat split; auto. econstructor; eauto.
Qed.

Lemma spends_bind {A B} (p : prog P A) (g : A -> prog P B) r : forall x, spends (bind p g) r x ->
  exists a y z, spends p a y /\ spends (g a) r z /\ x = bill_add y z.
Proof.
  induction p as [a| |n f k IH|n f k IH|n u v w k IH|n l rr k IH|n k IH|k IH]; intros x H; cbn [bind] in H.
  - exists a, bill0, x. rewrite bill_add_0. repeat split; auto. constructor.
  - inversion H.
  - inversion H; subst; match goal with X : spends (bind _ _) _ _ |- _ => apply IH in X as (a & y & z & S1 & S2 & ->) end.
    + exists a, (bill_aux y), z. repeat split; [econstructor; eauto|auto|symmetry; apply bill_add_aux].
    + exists a, y, z. repeat split; auto. eapply sp_alloc_err; eauto.
  - inversion H; subst; match goal with X : spends (bind _ _) _ _ |- _ => apply IH in X as (a & y & z & S1 & S2 & ->) end.
    + exists a, (bill_inp y), z. repeat split; [econstructor; eauto|auto|symmetry; apply bill_add_inp].
    + exists a, y, z. repeat split; auto. eapply sp_input_err; eauto.
  - inversion H; subst; match goal with X : spends (bind _ _) _ _ |- _ => apply IH in X as (a & y & z & S1 & S2 & ->) end.
    exists a, (bill_con y), z. repeat split; [econstructor; eauto|auto|symmetry; apply bill_add_con].
  - inversion H; subst; match goal with X : spends (bind _ _) _ _ |- _ => apply IH in X as (a & y & z & S1 & S2 & ->) end.
    exists a, (bill_eq n y), z. repeat split; auto. econstructor; eauto.
  - inversion H; subst; match goal with X : spends (bind _ _) _ _ |- _ => apply IH in X as (a & y & z & S1 & S2 & ->) end.
    exists a, y, z. repeat split; auto. econstructor; eauto.
  - inversion H; subst; match goal with X : spends (bind _ _) _ _ |- _ => apply IH in X as (a & y & z & S1 & S2 & ->) end.
    exists a, y, z. repeat split; auto. econstructor; eauto.
Qed.

(** Whenever [p] succeeds, it has spent exactly [x]. *)
Definition costs {A} (p : prog P (res A)) (x : bill) (Q : A -> Prop) : Prop :=
  forall r y, spends p (Ok r) y -> y = x /\ Q r.

Lemma costs_ret {A} (a : A) (Q : A -> Prop) : Q a -> costs (Ret (Ok a)) bill0 Q.
Proof. intros H r y S. inversion S; subst. auto. Qed.
Lemma costs_bindq {A B} (p : prog P (res A)) (g : A -> prog P (res B)) x y (Q1 : A -> Prop) Q :
  costs p x Q1 -> (forall a, Q1 a -> costs (g a) y Q) -> costs (bindq p g) (bill_add x y) Q.
Proof.
  intros Hp Hg r z S. apply spends_bind in S as ([a|e] & u & v & S1 & S2 & ->).
  - destruct (Hp _ _ S1) as [-> HQ]. destruct (Hg a HQ _ _ S2) as [-> H]. auto.
  - inversion S2.
Qed.
Lemma costs_bindq0 {A B} (p : prog P (res A)) (g : A -> prog P (res B)) y (Q1 : A -> Prop) Q :
  costs p bill0 Q1 -> (forall a, Q1 a -> costs (g a) y Q) -> costs (bindq p g) y Q.
Proof. intros H H'. rewrite <- (bill_add_0 y). eapply costs_bindq; eauto. Qed.
Lemma costs_ret_bindq {A B} (p : prog P (res A)) (g : A -> B) x (Q1 : A -> Prop) (Q : B -> Prop) :
  costs p x Q1 -> (forall a, Q1 a -> Q (g a)) -> costs (bindq p (fun a => Ret (Ok (g a)))) x Q.
Proof. intros Hp Hg. rewrite <- (bill_add_0r x). eapply costs_bindq; [exact Hp|]. intros a Ha. apply costs_ret; auto. Qed.
Lemma costs_ns {A} n (p : prog P (res A)) x Q : costs p x Q -> costs (ns n p) x Q.
Proof.
  intros H r y S. cbn in S. inversion S; subst. match goal with X : spends (bind _ _) _ _ |- _ => apply spends_bind in X as (a & u & v & S1 & S2 & ->) end.
  inversion S2; subst. match goal with X : spends (Ret _) _ _ |- _ => inversion X; subst end. rewrite bill_add_0r. apply H. exact S1.
Qed.
Lemma costs_mono {A} (p : prog P (res A)) x (Q Q' : A -> Prop) : (forall a, Q a -> Q' a) -> costs p x Q -> costs p x Q'.
Proof. intros HQ H r y S. destruct (H r y S). auto. Qed.
Lemma costs_panic {A} x (Q : A -> Prop) : costs Panic x Q.
Proof. intros r y S. inversion S. Qed.

(** ** MultiEq *)

(** multieq.rs:40-66 *)
Definition bill_scope (cap : nat) (x : bill) : bill := mkBill (b_cons x + groups cap 0 (b_eqs x))%Z (b_aux x) (b_inp x) [].

Lemma multieq_spends {A} (p : prog P A) : forall s r s' x, spends (multieq p s) (r, s') x ->
  exists y, spends p r y /\ b_aux x = b_aux y /\ b_inp x = b_inp y /\ b_eqs x = [] /\
    (b_cons x + (if Nat.ltb 0 (me_used s') then 1 else 0) = b_cons y + groups (capacity P) (me_used s) (b_eqs y))%Z.
Proof.
  induction p as [a| |n f k IH|n f k IH|n u v w k IH|n l rr k IH|n k IH|k IH]; intros s r0 s' x H; cbn [multieq] in H.
  - inversion H; subst. exists bill0. split; [constructor|]. repeat split.
  - inversion H.
  - inversion H; subst; match goal with X : spends (multieq _ _) _ _ |- _ => apply IH in X as (y & S & A1 & A2 & A3 & A4) end.
    + exists (bill_aux y). split; [econstructor; eauto|]. cbn [bill_aux bill_inp b_cons b_aux b_inp b_eqs] in *. repeat split; auto; lia.
    + exists y. split; [eapply sp_alloc_err; eauto|]. auto.
  - inversion H; subst; match goal with X : spends (multieq _ _) _ _ |- _ => apply IH in X as (y & S & A1 & A2 & A3 & A4) end.
    + exists (bill_inp y). split; [econstructor; eauto|]. cbn [bill_aux bill_inp b_cons b_aux b_inp b_eqs] in *. repeat split; auto; lia.
    + exists y. split; [eapply sp_input_err; eauto|]. auto.
  - inversion H; subst; match goal with X : spends (multieq _ _) _ _ |- _ => apply IH in X as (y & S & A1 & A2 & A3 & A4) end.
    exists (bill_con y). split; [econstructor; eauto|]. cbn [bill_con b_cons b_aux b_inp b_eqs] in *. repeat split; auto; lia.
  - apply spends_bind in H as (s1 & u & v & S1 & S2 & ->). apply IH in S2 as (y & S & A1 & A2 & A3 & A4).
    exists (bill_eq n y). split; [econstructor; eauto|]. cbn [bill_eq bill_add b_aux b_inp b_eqs b_cons groups].
    unfold me_enforce_equal in S1. destruct (Nat.leb (capacity P) (me_used s + n)) eqn:El.
    + unfold me_accumulate, cs_enforce in S1. cbn [bind] in S1. inversion S1; subst.
      match goal with X : spends (if _ then _ else _) _ _ |- _ => cbn [me_used Nat.add] in X; destruct (Nat.ltb n (capacity P)); inversion X; subst end.
      cbn [me_used me_push bill_con bill0 b_aux b_inp b_eqs b_cons Nat.add] in *. repeat split; auto; lia.
    + cbn [bind] in S1. destruct (Nat.ltb (me_used s + n) (capacity P)); inversion S1; subst.
      cbn [me_used me_push bill0 b_aux b_inp b_eqs b_cons] in *. repeat split; auto.
  - inversion H; subst; match goal with X : spends (multieq _ _) _ _ |- _ => apply IH in X as (y & S & A1 & A2 & A3 & A4) end.
    exists y. split; [econstructor; eauto|]. auto.
  - inversion H; subst; match goal with X : spends (multieq _ _) _ _ |- _ => apply IH in X as (y & S & A1 & A2 & A3 & A4) end.
    exists y. split; [econstructor; eauto|]. auto.
Qed.

Lemma scope_spends {A} (p : prog P A) r x : spends (multieq_scope p) r x -> exists y, spends p r y /\ x = bill_scope (capacity P) y.
Proof.
  unfold multieq_scope. intros H. apply spends_bind in H as ([a s] & u & v & S1 & S2 & ->). cbn [fst snd] in S2.
  apply multieq_spends in S1 as (y & S & A1 & A2 & A3 & A4). cbn [me_used me_new] in A4.
  apply spends_bind in S2 as ([] & v1 & v2 & S2 & S3 & ->). inversion S3; subst. exists y. split; [exact S|].
  unfold me_drop in S2. destruct (Nat.ltb 0 (me_used s)).
  - unfold me_accumulate, cs_enforce in S2. cbn [bind] in S2. inversion S2; subst.
    match goal with X : spends (Ret _) _ _ |- _ => inversion X; subst end.
    unfold bill_add, bill_scope, bill_con, bill0; cbn [b_aux b_inp b_eqs b_cons]. rewrite A1, A2, A3. f_equal; cbn [app]; try reflexivity; lia.
  - inversion S2; subst. unfold bill_add, bill_scope, bill0; cbn [b_aux b_inp b_eqs b_cons]. rewrite A1, A2, A3. f_equal; cbn [app]; try reflexivity; lia.
Qed.
Lemma costs_scope {A} (p : prog P (res A)) x Q : costs p x Q -> costs (multieq_scope p) (bill_scope (capacity P) x) Q.
Proof. intros H r y S. apply scope_spends in S as (z & S & ->). destruct (H r z S) as [-> HQ]. auto. Qed.


End Cost.
