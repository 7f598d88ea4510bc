(** Constraint-system programs.

    Rust gadget code is generic in [CS : ConstraintSystem<Scalar>] (src/lib.rs:374-437).  It is
    modelled as a program [prog A] whose only effects are the calls of that trait, so that one
    model of each gadget can be run against every constraint system. *)
From Coq Require Import String DecimalString.
From Coq Require Import ZArith List Bool Lia Field.
From Verif Require Import Prelude PrimeField.
Import ListNotations.
Open Scope Z_scope.

(** src/lib.rs:179-185 [Index]; [Variable] (lib.rs:162-177) is a newtype around it. *)
Inductive Var := Input (i : nat) | Aux (i : nat).

Definition var_eqb (v w : Var) : bool :=
  match v, w with
  | Input i, Input j => Nat.eqb i j
  | Aux i, Aux j => Nat.eqb i j
  | _, _ => false
  end.

(** src/lib.rs:380-382 [ConstraintSystem::one]. *)
Definition one_var : Var := Input 0.

(** [format!("{}", i)]. *)
Definition nat_str (n : nat) : string := NilEmpty.string_of_uint (Nat.to_uint n).

Section Prog.
Context {P : PrimeField}.
Local Open Scope F_scope.

(** src/lib.rs:189 [LinearCombination(Vec<(Var, Scalar)>)]. *)
Definition LC : Type := list (Var * P).

(** lib.rs:197-201 *)
Definition lc_zero : LC := [].
(** lib.rs:203-211, [lc + (coeff, var)] *)
Definition lc_add_term (lc : LC) (coeff : P) (v : Var) : LC := lc ++ [(v, coeff)].
(** lib.rs:213-220, [lc - (coeff, var)] *)
Definition lc_sub_term (lc : LC) (coeff : P) (v : Var) : LC := lc_add_term lc (- coeff) v.
(** lib.rs:222-228, [lc + var] *)
Definition lc_add_var (lc : LC) (v : Var) : LC := lc_add_term lc 1 v.
(** lib.rs:230-236, [lc - var] *)
Definition lc_sub_var (lc : LC) (v : Var) : LC := lc_sub_term lc 1 v.
(** lib.rs:238-248, [lc + &other] *)
Definition lc_add_lc (lc other : LC) : LC :=
  fold_left (fun acc s => lc_add_term acc (snd s) (fst s)) other lc.
(** lib.rs:250-260, [lc - &other] *)
Definition lc_sub_lc (lc other : LC) : LC :=
  fold_left (fun acc s => lc_sub_term acc (snd s) (fst s)) other lc.
(** lib.rs:262-279, [lc + (coeff, &other)] *)
Definition lc_add_scaled (lc : LC) (coeff : P) (other : LC) : LC :=
  fold_left (fun acc s => lc_add_term acc (snd s * coeff) (fst s)) other lc.
(** lib.rs:281-299, [lc - (coeff, &other)] *)
Definition lc_sub_scaled (lc : LC) (coeff : P) (other : LC) : LC :=
  fold_left (fun acc s => lc_sub_term acc (snd s * coeff) (fst s)) other lc.

(** One rank-1 constraint A * B = C. *)
Definition Constraint : Type := LC * LC * LC.

(** Programs over a constraint system.
    - [Alloc ann f k]: [cs.alloc(|| ann, || f)]; the reply is the [Result<Var, _>] and
      whether the closure was invoked (so that the gadget sees the side effects of the closure);
      closures are pure apart from recording the value they return, so [f] is just the value.
    - [Enforce]: the three closures are applied to the empty combination (all implementations
      in /repo do that), so their results are given directly.
    - [EnforceEq]: [cs.get_root().enforce_equal(..)] of [MultiEq] (src/gadgets/multieq.rs:40-57);
      only meaningful below a [MultiEq] (Rust's type [CS::Root = MultiEq]).
    - [PushNs]/[PopNs]: [push_namespace]/[pop_namespace] of the root.
    - [Panic]: a failed assertion. *)
Inductive prog (A : Type) : Type :=
| Ret (a : A)
| Panic
| Alloc (ann : string) (f : res P) (k : res Var -> bool -> prog A)
| AllocInput (ann : string) (f : res P) (k : res Var -> bool -> prog A)
| Enforce (ann : string) (a b c : LC) (k : prog A)
| EnforceEq (n : nat) (l r : LC) (k : prog A)
| PushNs (name : string) (k : prog A)
| PopNs (k : prog A).
Arguments Ret {A}. Arguments Panic {A}. Arguments Alloc {A}. Arguments AllocInput {A}.
Arguments Enforce {A}. Arguments EnforceEq {A}. Arguments PushNs {A}. Arguments PopNs {A}.

Fixpoint bind {A B} (p : prog A) (g : A -> prog B) : prog B :=
  match p with
  | Ret a => g a
  | Panic => Panic
  | Alloc n f k => Alloc n f (fun r b => bind (k r b) g)
  | AllocInput n f k => AllocInput n f (fun r b => bind (k r b) g)
  | Enforce n a b c k => Enforce n a b c (bind k g)
  | EnforceEq n l r k => EnforceEq n l r (bind k g)
  | PushNs n k => PushNs n (bind k g)
  | PopNs k => PopNs (bind k g)
  end.

(** The [?] operator: continue on [Ok], return the error otherwise. *)
Definition bindq {A B} (p : prog (res A)) (g : A -> prog (res B)) : prog (res B) :=
  bind p (fun r => match r with Ok a => g a | Err e => Ret (Err e) end).

(** [cs.alloc(..)?], also telling whether the closure ran. *)
Definition cs_alloc (ann : string) (f : res P) : prog (res (Var * bool)) :=
  Alloc ann f (fun r b => Ret (match r with Ok v => Ok (v, b) | Err e => Err e end)).
Definition cs_alloc_input (ann : string) (f : res P) : prog (res (Var * bool)) :=
  AllocInput ann f (fun r b => Ret (match r with Ok v => Ok (v, b) | Err e => Err e end)).
Definition cs_enforce (ann : string) (a b c : LC) : prog unit := Enforce ann a b c (Ret tt).
Definition cs_enforce_equal (n : nat) (l r : LC) : prog unit := EnforceEq n l r (Ret tt).

(** src/lib.rs:426-436, 500-506: [cs.namespace(|| name)] pushes; dropping the [Namespace] pops.
    The namespace value is always passed by value into the callee [p], hence dropped when [p]
    returns, normally or through [?]. *)
Definition ns {A} (name : string) (p : prog A) : prog A :=
  PushNs name (bind p (fun x => PopNs (Ret x))).

(** ** Semantics of assignments *)
Definition eval (rho : Var -> P) (lc : LC) : P :=
  fold_right (fun t acc => snd t * rho (fst t) + acc) 0 lc.

Definition holds (rho : Var -> P) (c : Constraint) : Prop :=
  let '(a, b, d) := c in eval rho a * eval rho b = eval rho d.

Definition sat (rho : Var -> P) (cs : list Constraint) : Prop := Forall (holds rho) cs.

(** ** Any constraint system
    [emits p r cs eqs]: run against *some* constraint system (arbitrary replies to the
    allocations), [p] returns [r] after enforcing exactly the constraints [cs] and requesting the
    [MultiEq] equalities [eqs], in this order. *)
Definition EqReq : Type := nat * LC * LC.

Inductive emits {A} : prog A -> A -> list Constraint -> list EqReq -> Prop :=
| em_ret a : emits (Ret a) a [] []
| em_alloc n f k r b a cs es : emits (k r b) a cs es -> emits (Alloc n f k) a cs es
| em_alloc_input n f k r b a cs es : emits (k r b) a cs es -> emits (AllocInput n f k) a cs es
| em_enforce n x y z k a cs es : emits k a cs es -> emits (Enforce n x y z k) a ((x, y, z) :: cs) es
| em_enforce_eq n l r k a cs es : emits k a cs es -> emits (EnforceEq n l r k) a cs ((n, l, r) :: es)
| em_push n k a cs es : emits k a cs es -> emits (PushNs n k) a cs es
| em_pop k a cs es : emits k a cs es -> emits (PopNs k) a cs es.

(** ** Concrete constraint systems are machines interpreting programs. *)
Record Machine := {
  St : Type;
  m_alloc : St -> string -> res P -> outcome (St * res Var * bool);
  m_alloc_input : St -> string -> res P -> outcome (St * res Var * bool);
  m_enforce : St -> string -> LC -> LC -> LC -> outcome St;
  m_push : St -> string -> outcome St;
  m_pop : St -> outcome St
}.

(** A panic of the constraint system or of the gadget is final. [EnforceEq] outside a [MultiEq]
    does not type-check in Rust; it is a panic here. *)
Fixpoint run (M : Machine) {A} (p : prog A) (s : St M) : outcome (A * St M) :=
  match p with
  | Ret a => Done (a, s)
  | Panic => Panicked
  | Alloc n f k => obind (m_alloc M s n f) (fun x => run M (k (snd (fst x)) (snd x)) (fst (fst x)))
  | AllocInput n f k => obind (m_alloc_input M s n f) (fun x => run M (k (snd (fst x)) (snd x)) (fst (fst x)))
  | Enforce n a b c k => obind (m_enforce M s n a b c) (run M k)
  | EnforceEq _ _ _ _ => Panicked
  | PushNs n k => obind (m_push M s n) (run M k)
  | PopNs k => obind (m_pop M s) (run M k)
  end.

(** *** The prover's view: what any honest, value-evaluating constraint system records.
    (TestConstraintSystem and ProvingAssignment are proved to record the same.) *)
Record PState := { p_inputs : list P; p_aux : list P; p_cons : list Constraint }.

Definition prover_start : PState := {| p_inputs := [1]; p_aux := []; p_cons := [] |}.

Definition asg (s : PState) (v : Var) : P :=
  match v with Input i => nth i (p_inputs s) 0 | Aux i => nth i (p_aux s) 0 end.

Definition HonestCS : Machine := {|
  St := PState;
  m_alloc s _ f := Done (match f with
    | Ok x => ({| p_inputs := p_inputs s; p_aux := p_aux s ++ [x]; p_cons := p_cons s |},
               Ok (Aux (List.length (p_aux s))), true)
    | Err e => (s, Err e, true) end);
  m_alloc_input s _ f := Done (match f with
    | Ok x => ({| p_inputs := p_inputs s ++ [x]; p_aux := p_aux s; p_cons := p_cons s |},
               Ok (Input (List.length (p_inputs s))), true)
    | Err e => (s, Err e, true) end);
  m_enforce s _ a b c := Done {| p_inputs := p_inputs s; p_aux := p_aux s; p_cons := p_cons s ++ [(a, b, c)] |};
  m_push s _ := Done s;
  m_pop s := Done s
|}.

(** The same for a prover whose value closures must succeed. *)
Definition StrictCS : Machine := {|
  St := PState;
  m_alloc s n f := match f with Ok _ => m_alloc HonestCS s n f | Err _ => Panicked end;
  m_alloc_input s n f := match f with Ok _ => m_alloc_input HonestCS s n f | Err _ => Panicked end;
  m_enforce := m_enforce HonestCS;
  m_push := m_push HonestCS;
  m_pop := m_pop HonestCS
|}.

(** *** The key generator's view: value closures are never invoked. *)
Record KState := { k_inputs : nat; k_aux : nat; k_cons : list Constraint }.

Definition keygen_start : KState := {| k_inputs := 1; k_aux := 0; k_cons := [] |}.

Definition ShapeCS : Machine := {|
  St := KState;
  m_alloc s _ _ := Done ({| k_inputs := k_inputs s; k_aux := S (k_aux s); k_cons := k_cons s |},
                         Ok (Aux (k_aux s)), false);
  m_alloc_input s _ _ := Done ({| k_inputs := S (k_inputs s); k_aux := k_aux s; k_cons := k_cons s |},
                         Ok (Input (k_inputs s)), false);
  m_enforce s _ a b c := Done {| k_inputs := k_inputs s; k_aux := k_aux s; k_cons := k_cons s ++ [(a, b, c)] |};
  m_push s _ := Done s;
  m_pop s := Done s
|}.

Definition shape_of (s : PState) : KState :=
  {| k_inputs := List.length (p_inputs s); k_aux := List.length (p_aux s); k_cons := p_cons s |}.

(** ** Evaluation lemmas (C01) *)
Add Field PFfield_circ : (F_field P).

Section Eval.
Variable rho : Var -> P.

Lemma eval_nil : eval rho [] = 0. Proof. reflexivity. Qed.
Lemma eval_cons v c l : eval rho ((v, c) :: l) = c * rho v + eval rho l. Proof. reflexivity. Qed.
Lemma eval_app l1 l2 : eval rho (l1 ++ l2) = eval rho l1 + eval rho l2.
Proof.
  induction l1 as [|[v c] t IH]; cbn [app]; [rewrite eval_nil; ring|].
  rewrite !eval_cons, IH. ring.
Qed.
Lemma eval_zero : eval rho lc_zero = 0. Proof. reflexivity. Qed.
Lemma eval_add_term lc c v : eval rho (lc_add_term lc c v) = eval rho lc + c * rho v.
Proof. unfold lc_add_term. rewrite eval_app, eval_cons, eval_nil. ring. Qed.
Lemma eval_sub_term lc c v : eval rho (lc_sub_term lc c v) = eval rho lc - c * rho v.
Proof. unfold lc_sub_term. rewrite eval_add_term. ring. Qed.
Lemma eval_add_var lc v : eval rho (lc_add_var lc v) = eval rho lc + rho v.
Proof. unfold lc_add_var. rewrite eval_add_term. ring. Qed.
Lemma eval_sub_var lc v : eval rho (lc_sub_var lc v) = eval rho lc - rho v.
Proof. unfold lc_sub_var. rewrite eval_sub_term. ring. Qed.
Lemma eval_add_lc o : forall lc, eval rho (lc_add_lc lc o) = eval rho lc + eval rho o.
Proof.
  unfold lc_add_lc. induction o as [|[v c] t IH]; intros lc; cbn [fold_left]; [rewrite eval_nil; ring|].
  rewrite IH. cbn [fst snd]. rewrite eval_add_term, eval_cons. ring.
Qed.
Lemma eval_sub_lc o : forall lc, eval rho (lc_sub_lc lc o) = eval rho lc - eval rho o.
Proof.
  unfold lc_sub_lc. induction o as [|[v c] t IH]; intros lc; cbn [fold_left]; [rewrite eval_nil; ring|].
  rewrite IH. cbn [fst snd]. rewrite eval_sub_term, eval_cons. ring.
Qed.
Lemma eval_add_scaled c o : forall lc, eval rho (lc_add_scaled lc c o) = eval rho lc + c * eval rho o.
Proof.
  unfold lc_add_scaled. induction o as [|[v d] t IH]; intros lc; cbn [fold_left]; [rewrite eval_nil; ring|].
  rewrite IH. cbn [fst snd]. rewrite eval_add_term, eval_cons. ring.
Qed.
Lemma eval_sub_scaled c o : forall lc, eval rho (lc_sub_scaled lc c o) = eval rho lc - c * eval rho o.
Proof.
  unfold lc_sub_scaled. induction o as [|[v d] t IH]; intros lc; cbn [fold_left]; [rewrite eval_nil; ring|].
  rewrite IH. cbn [fst snd]. rewrite eval_sub_term, eval_cons. ring.
Qed.
End Eval.

(** ** Reasoning principles *)

Lemma sat_app rho c1 c2 : sat rho (c1 ++ c2) <-> sat rho c1 /\ sat rho c2.
Proof. apply Forall_app. Qed.

(** [z] below [2^n] represents the value of [l]. *)
Definition bounded (rho : Var -> P) (n : nat) (l : LC) : Prop :=
  exists z, (0 <= z < 2 ^ Z.of_nat n)%Z /\ eval rho l = ofZ z.

(** Soundness: whatever the constraint system replies, if [rho] satisfies what is enforced then
    the result satisfies [Q].  [G] stands for "the deferred MultiEq equalities hold". *)
Fixpoint wpS (rho : Var -> P) (G : Prop) {A} (p : prog A) (Q : A -> Prop) : Prop :=
  match p with
  | Ret a => Q a
  | Panic => True
  | Alloc _ _ k | AllocInput _ _ k => forall r b, wpS rho G (k r b) Q
  | Enforce _ a b c k => eval rho a * eval rho b = eval rho c -> wpS rho G k Q
  | EnforceEq n l r k => bounded rho n l /\ bounded rho n r /\
                         ((G -> eval rho l = eval rho r) -> wpS rho G k Q)
  | PushNs _ k | PopNs k => wpS rho G k Q
  end.

(** Completeness: [rho] is the final honest assignment; every value closure that runs returns a
    value, which [rho] gives to the new variable; every enforced constraint holds; no panic. *)
Fixpoint wpC (rho : Var -> P) {A} (p : prog A) (Q : A -> Prop) : Prop :=
  match p with
  | Ret a => Q a
  | Panic => False
  | Alloc _ f k | AllocInput _ f k =>
      match f with
      | Ok x => forall v, rho v = x -> wpC rho (k (Ok v) true) Q
      | Err e => False
      end
  | Enforce _ a b c k => eval rho a * eval rho b = eval rho c /\ wpC rho k Q
  | EnforceEq n l r k => eval rho l = eval rho r /\ (n < capacity P)%nat /\ wpC rho k Q
  | PushNs _ k | PopNs k => wpC rho k Q
  end.

(** Same structure: [p] run by the key generator (closures not invoked) and [q] run by the prover
    (closures invoked) perform the same calls, as long as the prover's closures succeed. *)
Fixpoint sim {A B} (p : prog A) (q : prog B) (R : A -> B -> Prop) : Prop :=
  match p, q with
  | Ret a, Ret b => R a b
  | Panic, Panic => True
  | Alloc n1 _ k1, Alloc n2 f2 k2 | AllocInput n1 _ k1, AllocInput n2 f2 k2 =>
      n1 = n2 /\ forall v, match f2 with
                           | Ok _ => sim (k1 (Ok v) false) (k2 (Ok v) true) R
                           | Err _ => True
                           end
  | Enforce n1 a1 b1 c1 k1, Enforce n2 a2 b2 c2 k2 =>
      n1 = n2 /\ a1 = a2 /\ b1 = b2 /\ c1 = c2 /\ sim k1 k2 R
  | EnforceEq n1 l1 r1 k1, EnforceEq n2 l2 r2 k2 => n1 = n2 /\ l1 = l2 /\ r1 = r2 /\ sim k1 k2 R
  | PushNs n1 k1, PushNs n2 k2 => n1 = n2 /\ sim k1 k2 R
  | PopNs k1, PopNs k2 => sim k1 k2 R
  | _, _ => False
  end.

(** Namespaces: depth of the stack relative to the start; never below the start. *)
Fixpoint ns_ok {A} (d : nat) (p : prog A) : Prop :=
  match p with
  | Ret _ => d = O
  | Panic => True
  | Alloc _ _ k | AllocInput _ _ k => forall r b, ns_ok d (k r b)
  | Enforce _ _ _ _ k | EnforceEq _ _ _ k => ns_ok d k
  | PushNs _ k => ns_ok (S d) k
  | PopNs k => match d with O => False | S d' => ns_ok d' k end
  end.

(** *** wpS *)
Section S.
Variables (rho : Var -> P) (G : Prop).

Lemma wpS_bind {A B} (p : prog A) (g : A -> prog B) Q :
  wpS rho G (bind p g) Q <-> wpS rho G p (fun a => wpS rho G (g a) Q).
Proof.
  induction p as [a| |n f k IH|n f k IH|n a b c k IH|n l r k IH|n k IH|k IH]; cbn; try tauto.
  - split; intros H r b; now apply IH.
  - split; intros H r b; now apply IH.
Qed.

Lemma wpS_mono {A} (p : prog A) (Q Q' : A -> Prop) :
  (forall a, Q a -> Q' a) -> wpS rho G p Q -> wpS rho G p Q'.
Proof.
  intros HQ. induction p as [a| |n f k IH|n f k IH|n a b c k IH|n l r k IH|n k IH|k IH]; cbn; auto.
  intros (H1 & H2 & H3). auto.
Qed.

Lemma wpS_bindq {A B} (p : prog (res A)) (g : A -> prog (res B)) Q :
  wpS rho G p (okP (fun a => wpS rho G (g a) (okP Q))) -> wpS rho G (bindq p g) (okP Q).
Proof.
  intros H. unfold bindq. apply wpS_bind. eapply wpS_mono; [|exact H].
  intros [a|e] Ha; cbn in *; auto.
Qed.

Lemma wpS_ns {A} name (p : prog A) Q : wpS rho G p Q -> wpS rho G (ns name p) Q.
Proof.
  intros H. cbn. apply wpS_bind. eapply wpS_mono; [|exact H]. auto.
Qed.

End S.

Lemma wpS_emits rho {A} (p : prog A) Q r cs :
  wpS rho True p Q -> emits p r cs [] -> sat rho cs -> Q r.
Proof.
  intros H Hem. remember [] as es eqn:He. revert H.
  induction Hem; cbn; intros H Hs; try discriminate; auto.
  - inversion Hs; subst; auto.
Qed.

Lemma emits_bind {A B} (p : prog A) (g : A -> prog B) r cs es :
  emits (bind p g) r cs es <->
  exists a cs1 es1 cs2 es2, emits p a cs1 es1 /\ emits (g a) r cs2 es2 /\ cs = cs1 ++ cs2 /\ es = es1 ++ es2.
Proof.
  split.
  - revert cs es. induction p as [a| |n f k IH|n f k IH|n a b c k IH|n l rr k IH|n k IH|k IH];
      cbn; intros cs es H.
    + exists a, [], [], cs, es. repeat split; auto. constructor.
    + inversion H.
    + inversion H; subst. match goal with HH : emits (bind (k _ _) g) _ _ _ |- _ => apply IH in HH as (a & cs1 & es1 & cs2 & es2 & H1 & H2 & -> & ->) end.
      exists a, cs1, es1, cs2, es2. repeat split; auto. econstructor; eauto.
    + inversion H; subst. match goal with HH : emits (bind (k _ _) g) _ _ _ |- _ => apply IH in HH as (a & cs1 & es1 & cs2 & es2 & H1 & H2 & -> & ->) end.
      exists a, cs1, es1, cs2, es2. repeat split; auto. econstructor; eauto.
    + inversion H; subst.
      match goal with HH : emits (bind k g) _ _ _ |- _ => apply IH in HH as (x & cs1 & es1 & cs2 & es2 & H1 & H2 & -> & ->) end.
      exists x, ((a, b, c) :: cs1), es1, cs2, es2. repeat split; auto. constructor; auto.
    + inversion H; subst.
      match goal with HH : emits (bind k g) _ _ _ |- _ => apply IH in HH as (x & cs1 & es1 & cs2 & es2 & H1 & H2 & -> & ->) end.
      exists x, cs1, ((n, l, rr) :: es1), cs2, es2. repeat split; auto. constructor; auto.
    + inversion H; subst.
      match goal with HH : emits (bind k g) _ _ _ |- _ => apply IH in HH as (x & cs1 & es1 & cs2 & es2 & H1 & H2 & -> & ->) end.
      exists x, cs1, es1, cs2, es2. repeat split; auto. constructor; auto.
    + inversion H; subst.
      match goal with HH : emits (bind k g) _ _ _ |- _ => apply IH in HH as (x & cs1 & es1 & cs2 & es2 & H1 & H2 & -> & ->) end.
      exists x, cs1, es1, cs2, es2. repeat split; auto. constructor; auto.
  - intros (a & cs1 & es1 & cs2 & es2 & H1 & H2 & -> & ->).
    induction H1; cbn; auto; try (econstructor; eauto; fail).
Qed.

(** *** wpC *)
Section C.
Variable rho : Var -> P.

Lemma wpC_bind {A B} (p : prog A) (g : A -> prog B) Q :
  wpC rho (bind p g) Q <-> wpC rho p (fun a => wpC rho (g a) Q).
Proof.
  induction p as [a| |n f k IH|n f k IH|n a b c k IH|n l r k IH|n k IH|k IH]; cbn; try tauto.
  - destruct f; [|tauto]. split; intros H v Hv; apply IH; auto.
  - destruct f; [|tauto]. split; intros H v Hv; apply IH; auto.
Qed.

Lemma wpC_mono {A} (p : prog A) (Q Q' : A -> Prop) :
  (forall a, Q a -> Q' a) -> wpC rho p Q -> wpC rho p Q'.
Proof.
  intros HQ. induction p as [a| |n f k IH|n f k IH|n a b c k IH|n l r k IH|n k IH|k IH]; cbn; auto.
  - destruct f; auto.
  - destruct f; auto.
  - tauto.
  - tauto.
Qed.

Lemma wpC_bindq {A B} (p : prog (res A)) (g : A -> prog (res B)) Q :
  wpC rho p (isOk (fun a => wpC rho (g a) (isOk Q))) -> wpC rho (bindq p g) (isOk Q).
Proof.
  intros H. unfold bindq. apply wpC_bind. eapply wpC_mono; [|exact H].
  intros [a|e] Ha; cbn in *; tauto.
Qed.

Lemma wpC_ns {A} name (p : prog A) Q : wpC rho p Q -> wpC rho (ns name p) Q.
Proof.
  intros H. cbn. apply wpC_bind. eapply wpC_mono; [|exact H]. auto.
Qed.
End C.

(** The honest prover only ever appends. *)
Definition extends (s s' : PState) : Prop :=
  (exists l, p_inputs s' = p_inputs s ++ l) /\
  (exists l, p_aux s' = p_aux s ++ l) /\
  (exists l, p_cons s' = p_cons s ++ l).

Lemma extends_refl s : extends s s.
Proof. repeat split; exists []; now rewrite app_nil_r. Qed.

Lemma extends_trans s1 s2 s3 : extends s1 s2 -> extends s2 s3 -> extends s1 s3.
Proof.
  intros ([a Ha] & [b Hb] & [c Hc]) ([a' Ha'] & [b' Hb'] & [c' Hc']).
  repeat split.
  - exists (a ++ a'). now rewrite Ha', Ha, app_assoc.
  - exists (b ++ b'). now rewrite Hb', Hb, app_assoc.
  - exists (c ++ c'). now rewrite Hc', Hc, app_assoc.
Qed.

Lemma honest_extends {A} (p : prog A) : forall s a s',
  run HonestCS p s = Done (a, s') -> extends s s'.
Proof.
  induction p as [a0| |n f k IH|n f k IH|n x y z k IH|n l r k IH|n k IH|k IH]; cbn; intros s a s' H;
    try discriminate.
  - inversion H; subst. apply extends_refl.
  - destruct f as [x|e]; cbn in H; apply IH in H; auto.
    eapply extends_trans; [|exact H].
    repeat split; cbn; [exists []|exists [x]|exists []]; now rewrite ?app_nil_r.
  - destruct f as [x|e]; cbn in H; apply IH in H; auto.
    eapply extends_trans; [|exact H].
    repeat split; cbn; [exists [x]|exists []|exists []]; now rewrite ?app_nil_r.
  - apply IH in H. eapply extends_trans; [|exact H].
    repeat split; cbn; [exists []|exists []|exists [(x, y, z)]]; now rewrite ?app_nil_r.
  - now apply IH in H.
  - now apply IH in H.
Qed.

Lemma strict_honest {A} (p : prog A) : forall s a s',
  run StrictCS p s = Done (a, s') -> run HonestCS p s = Done (a, s').
Proof.
  induction p as [a0| |n f k IH|n f k IH|n x y z k IH|n l r k IH|n k IH|k IH]; cbn; intros s a s' H; auto.
  - destruct f; cbn in *; [auto|discriminate].
  - destruct f; cbn in *; [auto|discriminate].
Qed.

(** [v] has been allocated in [s]; [rho] gives every allocated variable its recorded value. *)
Definition known (s : PState) (v : Var) : Prop :=
  match v with
  | Input i => (i < List.length (p_inputs s))%nat
  | Aux i => (i < List.length (p_aux s))%nat
  end.
Definition agrees (rho : Var -> P) (s : PState) : Prop := forall v, known s v -> rho v = asg s v.

Lemma asg_extends s s' v : extends s s' -> known s v -> asg s' v = asg s v.
Proof.
  intros ([a Ha] & [b Hb] & _) Hv. destruct v; cbn in *; [rewrite Ha | rewrite Hb]; now apply app_nth1.
Qed.

Lemma known_extends s s' v : extends s s' -> known s v -> known s' v.
Proof.
  intros ([a Ha] & [b Hb] & _) Hv. destruct v; cbn in *; [rewrite Ha | rewrite Hb]; rewrite app_length; lia.
Qed.

Lemma agrees_extends rho s s' : extends s s' -> agrees rho s' -> agrees rho s.
Proof.
  intros He H v Hv. rewrite H by eauto using known_extends. now apply asg_extends.
Qed.

Lemma agrees_asg s : agrees (asg s) s.
Proof. intros v _. reflexivity. Qed.

(** Adequacy of [wpC]: the honest run does not panic, and its final assignment satisfies
    everything that was enforced. *)
Fixpoint noeq {A} (p : prog A) : Prop :=
  match p with
  | Ret _ | Panic => True
  | Alloc _ _ k | AllocInput _ _ k => forall r b, noeq (k r b)
  | Enforce _ _ _ _ k | PushNs _ k | PopNs k => noeq k
  | EnforceEq _ _ _ _ => False
  end.

Lemma extends_aux s x : extends s {| p_inputs := p_inputs s; p_aux := p_aux s ++ [x]; p_cons := p_cons s |}.
Proof. repeat split; cbn; [exists []|exists [x]|exists []]; now rewrite ?app_nil_r. Qed.
Lemma extends_input s x : extends s {| p_inputs := p_inputs s ++ [x]; p_aux := p_aux s; p_cons := p_cons s |}.
Proof. repeat split; cbn; [exists [x]|exists []|exists []]; now rewrite ?app_nil_r. Qed.

Lemma wpC_honest {A} (p : prog A) rho Q : forall s s' a, run HonestCS p s = Done (a, s') ->
  agrees rho s' -> wpC rho p Q ->
  Q a /\ exists cs, p_cons s' = p_cons s ++ cs /\ sat rho cs.
Proof.
  induction p as [a0| |n f k IH|n f k IH|n x y z k IH|n l r k IH|n k IH|k IH]; cbn; intros s s' a H Hag HC;
    try discriminate; try tauto.
  - inversion H; subst. split; auto. exists []. rewrite app_nil_r. split; auto. constructor.
  - destruct f as [x|e]; cbn in H; [|tauto].
    pose proof (agrees_extends _ _ _ (honest_extends _ _ _ _ H) Hag) as He.
    apply IH with (1 := H); auto. apply HC.
    rewrite He; cbn.
    + rewrite app_nth2, Nat.sub_diag; [reflexivity|lia].
    + rewrite app_length; cbn; lia.
  - destruct f as [x|e]; cbn in H; [|tauto].
    pose proof (agrees_extends _ _ _ (honest_extends _ _ _ _ H) Hag) as He.
    apply IH with (1 := H); auto. apply HC.
    rewrite He; cbn.
    + rewrite app_nth2, Nat.sub_diag; [reflexivity|lia].
    + rewrite app_length; cbn; lia.
  - destruct HC as [HC1 HC2]. destruct (IH _ _ _ H Hag HC2) as (HQ & cs & Hcs & Hsat).
    split; auto. exists ((x, y, z) :: cs). cbn in Hcs. rewrite Hcs, <- app_assoc. split; auto.
    constructor; auto.
  - apply IH with (1 := H); auto.
  - apply IH with (1 := H); auto.
Qed.

(** Existence of the honest run, for programs whose completeness is known under every
    assignment that extends the current one. *)
Lemma wpC_run {A} (p : prog A) (Q : (Var -> P) -> A -> Prop) : noeq p -> forall s,
  (forall rho, agrees rho s -> wpC rho p (Q rho)) ->
  exists a s', run StrictCS p s = Done (a, s').
Proof.
  induction p as [a0| |n f k IH|n f k IH|n x y z k IH|n l r k IH|n k IH|k IH]; cbn; intros Hn s H; auto.
  - eauto.
  - exfalso. apply (H (asg s)). apply agrees_asg.
  - destruct f as [x|e]; cbn.
    + apply IH; auto. intros rho Hr.
      apply H; [eapply agrees_extends; [apply extends_aux|exact Hr]|].
      rewrite Hr; cbn; rewrite ?app_length; cbn; [|lia]. rewrite app_nth2, Nat.sub_diag; auto.
    + exfalso. apply (H (asg s)). apply agrees_asg.
  - destruct f as [x|e]; cbn.
    + apply IH; auto. intros rho Hr.
      apply H; [eapply agrees_extends; [apply extends_input|exact Hr]|].
      rewrite Hr; cbn; rewrite ?app_length; cbn; [|lia]. rewrite app_nth2, Nat.sub_diag; auto.
    + exfalso. apply (H (asg s)). apply agrees_asg.
  - apply IH; auto. intros rho Hr. apply H. exact Hr.
  - destruct Hn.
Qed.

Lemma complete_run {A} (p : prog (res A)) (Q : (Var -> P) -> A -> Prop) s : noeq p ->
  (forall rho, agrees rho s -> wpC rho p (isOk (Q rho))) ->
  exists r s' cs, run StrictCS p s = Done (Ok r, s') /\ p_cons s' = p_cons s ++ cs /\
    extends s s' /\ forall rho, agrees rho s' -> sat rho cs /\ Q rho r.
Proof.
  intros Hn H. destruct (wpC_run p (fun rho => isOk (Q rho)) Hn s H) as (r & s' & Hr).
  pose proof (strict_honest _ _ _ _ Hr) as Hh. pose proof (honest_extends _ _ _ _ Hh) as He.
  assert (K : forall rho, agrees rho s' -> isOk (Q rho) r /\ exists cs, p_cons s' = p_cons s ++ cs /\ sat rho cs).
  { intros rho Hag. eapply wpC_honest; eauto. apply H. eapply agrees_extends; eauto. }
  destruct (K (asg s') (agrees_asg s')) as (Hq & cs & Hcs & _).
  destruct r as [a|e]; cbn in Hq; [|tauto].
  exists a, s', cs. repeat (split; [assumption|]). intros rho Hag.
  destruct (K rho Hag) as (HQ & cs' & Hcs' & Hs). rewrite Hcs in Hcs'. apply app_inv_head in Hcs'. subst cs'. auto.
Qed.

Lemma noeq_bind {A B} (p : prog A) (g : A -> prog B) : noeq p -> (forall a, noeq (g a)) -> noeq (bind p g).
Proof.
  intros H Hg. induction p; cbn in *; auto.
Qed.

Lemma noeq_bindq {A B} (p : prog (res A)) (g : A -> prog (res B)) :
  noeq p -> (forall a, noeq (g a)) -> noeq (bindq p g).
Proof.
  intros H Hg. apply noeq_bind; auto. intros [a|e]; cbn; auto.
Qed.

Lemma noeq_ns {A} n (p : prog A) : noeq p -> noeq (ns n p).
Proof. intros H. cbn. apply noeq_bind; cbn; auto. Qed.

(** *** Namespaces *)
Lemma ns_ok_bind {A B} (p : prog A) (g : A -> prog B) : forall d1 d2,
  ns_ok d1 p -> (forall a, ns_ok d2 (g a)) -> ns_ok (d1 + d2) (bind p g).
Proof.
  induction p as [a| |n f k IH|n f k IH|n a b c k IH|n l r k IH|n k IH|k IH]; cbn; intros d1 d2 H Hg; auto.
  - subst. auto.
  - apply (IH (S d1)); auto.
  - destruct d1; [tauto|]. cbn. auto.
Qed.

Lemma ns_ok_bind0 {A B} (p : prog A) (g : A -> prog B) :
  ns_ok 0 p -> (forall a, ns_ok 0 (g a)) -> ns_ok 0 (bind p g).
Proof. apply (ns_ok_bind p g 0 0). Qed.

Lemma ns_ok_bindq {A B} (p : prog (res A)) (g : A -> prog (res B)) :
  ns_ok 0 p -> (forall a, ns_ok 0 (g a)) -> ns_ok 0 (bindq p g).
Proof.
  intros H Hg. apply ns_ok_bind0; auto. intros [a|e]; cbn; auto.
Qed.

Lemma ns_ok_ns {A} n (p : prog A) : ns_ok 0 p -> ns_ok 0 (ns n p).
Proof.
  intros H. cbn. apply (ns_ok_bind p _ 0 1); auto. intros a. cbn. reflexivity.
Qed.

(** *** sim *)
Lemma sim_bind {A A' B B'} (p : prog A) (q : prog A') (g : A -> prog B) (h : A' -> prog B') (R : A -> A' -> Prop) (R' : B -> B' -> Prop) :
  sim p q R -> (forall a a', R a a' -> sim (g a) (h a') R') -> sim (bind p g) (bind q h) R'.
Proof.
  intros H Hg. revert q H.
  induction p as [a| |n f k IH|n f k IH|n a b c k IH|n l r k IH|n k IH|k IH]; intros q H;
    destruct q; cbn in *; auto; try tauto.
  - destruct H as [Hn H]. split; auto. intros v. specialize (H v). destruct f0; auto.
  - destruct H as [Hn H]. split; auto. intros v. specialize (H v). destruct f0; auto.
  - destruct H as (? & ? & ? & ? & ?). repeat split; auto.
  - destruct H as (? & ? & ? & ?). repeat split; auto.
  - destruct H; split; auto.
Qed.

Lemma sim_mono {A B} (p : prog A) (q : prog B) (R R' : A -> B -> Prop) :
  (forall a b, R a b -> R' a b) -> sim p q R -> sim p q R'.
Proof.
  intros HR. revert q.
  induction p as [a| |n f k IH|n f k IH|n a b c k IH|n l r k IH|n k IH|k IH]; intros q H;
    destruct q; cbn in *; auto; try tauto.
  - destruct H as [Hn H]. split; auto. intros v. specialize (H v). destruct f0; auto.
  - destruct H as [Hn H]. split; auto. intros v. specialize (H v). destruct f0; auto.
  - destruct H as (? & ? & ? & ? & ?). repeat split; auto.
  - destruct H as (? & ? & ? & ?). repeat split; auto.
  - destruct H; split; auto.
Qed.

(** Results related when both succeed. *)
Definition resR {A B} (R : A -> B -> Prop) (x : res A) (y : res B) : Prop :=
  match x, y with
  | Ok a, Ok b => R a b
  | Err e, Err e' => e = e'
  | _, _ => False
  end.

Lemma sim_bindq {A A' B B'} (p : prog (res A)) (q : prog (res A')) (g : A -> prog (res B)) (h : A' -> prog (res B'))
  (R : A -> A' -> Prop) (R' : B -> B' -> Prop) :
  sim p q (resR R) -> (forall a a', R a a' -> sim (g a) (h a') (resR R')) ->
  sim (bindq p g) (bindq q h) (resR R').
Proof.
  intros H Hg. unfold bindq. eapply sim_bind; [exact H|].
  intros [a|e] [a'|e'] HR; cbn in *; try tauto; auto.
Qed.

Lemma sim_ns {A B} n (p : prog A) (q : prog B) R : sim p q R -> sim (ns n p) (ns n q) R.
Proof.
  intros H. cbn. split; auto. eapply sim_bind; [exact H|]. cbn. auto.
Qed.

(** Adequacy of [sim]: the key generator and a prover whose value closures all succeed record the
    same shape. *)
Lemma sim_shape {A B} (p : prog A) (q : prog B) R : sim p q R -> forall s b s',
  run StrictCS q s = Done (b, s') ->
  exists a, run ShapeCS p (shape_of s) = Done (a, shape_of s') /\ R a b.
Proof.
  intros H. revert q H.
  induction p as [a| |n f k IH|n f k IH|n x y z k IH|n l r k IH|n k IH|k IH]; intros q H s b' s' Hr;
    destruct q; cbn in *; try discriminate; try tauto.
  - inversion Hr; subst. eauto.
  - destruct f0 as [x|e]; cbn in *; [|discriminate].
    destruct H as [_ H]. apply (IH _ _ _ (H _) _ _ _) in Hr as (a & Ha & HR).
    exists a. split; auto. rewrite <- Ha. f_equal. unfold shape_of; cbn.
    rewrite app_length; cbn. f_equal. lia.
  - destruct f0 as [x|e]; cbn in *; [|discriminate].
    destruct H as [_ H]. apply (IH _ _ _ (H _) _ _ _) in Hr as (a & Ha & HR).
    exists a. split; auto. rewrite <- Ha. f_equal. unfold shape_of; cbn.
    rewrite app_length; cbn. f_equal. lia.
  - destruct H as (_ & -> & -> & -> & H). apply (IH _ H _ _ _) in Hr. exact Hr.
  - destruct H as [_ H]. apply (IH _ H _ _ _) in Hr. exact Hr.
  - apply (IH _ H _ _ _) in Hr. exact Hr.
Qed.

End Prog.

Arguments Ret {P A}. Arguments Panic {P A}. Arguments Alloc {P A}. Arguments AllocInput {P A}.
Arguments Enforce {P A}. Arguments EnforceEq {P A}. Arguments PushNs {P A}. Arguments PopNs {P A}.
Arguments LC P : clear implicits.
Arguments Constraint P : clear implicits.
Arguments EqReq P : clear implicits.
Arguments prog P A : clear implicits.
Arguments Machine P : clear implicits.
Arguments PState P : clear implicits.
Arguments KState P : clear implicits.
Arguments HonestCS P : clear implicits.
Arguments ShapeCS P : clear implicits.

Declare Scope prog_scope.
Delimit Scope prog_scope with prog.
Notation "x <- p ;; k" := (bind p (fun x => k)) (at level 61, p at next level, right associativity) : prog_scope.
Notation "'let*' x := p 'in' k" := (bindq p (fun x => k)) (at level 61, x pattern, p at next level, right associativity) : prog_scope.
Notation "p ;;; k" := (bind p (fun _ => k)) (at level 61, right associativity) : prog_scope.
