(** Loops over constraint-system programs, and which errors they let through. *)
From Coq Require Import String.
From Coq Require Import ZArith List Bool Lia.
From Verif Require Import Prelude PrimeField Circuit.
Import ListNotations.

Declare Scope lc_scope.
Delimit Scope lc_scope with lc.
Notation "l '+v' v" := (lc_add_var l v) (at level 50, left associativity) : lc_scope.
Notation "l '-v' v" := (lc_sub_var l v) (at level 50, left associativity) : lc_scope.
Notation "l '+l' m" := (lc_add_lc l m) (at level 50, left associativity) : lc_scope.
Notation "l '-l' m" := (lc_sub_lc l m) (at level 50, left associativity) : lc_scope.
Notation "l '+t' ( c , v )" := (lc_add_term l c v) (at level 50, left associativity) : lc_scope.
Notation "l '-t' ( c , v )" := (lc_sub_term l c v) (at level 50, left associativity) : lc_scope.
Notation "l '+s' ( c , m )" := (lc_add_scaled l c m) (at level 50, left associativity) : lc_scope.
Notation "l '-s' ( c , m )" := (lc_sub_scaled l c m) (at level 50, left associativity) : lc_scope.

Section Loops.
Context {P : PrimeField}.
Local Open Scope prog_scope.

(** [iter.enumerate().map(|(i, x)| f(i, x)).collect::<Result<Vec<_>, _>>()]: in order, stopping at
    the first error. *)
Fixpoint mapq {A B} (f : nat -> A -> prog P (res B)) (i : nat) (l : list A) : prog P (res (list B)) :=
  match l with
  | [] => Ret (Ok [])
  | x :: t => let* y := f i x in let* ys := mapq f (S i) t in Ret (Ok (y :: ys))
  end.

(** [for (i, x) in iter.enumerate() { .. }] with loop state [s] and [?] inside. *)
Fixpoint foldq {S A} (f : nat -> S -> A -> prog P (res S)) (i : nat) (s : S) (l : list A) : prog P (res S) :=
  match l with
  | [] => Ret (Ok s)
  | x :: t => let* s' := f i s x in foldq f (Datatypes.S i) s' t
  end.

(** Value recorded by a closure [|| { let v = ..?; value = Some(v); Ok(v) }], given whether the
    constraint system invoked it. *)
Definition recorded {A} (invoked : bool) (f : res A) : option A :=
  if invoked then match f with Ok x => Some x | Err _ => None end else None.

Section S.
Variables (rho : Var -> P) (G : Prop).

Lemma wpS_mapq {A B} (f : nat -> A -> prog P (res B)) (Q : nat -> A -> B -> Prop) l : forall i,
  (forall j x, nth_error l j = Some x -> wpS rho G (f (i + j)%nat x) (okP (Q (i + j)%nat x))) ->
  wpS rho G (mapq f i l) (okP (fun ys => length ys = length l /\
     forall j x y, nth_error l j = Some x -> nth_error ys j = Some y -> Q (i + j)%nat x y)).
Proof.
  induction l as [|x t IH]; intros i H; cbn [mapq].
  - cbn. split; auto. intros [|j] ? ?; discriminate.
  - apply wpS_bindq. eapply wpS_mono; [|generalize (H 0%nat x eq_refl); rewrite Nat.add_0_r; intros HH; exact HH].
    intros [y|e] Hy; cbn in Hy |- *; auto. apply wpS_bindq.
    eapply wpS_mono; [|apply IH].
    + intros [ys|e] Hys; cbn in Hys |- *; auto. destruct Hys as [Hl Hq]. split; [congruence|].
      intros [|j] x' y' Hx Hy'; cbn in *.
      * inversion Hx; inversion Hy'; subst. now rewrite Nat.add_0_r.
      * replace (i + S j)%nat with (S i + j)%nat by lia. eapply Hq; eauto.
    + intros j x' Hx. replace (S i + j)%nat with (i + S j)%nat by lia. now apply H.
Qed.

Lemma wpS_mapq2 {A B C} (f : nat -> A -> prog P (res B)) (Q : C -> B -> Prop) (I : A -> C -> Prop) l m : forall i,
  Forall2 I l m ->
  (forall j x c, I x c -> wpS rho G (f j x) (okP (Q c))) ->
  wpS rho G (mapq f i l) (okP (fun ys => Forall2 Q m ys)).
Proof.
  intros i HF H. revert i. induction HF as [|x c l m Hx HF IH]; intros i; cbn [mapq].
  - cbn. constructor.
  - apply wpS_bindq. eapply wpS_mono; [|apply H; exact Hx].
    intros [y|e] Hy; cbn in Hy |- *; auto. apply wpS_bindq.
    eapply wpS_mono; [|apply IH].
    intros [ys|e] Hys; cbn in Hys |- *; auto.
Qed.

Lemma wpS_foldq {S A} (f : nat -> S -> A -> prog P (res S)) (I : nat -> S -> Prop) l : forall i s,
  I i s ->
  (forall j x s, nth_error l j = Some x -> I (i + j)%nat s -> wpS rho G (f (i + j)%nat s x) (okP (I (Datatypes.S (i + j))))) ->
  wpS rho G (foldq f i s l) (okP (I (i + length l)%nat)).
Proof.
  induction l as [|x t IH]; intros i s Hs H; cbn [foldq length].
  - cbn. now rewrite Nat.add_0_r.
  - apply wpS_bindq. specialize (H 0%nat x s eq_refl) as H0. rewrite Nat.add_0_r in H0.
    eapply wpS_mono; [|apply H0; auto].
    intros [s'|e] Hs'; cbn in Hs' |- *; auto.
    replace (i + Datatypes.S (length t))%nat with (Datatypes.S i + length t)%nat by lia.
    apply IH; auto. intros j y s2 Hy HI.
    replace (Datatypes.S i + j)%nat with (i + Datatypes.S j)%nat in * by lia. auto.
Qed.
End S.

Section C.
Variable rho : Var -> P.

Lemma wpC_mapq2 {A B C} (f : nat -> A -> prog P (res B)) (Q : C -> B -> Prop) (I : A -> C -> Prop) l m : forall i,
  Forall2 I l m ->
  (forall j x c, I x c -> wpC rho (f j x) (isOk (Q c))) ->
  wpC rho (mapq f i l) (isOk (fun ys => Forall2 Q m ys)).
Proof.
  intros i HF H. revert i. induction HF as [|x c l m Hx HF IH]; intros i; cbn [mapq].
  - cbn. constructor.
  - apply wpC_bindq. eapply wpC_mono; [|apply H; exact Hx].
    intros [y|e] Hy; cbn in Hy |- *; auto. apply wpC_bindq.
    eapply wpC_mono; [|apply IH].
    intros [ys|e] Hys; cbn in Hys |- *; auto.
Qed.

Lemma wpC_foldq {S A} (f : nat -> S -> A -> prog P (res S)) (I : nat -> S -> Prop) l : forall i s,
  I i s ->
  (forall j x s, nth_error l j = Some x -> I (i + j)%nat s -> wpC rho (f (i + j)%nat s x) (isOk (I (Datatypes.S (i + j))))) ->
  wpC rho (foldq f i s l) (isOk (I (i + length l)%nat)).
Proof.
  induction l as [|x t IH]; intros i s Hs H; cbn [foldq length].
  - cbn. now rewrite Nat.add_0_r.
  - apply wpC_bindq. specialize (H 0%nat x s eq_refl) as H0. rewrite Nat.add_0_r in H0.
    eapply wpC_mono; [|apply H0; auto].
    intros [s'|e] Hs'; cbn in Hs' |- *; auto.
    replace (i + Datatypes.S (length t))%nat with (Datatypes.S i + length t)%nat by lia.
    apply IH; auto. intros j y s2 Hy HI.
    replace (Datatypes.S i + j)%nat with (i + Datatypes.S j)%nat in * by lia. auto.
Qed.
End C.

Lemma sim_mapq {A A' B B'} (f : nat -> A -> prog P (res B)) (g : nat -> A' -> prog P (res B'))
  (I : A -> A' -> Prop) (R : B -> B' -> Prop) l l' : forall i,
  Forall2 I l l' ->
  (forall j x x', I x x' -> sim (f j x) (g j x') (resR R)) ->
  sim (mapq f i l) (mapq g i l') (resR (Forall2 R)).
Proof.
  intros i HF H. revert i. induction HF as [|x x' l l' Hx HF IH]; intros i; cbn [mapq].
  - cbn. constructor.
  - eapply sim_bindq; [apply H; exact Hx|]. intros y y' Hy.
    eapply sim_bindq; [apply IH|]. intros ys ys' Hys. cbn. constructor; auto.
Qed.

Lemma sim_foldq {S S' A A'} (f : nat -> S -> A -> prog P (res S)) (g : nat -> S' -> A' -> prog P (res S'))
  (I : A -> A' -> Prop) (R : S -> S' -> Prop) l l' : forall i s s',
  Forall2 I l l' -> R s s' ->
  (forall j s s' x x', R s s' -> I x x' -> sim (f j s x) (g j s' x') (resR R)) ->
  sim (foldq f i s l) (foldq g i s' l') (resR R).
Proof.
  intros i s s' HF HR H. revert i s s' HR. induction HF as [|x x' l l' Hx HF IH]; intros i s s' HR; cbn [foldq].
  - cbn. auto.
  - eapply sim_bindq; [apply H; eauto|]. intros y y' Hy. apply IH. auto.
Qed.

Lemma noeq_mapq {A B} (f : nat -> A -> prog P (res B)) l : (forall j x, noeq (f j x)) -> forall i, noeq (mapq f i l).
Proof.
  intros H. induction l as [|x t IH]; intros i; cbn [mapq]; [cbn; auto|].
  apply noeq_bindq; auto. intros y. apply noeq_bindq; auto. intros ys. cbn; auto.
Qed.

Lemma noeq_foldq {S A} (f : nat -> S -> A -> prog P (res S)) l : (forall j s x, noeq (f j s x)) ->
  forall i s, noeq (foldq f i s l).
Proof.
  intros H. induction l as [|x t IH]; intros i s; cbn [foldq]; [cbn; auto|].
  apply noeq_bindq; auto.
Qed.

Lemma ns_ok_mapq {A B} (f : nat -> A -> prog P (res B)) l : (forall j x, ns_ok 0 (f j x)) -> forall i, ns_ok 0 (mapq f i l).
Proof.
  intros H. induction l as [|x t IH]; intros i; cbn [mapq]; [cbn; auto|].
  apply ns_ok_bindq; auto. intros y. apply ns_ok_bindq; auto. intros ys. cbn; auto.
Qed.

Lemma ns_ok_foldq {S A} (f : nat -> S -> A -> prog P (res S)) l : (forall j s x, ns_ok 0 (f j s x)) ->
  forall i s, ns_ok 0 (foldq f i s l).
Proof.
  intros H. induction l as [|x t IH]; intros i s; cbn [foldq]; [cbn; auto|].
  apply ns_ok_bindq; auto.
Qed.

(** ** Error propagation *)

(** Every result of [p], whatever the constraint system replies, satisfies [Q]. *)
Fixpoint only {A} (Q : A -> Prop) (p : prog P A) : Prop :=
  match p with
  | Ret a => Q a
  | Panic => True
  | Alloc _ _ k | AllocInput _ _ k => forall r b, only Q (k r b)
  | Enforce _ _ _ _ k | EnforceEq _ _ _ k | PushNs _ k | PopNs k => only Q k
  end.

(** An error reply to an allocation makes the result [Bad]. *)
Fixpoint prop {A} (Bad : A -> Prop) (p : prog P A) : Prop :=
  match p with
  | Ret _ | Panic => True
  | Alloc _ _ k | AllocInput _ _ k =>
      (forall v b, prop Bad (k (Ok v) b)) /\ (forall e b, only Bad (k (Err e) b))
  | Enforce _ _ _ _ k | EnforceEq _ _ _ k | PushNs _ k | PopNs k => prop Bad k
  end.

Definition isErr {A} (r : res A) : Prop := match r with Ok _ => False | Err _ => True end.

Lemma only_bind {A B} (p : prog P A) (g : A -> prog P B) (Q1 : A -> Prop) Q :
  only Q1 p -> (forall a, Q1 a -> only Q (g a)) -> only Q (bind p g).
Proof. intros H Hg. induction p; cbn in *; auto. Qed.

Lemma prop_bind {A B} (p : prog P A) (g : A -> prog P B) (Bad : A -> Prop) (Bad' : B -> Prop) :
  prop Bad p -> (forall a, prop Bad' (g a)) -> (forall a, Bad a -> only Bad' (g a)) ->
  prop Bad' (bind p g).
Proof.
  intros H Hg Hb. induction p as [a| |n f k IH|n f k IH|n a b c k IH|n l r k IH|n k IH|k IH]; cbn in *; auto.
  - destruct H as [H1 H2]. split; intros; auto. eapply only_bind; eauto.
  - destruct H as [H1 H2]. split; intros; auto. eapply only_bind; eauto.
Qed.

Lemma prop_bindq {A B} (p : prog P (res A)) (g : A -> prog P (res B)) :
  prop isErr p -> (forall a, prop isErr (g a)) -> prop isErr (bindq p g).
Proof.
  intros H Hg. eapply prop_bind; [exact H| |].
  - intros [a|e]; cbn; auto.
  - intros [a|e]; cbn; tauto.
Qed.

Lemma prop_bind_pure {A B} (p : prog P A) (g : A -> prog P (res B)) :
  prop (fun _ => False) p -> (forall a, prop isErr (g a)) -> prop isErr (bind p g).
Proof. intros H Hg. eapply prop_bind; [exact H|auto|intros a Hf; destruct Hf]. Qed.

Lemma prop_ns {A} n (p : prog P (res A)) : prop isErr p -> prop isErr (ns n p).
Proof.
  intros H. cbn. eapply prop_bind; [exact H| |]; cbn; auto.
Qed.

Lemma prop_cs_alloc n f : prop isErr (@cs_alloc P n f).
Proof. cbn. auto. Qed.
Lemma prop_cs_alloc_input n f : prop isErr (@cs_alloc_input P n f).
Proof. cbn. auto. Qed.

Lemma prop_mapq {A B} (f : nat -> A -> prog P (res B)) l : (forall j x, prop isErr (f j x)) -> forall i, prop isErr (mapq f i l).
Proof.
  intros H. induction l as [|x t IH]; intros i; cbn [mapq]; [cbn; auto|].
  apply prop_bindq; auto. intros y. apply prop_bindq; auto. intros ys. cbn; auto.
Qed.

Lemma prop_foldq {S A} (f : nat -> S -> A -> prog P (res S)) l : (forall j s x, prop isErr (f j s x)) ->
  forall i s, prop isErr (foldq f i s l).
Proof.
  intros H. induction l as [|x t IH]; intros i s; cbn [foldq]; [cbn; auto|].
  apply prop_bindq; auto.
Qed.

Lemma only_run M {A} (Q : A -> Prop) (p : prog P A) : only Q p -> forall s a s',
  run M p s = Done (a, s') -> Q a.
Proof.
  induction p as [a0| |n f k IH|n f k IH|n x y z k IH|n l r k IH|n k IH|k IH]; cbn; intros H s a s' Hr; try discriminate.
  - inversion Hr; subst; auto.
  - destruct (m_alloc M s n f) as [[[? ?] ?]|]; cbn in Hr; [eauto|discriminate].
  - destruct (m_alloc_input M s n f) as [[[? ?] ?]|]; cbn in Hr; [eauto|discriminate].
  - destruct (m_enforce M s n x y z); cbn in Hr; [eauto|discriminate].
  - destruct (m_push M s n); cbn in Hr; [eauto|discriminate].
  - destruct (m_pop M s); cbn in Hr; [eauto|discriminate].
Qed.

(** For programs that propagate errors, an [Ok] honest run is one whose closures all succeeded. *)
Lemma honest_strict {A} (p : prog P (res A)) : prop isErr p -> forall s a s',
  run (HonestCS P) p s = Done (Ok a, s') -> run StrictCS p s = Done (Ok a, s').
Proof.
  induction p as [a0| |n f k IH|n f k IH|n x y z k IH|n l r k IH|n k IH|k IH]; cbn; intros H s a s' Hr; auto.
  - destruct f as [x|e]; cbn in *.
    + apply IH; auto. apply H.
    + destruct H as [_ H]. destruct (only_run (HonestCS P) _ _ (H e true) _ _ _ Hr).
  - destruct f as [x|e]; cbn in *.
    + apply IH; auto. apply H.
    + destruct H as [_ H]. destruct (only_run (HonestCS P) _ _ (H e true) _ _ _ Hr).
Qed.

(** *** Primitive steps *)
Lemma wpS_alloc (rho : Var -> P) (G : Prop) n f (Q : Var * bool -> Prop) :
  (forall v b, Q (v, b)) -> wpS rho G (@cs_alloc P n f) (okP Q).
Proof. intros H. cbn. intros [v|e] b; cbn; auto. Qed.
Lemma wpS_alloc_input (rho : Var -> P) (G : Prop) n f (Q : Var * bool -> Prop) :
  (forall v b, Q (v, b)) -> wpS rho G (@cs_alloc_input P n f) (okP Q).
Proof. intros H. cbn. intros [v|e] b; cbn; auto. Qed.
Lemma wpS_enforce (rho : Var -> P) (G : Prop) {A} n a b c (k : unit -> prog P A) Q :
  (fmul (eval rho a) (eval rho b) = eval rho c -> wpS rho G (k tt) Q) ->
  wpS rho G (bind (cs_enforce n a b c) k) Q.
Proof. intros H. cbn. exact H. Qed.
Lemma wpS_enforce_equal (rho : Var -> P) (G : Prop) {A} n l r (k : unit -> prog P A) Q :
  bounded rho n l -> bounded rho n r -> ((G -> eval rho l = eval rho r) -> wpS rho G (k tt) Q) ->
  wpS rho G (bind (cs_enforce_equal n l r) k) Q.
Proof. intros H1 H2 H. cbn. auto. Qed.

Lemma wpC_alloc (rho : Var -> P) n f x (Q : Var * bool -> Prop) :
  f = Ok x -> (forall v, rho v = x -> Q (v, true)) -> wpC rho (@cs_alloc P n f) (isOk Q).
Proof. intros -> H. cbn. auto. Qed.
Lemma wpC_alloc_input (rho : Var -> P) n f x (Q : Var * bool -> Prop) :
  f = Ok x -> (forall v, rho v = x -> Q (v, true)) -> wpC rho (@cs_alloc_input P n f) (isOk Q).
Proof. intros -> H. cbn. auto. Qed.
Lemma wpC_enforce (rho : Var -> P) {A} n a b c (k : unit -> prog P A) Q :
  fmul (eval rho a) (eval rho b) = eval rho c -> wpC rho (k tt) Q ->
  wpC rho (bind (cs_enforce n a b c) k) Q.
Proof. intros H1 H2. cbn. auto. Qed.
Lemma wpC_enforce_equal (rho : Var -> P) {A} n l r (k : unit -> prog P A) Q :
  eval rho l = eval rho r -> (n < capacity P)%nat -> wpC rho (k tt) Q ->
  wpC rho (bind (cs_enforce_equal n l r) k) Q.
Proof. intros H1 H2 H. cbn. auto. Qed.

Lemma wpS_alloc_q (rho : Var -> P) (G : Prop) {A} n f (k : Var * bool -> prog P (res A)) Q :
  (forall v b, wpS rho G (k (v, b)) (okP Q)) -> wpS rho G (bindq (cs_alloc n f) k) (okP Q).
Proof. intros H. apply wpS_bindq. apply wpS_alloc. auto. Qed.
Lemma wpS_alloc_input_q (rho : Var -> P) (G : Prop) {A} n f (k : Var * bool -> prog P (res A)) Q :
  (forall v b, wpS rho G (k (v, b)) (okP Q)) -> wpS rho G (bindq (cs_alloc_input n f) k) (okP Q).
Proof. intros H. apply wpS_bindq. apply wpS_alloc_input. auto. Qed.
Lemma wpC_alloc_q (rho : Var -> P) {A} n f x (k : Var * bool -> prog P (res A)) Q :
  f = Ok x -> (forall v, rho v = x -> wpC rho (k (v, true)) (isOk Q)) -> wpC rho (bindq (cs_alloc n f) k) (isOk Q).
Proof. intros Hf H. apply wpC_bindq. eapply wpC_alloc; eauto. Qed.
Lemma wpC_alloc_input_q (rho : Var -> P) {A} n f x (k : Var * bool -> prog P (res A)) Q :
  f = Ok x -> (forall v, rho v = x -> wpC rho (k (v, true)) (isOk Q)) -> wpC rho (bindq (cs_alloc_input n f) k) (isOk Q).
Proof. intros Hf H. apply wpC_bindq. eapply wpC_alloc_input; eauto. Qed.

Lemma sim_alloc {B B'} n f f' (k : _ -> prog P (res B)) (k' : _ -> prog P (res B')) R :
  (forall v x, f' = Ok x -> sim (k (v, false)) (k' (v, true)) (resR R)) ->
  sim (bindq (@cs_alloc P n f) k) (bindq (cs_alloc n f') k') (resR R).
Proof. intros H. cbn. split; auto. intros v. destruct f' as [x|e]; auto. cbn. eauto. Qed.
Lemma sim_alloc_input {B B'} n f f' (k : _ -> prog P (res B)) (k' : _ -> prog P (res B')) R :
  (forall v x, f' = Ok x -> sim (k (v, false)) (k' (v, true)) (resR R)) ->
  sim (bindq (@cs_alloc_input P n f) k) (bindq (cs_alloc_input n f') k') (resR R).
Proof. intros H. cbn. split; auto. intros v. destruct f' as [x|e]; auto. cbn. eauto. Qed.
Lemma sim_enforce {A B} n n' a a' b b' c c' (k : unit -> prog P A) (k' : unit -> prog P B) R :
  n = n' -> a = a' -> b = b' -> c = c' -> sim (k tt) (k' tt) R ->
  sim (bind (cs_enforce n a b c) k) (bind (cs_enforce n' a' b' c') k') R.
Proof. intros. cbn. auto. Qed.
Lemma sim_enforce_equal {A B} n n' l l' r r' (k : unit -> prog P A) (k' : unit -> prog P B) R :
  n = n' -> l = l' -> r = r' -> sim (k tt) (k' tt) R ->
  sim (bind (cs_enforce_equal n l r) k) (bind (cs_enforce_equal n' l' r') k') R.
Proof. intros. cbn. auto. Qed.

Lemma wpS_bindq' (rho : Var -> P) (G : Prop) {A B} (p : prog P (res A)) (g : A -> prog P (res B)) (Q1 : A -> Prop) Q :
  wpS rho G p (okP Q1) -> (forall a, Q1 a -> wpS rho G (g a) (okP Q)) -> wpS rho G (bindq p g) (okP Q).
Proof.
  intros H1 H2. apply wpS_bindq. eapply wpS_mono; [|exact H1]. intros [a|e]; cbn; auto.
Qed.
Lemma wpC_bindq' (rho : Var -> P) {A B} (p : prog P (res A)) (g : A -> prog P (res B)) (Q1 : A -> Prop) Q :
  wpC rho p (isOk Q1) -> (forall a, Q1 a -> wpC rho (g a) (isOk Q)) -> wpC rho (bindq p g) (isOk Q).
Proof.
  intros H1 H2. apply wpC_bindq. eapply wpC_mono; [|exact H1]. intros [a|e]; cbn; auto.
Qed.
Lemma wpS_okmono (rho : Var -> P) (G : Prop) {A} (p : prog P (res A)) (Q Q' : A -> Prop) :
  (forall a, Q a -> Q' a) -> wpS rho G p (okP Q) -> wpS rho G p (okP Q').
Proof. intros HQ. apply wpS_mono. intros [a|e]; cbn; auto. Qed.
Lemma wpC_okmono (rho : Var -> P) {A} (p : prog P (res A)) (Q Q' : A -> Prop) :
  (forall a, Q a -> Q' a) -> wpC rho p (isOk Q) -> wpC rho p (isOk Q').
Proof. intros HQ. apply wpC_mono. intros [a|e]; cbn; auto. Qed.

End Loops.

(** Evaluate a linear combination built by the operators. *)
Ltac lcev := repeat first
  [ rewrite eval_add_lc | rewrite eval_sub_lc | rewrite eval_add_scaled | rewrite eval_sub_scaled
  | rewrite eval_sub_var | rewrite eval_add_var | rewrite eval_sub_term | rewrite eval_add_term
  | rewrite eval_zero ].

(** Side conditions that only depend on the shape of a program. *)
Ltac struct1 :=
  lazymatch goal with
  | |- noeq (bindq _ _) => apply noeq_bindq; [|intros]
  | |- noeq (bind _ _) => apply noeq_bind; [|intros]
  | |- noeq (ns _ _) => apply noeq_ns
  | |- noeq (mapq _ _ _) => apply noeq_mapq; intros
  | |- noeq (foldq _ _ _ _) => apply noeq_foldq; intros
  | |- ns_ok 0 (bindq _ _) => apply ns_ok_bindq; [|intros]
  | |- ns_ok 0 (bind _ _) => apply ns_ok_bind0; [|intros]
  | |- ns_ok 0 (ns _ _) => apply ns_ok_ns
  | |- ns_ok 0 (mapq _ _ _) => apply ns_ok_mapq; intros
  | |- ns_ok 0 (foldq _ _ _ _) => apply ns_ok_foldq; intros
  | |- prop isErr (bindq _ _) => apply prop_bindq; [|intros]
  | |- prop isErr (bind _ _) => apply prop_bind_pure; [|intros]
  | |- prop isErr (ns _ _) => apply prop_ns
  | |- prop isErr (mapq _ _ _) => apply prop_mapq; intros
  | |- prop isErr (foldq _ _ _ _) => apply prop_foldq; intros
  | |- context [match ?x with _ => _ end] => destruct x
  | |- _ => first [ solve [cbn; auto] | progress intros ]
  end.
Ltac struct := repeat (first [ solve [auto with struct_db] | struct1 ]).
Create HintDb struct_db.

#[global] Arguments eval : simpl never.
#[global] Arguments lc_zero : simpl never.
#[global] Arguments lc_add_term : simpl never.
#[global] Arguments lc_sub_term : simpl never.
#[global] Arguments lc_add_var : simpl never.
#[global] Arguments lc_sub_var : simpl never.
#[global] Arguments lc_add_lc : simpl never.
#[global] Arguments lc_sub_lc : simpl never.
#[global] Arguments lc_add_scaled : simpl never.
#[global] Arguments lc_sub_scaled : simpl never.
#[global] Arguments ns : simpl never.
#[global] Arguments bindq : simpl never.
#[global] Arguments cs_alloc : simpl never.
#[global] Arguments cs_alloc_input : simpl never.
#[global] Arguments cs_enforce : simpl never.
#[global] Arguments cs_enforce_equal : simpl never.

Ltac allbools := repeat match goal with b : bool |- _ => destruct b end.

Section Prims.
Context {P : PrimeField}.
Lemma noeq_cs_alloc n f : noeq (@cs_alloc P n f). Proof. cbv. auto. Qed.
Lemma noeq_cs_alloc_input n f : noeq (@cs_alloc_input P n f). Proof. cbv. auto. Qed.
Lemma noeq_cs_enforce n a b c : noeq (@cs_enforce P n a b c). Proof. exact I. Qed.
Lemma ns_ok_cs_alloc n f : ns_ok 0 (@cs_alloc P n f). Proof. cbv. auto. Qed.
Lemma ns_ok_cs_alloc_input n f : ns_ok 0 (@cs_alloc_input P n f). Proof. cbv. auto. Qed.
Lemma ns_ok_cs_enforce n a b c : ns_ok 0 (@cs_enforce P n a b c). Proof. reflexivity. Qed.
Lemma ns_ok_cs_enforce_equal n l r : ns_ok 0 (@cs_enforce_equal P n l r). Proof. reflexivity. Qed.
Lemma prop_cs_enforce Q n a b c : prop Q (@cs_enforce P n a b c). Proof. exact I. Qed.
Lemma prop_cs_enforce_equal Q n l r : prop Q (@cs_enforce_equal P n l r). Proof. exact I. Qed.
End Prims.
#[export] Hint Resolve noeq_cs_alloc noeq_cs_alloc_input noeq_cs_enforce ns_ok_cs_alloc ns_ok_cs_alloc_input
  ns_ok_cs_enforce ns_ok_cs_enforce_equal prop_cs_alloc prop_cs_alloc_input prop_cs_enforce prop_cs_enforce_equal : struct_db.
