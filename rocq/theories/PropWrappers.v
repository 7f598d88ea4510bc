(** Property theorem C73: the types that pass the calls of gadgets on to a constraint system. *)
From Coq Require Import String.
From Coq Require Import ZArith List Bool.
From Verif Require Import Prelude PrimeField Fields Circuit Loops BooleanGadget NumGadget MultiEq UInt32 TestCS Assembly Wrappers.
Import ListNotations.
Local Open Scope nat_scope.

(** ** Specification *)

(** Objects through which gadgets reach one and the same constraint system: the constraint system itself, references to such objects, and namespaces opened from them *)
Inductive reaches {P : PrimeField} {G} (cs : Object G) : Object (P := P) G -> Prop :=
| reaches_itself : reaches cs cs
| reaches_reference o : reaches cs o -> reaches cs (by_reference o)
| reaches_namespace o : reaches cs o -> reaches cs (inside o).

(** What is allocated and enforced through an object is what its root would allocate and enforce. *)
Definition passes_on {P : PrimeField} {G} (o : Object (P := P) G) : Prop :=
  (forall g a f, o_alloc (self o) g a f = o_alloc (root o) g a f) /\ (forall g a f, o_alloc_input (self o) g a f = o_alloc_input (root o) g a f) /\
  (forall g n a b c, o_enforce (self o) g n a b c = o_enforce (root o) g n a b c).

Section C73.
Context {P : PrimeField}.

(** ** Auxiliary *)
Lemma obind_same {A B} (x : outcome A) (f g : A -> outcome B) : (forall a, f a = g a) -> obind x f = obind x g.
Proof. intros H. destruct x; cbn; auto. Qed.
Lemma obind_obind {A B C} (x : outcome A) (f : A -> outcome B) (g : B -> outcome C) : obind (obind x f) g = obind x (fun a => obind (f a) g).
Proof. now destruct x. Qed.
Lemma passes_on_inside {G} (o : Object (P := P) G) : passes_on (inside o).
Proof. repeat split. Qed.
Lemma act_same {G A} (p : prog P A) : forall (outer outer' : list (Object G)) (o o' : Object G) g, passes_on o -> passes_on o' -> root o = root o' ->
  Forall2 (fun x y => passes_on x /\ passes_on y /\ root x = root o /\ root y = root o) outer outer' -> act outer o p g = act outer' o' p g.
Proof.
  induction p as [a| |n f k IH|n f k IH|n a b c k IH|n l r k IH|n k IH|k IH]; intros outer outer' o o' g Ho Ho' Hr HF; cbn [act].
  - reflexivity.
  - reflexivity.
  - rewrite (proj1 Ho), (proj1 Ho'), Hr. apply obind_same. intros x. now apply IH.
  - rewrite (proj1 (proj2 Ho)), (proj1 (proj2 Ho')), Hr. apply obind_same. intros x. now apply IH.
  - rewrite (proj2 (proj2 Ho)), (proj2 (proj2 Ho')), Hr. apply obind_same. intros x. now apply IH.
  - rewrite Hr. apply obind_same. intros x. now apply IH.
  - unfold enter. rewrite Hr. apply obind_same. intros x. apply IH; [apply passes_on_inside|apply passes_on_inside|exact Hr|]. cbn [inside root]. constructor; [|exact HF].
    split; [exact Ho|]. split; [exact Ho'|]. split; [reflexivity|now symmetry].
  - unfold leave. rewrite Hr. apply obind_same. intros x. inversion HF as [|y y' l l' (H1 & H2 & H3 & H4) HF']; subst; [now apply IH|].
    apply IH; [assumption|assumption|congruence|]. eapply Forall2_impl; [|exact HF']. cbn. intros u v (U1 & U2 & U3 & U4). rewrite H3. auto.
Qed.

(** ** C73 *)

(** Gadgets that hold a constraint system do what their programs in Circuit.v do. *)
Theorem C73_proper (M : Machine P) {A} (p : prog P A) (s : St M) : act [] (proper M) p s = run M p s.
Proof.
  enough (H : forall outer o (s : St M), passes_on o -> root o = ops_of M -> Forall (fun x => passes_on x /\ root x = ops_of M) outer -> act outer o p s = run M p s)
    by (apply H; [repeat split|reflexivity|constructor]).
  clear s. induction p as [a| |n f k IH|n f k IH|n a b c k IH|n l r k IH|n k IH|k IH]; intros outer o s Ho Hr HF; cbn [act run].
  - reflexivity.
  - reflexivity.
  - rewrite (proj1 Ho), Hr. apply obind_same. intros x. now apply IH.
  - rewrite (proj1 (proj2 Ho)), Hr. apply obind_same. intros x. now apply IH.
  - rewrite (proj2 (proj2 Ho)), Hr. apply obind_same. intros x. now apply IH.
  - rewrite Hr. reflexivity.
  - unfold enter. rewrite Hr. apply obind_same. intros x. apply IH; [apply passes_on_inside|exact Hr|]. constructor; auto.
  - unfold leave. rewrite Hr. apply obind_same. intros x. inversion HF as [|y l [H1 H2] HF']; subst; now apply IH.
Qed.

Lemma reaches_root {G} (cs o : Object (P := P) G) : reaches cs o -> passes_on cs -> passes_on o /\ root o = root cs.
Proof.
  induction 1 as [|o H IH|o H IH]; intros Hcs; [auto| |].
  - destruct (IH Hcs) as [(H1 & H2 & H3) H4]. split; [|exact H4]. repeat split; intros; cbn; auto.
  - split; [apply passes_on_inside|]. cbn. now apply IH.
Qed.

(** References and namespaces, on top of each other in whatever order, make no difference. *)
Theorem C73_reaches {G} (cs o : Object (P := P) G) {A} (p : prog P A) (g : G) : passes_on cs -> reaches cs o -> passes_on o /\ act [] o p g = act [] cs p g.
Proof. intros Hcs H. destruct (reaches_root cs o H Hcs) as [Ho Hr]. split; [exact Ho|]. apply act_same; auto. Qed.

Lemma act_multieq_gen {G} (cs : Object (P := P) G) {A} (p : prog P A) : passes_on cs -> forall outer o outer' o' (g : G) (s : MeSt),
  passes_on o -> root o = multieq_ops cs -> Forall (fun x => passes_on x /\ root x = multieq_ops cs) outer ->
  passes_on o' -> root o' = root cs -> Forall (fun x => passes_on x /\ root x = root cs) outer' -> length outer = length outer' ->
  act outer o p (g, s) = obind (act outer' o' (multieq p s) g) (fun x => Done (fst (fst x), (snd x, snd (fst x)))).
Proof.
  intros Hcs. induction p as [a| |n f k IH|n f k IH|n a b c k IH|n l r k IH|n k IH|k IH]; intros outer o outer' o' g s Ho Hr HF Ho' Hr' HF' Hl; cbn [act multieq].
  - reflexivity.
  - reflexivity.
  - rewrite (proj1 Ho), Hr, (proj1 Ho'), Hr'. cbn [multieq_ops o_alloc fst snd]. rewrite (proj1 Hcs), !obind_obind. apply obind_same. intros x. cbn [obind fst snd]. now apply IH.
  - rewrite (proj1 (proj2 Ho)), Hr, (proj1 (proj2 Ho')), Hr'. cbn [multieq_ops o_alloc_input fst snd]. rewrite (proj1 (proj2 Hcs)), !obind_obind. apply obind_same. intros x.
    cbn [obind fst snd]. now apply IH.
  - rewrite (proj2 (proj2 Ho)), Hr, (proj2 (proj2 Ho')), Hr'. cbn [multieq_ops o_enforce fst snd]. rewrite (proj2 (proj2 Hcs)), !obind_obind. apply obind_same. intros x.
    cbn [obind fst snd]. now apply IH.
  - rewrite Hr. cbn [multieq_ops o_enforce_equal]. unfold enforce_equal, me_enforce_equal, me_accumulate, cs_enforce. cbn [snd].
    destruct (Nat.leb (capacity P) (me_used s + n)).
    + cbn [bind act cs_enforce]. rewrite (proj2 (proj2 Ho')), Hr'. unfold accumulate. rewrite (proj2 (proj2 Hcs)), !obind_obind. apply obind_same. intros x. cbn [obind me_used Nat.add me_ops].
      rewrite Nat.add_1_r. destruct (Nat.ltb n (capacity P)); [|reflexivity]. cbn [obind bind me_lhs me_rhs]. now apply IH.
    + cbn [bind obind]. destruct (Nat.ltb (me_used s + n) (capacity P)); [|reflexivity]. cbn [obind bind]. now apply IH.
  - unfold enter. rewrite Hr, Hr'. cbn [multieq_ops o_push fst snd]. rewrite !obind_obind. apply obind_same. intros x. cbn [obind].
    apply IH; [apply passes_on_inside|exact Hr|constructor; auto|apply passes_on_inside|exact Hr'|constructor; auto|cbn; congruence].
  - unfold leave. rewrite Hr, Hr'. cbn [multieq_ops o_pop fst snd]. rewrite !obind_obind. apply obind_same. intros x. cbn [obind].
    destruct HF as [|y l [H1 H2] HF]; destruct HF' as [|y' l' [H1' H2'] HF']; cbn in Hl; try discriminate Hl; apply IH; auto.
Qed.

(** A gadget that holds a [MultiEq] does what the program transformed by [multieq] does with the object inside. *)
Theorem C73_multieq {G} (cs : Object (P := P) G) {A} (p : prog P A) (g : G) (s : MeSt) : passes_on cs ->
  passes_on (multieq_of cs) /\ act [] (multieq_of cs) p (g, s) = obind (act [] cs (multieq p s) g) (fun x => Done (fst (fst x), (snd x, snd (fst x)))).
Proof. intros Hcs. split; [repeat split|]. apply (act_multieq_gen cs p Hcs); auto; repeat split. Qed.

Lemma act_bind_drop {G A} (p : prog P (A * MeSt (P := P))) : forall outer (o : Object (P := P) G) (g : G), passes_on o -> Forall (fun x => passes_on x /\ root x = root o) outer ->
  act outer o (bind p (fun x => bind (me_drop (snd x)) (fun _ => Ret (fst x)))) g =
  obind (act outer o p g) (fun x => obind (drop_multieq o (snd x, snd (fst x))) (fun g => Done (fst (fst x), g))).
Proof.
  induction p as [a| |n f k IH|n f k IH|n a b c k IH|n l r k IH|n k IH|k IH]; intros outer o g Ho HF; cbn [act bind].
  - cbn [obind fst snd]. unfold me_drop, drop_multieq. cbn [snd]. destruct (Nat.ltb 0 (me_used (snd a))); [|reflexivity].
    unfold me_accumulate, accumulate, cs_enforce. cbn [bind act]. rewrite !obind_obind. reflexivity.
  - reflexivity.
  - rewrite obind_obind. apply obind_same. intros x. now apply IH.
  - rewrite obind_obind. apply obind_same. intros x. now apply IH.
  - rewrite obind_obind. apply obind_same. intros x. now apply IH.
  - rewrite obind_obind. apply obind_same. intros x. now apply IH.
  - rewrite obind_obind. apply obind_same. intros x. rewrite IH; [|apply passes_on_inside|constructor; auto]. apply obind_same. intros y. f_equal.
    unfold drop_multieq, accumulate. cbn [inside self snd o_enforce]. destruct (Nat.ltb 0 (me_used (snd (fst y)))); [|reflexivity]. now rewrite (proj2 (proj2 Ho)).
  - rewrite obind_obind. apply obind_same. intros x. destruct HF as [|y l [H1 H2] HF]; [now apply IH|].
    rewrite IH; [|auto|]. 2: { eapply Forall_impl; [|exact HF]. cbn. intros z [Z1 Z2]. split; congruence. }
    apply obind_same. intros z. f_equal. unfold drop_multieq, accumulate. cbn [snd]. destruct (Nat.ltb 0 (me_used (snd (fst z)))); [|reflexivity].
    now rewrite (proj2 (proj2 Ho)), (proj2 (proj2 H1)), H2.
Qed.

(** A function that makes a [MultiEq] of the object it was given and drops it at its end does what [multieq_scope] does with that object. *)
Theorem C73_scope {G} (cs : Object (P := P) G) {A} (p : prog P A) (g : G) : passes_on cs -> act_multieq cs p g = act [] cs (multieq_scope p) g.
Proof.
  intros Hcs. unfold act_multieq, multieq_scope. rewrite (act_bind_drop (multieq p me_new) [] cs g Hcs (Forall_nil _)).
  rewrite (proj2 (C73_multieq cs p g me_new Hcs)), obind_obind. reflexivity.
Qed.

(** So a gadget may hold a reference to a namespace of a reference to a namespace ... of the constraint system, and make a [MultiEq] of that: what reaches the constraint system is
    the program of Circuit.v, and what a gadget holding references to and namespaces of the [MultiEq] does is that of the program transformed. *)
Theorem C73_wrappers (M : Machine P) (o : Object (St M)) (m : Object (St M * MeSt (P := P))) {A} (p : prog P A) (s : St M) :
  reaches (proper M) o -> reaches (multieq_of o) m ->
  act [] o p s = run M p s /\
  act_multieq o p s = run M (multieq_scope p) s /\
  act [] m p (s, me_new) = obind (run M (multieq p me_new) s) (fun x => Done (fst (fst x), (snd x, snd (fst x)))).
Proof.
  intros H Hm. assert (HP : passes_on (proper M)) by repeat split. destruct (C73_reaches (proper M) o p s HP H) as [Ho E].
  split; [rewrite E; apply C73_proper|]. split.
  - rewrite (C73_scope o p s Ho). rewrite (proj2 (C73_reaches (proper M) o _ s HP H)). apply C73_proper.
  - rewrite (proj2 (C73_reaches (multieq_of o) m p (s, me_new) (proj1 (C73_multieq o p s me_new Ho)) Hm)), (proj2 (C73_multieq o p s me_new Ho)).
    rewrite (proj2 (C73_reaches (proper M) o _ s HP H)), C73_proper. reflexivity.
Qed.

(** Calling [push_namespace] or [pop_namespace] on a namespace panics, whatever the constraint system; on references and on the constraint system itself it does not by itself. *)
Theorem C73_not_the_root {G} (cs : Object (P := P) G) (g : G) (n : string) :
  o_push (self (inside cs)) g n = Panicked /\ o_pop (self (inside cs)) g = Panicked /\
  o_push (self (by_reference cs)) g n = o_push (self cs) g n /\ o_pop (self (by_reference cs)) g = o_pop (self cs) g.
Proof. repeat split. Qed.
End C73.
Print Assumptions C73_proper.
Print Assumptions C73_reaches.
Print Assumptions C73_multieq.
Print Assumptions C73_scope.
Print Assumptions C73_wrappers.
Print Assumptions C73_not_the_root.

(** Two sums in namespaces of a [MultiEq] that holds a namespace of a reference to the constraint system of the tests: the capacity of 63 bits does not hold two sums of 33 bits, so the
    first equality is enforced during the second sum, in its namespace, and the second one by dropping the [MultiEq].  Without the [MultiEq] there is no [enforce_equal]. *)
Section Ex.
Local Open Scope prog_scope.
Local Open Scope string_scope.
Let word (x : Boolean) : UInt32 := match from_bits (x :: repeat (BConst false) 31) with Done u => u | Panicked => u_constant 0 end.
Let sums : prog Goldilocks (res UInt32) :=
  let* a := ns "a" (ab_alloc (Some true)) in
  let* x := ns "first" (addmany [word (BIs a); u_constant 5]) in ns "second" (addmany [word (BIs a); x]).
Let object : Object (St (TestCS (P := Goldilocks))) := inside (by_reference (proper TestCS)).
Let start : St (TestCS (P := Goldilocks)) := mkT [] [] [] [(fone, "ONE")] [].
Example C73_ex :
  reaches (proper TestCS) object /\ reaches (multieq_of object) (by_reference (inside (multieq_of object))) /\
  (match act_multieq object sums start with
   | Done (Ok w, s) => u_value w = Some 7%Z /\ length (t_cons s) = 69 /\ map (fun c => snd c) (skipn 66 (t_cons s)) = ["second/result bit 32/boolean constraint"; "second/multieq 0"; "multieq 1"]
   | _ => False
   end) /\
  (match act [] object sums start with Panicked => True | _ => False end) /\
  (match o_push (self object) start "namespace" with Panicked => True | _ => False end).
Proof.
  split; [apply reaches_namespace, reaches_reference, reaches_itself|]. split; [apply reaches_reference, reaches_namespace, reaches_itself|].
  split; [|split; vm_compute; exact I].
  assert (X : match act_multieq object sums start with
   | Done (Ok w, s) => (match u_value w with Some 7%Z => true | _ => false end) && Nat.eqb (length (t_cons s)) 69
       && (if list_eq_dec string_dec (map (fun c => snd c) (skipn 66 (t_cons s)))
       ["second/result bit 32/boolean constraint"; "second/multieq 0"; "multieq 1"] then true else false)
   | _ => false
   end = true) by (vm_compute; reflexivity).
  destruct (act_multieq object sums start) as [[[w|] s]|]; try discriminate X.
  apply andb_true_iff in X as [X X3]. apply andb_true_iff in X as [X1 X2].
  split. { destruct (u_value w) as [z|]; [|discriminate X1]. destruct z as [|z|z]; try discriminate X1. do 3 (destruct z as [z|z|]; try discriminate X1). reflexivity. }
  split; [now apply Nat.eqb_eq|]. destruct (list_eq_dec _ _ _) as [E|E] in X3; [exact E|discriminate X3].
Qed.
End Ex.
