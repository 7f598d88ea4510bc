(** [ConstraintSystem] and the types that implement it by passing calls on: [&mut CS], [Namespace] (src/lib.rs:372-566) and [MultiEq] (src/gadgets/multieq.rs).
    In Circuit.v a gadget is a program that asks for operations, which reach the underlying constraint system directly, and [MultiEq] is a transformation of programs.
    Here the gadget holds an object of one of these types, as in the source. *)
From Coq Require Import String.
From Coq Require Import ZArith List Bool.
From Verif Require Import Prelude PrimeField Circuit BooleanGadget MultiEq.
Import ListNotations.
Local Open Scope nat_scope.

Section Model.
Context {P : PrimeField}.
Local Open Scope string_scope.

(** The methods of src/lib.rs:370-428 that change something; [G] is all the memory they can reach.  [enforce_equal] is the inherent method of [MultiEq]; other types
    do not have it ([Panicked] here, as in Circuit.v). *)
Record Ops (G : Type) := {
  o_alloc : G -> string -> res P -> outcome (G * res Var * bool);
  o_alloc_input : G -> string -> res P -> outcome (G * res Var * bool);
  o_enforce : G -> string -> LC P -> LC P -> LC P -> outcome G;
  o_push : G -> string -> outcome G;
  o_pop : G -> outcome G;
  o_enforce_equal : G -> nat -> LC P -> LC P -> outcome G
}.
Arguments o_alloc {G}. Arguments o_alloc_input {G}. Arguments o_enforce {G}. Arguments o_push {G}. Arguments o_pop {G}. Arguments o_enforce_equal {G}.

(** An object: its methods, and those of what [get_root] returns, which is its own root in every implementation. *)
Record Object (G : Type) := { self : Ops G; root : Ops G }.
Arguments self {G}. Arguments root {G}.

(** The constraint systems proper (of the generator, the prover and the tests) have [Root = Self]. *)
Definition ops_of (M : Machine P) : Ops (St M) := {|
  o_alloc := m_alloc M; o_alloc_input := m_alloc_input M; o_enforce := m_enforce M; o_push := m_push M; o_pop := m_pop M;
  o_enforce_equal := fun _ _ _ _ => Panicked |}.
Definition proper (M : Machine P) : Object (St M) := {| self := ops_of M; root := ops_of M |}.

(** src/lib.rs:513-566 [impl ConstraintSystem for &mut CS] *)
Definition by_reference {G} (cs : Object G) : Object G := {|
  self := {| o_alloc := fun g a f => o_alloc (self cs) g a f; o_alloc_input := fun g a f => o_alloc_input (self cs) g a f;
             o_enforce := fun g n a b c => o_enforce (self cs) g n a b c; o_push := fun g n => o_push (self cs) g n; o_pop := fun g => o_pop (self cs) g;
             o_enforce_equal := fun _ _ _ _ => Panicked |};
  root := root cs |}.

(** src/lib.rs:439-503: [Namespace] of what [get_root] of [cs] returned (:435) *)
Definition inside {G} (cs : Object G) : Object G := {|
  self := {| o_alloc := fun g a f => o_alloc (root cs) g a f; o_alloc_input := fun g a f => o_alloc_input (root cs) g a f;
             o_enforce := fun g n a b c => o_enforce (root cs) g n a b c; o_push := fun _ _ => Panicked; o_pop := fun _ => Panicked;
             o_enforce_equal := fun _ _ _ _ => Panicked |};
  root := root cs |}.
(** src/lib.rs:427-436 [namespace], src/lib.rs:505-509 [drop] *)
Definition enter {G} (cs : Object G) (g : G) (name : string) : outcome G := o_push (root cs) g name.
Definition leave {G} (namespace : Object G) (g : G) : outcome G := o_pop (root namespace) g.

(** src/gadgets/multieq.rs:24-38 [accumulate] *)
Definition accumulate {G} (cs : Object G) (x : G * MeSt (P := P)) : outcome (G * MeSt (P := P)) :=
  let '(g, s) := x in
  let ops := me_ops s in let lhs := me_lhs s in let rhs := me_rhs s in
  obind (o_enforce (self cs) g ("multieq " ++ nat_str ops) lhs (lc_add_var lc_zero one_var) rhs) (fun g =>
  Done (g, {| me_lhs := lc_zero; me_rhs := lc_zero; me_used := 0; me_ops := ops + 1 |})).
(** src/gadgets/multieq.rs:40-57 [enforce_equal] *)
Definition enforce_equal {G} (cs : Object G) (x : G * MeSt (P := P)) (num_bits : nat) (lhs rhs : LC P) : outcome (G * MeSt (P := P)) :=
  obind (if Nat.leb (capacity P) (me_used (snd x) + num_bits) then accumulate cs x else Done x) (fun x =>
  let '(g, s) := x in
  if Nat.ltb (me_used s + num_bits) (capacity P) then
    let coeff := fpow (ofZ 2) (me_used s) in
    Done (g, {| me_ops := me_ops s; me_lhs := lc_add_scaled (me_lhs s) coeff lhs; me_rhs := lc_add_scaled (me_rhs s) coeff rhs; me_used := me_used s + num_bits |})
  else Panicked).
(** src/gadgets/multieq.rs:5-22, 68-121: a [MultiEq] owns the object [cs]; [Root = Self] *)
Definition multieq_ops {G} (cs : Object G) : Ops (G * MeSt (P := P)) := {|
  o_alloc := fun x a f => obind (o_alloc (self cs) (fst x) a f) (fun r => Done (fst (fst r), snd x, snd (fst r), snd r));
  o_alloc_input := fun x a f => obind (o_alloc_input (self cs) (fst x) a f) (fun r => Done (fst (fst r), snd x, snd (fst r), snd r));
  o_enforce := fun x n a b c => obind (o_enforce (self cs) (fst x) n a b c) (fun g => Done (g, snd x));
  o_push := fun x n => obind (o_push (root cs) (fst x) n) (fun g => Done (g, snd x));
  o_pop := fun x => obind (o_pop (root cs) (fst x)) (fun g => Done (g, snd x));
  o_enforce_equal := enforce_equal cs |}.
Definition multieq_of {G} (cs : Object G) : Object (G * MeSt (P := P)) := {| self := multieq_ops cs; root := multieq_ops cs |}.
(** src/gadgets/multieq.rs:60-66 [drop] *)
Definition drop_multieq {G} (cs : Object G) (x : G * MeSt (P := P)) : outcome G :=
  obind (if Nat.ltb 0 (me_used (snd x)) then accumulate cs x else Done x) (fun x => Done (fst x)).

(** What a gadget that holds [cs] does: it calls methods of [cs]; [namespace] gives it another object to call methods of, until that is dropped and it goes on with the
    one before ([outer]).  [cs.get_root().enforce_equal] is the only use of [get_root] (src/gadgets/uint32.rs:399). *)
Fixpoint act {G A} (outer : list (Object G)) (cs : Object G) (p : prog P A) (g : G) : outcome (A * G) :=
  match p with
  | Ret a => Done (a, g)
  | Panic => Panicked
  | Alloc n f k => obind (o_alloc (self cs) g n f) (fun x => act outer cs (k (snd (fst x)) (snd x)) (fst (fst x)))
  | AllocInput n f k => obind (o_alloc_input (self cs) g n f) (fun x => act outer cs (k (snd (fst x)) (snd x)) (fst (fst x)))
  | Enforce n a b c k => obind (o_enforce (self cs) g n a b c) (act outer cs k)
  | EnforceEq n l r k => obind (o_enforce_equal (root cs) g n l r) (act outer cs k)
  | PushNs n k => obind (enter cs g n) (act (cs :: outer) (inside cs) k)
  | PopNs k => obind (leave cs g) (match outer with [] => act [] cs k | before :: outer => act outer before k end)
  end.
(** A function that wraps the object it was given, [let mut cs = MultiEq::new(cs)], and drops it at its end *)
Definition act_multieq {G A} (cs : Object G) (p : prog P A) (g : G) : outcome (A * G) :=
  obind (act [] (multieq_of cs) p (g, me_new)) (fun x => obind (drop_multieq cs (snd x)) (fun g => Done (fst x, g))).
End Model.
Arguments o_alloc {P G}. Arguments o_alloc_input {P G}. Arguments o_enforce {P G}. Arguments o_push {P G}. Arguments o_pop {P G}. Arguments o_enforce_equal {P G}.
Arguments self {P G}. Arguments root {P G}.
