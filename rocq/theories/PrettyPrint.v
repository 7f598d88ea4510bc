(** [TestConstraintSystem::pretty_print]: src/gadgets/test/mod.rs:166-227. *)
From Coq Require Import String Ascii DecimalString.
From Coq Require Import ZArith List Bool.
From Verif Require Import Prelude PrimeField Circuit TestCS.
Import ListNotations.
Local Open Scope nat_scope.
Local Open Scope string_scope.

(** [Display] of [usize]: decimal digits *)
Definition dec (n : nat) : string := NilEmpty.string_of_uint (Nat.to_uint n).
Definition newline : string := String (ascii_of_nat 10) EmptyString.

Section Model.
Context {P : PrimeField}.
(** [{:?}] of a scalar, from the crate of the field *)
Variable debug : P -> string.

(** mod.rs:169 *)
Definition negone : P := fneg fone.
(** mod.rs:171-173 *)
Definition powers_of_two : list P := map (fun i => fpow (ofZ 2) i) (seq 0 (num_bits P)).

(** mod.rs:187-192: the first power that equals the coefficient is written, then [break] *)
Fixpoint write_power (s : string) (i : nat) (powers : list P) (coeff : P) : string :=
  match powers with
  | [] => s
  | x :: powers => if feqb x coeff then s ++ ("2^" ++ dec i ++ " . ") else write_power s (S i) powers coeff
  end.

(** mod.rs:178-205, one pass of the loop; indexing [self.inputs] or [self.aux] out of range panics *)
Definition pp_step (st : TState P) (s : string) (is_first : bool) (t : Var * P) : outcome string :=
  let '(var, coeff) := t in
  let s := if feqb coeff negone then s ++ " - " else if negb is_first then s ++ " + " else s in
  let s := if negb (feqb coeff fone) && negb (feqb coeff negone)
           then write_power s 0 powers_of_two coeff ++ (debug coeff ++ " . ") else s in
  match entry st var with
  | Some e => Done (s ++ ("`" ++ snd e ++ "`"))
  | None => Panicked
  end.
Fixpoint pp_loop (st : TState P) (s : string) (is_first : bool) (ts : list (Var * P)) : outcome (string * bool) :=
  match ts with
  | [] => Done (s, is_first)
  | t :: ts => obind (pp_step st s is_first t) (fun s => pp_loop st s false ts)
  end.
(** mod.rs:175-211, the closure [pp] *)
Definition pp (st : TState P) (s : string) (lc : LC P) : outcome string :=
  obind (pp_loop st (s ++ "(") true (proc_lc lc)) (fun r =>
  let '(s, is_first) := r in
  let s := if is_first : bool then s ++ "0" else s in
  Done (s ++ ")")).

(** mod.rs:213-222 *)
Definition pp_constraint (st : TState P) (s : string) (c : LC P * LC P * LC P * string) : outcome string :=
  let '(x, y, z, name) := c in
  let s := s ++ newline in
  let s := s ++ (name ++ ": ") in
  obind (pp st s x) (fun s =>
  let s := s ++ " * " in
  obind (pp st s y) (fun s =>
  let s := s ++ " = " in
  pp st s z)).
Fixpoint pp_constraints (st : TState P) (s : string) (cs : list (LC P * LC P * LC P * string)) : outcome string :=
  match cs with
  | [] => Done s
  | c :: cs => obind (pp_constraint st s c) (fun s => pp_constraints st s cs)
  end.
(** mod.rs:166-227 *)
Definition pretty_print (st : TState P) : outcome string :=
  obind (pp_constraints st "" (t_cons st)) (fun s => Done (s ++ newline)).
End Model.
