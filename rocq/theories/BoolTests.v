(** The unit tests of src/gadgets/boolean.rs and of src/gadgets/test/mod.rs. *)
From Coq Require Import String Ascii.
From Coq Require Import ZArith List Bool Lia.
From Verif Require Import Prelude PrimeField Circuit Loops BooleanGadget TestCS UnitTests.
Import ListNotations.
Local Open Scope nat_scope.

Section Tests.
Context {P : PrimeField}.
Local Open Scope F_scope.
Local Open Scope prog_scope.
Local Open Scope string_scope.
Notation T := (TState P).

Definition bools : list bool := [false; true].
Definition assert_eq_o (o : option bool) (b : bool) : outcome unit := assert (match o with Some x => Bool.eqb x b | None => false end).
Definition assert_get (cs : T) (path : string) (b : bool) : outcome unit := do x <- t_get cs path; assert (feqb x (fbit b)).
Definition assert_which (cs : T) (path : string) : outcome unit :=
  do o <- which_is_unsatisfied cs; assert (match o with Some x => String.eqb x path | None => false end).

(** boolean.rs:754-765 *)
Definition test_allocated_bit : outcome unit :=
  do (_, cs) <- circuit (ab_alloc (Some true));
  do x <- t_get cs "boolean"; do _ <- assert (feqb x 1);
  do _ <- assert_satisfied cs;
  do cs <- t_set cs "boolean" 0; do _ <- assert_satisfied cs;
  do cs <- t_set cs "boolean" (1 + 1); do _ <- assert_unsatisfied cs;
  assert_which cs "boolean constraint".

(** boolean.rs:767-801 and, with the other operations, 803-837, 839-873, 875-909: the body of the loops.
    [name] is the name of the variable of the result, [f] the expected result. *)
Definition two_bits_round (op : AllocatedBit -> AllocatedBit -> prog P (res AllocatedBit)) (name : string) (f : bool -> bool -> bool) (a b : bool) : outcome unit :=
  do (c, cs) <- circuit (let* a := ns "a" (ab_alloc (Some a)) in let* b := ns "b" (ab_alloc (Some b)) in op a b);
  do v <- unwrap_o (ab_value c); do _ <- assert (Bool.eqb v (f a b));
  do _ <- assert_satisfied cs;
  do _ <- assert_get cs "a/boolean" a; do _ <- assert_get cs "b/boolean" b; do _ <- assert_get cs name (f a b);
  do cs <- t_set cs name (fbit (negb (f a b)));
  assert_unsatisfied cs.
Definition test_two_bits op name f : outcome unit := all_of bools (fun a => all_of bools (fun b => two_bits_round op name f a b)).
Definition test_xor := test_two_bits ab_xor "xor result" xorb.
Definition test_and := test_two_bits ab_and "and result" andb.
Definition test_and_not := test_two_bits ab_and_not "and not result" (fun a b => andb a (negb b)).
Definition test_nor := test_two_bits ab_nor "nor result" (fun a b => andb (negb a) (negb b)).

(** boolean.rs:911-1002: an operand is a constant or a variable, and may be negated *)
Definition eq_operand (name : string) (constant value neg : bool) : prog P (res Boolean) :=
  let* x := if constant then Ret (Ok (BConst value)) else ns name (let* a := ab_alloc (Some value) in Ret (Ok (BIs a))) in
  Ret (Ok (if neg then b_not x else x)).
(** The first three parts: not both operands are constants. *)
Definition enforce_equal_part (ca cb a b na nb : bool) : outcome unit :=
  do (_, cs) <- circuit (let* x := eq_operand "a" ca a na in let* y := eq_operand "b" cb b nb in b_enforce_equal x y);
  do s <- is_satisfied cs; assert (Bool.eqb s (Bool.eqb (xorb a na) (xorb b nb))).
Definition enforce_equal_constants (a b na nb : bool) : outcome unit :=
  do (r, cs) <- run TestCS (let* x := eq_operand "a" true a na in let* y := eq_operand "b" true b nb in b_enforce_equal x y) test_new;
  if Bool.eqb (xorb a na) (xorb b nb)
  then do _ <- assert (match r with Ok _ => true | Err _ => false end); assert_satisfied cs
  else assert (match r with Ok _ => false | Err _ => true end).
Definition test_enforce_equal : outcome unit :=
  all_of bools (fun a => all_of bools (fun b => all_of bools (fun na => all_of bools (fun nb =>
    do _ <- enforce_equal_part false false a b na nb; do _ <- enforce_equal_part true false a b na nb;
    do _ <- enforce_equal_part false true a b na nb; enforce_equal_constants a b na nb)))).

(** boolean.rs:1004-1048 *)
Definition is_is (b : Boolean) : bool := match b with BIs _ => true | _ => false end.
Definition is_not (b : Boolean) : bool := match b with BNot _ => true | _ => false end.
Definition is_const (v : bool) (b : Boolean) : bool := match b with BConst x => Bool.eqb x v | _ => false end.
Definition test_boolean_negation : outcome unit :=
  do (b, _) <- circuit (P := P) (let* a := ab_alloc (Some true) in Ret (Ok (BIs a)));
  do _ <- assert (is_is b);
  let b := b_not b in do _ <- assert (is_not b);
  let b := b_not b in do _ <- assert (is_is b);
  let b := BConst true in do _ <- assert (is_const true b);
  let b := b_not b in do _ <- assert (is_const false b);
  let b := b_not b in assert (is_const true b).

(** boolean.rs:1050-1083 [OperandType] *)
Inductive OperandType := OTrue | OFalse | AllocatedTrue | AllocatedFalse | NegatedAllocatedTrue | NegatedAllocatedFalse.
Definition o_is_constant (o : OperandType) : bool := match o with OTrue | OFalse => true | _ => false end.
Definition o_val (o : OperandType) : bool := match o with OTrue | AllocatedTrue | NegatedAllocatedFalse => true | _ => false end.
Definition variants : list OperandType := [OTrue; OFalse; AllocatedTrue; AllocatedFalse; NegatedAllocatedTrue; NegatedAllocatedFalse].
(** boolean.rs:1103-1123 [dyn_construct] *)
Definition construct (o : OperandType) (name : string) : prog P (res Boolean) :=
  ns name (match o with
    | OTrue => Ret (Ok (BConst true))
    | OFalse => Ret (Ok (BConst false))
    | AllocatedTrue => let* a := ab_alloc (Some true) in Ret (Ok (BIs a))
    | AllocatedFalse => let* a := ab_alloc (Some false) in Ret (Ok (BIs a))
    | NegatedAllocatedTrue => let* a := ab_alloc (Some true) in Ret (Ok (b_not (BIs a)))
    | NegatedAllocatedFalse => let* a := ab_alloc (Some false) in Ret (Ok (b_not (BIs a)))
    end).

(** What the tables of boolean.rs:1133-1287 and 1341-1514 expect: a constant, [Is] or [Not], the last two with the
    value of the variable and of the bit where the table has them.  The 36 lines of each table are grouped here by the
    kinds of the operands. *)
Inductive expected := EConst (b : bool) | EIs (v : option (string * bool)) | ENot (v : option (string * bool)).
Definition raw (o : OperandType) : bool := match o with AllocatedTrue | NegatedAllocatedTrue => true | _ => false end.
Definition negated (o : OperandType) : bool := match o with NegatedAllocatedTrue | NegatedAllocatedFalse => true | _ => false end.
Definition kind (neg : bool) (v : option (string * bool)) : expected := if neg then ENot v else EIs v.
Definition xor_table (x y : OperandType) : expected :=
  match o_is_constant x, o_is_constant y with
  | true, true => EConst (xorb (o_val x) (o_val y))
  | true, false => kind (xorb (o_val x) (negated y)) None
  | false, true => kind (xorb (o_val y) (negated x)) None
  | false, false => kind (xorb (negated x) (negated y)) (Some ("xor result", xorb (raw x) (raw y)))
  end.
Definition and_table (x y : OperandType) : expected :=
  match x, y with
  | OFalse, _ | _, OFalse => EConst false
  | OTrue, OTrue => EConst true
  | OTrue, y => kind (negated y) None
  | x, OTrue => kind (negated x) None
  | x, y =>
      EIs (Some (match negated x, negated y with
        | false, false => "and result" | true, true => "nor result" | _, _ => "and not result" end, o_val x && o_val y))
  end.
Definition check_bit_value (cs : T) (a : AllocatedBit) (v : option (string * bool)) : outcome unit :=
  match v with
  | None => Done tt
  | Some (name, b) => do _ <- assert_get cs name b; assert_eq_o (ab_value a) b
  end.
Definition check_table (cs : T) (e : expected) (c : Boolean) : outcome unit :=
  match e, c with
  | EConst b, BConst b' => assert (Bool.eqb b b')
  | EIs v, BIs a => check_bit_value cs a v
  | ENot v, BNot a => check_bit_value cs a v
  | _, _ => Panicked
  end.
(** boolean.rs:1085-1292, 1294-1524 *)
Definition table_round (op : Boolean -> Boolean -> prog P (res Boolean)) (table : OperandType -> OperandType -> expected) (x y : OperandType) : outcome unit :=
  do (c, cs) <- circuit (let* a := construct x "a" in let* b := construct y "b" in op a b);
  do _ <- assert_satisfied cs;
  check_table cs (table x y) c.
Definition test_table op table : outcome unit := all_of variants (fun x => all_of variants (fun y => table_round op table x y)).
Definition test_boolean_xor := test_table b_xor xor_table.
Definition test_boolean_and := test_table b_and and_table.

(** boolean.rs:1526-1545, for any number and any list of positions and expected bits *)
Definition test_u64_into_boolean_vec_le (v : Z) (checks : list (nat * bool)) : outcome unit :=
  do (bits, cs) <- circuit (P := P) (u64_into_boolean_vec_le (Some v));
  do _ <- assert_satisfied cs;
  do _ <- assert (Nat.eqb (List.length bits) 64);
  all_of checks (fun ib => do x <- unwrap_o (nth_error bits (fst ib)); do v <- unwrap_o (b_value x); assert (Bool.eqb v (snd ib))).
(** boolean.rs:1547-1570, likewise; [num_bits] is 255 for [Scalar] *)
Definition test_field_into_allocated_bits_le (r : P) (checks : list (nat * bool)) : outcome unit :=
  do (bits, cs) <- circuit (P := P) (field_into_allocated_bits_le P (Some r));
  do _ <- assert_satisfied cs;
  do _ <- assert (Nat.eqb (List.length bits) (num_bits P));
  all_of checks (fun ib => do x <- unwrap_o (nth_error bits (fst ib)); do v <- unwrap_o (ab_value x); assert (Bool.eqb v (snd ib))).

(** boolean.rs:1572-1661, 1663-1753 *)
Definition three_round (op : Boolean -> Boolean -> Boolean -> prog P (res Boolean)) (name : string) (f : bool -> bool -> bool -> bool) (x y z : OperandType) : outcome unit :=
  do (m, cs) <- circuit (let* a := construct x "a" in let* b := construct y "b" in let* c := construct z "c" in op a b c);
  do _ <- assert_satisfied cs;
  let expected := f (o_val x) (o_val y) (o_val z) in
  do v <- unwrap_o (b_value m); do _ <- assert (Bool.eqb v expected);
  if o_is_constant x || o_is_constant y || o_is_constant z then
    if o_is_constant x && o_is_constant y && o_is_constant z then assert (Nat.eqb (num_constraints cs) 0) else Done tt
  else
    do _ <- assert_get cs name expected;
    do cs <- t_set cs name (fbit (negb expected));
    assert_which cs (name ++ " computation").
Definition test_three op name f : outcome unit :=
  all_of variants (fun x => all_of variants (fun y => all_of variants (fun z => three_round op name f x y z))).
Definition test_boolean_sha256_ch := test_three b_ch "ch" (fun a b c => xorb (a && b) (negb a && c)).
Definition test_boolean_sha256_maj := test_three b_maj "maj" (fun a b c => xorb (xorb (a && b) (a && c)) (b && c)).

(** boolean.rs:1755-1821 *)
Definition conditional_bit (value : option bool) (b : bool) : prog P (res AllocatedBit) :=
  let* b := ab_alloc (Some b) in ns "alloc_conditionally" (ab_alloc_conditionally value b).
Definition test_alloc_conditionally : outcome unit :=
  do _ <- (do (b, cs) <- circuit (P := P) (ab_alloc (Some false));
    do (r, _) <- run TestCS (ns "alloc_conditionally" (ab_alloc_conditionally None b)) cs; assert (match r with Ok _ => false | Err _ => true end));
  do _ <- (do (x, cs) <- circuit (conditional_bit (Some true) false); do v <- unwrap_o (ab_value x); do _ <- assert v; assert_satisfied cs);
  do _ <- (do (_, cs) <- circuit (conditional_bit (Some true) true); assert_unsatisfied cs);
  do _ <- (do (_, cs) <- circuit (conditional_bit (Some false) false); assert_satisfied cs);
  do (_, cs) <- circuit (conditional_bit (Some false) true); assert_satisfied cs.

(** src/gadgets/test/mod.rs:431-472, for any values: [a] (10), [b] (4), [product] (40), [a'] (4), [product'] (16); [hehe] is 1 *)
Definition in_circuit {A} (cs : T) (p : prog P (res A)) : outcome (A * T) := do (r, cs) <- run TestCS p cs; do a <- unwrap r; Done (a, cs).
Definition test_cs (a b product a' product' : P) : outcome unit :=
  let cs := test_new in
  do _ <- assert_satisfied cs; do _ <- assert (Nat.eqb (num_constraints cs) 0);
  do ((va, _), cs) <- in_circuit cs (ns "a" (cs_alloc "var" (Ok a)));
  do ((vb, _), cs) <- in_circuit cs (ns "b" (cs_alloc "var" (Ok b)));
  do ((vc, _), cs) <- in_circuit cs (cs_alloc "product" (Ok product));
  do (_, cs) <- run TestCS (cs_enforce "mult" (lc_add_var lc_zero va) (lc_add_var lc_zero vb) (lc_add_var lc_zero vc)) cs;
  do _ <- assert_satisfied cs; do _ <- assert (Nat.eqb (num_constraints cs) 1);
  do cs <- t_set cs "a/var" a';
  do (_, cs) <- run TestCS (cs_enforce "eq" (lc_add_var lc_zero va) (lc_add_var lc_zero one_var) (lc_add_var lc_zero vb)) cs;
  do _ <- assert_unsatisfied cs; do _ <- assert_which cs "mult";
  do x <- t_get cs "product"; do _ <- assert (feqb x product);
  do cs <- t_set cs "product" product'; do _ <- assert_satisfied cs;
  do (_, cs) <- in_circuit cs (ns "test1" (ns "test2" (cs_alloc "hehe" (Ok 1))));
  do x <- t_get cs "test1/test2/hehe"; assert (feqb x 1).
End Tests.
