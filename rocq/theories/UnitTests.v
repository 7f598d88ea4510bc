(** The unit tests of the gadgets (the [#[cfg(test)]] modules of num.rs, lookup.rs, uint32.rs and multipack.rs). *)
From Coq Require Import String Ascii.
From Coq Require Import ZArith List Bool Lia.
From Verif Require Import Prelude PrimeField Circuit Loops BooleanGadget NumGadget MultiEq UInt32 LookupGadget Multipack TestCS.
Import ListNotations.
Local Open Scope nat_scope.

(** A test returns or panics.  [assert!], [unwrap] of a result and of an option. *)
Definition assert (b : bool) : outcome unit := if b then Done tt else Panicked.
Definition unwrap {A} (r : res A) : outcome A := match r with Ok a => Done a | Err _ => Panicked end.
Definition unwrap_o {A} (o : option A) : outcome A := match o with Some a => Done a | None => Panicked end.
(** [for i in from..from + n] *)
Fixpoint each (i n : nat) (f : nat -> outcome unit) : outcome unit :=
  match n with O => Done tt | S n => obind (f i) (fun _ => each (S i) n f) end.
Fixpoint all_of {A} (l : list A) (f : A -> outcome unit) : outcome unit :=
  match l with [] => Done tt | x :: l => obind (f x) (fun _ => all_of l f) end.
Notation "'do' x <- e ; k" := (obind e (fun x => k)) (at level 200, x pattern, e at level 100, k at level 200, right associativity).

Section Tests.
Context {P : PrimeField}.
Local Open Scope F_scope.
Local Open Scope prog_scope.
Local Open Scope string_scope.
Notation T := (TState P).

(** The calls of gadgets of a test, each with an [unwrap] of its own: it panics if one of them returns an error. *)
Definition circuit {A} (p : prog P (res A)) : outcome (A * T) :=
  do (r, cs) <- run TestCS p test_new; do a <- unwrap r; Done (a, cs).
Definition assert_satisfied (cs : T) : outcome unit := do b <- is_satisfied cs; assert b.
Definition assert_unsatisfied (cs : T) : outcome unit := do b <- is_satisfied cs; assert (negb b).

(** ** num.rs *)

(** num.rs:429-436 *)
Definition test_allocated_num : outcome unit :=
  do (_, cs) <- circuit (an_alloc (Ok fone)); do x <- t_get cs "num"; assert (feqb x fone).

(** num.rs:438-450, for a number [n] (3) and a wrong square [w] (10) *)
Definition test_num_squaring (n w : P) : outcome unit :=
  do ((_, n2), cs) <- circuit (let* n := an_alloc (Ok n) in let* n2 := an_square n in Ret (Ok (n, n2)));
  do _ <- assert_satisfied cs;
  do x <- t_get cs "squared num"; do _ <- assert (feqb x (n * n));
  do v <- unwrap_o (an_value n2); do _ <- assert (feqb v (n * n));
  do cs <- t_set cs "squared num" w; assert_unsatisfied cs.

(** num.rs:452-465, for numbers [n], [m] (12 and 10) and a wrong product [w] (121) *)
Definition test_num_multiplication (n m w : P) : outcome unit :=
  do ((_, _, n3), cs) <- circuit (let* n := ns "a" (an_alloc (Ok n)) in let* m := ns "b" (an_alloc (Ok m)) in
    let* n3 := an_mul n m in Ret (Ok (n, m, n3)));
  do _ <- assert_satisfied cs;
  do x <- t_get cs "product num"; do _ <- assert (feqb x (n * m));
  do v <- unwrap_o (an_value n3); do _ <- assert (feqb v (n * m));
  do cs <- t_set cs "product num" w; assert_unsatisfied cs.

(** num.rs:467-504, one of the two halves: [condition] is false, then true *)
Definition conditional_reversal (condition : bool) (x y : P) : outcome unit :=
  do ((a, b, (c, d)), cs) <- circuit (let* a := ns "a" (an_alloc (Ok x)) in let* b := ns "b" (an_alloc (Ok y)) in
    let* r := an_conditionally_reverse a b (BConst condition) in Ret (Ok (a, b, r)));
  do _ <- assert_satisfied cs;
  do a <- unwrap_o (an_value a); do b <- unwrap_o (an_value b); do c <- unwrap_o (an_value c); do d <- unwrap_o (an_value d);
  if condition then do _ <- assert (feqb a d); assert (feqb b c) else do _ <- assert (feqb a c); assert (feqb b d).
(** [draw]: the results of [Scalar::random] *)
Definition test_num_conditional_reversal (draw : nat -> P) : outcome unit :=
  do _ <- conditional_reversal false (draw 0%nat) (draw 1%nat); conditional_reversal true (draw 2%nat) (draw 3%nat).

(** num.rs:506-524, for a number [n] (3) and a wrong inverse [w] (3) *)
Definition test_num_nonzero (n w : P) : outcome unit :=
  do _ <- (do (_, cs) <- circuit (let* n := an_alloc (Ok n) in an_assert_nonzero n);
    do _ <- assert_satisfied cs;
    do cs <- t_set cs "ephemeral inverse" w;
    do o <- which_is_unsatisfied cs;
    assert (match o with Some path => String.eqb path "nonzero assertion constraint" | None => false end));
  do (n, cs) <- circuit (an_alloc (Ok fzero));
  do (r, _) <- run TestCS (an_assert_nonzero n) cs;
  assert (match r with Ok _ => false | Err _ => true end).

(** num.rs:526-545; the last of the bits that are allocated has number [num_bits - 1] (254 for [Scalar]) *)
Definition test_into_bits_strict : outcome unit :=
  do (_, cs) <- circuit (let* n := an_alloc (Ok (- fone : P)) in to_bits_le_strict n);
  do _ <- assert_satisfied cs;
  let name := "bit " ++ nat_str (num_bits P - 1) in
  do cs <- t_set cs (name ++ "/boolean") fone;
  do o <- which_is_unsatisfied cs;
  assert (match o with Some path => String.eqb path (name ++ "/boolean constraint") | None => false end).

(** num.rs:547-597: [r.to_le_bits().iter().by_vals().rev().skip(1).zip(bits.iter().rev())], the bits of the draw [r] in the representation
    of the field (255 + 1 of them for [Scalar]) *)
Definition check_bit (p : bool * Boolean) : outcome unit :=
  match snd p with BIs a => do v <- unwrap_o (ab_value a); assert (Bool.eqb (fst p) v) | _ => Panicked end.
Definition flip_bit (cs : T) (i : nat) : outcome T :=
  let name := "bit " ++ nat_str i ++ "/boolean" in
  do cur <- t_get cs name;
  do cs <- t_set cs name (1 - cur); do _ <- assert_unsatisfied cs;
  do cs <- t_set cs name cur; do _ <- assert_satisfied cs;
  Done cs.
Fixpoint flip_bits (i n : nat) (cs : T) : outcome T :=
  match n with O => Done cs | S n => do cs <- flip_bit cs i; flip_bits (S i) n cs end.
Definition into_bits_round (i : nat) (r other : P) : outcome unit :=
  do ((_, bits), cs) <- circuit (let* n := an_alloc (Ok r) in
    let* bits := if Nat.even i then to_bits_le n else to_bits_le_strict n in Ret (Ok (n, bits)));
  do _ <- assert_satisfied cs;
  do _ <- all_of (combine (skipn 1 (rev (to_le_bits r))) (rev bits)) check_bit;
  do cs <- t_set cs "num" other; do _ <- assert_unsatisfied cs;
  do cs <- t_set cs "num" r; do _ <- assert_satisfied cs;
  do _ <- flip_bits 0 (num_bits P) cs; Done tt.
(** 200 rounds, in each of which two numbers are drawn *)
Definition test_into_bits (draw : nat -> P * P) : outcome unit :=
  each 0 200 (fun i => into_bits_round i (fst (draw i)) (snd (draw i))).

(** ** lookup.rs; [next_u32() % 2 != 0] *)
Definition coin (z : Z) : bool := negb (Z.eqb (z mod 2) 0).
Definition three_bits (da db dc : Z) : prog P (res (list Boolean)) :=
  let* a := ns "a" (ab_alloc (Some (coin da))) in
  let* b := ns "b" (ab_alloc (Some (coin db))) in
  let* c := ns "c" (ab_alloc (Some (coin dc))) in
  Ret (Ok [BIs a; BIs b; BIs c]).
Definition plus_if (b : bool) (n k : nat) : nat := if b then (n + k)%nat else n.
(** lookup.rs:200-243 *)
Definition lookup3_round (da db dc : Z) (points : list (P * P)) : outcome unit :=
  do (r, cs) <- circuit (let* bits := three_bits da db dc in lookup3_xy bits points);
  do _ <- assert_satisfied cs;
  let index := plus_if (coin dc) (plus_if (coin db) (plus_if (coin da) 0 1) 2) 4 in
  do x <- unwrap_o (an_value (fst r)); do p <- unwrap_o (nth_error points index); do _ <- assert (feqb x (fst p));
  do y <- unwrap_o (an_value (snd r)); assert (feqb y (snd p)).
Definition test_lookup3_xy (coins : nat -> Z * Z * Z) (draw : nat -> nat -> P * P) : outcome unit :=
  each 0 100 (fun i => let '(da, db, dc) := coins i in lookup3_round da db dc (map (draw i) (seq 0 8))).
(** lookup.rs:245-289 *)
Definition lookup3_neg_round (da db dc : Z) (points : list (P * P)) : outcome unit :=
  do (r, cs) <- circuit (let* bits := three_bits da db dc in lookup3_xy_neg bits points);
  do _ <- assert_satisfied cs;
  let index := plus_if (coin db) (plus_if (coin da) 0 1) 2 in
  do x <- unwrap_o (num_value (fst r)); do p <- unwrap_o (nth_error points index); do _ <- assert (feqb x (fst p));
  let tmp := if coin dc then - snd p else snd p in
  do y <- unwrap_o (num_value (snd r)); assert (feqb y tmp).
Definition test_lookup3_xy_with_conditional_negation (coins : nat -> Z * Z * Z) (draw : nat -> nat -> P * P) : outcome unit :=
  each 0 100 (fun i => let '(da, db, dc) := coins i in lookup3_neg_round da db dc (map (draw i) (seq 0 4))).
(** lookup.rs:291-318; [j & b == j] *)
Definition test_synth (draw : nat -> P) : outcome unit :=
  let constants := map draw (seq 0 16) in
  let assignment := synth 4 constants in
  each 0 16 (fun b => do constant <- unwrap_o (nth_error constants b);
    assert (feqb (fold_left (fun acc ja => if Nat.eqb (Nat.land (fst ja) b) (fst ja) then acc + snd ja else acc) (combine (seq 0 (length assignment)) assignment) fzero) constant)).

(** ** multipack.rs:74-111, one of the 1500 rounds: [bits] are drawn, as many as the round has number *)
Definition multipack_round (bits : list bool) : outcome unit :=
  do (_, cs) <- circuit (let* circuit_bits := mapq (fun i b => let* a := ns ("bit " ++ nat_str i) (ab_alloc (Some b)) in Ret (Ok (BIs a))) 0 bits in
    ns "pack" (pack_into_inputs circuit_bits));
  do _ <- assert_satisfied cs;
  do ok <- t_verify cs (compute_multipacking bits); assert ok.
Definition test_multipacking (draw : nat -> nat -> Z) : outcome unit :=
  each 0 1500 (fun num_bits => multipack_round (map (fun j => coin (draw num_bits j)) (seq 0 num_bits))).

(** ** uint32.rs *)

(** uint32.rs:423-456 *)
Definition check_constant (value : option Z) (ib : nat * Boolean) : outcome unit :=
  match snd ib with BConst bit => do v <- unwrap_o value; assert (Bool.eqb bit (Z.eqb (Z.land (Z.shiftr v (Z.of_nat (fst ib))) 1) 1)) | _ => Panicked end.
Definition same_constants (x : Boolean * Boolean) : outcome unit :=
  match x with (BConst true, BConst true) | (BConst false, BConst false) => Done tt | _ => Panicked end.
Definition from_bits_round (from : list Boolean -> outcome UInt32) (into : UInt32 -> list Boolean) (draw : nat -> Z) : outcome unit :=
  let v := map (fun i => BConst (coin (draw i))) (seq 0 32) in
  do b <- from v;
  do _ <- all_of (combine (seq 0 (length (u_bits b))) (u_bits b)) (check_constant (u_value b));
  all_of (combine v (into b)) same_constants.
Definition test_uint32_from_bits_be (draw : nat -> nat -> Z) : outcome unit := each 0 1000 (fun i => from_bits_round from_bits_be into_bits_be (draw i)).
(** uint32.rs:458-491 *)
Definition test_uint32_from_bits (draw : nat -> nat -> Z) : outcome unit := each 0 1000 (fun i => from_bits_round from_bits into_bits (draw i)).

(** [for b in r.bits.iter()]: the bit has the value of the lowest bit of [expected], which is then shifted ([constants]: whether a constant may occur) *)
Fixpoint check_expected (constants variables : bool) (bits : list Boolean) (expected : Z) : outcome unit :=
  match bits with
  | [] => Done tt
  | b :: bits =>
      let low := Z.eqb (Z.land expected 1) 1 in
      do _ <- match b with
        | BIs a => if variables then do v <- unwrap_o (ab_value a); assert (Bool.eqb v low) else Panicked
        | BNot a => if variables then do v <- unwrap_o (ab_value a); assert (negb (Bool.eqb v low)) else Panicked
        | BConst v => if constants then assert (Bool.eqb v low) else Panicked
        end;
      check_expected constants variables bits (Z.shiftr expected 1)
  end.
Definition assert_value (w : UInt32) (expected : Z) : outcome unit := assert (match u_value w with Some v => Z.eqb v expected | None => false end).

(** uint32.rs:493-536 *)
Definition xor_round (a b c : Z) : outcome unit :=
  do (r, cs) <- circuit (let* a_bit := ns "a_bit" (u_alloc (Some a)) in let* c_bit := ns "c_bit" (u_alloc (Some c)) in
    let* r := ns "first xor" (u_xor a_bit (u_constant b)) in ns "second xor" (u_xor r c_bit));
  do _ <- assert_satisfied cs;
  let expected := Z.lxor (Z.lxor a b) c in
  do _ <- assert_value r expected; check_expected true true (u_bits r) expected.
Definition test_uint32_xor (draw : nat -> Z * Z * Z) : outcome unit := each 0 1000 (fun i => let '(a, b, c) := draw i in xor_round a b c).

(** [wrapping_add] *)
Definition wrapping_add (a b : Z) : Z := ((a + b) mod 2 ^ 32)%Z.
(** uint32.rs:538-579 *)
Definition addmany_constants_round (a b c : Z) : outcome unit :=
  do (r, cs) <- circuit (multieq_scope (ns "addition" (addmany [u_constant a; u_constant b; u_constant c])));
  let expected := wrapping_add (wrapping_add a b) c in
  do _ <- assert_value r expected; check_expected true false (u_bits r) expected.
Definition test_uint32_addmany_constants (draw : nat -> Z * Z * Z) : outcome unit := each 0 1000 (fun i => let '(a, b, c) := draw i in addmany_constants_round a b c).

(** uint32.rs:581-637 *)
Definition addmany_round (a b c d : Z) : outcome unit :=
  do ((_, _, r), cs) <- circuit (let* a_bit := ns "a_bit" (u_alloc (Some a)) in let* d_bit := ns "d_bit" (u_alloc (Some d)) in
    let* r := ns "xor" (u_xor a_bit (u_constant b)) in
    let* s := multieq_scope (ns "addition" (addmany [r; u_constant c; d_bit])) in Ret (Ok (a_bit, d_bit, s)));
  do _ <- assert_satisfied cs;
  let expected := wrapping_add (wrapping_add (Z.lxor a b) c) d in
  do _ <- assert_value r expected; do _ <- check_expected false true (u_bits r) expected;
  do x <- t_get cs "addition/result bit 0/boolean";
  do cs <- t_set cs "addition/result bit 0/boolean" (if feqb x fzero then fone else fzero);
  assert_unsatisfied cs.
Definition test_uint32_addmany (draw : nat -> Z * Z * Z * Z) : outcome unit := each 0 1000 (fun i => let '(a, b, c, d) := draw i in addmany_round a b c d).

(** uint32.rs:695-737, 739-782 *)
Definition triop_round (op : UInt32 -> UInt32 -> UInt32 -> prog P (res UInt32)) (f : Z -> Z -> Z -> Z) (a b c : Z) : outcome unit :=
  do (r, cs) <- circuit (let* a_bit := ns "a_bit" (u_alloc (Some a)) in let* c_bit := ns "c_bit" (u_alloc (Some c)) in op a_bit (u_constant b) c_bit);
  do _ <- assert_satisfied cs;
  let expected := f a b c in
  do _ <- assert_value r expected; check_expected true true (u_bits r) expected.
Definition test_uint32_sha256_maj (draw : nat -> Z * Z * Z) : outcome unit :=
  each 0 1000 (fun i => let '(a, b, c) := draw i in triop_round u_maj (fun a b c => Z.lxor (Z.lxor (Z.land a b) (Z.land a c)) (Z.land b c)) a b c).
Definition test_uint32_sha256_ch (draw : nat -> Z * Z * Z) : outcome unit :=
  each 0 1000 (fun i => let '(a, b, c) := draw i in triop_round u_ch (fun a b c => Z.lxor (Z.land a b) (Z.land (2 ^ 32 - 1 - a) c)) a b c).
End Tests.

(** uint32.rs:639-670; [num.rotate_right(1)] *)
Definition rotate_right_1 (v : Z) : Z := (v / 2 + v mod 2 * 2 ^ 31)%Z.
Fixpoint rotr_rounds (a : UInt32) (i n : nat) (num : Z) : outcome unit :=
  match n with
  | O => Done tt
  | S n =>
      let b := u_rotr a i in
      do _ <- assert (Nat.eqb (length (u_bits a)) (length (u_bits b)));
      do v <- unwrap_o (u_value b); do _ <- assert (Z.eqb v num);
      do _ <- check_expected true false (u_bits b) num;
      rotr_rounds a (S i) n (rotate_right_1 num)
  end.
Definition test_uint32_rotr (num : Z) : outcome unit := rotr_rounds (u_constant num) 0 32 num.

(** uint32.rs:672-692; [num.wrapping_shr(i)] *)
Definition wrapping_shr (v : Z) (i : nat) : Z := Z.shiftr v (Z.of_nat (Nat.modulo i 32)).
Definition shr_round (num : Z) (i : nat) : outcome unit :=
  let a := u_shr (u_constant num) i in
  let b := u_constant (wrapping_shr num i) in
  do v <- unwrap_o (u_value a); do _ <- assert (Z.eqb v (wrapping_shr num i));
  do _ <- assert (Nat.eqb (length (u_bits a)) (length (u_bits b)));
  all_of (combine (u_bits a) (u_bits b)) (fun p => do x <- unwrap_o (b_value (fst p)); do y <- unwrap_o (b_value (snd p)); assert (Bool.eqb x y)).
Definition test_uint32_shr (draw : nat -> nat -> Z) : outcome unit := each 0 50 (fun k => each 0 60 (fun i => shr_round (draw k i) i)).
