(** Circuits put together from the gadgets: straight-line programs whose statements are calls of gadget functions on earlier results.
    Not a file of /repo: a description of the circuits that a user of the crate can write with the functions of src/gadgets/.  [circuit] makes
    the calls (as the method [Circuit::synthesize] of such a user would, src/lib.rs:156-159); [meaning] says what they are for, without
    constraint systems. *)
From Coq Require Import String.
From Coq Require Import ZArith List Bool.
From Verif Require Import Prelude PrimeField Circuit Loops BooleanGadget NumGadget LookupGadget Multipack MultiEq UInt32 Sha256Spec Sha256 Blake2sSpec Blake2s Spec.
Import ListNotations.
Local Open Scope nat_scope.

(** The methods of [AllocatedBit] with two operands. *)
Inductive gate := GXor | GAnd | GAndNot | GNor.
(** Numbers in statements are positions in the list of the results so far. *)
Inductive stmt {P : PrimeField} :=
| SBit                                   (* a bit that only the prover knows *)
| SNum                                   (* a number that only the prover knows *)
| SAllocated                             (* a bit that only the prover knows, as an [AllocatedBit] *)
| SUnless (i : nat)                      (* the same, but not set if that one is *)
| SGate (g : gate) (i j : nat)           (* on [AllocatedBit]s *)
| SFrom (i : nat)                        (* [Boolean::from] *)
| SConst (b : bool)
| SNot (i : nat)
| SAnd (i j : nat)
| SXor (i j : nat)
| SCh (i j k : nat)
| SMaj (i j k : nat)
| SAdd (words : list (list nat))         (* from two to ten words of 32 bits, least significant first *)
| SWord                                  (* the 32 bits of an integer that only the prover knows *)
| SLong                                  (* the 64 bits of an integer that only the prover knows *)
| SWordXor (a b : list nat)              (* words of 32 bits *)
| SWordCh (a b c : list nat)
| SWordMaj (a b c : list nat)
| SRotr (a : list nat) (n : nat)
| SShr (a : list nat) (n : nat)
| SBlock (bits : list nat)               (* one block of 512 bits without padding *)
| SSha256 (bits : list nat)
| SBlake2s (bits : list nat) (personalization : list Z)
| SMul (i j : nat)
| SSquare (i : nat)
| SSwap (i j c : nat)                    (* two numbers, exchanged if the bit is set *)
| SLookup (i j k : nat) (table : list (P * P))
| SLookupNeg (i j k : nat) (table : list (P * P))  (* an entry of four, as linear combinations; the second part negated if the third bit is set *)
| SZero                                  (* linear combinations of one's own *)
| SOf (i : nat)
| SAddBit (i j : nat) (coeff : P)
| SBits (i : nat)                        (* the bits of a number *)
| SLinear (a b c : P * list (P * nat))   (* a constraint of one's own: a * b = c, each a constant plus multiples of results *)
| SNonzero (i : nat)
| SEqual (i j : nat)                     (* two bits are the same *)
| SInput (i : nat)                       (* make a number public *)
| SPack (bits : list nat).               (* make bits public, packed into numbers *)
Arguments stmt : clear implicits.

Definition pick {A B} (proj : A -> option B) (l : list A) (i : nat) : option B :=
  match nth_error l i with Some a => proj a | None => None end.
Fixpoint picks {A B} (proj : A -> option B) (l : list A) (is : list nat) : option (list B) :=
  match is with
  | [] => Some []
  | i :: t => match pick proj l i, picks proj l t with Some b, Some bs => Some (b :: bs) | _, _ => None end
  end.
Fixpoint all_some {A} (l : list (option A)) : option (list A) :=
  match l with
  | [] => Some []
  | o :: t => match o, all_some t with Some a, Some r => Some (a :: r) | _, _ => None end
  end.

(** ** What programs mean *)
Section Meaning.
Context {P : PrimeField}.
Local Open Scope F_scope.

(** A bit, an allocated bit, an allocated number, a linear combination, and (only among the values that the prover contributes) an integer. *)
Inductive val := VBit (b : bool) | VABit (b : bool) | VNum (x : P) | VLin (x : P) | VInt (z : Z).
Definition v_bit (v : val) : option bool := match v with VBit b => Some b | _ => None end.
Definition v_abit (v : val) : option bool := match v with VABit b => Some b | _ => None end.
Definition v_num (v : val) : option P := match v with VNum x => Some x | _ => None end.
Definition v_lin (v : val) : option P := match v with VLin x => Some x | _ => None end.
Definition v_int (v : val) : option Z := match v with VInt z => Some z | _ => None end.
Definition as_number (v : val) : P := match v with VBit b | VABit b => if b then 1 else 0 | VNum x | VLin x => x | VInt z => ofZ z end.

Definition at_least_two (x y z : bool) : bool := Nat.leb 2 ((if x then 1 else 0) + (if y then 1 else 0) + (if z then 1 else 0))%nat.
Definition gate_bit (g : gate) (x y : bool) : bool :=
  match g with GXor => negb (eqb x y) | GAnd => x && y | GAndNot => x && negb y | GNor => negb (x || y) end.
Definition is_byte (b : Z) : bool := ((0 <=? b) && (b <? 256))%Z.
Definition fits_in (bits : nat) (z : Z) : bool := ((0 <=? z) && (z <? 2 ^ Z.of_nat bits))%Z.
Definition zip3 {A B C D} (f : A -> B -> C -> D) (a : list A) (b : list B) (c : list C) : list D := map (fun x => f (fst (fst x)) (snd (fst x)) (snd x)) (combine (combine a b) c).
(** A constant plus multiples of results. *)
Fixpoint lin_terms (vals : list val) (l : list (P * nat)) : option P :=
  match l with
  | [] => Some 0
  | (c, i) :: t => match nth_error vals i, lin_terms vals t with Some v, Some r => Some (c * as_number v + r) | _, _ => None end
  end.
Definition lin_value (vals : list val) (l : P * list (P * nat)) : option P := option_map (fun r => fst l + r) (lin_terms vals (snd l)).
Definition packed_bits (bits : list bool) : list P := map (fun c => ofZ (le_value c)) (chunks (capacity P) bits).

(** New results and new public numbers; [w] is what the prover contributes to this statement. *)
Definition effect := (list val * list P)%type.
Definition guard {A} (b : bool) (o : option A) : option A := if b then o else None.
Definition opt {A B} (o : option A) (f : A -> option B) : option B := match o with Some a => f a | None => None end.

Definition step (w : option val) (vals : list val) (st : stmt P) : option effect :=
  let bit := pick v_bit vals in
  let num := pick v_num vals in
  let bits := picks v_bit vals in
  let word := fun is => opt (bits is) (fun l => guard (Nat.eqb (length l) 32) (Some l)) in
  let lin := pick v_lin vals in
  let abit := pick v_abit vals in
  match st with
  | SBit => opt w (fun v => opt (v_bit v) (fun b => Some ([VBit b], [])))
  | SNum => opt w (fun v => opt (v_num v) (fun x => Some ([VNum x], [])))
  | SAllocated => opt w (fun v => opt (v_bit v) (fun b => Some ([VABit b], [])))
  | SUnless i => opt w (fun v => opt (v_bit v) (fun b => opt (abit i) (fun x => guard (negb (x && b)) (Some ([VABit b], [])))))
  | SGate g i j => opt (abit i) (fun x => opt (abit j) (fun y => Some ([VABit (gate_bit g x y)], [])))
  | SFrom i => opt (abit i) (fun x => Some ([VBit x], []))
  | SConst b => Some ([VBit b], [])
  | SNot i => opt (bit i) (fun x => Some ([VBit (negb x)], []))
  | SAnd i j => opt (bit i) (fun x => opt (bit j) (fun y => Some ([VBit (andb x y)], [])))
  | SXor i j => opt (bit i) (fun x => opt (bit j) (fun y => Some ([VBit (negb (eqb x y))], [])))
  | SCh i j k => opt (bit i) (fun x => opt (bit j) (fun y => opt (bit k) (fun z => Some ([VBit (if x then y else z)], []))))
  | SMaj i j k => opt (bit i) (fun x => opt (bit j) (fun y => opt (bit k) (fun z => Some ([VBit (at_least_two x y z)], []))))
  | SAdd words => opt (all_some (map bits words)) (fun ws =>
      guard (forallb (fun w => Nat.eqb (length w) 32) ws && Nat.leb 2 (length ws) && Nat.leb (length ws) 10)
        (Some (map VBit (bits_of 32 (fold_right (fun w s => le_value w + s) 0 ws mod 2 ^ 32)%Z), [])))
  | SWord => opt w (fun v => opt (v_int v) (fun z => guard (fits_in 32 z) (Some (map VBit (bits_of 32 z), []))))
  | SLong => opt w (fun v => opt (v_int v) (fun z => guard (fits_in 64 z) (Some (map VBit (bits_of 64 z), []))))
  | SWordXor a b => opt (word a) (fun x => opt (word b) (fun y => Some (map VBit (map (fun c => negb (eqb (fst c) (snd c))) (combine x y)), [])))
  | SWordCh a b c => opt (word a) (fun x => opt (word b) (fun y => opt (word c) (fun z => Some (map VBit (zip3 (fun s t e => if s : bool then t else e) x y z), []))))
  | SWordMaj a b c => opt (word a) (fun x => opt (word b) (fun y => opt (word c) (fun z => Some (map VBit (zip3 at_least_two x y z), []))))
  | SRotr a n => opt (word a) (fun x => Some (map VBit (skipn (n mod 32) x ++ firstn (n mod 32) x), []))
  | SShr a n => opt (word a) (fun x => Some (map VBit (skipn (n mod 32) x ++ repeat false (n mod 32)), []))
  | SBlock is => opt (bits is) (fun m => guard (Nat.eqb (length m) 512) (Some (map VBit (sha256_block_spec m), [])))
  | SSha256 is => opt (bits is) (fun m => guard (Nat.eqb (length m mod 8) 0) (Some (map VBit (sha256_spec m), [])))
  | SBlake2s is person => opt (bits is) (fun m =>
      guard (Nat.eqb (length m mod 8) 0 && Nat.eqb (length person) 8 && forallb is_byte person)
        (Some (map VBit (bits_of_bytes (blake2s_spec person (bytes_of_bits m))), [])))
  | SMul i j => opt (num i) (fun x => opt (num j) (fun y => Some ([VNum (x * y)], [])))
  | SSquare i => opt (num i) (fun x => Some ([VNum (x * x)], []))
  | SSwap i j c => opt (num i) (fun x => opt (num j) (fun y => opt (bit c) (fun b => Some (if b then [VNum y; VNum x] else [VNum x; VNum y], []))))
  | SLookup i j k table => opt (bit i) (fun x => opt (bit j) (fun y => opt (bit k) (fun z =>
      guard (Nat.eqb (length table) 8) (opt (nth_error table (Z.to_nat (le_value [x; y; z]))) (fun e => Some ([VNum (fst e); VNum (snd e)], []))))))
  | SLookupNeg i j k table => opt (bit i) (fun x => opt (bit j) (fun y => opt (bit k) (fun z =>
      guard (Nat.eqb (length table) 4) (opt (nth_error table (Z.to_nat (le_value [x; y]))) (fun e => Some ([VLin (fst e); VLin (if z then - snd e else snd e)], []))))))
  | SZero => Some ([VLin 0], [])
  | SOf i => opt (num i) (fun x => Some ([VLin x], []))
  | SAddBit i j coeff => opt (lin i) (fun x => opt (bit j) (fun b => Some ([VLin (if b then x + coeff else x)], [])))
  | SBits i => opt (num i) (fun x => Some (map VBit (bits_of (num_bits P) (toZ x)), []))
  | SLinear a b c => opt (lin_value vals a) (fun x => opt (lin_value vals b) (fun y => opt (lin_value vals c) (fun z =>
      guard (feqb (x * y) z) (Some ([], [])))))
  | SNonzero i => opt (num i) (fun x => guard (negb (feqb x 0)) (Some ([], [])))
  | SEqual i j => opt (bit i) (fun x => opt (bit j) (fun y => guard (eqb x y) (Some ([], []))))
  | SInput i => opt (num i) (fun x => Some ([], [x]))
  | SPack is => opt (bits is) (fun m => Some ([], packed_bits m))
  end.

(** The public numbers of a run; [None] if a condition is not met (or the program is no program). *)
Fixpoint meaning (w : list (option val)) (vals : list val) (code : list (stmt P)) : option (list P) :=
  match code with
  | [] => Some []
  | st :: t => opt (step (hd None w) vals st) (fun e => opt (meaning (tl w) (vals ++ fst e) t) (fun outs => Some (snd e ++ outs)))
  end.
End Meaning.
Arguments val : clear implicits.

(** ** The circuit *)
Section Model.
Context {P : PrimeField}.
Local Open Scope prog_scope.
Local Open Scope string_scope.

(** What the calls return. *)
Inductive reg := RBit (b : Boolean) | RABit (a : AllocatedBit) | RNum (a : AllocatedNum P) | RLin (n : Num P).
Definition r_bit (r : reg) : option Boolean := match r with RBit b => Some b | _ => None end.
Definition r_abit (r : reg) : option AllocatedBit := match r with RABit a => Some a | _ => None end.
Definition r_num (r : reg) : option (AllocatedNum P) := match r with RNum a => Some a | _ => None end.
Definition r_lin (r : reg) : option (Num P) := match r with RLin n => Some n | _ => None end.

(** A program that is none (it would not compile): a panic. *)
Definition have {A B} (o : option A) (k : A -> prog P B) : prog P B := match o with Some a => k a | None => Panic end.
Definition done {A} (o : outcome A) : option A := match o with Done a => Some a | Panicked => None end.

(** [lc + (c, CS::one()) + (k, x.get_variable()) + &b.lc(CS::one(), k) + &num.lc(k) ...] *)
Fixpoint lin_lc (regs : list reg) (l : list (P * nat)) (acc : LC P) : option (LC P) :=
  match l with
  | [] => Some acc
  | (c, i) :: t => match nth_error regs i with
                   | Some (RBit b) => lin_lc regs t (lc_add_lc acc (b_lc b one_var c))
                   | Some (RABit a) => lin_lc regs t (lc_add_term acc c (ab_var a))
                   | Some (RNum a) => lin_lc regs t (lc_add_term acc c (an_var a))
                   | Some (RLin n) => lin_lc regs t (lc_add_lc acc (num_lc n c))
                   | None => None
                   end
  end.
Definition lin_of (regs : list reg) (l : P * list (P * nat)) : option (LC P) := lin_lc regs (snd l) (lc_add_term lc_zero (fst l) one_var).

Definition new_bits (p : prog P (res (list Boolean))) : prog P (res (list reg)) := let* l := p in Ret (Ok (map RBit l)).
Definition new_bit (p : prog P (res Boolean)) : prog P (res (list reg)) := let* b := p in Ret (Ok [RBit b]).
Definition new_abit (p : prog P (res AllocatedBit)) : prog P (res (list reg)) := let* a := p in Ret (Ok [RABit a]).
Definition new_num (p : prog P (res (AllocatedNum P))) : prog P (res (list reg)) := let* a := p in Ret (Ok [RNum a]).
Definition new_nums (p : prog P (res (AllocatedNum P * AllocatedNum P))) : prog P (res (list reg)) := let* x := p in Ret (Ok [RNum (fst x); RNum (snd x)]).
Definition new_lins (p : prog P (res (Num P * Num P))) : prog P (res (list reg)) := let* x := p in Ret (Ok [RLin (fst x); RLin (snd x)]).
Definition new_word (p : prog P (res UInt32)) : prog P (res (list reg)) := let* w := p in Ret (Ok (map RBit (into_bits w))).
(** The integer that the prover has for an argument of type [Option<u32>] or [Option<u64>]. *)
Definition given_int (bits : nat) (w : option (val P)) : option Z := match w with Some (VInt z) => if fits_in bits z then Some z else None | _ => None end.
Definition given_bit (w : option (val P)) : option bool := match w with Some (VBit b) => Some b | _ => None end.
Definition ab_gate (g : gate) : AllocatedBit -> AllocatedBit -> prog P (res AllocatedBit) :=
  match g with GXor => ab_xor | GAnd => ab_and | GAndNot => ab_and_not | GNor => ab_nor end.
Definition no_result (p : prog P (res unit)) : prog P (res (list reg)) := let* _ := p in Ret (Ok []).

(** The functions called, in the order of the cases (src/gadgets/): AllocatedBit::alloc and Boolean::from (boolean.rs:70-102, 739-743), AllocatedNum::alloc
    (num.rs:26-47), AllocatedBit::alloc, alloc_conditionally, xor, and, and_not, nor (boolean.rs:29-266), Boolean::from, constant, not, and, xor, sha256_ch,
    sha256_maj (boolean.rs:450-729), UInt32::from_bits, addmany, into_bits (uint32.rs:114-164, 308-409), alloc (uint32.rs:46-77), u64_into_boolean_vec_le
    (boolean.rs:269-298), UInt32::xor, sha256_ch, sha256_maj, rotr, shr (uint32.rs:166-305), sha256_block_no_padding, sha256 (sha256.rs:29-74), blake2s
    (blake2s.rs:315-377), AllocatedNum::mul, square, conditionally_reverse (num.rs:221-282, 317-357), lookup3_xy, lookup3_xy_with_conditional_negation
    (lookup.rs:31-186), Num::zero, from, add_bool_with_coeff (num.rs:373-417), to_bits_le_strict (num.rs:70-192), ConstraintSystem::enforce with
    Boolean::lc, get_variable and Num::lc, assert_nonzero (num.rs:284-311), Boolean::enforce_equal (boolean.rs:375-419), inputize (num.rs:49-65),
    pack_into_inputs (multipack.rs:11-36).  Simplification: an operand of type UInt32 is made from bits for each call. *)
Definition statement (w : option (val P)) (regs : list reg) (st : stmt P) : prog P (res (list reg)) :=
  let bit := pick r_bit regs in
  let num := pick r_num regs in
  let bits := picks r_bit regs in
  let word := fun is => opt (bits is) (fun l => done (from_bits l)) in
  let lin := pick r_lin regs in
  let abit := pick r_abit regs in
  match st with
  | SBit => new_bit (let* a := ab_alloc (given_bit w) in Ret (Ok (BIs a)))
  | SNum => new_num (an_alloc (match w with Some (VNum x) => Ok x | _ => Err AssignmentMissing end))
  | SAllocated => new_abit (ab_alloc (given_bit w))
  | SUnless i => have (abit i) (fun a => new_abit (ab_alloc_conditionally (given_bit w) a))
  | SGate g i j => have (abit i) (fun a => have (abit j) (fun b => new_abit (ab_gate g a b)))
  | SFrom i => have (abit i) (fun a => Ret (Ok [RBit (BIs a)]))
  | SConst b => Ret (Ok [RBit (BConst b)])
  | SNot i => have (bit i) (fun a => Ret (Ok [RBit (b_not a)]))
  | SAnd i j => have (bit i) (fun a => have (bit j) (fun b => new_bit (b_and a b)))
  | SXor i j => have (bit i) (fun a => have (bit j) (fun b => new_bit (b_xor a b)))
  | SCh i j k => have (bit i) (fun a => have (bit j) (fun b => have (bit k) (fun c => new_bit (b_ch a b c))))
  | SMaj i j k => have (bit i) (fun a => have (bit j) (fun b => have (bit k) (fun c => new_bit (b_maj a b c))))
  | SAdd words => have (all_some (map bits words)) (fun ws => have (all_some (map (fun w => done (from_bits w)) ws)) (fun ops =>
      new_bits (let* r := multieq_scope (addmany ops) in Ret (Ok (into_bits r)))))
  | SWord => new_word (u_alloc (given_int 32 w))
  | SLong => new_bits (u64_into_boolean_vec_le (given_int 64 w))
  | SWordXor a b => have (word a) (fun a => have (word b) (fun b => new_word (u_xor a b)))
  | SWordCh a b c => have (word a) (fun a => have (word b) (fun b => have (word c) (fun c => new_word (u_ch a b c))))
  | SWordMaj a b c => have (word a) (fun a => have (word b) (fun b => have (word c) (fun c => new_word (u_maj a b c))))
  | SRotr a n => have (word a) (fun a => Ret (Ok (map RBit (into_bits (u_rotr a n)))))
  | SShr a n => have (word a) (fun a => Ret (Ok (map RBit (into_bits (u_shr a n)))))
  | SBlock is => have (bits is) (fun m => new_bits (sha256_block_no_padding m))
  | SSha256 is => have (bits is) (fun m => new_bits (sha256 m))
  | SBlake2s is person => have (bits is) (fun m => if forallb is_byte person then new_bits (blake2s m person) else Panic)
  | SMul i j => have (num i) (fun a => have (num j) (fun b => new_num (an_mul a b)))
  | SSquare i => have (num i) (fun a => new_num (an_square a))
  | SSwap i j c => have (num i) (fun a => have (num j) (fun b => have (bit c) (fun c => new_nums (an_conditionally_reverse a b c))))
  | SLookup i j k table => have (bit i) (fun a => have (bit j) (fun b => have (bit k) (fun c => new_nums (lookup3_xy [a; b; c] table))))
  | SLookupNeg i j k table => have (bit i) (fun a => have (bit j) (fun b => have (bit k) (fun c => new_lins (lookup3_xy_neg [a; b; c] table))))
  | SZero => Ret (Ok [RLin num_zero])
  | SOf i => have (num i) (fun a => Ret (Ok [RLin (num_of_allocated a)]))
  | SAddBit i j coeff => have (lin i) (fun n => have (bit j) (fun b => Ret (Ok [RLin (num_add_bool n one_var b coeff)])))
  | SBits i => have (num i) (fun a => new_bits (to_bits_le_strict a))
  | SLinear a b c => have (lin_of regs a) (fun x => have (lin_of regs b) (fun y => have (lin_of regs c) (fun z =>
      _ <- cs_enforce "constraint" x y z ;; Ret (Ok []))))
  | SNonzero i => have (num i) (fun a => no_result (an_assert_nonzero a))
  | SEqual i j => have (bit i) (fun a => have (bit j) (fun b => no_result (b_enforce_equal a b)))
  | SInput i => have (num i) (fun a => no_result (an_inputize a))
  | SPack is => have (bits is) (fun m => no_result (pack_into_inputs m))
  end.

(** Each statement in its own namespace. *)
Fixpoint compile (w : list (option (val P))) (i : nat) (regs : list reg) (code : list (stmt P)) : prog P (res (list reg)) :=
  match code with
  | [] => Ret (Ok regs)
  | st :: t => let* new := ns ("statement " ++ nat_str i) (statement (hd None w) regs st) in compile (tl w) (S i) (regs ++ new)%list t
  end.
Definition circuit (w : list (option (val P))) (code : list (stmt P)) : prog P (res unit) :=
  let* _ := compile w 0 [] code in Ret (Ok tt).
(** What the keys are made from: no values. *)
Definition blank : list (option (val P)) := [].

(** What an assignment to the variables has for the values to be chosen: the variables that the next allocations get, for the statements that are allocations. *)
Definition is_set (rho : Var -> P) (v : Var) : bool := negb (feqb (rho v) fzero).
Definition choice (rho : Var -> P) (k : KState P) (st : stmt P) : option (val P) :=
  match st with
  | SBit | SAllocated | SUnless _ => Some (VBit (is_set rho (Aux (k_aux k))))
  | SNum => Some (VNum (rho (Aux (k_aux k))))
  | SWord => Some (VInt (le_value (map (fun i => is_set rho (Aux (k_aux k + i))) (seq 0 32))))
  | SLong => Some (VInt (le_value (map (fun i => is_set rho (Aux (k_aux k + i))) (seq 0 64))))
  | _ => None
  end.
Fixpoint choices (rho : Var -> P) (k : KState P) (regs : list reg) (code : list (stmt P)) : list (option (val P)) :=
  match code with
  | [] => []
  | st :: t => choice rho k st :: match run (ShapeCS P) (statement None regs st) k with
                                  | Done (Ok new, k') => choices rho k' (regs ++ new)%list t
                                  | _ => []
                                  end
  end.
End Model.
Arguments reg : clear implicits.
