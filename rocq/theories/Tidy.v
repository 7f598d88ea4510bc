(** A condition on the text of straight-line programs (Straight.v), decided without making constraints: when their circuits can be used with
    Groth16 (C76: [ready]).  Not a file of /repo. *)
From Coq Require Import ZArith List Bool.
From Verif Require Import Prelude PrimeField Circuit Straight.
Import ListNotations.
Local Open Scope nat_scope.

(** What is known of a result.  A bit has at most one variable.  Unless there is a constraint of its own for that variable (x * (1 - x) = 0, say), it
    may be the same variable as that of another result, so that terms cancel in a linear combination; such variables carry the number of the
    result that came with them, and [MBit from] lists the numbers that the variable of the bit can carry.  A number has a variable of its own.  For a
    linear combination, [MLin from sure] has the same list for its variables, and [sure] lists numbers that are among them. *)
Inductive mark := MBit (from : list nat) | MNum | MLin (from sure : list nat).

Section Tidy.
Context {P : PrimeField}.

Definition bit_from (marks : list mark) (i : nat) : option (list nat) := match nth_error marks i with Some (MBit f) => Some f | _ => None end.
Definition any_from (marks : list mark) (i : nat) : option (list nat) := match nth_error marks i with Some (MBit f) | Some (MLin f _) => Some f | Some MNum => Some [i] | None => None end.
Definition lin_from (marks : list mark) (i : nat) : option (list nat * list nat) := match nth_error marks i with Some (MLin f s) => Some (f, s) | _ => None end.
Definition own_bit (marks : list mark) (i : nat) : bool := match nth_error marks i with Some (MBit []) => true | _ => false end.
Definition is_number (marks : list mark) (i : nat) : bool := match nth_error marks i with Some MNum => true | _ => false end.
Definition disjoint (l m : list nat) : bool := forallb (fun x => negb (existsb (Nat.eqb x) m)) l.
Fixpoint separate (l : list (list nat)) : bool := match l with [] => true | x :: t => disjoint x (concat t) && separate t end.
(** No two of the results can have the same variable, if it is one without a constraint of its own. *)
Definition apart (from : nat -> option (list nat)) (is : list nat) : bool := match all_some (map from is) with Some l => separate l | None => false end.

(** The marks of the results of a statement; [None] if the statement is not tidy. *)
Definition tidy_step (marks : list mark) (st : stmt P) : option (list mark) :=
  let n := length marks in
  let from := bit_from marks in
  let own := forallb (own_bit marks) in
  match st with
  | SBit | SAllocated | SUnless _ | SConst _ => Some [MBit []]
  | SGate _ _ _ => Some [MBit [n]]
  | SFrom i | SNot i => opt (from i) (fun f => Some [MBit f])
  | SAnd i j | SXor i j => opt (from i) (fun f => opt (from j) (fun g => Some [MBit (n :: f ++ g)]))
  | SCh i j k | SMaj i j k => guard (own [i; j; k]) (Some [MBit [n]])
  | SAdd words => guard (apart from (concat words)) (Some (repeat (MBit []) 32))
  | SWord => Some (repeat (MBit []) 32)
  | SLong => Some (repeat (MBit []) 64)
  | SWordXor a b => opt (all_some (map from a)) (fun f => opt (all_some (map from b)) (fun g =>
      guard (Nat.eqb (length a) 32 && Nat.eqb (length b) 32) (Some (map (fun x => MBit ((n + fst x) :: fst (snd x) ++ snd (snd x))) (combine (seq 0 32) (combine f g))))))
  | SWordCh a b c | SWordMaj a b c => guard (own (a ++ b ++ c)) (Some (map (fun k => MBit [n + k]) (seq 0 32)))
  | SRotr a k => opt (all_some (map from a)) (fun f => guard (Nat.eqb (length a) 32) (Some (map MBit (skipn (k mod 32) f ++ firstn (k mod 32) f))))
  | SShr a k => opt (all_some (map from a)) (fun f => guard (Nat.eqb (length a) 32) (Some (map MBit (skipn (k mod 32) f ++ repeat [] (k mod 32)))))
  | SBlock bits | SSha256 bits => guard (own bits) (Some (repeat (MBit []) 256))
  | SNum | SMul _ _ | SSquare _ => Some [MNum]
  | SSwap i j _ => guard (negb (Nat.eqb i j)) (Some [MNum; MNum])
  | SLookup i j k _ => guard (own [i; j; k]) (Some [MNum; MNum])
  | SBits _ => Some (repeat (MBit []) (num_bits P))
  | SLinear a b c => guard (apart (any_from marks) (map snd (snd a)) && apart (any_from marks) (map snd (snd b)) && apart (any_from marks) (map snd (snd c)) &&
      forallb (is_number marks) (map snd (snd b))) (Some [])
  | SNonzero _ | SEqual _ _ | SInput _ => Some []
  | SPack bits => guard (apart from bits) (Some [])
  | SLookupNeg i j k _ => guard (own [i; j; k]) (Some [MLin [n] []; MLin [S n] []])
  | SZero => Some [MLin [] []]
  | SOf i => guard (is_number marks i) (Some [MLin [i] [i]])
  | SAddBit i j _ => opt (lin_from marks i) (fun l => opt (from j) (fun f => guard (disjoint (fst l) f) (Some [MLin (fst l ++ f) (snd l)])))
  | SBlake2s bits _ => guard (own bits) (Some (map (fun k => MBit [n + k]) (seq 0 256)))
  end.

(** The numbers that occur in a constraint of the statement. *)
Definition numbers (marks : list mark) (i : nat) : list nat := match nth_error marks i with Some (MLin _ s) => s | _ => [i] end.
Definition terms (marks : list mark) (l : P * list (P * nat)) : list nat := flat_map (numbers marks) (map snd (filter (fun t => negb (feqb (fst t) fzero)) (snd l))).
Definition constrains (marks : list mark) (st : stmt P) : list nat :=
  match st with
  | SMul i j | SSwap i j _ => [i; j]
  | SSquare i | SNonzero i | SInput i | SBits i => [i]
  | SLinear a b c => terms marks a ++ terms marks b ++ terms marks c
  | _ => []
  end.

(** [loose]: the numbers that only the prover knows and that have not occurred in a constraint so far. *)
Fixpoint tidy_from (marks : list mark) (loose : list nat) (code : list (stmt P)) : bool :=
  match code with
  | [] => match loose with [] => true | _ => false end
  | st :: t => match tidy_step marks st with
               | None => false
               | Some new => tidy_from (marks ++ new) (filter (fun i => negb (existsb (Nat.eqb i) (constrains marks st))) loose ++
                                                      match st with SNum => [length marks] | _ => [] end) t
               end
  end.
Definition tidy (code : list (stmt P)) : bool := tidy_from [] [] code.
End Tidy.
