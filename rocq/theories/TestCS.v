(** TestConstraintSystem: src/gadgets/test/mod.rs. *)
From Coq Require Import String Ascii.
From Coq Require Import ZArith List Bool Lia.
From Verif Require Import Prelude PrimeField Circuit Blake2sSpec.
Import ListNotations.
Local Open Scope nat_scope.

(** test/mod.rs:18-23 *)
Inductive NamedObject := OConstraint (i : nat) | OVar (v : Var) | ONamespace.

(** test/mod.rs:33-40.  The hash map is an association list without duplicate keys. *)
Record TState (P : PrimeField) := mkT {
  t_objs : list (string * NamedObject);
  t_ns : list string;
  t_cons : list (LC P * LC P * LC P * string);
  t_inputs : list (P * string);
  t_aux : list (P * string)
}.
Arguments mkT {P}. Arguments t_objs {P}. Arguments t_ns {P}. Arguments t_cons {P}. Arguments t_inputs {P}. Arguments t_aux {P}.

Fixpoint find_obj (path : string) (l : list (string * NamedObject)) : option NamedObject :=
  match l with
  | [] => None
  | (p, o) :: t => if String.eqb path p then Some o else find_obj path t
  end.

(** [this.chars().any(|a| a == '/')] *)
Fixpoint has_slash (s : string) : bool :=
  match s with EmptyString => false | String c t => if Ascii.eqb c "/"%char then true else has_slash t end.

(** test/mod.rs:339-357 *)
Definition path_step (st : string * bool) (n : string) : string * bool :=
  let '(name, needs_separation) := st in
  let name := if needs_separation then (name ++ "/")%string else name in
  ((name ++ n)%string, true).
Definition compute_path (nss : list string) (this : string) : outcome string :=
  if has_slash this then Panicked
  else Done (fst (fold_left path_step (nss ++ [this]) (EmptyString, false))).

(** Ordering of variables, test/mod.rs:58-69 *)
Definition var_cmp (v w : Var) : comparison :=
  match v, w with
  | Input i, Input j => Nat.compare i j
  | Aux i, Aux j => Nat.compare i j
  | Input _, Aux _ => Lt
  | Aux _, Input _ => Gt
  end.

Section Model.
Context {P : PrimeField}.
Local Open Scope F_scope.
Notation T := (TState P).

(** test/mod.rs:71-92 [proc_lc]; the BTreeMap is a list sorted by key.
    [entry(var).or_insert(ZERO).add_assign(coeff)]: *)
Fixpoint bt_add (v : Var) (c : P) (m : list (Var * P)) : list (Var * P) :=
  match m with
  | [] => [(v, 0 + c)]
  | (w, d) :: t =>
      match var_cmp v w with
      | Lt => (v, 0 + c) :: m
      | Eq => (w, d + c) :: t
      | Gt => (w, d) :: bt_add v c t
      end
  end.
Definition proc_lc (terms : LC P) : list (Var * P) :=
  let m := fold_left (fun m t => bt_add (fst t) (snd t) m) terms [] in
  filter (fun e => negb (feqb (snd e) 0)) m.

(** [BigEndian::write_u64(_, n as u64)] *)
Definition u64_be (n : nat) : list Z := map (fun i => Z.of_nat n / 2 ^ (8 * Z.of_nat i) mod 256)%Z [7; 6; 5; 4; 3; 2; 1; 0]%nat.
(** [to_repr().as_ref()]: the canonical representative, little-endian; [rev] makes it big-endian. *)
Definition to_repr (x : P) : list Z := map (fun i => toZ x / 2 ^ (8 * Z.of_nat i) mod 256)%Z (seq 0 (Nat.div (repr_bits P + 7) 8)).

(** test/mod.rs:94-121 [hash_lc]: the bytes given to [h.update].  [copy_from_slice] into
    [buf[9..]] panics unless the representation has 32 bytes. *)
Definition hash_term (t : Var * P) : outcome (list Z) :=
  let tag := match fst t with Input i => 73%Z :: u64_be i | Aux i => 65%Z :: u64_be i end in
  let coeff_be := rev (to_repr (snd t)) in
  if Nat.eqb (List.length coeff_be) 32 then Done (tag ++ coeff_be) else Panicked.
Fixpoint oconcat (l : list (outcome (list Z))) : outcome (list Z) :=
  match l with
  | [] => Done []
  | x :: t => obind x (fun a => obind (oconcat t) (fun b => Done (a ++ b)))
  end.
Definition hash_lc (terms : LC P) : outcome (list Z) :=
  let map' := proc_lc terms in
  obind (oconcat (map hash_term map')) (fun body => Done (u64_be (List.length map') ++ body)).

(** test/mod.rs:229-252 [hash]: the byte stream, and the digest of it in hexadecimal. *)
Definition hash_constraint (c : LC P * LC P * LC P * string) : outcome (list Z) :=
  let '(x, y, z, _) := c in oconcat [hash_lc x; hash_lc y; hash_lc z].
Definition hash_stream (s : T) : outcome (list Z) :=
  let head := u64_be (List.length (t_inputs s)) ++ u64_be (List.length (t_aux s)) ++ u64_be (List.length (t_cons s)) in
  obind (oconcat (map hash_constraint (t_cons s))) (fun body => Done (head ++ body)).
Definition hex_digit (n : Z) : ascii := ascii_of_N (Z.to_N (if (n <? 10)%Z then 48 + n else 87 + n)%Z).
Definition hex_byte (b : Z) : string := String (hex_digit (b / 16)%Z) (String (hex_digit (b mod 16)%Z) EmptyString).
Definition hash (s : T) : outcome string :=
  obind (hash_stream s) (fun bytes => Done (fold_left (fun acc b => (acc ++ hex_byte b)%string) (blake2s_spec (repeat 0%Z 8) bytes) EmptyString)).

(** test/mod.rs:123-141 [eval_lc]; indexing out of range panics *)
Definition entry (s : T) (v : Var) : option (P * string) :=
  match v with Input i => nth_error (t_inputs s) i | Aux i => nth_error (t_aux s) i end.
Definition eval_lc (s : T) (terms : LC P) : outcome P :=
  fold_left (fun acc t => obind acc (fun acc =>
    match entry s (fst t) with Some e => Done (acc + fst e * snd t) | None => Panicked end)) terms (Done 0).

(** test/mod.rs:150-164 *)
Definition test_new : T :=
  mkT [("ONE"%string, OVar one_var)] [] [] [(1, "ONE"%string)] [].

(** test/mod.rs:254-268 *)
Fixpoint first_unsatisfied (s : T) (cs : list (LC P * LC P * LC P * string)) : outcome (option string) :=
  match cs with
  | [] => Done None
  | (a, b, c, path) :: t =>
      obind (eval_lc s a) (fun a => obind (eval_lc s b) (fun b => obind (eval_lc s c) (fun c =>
      if feqb (a * b) c then first_unsatisfied s t else Done (Some path))))
  end.
Definition which_is_unsatisfied (s : T) : outcome (option string) := first_unsatisfied s (t_cons s).
(** test/mod.rs:270-272 *)
Definition is_satisfied (s : T) : outcome bool :=
  obind (which_is_unsatisfied s) (fun o => Done (match o with None => true | Some _ => false end)).
(** test/mod.rs:274-276, 304-306 *)
Definition num_constraints (s : T) : nat := List.length (t_cons s).
Definition num_inputs (s : T) : nat := List.length (t_inputs s).

Definition set_entry (s : T) (v : Var) (x : P) : outcome T :=
  match v with
  | Input i => match nth_error (t_inputs s) i with
               | Some e => Done (mkT (t_objs s) (t_ns s) (t_cons s) (upd i (x, snd e) (t_inputs s)) (t_aux s))
               | None => Panicked end
  | Aux i => match nth_error (t_aux s) i with
             | Some e => Done (mkT (t_objs s) (t_ns s) (t_cons s) (t_inputs s) (upd i (x, snd e) (t_aux s)))
             | None => Panicked end
  end.
(** test/mod.rs:278-290 *)
Definition t_set (s : T) (path : string) (x : P) : outcome T :=
  match find_obj path (t_objs s) with
  | Some (OVar v) => set_entry s v x
  | _ => Panicked
  end.

(** test/mod.rs:292-302 *)
Fixpoint all_equal (l : list (P * string)) (e : list P) : bool :=
  match l, e with
  | a :: l, b :: e => if feqb (fst a) b then all_equal l e else false
  | _, _ => true
  end.
Definition t_verify (s : T) (expected : list P) : outcome bool :=
  if negb (Nat.eqb (List.length expected + 1) (List.length (t_inputs s))) then Panicked
  else Done (all_equal (skipn 1 (t_inputs s)) expected).

(** test/mod.rs:308-314 *)
Definition t_get_input (s : T) (index : nat) (path : string) : outcome P :=
  match nth_error (t_inputs s) index with
  | Some (x, name) => if String.eqb path name then Done x else Panicked
  | None => Panicked
  end.
(** test/mod.rs:316-328 *)
Definition t_get (s : T) (path : string) : outcome P :=
  match find_obj path (t_objs s) with
  | Some (OVar v) => match entry s v with Some e => Done (fst e) | None => Panicked end
  | _ => Panicked
  end.

(** test/mod.rs:330-336 *)
Definition set_named_obj (s : T) (path : string) (to : NamedObject) : outcome T :=
  match find_obj path (t_objs s) with
  | Some _ => Panicked
  | None => Done (mkT ((path, to) :: t_objs s) (t_ns s) (t_cons s) (t_inputs s) (t_aux s))
  end.

(** test/mod.rs:359-429 *)
Definition t_alloc (s : T) (ann : string) (f : res P) : outcome (T * res Var * bool) :=
  let index := List.length (t_aux s) in
  obind (compute_path (t_ns s) ann) (fun path =>
  match f with
  | Err e => Done (s, Err e, true)
  | Ok x =>
      let s1 := mkT (t_objs s) (t_ns s) (t_cons s) (t_inputs s) (t_aux s ++ [(x, path)]) in
      obind (set_named_obj s1 path (OVar (Aux index))) (fun s2 => Done (s2, Ok (Aux index), true))
  end).
Definition t_alloc_input (s : T) (ann : string) (f : res P) : outcome (T * res Var * bool) :=
  let index := List.length (t_inputs s) in
  obind (compute_path (t_ns s) ann) (fun path =>
  match f with
  | Err e => Done (s, Err e, true)
  | Ok x =>
      let s1 := mkT (t_objs s) (t_ns s) (t_cons s) (t_inputs s ++ [(x, path)]) (t_aux s) in
      obind (set_named_obj s1 path (OVar (Input index))) (fun s2 => Done (s2, Ok (Input index), true))
  end).
Definition t_enforce (s : T) (ann : string) (a b c : LC P) : outcome T :=
  obind (compute_path (t_ns s) ann) (fun path =>
  let index := List.length (t_cons s) in
  obind (set_named_obj s path (OConstraint index)) (fun s1 =>
  Done (mkT (t_objs s1) (t_ns s1) (t_cons s1 ++ [(a, b, c, path)]) (t_inputs s1) (t_aux s1)))).
Definition t_push (s : T) (name : string) : outcome T :=
  obind (compute_path (t_ns s) name) (fun path =>
  obind (set_named_obj s path ONamespace) (fun s1 =>
  Done (mkT (t_objs s1) (t_ns s1 ++ [name]) (t_cons s1) (t_inputs s1) (t_aux s1)))).
Definition t_pop (s : T) : outcome T :=
  match t_ns s with
  | [] => Panicked
  | _ => Done (mkT (t_objs s) (removelast (t_ns s)) (t_cons s) (t_inputs s) (t_aux s))
  end.

Definition TestCS : Machine P := {|
  St := T;
  m_alloc := t_alloc;
  m_alloc_input := t_alloc_input;
  m_enforce := t_enforce;
  m_push := t_push;
  m_pop := t_pop
|}.

End Model.
