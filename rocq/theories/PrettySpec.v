(** What [pretty_print] should write, said without its loops: the variables in order, each with its total coefficient. *)
From Coq Require Import String Ascii DecimalString.
From Coq Require Import ZArith List Bool.
From Verif Require Import Prelude PrimeField Circuit TestCS.
Import ListNotations.
Local Open Scope nat_scope.
Local Open Scope string_scope.

Section Spec.
Context {P : PrimeField}.
Variable debug : P -> string.

(** The sum of the coefficients of a variable. *)
Fixpoint total (v : Var) (lc : LC P) : P :=
  match lc with
  | [] => fzero
  | (w, c) :: lc => if var_eqb v w then fadd c (total v lc) else total v lc
  end.

Definition decimal (n : nat) : string := NilEmpty.string_of_uint (Nat.to_uint n).
Definition eol : string := String (ascii_of_nat 10) "".

(** Nothing for 1 and -1; otherwise the power of two, if it is one, and the number itself. *)
Definition factor_text (c : P) : string :=
  if ((toZ c =? 1) || (toZ c =? modulus P - 1))%Z then ""
  else (if (2 ^ Z.log2 (toZ c) =? toZ c)%Z then "2^" ++ decimal (Z.to_nat (Z.log2 (toZ c))) ++ " . " else "") ++ debug c ++ " . ".
Definition sign_text (is_first : bool) (c : P) : string :=
  if (toZ c =? modulus P - 1)%Z then " - " else if is_first then "" else " + ".

Definition variables (s : TState P) : list Var := map Input (seq 0 (List.length (t_inputs s))) ++ map Aux (seq 0 (List.length (t_aux s))).
Definition name_of (s : TState P) (v : Var) : string := match entry s v with Some e => snd e | None => "" end.

Definition term_text (s : TState P) (lc : LC P) (is_first : bool) (v : Var) : string :=
  sign_text is_first (total v lc) ++ factor_text (total v lc) ++ "`" ++ name_of s v ++ "`".
Definition lc_text (s : TState P) (lc : LC P) : string :=
  "(" ++ match filter (fun v => negb (feqb (total v lc) fzero)) (variables s) with
         | [] => "0"
         | v :: vs => term_text s lc true v ++ String.concat "" (map (term_text s lc false) vs)
         end ++ ")".
Definition constraint_text (s : TState P) (c : LC P * LC P * LC P * string) : string :=
  let '(x, y, z, name) := c in eol ++ name ++ ": " ++ lc_text s x ++ " * " ++ lc_text s y ++ " = " ++ lc_text s z.
Definition system_text (s : TState P) : string := String.concat "" (map (constraint_text s) (t_cons s)) ++ eol.

(** A variable that does not exist occurs, and its coefficients do not cancel. *)
Definition dangling (s : TState P) (lc : LC P) : Prop := exists v, total v lc <> fzero /\ entry s v = None.
Definition lcs_of (s : TState P) : list (LC P) := flat_map (fun c => let '(x, y, z, _) := c in [x; y; z]) (t_cons s).
End Spec.

(** A string without a character. *)
Fixpoint lacks (c : ascii) (s : string) : Prop :=
  match s with "" => True | String a s => a <> c /\ lacks c s end.
