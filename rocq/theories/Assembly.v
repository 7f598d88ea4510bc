(** The two constraint systems of groth16: [KeypairAssembly] (groth16/src/generator.rs:43-155) and
    [ProvingAssignment] (groth16/src/prover.rs:57-162). *)
From Coq Require Import String.
From Coq Require Import ZArith List Bool Lia.
From Verif Require Import Prelude PrimeField Circuit Multiexp.
Import ListNotations.
Local Open Scope nat_scope.

Section Assembly.
Context {P : PrimeField}.

(** ** Key generation *)

(** The columns recorded for one of the three matrices: for every input / auxiliary variable, the
    list of (coefficient, constraint number). *)
Record Cols := mkCols { col_inputs : list (list (P * nat)); col_aux : list (list (P * nat)) }.

(** generator.rs:43-53 [KeypairAssembly]; [at_inputs] and [at_aux] are the two fields of [ka_at], etc. *)
Record KeypairAssembly := mkKA {
  num_inputs : nat; num_aux : nat; num_constraints : nat;
  ka_at : Cols; ka_bt : Cols; ka_ct : Cols
}.

(** [v[id].push(x)] *)
Definition push_at {A} (id : nat) (x : A) (l : list (list A)) : outcome (list (list A)) :=
  match nth_error l id with
  | None => Panicked
  | Some old => Done (upd id (old ++ [x]) l)
  end.

(** generator.rs:104-116 [eval]. *)
Definition ka_eval_term (k : nat) (t : Var * P) (c : Cols) : outcome Cols :=
  match fst t with
  | Input id => obind (push_at id (snd t, k) (col_inputs c)) (fun l => Done (mkCols l (col_aux c)))
  | Aux id => obind (push_at id (snd t, k) (col_aux c)) (fun l => Done (mkCols (col_inputs c) l))
  end.
Fixpoint ka_eval (k : nat) (lc : LC P) (c : Cols) : outcome Cols :=
  match lc with
  | [] => Done c
  | t :: lc => obind (ka_eval_term k t c) (ka_eval k lc)
  end.

Definition add_input_col (c : Cols) : Cols := mkCols (col_inputs c ++ [[]]) (col_aux c).
Definition add_aux_col (c : Cols) : Cols := mkCols (col_inputs c) (col_aux c ++ [[]]).

(** generator.rs:55-155. *)
Definition KeypairCS : Machine P := {|
  St := KeypairAssembly;
  m_alloc s _ _ := Done
    (mkKA (num_inputs s) (num_aux s + 1) (num_constraints s) (add_aux_col (ka_at s)) (add_aux_col (ka_bt s)) (add_aux_col (ka_ct s)),
     Ok (Aux (num_aux s)), false);
  m_alloc_input s _ _ := Done
    (mkKA (num_inputs s + 1) (num_aux s) (num_constraints s) (add_input_col (ka_at s)) (add_input_col (ka_bt s)) (add_input_col (ka_ct s)),
     Ok (Input (num_inputs s)), false);
  m_enforce s _ a b c :=
    obind (ka_eval (num_constraints s) a (ka_at s)) (fun at' =>
    obind (ka_eval (num_constraints s) b (ka_bt s)) (fun bt' =>
    obind (ka_eval (num_constraints s) c (ka_ct s)) (fun ct' =>
    Done (mkKA (num_inputs s) (num_aux s) (num_constraints s + 1) at' bt' ct'))));
  m_push s _ := Done s;
  m_pop s := Done s
|}.

(** generator.rs:175-185 *)
Definition ka_new : KeypairAssembly := mkKA 0 0 0 (mkCols [] []) (mkCols [] []) (mkCols [] []).

(** ** Proving *)

(** prover.rs:57-71 [ProvingAssignment]. *)
Record ProvingAssignment := mkPA {
  a_aux_density : DensityTracker; b_input_density : DensityTracker; b_aux_density : DensityTracker;
  pa_a : list P; pa_b : list P; pa_c : list P;
  input_assignment : list P; aux_assignment : list P
}.

(** [if let Some(ref mut v) = density { v.inc(i) }] *)
Definition opt_inc (i : nat) (d : option DensityTracker) : outcome (option DensityTracker) :=
  match d with
  | None => Done None
  | Some d => obind (dt_inc i d) (fun d => Done (Some d))
  end.
Definition index_or_panic (l : list P) (i : nat) : outcome P :=
  match nth_error l i with Some x => Done x | None => Panicked end.

(** prover.rs:19-55 [eval]. *)
Fixpoint pa_eval (lc : LC P) (din daux : option DensityTracker) (ia aa : list P) (acc : P) : outcome (P * option DensityTracker * option DensityTracker) :=
  match lc with
  | [] => Done (acc, din, daux)
  | (index, coeff) :: lc =>
      if negb (feqb coeff fzero) then
        obind (match index with
               | Input i => obind (index_or_panic ia i) (fun tmp => obind (opt_inc i din) (fun din => Done (tmp, din, daux)))
               | Aux i => obind (index_or_panic aa i) (fun tmp => obind (opt_inc i daux) (fun daux => Done (tmp, din, daux)))
               end)
          (fun x => let '(tmp, din, daux) := x in
             let tmp := if negb (feqb coeff fone) then (tmp * coeff)%F else tmp in
             pa_eval lc din daux ia aa (acc + tmp)%F)
      else pa_eval lc din daux ia aa acc
  end.

Definition unopt (d : option DensityTracker) : DensityTracker := match d with Some d => d | None => [] end.

(** prover.rs:73-162. *)
Definition ProvingCS : Machine P := {|
  St := ProvingAssignment;
  m_alloc s _ f := Done (match f with
    | Ok x => (mkPA (dt_add_element (a_aux_density s)) (b_input_density s) (dt_add_element (b_aux_density s))
                 (pa_a s) (pa_b s) (pa_c s) (input_assignment s) (aux_assignment s ++ [x]),
               Ok (Aux (List.length (aux_assignment s ++ [x]) - 1)), true)
    | Err e => (s, Err e, true) end);
  m_alloc_input s _ f := Done (match f with
    | Ok x => (mkPA (a_aux_density s) (dt_add_element (b_input_density s)) (b_aux_density s)
                 (pa_a s) (pa_b s) (pa_c s) (input_assignment s ++ [x]) (aux_assignment s),
               Ok (Input (List.length (input_assignment s ++ [x]) - 1)), true)
    | Err e => (s, Err e, true) end);
  m_enforce s _ a b c :=
    obind (pa_eval a None (Some (a_aux_density s)) (input_assignment s) (aux_assignment s) fzero) (fun ra =>
    let '(va, _, da) := ra in
    obind (pa_eval b (Some (b_input_density s)) (Some (b_aux_density s)) (input_assignment s) (aux_assignment s) fzero) (fun rb =>
    let '(vb, dbi, dba) := rb in
    obind (pa_eval c None None (input_assignment s) (aux_assignment s) fzero) (fun rc =>
    let '(vc, _, _) := rc in
    Done (mkPA (unopt da) (unopt dbi) (unopt dba) (pa_a s ++ [va]) (pa_b s ++ [vb]) (pa_c s ++ [vc]) (input_assignment s) (aux_assignment s)))));
  m_push s _ := Done s;
  m_pop s := Done s
|}.

(** prover.rs:193-203 *)
Definition pa_new : ProvingAssignment := mkPA dt_new dt_new dt_new [] [] [] [] [].

(** ** Synthesis: generator.rs:187-202 and prover.rs:205-216 perform the same steps: allocate the "one"
    input, synthesize the circuit, then add the constraint [x * 0 = 0] for every input [x]. *)
Definition input_lc (i : nat) : LC P := lc_add_var lc_zero (Input i).
Fixpoint enforce_inputs (M : Machine P) (is_ : list nat) (s : St M) : outcome (St M) :=
  match is_ with
  | [] => Done s
  | i :: t => obind (m_enforce M s "" (input_lc i) lc_zero lc_zero) (enforce_inputs M t)
  end.
Definition synthesize (M : Machine P) (start : St M) (inputs_of : St M -> nat) (circuit : prog P (res unit)) : outcome (res (St M)) :=
  obind (run M (bindq (cs_alloc_input "" (Ok fone)) (fun _ => circuit)) start) (fun x =>
  match x with
  | (Err e, _) => Done (Err e)
  | (Ok _, s) => obind (enforce_inputs M (seq 0 (inputs_of s)) s) (fun s => Done (Ok s))
  end).
Definition synthesize_keypair (circuit : prog P (res unit)) : outcome (res KeypairAssembly) :=
  synthesize KeypairCS ka_new num_inputs circuit.
Definition synthesize_prover (circuit : prog P (res unit)) : outcome (res ProvingAssignment) :=
  synthesize ProvingCS pa_new (fun s => List.length (input_assignment s)) circuit.
End Assembly.
Arguments Cols P : clear implicits.
Arguments KeypairAssembly P : clear implicits.
Arguments ProvingAssignment P : clear implicits.
Arguments KeypairCS P : clear implicits.
Arguments ProvingCS P : clear implicits.
