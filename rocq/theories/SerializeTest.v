(** The unit test of groth16/src/lib.rs: [serialization], and the texts of the errors of src/lib.rs with their tests. *)
From Coq Require Import String.
From Coq Require Import ZArith List Bool Lia.
From Coq Require Import Strings.Byte.
From Verif Require Import Prelude PrimeField FModule Circuit Loops Multicore Groth16 Encoding Session.
Import ListNotations.
Local Open Scope nat_scope.

(** ** Texts of errors *)
Section Errors.
Local Open Scope string_scope.

(** src/lib.rs:329-349 [impl Display for SynthesisError]; [shown] is the text of the [io::Error] inside, of which the model has only the kind.
    The text "encountered an I/O error" of line 339 is never used. *)
Definition synthesis_text (shown : io_kind -> string) (e : SynthesisError) : string :=
  let msg :=
    match e with
    | AssignmentMissing => "an assignment for a variable could not be computed"
    | DivisionByZero => "division by zero"
    | Unsatisfiable => "unsatisfiable constraint system"
    | PolynomialDegreeTooLarge => "polynomial degree is too large"
    | UnexpectedIdentity => "encountered an identity element in the CRS"
    | IoError _ => "encountered an I/O error"
    | UnconstrainedVariable => "auxiliary variable was unconstrained"
    end in
  match e with IoError k => "I/O error: " ++ shown k | _ => msg end.

(** src/lib.rs:362-370 [impl Display for VerificationError] *)
Definition verification_text (e : VerificationError) : string :=
  match e with InvalidVerifyingKey => "malformed verifying key" | InvalidProof => "proof verification failed" end.

(** [str::is_empty], [str::contains] *)
Definition is_empty (s : string) : bool := match s with EmptyString => true | _ => false end.
Definition contains (part : string) (s : string) : bool := match index 0 part s with Some _ => true | None => false end.
Definition must (b : bool) : outcome unit := if b then Done tt else Panicked.

(** src/lib.rs:572-578 *)
Definition verification_error_string : outcome unit := must (negb (is_empty (verification_text InvalidProof))).
(** src/lib.rs:580-593; the text of [io::Error::new(io::ErrorKind::Other, "other")] is an argument, the standard library gives "other" *)
Definition synthesis_error_string (shown : io_kind -> string) : outcome unit :=
  obind (must (negb (is_empty (synthesis_text shown PolynomialDegreeTooLarge)))) (fun _ => must (contains "other" (synthesis_text shown (IoError OtherIo)))).
End Errors.

(** ** The circuit *)
Section Silly.
Context {P : PrimeField}.
Local Open Scope lc_scope.
Local Open Scope prog_scope.
Local Open Scope string_scope.

(** groth16/src/lib.rs:488-515 [MySillyCircuit::synthesize] *)
Definition silly (a b : option P) : prog P (res unit) :=
  let* (a_var, _) := cs_alloc "a" (get a) in
  let* (b_var, _) := cs_alloc "b" (get b) in
  let* (c_var, _) := cs_alloc_input "c" (match get a with Err e => Err e | Ok a => match get b with Err e => Err e | Ok b => Ok (a * b)%F end end) in
  cs_enforce "a*b=c" (lc_zero +v a_var) (lc_zero +v b_var) (lc_zero +v c_var) ;;;
  Ret (Ok tt).
End Silly.

(** ** Equality *)
Section Equality.
Context {P : PrimeField} {E : Engine P}.

(** [Vec]'s [PartialEq] *)
Fixpoint vec_eq {M : FMod P} (x y : list M) : bool :=
  match x, y with [], [] => true | a :: x, b :: y => geqb a b && vec_eq x y | _, _ => false end.
(** groth16/src/lib.rs:32-36 *)
Definition proof_eq (p q : Proof_ E) : bool := geqb (proof_a p) (proof_a q) && geqb (proof_b p) (proof_b q) && geqb (proof_c p) (proof_c q).
(** groth16/src/lib.rs:130-140 *)
Definition vk_eq (p q : VerifyingKey E) : bool :=
  geqb (alpha_g1 p) (alpha_g1 q) && geqb (beta_g1 p) (beta_g1 q) && geqb (beta_g2 p) (beta_g2 q) && geqb (gamma_g2 p) (gamma_g2 q)
  && geqb (delta_g1 p) (delta_g1 q) && geqb (delta_g2 p) (delta_g2 q) && vec_eq (ic p) (ic q).
(** groth16/src/lib.rs:246-255 *)
Definition params_eq (p q : Parameters E) : bool :=
  vk_eq (p_vk p) (p_vk q) && vec_eq (p_h p) (p_h q) && vec_eq (p_l p) (p_l q) && vec_eq (p_a p) (p_a q) && vec_eq (p_b_g1 p) (p_b_g1 q)
  && vec_eq (p_b_g2 p) (p_b_g2 q).
End Equality.

(** ** The test *)
Section Test.
Context {P : PrimeField} {E : Engine P} (R : Rng E) (B1 : GroupBytes (E_G1 E)) (B2 : GroupBytes (E_G2 E)) (w w' : Worker) (ln_ceil : Z -> nat).

Definition unwrapped {X A} (r : result X A) : outcome A := match r with Ok a => Done a | Err _ => Panicked end.
(** [x.is_ok()], [x.is_err()] *)
Definition is_ok {X A} (r : result X A) : bool := match r with Ok _ => true | Err _ => false end.
Definition is_err {X A} (r : result X A) : bool := negb (is_ok r).
Definition len_is (n : Z) (bs : list byte) : bool := Z.eqb (Z.of_nat (List.length bs)) n.

(** groth16/src/lib.rs:531-535: one [Parameters::read] and the comparison *)
Definition read_back (checked : bool) (params : Parameters E) (v : list byte) : outcome unit :=
  obind (unwrapped (params_read B1 B2 checked (mkReader v UnexpectedEof))) (fun de => must (params_eq params (fst de))).

(** groth16/src/lib.rs:519-536: [unwrap] of the generated key, which is written to a [Vec<u8>] and read twice *)
Definition key_part (generated : outcome (res (Parameters E))) : outcome (Parameters E) :=
  obind generated (fun generated => obind (unwrapped generated) (fun params =>
  let (v, r) := params_write B1 B2 params (mkWriter [] None) in
  obind (unwrapped r) (fun _ =>
  obind (must (len_is 2136 (written v))) (fun _ =>
  obind (read_back true params (written v)) (fun _ =>
  obind (read_back false params (written v)) (fun _ => Done params)))))).

(** groth16/src/lib.rs:546-565: [unwrap] of the proof created, which is written, read and verified *)
Definition proof_part (pvk : PreparedVerifyingKey E) (a c : P) (created : outcome (res (Proof_ E))) : outcome unit :=
  obind created (fun created => obind (unwrapped created) (fun proof =>
  let (v, r) := proof_write B1 B2 proof (mkWriter [] None) in
  obind (unwrapped r) (fun _ =>
  obind (must (len_is 192 (written v))) (fun _ =>
  obind (unwrapped (proof_read B1 B2 (mkReader (written v) UnexpectedEof))) (fun de =>
  obind (must (proof_eq proof (fst de))) (fun _ =>
  obind (verify_proof pvk proof [c]) (fun r =>
  obind (must (is_ok r)) (fun _ =>
  obind (verify_proof pvk proof [a]) (fun r => must (is_err r)))))))))).

(** groth16/src/lib.rs:540-566: [n] rounds of the loop (100 in the test) *)
Fixpoint proof_rounds (params : Parameters E) (pvk : PreparedVerifyingKey E) (n : nat) (rng : rng_state R) : outcome unit :=
  match n with
  | 0 => Done tt
  | S n =>
      let (a, rng) := random_fr R rng in
      let (b, rng) := random_fr R rng in
      let c := fmul a b in
      let (created, rng) := create_random_proof R w' ln_ceil (silly (Some a) (Some b)) params rng in
      obind (proof_part pvk a c created) (fun _ => proof_rounds params pvk n rng)
  end.

(** groth16/src/lib.rs:486-567 [serialization]; [thread_rng] is the generator [R] *)
Definition serialization (n : nat) (rng : rng_state R) : outcome unit :=
  let (generated, rng) := generate_random_parameters R w (silly None None) rng in
  obind (key_part generated) (fun params => proof_rounds params (prepare_verifying_key (p_vk params)) n rng).
End Test.
