(** Random draws: generator.rs [generate_random_parameters], prover.rs [create_random_proof], and the flow of the integration tests. *)
From Coq Require Import ZArith List Bool Lia.
From Coq Require Import Strings.Byte.
From Verif Require Import Prelude PrimeField FModule Circuit Multicore Groth16 Encoding Mimc.
From Verif Require Batch.
Import ListNotations.
Local Open Scope nat_scope.

(** A random generator as seen through [Field::random] and [Group::random]; a generator that panics is not modelled. *)
Record Rng {P : PrimeField} (E : Engine P) := {
  rng_state : Type;
  random_fr : rng_state -> P * rng_state;
  random_g1 : rng_state -> E_G1 E * rng_state;
  random_g2 : rng_state -> E_G2 E * rng_state
}.
Arguments rng_state {P E}. Arguments random_fr {P E}. Arguments random_g1 {P E}. Arguments random_g2 {P E}.

Section Session.
Context {P : PrimeField} {E : Engine P} (R : Rng E).

(** generator.rs:19-39 [generate_random_parameters]; with the state of the generator afterwards. *)
Definition generate_random_parameters (w : Worker) (circuit : prog P (res unit)) (rng : rng_state R) : outcome (res (Parameters E)) * rng_state R :=
  let (g1, rng) := random_g1 R rng in
  let (g2, rng) := random_g2 R rng in
  let (alpha, rng) := random_fr R rng in
  let (beta, rng) := random_fr R rng in
  let (gamma, rng) := random_fr R rng in
  let (delta, rng) := random_fr R rng in
  let (tau, rng) := random_fr R rng in
  (generate_parameters w circuit g1 g2 alpha beta gamma delta tau, rng).

(** prover.rs:164-179 [create_random_proof] *)
Definition create_random_proof (w : Worker) (ln_ceil : Z -> nat) (circuit : prog P (res unit)) (params : Parameters E) (rng : rng_state R)
  : outcome (res (Proof_ E)) * rng_state R :=
  let (r, rng) := random_fr R rng in
  let (s, rng) := random_fr R rng in
  (create_proof w ln_ceil circuit params r s, rng).

(** The sequence of field elements drawn from a state on. *)
Fixpoint state_after (rng : rng_state R) (k : nat) : rng_state R :=
  match k with 0 => rng | S k => state_after (snd (random_fr R rng)) k end.
Definition draws (rng : rng_state R) (k : nat) : P := fst (random_fr R (state_after rng k)).

(** Where a test stops early: an [unwrap] of an error, an [assert!] that fails, or any other panic. *)
Inductive stop := UnwrapGenerate | UnwrapCreate | UnwrapWrite | UnwrapRead | AssertVerify | AssertBatch | OtherPanic.
Definition run_to (A : Type) := result stop A.

(** groth16/tests/mimc.rs:30-32, 112-114 [(0..MIMC_ROUNDS).map(|_| Scalar::random(&mut rng)).collect()] *)
Fixpoint random_constants (n : nat) (rng : rng_state R) : list P * rng_state R :=
  match n with
  | 0 => ([], rng)
  | S n => let (c, rng) := random_fr R rng in let (cs, rng) := random_constants n rng in (c :: cs, rng)
  end.

(** groth16/tests/mimc.rs:37-45, 119-127 *)
Definition unwrap_generate (x : outcome (res (Parameters E))) : run_to (Parameters E) :=
  match x with Done (Ok p) => Ok p | Done (Err _) => Err UnwrapGenerate | Panicked => Err OtherPanic end.

Section Sample.
Context (B1 : GroupBytes (E_G1 E)) (B2 : GroupBytes (E_G2 E)) (w : Worker) (ln_ceil : Z -> nat) (rounds : nat) (constants : list P)
        (params : Parameters E) (pvk : PreparedVerifyingKey E).

(** groth16/tests/mimc.rs:61-92, 143-179: one round of the loop; [proof_vec] is empty after [truncate(0)], and a [Vec<u8>] takes any number of
    bytes.  The second test also queues the proof: the item is returned. *)
Definition sample (rng : rng_state R) : run_to (Batch.Item E * rng_state R) :=
  let (xl, rng) := random_fr R rng in
  let (xr, rng) := random_fr R rng in
  match mimc rounds xl xr constants with
  | Panicked => Err OtherPanic
  | Done image =>
      let (created, rng) := create_random_proof w ln_ceil (mimc_circuit rounds (Some xl) (Some xr) constants) params rng in
      match created with
      | Panicked => Err OtherPanic
      | Done (Err _) => Err UnwrapCreate
      | Done (Ok proof) =>
          match proof_write B1 B2 proof (mkWriter [] None) with
          | (_, Err _) => Err UnwrapWrite
          | (proof_vec, Ok _) =>
              match proof_read B1 B2 (mkReader (written proof_vec) UnexpectedEof) with
              | Err _ => Err UnwrapRead
              | Ok (proof, _) =>
                  match verify_proof pvk proof [image] with
                  | Panicked => Err OtherPanic
                  | Done (Err _) => Err AssertVerify
                  | Done (Ok _) => Ok (Batch.mkItem proof [image], rng)
                  end
              end
          end
      end
  end.

(** groth16/tests/mimc.rs:61-92, 143-179: the loop; the queue of the batch verifier (verifier/batch.rs:88-95). *)
Fixpoint samples (n : nat) (rng : rng_state R) (queue : list (Batch.Item E)) : run_to (list (Batch.Item E) * rng_state R) :=
  match n with
  | 0 => Ok (queue, rng)
  | S n => match sample rng with Err e => Err e | Ok (item, rng) => samples n rng (queue ++ [item]) end
  end.
End Sample.

(** groth16/tests/mimc.rs:24-103 [test_mimc]; [w] and [w'] are the workers of key generation and of the provers. *)
Definition test_mimc (B1 : GroupBytes (E_G1 E)) (B2 : GroupBytes (E_G2 E)) (w w' : Worker) (ln_ceil : Z -> nat) (rounds n : nat) (rng : rng_state R) : run_to unit :=
  let (constants, rng) := random_constants rounds rng in
  let (generated, rng) := generate_random_parameters w (mimc_circuit rounds None None constants) rng in
  match unwrap_generate generated with
  | Err e => Err e
  | Ok params =>
      match samples B1 B2 w' ln_ceil rounds constants params (prepare_verifying_key (p_vk params)) n rng [] with
      | Err e => Err e
      | Ok _ => Ok tt
      end
  end.

(** groth16/tests/mimc.rs:106-207 [batch_verify]; [None]: the batch verifier is still drawing after [fuel] draws. *)
Definition test_batch_verify (M : Batch.Miller E) (B1 : GroupBytes (E_G1 E)) (B2 : GroupBytes (E_G2 E)) (w w' : Worker) (ln_ceil : Z -> nat) (fuel rounds n : nat)
    (rng : rng_state R) : option (run_to unit) :=
  let (constants, rng) := random_constants rounds rng in
  let (generated, rng) := generate_random_parameters w (mimc_circuit rounds None None constants) rng in
  match unwrap_generate generated with
  | Err e => Some (Err e)
  | Ok params =>
      match samples B1 B2 w' ln_ceil rounds constants params (prepare_verifying_key (p_vk params)) n rng [] with
      | Err e => Some (Err e)
      | Ok (queue, rng) =>
          match Batch.verify M fuel (draws rng) queue (p_vk params) with
          | None => None
          | Some Panicked => Some (Err OtherPanic)
          | Some (Done (Err _)) => Some (Err AssertBatch)
          | Some (Done (Ok _)) => Some (Ok tt)
          end
      end
  end.
End Session.
