(** The benchmarks: groth16/benches/batch.rs and benches/slow.rs. *)
From Coq Require Import ZArith List Bool Lia.
From Verif Require Import Prelude PrimeField FModule Circuit Multicore Multiexp Groth16 Mimc Session.
From Verif Require Batch.
Import ListNotations.
Local Open Scope nat_scope.

Section Bench.
Context {P : PrimeField} {E : Engine P} (R : Rng E).

Section Proofs.
Context (w : Worker) (ln_ceil : Z -> nat) (rounds : nat) (constants : list P) (params : Parameters E).

(** groth16/benches/batch.rs:44-62: the closure given to [repeat_with]. *)
Definition bench_proof (rng : rng_state R) : run_to (Proof_ E * P * rng_state R) :=
  let (xl, rng) := random_fr R rng in
  let (xr, rng) := random_fr R rng in
  match mimc rounds xl xr constants with
  | Panicked => Err OtherPanic
  | Done image =>
      let (created, rng) := create_random_proof R w ln_ceil (mimc_circuit rounds (Some xl) (Some xr) constants) params rng in
      match created with
      | Panicked => Err OtherPanic
      | Done (Err _) => Err UnwrapCreate
      | Done (Ok proof) => Ok (proof, image, rng)
      end
  end.

(** groth16/benches/batch.rs:43-65: [repeat_with], [take(n)], [collect]. *)
Fixpoint bench_proofs (n : nat) (rng : rng_state R) : run_to (list (Proof_ E * P)) :=
  match n with
  | 0 => Ok []
  | S n =>
      match bench_proof rng with
      | Err e => Err e
      | Ok (proof, image, rng) => match bench_proofs n rng with Err e => Err e | Ok proofs => Ok ((proof, image) :: proofs) end
      end
  end.
End Proofs.

(** groth16/benches/batch.rs:71-75: one run of the unbatched closure; the results that [let _] drops are kept. *)
Fixpoint unbatched (pvk : PreparedVerifyingKey E) (proofs : list (Proof_ E * P)) : outcome (list (result VerificationError unit)) :=
  match proofs with
  | [] => Done []
  | (proof, input) :: proofs =>
      match verify_proof pvk proof [input] with
      | Panicked => Panicked
      | Done x => match unbatched pvk proofs with Panicked => Panicked | Done xs => Done (x :: xs) end
      end
  end.

(** groth16/benches/batch.rs:84-87: the queue of the batch verifier (verifier/batch.rs:83-95). *)
Definition bench_queue (proofs : list (Proof_ E * P)) : list (Batch.Item E) :=
  fold_left (fun queue '(proof, input) => queue ++ [Batch.mkItem proof [input]]) proofs [].
(** groth16/benches/batch.rs:83-89: one run of the batched closure; [None]: still drawing after [fuel] draws. *)
Definition batched (M : Batch.Miller E) (fuel : nat) (rng : rng_state R) (vk : VerifyingKey E) (proofs : list (Proof_ E * P))
  : option (outcome (result VerificationError unit)) :=
  Batch.verify M fuel (draws R rng) (bench_queue proofs) vk.

(** What the runs of the two closures return. *)
Record Measured := { unbatched_runs : list (outcome (list (result VerificationError unit))); batched_runs : list (option (outcome (result VerificationError unit))) }.

(** groth16/benches/batch.rs:22-91: one round of the loop.  criterion decides how often each closure is run: [runs] times the one; the other once from
    each of the states [rngs] of the generator.  (How many draws a run takes depends on the draws: the states are arbitrary here.) *)
Definition bench_batch_verify (M : Batch.Miller E) (w w' : Worker) (ln_ceil : Z -> nat) (fuel rounds n runs : nat) (rngs : list (rng_state R)) (rng : rng_state R)
  : run_to Measured :=
  let (constants, rng) := random_constants R rounds rng in
  let (generated, rng) := generate_random_parameters R w (mimc_circuit rounds None None constants) rng in
  match unwrap_generate generated with
  | Err e => Err e
  | Ok params =>
      let pvk := prepare_verifying_key (p_vk params) in
      match bench_proofs w' ln_ceil rounds constants params n rng with
      | Err e => Err e
      | Ok proofs => Ok {| unbatched_runs := repeat (unbatched pvk proofs) runs; batched_runs := map (fun rng => batched M fuel rng (p_vk params) proofs) rngs |}
      end
  end.

(** benches/slow.rs:24-28 *)
Fixpoint random_points (n : nat) (rng : rng_state R) : list (E_G1 E) * rng_state R :=
  match n with
  | 0 => ([], rng)
  | S n => let (g, rng) := random_g1 R rng in let (gs, rng) := random_points n rng in (g :: gs, rng)
  end.
(** benches/slow.rs:14-44 [bench_parts]: one run of the closure; its result, which [let _] drops, is kept.  [to_affine] (in the crate group) does not
    change the element. *)
Definition bench_parts (ln_ceil : Z -> nat) (samples : nat) (rng : rng_state R) : outcome (E_G1 E) :=
  let (v, rng) := random_constants R samples rng in
  let v_bits := map exponent_of v in
  let (g, _) := random_points samples rng in
  match multiexp ln_ceil g 0 FullDensity v_bits with
  | Done (Ok x) => Done x
  | _ => Panicked
  end.
End Bench.
