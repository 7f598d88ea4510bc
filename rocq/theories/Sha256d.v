(** Model of the example circuit of the crate documentation, src/lib.rs:5-126: knowledge of a preimage under SHA-256d. *)
From Coq Require Import String.
From Coq Require Import ZArith List Bool.
From Verif Require Import Prelude PrimeField Circuit Loops BooleanGadget Multipack Sha256.
Import ListNotations.
Local Open Scope nat_scope.

Section Model.
Context {P : PrimeField}.
Local Open Scope prog_scope.
Local Open Scope string_scope.

(** lib.rs:36-41, 47-52: [data.chunks(8).map(|c| c.iter().rev()).flatten().cloned().collect()] *)
Definition flip {A} (data : list A) : list A := flat_map (fun c => rev c) (chunks 8 data).

(** lib.rs:31-53 [sha256d] *)
Definition sha256d (data : list Boolean) : prog P (res (list Boolean)) :=
  let input := flip data in
  let* mid := ns "SHA-256(input)" (sha256 input) in
  let* r := ns "SHA-256(mid)" (sha256 mid) in
  Ret (Ok (flip r)).

(** lib.rs:66-75: the bits of the bytes of the preimage, or as many times [None].  [n] is the number of bytes of the preimage, 80 in the
    source, where it is part of the type of the field [preimage]; here the [Some] case is about lists of any length. *)
Definition bit_values (n : nat) (preimage : option (list Z)) : list (option bool) :=
  match preimage with
  | Some bytes => map Some (flat_map (fun byte => map (fun i => byte_bit byte i) (seq 0 8)) bytes)
  | None => repeat None (n * 8)
  end.

(** lib.rs:79-88: allocate each bit, stopping at the first error *)
Definition witness_bits (values : list (option bool)) : prog P (res (list Boolean)) :=
  mapq (fun i b => let* a := ns ("preimage bit " ++ nat_str i) (ab_alloc b) in Ret (Ok (BIs a))) 0 values.

(** lib.rs:61-96 [MyCircuit::synthesize] *)
Definition my_circuit (n : nat) (preimage : option (list Z)) : prog P (res unit) :=
  let values := bit_values n preimage in
  if negb (Nat.eqb (length values) (n * 8)) then Panic
  else
    let* preimage_bits := witness_bits values in
    let* hash := ns "SHA-256d(preimage)" (sha256d preimage_bits) in
    ns "pack hash" (pack_into_inputs hash).
End Model.
