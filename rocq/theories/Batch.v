(** groth16/src/verifier/batch.rs: batch verification of proofs. *)
From Coq Require Import ZArith List Bool Lia.
From Verif Require Import Prelude PrimeField FModule Groth16.
Import ListNotations.
Local Open Scope nat_scope.

(** [pairing::MultiMillerLoop] / [MillerLoopResult]: Miller loop results can be added before the final exponentiation, which is a
    homomorphism; contract of the [pairing] crate. *)
Record Miller {P : PrimeField} (E : Engine P) := {
  Res : Type;
  res_add : Res -> Res -> Res;
  multi_miller_loop : list (E_G1 E * E_G2 E) -> Res;
  final_exponentiation : Res -> E_GT E;
  final_exp_add : forall x y, final_exponentiation (res_add x y) = final_exponentiation x +g final_exponentiation y;
  final_exp_loop : forall terms, final_exponentiation (multi_miller_loop terms) = multi_pairing terms
}.
Arguments Res {P E}. Arguments res_add {P E m}. Arguments multi_miller_loop {P E m}. Arguments final_exponentiation {P E m}.

(** The one of groth16/src/tests/dummy_engine.rs: the final exponentiation does nothing. *)
Definition DummyMiller (P : PrimeField) : Miller (DummyEngine P).
Proof.
  refine (@Build_Miller P (DummyEngine P) (ScalarMod P) (@gadd P (ScalarMod P)) (@multi_pairing P (DummyEngine P)) (fun x => x) _ _);
    reflexivity.
Defined.

Section Batch.
Context {P : PrimeField} {E : Engine P} (M : Miller E).
Notation G1 := (E_G1 E).
Notation G2 := (E_G2 E).

(** batch.rs:39-43 *)
Record Item := mkItem { item_proof : Proof_ E; item_inputs : list P }.

(** batch.rs:57-65 [verify_single] *)
Definition verify_single (item : Item) (pvk : PreparedVerifyingKey E) : outcome (result VerificationError unit) :=
  verify_proof pvk (item_proof item) (item_inputs item).

(** batch.rs:124-129, 218-223: the loop drawing a non-zero field element.  A source of random field elements is the sequence of values
    [Field::random] returns; [pos] is the number of values already drawn.  [None]: still looping after [fuel] draws.  A failing
    generator (a panic in [fill_bytes]) is not modelled. *)
Fixpoint draw (fuel : nat) (rng : nat -> P) (pos : nat) : option (P * nat) :=
  match fuel with
  | 0 => None
  | S f => if negb (feqb (rng pos) fzero) then Some (rng pos, S pos) else draw f rng (S pos)
  end.

(** batch.rs:134-136, 227-231: [for (a_i, acc_Gamma_i) in Iterator::zip(inputs.iter(), acc_Gammas.iter_mut().skip(1))] *)
Fixpoint acc_inputs (zc : P) (inputs : list P) (gammas : list P) : list P :=
  match inputs, gammas with
  | a :: inputs, g :: gammas => (g + zc * a)%F :: acc_inputs zc inputs gammas
  | _, gammas => gammas
  end.
(** batch.rs:133-136, 226-231; [acc_Gammas[0]] panics on an empty vector. *)
Definition acc_gammas (zc : P) (inputs : list P) (gammas : list P) : outcome (list P) :=
  match gammas with
  | [] => Panicked
  | g :: gammas => Done ((g + zc)%F :: acc_inputs zc inputs gammas)
  end.

Record Acc := mkAcc { ml_terms : list (G1 * G2); gammas : list P; acc_delta : G1; acc_y : P }.

(** batch.rs:131-138, 226-234: one item with its coefficient. *)
Definition step (acc : Acc) (item : Item) (zc : P) : outcome Acc :=
  let proof := item_proof item in
  obind (acc_gammas zc (item_inputs item) (gammas acc)) (fun gs =>
  Done (mkAcc (ml_terms acc ++ [(zc *g proof_a proof, gneg (proof_b proof))]) gs (acc_delta acc +g zc *g proof_c proof) (acc_y acc + zc)%F)).

(** batch.rs:118-139 *)
Fixpoint verify_loop (fuel : nat) (rng : nat -> P) (pos : nat) (acc : Acc) (items : list Item) : option (outcome Acc) :=
  match items with
  | [] => Some (Done acc)
  | item :: items =>
      match draw fuel rng pos with
      | None => None
      | Some (zc, pos) =>
          match step acc item zc with
          | Panicked => Some Panicked
          | Done acc => verify_loop fuel rng pos acc items
          end
      end
  end.

(** batch.rs:143-148, 263-268 *)
Definition psi (ics : list G1) (gammas : list P) : G1 :=
  fold_left (fun acc pg => acc +g snd pg *g fst pg) (combine ics gammas) gzero.

Definition wrong_inputs (vk : VerifyingKey E) (item : Item) : bool := negb (length (item_inputs item) + 1 =? length (ic vk)).

(** batch.rs:100-173 [verify] *)
Definition verify (fuel : nat) (rng : nat -> P) (items : list Item) (vk : VerifyingKey E) : option (outcome (result VerificationError unit)) :=
  if existsb (wrong_inputs vk) items then Some (Done (Err InvalidVerifyingKey)) else
  match verify_loop fuel rng 0 (mkAcc [] (repeat fzero (length (ic vk))) gzero fzero) items with
  | None => None
  | Some Panicked => Some Panicked
  | Some (Done acc) =>
      let terms := ml_terms acc ++ [(acc_delta acc, delta_g2 vk)] ++ [(psi (ic vk) (gammas acc), gamma_g2 vk)]
                     ++ [(acc_y acc *g alpha_g1 vk, beta_g2 vk)] in
      Some (Done (if geqb (final_exponentiation (multi_miller_loop (m := M) terms)) gzero then Ok tt else Err InvalidProof))
  end.

(** ** [verify_multicore] *)

(** batch.rs:191-207 *)
Record Accumulator := mkAccumulator { a_gammas : list P; a_delta : G1; a_y : P; ml_result : option (Res M) }.
Definition new_accumulator (ic_len : nat) : Accumulator := mkAccumulator (repeat fzero ic_len) gzero fzero None.

(** batch.rs:224-237: [cur_z] runs through the powers of [z]. *)
Fixpoint chunk_loop (zc cur_z : P) (acc : Acc) (items : list Item) : outcome Acc :=
  match items with
  | [] => Done acc
  | item :: items => obind (step acc item cur_z) (fun acc => chunk_loop zc (cur_z * zc)%F acc items)
  end.
(** batch.rs:215-241: the work for one chunk. *)
Definition chunk_acc (fuel : nat) (rng : nat -> P) (ic_len : nat) (items : list Item) : option (outcome Accumulator) :=
  match draw fuel rng 0 with
  | None => None
  | Some (zc, _) =>
      Some (obind (chunk_loop zc zc (mkAcc [] (repeat fzero ic_len) gzero fzero) items) (fun acc =>
        Done (mkAccumulator (gammas acc) (acc_delta acc) (acc_y acc) (Some (multi_miller_loop (ml_terms acc))))))
  end.

(** batch.rs:245-247; the shorter vector ends the zip. *)
Fixpoint add_gammas (a b : list P) : list P :=
  match a, b with x :: a, y :: b => (x + y)%F :: add_gammas a b | a, _ => a end.
(** batch.rs:244-256 *)
Definition combine_acc (a b : Accumulator) : Accumulator :=
  mkAccumulator (add_gammas (a_gammas a) (a_gammas b)) (a_delta a +g a_delta b) (a_y a + a_y b)%F
    (match ml_result a, ml_result b with
     | Some a, Some b => Some (res_add a b)
     | Some a, None | None, Some a => Some a
     | None, None => None
     end).

(** [rayon]'s [reduce]: the results of the chunks, in order, are combined along some tree, with copies of the identity at any places. *)
Inductive rtree := RIdentity | RChunk (i : nat) | RNode (l r : rtree).
Fixpoint leaves (t : rtree) : list nat :=
  match t with RIdentity => [] | RChunk i => [i] | RNode l r => leaves l ++ leaves r end.
(** [None]: some task is still looping, or the tree asks for a chunk that is not there; a panic in a task is a panic of the call. *)
Fixpoint reduce (ic_len : nat) (work : nat -> option (outcome Accumulator)) (t : rtree) : option (outcome Accumulator) :=
  match t with
  | RIdentity => Some (Done (new_accumulator ic_len))
  | RChunk i => work i
  | RNode l r =>
      match reduce ic_len work l, reduce ic_len work r with
      | Some a, Some b => Some (obind a (fun a => obind b (fun b => Done (combine_acc a b))))
      | _, _ => None
      end
  end.

(** batch.rs:182-286 [verify_multicore]; each chunk draws from its own sequence of random values ([OsRng]). *)
Definition verify_multicore (fuel : nat) (rngs : nat -> nat -> P) (t : rtree) (items : list Item) (vk : VerifyingKey E)
  : option (outcome (result VerificationError unit)) :=
  if existsb (wrong_inputs vk) items then Some (Done (Err InvalidVerifyingKey)) else
  let ic_len := length (ic vk) in
  let work i := match nth_error (chunks 8 items) i with Some c => chunk_acc fuel (rngs i) ic_len c | None => None end in
  match reduce ic_len work t with
  | None => None
  | Some Panicked => Some Panicked
  | Some (Done acc) =>
      Some (Done
        match ml_result acc with
        | None => Ok tt
        | Some ml =>
            let ml := res_add ml (multi_miller_loop [(a_delta acc, delta_g2 vk); (psi (ic vk) (a_gammas acc), gamma_g2 vk);
                                                     (a_y acc *g alpha_g1 vk, beta_g2 vk)]) in
            if geqb (final_exponentiation ml) gzero then Ok tt else Err InvalidProof
        end)
  end.
End Batch.
Arguments Item {P}. Arguments mkItem {P E}. Arguments item_proof {P E}. Arguments item_inputs {P E}.
Arguments Accumulator {P E}. Arguments mkAccumulator {P E M}. Arguments a_gammas {P E M}. Arguments a_delta {P E M}. Arguments a_y {P E M}.
Arguments ml_result {P E M}.
Arguments Acc {P}. Arguments mkAcc {P E}. Arguments ml_terms {P E}. Arguments gammas {P E}. Arguments acc_delta {P E}. Arguments acc_y {P E}.
