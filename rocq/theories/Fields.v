(** Concrete prime fields, showing that the [PrimeField] contract is inhabited:
    - [Fr64513]: groth16/src/tests/dummy_engine.rs:13-330 (modulus 64513, NUM_BITS 16, S 10,
      generator 5, root of unity 57751);
    - [Goldilocks]: 2^64 - 2^32 + 1, the smallest field shape the UInt32 gadgets accept. *)
From Coq Require Import ZArith List Bool Lia Znumtheory.
From Verif Require Import Prelude PrimeField Zp Pocklington.
Import ListNotations.
Open Scope Z_scope.

Ltac by_trial b := apply (trial_prime _ b); [reflexivity | reflexivity | vm_compute; reflexivity].

Ltac by_cert l :=
  apply (pocklington _ l);
  [ reflexivity
  | let c := fresh in let H := fresh in
    intros c H; repeat (destruct H as [<-|H]; [cbn [fst]; auto with primes|]); destruct H
  | vm_compute; reflexivity | vm_compute; reflexivity | vm_compute; reflexivity ].

Create HintDb primes.
#[export] Hint Resolve prime_2 prime_3 : primes.

Lemma prime_64513 : prime 64513. Proof. by_cert [(2, 9%nat, 5)]. Qed.

Definition goldilocks_p : Z := 18446744069414584321.
Lemma prime_goldilocks : prime goldilocks_p. Proof. by_cert [(2, 31%nat, 7)]. Qed.

Definition params_64513 : ZpParams 64513.
Proof.
  refine (Build_ZpParams 64513 16 64 10 57751 5 _ _ _ _ _ _ _ _);
    solve [lia | vm_compute; congruence | vm_compute; reflexivity].
Defined.
Definition Fr64513 : PrimeField := ZpField 64513 prime_64513 params_64513.

Definition params_goldilocks : ZpParams goldilocks_p.
Proof.
  refine (Build_ZpParams goldilocks_p 64 64 32 (powmod goldilocks_p 7 4294967295) 7 _ _ _ _ _ _ _ _);
    solve [lia | vm_compute; congruence | vm_compute; reflexivity].
Defined.
Definition Goldilocks : PrimeField := ZpField goldilocks_p prime_goldilocks params_goldilocks.
