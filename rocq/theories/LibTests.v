(** The unit tests of src/domain.rs, src/multiexp.rs and src/multicore.rs. *)
From Coq Require Import ZArith List Bool Lia.
From Verif Require Import Prelude PrimeField FModule Multicore Domain Multiexp UnitTests.
Import ListNotations.
Local Open Scope nat_scope.

Section DomainTests.
Context {P : PrimeField}.
Notation SM := (ScalarMod P).
Notation Dom := (EvalDomain SM).

(** [v == w] on vectors of scalars *)
Fixpoint veqb (v w : list P) : bool :=
  match v, w with [], [] => true | x :: v, y :: w => feqb x y && veqb v w | _, _ => false end.
(** [for (x, y) in v.iter().zip(w.iter()) { assert!(x == y) }] *)
Fixpoint zip_assert (v w : list P) : outcome unit :=
  match v, w with x :: v, y :: w => do _ <- assert (feqb x y); zip_assert v w | _, _ => Done tt end.

(** src/domain.rs:396-402: the loops of the naive product; an index out of bounds is a panic. *)
Fixpoint naive_row (i : nat) (x : P) (b naive : list P) : outcome (list P) :=
  match b with
  | [] => Done naive
  | y :: b => if i <? length naive then naive_row (S i) x b (upd i (nth i naive fzero + x * y)%F naive) else Panicked
  end.
Fixpoint naive_mul (i : nat) (a b naive : list P) : outcome (list P) :=
  match a with [] => Done naive | x :: a => do naive <- naive_row i x b naive; naive_mul (S i) a b naive end.
(** [v.resize(n, zero)], where [n] is at least the length *)
Definition resize (n : nat) (v : list P) : list P := (v ++ repeat fzero (n - length v))%list.

(** src/domain.rs:387-417, one round: the draws are [a] and [b]. *)
Definition mul_round (wk : Worker) (a b : list P) : outcome unit :=
  let n := length a + length b in
  do naive <- naive_mul 0 a b (repeat fzero n);
  do r <- from_coeffs (M := SM) (resize n a); do da <- unwrap r;
  do r <- from_coeffs (M := SM) (resize n b); do db <- unwrap r;
  do da <- fft wk da; do db <- fft wk db; do da <- mul_assign wk da db; do da <- ifft wk da;
  zip_assert naive (coeffs da).
(** src/domain.rs:374-425 [polynomial_arith]: [a], [b] tell the scalars drawn in each round. *)
Definition drawn (n : nat) (f : nat -> P) : list P := map f (seq 0 n).
Definition polynomial_arith (wk : Worker) (a b : nat -> nat -> nat -> P) : outcome unit :=
  each 0 70 (fun ca => each 0 70 (fun cb => mul_round wk (drawn ca (a ca cb)) (drawn cb (b ca cb)))).

(** src/domain.rs:437-456, one round *)
Definition comp_round (wk : Worker) (v : list P) : outcome unit :=
  do r <- from_coeffs (M := SM) v; do d <- unwrap r;
  do d <- ifft wk d; do d <- fft wk d; do _ <- assert (veqb v (coeffs d));
  do d <- fft wk d; do d <- ifft wk d; do _ <- assert (veqb v (coeffs d));
  do d <- icoset_fft wk d; do d <- coset_fft wk d; do _ <- assert (veqb v (coeffs d));
  do d <- coset_fft wk d; do d <- icoset_fft wk d; assert (veqb v (coeffs d)).
(** src/domain.rs:427-463 [fft_composition] *)
Definition fft_composition (wk : Worker) (v : nat -> nat -> P) : outcome unit :=
  each 0 10 (fun c => comp_round wk (drawn (2 ^ c) (v c))).

(** src/domain.rs:477-490, one round, for a function [pfft] in the place of [parallel_fft].  The inner loop is
    [for log_cpus in log_d..min(log_d + 1, 3)]: the transforms are applied to the vectors in turn. *)
Definition FFT := list P -> Worker -> P -> nat -> nat -> outcome (list P).
Fixpoint cpus_loop (pfft : FFT) (wk : Worker) (log_d log_cpus n : nat) (w1 w2 : P) (v1 v2 : list P) : outcome unit :=
  match n with
  | O => Done tt
  | S n =>
      do v1 <- pfft v1 wk w1 log_d log_cpus;
      do v2 <- serial_fft (M := SM) v2 w2 log_d;
      do _ <- assert (veqb v1 v2);
      cpus_loop pfft wk log_d (S log_cpus) n w1 w2 v1 v2
  end.
Definition consistency_round (pfft : FFT) (wk : Worker) (log_d : nat) (v : list P) : outcome unit :=
  do r <- from_coeffs (M := SM) v; do v1 <- unwrap r;
  do r <- from_coeffs (M := SM) (coeffs v1); do v2 <- unwrap r;
  cpus_loop pfft wk log_d log_d (Nat.min (log_d + 1) 3 - log_d) (omega v1) (omega v2) (coeffs v1) (coeffs v2).
(** src/domain.rs:465-498 [parallel_fft_consistency] *)
Definition parallel_fft_consistency (pfft : FFT) (wk : Worker) (v : nat -> nat -> nat -> P) : outcome unit :=
  each 0 5 (fun r => each 0 10 (fun log_d => consistency_round pfft wk log_d (drawn (2 ^ log_d) (v r log_d)))).
End DomainTests.

Section MultiexpTest.
Context {P : PrimeField} {M : FMod P}.
(** src/multiexp.rs:337-350 [naive_multiexp] *)
Definition naive_multiexp (bases : list M) (exps : list P) : outcome M :=
  if length bases =? length exps
  then Done (fold_left (fun acc be => acc +g snd be *g fst be)%G (combine bases exps) gzero)
  else Panicked.
(** src/multiexp.rs:334-378 [test_with_bls12], for any number of samples: [g] are the bases drawn, [v] the exponents. *)
Definition multiexp_case (ln_ceil : Z -> nat) (g : list M) (v : list P) : outcome unit :=
  do naive <- naive_multiexp g v;
  do r <- multiexp ln_ceil g 0 FullDensity (map exponent_of v); do fast <- unwrap r;
  assert (geqb naive fast).
Definition test_with_bls12 (ln_ceil : Z -> nat) (v : nat -> P) (g : nat -> M) : outcome unit :=
  multiexp_case ln_ceil (map g (seq 0 (2 ^ 14))) (map v (seq 0 (2 ^ 14))).
End MultiexpTest.

(** src/multicore.rs:132-142 [test_log2_floor] *)
Definition test_log2_floor : outcome unit :=
  all_of [(1, 0); (2, 1); (3, 1); (4, 2); (5, 2); (6, 2); (7, 2); (8, 3)]%nat
    (fun ne => do e <- log2_floor (Z.of_nat (fst ne)); assert (e =? snd ne)).
