(** Model of src/domain.rs: evaluation domains and the fast Fourier transform.
    Machine integers: [m], [exp], [n], [k], … are [u32]/[usize]/[u64] in the code and naturals here.  A
    vector of [2^32] elements would be needed to see the difference ([a.len() as u32] in [serial_fft]). *)
From Coq Require Import ZArith List Bool Lia.
From Verif Require Import Prelude PrimeField FModule Multicore.
Import ListNotations.
Local Open Scope nat_scope.

(** [x.invert().unwrap()] *)
Definition invert_unwrap {P : PrimeField} (x : P) : outcome P :=
  match finvert x with Some y => Done y | None => Panicked end.

(** src/domain.rs:276-283 [bitreverse]: [l] times [r = (r << 1) | (n & 1); n >>= 1]. *)
Fixpoint bitrev_loop (l n r : nat) : nat :=
  match l with
  | O => r
  | S l' => bitrev_loop l' (n / 2) (2 * r + n mod 2)
  end.
Definition bitreverse (n l : nat) : nat := bitrev_loop l n 0.

Section FFT.
Context {P : PrimeField} {M : FMod P}.

(** [a.swap(i, j)] *)
Definition swap (a : list M) (i j : nat) : list M :=
  upd i (nth j a gzero) (upd j (nth i a gzero) a).

(** src/domain.rs:288-293: the permutation loop. *)
Definition perm_step (log_n : nat) (a : list M) (k : nat) : list M :=
  let rk := bitreverse k log_n in
  if k <? rk then swap a rk k else a.
Definition perm_loop (log_n n : nat) (a : list M) : list M :=
  fold_left (perm_step log_n) (seq 0 n) a.

(** src/domain.rs:302-310: the butterflies of the block starting at [k]; [w] runs through the powers of [w_m]. *)
Definition butterfly (m k : nat) (w_m : P) (st : list M * P) (j : nat) : list M * P :=
  let (a, w) := st in
  let t := w *g nth (k + j + m) a gzero in
  let tmp := nth (k + j) a gzero -g t in
  let a1 := upd (k + j + m) tmp a in
  let a2 := upd (k + j) (nth (k + j) a1 gzero +g t) a1 in
  (a2, (w * w_m)%F).
Definition block (m : nat) (w_m : P) (a : list M) (k : nat) : list M :=
  fst (fold_left (butterfly m k w_m) (seq 0 m) (a, fone)).

(** src/domain.rs:299-313: [k] takes the values 0, 2m, 4m, … below [n] ([2m] divides [n]). *)
Definition stage (n : nat) (m : nat) (w_m : P) (a : list M) : list M :=
  fold_left (fun a b => block m w_m a (b * (2 * m))) (seq 0 (n / (2 * m))) a.

(** src/domain.rs:295-313: [log_n] stages, [m] doubling. *)
Fixpoint stages (log_n : nat) (n m : nat) (omega : P) (a : list M) : list M :=
  match log_n with
  | O => a
  | S l => let w_m := fpow omega (n / (2 * m)) in stages l n (2 * m) omega (stage n m w_m a)
  end.

(** src/domain.rs:272-314 [serial_fft]. *)
Definition serial_fft (a : list M) (omega : P) (log_n : nat) : outcome (list M) :=
  let n := length a in
  if n =? 2 ^ log_n then Done (stages log_n n 1 omega (perm_loop log_n n a)) else Panicked.

(** src/domain.rs:340-352: one task of [parallel_fft]: shuffle into the sub-FFT number [j]; the
    entries of [tmp] start as [group_zero()] (:327). *)
Definition shuffle_inner (a : list M) (n log_new_n i : nat) (omega_step : P) (st : M * P) (s : nat) : M * P :=
  let (t, elt) := st in
  let idx := (i + s * 2 ^ log_new_n) mod n in
  (t +g elt *g nth idx a gzero, (elt * omega_step)%F).
Fixpoint shuffle (a : list M) (n num_cpus log_new_n : nat) (omega_j omega_step : P) (elt : P) (i : nat) (tmp : list M) : list M :=
  match tmp with
  | [] => []
  | t :: rest =>
      let (t', elt') := fold_left (shuffle_inner a n log_new_n i omega_step) (seq 0 num_cpus) (t, elt) in
      t' :: shuffle a n num_cpus log_new_n omega_j omega_step (elt' * omega_j)%F (S i) rest
  end.

Fixpoint omap {A B} (f : A -> outcome B) (l : list A) : outcome (list B) :=
  match l with
  | [] => Done []
  | x :: t => obind (f x) (fun y => obind (omap f t) (fun r => Done (y :: r)))
  end.

(** src/domain.rs:316-372 [parallel_fft]. *)
Definition parallel_fft (a : list M) (w : Worker) (omega : P) (log_n log_cpus : nat) : outcome (list M) :=
  if log_n <? log_cpus then Panicked else
  let num_cpus := 2 ^ log_cpus in
  let log_new_n := log_n - log_cpus in
  let tmp := repeat (repeat gzero (2 ^ log_new_n)) num_cpus in
  let new_omega := fpow omega num_cpus in
  (* :330-355, one task per entry of tmp *)
  obind (omap (fun jt : nat * list M => let (j, t) := jt in
           let omega_j := fpow omega j in
           let omega_step := fpow omega (j * 2 ^ log_new_n) in
           serial_fft (shuffle a (2 ^ log_n) num_cpus log_new_n omega_j omega_step fone 0 t) new_omega log_new_n)
         (combine (seq 0 num_cpus) tmp)) (fun tmp =>
  (* :358-371 *)
  par_for w (length a) (fun chunk idx => idx * chunk)
    (fun idx _ => (nth (idx / num_cpus) (nth (idx mod num_cpus) tmp []) gzero, S idx)) a).

(** src/domain.rs:261-269 [best_fft]. *)
Definition best_fft (a : list M) (w : Worker) (omega : P) (log_n : nat) : outcome (list M) :=
  obind (log_num_threads w) (fun log_cpus =>
    if log_n <=? log_cpus then serial_fft a omega log_n else parallel_fft a w omega log_n log_cpus).

(** src/domain.rs:21-28 [EvaluationDomain]. *)
Record EvalDomain := mkDomain {
  coeffs : list M; d_exp : nat; omega : P; omegainv : P; geninv : P; minv : P
}.
Definition with_coeffs (d : EvalDomain) (c : list M) : EvalDomain :=
  mkDomain c (d_exp d) (omega d) (omegainv d) (geninv d) (minv d).

(** src/domain.rs:49-60: the sizing loop; [fuel] only bounds it. *)
Fixpoint size_loop (fuel m exp len : nat) : res (nat * nat) :=
  match fuel with
  | O => Err PolynomialDegreeTooLarge
  | S f =>
      if m <? len then
        let m := m * 2 in
        let exp := exp + 1 in
        if two_adicity P <=? exp then Err PolynomialDegreeTooLarge else size_loop f m exp len
      else Ok (m, exp)
  end.

(** src/domain.rs:47-79 [from_coeffs]. *)
Definition from_coeffs (cs : list M) : outcome (res EvalDomain) :=
  match size_loop (S (two_adicity P)) 1 0 (length cs) with
  | Err e => Done (Err e)
  | Ok (m, exp) =>
      let w := sqn fmul (root_of_unity P) (two_adicity P - exp) in
      let cs := cs ++ repeat gzero (m - length cs) in
      obind (invert_unwrap w) (fun winv =>
      obind (invert_unwrap (generator P)) (fun ginv =>
      obind (invert_unwrap (ofZ (Z.of_nat m))) (fun mi =>
      Done (Ok (mkDomain cs exp w winv ginv mi)))))
  end.

Definition set_coeffs (d : EvalDomain) (r : outcome (list M)) : outcome EvalDomain :=
  obind r (fun c => Done (with_coeffs d c)).

(** src/domain.rs:81-83. *)
Definition fft (w : Worker) (d : EvalDomain) : outcome EvalDomain :=
  set_coeffs d (best_fft (coeffs d) w (omega d) (d_exp d)).

(** src/domain.rs:85-99. *)
Definition ifft (w : Worker) (d : EvalDomain) : outcome EvalDomain :=
  obind (best_fft (coeffs d) w (omegainv d) (d_exp d)) (fun c =>
  set_coeffs d (par_map w (length c) (fun v => minv d *g v) c)).

(** src/domain.rs:101-113. *)
Definition distribute_powers (w : Worker) (g : P) (d : EvalDomain) : outcome EvalDomain :=
  set_coeffs d (par_for w (length (coeffs d)) (fun chunk i => fpow g (i * chunk)) (fun u v => (u *g v, (u * g)%F)) (coeffs d)).

(** src/domain.rs:115-118. *)
Definition coset_fft (w : Worker) (d : EvalDomain) : outcome EvalDomain :=
  obind (distribute_powers w (generator P) d) (fft w).

(** src/domain.rs:120-125. *)
Definition icoset_fft (w : Worker) (d : EvalDomain) : outcome EvalDomain :=
  obind (ifft w d) (distribute_powers w (geninv d)).

(** src/domain.rs:129-134. *)
Definition z (d : EvalDomain) (tau : P) : P := (fpow tau (length (coeffs d)) - 1)%F.

(** src/domain.rs:139-151. *)
Definition divide_by_z_on_coset (w : Worker) (d : EvalDomain) : outcome EvalDomain :=
  obind (invert_unwrap (z d (generator P))) (fun i =>
  set_coeffs d (par_map w (length (coeffs d)) (fun v => i *g v) (coeffs d))).

(** src/domain.rs:173-189. *)
Definition sub_assign (w : Worker) (d other : EvalDomain) : outcome EvalDomain :=
  if length (coeffs d) =? length (coeffs other)
  then set_coeffs d (par_zip w (length (coeffs d)) (fun a b => a -g b) (coeffs d) (coeffs other))
  else Panicked.
End FFT.
Arguments EvalDomain {P} M.

(** src/domain.rs:154-170: the other operand is a domain of scalars. *)
Definition mul_assign {P : PrimeField} {M : FMod P} (w : Worker) (d : EvalDomain M) (other : EvalDomain (ScalarMod P)) : outcome (EvalDomain M) :=
  if length (coeffs d) =? length (coeffs other)
  then set_coeffs d (par_zip w (length (coeffs d)) (fun a b => (b : P) *g a) (coeffs d) (coeffs other))
  else Panicked.
