(** Model of src/multiexp.rs. *)
From Coq Require Import ZArith List Bool Lia.
From Verif Require Import Prelude PrimeField FModule Multicore Domain.
Import ListNotations.
Local Open Scope nat_scope.

(** src/multiexp.rs:117-157 [DensityTracker]: the bit vector. *)
Definition DensityTracker := list bool.
Definition dt_new : DensityTracker := [].
Definition dt_add_element (t : DensityTracker) : DensityTracker := t ++ [false].
(** :147-151: [self.bv.get(idx).unwrap()] panics when out of range. *)
Definition dt_inc (idx : nat) (t : DensityTracker) : outcome DensityTracker :=
  match nth_error t idx with
  | None => Panicked
  | Some b => Done (if negb b then upd idx true t else t)
  end.
Definition dt_get_total_density (t : DensityTracker) : nat := count_occ bool_dec t true.

(** The two implementors of [QueryDensity] (:88-131). *)
Inductive Density := FullDensity | Tracked (bv : DensityTracker).
Definition get_query_size (d : Density) : option nat :=
  match d with FullDensity => None | Tracked bv => Some (length bv) end.
(** [density.iter()], as far as a [zip] with [n] exponents looks at it. *)
Definition density_iter (n : nat) (d : Density) : list bool :=
  match d with FullDensity => repeat true n | Tracked bv => bv end.

(** src/multiexp.rs:159-163 [ChunkedExponent], :166-170 [Exponent]. *)
Inductive ChunkedExponent := CZero | COne | CChunks (l : list Z).
Inductive Exponent := EZero | EOne | EBits (bits : list bool).

(** src/multiexp.rs:172-182 [From<&F> for Exponent]. *)
Definition exponent_of {P : PrimeField} (x : P) : Exponent :=
  if feqb x fzero then EZero else if feqb x fone then EOne else EBits (z2le (repr_bits P) (toZ x)).

(** :196-203: the fold over one chunk; [b << i] on [u64] overflows for [i >= 64]. *)
Definition chunk_step (st : outcome Z * nat) (b : bool) : outcome Z * nat :=
  let (acc, i) := st in
  (obind acc (fun acc => if i <? 64 then Done (acc + Z.shiftl (Z.b2z b) (Z.of_nat i))%Z else Panicked), S i).
Definition chunk_value (chunk : list bool) : outcome Z := fst (fold_left chunk_step chunk (Done 0%Z, 0)).

(** src/multiexp.rs:190-208 [Exponent::chunks]; [exp.chunks(0)] panics. *)
Definition exp_chunks (c : nat) (e : Exponent) : outcome ChunkedExponent :=
  match e with
  | EZero => Done CZero
  | EOne => Done COne
  | EBits bits => obind (chunks_mut c bits) (fun cs => obind (omap chunk_value cs) (fun vs => Done (CChunks vs)))
  end.

Section Multiexp.
Context {P : PrimeField} {M : FMod P}.

(** src/multiexp.rs:53-86 [Source for (Arc<Vec<G>>, usize)]; the position is the state. *)
Definition src_next (bases : list M) (pos : nat) : res (M * nat) :=
  match nth_error bases pos with
  | None => Err (IoError UnexpectedEof)
  | Some b => if geqb b gzero then Err UnexpectedIdentity else Ok (b, pos + 1)
  end.
Definition src_skip (bases : list M) (pos amt : nat) : res nat :=
  if length bases <=? pos then Err (IoError UnexpectedEof) else Ok (pos + amt).

(** src/multiexp.rs:241-268: sorting the bases into buckets. *)
Fixpoint bucket_loop (bases : list M) (chunk : nat) (items : list (ChunkedExponent * bool))
    (pos : nat) (acc : M) (buckets : list M) : outcome (res (M * list M)) :=
  match items with
  | [] => Done (Ok (acc, buckets))
  | (_, false) :: t => bucket_loop bases chunk t pos acc buckets
  | (e, true) :: t =>
      let skip := match src_skip bases pos 1 with
                  | Err e => Done (Err e)
                  | Ok pos => bucket_loop bases chunk t pos acc buckets
                  end in
      match e with
      | CZero => skip
      | COne =>
          if chunk =? 0 then
            match src_next bases pos with
            | Err e => Done (Err e)
            | Ok (b, pos) => bucket_loop bases chunk t pos (acc +g b) buckets
            end
          else skip
      | CChunks cs =>
          match nth_error cs chunk with
          | None => Panicked
          | Some exp =>
              if negb (exp =? 0)%Z then
                match nth_error buckets (Z.to_nat (exp - 1)) with
                | None => Panicked
                | Some old =>
                    match src_next bases pos with
                    | Err e => Done (Err e)
                    | Ok (b, pos) => bucket_loop bases chunk t pos acc (upd (Z.to_nat (exp - 1)) (old +g b) buckets)
                    end
                end
              else skip
          end
      end
  end.

(** src/multiexp.rs:274-278: summation by parts. *)
Definition by_parts (acc : M) (buckets : list M) : M :=
  snd (fold_left (fun (st : M * M) b => let (running, acc) := st in
                    let running := running +g b in (running, acc +g running)) (rev buckets) (gzero, acc)).

(** src/multiexp.rs:224-281: the closure [this]. *)
Definition window (bases : list M) (start : nat) (dens : list bool) (exps : list ChunkedExponent) (c chunk : nat) : outcome (res M) :=
  if 64 <=? c then Panicked (* [1 << c] *) else
  obind (bucket_loop bases chunk (combine exps dens) start gzero (repeat gzero (2 ^ c - 1))) (fun r =>
  match r with
  | Err e => Done (Err e)
  | Ok (acc, buckets) => Done (Ok (by_parts acc buckets))
  end).

(** [(0..n).step_by(c)] has this many elements. *)
Definition steps (n c : nat) : nat := (n + c - 1) / c.

Fixpoint double_n (n : nat) (x : M) : M := match n with O => x | S m => double_n m (x +g x) end.

(** :296-300 [try_fold] over the reversed parts. *)
Fixpoint combine_parts (c : nat) (acc : M) (parts : list (res M)) : res M :=
  match parts with
  | [] => Ok acc
  | Err e :: _ => Err e
  | Ok part :: t => combine_parts c (double_n c acc +g part) t
  end.

(** src/multiexp.rs:210-301 [multiexp_inner]; [step_by(0)] panics.  The windows run in parallel on
    shared read-only data; each writes only its own part. *)
Definition multiexp_inner (bases : list M) (start : nat) (d : Density) (exps : list Exponent) (c : nat) : outcome (res M) :=
  if c =? 0 then Panicked else
  obind (omap (exp_chunks c) exps) (fun exps =>
  obind (omap (window bases start (density_iter (length exps) d) exps c) (seq 0 (steps (num_bits P) c))) (fun parts =>
  Done (combine_parts c gzero (rev parts)))).

(** src/multiexp.rs:305-332 [multiexp], waiting for the result.  [ln_ceil n] stands for
    [f64::from(n).ln().ceil() as u32]; the length is cast to [u32]. *)
Definition window_size (ln_ceil : Z -> nat) (len : nat) : nat :=
  if len <? 32 then 3 else ln_ceil (Z.of_nat len mod 2 ^ 32)%Z.
Definition multiexp (ln_ceil : Z -> nat) (bases : list M) (start : nat) (d : Density) (exps : list Exponent) : outcome (res M) :=
  let c := window_size ln_ceil (length exps) in
  match get_query_size d with
  | Some n => if n =? length exps then multiexp_inner bases start d exps c else Panicked
  | None => multiexp_inner bases start d exps c
  end.
End Multiexp.
