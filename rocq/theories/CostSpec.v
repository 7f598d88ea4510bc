(** What the hash gadgets are to cost, given which of the input bits are constants.  Written without reference to the circuit:
    it only follows which words of a computation of SHA-256 (FIPS 180-4) or BLAKE2s (RFC 7693) depend on a variable bit.

    The rules: a boolean gate with at least two variable inputs costs one variable and one constraint and is otherwise free; so does
    every bit of the result of an addition of words one of which has a variable bit, and an addition of constants is free.  An
    addition is moreover worth one equality, of the number of bits of its result; equalities are packed into constraints. *)
From Coq Require Import ZArith List Bool.
From Verif Require Import Prelude Blake2sSpec.
Import ListNotations.
Local Open Scope Z_scope.

(** Variables (each with one constraint), and the widths of the equalities in the order they are asked for. *)
Definition fee : Type := Z * list nat.
Definition free : fee := (0, []).
Definition plus (x y : fee) : fee := (fst x + fst y, snd x ++ snd y).
Definition bits_if (b : bool) (n : Z) : fee := if b then (n, []) else free.

(** Equalities are packed greedily: a constraint takes equalities as long as the sum of their widths stays below the capacity of
    the field (num_bits - 1).  [used]: width taken in the constraint at hand. *)
Fixpoint groups (cap used : nat) (widths : list nat) : Z :=
  match widths with
  | [] => if Nat.ltb 0 used then 1 else 0
  | n :: t => if Nat.leb cap (used + n) then 1 + groups cap n t else groups cap (used + n) t
  end.
(** Variables and constraints of a part of the circuit with its own packing. *)
Record price := mkPrice { p_vars : Z; p_cons : Z }.
Definition total (cap : nat) (x : fee) : price := mkPrice (fst x) (fst x + groups cap 0 (snd x)).
Definition price_add (x y : price) : price := mkPrice (p_vars x + p_vars y) (p_cons x + p_cons y).
Definition price0 : price := mkPrice 0 0.

(** Adding [n] words: bits of [n * (2 ^ 32 - 1)]. *)
Definition add_width (n : nat) : nat := if Nat.leb n 2 then 33 else if Nat.leb n 4 then 34 else if Nat.leb n 8 then 35 else 36.
Definition add_fee (n : nat) (variable : bool) : fee := if variable then (Z.of_nat (add_width n), [add_width n]) else free.

(** ** SHA-256.  Words as lists of 32 booleans, least significant bit first; [true]: variable. *)
Definition bits2 (f : bool -> bool -> bool) (x y : list bool) : list bool := map (fun p => f (fst p) (snd p)) (combine x y).
Definition either := bits2 orb.
Definition both (x y : list bool) : Z := Z.of_nat (count_occ Bool.bool_dec (bits2 andb x y) true).
Definition any (x : list bool) : bool := existsb (fun b => b) x.
Definition rot (k : nat) (x : list bool) : list bool := skipn k x ++ firstn k x.
Definition shift (k : nat) (x : list bool) : list bool := skipn k x ++ repeat false k.
(** [ROTR^i(x) xor ROTR^j(x) xor SHR^k(x)] *)
Definition sigma_fee (i j k : nat) (x : list bool) : fee :=
  (both (rot i x) (rot j x) + both (either (rot i x) (rot j x)) (shift k x), []).
(** 6.2.2 step 1: [W_t = sigma1(W_{t-2}) + W_{t-7} + sigma0(W_{t-15}) + W_{t-16}] *)
Definition sha_extend (st : list (list bool) * fee) (t : nat) : list (list bool) * fee :=
  let w k := nth (t - k) (fst st) [] in
  let v := any (w 16%nat) || any (w 15%nat) || any (w 7%nat) || any (w 2%nat) in
  (fst st ++ [repeat v 32],
   plus (snd st) (plus (sigma_fee 7 18 3 (w 15%nat)) (plus (sigma_fee 17 19 10 (w 2%nat)) (add_fee 4 v)))).
Definition sha_schedule (m : list (list bool)) : list (list bool) * fee := fold_left sha_extend (seq 16 48) (m, free).

(** Is the state variable at the beginning of round [i]?  It is if it was from the start, or if a word came in that is. *)
Definition sha_var (st : bool) (w : list (list bool)) (i : nat) : bool := st || existsb any (firstn i w).
(** Round [i]: [a] and [e] of the round before are added up; then [SIGMA1(e)], [SIGMA0(a)] with two exclusive ors each, [Ch(e,f,g)]
    and [Maj(a,b,c)], where [b], [c] are [a], and [f], [g] are [e] of one and two rounds ago. *)
Definition sha_round_fee (v : nat -> bool) (i : nat) : fee :=
  plus (if Nat.eqb i 0 then free else plus (add_fee 6 (v i)) (add_fee 7 (v i)))
    (plus (bits_if (v i) 128) (bits_if (v i && v (i - 1)%nat) (if v (i - 2)%nat then 96 else 64))).
(** 6.2.2 step 4: the last [a] and [e] are added up together with the old hash value. *)
Definition sha_finish_fee (v : bool) : fee :=
  fold_left plus (map (fun n => add_fee n v) [8; 2; 2; 2; 7; 2; 2; 2]%nat) free.
Definition sha_block_fee (st : bool) (m : list (list bool)) : fee :=
  let w := fst (sha_schedule m) in
  plus (snd (sha_schedule m))
    (plus (fold_left plus (map (sha_round_fee (sha_var st w)) (seq 0 64)) free) (sha_finish_fee (sha_var st w 64))).

(** 5.1.1, 5.2.1: the message is padded with constants and taken in blocks of sixteen words, most significant bit first. *)
Definition sha_pad_flags (input : list bool) : list bool :=
  input ++ repeat false (1 + Z.to_nat ((448 - (Z.of_nat (length input) + 1)) mod 512) + 64).
Definition sha_words (block : list bool) : list (list bool) := map (fun w => rev w) (chunks 32 block).
Fixpoint sha_blocks (cap : nat) (st : bool) (blocks : list (list bool)) : price :=
  match blocks with
  | [] => price0
  | b :: t => price_add (total cap (sha_block_fee st (sha_words b))) (sha_blocks cap (st || any b) t)
  end.
Definition sha256_price (cap : nat) (input : list bool) : price := sha_blocks cap false (chunks 512 (sha_pad_flags input)).
(** Without padding, a single block. *)
Definition sha256_block_price (cap : nat) (input : list bool) : price := total cap (sha_block_fee false (sha_words input)).

(** ** BLAKE2s.  A word is variable or constant as a whole. *)
Definition flag (v : list bool) (i : nat) : bool := nth i v false.
Definition add_to (n : nat) (i : nat) (x : bool) (st : list bool * fee) : list bool * fee :=
  (upd i x (fst st), plus (snd st) (add_fee n x)).
Definition xor_to (i j : nat) (st : list bool * fee) : list bool * fee :=
  (upd i (flag (fst st) i || flag (fst st) j) (fst st), plus (snd st) (bits_if (flag (fst st) i && flag (fst st) j) 32)).
Definition add3 (i j : nat) (x : bool) (st : list bool * fee) := add_to 3 i (flag (fst st) i || flag (fst st) j || x) st.
Definition add2 (i j : nat) (st : list bool * fee) := add_to 2 i (flag (fst st) i || flag (fst st) j) st.
(** RFC 7693, 3.1 *)
Definition blake_G (x y : bool) (a b c d : nat) (st : list bool * fee) : list bool * fee :=
  xor_to b c (add2 c d (xor_to d a (add3 a b y (xor_to b c (add2 c d (xor_to d a (add3 a b x st))))))).
Definition blake_round (m : list bool) (st : list bool * fee) (i : nat) : list bool * fee :=
  let s j := flag m (nth j (nth (i mod 10) b2_SIGMA []) 0%nat) in
  let st := blake_G (s 0%nat) (s 1%nat) 0 4 8 12 st in
  let st := blake_G (s 2%nat) (s 3%nat) 1 5 9 13 st in
  let st := blake_G (s 4%nat) (s 5%nat) 2 6 10 14 st in
  let st := blake_G (s 6%nat) (s 7%nat) 3 7 11 15 st in
  let st := blake_G (s 8%nat) (s 9%nat) 0 5 10 15 st in
  let st := blake_G (s 10%nat) (s 11%nat) 1 6 11 12 st in
  let st := blake_G (s 12%nat) (s 13%nat) 2 7 8 13 st in
  blake_G (s 14%nat) (s 15%nat) 3 4 9 14 st.
(** 3.2: the eight words of the IV, and what they are changed by, are constants; [h_i := h_i xor v_i xor v_{i+8}] *)
Definition blake_rounds (h m : list bool) : list bool * fee := fold_left (blake_round m) (seq 0 10) (h ++ repeat false 8, free).
Definition blake_final_bits (h v : list bool) (i : nat) : Z :=
  (if flag h i && flag v i then 32 else 0) + (if (flag h i || flag v i) && flag v (i + 8) then 32 else 0).
Definition blake_F (cap : nat) (h m : list bool) : list bool * price :=
  let (v, x) := blake_rounds h m in
  let n := fold_left Z.add (map (blake_final_bits h v) (seq 0 8)) 0 in
  (map (fun i => flag h i || flag v i || flag v (i + 8)) (seq 0 8), price_add (total cap x) (mkPrice n n)).
(** 3.3: blocks of sixteen words, the last filled up with zeros; at least one block. *)
Definition blake_words (block : list bool) : list bool :=
  let w := map any (chunks 32 block) in w ++ repeat false (16 - length w).
Definition blake_chain (cap : nat) (st : list bool * price) (m : list bool) : list bool * price :=
  let (h, x) := blake_F cap (fst st) m in (h, price_add (snd st) x).
Definition blake2s_price (cap : nat) (input : list bool) : price :=
  let blocks := match chunks 512 input with [] => [repeat false 16] | bs => map blake_words bs end in
  snd (fold_left (blake_chain cap) blocks (repeat false 8, price0)).
