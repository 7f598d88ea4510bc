(** SHA-256 as in FIPS 180-4, on lists of bits (most significant bit of every word first) and on
    integers in [0, 2^32).  Written without reference to the circuit. *)
From Coq Require Import ZArith List Bool.
From Verif Require Import Prelude.
Import ListNotations.
Local Open Scope Z_scope.

(** FIPS 180-4, 2.2.2 and 3.2: operations on 32-bit words. *)
Definition add32 (x y : Z) : Z := (x + y) mod 2 ^ 32.
Definition not32 (x : Z) : Z := 2 ^ 32 - 1 - x.
Definition SHR (n : Z) (x : Z) : Z := Z.shiftr x n.
Definition ROTR (n : Z) (x : Z) : Z := Z.lor (Z.shiftr x n) (Z.shiftl x (32 - n) mod 2 ^ 32).

(** 4.1.2: SHA-256 functions. *)
Definition Ch (x y z : Z) : Z := Z.lxor (Z.land x y) (Z.land (not32 x) z).
Definition Maj (x y z : Z) : Z := Z.lxor (Z.lxor (Z.land x y) (Z.land x z)) (Z.land y z).
Definition BSIG0 (x : Z) : Z := Z.lxor (Z.lxor (ROTR 2 x) (ROTR 13 x)) (ROTR 22 x).
Definition BSIG1 (x : Z) : Z := Z.lxor (Z.lxor (ROTR 6 x) (ROTR 11 x)) (ROTR 25 x).
Definition SSIG0 (x : Z) : Z := Z.lxor (Z.lxor (ROTR 7 x) (ROTR 18 x)) (SHR 3 x).
Definition SSIG1 (x : Z) : Z := Z.lxor (Z.lxor (ROTR 17 x) (ROTR 19 x)) (SHR 10 x).

(** 4.2.2: "the first thirty-two bits of the fractional parts of the cube roots of the first
    sixty-four prime numbers".  The integer cube root is found bit by bit. *)
Definition primes64 : list Z :=
  [2; 3; 5; 7; 11; 13; 17; 19; 23; 29; 31; 37; 41; 43; 47; 53; 59; 61; 67; 71; 73; 79; 83; 89; 97; 101; 103; 107; 109; 113; 127; 131;
   137; 139; 149; 151; 157; 163; 167; 173; 179; 181; 191; 193; 197; 199; 211; 223; 227; 229; 233; 239; 241; 251; 257; 263; 269; 271;
   277; 281; 283; 293; 307; 311].
Fixpoint cbrt_from (n : Z) (k : nat) (r : Z) : Z :=
  match k with
  | O => r
  | S k' => let r' := r + 2 ^ Z.of_nat k' in cbrt_from n k' (if r' * r' * r' <=? n then r' else r)
  end.
Definition K256 : list Z := map (fun p => cbrt_from (p * 2 ^ 96) 36 0 mod 2 ^ 32) primes64.

(** 5.3.3: "the first thirty-two bits of the fractional parts of the square roots of the first eight
    prime numbers". *)
Definition H0_256 : list Z := map (fun p => Z.sqrt (p * 2 ^ 64) mod 2 ^ 32) (firstn 8 primes64).

(** 5.1.1: padding of a message of [l] bits; [k] is the smallest non-negative solution of
    [l + 1 + k = 448 mod 512]. *)
Definition sha256_bits64 (l : Z) : list bool := map (fun i => Z.odd (l / 2 ^ (63 - Z.of_nat i))) (seq 0 64).
Definition sha256_pad (m : list bool) : list bool :=
  let l := Z.of_nat (length m) in
  let k := (448 - (l + 1)) mod 512 in
  m ++ [true] ++ repeat false (Z.to_nat k) ++ sha256_bits64 l.

(** Big-endian words of a block. *)
Definition word_of_bits (bs : list bool) : Z := fold_left (fun acc b => 2 * acc + Z.b2z b) bs 0.
Definition bits_of_word (z : Z) : list bool := map (fun i => Z.odd (z / 2 ^ (31 - Z.of_nat i))) (seq 0 32).
Definition words_of_block (block : list bool) : list Z := map word_of_bits (chunks 32 block).

(** 6.2.2 step 1: message schedule. *)
Definition W_step (W : list Z) (t : nat) : list Z :=
  W ++ [add32 (add32 (add32 (SSIG1 (nth (t - 2) W 0)) (nth (t - 7) W 0)) (SSIG0 (nth (t - 15) W 0))) (nth (t - 16) W 0)].
Definition schedule (M : list Z) : list Z := fold_left W_step (seq 16 48) M.

(** 6.2.2 steps 2-4. *)
Record HState := mkH { hA : Z; hB : Z; hC : Z; hD : Z; hE : Z; hF : Z; hG : Z; hH : Z }.
Definition round (W : list Z) (s : HState) (t : nat) : HState :=
  let T1 := add32 (add32 (add32 (add32 (hH s) (BSIG1 (hE s))) (Ch (hE s) (hF s) (hG s))) (nth t K256 0)) (nth t W 0) in
  let T2 := add32 (BSIG0 (hA s)) (Maj (hA s) (hB s) (hC s)) in
  mkH (add32 T1 T2) (hA s) (hB s) (hC s) (add32 (hD s) T1) (hE s) (hF s) (hG s).
Definition compress (H : HState) (M : list Z) : HState :=
  let W := schedule M in
  let s := fold_left (round W) (seq 0 64) H in
  mkH (add32 (hA s) (hA H)) (add32 (hB s) (hB H)) (add32 (hC s) (hC H)) (add32 (hD s) (hD H))
      (add32 (hE s) (hE H)) (add32 (hF s) (hF H)) (add32 (hG s) (hG H)) (add32 (hH s) (hH H)).

Definition h_list (H : HState) : list Z := [hA H; hB H; hC H; hD H; hE H; hF H; hG H; hH H].
Definition h_of (l : list Z) : HState :=
  mkH (nth 0 l 0) (nth 1 l 0) (nth 2 l 0) (nth 3 l 0) (nth 4 l 0) (nth 5 l 0) (nth 6 l 0) (nth 7 l 0).

(** One block from the initial value, and the whole function. *)
Definition sha256_block_spec (block : list bool) : list bool :=
  concat (map bits_of_word (h_list (compress (h_of H0_256) (words_of_block block)))).
Definition sha256_spec (m : list bool) : list bool :=
  let H := fold_left (fun H block => compress H (words_of_block block)) (chunks 512 (sha256_pad m)) (h_of H0_256) in
  concat (map bits_of_word (h_list H)).

(** Test vector of FIPS 180-4: "abc". *)
Definition ex_abc : list bool := concat (map (fun c => map (fun i => Z.odd (c / 2 ^ (7 - Z.of_nat i))) (seq 0 8)) [97; 98; 99]).
Example sha256_abc : map word_of_bits (chunks 32 (sha256_spec ex_abc)) =
  [0xba7816bf; 0x8f01cfea; 0x414140de; 0x5dae2223; 0xb00361a3; 0x96177a9c; 0xb410ff61; 0xf20015ad].
Proof. vm_compute. reflexivity. Qed.
