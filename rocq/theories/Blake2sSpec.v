(** BLAKE2s as in RFC 7693, with 32 bytes of output, no key, no salt, and the personalisation of the
    BLAKE2 parameter block (bytes 24-31, i.e. words 6 and 7).  On lists of bytes, as integers in
    [0, 256).  Written without reference to the circuit. *)
From Coq Require Import ZArith List Bool.
From Verif Require Import Prelude Sha256Spec.
Import ListNotations.
Local Open Scope Z_scope.

(** 2.6: the IV is that of SHA-256. *)
Definition b2_IV : list Z := H0_256.

(** 2.7: message schedule. *)
Definition b2_SIGMA : list (list nat) := [
  [ 0;  1;  2;  3;  4;  5;  6;  7;  8;  9; 10; 11; 12; 13; 14; 15];
  [14; 10;  4;  8;  9; 15; 13;  6;  1; 12;  0;  2; 11;  7;  5;  3];
  [11;  8; 12;  0;  5;  2; 15; 13; 10; 14;  3;  6;  7;  1;  9;  4];
  [ 7;  9;  3;  1; 13; 12; 11; 14;  2;  6;  5; 10;  4;  0; 15;  8];
  [ 9;  0;  5;  7;  2;  4; 10; 15; 14;  1; 11; 12;  6;  8;  3; 13];
  [ 2; 12;  6; 10;  0; 11;  8;  3;  4; 13;  7;  5; 15; 14;  1;  9];
  [12;  5;  1; 15; 14; 13;  4; 10;  0;  7;  6;  3;  9;  2;  8; 11];
  [13; 11;  7; 14; 12;  1;  3;  9;  5;  0; 15;  4;  8;  6;  2; 10];
  [ 6; 15; 14;  9; 11;  3;  0;  8; 12;  2; 13;  7;  1;  4; 10;  5];
  [10;  2;  8;  4;  7;  6;  1;  5; 15; 11;  9; 14;  3; 12; 13;  0]]%nat.

Definition get (v : list Z) (i : nat) : Z := nth i v 0.

(** 3.1: mixing function G; the rotation constants are (16, 12, 8, 7). *)
Definition b2_G (v : list Z) (a b c d : nat) (x y : Z) : list Z :=
  let v := upd a ((get v a + get v b + x) mod 2 ^ 32) v in
  let v := upd d (ROTR 16 (Z.lxor (get v d) (get v a))) v in
  let v := upd c ((get v c + get v d) mod 2 ^ 32) v in
  let v := upd b (ROTR 12 (Z.lxor (get v b) (get v c))) v in
  let v := upd a ((get v a + get v b + y) mod 2 ^ 32) v in
  let v := upd d (ROTR 8 (Z.lxor (get v d) (get v a))) v in
  let v := upd c ((get v c + get v d) mod 2 ^ 32) v in
  upd b (ROTR 7 (Z.lxor (get v b) (get v c))) v.

(** 3.2: compression function F. *)
Definition b2_round (m : list Z) (v : list Z) (i : nat) : list Z :=
  let s j := get m (nth j (nth (i mod 10) b2_SIGMA []) 0%nat) in
  let v := b2_G v 0 4 8 12 (s 0%nat) (s 1%nat) in
  let v := b2_G v 1 5 9 13 (s 2%nat) (s 3%nat) in
  let v := b2_G v 2 6 10 14 (s 4%nat) (s 5%nat) in
  let v := b2_G v 3 7 11 15 (s 6%nat) (s 7%nat) in
  let v := b2_G v 0 5 10 15 (s 8%nat) (s 9%nat) in
  let v := b2_G v 1 6 11 12 (s 10%nat) (s 11%nat) in
  let v := b2_G v 2 7 8 13 (s 12%nat) (s 13%nat) in
  b2_G v 3 4 9 14 (s 14%nat) (s 15%nat).
Definition b2_init (h : list Z) (t : Z) (f : bool) : list Z :=
  let v := h ++ b2_IV in
  let v := upd 12 (Z.lxor (get v 12) (t mod 2 ^ 32)) v in
  let v := upd 13 (Z.lxor (get v 13) (t / 2 ^ 32 mod 2 ^ 32)) v in
  if f then upd 14 (Z.lxor (get v 14) (2 ^ 32 - 1)) v else v.
Definition b2_final (h v : list Z) : list Z :=
  map (fun i => Z.lxor (Z.lxor (get h i) (get v i)) (get v (i + 8))) (seq 0 8).
Definition b2_F (h m : list Z) (t : Z) (f : bool) : list Z :=
  b2_final h (fold_left (b2_round m) (seq 0 10) (b2_init h t f)).

(** 2.4: little-endian words and bytes. *)
Definition le_word (b : list Z) : Z := get b 0 + 2 ^ 8 * get b 1 + 2 ^ 16 * get b 2 + 2 ^ 24 * get b 3.
Definition word_bytes (w : Z) : list Z := [w mod 256; w / 2 ^ 8 mod 256; w / 2 ^ 16 mod 256; w / 2 ^ 24 mod 256].

(** 3.3: the message is padded with zeros to a multiple of 64 bytes, at least 64. *)
Definition b2_block (data : list Z) (i : nat) : list Z :=
  map (fun j => le_word (map (fun k => get data (64 * i + 4 * j + k)) (seq 0 4))) (seq 0 16).
Definition b2_blocks (ll : nat) : nat := Nat.max 1 ((ll + 63) / 64).
Definition blake2s_spec (person : list Z) (data : list Z) : list Z :=
  let h0 := upd 0 (Z.lxor (get b2_IV 0) (Z.lxor 0x01010000 32)) b2_IV in
  let h0 := upd 6 (Z.lxor (get h0 6) (le_word (firstn 4 person))) h0 in
  let h0 := upd 7 (Z.lxor (get h0 7) (le_word (skipn 4 person))) h0 in
  let ll := length data in
  let dd := b2_blocks ll in
  let h := fold_left (fun h i => b2_F h (b2_block data i) (64 * Z.of_nat (i + 1)) false) (seq 0 (dd - 1)) h0 in
  let h := b2_F h (b2_block data (dd - 1)) (Z.of_nat ll) true in
  concat (map word_bytes h).

(** Bytes as bits, least significant first. *)
Definition bits_of_bytes (l : list Z) : list bool :=
  concat (map (fun b => map (fun i => Z.odd (b / 2 ^ Z.of_nat i)) (seq 0 8)) l).
Definition byte_of_bits (l : list bool) : Z := fold_right (fun b acc => Z.b2z b + 2 * acc) 0 l.
Definition bytes_of_bits (l : list bool) : list Z := map byte_of_bits (chunks 8 l).

(** RFC 7693, appendix B. *)
Example blake2s_abc : map le_word (chunks 4 (blake2s_spec (repeat 0 8) [97; 98; 99])) =
  [0x8C5E8C50; 0xE2147C32; 0xA32BA7E1; 0x2F45EB4E; 0x208B4537; 0x293AD69E; 0x4C9B994D; 0x82596786].
Proof. vm_compute. reflexivity. Qed.
Definition ex_person : list Z := map Z.of_nat (seq 49 8).
(** More test vectors, made with an independent implementation: two blocks with a personalisation,
    a whole number of blocks, and the empty message. *)
Definition b2_words (person data : list Z) : list Z := map le_word (chunks 4 (blake2s_spec person data)).
Example blake2s_100 : b2_words ex_person (map Z.of_nat (seq 0 100)) =
  [0x3c5dbfcd; 0x36af26a0; 0x85eae9d8; 0x922feb6e; 0xbf437565; 0xaaeecd54; 0x82c68cce; 0xac882f7c].
Proof. vm_compute. reflexivity. Qed.
Example blake2s_128 : b2_words ex_person (map Z.of_nat (seq 0 128)) =
  [0x44e907f1; 0x47ca8190; 0xb9d5d733; 0xfcd7cf38; 0x3b802f54; 0x5115df95; 0xca06e2d5; 0xa927a410].
Proof. vm_compute. reflexivity. Qed.
Example blake2s_0 : b2_words ex_person [] =
  [0x23689fc5; 0xf337d176; 0x71e655f2; 0xf2d107e2; 0x50be4e37; 0x2014934e; 0xf8d9528a; 0xc8e8698d].
Proof. vm_compute. reflexivity. Qed.
