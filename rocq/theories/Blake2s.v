(** The BLAKE2s gadget: src/gadgets/blake2s.rs. *)
From Coq Require Import String.
From Coq Require Import ZArith List Bool Lia.
From Verif Require Import Prelude PrimeField Circuit Loops BooleanGadget NumGadget MultiEq UInt32 Sha256.
Import ListNotations.
Local Open Scope nat_scope.

Section Model.
Context {P : PrimeField}.
Local Open Scope prog_scope.
Local Open Scope string_scope.

(** blake2s.rs:26-29 *)
Definition R1 : nat := 16.
Definition R2 : nat := 12.
Definition R3 : nat := 8.
Definition R4 : nat := 7.

(** blake2s.rs:47-58 *)
Definition SIGMA : list (list nat) := [
    [0; 1; 2; 3; 4; 5; 6; 7; 8; 9; 10; 11; 12; 13; 14; 15];
    [14; 10; 4; 8; 9; 15; 13; 6; 1; 12; 0; 2; 11; 7; 5; 3];
    [11; 8; 12; 0; 5; 2; 15; 13; 10; 14; 3; 6; 7; 1; 9; 4];
    [7; 9; 3; 1; 13; 12; 11; 14; 2; 6; 5; 10; 4; 0; 15; 8];
    [9; 0; 5; 7; 2; 4; 10; 15; 14; 1; 11; 12; 6; 8; 3; 13];
    [2; 12; 6; 10; 0; 11; 8; 3; 4; 13; 7; 5; 15; 14; 1; 9];
    [12; 5; 1; 15; 14; 13; 4; 10; 0; 7; 6; 3; 9; 2; 8; 11];
    [13; 11; 7; 14; 12; 1; 3; 9; 5; 0; 15; 4; 8; 6; 2; 10];
    [6; 15; 14; 9; 11; 3; 0; 8; 12; 2; 13; 7; 1; 4; 10; 5];
    [10; 2; 8; 4; 7; 6; 1; 5; 15; 11; 9; 14; 3; 12; 13; 0]].

(** [v[i] = addmany(cs.namespace(|| name), &[v[i], v[j], x])], lines 93-96 and 103-106 *)
Definition set_add3 (name : string) (v : list UInt32) (i j : nat) (x : UInt32) : prog P (res (list UInt32)) :=
  idx v i (fun vi => idx v j (fun vj =>
  let* t := ns name (addmany [vi; vj; x]) in Ret (Ok (upd i t v)))).
(** [v[i] = addmany(cs.namespace(|| name), &[v[i], v[j]])], lines 98-101 and 108-111 *)
Definition set_add2 (name : string) (v : list UInt32) (i j : nat) : prog P (res (list UInt32)) :=
  idx v i (fun vi => idx v j (fun vj =>
  let* t := ns name (addmany [vi; vj]) in Ret (Ok (upd i t v)))).
(** [v[i] = v[i].xor(cs.namespace(|| name), &v[j])?.rotr(r)], lines 97, 102, 107, 112 *)
Definition set_xor (name : string) (v : list UInt32) (i j r : nat) : prog P (res (list UInt32)) :=
  idx v i (fun vi => idx v j (fun vj =>
  let* t := ns name (u_xor vi vj) in Ret (Ok (upd i (u_rotr t r) v)))).

(** blake2s.rs:83-115 *)
Definition mixing_g (v : list UInt32) (abcd : nat * nat * nat * nat) (x y : UInt32) : prog P (res (list UInt32)) :=
  let '(a, b, c, d) := abcd in
  let* v := set_add3 "mixing step 1" v a b x in
  let* v := set_xor "mixing step 2" v d a R1 in
  let* v := set_add2 "mixing step 3" v c d in
  let* v := set_xor "mixing step 4" v b c R2 in
  let* v := set_add3 "mixing step 5" v a b y in
  let* v := set_xor "mixing step 6" v d a R3 in
  let* v := set_add2 "mixing step 7" v c d in
  set_xor "mixing step 8" v b c R4.

(** [mixing_g(cs.namespace(|| name), &mut v, abcd, &m[s[i]], &m[s[j]])] *)
Definition mix (name : string) (m : list UInt32) (s : list nat) (i j : nat) (abcd : nat * nat * nat * nat) (v : list UInt32)
  : prog P (res (list UInt32)) :=
  idx s i (fun si => idx s j (fun sj => idx m si (fun x => idx m sj (fun y =>
  ns name (mixing_g v abcd x y))))).

(** blake2s.rs:213-275, the body of the loop over 0..10 *)
Definition b_round (m : list UInt32) (i : nat) (v : list UInt32) : prog P (res (list UInt32)) :=
  ns ("round " ++ nat_str i)
   (idx SIGMA (Nat.modulo i 10) (fun s =>
    let* v := mix "mixing invocation 1" m s 0 1 (0, 4, 8, 12) v in
    let* v := mix "mixing invocation 2" m s 2 3 (1, 5, 9, 13) v in
    let* v := mix "mixing invocation 3" m s 4 5 (2, 6, 10, 14) v in
    let* v := mix "mixing invocation 4" m s 6 7 (3, 7, 11, 15) v in
    let* v := mix "mixing invocation 5" m s 8 9 (0, 5, 10, 15) v in
    let* v := mix "mixing invocation 6" m s 10 11 (1, 6, 11, 12) v in
    let* v := mix "mixing invocation 7" m s 12 13 (2, 7, 8, 13) v in
    mix "mixing invocation 8" m s 14 15 (3, 4, 9, 14) v)).

(** blake2s.rs:186-193 *)
Definition B_IV : list Z := (
  [0x6A09E667; 0xBB67AE85; 0x3C6EF372; 0xA54FF53A; 0x510E527F; 0x9B05688C; 0x1F83D9AB; 0x5BE0CD19])%Z.

(** [v[i] = v[i].xor(cs.namespace(|| name), &UInt32::constant(z))], lines 197-208 *)
Definition set_xor_const (name : string) (v : list UInt32) (i : nat) (z : Z) : prog P (res (list UInt32)) :=
  idx v i (fun vi => let* t := ns name (u_xor vi (u_constant z)) in Ret (Ok (upd i t v))).

(** blake2s.rs:278-283, the body of the loop over 0..8 *)
Definition final_xor (v : list UInt32) (i : nat) (h : list UInt32) : prog P (res (list UInt32)) :=
  ns ("h[" ++ nat_str i ++ "] ^ v[" ++ nat_str i ++ "] ^ v[" ++ nat_str i ++ " + 8]")
   (idx h i (fun hi => idx v i (fun vi =>
    let* a := ns "first xor" (u_xor hi vi) in
    idx v (i + 8) (fun vi8 =>
    let* b := ns "second xor" (u_xor a vi8) in
    Ret (Ok (upd i b h)))))).

(** blake2s.rs:166-286 *)
Definition blake2s_compression (h m : list UInt32) (t : Z) (f : bool) : prog P (res (list UInt32)) :=
  if negb (Nat.eqb (length h) 8) then Panic
  else if negb (Nat.eqb (length m) 16) then Panic
  else
    let v := (h ++ map u_constant B_IV)%list in
    if negb (Nat.eqb (length v) 16) then Panic
    else
      let* v := set_xor_const "first xor" v 12 (t mod 2 ^ 32)%Z in
      let* v := set_xor_const "second xor" v 13 (Z.shiftr t 32 mod 2 ^ 32)%Z in
      let* v := (if f then set_xor_const "third xor" v 14 (2 ^ 32 - 1)%Z else Ret (Ok v)) in
      let* v := multieq_scope (foldq (fun i v _ => b_round m i v) 0 v (seq 0 10)) in
      foldq (fun i h _ => final_xor v i h) 0 h (seq 0 8).

(** [while l.len() < n { l.push(x) }], lines 343-345 and 348-350 *)
Definition push_until {A} (n : nat) (x : A) (l : list A) : list A := (l ++ repeat x (n - length l))%list.

(** byteorder::LittleEndian::read_u32, used at lines 333-334 *)
Definition read_u32 (b : list Z) : Z :=
  match b with [b0; b1; b2; b3] => (b0 + 256 * (b1 + 256 * (b2 + 256 * b3)))%Z | _ => 0%Z end.

(** blake2s.rs:339-352, the body of the loop over the blocks *)
Definition b_block (block : list Boolean) : prog P (res (list UInt32)) :=
  let* this_block := mapq (fun _ word => lift (from_bits (push_until 32 (BConst false) word)) (fun w => Ret (Ok w))) 0 (chunks 32 block) in
  Ret (Ok (push_until 16 (u_constant 0) this_block)).

(** blake2s.rs:315-377 *)
Definition blake2s (input : list Boolean) (personalization : list Z) : prog P (res (list Boolean)) :=
  if negb (Nat.eqb (length personalization) 8) then Panic
  else if negb (Nat.eqb (Nat.modulo (length input) 8) 0) then Panic
  else
    let h := map u_constant
      [Z.lxor (Z.lxor 0x6A09E667 0x01010000) 32; 0xBB67AE85; 0x3C6EF372; 0xA54FF53A; 0x510E527F; 0x9B05688C;
       Z.lxor 0x1F83D9AB (read_u32 (firstn 4 personalization)); Z.lxor 0x5BE0CD19 (read_u32 (skipn 4 personalization))]%Z in
    let* blocks := mapq (fun _ b => b_block b) 0 (chunks 512 input) in
    let blocks := match blocks with [] => [repeat (u_constant 0) 16] | _ => blocks end in
    let* h := foldq (fun i h block => ns ("block " ++ nat_str i) (blake2s_compression h block ((Z.of_nat i + 1) * 64)%Z false)) 0 h
                (firstn (length blocks - 1) blocks) in
    idx blocks (length blocks - 1) (fun last =>
    let* h := ns "final block" (blake2s_compression h last (Z.of_nat (length input) / 8)%Z true) in
    Ret (Ok (concat (map u_bits h)))).
End Model.
