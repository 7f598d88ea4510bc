(** The unit tests of the hash gadgets (the [#[cfg(test)]] modules of sha256.rs and blake2s.rs). *)
From Coq Require Import String Ascii.
From Coq Require Import ZArith List Bool Lia.
From Verif Require Import Prelude PrimeField Circuit Loops BooleanGadget NumGadget MultiEq UInt32 Sha256 Blake2s TestCS UnitTests.
Import ListNotations.
Local Open Scope nat_scope.

(** [(byte >> i) & 1u8 == 1u8] *)
Definition bit_at (byte : Z) (i : nat) : bool := Z.eqb (Z.land (Z.shiftr byte (Z.of_nat i)) 1) 1.
(** [(0..8).rev()] in sha256.rs, [0..8] in blake2s.rs *)
Definition msb_first : list nat := rev (seq 0 8).
Definition lsb_first : list nat := seq 0 8.
(** The bits of bytes, in one of these orders (sha256.rs:368-370, blake2s.rs:506-509) *)
Definition stream (order : list nat) (bytes : list Z) : list bool := flat_map (fun byte => map (bit_at byte) order) bytes.

(** sha256.rs:372-385, blake2s.rs:511-524: [blank] says that [input_len] is 0; [s.next().unwrap()] panics if there is no bit left. *)
Fixpoint compare (blank : bool) (r : list Boolean) (s : list bool) : outcome unit :=
  match r with
  | [] => Done tt
  | b :: r =>
      do _ <- match b with BConst _ => assert blank | _ => Done tt end;
      match s with
      | [] => Panicked
      | x :: s =>
          do _ <- match b with
                  | BIs a => do v <- unwrap_o (ab_value a); assert (Bool.eqb x v)
                  | BNot a => do v <- unwrap_o (ab_value a); assert (negb (Bool.eqb x v))
                  | BConst c => assert (Bool.eqb x c)
                  end;
          compare blank r s
      end
  end.
(** sha256.rs:297-303, blake2s.rs:405-412: [expected] is what is looped over. *)
Fixpoint shows (expected : list bool) (out : list Boolean) : outcome unit :=
  match expected with
  | [] => Done tt
  | b :: expected =>
      match out with
      | [] => Panicked
      | o :: out => do c <- unwrap_o (b_value o); do _ <- assert (Bool.eqb c b); shows expected out
      end
  end.

(** blake2s.rs:530 and 553 *)
Definition message_256 : list Z := ([ 0xbe; 0x9f; 0x9c; 0x48; 0x5e; 0x67; 0x0a; 0xcc; 0xe8; 0xb1; 0x51; 0x6a; 0x37; 0x81; 0x76; 0x16; 0x1b; 0x20; 0x58; 0x36; 0x37; 0xb6; 0xf1; 0xc5;
   0x36; 0xfb; 0xc1; 0x15; 0x8a; 0x0a; 0x32; 0x96; 0x83; 0x1d; 0xf2; 0x92; 0x0e; 0x57; 0xa4; 0x42; 0xd5; 0x73; 0x8f; 0x4b; 0xe4; 0xdd; 0x6b; 0xe8;
   0x9d; 0xd7; 0x91; 0x3f; 0xc8; 0xb4; 0xd1; 0xc0; 0xa8; 0x15; 0x64; 0x6a; 0x4d; 0x67; 0x4b; 0x77; 0xf7; 0xca; 0xf3; 0x13; 0xbd; 0x88; 0x0b; 0xf7;
   0x59; 0xfc; 0xac; 0x27; 0x03; 0x7c; 0x48; 0xc2; 0xb2; 0xa2; 0x0a; 0xcd; 0x2f; 0xd5; 0x24; 0x8e; 0x3b; 0xe4; 0x26; 0xc8; 0x4a; 0x34; 0x1c; 0x0a;
   0x3c; 0x63; 0xea; 0xf3; 0x6e; 0x0d; 0x53; 0x7d; 0x10; 0xb8; 0xdb; 0x5c; 0x6e; 0x4c; 0x80; 0x18; 0x32; 0xc4; 0x1e; 0xb1; 0xa3; 0xed; 0x60; 0x21;
   0x77; 0xac; 0xde; 0xd8; 0xb4; 0xb8; 0x03; 0xbd; 0x34; 0x33; 0x9d; 0x99; 0xa1; 0x8b; 0x71; 0xdf; 0x39; 0x96; 0x41; 0xcc; 0x8d; 0xfa; 0xe2; 0xad;
   0x19; 0x3f; 0xcd; 0x74; 0xb5; 0x91; 0x3e; 0x70; 0x45; 0x51; 0x77; 0x71; 0x60; 0xd1; 0x4c; 0x78; 0xf2; 0xe8; 0xd5; 0xc3; 0x27; 0x16; 0xa8; 0x59;
   0x9c; 0x10; 0x80; 0xcb; 0x89; 0xa4; 0x0c; 0xcd; 0x6b; 0xa5; 0x96; 0x69; 0x4a; 0x8b; 0x4a; 0x06; 0x5d; 0x9f; 0x2d; 0x06; 0x67; 0xef; 0x42; 0x3e;
   0xd2; 0xe4; 0x18; 0x09; 0x3c; 0xaf; 0xf8; 0x84; 0x54; 0x08; 0x58; 0xb4; 0xf4; 0xb6; 0x2a; 0xcd; 0x47; 0xed; 0xce; 0xa8; 0x80; 0x52; 0x3e; 0x1b;
   0x1c; 0xda; 0x8e; 0xb2; 0x25; 0xc1; 0x28; 0xc2; 0xe9; 0xe8; 0x3f; 0x14; 0xf6; 0xe7; 0x44; 0x8c; 0x57; 0x33; 0xa1; 0x95; 0xca; 0xc7; 0xd7; 0x9a;
   0x53; 0xdd; 0xe5; 0x08; 0x31; 0x72; 0x46; 0x2c; 0x45; 0xb2; 0xf7; 0x99; 0xe4; 0x2a; 0xf1; 0xc9])%Z.
Definition digest_256 : list Z := ([ 0x0a; 0xf5; 0x69; 0x51; 0x15; 0xce; 0xd9; 0x2c; 0x8a; 0x03; 0x41; 0xe4; 0x38; 0x69; 0x20; 0x96; 0x36; 0xe9; 0xaa; 0x64; 0x72; 0xe4; 0x57; 0x6f;
   0x0f; 0x2b; 0x99; 0x6c; 0xf8; 0x12; 0xb3; 0x0e])%Z.
(** blake2s.rs:567 and 590 *)
Definition message_700 : list Z := ([ 0x5d; 0xcf; 0xe8; 0xba; 0xb4; 0xc7; 0x58; 0xd2; 0xeb; 0x1d; 0xdb; 0x7e; 0xf3; 0x37; 0x58; 0x3e; 0x0d; 0xf3; 0xe2; 0xc3; 0x58; 0xe1; 0x75; 0x5b;
   0x7c; 0xd3; 0x03; 0xa6; 0x58; 0xde; 0x9a; 0x12; 0x27; 0xee; 0xd1; 0xd1; 0x11; 0x41; 0x79; 0xa5; 0xc3; 0xc3; 0x8d; 0x69; 0x2f; 0xf2; 0xcf; 0x2d;
   0x4e; 0x5c; 0x92; 0xa9; 0x51; 0x6d; 0xe7; 0x50; 0x10; 0x67; 0x74; 0xbb; 0xf9; 0xf7; 0xd0; 0x63; 0xf7; 0x07; 0xf4; 0xc9; 0xb6; 0xa0; 0x2c; 0x0a;
   0x77; 0xe4; 0xfe; 0xb9; 0x9e; 0x03; 0x6c; 0x3c; 0xca; 0xee; 0x7d; 0x1a; 0x31; 0xcb; 0x14; 0x40; 0x93; 0xaa; 0x07; 0x4b; 0xc9; 0xda; 0x60; 0x8f;
   0x8f; 0xf3; 0x0b; 0x39; 0xc3; 0xc6; 0x0e; 0x4a; 0x24; 0x3c; 0xc0; 0xbb; 0xd4; 0x06; 0xd1; 0x26; 0x2a; 0x7d; 0x66; 0x07; 0xb3; 0x1c; 0x60; 0x27;
   0x5c; 0x6b; 0xcc; 0x8b; 0x0a; 0xc4; 0x9a; 0x06; 0xa4; 0xb6; 0x29; 0xa9; 0x86; 0x93; 0xc5; 0xf7; 0x64; 0x0f; 0x3b; 0xca; 0x45; 0xe4; 0x97; 0x7c;
   0xfa; 0xbc; 0x5b; 0x17; 0xf5; 0x28; 0x38; 0xaf; 0x34; 0x33; 0xb1; 0xfd; 0x40; 0x7d; 0xbb; 0xdc; 0x13; 0x1e; 0x8e; 0x4b; 0xd5; 0x8b; 0xce; 0xe8;
   0x5b; 0xba; 0xb4; 0xb5; 0x7b; 0x65; 0x6c; 0x6a; 0x2e; 0xc6; 0xcf; 0x85; 0x25; 0x25; 0xbc; 0x84; 0x23; 0x67; 0x5e; 0x2b; 0xf2; 0x91; 0x59; 0x13;
   0x9c; 0xd5; 0xdf; 0x99; 0xdb; 0x94; 0x71; 0x9f; 0x3f; 0x71; 0x67; 0x23; 0x0e; 0x0d; 0x5b; 0xd7; 0x6f; 0x6d; 0x78; 0x91; 0xb6; 0x56; 0x73; 0x2c;
   0xef; 0x9c; 0x3c; 0x0d; 0x48; 0xa5; 0xfa; 0x3d; 0x7a; 0x87; 0x99; 0x88; 0x15; 0x7b; 0x39; 0x01; 0x5a; 0x85; 0x45; 0x1b; 0x25; 0xaf; 0x03; 0x01;
   0xca; 0x5e; 0x75; 0x9a; 0xc3; 0x5f; 0xea; 0x79; 0xdc; 0xa3; 0x8c; 0x67; 0x3e; 0xc6; 0xdb; 0x9f; 0x38; 0x85; 0xd9; 0x10; 0x3e; 0x2d; 0xcb; 0x33;
   0x04; 0xbd; 0x3d; 0x59; 0xb0; 0xb1; 0xd0; 0x1b; 0xab; 0xc9; 0x7e; 0xf8; 0xa7; 0x4d; 0x91; 0xb6; 0xab; 0x6b; 0xf5; 0x0f; 0x29; 0xeb; 0x5a; 0xdf;
   0x72; 0x50; 0xa2; 0x8f; 0xd8; 0x5d; 0xb3; 0x7b; 0xff; 0x01; 0x33; 0x19; 0x36; 0x35; 0xda; 0x69; 0xca; 0xee; 0xfc; 0x72; 0x97; 0x9c; 0xf3; 0xbe;
   0xf1; 0xd2; 0x89; 0x6d; 0x84; 0x7e; 0xea; 0x7e; 0x8a; 0x81; 0xe0; 0x92; 0x78; 0x93; 0xdb; 0xd0; 0x10; 0xfe; 0xb6; 0xfb; 0x84; 0x5d; 0x03; 0x99;
   0x00; 0x7d; 0x9a; 0x14; 0x8a; 0x05; 0x96; 0xd8; 0x6c; 0xd8; 0xf4; 0x19; 0x26; 0x31; 0xf9; 0x75; 0xc5; 0x60; 0xf4; 0xde; 0x8d; 0xa5; 0xf7; 0x12;
   0xc1; 0x61; 0x34; 0x20; 0x63; 0xaf; 0x3c; 0x11; 0x02; 0x9d; 0x93; 0xd6; 0xdf; 0x7f; 0xf4; 0x6d; 0xb4; 0x83; 0x43; 0x49; 0x9d; 0xe9; 0xec; 0x47;
   0x86; 0xca; 0xc0; 0x59; 0xc4; 0x02; 0x5e; 0xf4; 0x18; 0xc9; 0xfe; 0x40; 0x13; 0x24; 0x28; 0xff; 0x8b; 0x91; 0x25; 0x9d; 0x71; 0xd1; 0x70; 0x9f;
   0xf0; 0x66; 0xad; 0xd8; 0x4a; 0xe9; 0x44; 0xb4; 0x5a; 0x81; 0x7f; 0x60; 0xb4; 0xc1; 0xbf; 0x71; 0x9e; 0x39; 0xae; 0x23; 0xe9; 0xb4; 0x13; 0x46;
   0x9d; 0xb2; 0x31; 0x07; 0x93; 0xe9; 0x13; 0x7c; 0xf3; 0x87; 0x41; 0xe5; 0xdd; 0x2a; 0x3c; 0x13; 0x8a; 0x56; 0x6d; 0xbd; 0xe1; 0x95; 0x0c; 0x00;
   0x07; 0x1b; 0x20; 0xac; 0x45; 0x7b; 0x46; 0xba; 0x9b; 0x0a; 0x7e; 0xbd; 0xdd; 0xcc; 0x21; 0x2b; 0xd2; 0x28; 0xd2; 0xa4; 0xc4; 0x14; 0x6a; 0x97;
   0x0e; 0x54; 0x15; 0x84; 0x77; 0x24; 0x7c; 0x27; 0x87; 0x1a; 0xf1; 0x56; 0x4b; 0x17; 0x65; 0x76; 0xe9; 0xfd; 0x43; 0xbf; 0x63; 0x74; 0x0b; 0xf7;
   0x74; 0x34; 0xbc; 0x4e; 0xa3; 0xb1; 0xa4; 0xb4; 0x30; 0xe1; 0xa1; 0x17; 0x14; 0xbf; 0x43; 0x16; 0x01; 0x45; 0x57; 0x8a; 0x57; 0x5c; 0x3f; 0x78;
   0xdd; 0xea; 0xa4; 0x8d; 0xe9; 0x7f; 0x73; 0x46; 0x0f; 0x26; 0xf8; 0xdf; 0x2b; 0x5d; 0x63; 0xe3; 0x18; 0x00; 0x10; 0x0d; 0x16; 0xbc; 0x27; 0x16;
   0x0f; 0xea; 0x5c; 0xed; 0x5a; 0x97; 0x7e; 0xf5; 0x41; 0xcf; 0xe8; 0xda; 0xdc; 0x7b; 0x39; 0x91; 0xed; 0x1c; 0x0d; 0x4f; 0x16; 0xa3; 0x07; 0x6b;
   0xbf; 0xed; 0x96; 0xba; 0x3e; 0x15; 0x51; 0x13; 0xe7; 0x94; 0x98; 0x7a; 0xf8; 0xab; 0xb1; 0x33; 0xf0; 0x6f; 0xee; 0xfa; 0xbc; 0x2a; 0xc3; 0x2e;
   0xb4; 0xd4; 0xd4; 0xba; 0x15; 0x41; 0xca; 0x08; 0xb9; 0xe5; 0x18; 0xd2; 0xe7; 0x4b; 0x7f; 0x94; 0x6b; 0x0c; 0xbd; 0x26; 0x63; 0xd5; 0x8c; 0x68;
   0x93; 0x59; 0xb9; 0xa5; 0x65; 0x82; 0x1a; 0xcc; 0x61; 0x90; 0x11; 0x23; 0x3d; 0x10; 0x11; 0x96; 0x3f; 0xa3; 0x02; 0xcd; 0xe3; 0x4f; 0xc9; 0xc5;
   0xba; 0x2e; 0x03; 0xee; 0xb2; 0x51; 0x2f; 0x54; 0x73; 0x91; 0xe9; 0x40; 0xd5; 0x62; 0x18; 0xe2; 0x2a; 0xe3; 0x25; 0xf2; 0xdf; 0xa3; 0x8d; 0x4b;
   0xae; 0x35; 0x74; 0x4e; 0xe7; 0x07; 0xaa; 0x5d; 0xc9; 0xc1; 0x76; 0x74; 0x02; 0x5d; 0x15; 0x39; 0x0a; 0x08; 0xf5; 0xc4; 0x52; 0x34; 0x35; 0x46;
   0xef; 0x6d; 0xa0; 0xf7])%Z.
Definition digest_700 : list Z := ([ 0x2a; 0xb8; 0xf0; 0x68; 0x31; 0x67; 0xba; 0x22; 0x0e; 0xef; 0x19; 0xdc; 0xcf; 0x4f; 0x9b; 0x1a; 0x81; 0x93; 0xcc; 0x09; 0xb3; 0x5e; 0x02; 0x35;
   0x84; 0x23; 0x23; 0x95; 0x05; 0x30; 0xf1; 0x8a])%Z.
(** blake2s.rs:609-612 *)
Definition expecteds : list (list Z) := [([ 0xa1; 0x30; 0x9e; 0x33; 0x43; 0x76; 0xc8; 0xf3; 0x6a; 0x73; 0x6a; 0x4a; 0xb0; 0xe6; 0x91; 0xef; 0x93; 0x1e; 0xe3; 0xeb; 0xdb; 0x9e; 0xa9; 0x61;
   0x87; 0x12; 0x71; 0x36; 0xfe; 0xa6; 0x22; 0xa1])%Z; ([ 0x82; 0xfe; 0xff; 0xf6; 0x0f; 0x26; 0x5c; 0xea; 0x25; 0x52; 0x52; 0xf7; 0xc1; 0x94; 0xa7; 0xf9; 0x39; 0x65; 0xdf; 0xfe; 0xe0; 0x60; 0x9e; 0xf7;
   0x4e; 0xb6; 0x7f; 0x0d; 0x76; 0xcd; 0x41; 0xc6])%Z].

(** The generator of the tests, rand_xorshift's XorShiftRng (a library: this is its definition, Marsaglia's xorshift128; that it draws the
    messages of blake2s.rs:602-667 is confirmed by the digests given there): the state is four words, read from the seed in little endian. *)
Definition XorShift : Type := Z * Z * Z * Z.
Definition from_seed (seed : list Z) : XorShift :=
  let w i := read_u32 (firstn 4 (skipn (4 * i) seed)) in (w 0, w 1, w 2, w 3).
Definition next_u32 (st : XorShift) : Z * XorShift :=
  let '(x, y, z, w) := st in
  let t := Z.lxor x (Z.modulo (Z.shiftl x 11) (2 ^ 32)) in
  let v := Z.lxor (Z.lxor w (Z.shiftr w 19)) (Z.lxor t (Z.shiftr t 8)) in (v, (y, z, w, v)).
(** [(0..n).map(|_| rng.next_u32() as u8).collect()] *)
Fixpoint draw_bytes (n : nat) (st : XorShift) : list Z * XorShift :=
  match n with
  | O => ([], st)
  | S n => let (x, st) := next_u32 st in let (l, st) := draw_bytes n st in (Z.modulo x 256 :: l, st)
  end.
(** blake2s.rs:604-607 *)
Definition SEED : list Z := ([0x59; 0x62; 0xbe; 0x5d; 0x76; 0x3d; 0x31; 0x8d; 0x17; 0xdb; 0x37; 0x32; 0x54; 0x06; 0xbc; 0xe5])%Z.
Definition messages_1024 : list (list Z) :=
  let (a, st) := draw_bytes 1024 (from_seed SEED) in let (b, _) := draw_bytes 1024 st in [a; b].

Section Tests.
Context {P : PrimeField}.
Local Open Scope F_scope.
Local Open Scope prog_scope.
Local Open Scope string_scope.
Notation T := (TState P).

(** sha256.rs:315-326, blake2s.rs:418-424 and 442-446: a bit each in a namespace of its own *)
Definition input_vars (bits : list bool) : prog P (res (list Boolean)) :=
  mapq (fun i b => let* a := ns ("input bit " ++ nat_str i) (ab_alloc (Some b)) in Ret (Ok (BIs a))) 0 bits.
(** sha256.rs:352-362, blake2s.rs:490-500: the bits of bytes *)
Definition input_byte (order : list nat) (byte_i : nat) (byte : Z) : prog P (res (list Boolean)) :=
  mapq (fun _ bit_i => let* a := ns ("input bit " ++ nat_str byte_i ++ " " ++ nat_str bit_i) (ab_alloc (Some (bit_at byte bit_i))) in Ret (Ok (BIs a))) 0 order.
Definition input_bytes (order : list nat) (data : list Z) : prog P (res (list Boolean)) :=
  let* bits := mapq (input_byte order) 0 data in Ret (Ok (concat bits)).
Definition assert_constraints (cs : T) (n : Z) : outcome unit := assert (Z.eqb (Z.of_nat (num_constraints cs)) n).

(** sha256.rs:344-385 and blake2s.rs:475-524, one value of [input_len] (the length of [data]); [digest] is what the other library returns. *)
Definition vectors_round (gadget : list Boolean -> prog P (res (list Boolean))) (order : list nat) (data digest : list Z) : outcome unit :=
  do (r, cs) <- circuit (let* input_bits := input_bytes order data in gadget input_bits);
  do _ <- assert_satisfied cs;
  compare (Nat.eqb (length data) 0) r (stream order digest).
(** [(0..32).chain((32..256).filter(|a| a % 8 == 0))] *)
Definition lengths : list nat := (seq 0 32 ++ filter (fun a => Nat.eqb (a mod 8) 0) (seq 32 224))%list.
(** The bytes drawn for [input_len] and the other library are arguments. *)
Definition test_vectors gadget order (lib : list Z -> list Z) (draw : nat -> nat -> Z) : outcome unit :=
  all_of lengths (fun input_len => let data := map (draw input_len) (seq 0 input_len) in vectors_round gadget order data (lib data)).

(** ** sha256.rs *)
(** sha256.rs:282-304 *)
Definition sha256_test_blank_hash (expected : list Z) : outcome unit :=
  do (out, cs) <- circuit (P := P) (sha256_compression (BConst true :: repeat (BConst false) 511) get_sha256_iv);
  do _ <- assert_satisfied cs; do _ <- assert_constraints cs 0;
  shows (stream msb_first expected) (concat (map into_bits_be out)).
(** sha256.rs:295 *)
Definition sha256_blank : list Z := (
  [0xe3; 0xb0; 0xc4; 0x42; 0x98; 0xfc; 0x1c; 0x14; 0x9a; 0xfb; 0xf4; 0xc8; 0x99; 0x6f; 0xb9; 0x24;
   0x27; 0xae; 0x41; 0xe4; 0x64; 0x9b; 0x93; 0x4c; 0xa4; 0x95; 0x99; 0x1b; 0x78; 0x52; 0xb8; 0x55])%Z.
(** sha256.rs:306-332; [bits] are drawn, 512 of them.  The count minus 512 would wrap around (or panic) below 512. *)
Definition sha256_test_full_block (bits : list bool) : outcome unit :=
  do (_, cs) <- circuit (P := P) (let* input_bits := input_vars bits in ns "sha256" (sha256_compression input_bits get_sha256_iv));
  do _ <- assert_satisfied cs; assert_constraints cs (512 + 25840).
(** sha256.rs:334-387 *)
Definition sha256_test_against_vectors := test_vectors (@sha256 P) msb_first.

(** ** blake2s.rs *)
(** [b"12345678"] *)
Definition PERSON : list Z := [49; 50; 51; 52; 53; 54; 55; 56]%Z.
(** blake2s.rs:392-413 *)
Definition blake2s_test_blank_hash (expected : list Z) : outcome unit :=
  do (out, cs) <- circuit (P := P) (blake2s [] PERSON);
  do _ <- assert_satisfied cs; do _ <- assert_constraints cs 0;
  shows (stream lsb_first expected) out.
(** blake2s.rs:403 *)
Definition blake2s_blank : list Z := (
  [0xc5; 0x9f; 0x68; 0x23; 0x76; 0xd1; 0x37; 0xf3; 0xf2; 0x55; 0xe6; 0x71; 0xe2; 0x07; 0xd1; 0xf2;
   0x37; 0x4e; 0xbe; 0x50; 0x4e; 0x93; 0x14; 0x20; 0x8a; 0x52; 0xd9; 0xf8; 0x8d; 0x69; 0xe8; 0xc8])%Z.
(** blake2s.rs:415-428 *)
Definition blake2s_test_constraints : outcome unit :=
  do (_, cs) <- circuit (P := P) (let* input_bits := input_vars (repeat true 512) in blake2s input_bits PERSON);
  do _ <- assert_satisfied cs; assert_constraints cs 21518.
(** blake2s.rs:430-451; [bits] are drawn, 512 of them. *)
Definition blake2s_test_precomp_constraints (bits : list bool) : outcome unit :=
  do (_, cs) <- circuit (P := P) (let* vars := input_vars (repeat true 512) in blake2s (map BConst bits ++ vars)%list PERSON);
  do _ <- assert_satisfied cs; assert_constraints cs 21518.
(** blake2s.rs:453-465 *)
Definition blake2s_test_constant_constraints (bits : list bool) : outcome unit :=
  do (_, cs) <- circuit (P := P) (blake2s (map BConst bits) PERSON); assert_constraints cs 0.
(** blake2s.rs:467-526 *)
Definition blake2s_test := test_vectors (fun input => @blake2s P input PERSON) lsb_first.
(** blake2s.rs:528-563 and 565-600: a message and its digest given in hexadecimal *)
Definition blake2s_test_given (size : nat) (data expected : list Z) : outcome unit :=
  do _ <- assert (Nat.eqb (length data) size);
  do (r, cs) <- circuit (P := P) (let* input_bits := input_bytes lsb_first data in blake2s input_bits PERSON);
  do _ <- assert_satisfied cs; shows (stream lsb_first expected) r.
(** blake2s.rs:602-667: [draws] are the two messages, 1024 bytes each; [expecteds] are also compared with the other library's result. *)
Definition same_bytes (a b : list Z) : bool := if list_eq_dec Z.eq_dec a b then true else false.
Definition blake2s_test_test_vectors (lib : list Z -> list Z) (draws expecteds : list (list Z)) : outcome unit :=
  all_of (combine draws expecteds) (fun de =>
    do _ <- vectors_round (fun input => @blake2s P input PERSON) lsb_first (fst de) (lib (fst de));
    assert (same_bytes (snd de) (lib (fst de)))).
End Tests.
