(** groth16/src/lib.rs: reading and writing proofs, verifying keys and parameters. *)
From Coq Require Import ZArith List Bool Lia.
From Coq Require Import Strings.Byte.
From Verif Require Import Prelude PrimeField FModule Groth16.
Import ListNotations.
Local Open Scope nat_scope.

(** [group::GroupEncoding], [group::UncompressedEncoding]: fixed-length encodings that decode to the element encoded; contract of
    the curve crate.  A group element is abstract, so an unchecked decoding that is not an element of the group at all is not represented. *)
Record GroupBytes {P : PrimeField} (M : FMod P) := {
  repr_len : nat;
  to_bytes : M -> list byte;
  from_bytes : list byte -> option M;
  to_bytes_length : forall x, length (to_bytes x) = repr_len;
  from_to_bytes : forall x, from_bytes (to_bytes x) = Some x;
  uncompressed_len : nat;
  to_uncompressed : M -> list byte;
  from_uncompressed : list byte -> option M;
  from_uncompressed_unchecked : list byte -> option M;
  to_uncompressed_length : forall x, length (to_uncompressed x) = uncompressed_len;
  from_to_uncompressed : forall x, from_uncompressed (to_uncompressed x) = Some x;
  from_to_uncompressed_unchecked : forall x, from_uncompressed_unchecked (to_uncompressed x) = Some x
}.
Arguments repr_len {P M}. Arguments to_bytes {P M}. Arguments from_bytes {P M}. Arguments uncompressed_len {P M}. Arguments to_uncompressed {P M}.
Arguments from_uncompressed {P M}. Arguments from_uncompressed_unchecked {P M}.

(** ** Readers and writers *)

(** A [Read]: the bytes it will deliver, and the error of [read_exact] once they are used up ([UnexpectedEof] at the end of a file). *)
Record reader := mkReader { data : list byte; at_end : io_kind }.
Definition io A := result io_kind A.
Definition dbind {A B} (x : io (A * reader)) (f : A -> reader -> io (B * reader)) : io (B * reader) :=
  match x with Ok (a, r) => f a r | Err k => Err k end.
(** [Read::read_exact] *)
Definition read_exact (n : nat) (r : reader) : io (list byte * reader) :=
  if length (data r) <? n then Err (at_end r) else Ok (firstn n (data r), mkReader (skipn n (data r)) (at_end r)).

(** A [Write]: the bytes written, and how many more it accepts ([None]: any number, like [Vec<u8>]). *)
Record writer := mkWriter { written : list byte; room : option nat }.
(** [Write::write_all]; when there is not enough room some prefix is written, here as much as fits. *)
Definition write_all (w : writer) (bs : list byte) : writer * io unit :=
  match room w with
  | None => (mkWriter (written w ++ bs) None, Ok tt)
  | Some n => if length bs <=? n then (mkWriter (written w ++ bs) (Some (n - length bs)), Ok tt)
              else (mkWriter (written w ++ firstn n bs) (Some 0), Err OtherIo)
  end.
Definition wthen (x : writer * io unit) (f : writer -> writer * io unit) : writer * io unit :=
  match x with (w, Ok tt) => f w | (w, Err k) => (w, Err k) end.

(** byteorder's [write_u32::<BigEndian>] / [read_u32::<BigEndian>] *)
Definition byte_of_Z (x : Z) : byte := match of_N (Z.to_N (x mod 256)) with Some b => b | None => x00 end.
Definition u32_be (x : Z) : list byte := [byte_of_Z (x / 2 ^ 24); byte_of_Z (x / 2 ^ 16); byte_of_Z (x / 2 ^ 8); byte_of_Z x].
Definition be_value (bs : list byte) : Z := fold_left (fun acc b => acc * 256 + Z.of_N (to_N b))%Z bs 0%Z.
Definition write_u32 (w : writer) (x : Z) : writer * io unit := write_all w (u32_be x).
Definition read_u32 (r : reader) : io (Z * reader) := dbind (read_exact 4 r) (fun bs r => Ok (be_value bs, r)).
(** [len as u32] *)
Definition as_u32 (n : nat) : Z := (Z.of_nat n mod 2 ^ 32)%Z.

Section Encoding.
Context {P : PrimeField} {E : Engine P} (B1 : GroupBytes (E_G1 E)) (B2 : GroupBytes (E_G2 E)).

(** [let g = ...; if g.is_some() { Ok(g.unwrap()) } else { Err(InvalidData) }] *)
Definition decoded {M : FMod P} (o : option M) : io M := match o with Some x => Ok x | None => Err InvalidData end.
(** [affine.and_then(|e| if e.is_identity() { Err(InvalidData) } else { Ok(e) })] *)
Definition non_identity {M : FMod P} (x : io M) : io M :=
  match x with Ok e => if is_identity e then Err InvalidData else Ok e | Err k => Err k end.
Definition with_reader {A} (r : reader) (x : io A) : io (A * reader) := match x with Ok a => Ok (a, r) | Err k => Err k end.

(** ** Proofs *)

(** lib.rs:39-45 [Proof::write] *)
Definition proof_write (p : Proof_ E) (w : writer) : writer * io unit :=
  wthen (write_all w (to_bytes B1 (proof_a p))) (fun w =>
  wthen (write_all w (to_bytes B2 (proof_b p))) (fun w =>
  wthen (write_all w (to_bytes B1 (proof_c p))) (fun w => (w, Ok tt)))).

(** lib.rs:48-69, 71-92: [read_g1] and [read_g2] of [Proof::read] *)
Definition read_compressed {M : FMod P} (B : GroupBytes M) (r : reader) : io (M * reader) :=
  dbind (read_exact (repr_len B) r) (fun repr r => with_reader r (non_identity (decoded (from_bytes B repr)))).
(** lib.rs:47-99 [Proof::read] *)
Definition proof_read (r : reader) : io (Proof_ E * reader) :=
  dbind (read_compressed B1 r) (fun a r =>
  dbind (read_compressed B2 r) (fun b r =>
  dbind (read_compressed B1 r) (fun c r => Ok (mkProof a b c, r)))).

(** ** Verifying keys *)

(** [for x in xs { writer.write_all(x.to_uncompressed().as_ref())?; }] *)
Fixpoint write_each {M : FMod P} (B : GroupBytes M) (xs : list M) (w : writer) : writer * io unit :=
  match xs with [] => (w, Ok tt) | x :: xs => wthen (write_all w (to_uncompressed B x)) (write_each B xs) end.

(** lib.rs:143-156 [VerifyingKey::write] *)
Definition vk_write (vk : VerifyingKey E) (w : writer) : writer * io unit :=
  wthen (write_all w (to_uncompressed B1 (alpha_g1 vk))) (fun w =>
  wthen (write_all w (to_uncompressed B1 (beta_g1 vk))) (fun w =>
  wthen (write_all w (to_uncompressed B2 (beta_g2 vk))) (fun w =>
  wthen (write_all w (to_uncompressed B2 (gamma_g2 vk))) (fun w =>
  wthen (write_all w (to_uncompressed B1 (delta_g1 vk))) (fun w =>
  wthen (write_all w (to_uncompressed B2 (delta_g2 vk))) (fun w =>
  wthen (write_u32 w (as_u32 (length (ic vk)))) (fun w =>
  write_each B1 (ic vk) w))))))).

(** lib.rs:159-169, 171-181: [read_g1] and [read_g2] of [VerifyingKey::read] *)
Definition read_uncompressed {M : FMod P} (B : GroupBytes M) (r : reader) : io (M * reader) :=
  dbind (read_exact (uncompressed_len B) r) (fun repr r => with_reader r (decoded (from_uncompressed B repr))).
(** [for _ in 0..n { v.push(read(reader)?) }] *)
Fixpoint read_each {M : FMod P} (read : reader -> io (M * reader)) (n : nat) (acc : list M) (r : reader) : io (list M * reader) :=
  match n with 0 => Ok (acc, r) | S n => dbind (read r) (fun x r => read_each read n (acc ++ [x]) r) end.
(** lib.rs:195-204 *)
Definition read_ic (r : reader) : io (E_G1 E * reader) :=
  match read_uncompressed B1 r with
  | Err k => Err k
  | Ok (e, r) => if is_identity e then Err InvalidData else Ok (e, r)
  end.
(** lib.rs:158-218 [VerifyingKey::read] *)
Definition vk_read (r : reader) : io (VerifyingKey E * reader) :=
  dbind (read_uncompressed B1 r) (fun alpha_g1 r =>
  dbind (read_uncompressed B1 r) (fun beta_g1 r =>
  dbind (read_uncompressed B2 r) (fun beta_g2 r =>
  dbind (read_uncompressed B2 r) (fun gamma_g2 r =>
  dbind (read_uncompressed B1 r) (fun delta_g1 r =>
  dbind (read_uncompressed B2 r) (fun delta_g2 r =>
  dbind (read_u32 r) (fun ic_len r =>
  dbind (read_each read_ic (Z.to_nat ic_len) [] r) (fun ic r =>
  Ok (mkVK alpha_g1 beta_g1 beta_g2 gamma_g2 delta_g1 delta_g2 ic, r))))))))).

(** ** Parameters *)

(** lib.rs:261-264 and so on *)
Definition write_vec {M : FMod P} (B : GroupBytes M) (xs : list M) (w : writer) : writer * io unit :=
  wthen (write_u32 w (as_u32 (length xs))) (write_each B xs).
(** lib.rs:258-287 [Parameters::write] *)
Definition params_write (p : Parameters E) (w : writer) : writer * io unit :=
  wthen (vk_write (p_vk p) w) (fun w =>
  wthen (write_vec B1 (p_h p) w) (fun w =>
  wthen (write_vec B1 (p_l p) w) (fun w =>
  wthen (write_vec B1 (p_a p) w) (fun w =>
  wthen (write_vec B1 (p_b_g1 p) w) (fun w =>
  write_vec B2 (p_b_g2 p) w))))).

(** lib.rs:290-316, 318-344: [read_g1] and [read_g2] of [Parameters::read] *)
Definition read_point {M : FMod P} (B : GroupBytes M) (checked : bool) (r : reader) : io (M * reader) :=
  dbind (read_exact (uncompressed_len B) r) (fun repr r =>
  with_reader r (non_identity (decoded (if checked then from_uncompressed B repr else from_uncompressed_unchecked B repr)))).
(** lib.rs:354-359 and so on *)
Definition read_vec {M : FMod P} (B : GroupBytes M) (checked : bool) (r : reader) : io (list M * reader) :=
  dbind (read_u32 r) (fun len r => read_each (read_point B checked) (Z.to_nat len) [] r).
(** lib.rs:289-397 [Parameters::read] *)
Definition params_read (checked : bool) (r : reader) : io (Parameters E * reader) :=
  dbind (vk_read r) (fun vk r =>
  dbind (read_vec B1 checked r) (fun h r =>
  dbind (read_vec B1 checked r) (fun l r =>
  dbind (read_vec B1 checked r) (fun a r =>
  dbind (read_vec B1 checked r) (fun b_g1 r =>
  dbind (read_vec B2 checked r) (fun b_g2 r => Ok (mkParams vk h l a b_g1 b_g2, r))))))).
End Encoding.
