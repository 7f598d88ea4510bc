(** The SHA-256 gadget: src/gadgets/sha256.rs. *)
From Coq Require Import String.
From Coq Require Import ZArith List Bool Lia.
From Verif Require Import Prelude PrimeField Circuit Loops BooleanGadget NumGadget MultiEq UInt32 UInt32Proof Sha256Spec.
Import ListNotations.
Local Open Scope nat_scope.

Section Model.
Context {P : PrimeField}.
Local Open Scope prog_scope.
Local Open Scope string_scope.

(** sha256.rs:13-22 *)
Definition ROUND_CONSTANTS : list Z := (
   [0x428a2f98; 0x71374491; 0xb5c0fbcf; 0xe9b5dba5; 0x3956c25b; 0x59f111f1; 0x923f82a4; 0xab1c5ed5;
    0xd807aa98; 0x12835b01; 0x243185be; 0x550c7dc3; 0x72be5d74; 0x80deb1fe; 0x9bdc06a7; 0xc19bf174;
    0xe49b69c1; 0xefbe4786; 0x0fc19dc6; 0x240ca1cc; 0x2de92c6f; 0x4a7484aa; 0x5cb0a9dc; 0x76f988da;
    0x983e5152; 0xa831c66d; 0xb00327c8; 0xbf597fc7; 0xc6e00bf3; 0xd5a79147; 0x06ca6351; 0x14292967;
    0x27b70a85; 0x2e1b2138; 0x4d2c6dfc; 0x53380d13; 0x650a7354; 0x766a0abb; 0x81c2c92e; 0x92722c85;
    0xa2bfe8a1; 0xa81a664b; 0xc24b8b70; 0xc76c51a3; 0xd192e819; 0xd6990624; 0xf40e3585; 0x106aa070;
    0x19a4c116; 0x1e376c08; 0x2748774c; 0x34b0bcb5; 0x391c0cb3; 0x4ed8aa4a; 0x5b9cca4f; 0x682e6ff3;
    0x748f82ee; 0x78a5636f; 0x84c87814; 0x8cc70208; 0x90befffa; 0xa4506ceb; 0xbef9a3f7; 0xc67178f2])%Z.

(** sha256.rs:24-27 *)
Definition IV : list Z := (
  [0x6a09e667; 0xbb67ae85; 0x3c6ef372; 0xa54ff53a; 0x510e527f; 0x9b05688c; 0x1f83d9ab; 0x5be0cd19])%Z.

(** sha256.rs:76-78 *)
Definition get_sha256_iv : list UInt32 := map u_constant IV.

(** Indexing a slice; out of bounds panics. *)
Definition idx {A B} (l : list A) (i : nat) (k : A -> prog P B) : prog P B :=
  match nth_error l i with Some x => k x | None => Panic end.

(** sha256.rs:103-127, the body of the loop over 16..64 *)
Definition w_extension (i : nat) (w : list UInt32) : prog P (res (list UInt32)) :=
  ns ("w extension " ++ nat_str i)
   (idx w (i - 15) (fun w15 =>
    let* s0 := ns "first xor for s0" (u_xor (u_rotr w15 7) (u_rotr w15 18)) in
    let* s0 := ns "second xor for s0" (u_xor s0 (u_shr w15 3)) in
    idx w (i - 2) (fun w2 =>
    let* s1 := ns "first xor for s1" (u_xor (u_rotr w2 17) (u_rotr w2 19)) in
    let* s1 := ns "second xor for s1" (u_xor s1 (u_shr w2 10)) in
    idx w (i - 16) (fun w16 => idx w (i - 7) (fun w7 =>
    let* tmp := ns "computation of w[i]" (addmany [w16; s0; w7; s1]) in
    Ret (Ok (w ++ [tmp])%list)))))).

(** sha256.rs:131-152 *)
Inductive Maybe := Deferred (v : list UInt32) | Concrete (v : UInt32).
Definition compute (m : Maybe) (name : string) (others : list UInt32) : prog P (res UInt32) :=
  ns name (match m with
           | Concrete v => Ret (Ok v)
           | Deferred v => addmany (v ++ others)%list
           end).

(** sha256.rs:154-161, the local variables *)
Record Regs := mkRegs { ra : Maybe; rb : UInt32; rc : UInt32; rd : UInt32; re : Maybe; rf : UInt32; rg : UInt32; rh : UInt32 }.

(** sha256.rs:163-218, the body of the loop over 0..64 *)
Definition round_step (w : list UInt32) (i : nat) (r : Regs) : prog P (res Regs) :=
  ns ("compression round " ++ nat_str i)
   (let* new_e := compute (re r) "deferred e computation" [] in
    let* s1 := ns "first xor for s1" (u_xor (u_rotr new_e 6) (u_rotr new_e 11)) in
    let* s1 := ns "second xor for s1" (u_xor s1 (u_rotr new_e 25)) in
    let* ch := ns "ch" (u_ch new_e (rf r) (rg r)) in
    idx ROUND_CONSTANTS i (fun k => idx w i (fun wi =>
    let temp1 := [rh r; s1; ch; u_constant k; wi] in
    let* new_a := compute (ra r) "deferred a computation" [] in
    let* s0 := ns "first xor for s0" (u_xor (u_rotr new_a 2) (u_rotr new_a 13)) in
    let* s0 := ns "second xor for s0" (u_xor s0 (u_rotr new_a 22)) in
    let* maj := ns "maj" (u_maj new_a (rb r) (rc r)) in
    let temp2 := [s0; maj] in
    Ret (Ok (mkRegs (Deferred (temp1 ++ temp2)%list) new_a (rb r) (rc r)
                    (Deferred (temp1 ++ [rd r])%list) new_e (rf r) (rg r)))))).

(** sha256.rs:231-270 *)
Definition finish (r : Regs) (c0 c1 c2 c3 c4 c5 c6 c7 : UInt32) : prog P (res (list UInt32)) :=
  let* h0 := compute (ra r) "deferred h0 computation" [c0] in
  let* h1 := ns "new h1" (addmany [c1; rb r]) in
  let* h2 := ns "new h2" (addmany [c2; rc r]) in
  let* h3 := ns "new h3" (addmany [c3; rd r]) in
  let* h4 := compute (re r) "deferred h4 computation" [c4] in
  let* h5 := ns "new h5" (addmany [c5; rf r]) in
  let* h6 := ns "new h6" (addmany [c6; rg r]) in
  let* h7 := ns "new h7" (addmany [c7; rh r]) in
  Ret (Ok [h0; h1; h2; h3; h4; h5; h6; h7]).

(** sha256.rs:99-270, everything under the MultiEq *)
Definition compression_body (w : list UInt32) (cur : list UInt32) : prog P (res (list UInt32)) :=
  let* w := foldq (fun i w _ => w_extension i w) 16 w (seq 16 48) in
  if negb (Nat.eqb (length w) 64) then Panic
  else
    match cur with
    | [c0; c1; c2; c3; c4; c5; c6; c7] =>
        let* r := foldq (fun i r _ => round_step w i r) 0 (mkRegs (Concrete c0) c1 c2 c3 (Concrete c4) c5 c6 c7) (seq 0 64) in
        finish r c0 c1 c2 c3 c4 c5 c6 c7
    | _ => Panic
    end.

(** sha256.rs:81-270 [sha256_compression_function] *)
Definition sha256_compression (input : list Boolean) (current_hash_value : list UInt32) : prog P (res (list UInt32)) :=
  if negb (Nat.eqb (length input) 512) then Panic
  else if negb (Nat.eqb (length current_hash_value) 8) then Panic
  else
    let* w := mapq (fun _ c => lift (from_bits_be c) (fun w => Ret (Ok w))) 0 (chunks 32 input) in
    multieq_scope (compression_body w current_hash_value).

(** sha256.rs:29-45 *)
Definition sha256_block_no_padding (input : list Boolean) : prog P (res (list Boolean)) :=
  if negb (Nat.eqb (length input) 512) then Panic
  else
    let* r := sha256_compression input get_sha256_iv in
    Ret (Ok (concat (map into_bits_be r))).

(** sha256.rs:59-61: [while (padded.len() + 64) % 512 != 0 { padded.push(false) }].  The fuel bounds
    the number of iterations; [None] would mean it ran out. *)
Fixpoint pad_zeros (fuel : nat) (padded : list Boolean) : option (list Boolean) :=
  if Nat.eqb (Nat.modulo (length padded + 64) 512) 0 then Some padded
  else match fuel with O => None | S f => pad_zeros f (padded ++ [BConst false]) end.

(** sha256.rs:54-66 *)
Definition sha256_padding (input : list Boolean) : option (list Boolean) :=
  let plen := Z.of_nat (length input) in
  match pad_zeros 512 (input ++ [BConst true]) with
  | Some padded =>
      Some (padded ++ map (fun i => BConst (Z.eqb (Z.land (Z.shiftr plen (Z.of_nat i)) 1) 1)%Z) (rev (seq 0 64)))
  | None => None
  end%list.

(** sha256.rs:47-74 [sha256] *)
Definition sha256 (input : list Boolean) : prog P (res (list Boolean)) :=
  if negb (Nat.eqb (Nat.modulo (length input) 8) 0) then Panic
  else
    match sha256_padding input with
    | None => Panic
    | Some padded =>
        if negb (Nat.eqb (Nat.modulo (length padded) 512) 0) then Panic
        else
          let* cur := foldq (fun i cur block => ns ("block " ++ nat_str i) (sha256_compression block cur)) 0
                        get_sha256_iv (chunks 512 padded) in
          Ret (Ok (concat (map into_bits_be cur)))
    end.
End Model.

(** ** Correspondence of the pure parts with the specification *)
Lemma K_table : ROUND_CONSTANTS = K256.
Proof. vm_compute. reflexivity. Qed.
Lemma IV_table : IV = H0_256.
Proof. vm_compute. reflexivity. Qed.

Lemma ROTR_rotr32 k z : k <= 32 -> u32 z -> rotr32 k z = ROTR (Z.of_nat k) z.
Proof. intros Hk Hz. symmetry. exact (u32_rotate_right_spec k z Hk Hz). Qed.
Lemma SHR_div k z : (z / 2 ^ Z.of_nat k)%Z = SHR (Z.of_nat k) z.
Proof. unfold SHR. now rewrite Z.shiftr_div_pow2 by lia. Qed.
Lemma not32_not x : u32 x -> u32_not x = not32 x.
Proof.
  intros Hx. unfold u32_not, not32. apply Z.bits_inj'. intros i Hi. rewrite Z.lxor_spec.
  destruct (Z.lt_ge_cases i 32) as [H|H].
  - rewrite (Z.ones_spec_low 32 i) by lia. rewrite xorb_true_r, <- Z.lnot_spec by lia.
    rewrite <- (Z.mod_pow2_bits_low (Z.lnot x) 32) by lia. rewrite <- (Z.mod_pow2_bits_low (2 ^ 32 - 1 - x) 32) by lia.
    f_equal. unfold Z.lnot, Z.pred. replace (2 ^ 32 - 1 - x)%Z with (- x + -1 + 1 * 2 ^ 32)%Z by lia. now rewrite Z.mod_add by lia.
  - rewrite (Z.ones_spec_high 32 i) by lia. rewrite (high_bits x i Hx H). symmetry. apply high_bits; [unfold u32 in Hx; lia|exact H].
Qed.
Lemma ch_Ch x y z : u32 x -> ch_fn x y z = Ch x y z.
Proof. intros Hx. unfold ch_fn, Ch. now rewrite not32_not. Qed.
