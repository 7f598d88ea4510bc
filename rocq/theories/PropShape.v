(** Property theorems C24 and C50: what a gadget allocates and enforces does not depend on the witness. *)
From Coq Require Import String.
From Coq Require Import ZArith List Bool Lia.
From Verif Require Import Prelude PrimeField Zp Fields Circuit Loops BooleanGadget NumGadget MultiEq Spec UInt32 UInt32Proof SpecWord
  LookupGadget Multipack WordLogic Sha256 Sha256Proof Blake2s Blake2sProof PropBlake2s.
Import ListNotations.
Local Open Scope nat_scope.

(** The same circuit object with possibly different (or unknown) values: same variables, same
    constants. *)
Definition same_abit (a b : AllocatedBit) : Prop := ab_var a = ab_var b.
Definition same_bit (a b : Boolean) : Prop :=
  match a, b with
  | BConst x, BConst y => x = y
  | BIs x, BIs y | BNot x, BNot y => ab_var x = ab_var y
  | _, _ => False
  end.
Definition same_anum {P : PrimeField} (a b : AllocatedNum P) : Prop := an_var a = an_var b.
Definition same_num {P : PrimeField} (a b : Num P) : Prop := num_lc_ a = num_lc_ b.
Definition same_pair {A} (R : A -> A -> Prop) (x y : A * A) : Prop := R (fst x) (fst y) /\ R (snd x) (snd y).
(** Words: the same bits, values consistent with the bits, and a word made of constants only has
    a known value. *)
Definition same_word (w w' : UInt32) : Prop :=
  Forall2 same_bit (u_bits w) (u_bits w') /\ tracked w /\ tracked w' /\
  (Forall (fun b => exists c, b = BConst c) (u_bits w) -> u_value w <> None /\ u_value w' <> None).

Lemma same_word_wx w w' : same_word w w' <-> wx w w'.
Proof.
  assert (HC : forall l, Forall (fun b => exists c, b = BConst c) l <-> forallb is_constant l = true).
  { intros l. rewrite Forall_forall, forallb_forall. split; intros H x Hx; specialize (H x Hx).
    - destruct H as [c ->]. reflexivity.
    - destruct x; try discriminate. eauto. }
  split.
  - intros (HB & T & T' & HK). exists (uconst w). split; [|auto]. split; [exact HB|]. split; [split; now apply tracked_tracks|].
    intros E. apply HK, HC, E.
  - intros (c & (HB & [T T'] & HK) & Hc). split; [exact HB|]. split; [now apply tracked_tracks|]. split; [now apply tracked_tracks|].
    intros E. apply HK, Hc. now apply HC.
Qed.

Lemma shape_gadget {P : PrimeField} {A} (p q : prog P (res A)) R : Gadget q -> sim p q (resR R) -> SameShape p q R.
Proof. intros Hg. apply SameShape_of. apply Hg. Qed.

(** Throughout, the first program is the gadget during key generation and the second during
    proving; [SameShape] says that whenever proving succeeds, key generation reaches the same
    numbers of variables and the same list of constraints, and returns the same objects. *)

(** boolean.rs *)
Theorem C24_bits (P : PrimeField) (v v' : option bool) (w w' : option Z) (a a' b b' : AllocatedBit) (x x' y y' z z' : Boolean) :
  same_abit a a' -> same_abit b b' -> same_bit x x' -> same_bit y y' -> same_bit z z' ->
  SameShape (@ab_alloc P v) (ab_alloc v') same_abit /\
  SameShape (@ab_alloc_conditionally P v a) (ab_alloc_conditionally v' a') same_abit /\
  SameShape (@ab_xor P a b) (ab_xor a' b') same_abit /\
  SameShape (@ab_and P a b) (ab_and a' b') same_abit /\
  SameShape (@ab_and_not P a b) (ab_and_not a' b') same_abit /\
  SameShape (@ab_nor P a b) (ab_nor a' b') same_abit /\
  SameShape (@b_enforce_equal P x y) (b_enforce_equal x' y') (fun _ _ => True) /\
  SameShape (@b_xor P x y) (b_xor x' y') same_bit /\
  SameShape (@b_and P x y) (b_and x' y') same_bit /\
  SameShape (@b_ch P x y z) (b_ch x' y' z') same_bit /\
  SameShape (@b_maj P x y z) (b_maj x' y' z') same_bit /\
  SameShape (@u64_into_boolean_vec_le P w) (u64_into_boolean_vec_le w') (Forall2 same_bit) /\
  (forall (F2 : PrimeField) (f f' : option F2),
     SameShape (@field_into_boolean_vec_le P F2 f) (field_into_boolean_vec_le F2 f') (Forall2 same_bit) /\
     SameShape (@field_into_allocated_bits_le P F2 f) (field_into_allocated_bits_le F2 f') (Forall2 same_abit)).
Proof.
  intros Ha Hb Hx Hy Hz.
  split; [|split; [|split; [|split; [|split; [|split; [|split; [|split; [|split; [|split; [|split; [|split; [|intros; split]]]]]]]]]]]];
  (apply shape_gadget; [auto using ab_alloc_gadget, ab_alloc_conditionally_gadget, ab_xor_gadget, ab_and_gadget, ab_and_not_gadget, ab_nor_gadget,
    b_enforce_equal_gadget, b_xor_gadget, b_and_gadget, b_ch_gadget, b_maj_gadget, u64_into_boolean_vec_le_gadget,
    field_into_boolean_vec_le_gadget, field_into_allocated_bits_le_gadget|]).
  - apply ab_alloc_sim.
  - now apply ab_alloc_conditionally_sim.
  - now apply ab_xor_sim.
  - now apply ab_and_sim.
  - now apply ab_and_not_sim.
  - now apply ab_nor_sim.
  - now apply b_enforce_equal_sim.
  - now apply b_xor_sim.
  - now apply b_and_sim.
  - now apply b_ch_sim.
  - now apply b_maj_sim.
  - apply u64_into_boolean_vec_le_sim.
  - apply field_into_boolean_vec_le_sim.
  - apply field_into_allocated_bits_le_sim.
Qed.
Print Assumptions C24_bits.

(** num.rs *)
Theorem C24_numbers (P : PrimeField) (v v' : res P) (a a' b b' : AllocatedNum P) (c c' : Boolean) :
  same_anum a a' -> same_anum b b' -> same_bit c c' ->
  SameShape (an_alloc v) (an_alloc v') same_anum /\
  SameShape (an_inputize a) (an_inputize a') (fun _ _ => True) /\
  SameShape (an_mul a b) (an_mul a' b') same_anum /\
  SameShape (an_square a) (an_square a') same_anum /\
  SameShape (an_assert_nonzero a) (an_assert_nonzero a') (fun _ _ => True) /\
  SameShape (an_conditionally_reverse a b c) (an_conditionally_reverse a' b' c') (same_pair same_anum) /\
  SameShape (to_bits_le a) (to_bits_le a') (Forall2 same_bit) /\
  SameShape (to_bits_le_strict a) (to_bits_le_strict a') (Forall2 same_bit).
Proof.
  intros Ha Hb Hc. split; [|split; [|split; [|split; [|split; [|split; [|split]]]]]];
  (apply shape_gadget; [auto using an_alloc_gadget, an_inputize_gadget, an_mul_gadget, an_square_gadget, an_assert_nonzero_gadget,
    an_conditionally_reverse_gadget, to_bits_le_gadget, to_bits_le_strict_gadget|]).
  - apply an_alloc_sim.
  - now apply an_inputize_sim.
  - now apply an_mul_sim.
  - now apply an_square_sim.
  - now apply an_assert_nonzero_sim.
  - now apply an_conditionally_reverse_sim.
  - now apply to_bits_le_sim.
  - now apply to_bits_le_strict_sim.
Qed.
Print Assumptions C24_numbers.

(** lookup.rs and multipack.rs *)
Theorem C24_lookup_pack (P : PrimeField) (bits bits' : list Boolean) (coords : list (P * P)) :
  Forall2 same_bit bits bits' ->
  SameShape (lookup3_xy bits coords) (lookup3_xy bits' coords) (same_pair same_anum) /\
  SameShape (lookup3_xy_neg bits coords) (lookup3_xy_neg bits' coords) (same_pair same_num) /\
  SameShape (@pack_into_inputs P bits) (pack_into_inputs bits') (fun _ _ => True).
Proof.
  intros H. split; [|split]; (apply shape_gadget; [auto using lookup3_xy_gadget, lookup3_xy_neg_gadget, pack_into_inputs_gadget|]).
  - now apply lookup3_xy_sim.
  - now apply lookup3_xy_neg_sim.
  - now apply pack_into_inputs_sim.
Qed.
Print Assumptions C24_lookup_pack.

(** uint32.rs.  [addmany] is used inside a MultiEq. *)
Theorem C24_words (P : PrimeField) (v v' : option Z) (a a' b b' c c' : UInt32) (ops ops' : list UInt32) :
  (forall z, v = Some z -> (0 <= z < 2 ^ 32)%Z) -> (forall z, v' = Some z -> (0 <= z < 2 ^ 32)%Z) ->
  same_word a a' -> same_word b b' -> same_word c c' -> Forall2 same_word ops ops' ->
  SameShape (@u_alloc P v) (u_alloc v') same_word /\
  SameShape (@u_xor P a b) (u_xor a' b') same_word /\
  (forall k, same_word (u_rotr a k) (u_rotr a' k)) /\
  SameShape (@u_ch P a b c) (u_ch a' b' c') (fun r r' => Forall2 same_bit (u_bits r) (u_bits r')) /\
  SameShape (@u_maj P a b c) (u_maj a' b' c') (fun r r' => Forall2 same_bit (u_bits r) (u_bits r')) /\
  SameShape (@multieq_scope P _ (addmany ops)) (multieq_scope (addmany ops')) same_word.
Proof.
  intros Hv Hv' Ha Hb Hc Ho. apply same_word_wx in Ha, Hb, Hc.
  assert (HM : forall (p q : prog P (res UInt32)), sim p q (resR wx) -> sim p q (resR same_word)).
  { intros p q. apply ok_mono_sim. intros. now apply same_word_wx. }
  split; [|split; [|split; [|split; [|split]]]].
  - apply shape_gadget; [apply u_alloc_gadget|]. apply HM. eapply ok_mono_sim; [|apply u_alloc_sim; assumption]. intros x y H. now exists false.
  - apply shape_gadget; [apply u_xor_gadget|]. apply HM. now apply xor_wx.
  - intros k. apply same_word_wx. now apply rotr_wx.
  - apply shape_gadget; [apply u_ch_gadget|]. destruct Ha as [ka Ha], Hb as [kb Hb], Hc as [kc Hc].
    eapply ok_mono_sim; [|apply u_ch_sim with (k := false); (eapply wsimw_mono; [|eassumption]; discriminate)]. intros x y H. apply H.
  - apply shape_gadget; [apply u_maj_gadget|]. destruct Ha as [ka Ha], Hb as [kb Hb], Hc as [kc Hc].
    eapply ok_mono_sim; [|apply u_maj_sim with (k := false); (eapply wsimw_mono; [|eassumption]; discriminate)]. intros x y H. apply H.
  - apply SameShape_of; [apply prop_scope, addmany_prop|]. apply HM, sim_multieq, addmany_wx.
    eapply Forall2_impl; [|exact Ho]. intros x y. apply same_word_wx.
Qed.
Print Assumptions C24_words.

(** sha256.rs and blake2s.rs *)
Theorem C24_hashes (P : PrimeField) (input input' : list Boolean) (person : list Z) :
  Forall2 same_bit input input' -> Forall is_byte person ->
  SameShape (@sha256_block_no_padding P input) (sha256_block_no_padding input') (Forall2 same_bit) /\
  SameShape (@sha256 P input) (sha256 input') (Forall2 same_bit) /\
  SameShape (@blake2s P input person) (blake2s input' person) (Forall2 same_bit).
Proof.
  intros H Hp. split; [|split]; (apply shape_gadget; [auto using block_gadget, sha256_gadget, blake2s_gadget|]).
  - now apply block_sim.
  - now apply sha256_sim.
  - now apply blake2s_sim.
Qed.
Print Assumptions C24_hashes.

(** The last hypothesis of [same_word] cannot be dropped, and [sha256_ch] can return words that
    violate it.  The circuit below uses only the public operations of uint32.rs.  Choosing
    between an allocated word and a constant with the constant 0 gives a word made of constants
    whose value the key generator does not know; [addmany] then takes the constant path for the
    prover and allocates 33 bits for the key generator. *)
Definition ch_then_add (P : PrimeField) (v : option Z) : prog P (res UInt32) :=
  bindq (u_alloc v) (fun w => bindq (u_ch (u_constant 0) w (u_constant 5)) (fun r => multieq_scope (addmany [r; u_constant 1%Z]))).
Definition aux_after {P : PrimeField} {A} (o : outcome (res A * KState P)) : option nat :=
  match o with Done (Ok _, k) => Some (k_aux k) | _ => None end.
Definition honest_aux {P : PrimeField} {A} (o : outcome (res A * PState P)) : option nat :=
  match o with Done (Ok _, s) => Some (length (p_aux s)) | _ => None end.
Definition ex_empty : PState Goldilocks := {| p_inputs := [fone]; p_aux := []; p_cons := [] |}.

Theorem C50_word_compositions_refuted :
  exists (P : PrimeField) (p : option Z -> prog P (res UInt32)) (s : PState P) (n m : nat),
    p = ch_then_add P /\ wf_state s /\
    honest_aux (run (HonestCS P) (p (Some 7%Z)) s) = Some n /\
    aux_after (run (ShapeCS P) (p None) (shape_of s)) = Some m /\ n <> m.
Proof.
  exists Goldilocks, (ch_then_add Goldilocks), ex_empty, 32, 65. split; [reflexivity|]. split; [exists []; reflexivity|].
  split; [vm_compute; reflexivity|]. split; [vm_compute; reflexivity|]. discriminate.
Qed.
Print Assumptions C50_word_compositions_refuted.

(** The hypotheses are met by, and the conclusions are not vacuous for, unknown inputs to the key
    generator and known inputs to the prover. *)
Definition ex_known : list Boolean := map (fun i => BIs {| ab_var := Aux i; ab_value := Some (Nat.odd i) |}) (seq 0 8).
Definition ex_unknown : list Boolean := map (fun i => BIs {| ab_var := Aux i; ab_value := None |}) (seq 0 8).
Definition ex_s8 : PState Fr64513 := {| p_inputs := [fone]; p_aux := map (fun i => fb (Nat.odd i)) (seq 0 8); p_cons := [] |}.
Example C24_ex_hyp : Forall2 same_bit ex_unknown ex_known.
Proof. repeat constructor. Qed.
Example C24_ex_word : same_word {| u_bits := map (fun i => BIs {| ab_var := Aux i; ab_value := None |}) (seq 0 32); u_value := None |}
  {| u_bits := map (fun i => BIs {| ab_var := Aux i; ab_value := Some (Nat.eqb i 1) |}) (seq 0 32); u_value := Some 2%Z |}.
Proof.
  split; [repeat constructor|]. split; [split; [reflexivity|discriminate]|]. split.
  - split; [reflexivity|]. cbn [u_value u_bits]. intros v E. inversion E; subst. split; [lia|]. intros i x b Ex Eb.
    rewrite nth_error_map in Ex. destruct (nth_error (seq 0 32) i) as [j|] eqn:Ej; [|discriminate]. cbn in Ex. inversion Ex; subst. cbn in Eb.
    inversion Eb; subst. apply nth_error_nth with (d := 0) in Ej as Ej'. assert (Hi : i < 32) by (rewrite <- (seq_length 32 0); apply nth_error_Some; congruence).
    rewrite seq_nth in Ej' by exact Hi. cbn in Ej'. subst j.
    do 32 (destruct i as [|i]; [reflexivity|]). lia.
  - cbn [u_bits seq map]. intros H. inversion H as [|? ? [c Hc]]. discriminate.
Qed.
Example C24_ex :
  honest_aux (run (HonestCS Fr64513) (bindq (lookup3_xy (firstn 3 ex_known) (map (fun i => (ofZ (Z.of_nat i), ofZ (Z.of_nat (i + 5)))) (seq 0 8)))
    (fun xy => an_mul (fst xy) (snd xy))) ex_s8) = Some 12 /\
  aux_after (run (ShapeCS Fr64513) (bindq (lookup3_xy (firstn 3 ex_unknown) (map (fun i => (ofZ (Z.of_nat i), ofZ (Z.of_nat (i + 5)))) (seq 0 8)))
    (fun xy => an_mul (fst xy) (snd xy))) (shape_of ex_s8)) = Some 12.
Proof. split; vm_compute; reflexivity. Qed.
