(** Property theorem C23: the BLAKE2s gadget (src/gadgets/blake2s.rs) against RFC 7693 (Blake2sSpec.v). *)
From Coq Require Import String.
From Coq Require Import ZArith List Bool Lia.
From Verif Require Import Prelude PrimeField Zp Fields Circuit Loops BooleanGadget NumGadget MultiEq Spec UInt32 UInt32Proof SpecWord
  WordLogic Sha256Spec Sha256 Sha256Proof PropSha256 Blake2sSpec Blake2s Blake2sProof.
Import ListNotations.
Local Open Scope nat_scope.

Definition is_byte (b : Z) : Prop := (0 <= b < 256)%Z.

(** Every assignment satisfying the constraints that [blake2s] enforced gives the output bits the
    values of the digest of the message the input bits spell, least significant bit of each byte
    first. *)
Theorem C23_blake2s_sound (P : PrimeField) (input : list Boolean) (person message : list Z) :
  length person = 8 -> Forall is_byte person -> Forall is_byte message ->
  Sound (@blake2s P input person) (fun rho out =>
    Forall2 (den rho) input (bits_of_bytes message) -> Forall2 (den rho) out (bits_of_bytes (blake2s_spec person message))).
Proof.
  intros Hl Hp Hm rho r cs He H1 Hs HF. apply den_bits. apply den_bits in HF.
  exact (wpS_emits rho _ _ _ _ (blake2s_hwp (SoundHL rho H1) input message person Hl Hp Hm HF) He Hs).
Qed.
Print Assumptions C23_blake2s_sound.

Theorem C23_blake2s_complete (P : PrimeField) (s : PState P) (input : list Boolean) (person message : list Z) :
  64 <= num_bits P -> wf_state s -> length person = 8 -> Forall is_byte person -> Forall is_byte message ->
  Forall2 (den_known s) input (bits_of_bytes message) ->
  Complete (@blake2s P input person) s (fun rho out =>
    Forall2 (den rho) out (bits_of_bytes (blake2s_spec person message)) /\
    map b_value out = map Some (bits_of_bytes (blake2s_spec person message))).
Proof.
  intros H64 Hw Hl Hp Hm HF. apply Complete_of; [exact Hw|apply blake2s_gadget|]. intros rho Ha H1.
  eapply wpC_okmono; [|apply (blake2s_hwp (CompleteHL rho H1 H64) input message person Hl Hp Hm)].
  - intros r Hr. exact (hon_den_value rho r _ Hr).
  - eapply Forall2_impl; [|exact HF]. intros x b. now apply den_known_hon.
Qed.
Print Assumptions C23_blake2s_complete.

(** Every bit string whose length is a multiple of eight is the bits of a byte string, so the two
    theorems above cover every input that is accepted. *)
Theorem C23_bytes_cover (bs : list bool) : length bs mod 8 = 0 ->
  Forall is_byte (bytes_of_bits bs) /\ bits_of_bytes (bytes_of_bits bs) = bs.
Proof.
  intros Hm. apply Nat.mod_divide in Hm; [|lia]. destruct Hm as [n Hn]. revert bs Hn. unfold bytes_of_bits.
  induction n as [|n IH]; intros bs Hn.
  - destruct bs; [|discriminate]. split; [constructor|reflexivity].
  - do 8 (destruct bs as [|? bs]; [exfalso; cbn in Hn; lia|]). rewrite chunks_cons by (discriminate || lia).
    cbn [firstn skipn map]. destruct (IH bs) as [IH1 IH2]; [cbn in Hn; lia|]. split.
    + constructor; [|exact IH1]. unfold is_byte, byte_of_bits. cbn [fold_right].
      repeat match goal with b : bool |- _ => destruct b end; cbn; lia.
    + rewrite bits_of_bytes_cons, IH2. unfold byte_of_bits, byte_bits. cbn [fold_right].
      assert (E : forall b0 b1 b2 b3 b4 b5 b6 b7, map (fun i => Z.odd ((Z.b2z b0 + 2 * (Z.b2z b1 + 2 * (Z.b2z b2 + 2 * (Z.b2z b3 + 2 * (Z.b2z b4 +
        2 * (Z.b2z b5 + 2 * (Z.b2z b6 + 2 * (Z.b2z b7 + 2 * 0)))))))) / 2 ^ Z.of_nat i)) (seq 0 8) = [b0; b1; b2; b3; b4; b5; b6; b7])
        by (intros [] [] [] [] [] [] [] []; reflexivity).
      now rewrite E.
Qed.
Print Assumptions C23_bytes_cover.

(** Only whole bytes and eight bytes of personalisation are accepted. *)
Theorem C23_blake2s_rejects (P : PrimeField) (input : list Boolean) (person : list Z) :
  length person <> 8 \/ length input mod 8 <> 0 -> @blake2s P input person = Panic.
Proof.
  intros H. unfold blake2s. destruct (Nat.eqb_spec (length person) 8); [|reflexivity]. destruct H as [H|H]; [contradiction|].
  destruct (Nat.eqb_spec (length input mod 8) 0); [contradiction|reflexivity].
Qed.
Print Assumptions C23_blake2s_rejects.

(** The digest has 32 bytes. *)
Theorem C23_digest_length (person message : list Z) : length (blake2s_spec person message) = 32.
Proof.
  assert (H : forall h m t f, length (concat (map word_bytes (b2_F h m t f))) = 32).
  { intros h m t f. unfold b2_F. generalize (fold_left (b2_round m) (seq 0 10) (b2_init h t f)). intros v.
    unfold b2_final. cbn [seq map concat word_bytes app length]. reflexivity. }
  apply H.
Qed.
Print Assumptions C23_digest_length.

(** The message "abc" with the personalisation "12345678": constants, allocated bits and negated
    bits in turn. *)
Definition ex_b2_bits : list bool := bits_of_bytes [97; 98; 99]%Z.
Definition ex_b2_input : list Boolean :=
  map (fun i => let b := nth i ex_b2_bits false in
    match i mod 3 with
    | 0 => BConst b
    | 1 => BIs {| ab_var := Aux i; ab_value := Some b |}
    | _ => BNot {| ab_var := Aux i; ab_value := Some (negb b) |}
    end) (seq 0 24).
Definition ex_b2_state : PState Goldilocks :=
  {| p_inputs := [fone]; p_aux := map (fun i => let b := nth i ex_b2_bits false in if Nat.eqb (i mod 3) 2 then fb (negb b) else fb b) (seq 0 24);
     p_cons := [] |}.
Example C23_ex_input : Forall2 (den_known ex_b2_state) ex_b2_input (bits_of_bytes [97; 98; 99]%Z).
Proof.
  assert (E : bits_of_bytes [97; 98; 99]%Z = map (fun i => nth i ex_b2_bits false) (seq 0 24)) by reflexivity. rewrite E.
  apply Forall2_map_both, Forall2_diag. intros i Hi. apply in_seq in Hi.
  assert (Ha : asg ex_b2_state (Aux i) = if Nat.eqb (i mod 3) 2 then fb (negb (nth i ex_b2_bits false)) else fb (nth i ex_b2_bits false)).
  { unfold ex_b2_state, asg. cbn [p_aux].
    apply nth_error_nth. rewrite nth_error_map, (nth_error_nth' (seq 0 24) 0) by (rewrite seq_length; lia).
    rewrite seq_nth by lia. reflexivity. }
  assert (Hk : known ex_b2_state (Aux i)) by (cbn; lia).
  pose proof (Nat.mod_upper_bound i 3 ltac:(discriminate)) as Hm.
  destruct (i mod 3) as [|[|[|]]] eqn:Em; try lia; cbn [Nat.eqb] in Ha; (split; [first [exact Hk|exact I]|split; [|cbn; rewrite ?negb_involutive; reflexivity]]).
  - reflexivity.
  - exact Ha.
  - exact Ha.
Qed.
Example C23_ex :
  Complete (@blake2s Goldilocks ex_b2_input ex_person) ex_b2_state (fun rho out =>
    Forall2 (den rho) out (bits_of_bytes (blake2s_spec ex_person [97; 98; 99]%Z)) /\
    map b_value out = map Some (bits_of_bytes (blake2s_spec ex_person [97; 98; 99]%Z))) /\
  blake2s_spec ex_person [97; 98; 99]%Z <> blake2s_spec (repeat 0%Z 8) [97; 98; 99]%Z.
Proof.
  split; [|intros E; apply (f_equal (hd 0%Z)) in E; vm_compute in E; discriminate].
  apply C23_blake2s_complete; [|exists []; reflexivity|reflexivity| | |exact C23_ex_input].
  - apply Nat.leb_le. vm_compute. reflexivity.
  - unfold ex_person. cbn. repeat (constructor; [unfold is_byte; lia|]). constructor.
  - repeat (constructor; [unfold is_byte; lia|]). constructor.
Qed.
