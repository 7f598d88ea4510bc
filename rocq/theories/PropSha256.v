(** Property theorem C22: the SHA-256 gadget (src/gadgets/sha256.rs) against FIPS 180-4 (Sha256Spec.v). *)
From Coq Require Import String.
From Coq Require Import ZArith List Bool Lia.
From Verif Require Import Prelude PrimeField Zp Fields Circuit Loops BooleanGadget NumGadget MultiEq Spec UInt32 UInt32Proof SpecWord
  WordLogic Sha256Spec Sha256 Sha256Proof.
Import ListNotations.
Local Open Scope nat_scope.

Lemma hon_den_value {P : PrimeField} (rho : Var -> P) r bs : Forall2 (bit_hon rho) r bs ->
  Forall2 (den rho) r bs /\ map b_value r = map Some bs.
Proof.
  induction 1 as [|x b r bs [H1 H2] _ [IH1 IH2]]; cbn; [split; [constructor|reflexivity]|].
  split; [constructor; [now apply den_bit_is|exact IH1]|]. now rewrite H2, IH2.
Qed.

(** Every assignment satisfying the constraints that [sha256] enforced gives the output bits the
    values of the digest of the input bits. *)
Theorem C22_sha256_sound (P : PrimeField) (input : list Boolean) (message : list bool) :
  length input mod 8 = 0 ->
  Sound (@sha256 P input) (fun rho out => Forall2 (den rho) input message -> Forall2 (den rho) out (sha256_spec message)).
Proof.
  intros Hl rho r cs He H1 Hs HF. apply den_bits. apply den_bits in HF.
  exact (wpS_emits rho _ _ _ _ (sha256_hwp (SoundHL rho H1) input message Hl HF) He Hs).
Qed.
Print Assumptions C22_sha256_sound.

Theorem C22_sha256_complete (P : PrimeField) (s : PState P) (input : list Boolean) (message : list bool) :
  64 <= num_bits P -> wf_state s -> length input mod 8 = 0 -> Forall2 (den_known s) input message ->
  Complete (@sha256 P input) s (fun rho out =>
    Forall2 (den rho) out (sha256_spec message) /\ map b_value out = map Some (sha256_spec message)).
Proof.
  intros H64 Hw Hl HF. apply Complete_of; [exact Hw|apply sha256_gadget|]. intros rho Ha H1.
  eapply wpC_okmono; [|apply (sha256_hwp (CompleteHL rho H1 H64) input message Hl)].
  - intros r Hr. exact (hon_den_value rho r _ Hr).
  - eapply Forall2_impl; [|exact HF]. intros x b. now apply den_known_hon.
Qed.
Print Assumptions C22_sha256_complete.

(** Only whole bytes are accepted. *)
Theorem C22_sha256_bytes (P : PrimeField) (input : list Boolean) : length input mod 8 <> 0 -> @sha256 P input = Panic.
Proof. intros H. unfold sha256. destruct (Nat.eqb_spec (length input mod 8) 0); [contradiction|reflexivity]. Qed.
Print Assumptions C22_sha256_bytes.

(** The compression of a single block from the initial value, without padding. *)
Theorem C22_block_sound (P : PrimeField) (input : list Boolean) (block : list bool) :
  length input = 512 ->
  Sound (@sha256_block_no_padding P input) (fun rho out =>
    Forall2 (den rho) input block -> Forall2 (den rho) out (sha256_block_spec block)).
Proof.
  intros Hl rho r cs He H1 Hs HF. apply den_bits. apply den_bits in HF.
  exact (wpS_emits rho _ _ _ _ (block_hwp (SoundHL rho H1) input block Hl HF) He Hs).
Qed.
Print Assumptions C22_block_sound.

Theorem C22_block_complete (P : PrimeField) (s : PState P) (input : list Boolean) (block : list bool) :
  64 <= num_bits P -> wf_state s -> length input = 512 -> Forall2 (den_known s) input block ->
  Complete (@sha256_block_no_padding P input) s (fun rho out =>
    Forall2 (den rho) out (sha256_block_spec block) /\ map b_value out = map Some (sha256_block_spec block)).
Proof.
  intros H64 Hw Hl HF. apply Complete_of; [exact Hw|apply block_gadget|]. intros rho Ha H1.
  eapply wpC_okmono; [|apply (block_hwp (CompleteHL rho H1 H64) input block Hl)].
  - intros r Hr. exact (hon_den_value rho r _ Hr).
  - eapply Forall2_impl; [|exact HF]. intros x b. now apply den_known_hon.
Qed.
Print Assumptions C22_block_complete.

Theorem C22_block_size (P : PrimeField) (input : list Boolean) : length input <> 512 -> @sha256_block_no_padding P input = Panic.
Proof. intros H. unfold sha256_block_no_padding. destruct (Nat.eqb_spec (length input) 512); [contradiction|reflexivity]. Qed.
Print Assumptions C22_block_size.

(** The digest has 256 bits. *)
Theorem C22_digest_length (message : list bool) : length (sha256_spec message) = 256.
Proof.
  unfold sha256_spec. set (H := fold_left _ _ _). unfold h_list. cbn [map concat]. unfold bits_of_word.
  rewrite !app_length, !map_length, !seq_length. reflexivity.
Qed.
Print Assumptions C22_digest_length.

(** The message "abc": constants, allocated bits and negated bits in turn. *)
Definition ex_sha_input : list Boolean :=
  map (fun i => let b := nth i ex_abc false in
    match i mod 3 with
    | 0 => BConst b
    | 1 => BIs {| ab_var := Aux i; ab_value := Some b |}
    | _ => BNot {| ab_var := Aux i; ab_value := Some (negb b) |}
    end) (seq 0 24).
Definition ex_sha_state : PState Goldilocks :=
  {| p_inputs := [fone]; p_aux := map (fun i => let b := nth i ex_abc false in if Nat.eqb (i mod 3) 2 then fb (negb b) else fb b) (seq 0 24);
     p_cons := [] |}.
Example C22_ex_input : Forall2 (den_known ex_sha_state) ex_sha_input ex_abc.
Proof.
  assert (E : ex_abc = map (fun i => nth i ex_abc false) (seq 0 24)) by reflexivity. rewrite E at 1.
  apply Forall2_map_both, Forall2_diag. intros i Hi. apply in_seq in Hi.
  assert (Ha : asg ex_sha_state (Aux i) = if Nat.eqb (i mod 3) 2 then fb (negb (nth i ex_abc false)) else fb (nth i ex_abc false)).
  { unfold ex_sha_state, asg. cbn [p_aux].
    apply nth_error_nth. rewrite nth_error_map, (nth_error_nth' (seq 0 24) 0) by (rewrite seq_length; lia).
    rewrite seq_nth by lia. reflexivity. }
  assert (Hk : known ex_sha_state (Aux i)) by (cbn; lia).
  pose proof (Nat.mod_upper_bound i 3 ltac:(discriminate)) as Hm.
  destruct (i mod 3) as [|[|[|]]] eqn:Em; try lia; cbn [Nat.eqb] in Ha; (split; [first [exact Hk|exact I]|split; [|cbn; rewrite ?negb_involutive; reflexivity]]).
  - reflexivity.
  - exact Ha.
  - exact Ha.
Qed.
Example C22_ex :
  Complete (@sha256 Goldilocks ex_sha_input) ex_sha_state (fun rho out =>
    Forall2 (den rho) out (sha256_spec ex_abc) /\ map b_value out = map Some (sha256_spec ex_abc)) /\
  map word_of_bits (chunks 32 (sha256_spec ex_abc)) =
    [0xba7816bf; 0x8f01cfea; 0x414140de; 0x5dae2223; 0xb00361a3; 0x96177a9c; 0xb410ff61; 0xf20015ad]%Z.
Proof.
  split; [|exact sha256_abc]. apply C22_sha256_complete; [|exists []; reflexivity|reflexivity|exact C22_ex_input].
  apply Nat.leb_le. vm_compute. reflexivity.
Qed.
