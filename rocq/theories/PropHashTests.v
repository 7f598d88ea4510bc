(** C83: the unit tests of sha256.rs and blake2s.rs.  What they draw and what the other libraries return are arguments, except where the
    source gives them. *)
From Coq Require Import String.
From Coq Require Import ZArith List Bool Lia.
From Verif Require Import Prelude PrimeField Loops BooleanGadget Sha256Spec Blake2sSpec CostSpec Bls Fields Spec UnitTests HashTests HashTestsProof.
From Verif Require Import Circuit.
Import ListNotations.
Local Open Scope nat_scope.
Local Open Scope prog_scope.
Local Open Scope string_scope.

(** Bytes, and their bits from the most significant one (FIPS 180-4, 3.1) *)
Definition bytes (l : list Z) : Prop := Forall (fun b => (0 <= b < 256)%Z) l.
Definition be_bits (l : list Z) : list bool := concat (map (fun b => map (Z.testbit b) [7; 6; 5; 4; 3; 2; 1; 0]%Z) l).

(** The messages of test_against_vectors and test_blake2s have these lengths. *)
Definition drawn_length (n : nat) : Prop := n < 32 \/ n < 256 /\ exists k, n = 8 * k.
Definition drawn (draw : nat -> nat -> Z) (n : nat) : list Z := map (draw n) (seq 0 n).

Lemma be_stream l : be_bits l = stream msb_first l.
Proof.
  unfold be_bits, stream. rewrite flat_map_concat_map. f_equal. apply map_ext. intros b. change msb_first with [7; 6; 5; 4; 3; 2; 1; 0]. cbn [map].
  rewrite !bit_at_odd, !Z.testbit_odd, !Z.shiftr_div_pow2 by lia. reflexivity.
Qed.
Lemma stream_first order k : length order = 8 -> forall l, firstn (k * 8) (stream order l) = stream order (firstn k l).
Proof.
  intros Ho. induction k as [|k IH]; intros l; [reflexivity|]. destruct l as [|b l]; [now rewrite firstn_nil|]. cbn [firstn]. unfold stream. cbn [flat_map].
  rewrite firstn_app, map_length, Ho. rewrite firstn_all2 by (rewrite map_length, Ho; lia). f_equal. replace (S k * 8 - 8) with (k * 8) by lia. apply IH.
Qed.
Lemma byte_back_all : forallb (fun x => Z.eqb (byte_of_bits (map (bit_at x) lsb_first)) x) (map Z.of_nat (seq 0 256)) = true.
Proof. vm_compute. reflexivity. Qed.
Lemma byte_back x : (0 <= x < 256)%Z -> byte_of_bits (map (bit_at x) lsb_first) = x.
Proof.
  intros H. pose proof byte_back_all as A. rewrite forallb_forall in A. apply Z.eqb_eq, A. apply in_map_iff. exists (Z.to_nat x). split; [lia|apply in_seq; lia].
Qed.
Lemma bits_inj a b : bytes a -> bytes b -> stream lsb_first a = stream lsb_first b -> a = b.
Proof.
  intros Ha. revert b. induction Ha as [|x a Hx Ha IH]; intros b Hb E; destruct Hb as [|y b Hy Hb]; [reflexivity|discriminate E..|].
  assert (E8 := f_equal (firstn 8) E). assert (Es := f_equal (skipn 8) E). change 8 with (1 * 8) in E8. rewrite !stream_first in E8 by reflexivity. cbn [firstn] in E8.
  unfold stream in E8. cbn [flat_map] in E8. rewrite !app_nil_r in E8.
  f_equal; [rewrite <- (byte_back x Hx), <- (byte_back y Hy), E8; reflexivity|]. apply IH; [exact Hb|exact Es].
Qed.
Lemma first_bytes k l : bytes l -> bytes (firstn k l).
Proof. intros H. revert k. induction H; intros [|k]; constructor; auto. apply IHForall. Qed.
Lemma passes_iff b : passes b = Done tt <-> b = true.
Proof. destruct b; cbn; split; congruence. Qed.
Lemma all_of_iff {A} (f : A -> outcome unit) l : all_of l f = Done tt <-> (forall x, In x l -> f x = Done tt).
Proof.
  induction l as [|x l IH]; cbn [all_of]; [split; [intros _ x []|reflexivity]|]. split.
  - intros H. destruct (f x) as [[]|] eqn:E; [|discriminate]. cbn [obind] in H. rewrite IH in H. intros y [<-|Hy]; auto.
  - intros H. rewrite (H x) by now left. cbn [obind]. apply IH. intros y Hy. apply H. now right.
Qed.
Lemma lengths_iff n : In n lengths <-> drawn_length n.
Proof.
  unfold lengths, drawn_length. rewrite in_app_iff, filter_In, !in_seq, Nat.eqb_eq. split.
  - intros [H|[H E]]; [left; lia|]. right. split; [lia|]. exists (n / 8). apply Nat.div_exact in E; lia.
  - intros [H|[H [k E]]]; [left; lia|]. destruct (Nat.lt_ge_cases n 32); [left; lia|]. right. split; [lia|]. subst n. rewrite Nat.mul_comm. apply Nat.mod_mul. lia.
Qed.
Lemma digest_bytes data : bytes (blake2s_spec PERSON data) /\ length (blake2s_spec PERSON data) = 32.
Proof.
  split; [|reflexivity]. unfold blake2s_spec. cbv zeta. set (h := b2_F _ _ _ _). clearbody h. induction h as [|w h IH]; [constructor|]. cbn [map concat]. apply Forall_app. split; [|exact IH].
  unfold word_bytes. repeat constructor; apply Z.mod_pos_bound; lia.
Qed.

Lemma test_vectors_iff (P : PrimeField) (g : list Boolean -> prog P (res (list Boolean))) order lib draw :
  test_vectors g order lib draw = Done tt <-> forall n, drawn_length n -> vectors_round g order (drawn draw n) (lib (drawn draw n)) = Done tt.
Proof.
  unfold test_vectors. rewrite all_of_iff. cbv zeta. fold (drawn draw). split; intros H n Hn; apply H; apply lengths_iff; exact Hn.
Qed.

Lemma isbytes l : forallb (fun b => Z.leb 0 b && Z.ltb b 256) l = true -> bytes l.
Proof. intros H. apply Forall_forall. intros b Hb. rewrite forallb_forall in H. specialize (H b Hb). lia. Qed.
Lemma sha_blank_bytes : bytes sha256_blank. Proof. apply isbytes. vm_compute. reflexivity. Qed.
Lemma blake_blank_bytes : bytes blake2s_blank. Proof. apply isbytes. vm_compute. reflexivity. Qed.
Lemma bytes_256 : bytes message_256 /\ bytes digest_256. Proof. split; apply isbytes; vm_compute; reflexivity. Qed.
Lemma bytes_700 : bytes message_700 /\ bytes digest_700. Proof. split; apply isbytes; vm_compute; reflexivity. Qed.
Lemma sha_blank_digest : be_bits sha256_blank = sha256_spec []. Proof. vm_compute. reflexivity. Qed.
Lemma blake_blank_digest : blake2s_blank = blake2s_spec PERSON []. Proof. vm_compute. reflexivity. Qed.
Lemma digest_of_256 : digest_256 = blake2s_spec PERSON message_256. Proof. vm_compute. reflexivity. Qed.
Lemma digest_of_700 : digest_700 = blake2s_spec PERSON message_700. Proof. vm_compute. reflexivity. Qed.
Lemma digests_of_1024 : expecteds = map (blake2s_spec PERSON) messages_1024. Proof. vm_compute. reflexivity. Qed.
Lemma messages_bytes : Forall bytes messages_1024.
Proof.
  assert (H : forallb (forallb (fun b => Z.leb 0 b && Z.ltb b 256)) messages_1024 = true) by (vm_compute; reflexivity).
  apply Forall_forall. intros l Hl. rewrite forallb_forall in H. apply isbytes, H, Hl.
Qed.

Section C83.
Context (P : PrimeField).
Hypothesis bits64 : 64 <= num_bits P.

(** One round of a test with vectors returns if and only if the other library's digest (its first 32 bytes) is that of the standard: the circuit
    is satisfied, all of its output bits are variables (unless the message is empty), and they show the digest. *)
Theorem C83_rounds (data digest : list Z) :
  (vectors_round (@Sha256.sha256 P) msb_first data digest = Done tt <-> be_bits (firstn 32 digest) = sha256_spec (be_bits data)) /\
  (bytes data -> bytes digest ->
   (vectors_round (fun input => @Blake2s.blake2s P input PERSON) lsb_first data digest = Done tt <-> firstn 32 digest = blake2s_spec PERSON data)).
Proof.
  split; [|intros Hd Hg].
  - rewrite (sha_round data digest bits64), passes_iff, eq_bits_true, !be_stream. change 256 with (32 * 8). rewrite stream_first by reflexivity. reflexivity.
  - rewrite (blake_round data digest bits64 Hd), passes_iff, eq_bits_true. change 256 with (32 * 8). rewrite stream_first by reflexivity. split; [|intros ->; reflexivity].
    apply bits_inj; [apply first_bytes, Hg|apply digest_bytes].
Qed.

(** Hence the tests with vectors return if and only if the other library is right about what is drawn. *)
Theorem C83_vectors (lib : list Z -> list Z) (draw : nat -> nat -> Z) : (forall n i, (0 <= draw n i < 256)%Z) -> (forall data, bytes (lib data)) ->
  (@sha256_test_against_vectors P lib draw = Done tt <->
     forall n, drawn_length n -> be_bits (firstn 32 (lib (drawn draw n))) = sha256_spec (be_bits (drawn draw n))) /\
  (@blake2s_test P lib draw = Done tt <->
     forall n, drawn_length n -> firstn 32 (lib (drawn draw n)) = blake2s_spec PERSON (drawn draw n)).
Proof.
  intros Hd Hl. assert (HB : forall n, bytes (drawn draw n)) by (intros n; apply Forall_map, Forall_forall; intros i _; apply Hd).
  split; [unfold sha256_test_against_vectors|unfold blake2s_test]; rewrite test_vectors_iff; (split; intros H n Hn; specialize (H n Hn)).
  - exact (proj1 (proj1 (C83_rounds _ _)) H).
  - exact (proj2 (proj1 (C83_rounds _ _)) H).
  - exact (proj1 (proj2 (C83_rounds _ _) (HB n) (Hl _)) H).
  - exact (proj2 (proj2 (C83_rounds _ _) (HB n) (Hl _)) H).
Qed.

(** The digests given in the source: of the empty message (for SHA-256 it is one block, 1 and then 0s) ... *)
Theorem C83_blank (expected : list Z) : length expected = 32 -> bytes expected ->
  (@sha256_test_blank_hash P expected = Done tt <-> be_bits expected = sha256_spec []) /\
  (@blake2s_test_blank_hash P expected = Done tt <-> expected = blake2s_spec PERSON []).
Proof.
  intros Hl Hb. split.
  - rewrite (sha_blank expected bits64 Hl), passes_iff, eq_bits_true, be_stream.
    assert (E : sha256_block_spec blank_block = sha256_spec []) by (vm_compute; reflexivity). rewrite E. split; congruence.
  - rewrite (blake_blank expected bits64 Hl), passes_iff, eq_bits_true. split; [|intros <-; reflexivity]. intros E. symmetry. revert E. apply bits_inj; [apply digest_bytes|exact Hb].
Qed.
(** ... and of messages of 256 and 700 bytes; the message is also checked to be of the size that the test is named after. *)
Theorem C83_given (size : nat) (data expected : list Z) : bytes data -> bytes expected -> length expected = 32 ->
  (@blake2s_test_given P size data expected = Done tt <-> length data = size /\ expected = blake2s_spec PERSON data).
Proof.
  intros Hd Hb Hl. rewrite (blake_given size data expected bits64 Hd Hl), passes_iff, andb_true_iff, Nat.eqb_eq, eq_bits_true.
  split; intros [H1 H2]; (split; [exact H1|]); [|now rewrite H2]. symmetry. revert H2. apply bits_inj; [apply digest_bytes|exact Hb].
Qed.
(** Those of the two messages drawn in test_blake2s_test_vectors are compared with the other library's, and this with the circuit's. *)
Theorem C83_expected (lib : list Z -> list Z) (draws expected : list (list Z)) : length draws = length expected -> Forall bytes draws -> (forall data, bytes (lib data) /\ length (lib data) = 32) ->
  (@blake2s_test_test_vectors P lib draws expected = Done tt <-> map lib draws = map (blake2s_spec PERSON) draws /\ expected = map lib draws).
Proof.
  intros Hl Hd Hb. unfold blake2s_test_test_vectors. revert expected Hl. induction Hd as [|d draws Hd _ IH]; intros [|e expected] Hl; try discriminate; [cbn; tauto|].
  cbn [combine all_of map fst snd]. destruct (C83_rounds d (lib d)) as [_ HR]. specialize (HR Hd (proj1 (Hb d))). rewrite firstn_all2 in HR by (rewrite (proj2 (Hb d)); lia).
  specialize (IH expected ltac:(injection Hl; auto)).
  destruct (vectors_round _ lsb_first d (lib d)) as [[]|].
  - cbn [obind]. unfold same_bytes. destruct (list_eq_dec Z.eq_dec e (lib d)) as [E|E]; cbn [assert obind].
    + rewrite IH. rewrite (proj1 HR eq_refl). subst e. rewrite (proj1 HR eq_refl). split; intros [H1 H2]; [split; congruence|]. injection H1 as H1. injection H2 as H2. split; assumption.
    + split; [discriminate|]. intros [_ H]. injection H as H _. contradiction.
  - cbn [obind]. split; [discriminate|]. intros [H _]. injection H as H _. apply HR in H. discriminate H.
Qed.

(** The counts of constraints, whatever bits are drawn: those of the source hold for a field of capacity 254, as BLS12-381's; circuits of constants
    have no constraints at all. *)
Theorem C83_counts (bits : list bool) : length bits = 512 ->
  @blake2s_test_constant_constraints P bits = Done tt /\
  (capacity P = 254 -> @sha256_test_full_block P bits = Done tt /\ @blake2s_test_constraints P = Done tt /\ @blake2s_test_precomp_constraints P bits = Done tt).
Proof.
  intros Hl. split; [now apply blake_constant|]. intros HC. rewrite (full_block bits bits64 Hl), (blake_constraints bits64), (blake_precomp bits bits64 Hl), HC, !passes_iff, !Z.eqb_eq.
  assert (E : CostSpec.p_cons (sha256_block_price 254 (repeat true 512)) = 25840%Z /\ CostSpec.p_cons (blake2s_price 254 (repeat true 512)) = 21006%Z /\
    CostSpec.p_cons (blake2s_price 254 (repeat false 512 ++ repeat true 512)) = 21006%Z) by (vm_compute; repeat split).
  destruct E as (-> & -> & ->). repeat split.
Qed.

(** What the rounds of test_against_vectors do not see: a gadget whose output bits are bound to nothing.  It passes them for the same
    digests as [sha256], while the constraints it makes of a message are satisfied with all of the digest's bits 0 and with all of them 1. *)
Definition unlinked (input : list Boolean) : prog P (res (list Boolean)) :=
  mapq (fun i b => let* a := ns ("bit " ++ nat_str i) (ab_alloc (Some b)) in Ret (Ok (BIs a))) 0
    (sha256_spec (map (fun x => match b_value x with Some v => v | None => false end) input)).
Theorem C83_blind :
  (forall data digest, vectors_round unlinked msb_first data digest = vectors_round (@Sha256.sha256 P) msb_first data digest) /\
  (forall message c, exists rho r s,
     run (HonestCS P) (unlinked (map BConst message)) {| p_inputs := [fone]; p_aux := []; p_cons := [] |} = Done (Ok r, s) /\
     rho one_var = fone /\ sat rho (p_cons s) /\ length r = 256 /\ Forall (fun x => den rho x c) r).
Proof.
  split.
  - intros data digest. rewrite (sha_round data digest bits64). apply loose_round.
  - intros message c. set (rho := fun v => match v with Input _ => fone | Aux _ => fb c end : P).
    destruct (loose_run rho c eq_refl (fun _ => eq_refl) (sha256_spec (map (fun x => match b_value x with Some v => v | None => false end) (map BConst message))) 0
      {| p_inputs := [fone]; p_aux := []; p_cons := [] |} (Forall_nil _)) as (r & s & E & Hs & Hl & Hr).
    exists rho, r, s. split; [exact E|split; [reflexivity|split; [exact Hs|split; [rewrite Hl; apply sha_spec_length|exact Hr]]]].
Qed.

(** So all of the tests of the two files return. *)
Theorem C83_tests (sha lib : list Z -> list Z) (draw draw' : nat -> nat -> Z) (bits bits' bits'' : list bool) : capacity P = 254 ->
  (forall data, bytes data -> length (sha data) = 32 /\ be_bits (sha data) = sha256_spec (be_bits data)) ->
  (forall data, bytes data -> lib data = blake2s_spec PERSON data) ->
  (forall n i, (0 <= draw n i < 256)%Z) -> (forall n i, (0 <= draw' n i < 256)%Z) -> length bits = 512 -> length bits' = 512 -> length bits'' = 512 ->
  @sha256_test_blank_hash P sha256_blank = Done tt /\ @sha256_test_full_block P bits = Done tt /\ @sha256_test_against_vectors P sha draw = Done tt /\
  @blake2s_test_blank_hash P blake2s_blank = Done tt /\ @blake2s_test_constraints P = Done tt /\ @blake2s_test_precomp_constraints P bits' = Done tt /\
  @blake2s_test_constant_constraints P bits'' = Done tt /\ @blake2s_test P lib draw' = Done tt /\
  @blake2s_test_given P 256 message_256 digest_256 = Done tt /\ @blake2s_test_given P 700 message_700 digest_700 = Done tt /\
  @blake2s_test_test_vectors P lib messages_1024 expecteds = Done tt.
Proof.
  intros HC Hs Hl Hd Hd' H1 H2 H3.
  assert (HB : forall n, bytes (drawn draw n)) by (intros n; apply Forall_map, Forall_forall; intros i _; apply Hd).
  assert (HB' : forall n, bytes (drawn draw' n)) by (intros n; apply Forall_map, Forall_forall; intros i _; apply Hd').
  destruct (C83_counts bits H1) as [_ HF]. destruct (HF HC) as (F1 & F2 & _). destruct (C83_counts bits' H2) as [_ HF']. destruct (HF' HC) as (_ & _ & F3).
  split; [|split; [exact F1|split; [|split; [|split; [exact F2|split; [exact F3|split; [exact (proj1 (C83_counts bits'' H3))|split; [|split; [|split]]]]]]]]].
  - exact (proj2 (proj1 (C83_blank sha256_blank eq_refl sha_blank_bytes)) sha_blank_digest).
  - unfold sha256_test_against_vectors. rewrite test_vectors_iff. intros n _. apply (proj2 (proj1 (C83_rounds _ _))). destruct (Hs _ (HB n)) as [E1 E2].
    rewrite firstn_all2 by (rewrite E1; lia). exact E2.
  - exact (proj2 (proj2 (C83_blank blake2s_blank eq_refl blake_blank_bytes)) blake_blank_digest).
  - unfold blake2s_test. rewrite test_vectors_iff. intros n _. rewrite (Hl _ (HB' n)). apply (proj2 (proj2 (C83_rounds _ _) (HB' n) (proj1 (digest_bytes _)))).
    apply firstn_all2. rewrite (proj2 (digest_bytes _)). lia.
  - exact (proj2 (C83_given 256 message_256 digest_256 (proj1 bytes_256) (proj2 bytes_256) eq_refl) (conj eq_refl digest_of_256)).
  - exact (proj2 (C83_given 700 message_700 digest_700 (proj1 bytes_700) (proj2 bytes_700) eq_refl) (conj eq_refl digest_of_700)).
  - assert (EV : forall l e, Forall bytes l -> e = map (blake2s_spec PERSON) l -> @blake2s_test_test_vectors P lib l e = Done tt).
    { clear -bits64 Hl. intros l e HM ->. unfold blake2s_test_test_vectors. induction HM as [|d l Hd _ IH]; [reflexivity|]. cbn [map combine all_of fst snd].
      rewrite (Hl d Hd). rewrite (proj2 (proj2 (C83_rounds d (blake2s_spec PERSON d)) Hd (proj1 (digest_bytes d)))) by (apply firstn_all2; rewrite (proj2 (digest_bytes _)); lia).
      cbn [obind]. unfold same_bytes. destruct (list_eq_dec Z.eq_dec _ _) as [_|n]; [|now destruct n]. cbn [assert obind]. exact IH. }
    exact (EV messages_1024 expecteds messages_bytes digests_of_1024).
Qed.
End C83.
Print Assumptions C83_rounds.
Print Assumptions C83_vectors.
Print Assumptions C83_blank.
Print Assumptions C83_given.
Print Assumptions C83_expected.
Print Assumptions C83_counts.
Print Assumptions C83_blind.
Print Assumptions C83_tests.

(** ** Examples *)
Fixpoint pack (l : list bool) : list Z :=
  match l with b7 :: b6 :: b5 :: b4 :: b3 :: b2 :: b1 :: b0 :: t => byte_of_bits [b0; b1; b2; b3; b4; b5; b6; b7] :: pack t | _ => [] end.
Lemma pack_back n : forall l, length l = n * 8 -> length (pack l) = n /\ be_bits (pack l) = l.
Proof.
  induction n as [|n IH]; intros l Hl; [destruct l; [split; reflexivity|discriminate]|].
  destruct l as [|b7 [|b6 [|b5 [|b4 [|b3 [|b2 [|b1 [|b0 t]]]]]]]]; try (cbn in Hl; lia). destruct (IH t) as [H1 H2]; [cbn in Hl; lia|].
  cbn [pack length]. split; [now rewrite H1|]. match goal with |- be_bits (?x :: _) = _ => change (map (Z.testbit x) [7; 6; 5; 4; 3; 2; 1; 0]%Z ++ be_bits (pack t) = b7 :: b6 :: b5 :: b4 :: b3 :: b2 :: b1 :: b0 :: t)%list end. rewrite H2.
  destruct b7, b6, b5, b4, b3, b2, b1, b0; reflexivity.
Qed.
(** The scalar field of BLS12-381, over which the tests are run, is as the theorems ask, and there are libraries, draws and bits as they ask. *)
Example C83_ex_bls : exists sha : list Z -> list Z,
  64 <= num_bits BlsScalar /\ capacity BlsScalar = 254 /\ (forall data, bytes data -> length (sha data) = 32 /\ be_bits (sha data) = sha256_spec (be_bits data)) /\
  @sha256_test_against_vectors BlsScalar sha (fun n i => (Z.of_nat (n * i) mod 256)%Z) = Done tt /\
  @blake2s_test_test_vectors BlsScalar (blake2s_spec PERSON) messages_1024 expecteds = Done tt.
Proof.
  assert (B : num_bits BlsScalar = 255) by reflexivity. assert (C : capacity BlsScalar = 254) by reflexivity. assert (H64 : 64 <= num_bits BlsScalar) by (rewrite B; lia).
  assert (HS : forall data, bytes data -> length (pack (sha256_spec (be_bits data))) = 32 /\ be_bits (pack (sha256_spec (be_bits data))) = sha256_spec (be_bits data)).
  { intros data _. apply (pack_back 32). apply sha_spec_length. }
  destruct (C83_tests BlsScalar H64 (fun data => pack (sha256_spec (be_bits data))) (blake2s_spec PERSON) (fun n i => (Z.of_nat (n * i) mod 256)%Z) (fun n i => (Z.of_nat (n * i) mod 256)%Z)
    (repeat true 512) (repeat true 512) (repeat true 512) C HS (fun _ _ => eq_refl) ltac:(intros; apply Z.mod_pos_bound; lia) ltac:(intros; apply Z.mod_pos_bound; lia) eq_refl eq_refl eq_refl)
    as (_ & _ & T1 & _ & _ & _ & _ & _ & _ & _ & T2).
  exists (fun data => pack (sha256_spec (be_bits data))). split; [exact H64|]. split; [exact C|]. split; [exact HS|]. split; [exact T1|exact T2].
Qed.
(** The digest of "abc" (FIPS 180-4, examples) passes a round, and one with its last bit changed does not. *)
Definition abc : list Z := [97; 98; 99]%Z.
Definition abc_digest : list Z := [186; 120; 22; 191; 143; 1; 207; 234; 65; 65; 64; 222; 93; 174; 34; 35; 176; 3; 97; 163; 150; 23; 122; 156; 180; 16; 255; 97; 242; 0; 21; 173]%Z.
Example C83_ex_rounds : vectors_round (@Sha256.sha256 BlsScalar) msb_first abc abc_digest = Done tt /\
  vectors_round (@Sha256.sha256 BlsScalar) msb_first abc (firstn 31 abc_digest ++ [172%Z])%list <> Done tt.
Proof.
  assert (B : num_bits BlsScalar = 255) by reflexivity. assert (H64 : 64 <= num_bits BlsScalar) by (rewrite B; lia).
  assert (E : be_bits (firstn 32 abc_digest) = sha256_spec (be_bits abc)) by (vm_compute; reflexivity). split.
  - exact (proj2 (proj1 (C83_rounds BlsScalar H64 abc abc_digest)) E).
  - intros H. apply (proj1 (proj1 (C83_rounds BlsScalar H64 abc (firstn 31 abc_digest ++ [172%Z])%list))) in H. rewrite <- E in H. revert H. clear. vm_compute. discriminate.
Qed.
(** The counts do depend on the capacity: over a field of 64 bits the test of the full block panics. *)
Example C83_ex_counts : 64 <= num_bits Goldilocks /\ capacity Goldilocks = 63 /\ @sha256_test_full_block Goldilocks (repeat false 512) = Panicked.
Proof.
  assert (H64 : 64 <= num_bits Goldilocks) by (vm_compute; repeat constructor). assert (C : capacity Goldilocks = 63) by (vm_compute; reflexivity).
  split; [exact H64|]. split; [exact C|]. rewrite (full_block (repeat false 512) H64 eq_refl), C. vm_compute. reflexivity.
Qed.
