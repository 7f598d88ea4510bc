(** Property theorems C43, C44, C45: the byte encodings of proofs, verifying keys and parameters. *)
From Coq Require Import ZArith List Bool Lia.
From Coq Require Import Strings.Byte.
From Verif Require Import Prelude PrimeField FModule Fields Groth16 Encoding EncodingProof.
Import ListNotations.
Local Open Scope nat_scope.

(** ** Specification: the formats *)
Section Spec.
Context {P : PrimeField}.

(** A big-endian 32-bit count. *)
Definition count_bytes (bs : list byte) (n : nat) : Prop :=
  exists b3 b2 b1 b0, bs = [b3; b2; b1; b0] /\
    Z.of_nat n = (Z.of_N (to_N b3) * 2 ^ 24 + Z.of_N (to_N b2) * 2 ^ 16 + Z.of_N (to_N b1) * 2 ^ 8 + Z.of_N (to_N b0))%Z.
(** Concatenated decodings of elements other than the identity. *)
Inductive elements {M : FMod P} (len : nat) (decode : list byte -> option M) : list byte -> list M -> Prop :=
| elements_nil : elements len decode [] []
| elements_cons bs x rest xs : length bs = len -> decode bs = Some x -> x <> gzero -> elements len decode rest xs -> elements len decode (bs ++ rest) (x :: xs).
Definition vector_bytes {M : FMod P} len (decode : list byte -> option M) (bs : list byte) (xs : list M) : Prop :=
  exists cs es, bs = cs ++ es /\ count_bytes cs (length xs) /\ elements len decode es xs.

Lemma be_value_4 b3 b2 b1 b0 : be_value [b3; b2; b1; b0] = (Z.of_N (to_N b3) * 2 ^ 24 + Z.of_N (to_N b2) * 2 ^ 16 + Z.of_N (to_N b1) * 2 ^ 8 + Z.of_N (to_N b0))%Z.
Proof. unfold be_value. cbn [fold_left]. lia. Qed.
Lemma count_bytes_iff bs n : count_bytes bs n <-> length bs = 4 /\ be_value bs = Z.of_nat n.
Proof.
  split.
  - intros (b3 & b2 & b1 & b0 & -> & H). split; auto. now rewrite be_value_4.
  - intros [HL H]. destruct bs as [|b3 [|b2 [|b1 [|b0 [|]]]]]; try discriminate. exists b3, b2, b1, b0. split; auto. now rewrite <- be_value_4.
Qed.
Lemma elements_iff {M : FMod P} len (decode : list byte -> option M) bs xs :
  elements len decode bs xs <-> exists bss, bs = concat bss /\ Forall2 (nonid_element len decode) bss xs.
Proof.
  split.
  - induction 1 as [|bs x rest xs H1 H2 H3 H4 (bss & -> & F)]; [exists []; auto|]. exists (bs :: bss). split; auto. constructor; auto. split; auto.
  - intros (bss & -> & F). induction F as [|b x bss xs (H1 & H2 & H3) F IH]; cbn; constructor; auto.
Qed.
Lemma vector_iff {M : FMod P} len (decode : list byte -> option M) bs xs : vector (nonid_element len decode) bs xs <-> vector_bytes len decode bs xs.
Proof.
  unfold vector, vector_bytes. split.
  - intros (c & bss & -> & H1 & H2 & F). exists c, (concat bss). split; auto. split; [now apply count_bytes_iff|]. apply elements_iff. eauto.
  - intros (cs & es & -> & Hc & He). apply count_bytes_iff in Hc as [H1 H2]. apply elements_iff in He as (bss & -> & F). exists cs, bss. auto.
Qed.
End Spec.

Section Formats.
Context {P : PrimeField} {E : Engine P} (B1 : GroupBytes (E_G1 E)) (B2 : GroupBytes (E_G2 E)).

Definition proof_bytes (bs : list byte) (p : Proof_ E) : Prop :=
  exists a b c, bs = a ++ b ++ c /\ length a = repr_len B1 /\ length b = repr_len B2 /\ length c = repr_len B1 /\
    from_bytes B1 a = Some (proof_a p) /\ from_bytes B2 b = Some (proof_b p) /\ from_bytes B1 c = Some (proof_c p) /\
    proof_a p <> gzero /\ proof_b p <> gzero /\ proof_c p <> gzero.

(** The elements of a verifying key other than [ic] may be the identity. *)
Definition vk_bytes (bs : list byte) (vk : VerifyingKey E) : Prop :=
  exists a b1 b2 g d1 d2 v, bs = a ++ b1 ++ b2 ++ g ++ d1 ++ d2 ++ v /\
    (length a = uncompressed_len B1 /\ from_uncompressed B1 a = Some (alpha_g1 vk)) /\
    (length b1 = uncompressed_len B1 /\ from_uncompressed B1 b1 = Some (beta_g1 vk)) /\
    (length b2 = uncompressed_len B2 /\ from_uncompressed B2 b2 = Some (beta_g2 vk)) /\
    (length g = uncompressed_len B2 /\ from_uncompressed B2 g = Some (gamma_g2 vk)) /\
    (length d1 = uncompressed_len B1 /\ from_uncompressed B1 d1 = Some (delta_g1 vk)) /\
    (length d2 = uncompressed_len B2 /\ from_uncompressed B2 d2 = Some (delta_g2 vk)) /\
    vector_bytes (uncompressed_len B1) (from_uncompressed B1) v (ic vk).

Definition point_decoder {M : FMod P} (B : GroupBytes M) (checked : bool) : list byte -> option M :=
  if checked then from_uncompressed B else from_uncompressed_unchecked B.
Definition params_bytes (checked : bool) (bs : list byte) (p : Parameters E) : Prop :=
  exists v h l a b1 b2, bs = v ++ h ++ l ++ a ++ b1 ++ b2 /\ vk_bytes v (p_vk p) /\
    vector_bytes (uncompressed_len B1) (point_decoder B1 checked) h (p_h p) /\
    vector_bytes (uncompressed_len B1) (point_decoder B1 checked) l (p_l p) /\
    vector_bytes (uncompressed_len B1) (point_decoder B1 checked) a (p_a p) /\
    vector_bytes (uncompressed_len B1) (point_decoder B1 checked) b1 (p_b_g1 p) /\
    vector_bytes (uncompressed_len B2) (point_decoder B2 checked) b2 (p_b_g2 p).

(** *** The readers recognise these formats *)
Lemma proof_read_spec : Spec (proof_read B1 B2) proof_bytes.
Proof.
  eapply Spec_iff; [|eapply Spec_bind; [apply Spec_compressed|intros a; eapply Spec_bind; [apply Spec_compressed|intros b; eapply Spec_bind; [apply Spec_compressed|intros c; apply (Spec_ret (mkProof a b c))]]]].
  intros bs p. cbn beta. unfold proof_bytes, nonid_element. split.
  - intros (a & p1 & r1 & -> & (A1 & A2 & A3) & b & p2 & r2 & -> & (B3 & B4 & B5) & c & p3 & r3 & -> & (C1 & C2 & C3) & -> & ->).
    exists p1, p2, p3. rewrite app_nil_r. cbn. tauto.
  - intros (a & b & c & -> & A1 & A2 & A3 & A4 & A5 & A6 & A7 & A8 & A9). exists (proof_a p), a, (b ++ c). split; auto. split; auto.
    exists (proof_b p), b, c. split; auto. split; auto. exists (proof_c p), c, []. rewrite app_nil_r. split; auto. split; auto. split; auto. now destruct p.
Qed.

Lemma vk_read_spec : Spec (vk_read B1 B2) vk_bytes.
Proof.
  eapply Spec_ext; [|eapply Spec_iff; [|eapply Spec_bind; [apply (Spec_uncompressed B1)|intros x1; eapply Spec_bind; [apply (Spec_uncompressed B1)|intros x2; eapply Spec_bind; [apply (Spec_uncompressed B2)|intros x3;
    eapply Spec_bind; [apply (Spec_uncompressed B2)|intros x4; eapply Spec_bind; [apply (Spec_uncompressed B1)|intros x5; eapply Spec_bind; [apply (Spec_uncompressed B2)|intros x6;
    eapply Spec_bind; [apply (Spec_counted (read_ic B1)), Spec_ic|intros l; apply (Spec_ret (mkVK x1 x2 x3 x4 x5 x6 l))]]]]]]]]].
  { intros r. unfold vk_read, dbind. repeat match goal with |- context [match ?x with Ok _ => _ | Err _ => _ end] => lazymatch x with match _ with _ => _ end => fail | _ => destruct x as [[? ?]|] end end; reflexivity. }
  intros bs vk. cbn beta. unfold vk_bytes, some_element. split.
  - intros (x1 & p1 & r1 & -> & H1 & x2 & p2 & r2 & -> & H2 & x3 & p3 & r3 & -> & H3 & x4 & p4 & r4 & -> & H4 & x5 & p5 & r5 & -> & H5 & x6 & p6 & r6 & -> & H6 & l & p7 & r7 & -> & H7 & -> & ->).
    exists p1, p2, p3, p4, p5, p6, p7. rewrite app_nil_r. cbn [alpha_g1 beta_g1 beta_g2 gamma_g2 delta_g1 delta_g2 ic]. apply vector_iff in H7. tauto.
  - intros (p1 & p2 & p3 & p4 & p5 & p6 & p7 & -> & H1 & H2 & H3 & H4 & H5 & H6 & H7).
    do 3 eexists. split; [reflexivity|]. split; [exact H1|]. do 3 eexists. split; [reflexivity|]. split; [exact H2|]. do 3 eexists. split; [reflexivity|]. split; [exact H3|].
    do 3 eexists. split; [reflexivity|]. split; [exact H4|]. do 3 eexists. split; [reflexivity|]. split; [exact H5|]. do 3 eexists. split; [reflexivity|]. split; [exact H6|].
    exists (ic vk), p7, []. rewrite app_nil_r. split; auto. split; [now apply vector_iff|]. split; auto. now destruct vk.
Qed.

Lemma params_read_spec checked : Spec (params_read B1 B2 checked) (params_bytes checked).
Proof.
  eapply Spec_iff; [|eapply Spec_bind; [apply vk_read_spec|intros x1; eapply Spec_bind; [apply (Spec_vec B1)|intros x2; eapply Spec_bind; [apply (Spec_vec B1)|intros x3;
    eapply Spec_bind; [apply (Spec_vec B1)|intros x4; eapply Spec_bind; [apply (Spec_vec B1)|intros x5; eapply Spec_bind; [apply (Spec_vec B2)|intros x6;
    apply (Spec_ret (mkParams x1 x2 x3 x4 x5 x6))]]]]]]].
  intros bs p. cbn beta. unfold params_bytes. split.
  - intros (x1 & p1 & r1 & -> & H1 & x2 & p2 & r2 & -> & H2 & x3 & p3 & r3 & -> & H3 & x4 & p4 & r4 & -> & H4 & x5 & p5 & r5 & -> & H5 & x6 & p6 & r6 & -> & H6 & -> & ->).
    exists p1, p2, p3, p4, p5, p6. rewrite app_nil_r. cbn [p_vk p_h p_l p_a p_b_g1 p_b_g2]. apply vector_iff in H2, H3, H4, H5, H6. tauto.
  - intros (p1 & p2 & p3 & p4 & p5 & p6 & -> & H1 & H2 & H3 & H4 & H5 & H6). apply vector_iff in H2, H3, H4, H5, H6.
    do 3 eexists. split; [reflexivity|]. split; [exact H1|]. do 3 eexists. split; [reflexivity|]. split; [exact H2|]. do 3 eexists. split; [reflexivity|]. split; [exact H3|].
    do 3 eexists. split; [reflexivity|]. split; [exact H4|]. do 3 eexists. split; [reflexivity|]. split; [exact H5|].
    exists (p_b_g2 p), p6, []. rewrite app_nil_r. split; auto. split; [exact H6|]. split; auto. now destruct p.
Qed.

(** *** What the writers write *)
Definition proof_encoding (p : Proof_ E) : list byte := to_bytes B1 (proof_a p) ++ to_bytes B2 (proof_b p) ++ to_bytes B1 (proof_c p).
Definition vector_encoding {M : FMod P} (B : GroupBytes M) (xs : list M) : list byte :=
  u32_be (Z.of_nat (length xs) mod 2 ^ 32) ++ flat_map (to_uncompressed B) xs.
Definition vk_encoding (vk : VerifyingKey E) : list byte :=
  to_uncompressed B1 (alpha_g1 vk) ++ to_uncompressed B1 (beta_g1 vk) ++ to_uncompressed B2 (beta_g2 vk) ++ to_uncompressed B2 (gamma_g2 vk)
    ++ to_uncompressed B1 (delta_g1 vk) ++ to_uncompressed B2 (delta_g2 vk) ++ vector_encoding B1 (ic vk).
Definition params_encoding (p : Parameters E) : list byte :=
  vk_encoding (p_vk p) ++ vector_encoding B1 (p_h p) ++ vector_encoding B1 (p_l p) ++ vector_encoding B1 (p_a p) ++ vector_encoding B1 (p_b_g1 p) ++ vector_encoding B2 (p_b_g2 p).

Lemma proof_write_eq p w : proof_write B1 B2 p w = write_all w (proof_encoding p).
Proof.
  unfold proof_write, proof_encoding. apply wthen_write. intros. apply wthen_write. intros. rewrite (wthen_write _ _ _ []) by (intros; now rewrite write_all_nil). now rewrite app_nil_r.
Qed.
Lemma vk_write_eq vk w : vk_write B1 B2 vk w = write_all w (vk_encoding vk).
Proof. unfold vk_write, vk_encoding. do 7 (apply wthen_write; intros). apply write_each_eq. Qed.
Lemma params_write_eq p w : params_write B1 B2 p w = write_all w (params_encoding p).
Proof.
  unfold params_write, params_encoding. rewrite vk_write_eq. apply wthen_write. intros. rewrite write_vec_eq. apply wthen_write. intros. rewrite write_vec_eq. apply wthen_write. intros.
  rewrite write_vec_eq. apply wthen_write. intros. rewrite write_vec_eq. apply wthen_write. intros. apply write_vec_eq.
Qed.

Lemma own_vector {M : FMod P} (B : GroupBytes M) xs checked : (Z.of_nat (length xs) < 2 ^ 32)%Z -> Forall (fun x => x <> gzero) xs ->
  vector_bytes (uncompressed_len B) (point_decoder B checked) (vector_encoding B xs) xs.
Proof.
  intros HL HN. apply vector_iff. apply decode_vector; auto. eapply Forall_impl; [|exact HN]. intros x Hx. split; [apply to_uncompressed_length|]. split; auto.
  destruct checked; cbn; [apply from_to_uncompressed|apply from_to_uncompressed_unchecked].
Qed.
Lemma own_proof p : proof_a p <> gzero -> proof_b p <> gzero -> proof_c p <> gzero -> proof_bytes (proof_encoding p) p.
Proof.
  intros. exists (to_bytes B1 (proof_a p)), (to_bytes B2 (proof_b p)), (to_bytes B1 (proof_c p)). rewrite !to_bytes_length, !from_to_bytes. repeat split; auto.
Qed.
Lemma own_vk vk : (Z.of_nat (length (ic vk)) < 2 ^ 32)%Z -> Forall (fun x => x <> gzero) (ic vk) -> vk_bytes (vk_encoding vk) vk.
Proof.
  intros HL HN. unfold vk_encoding. do 7 eexists. split; [reflexivity|]. rewrite !to_uncompressed_length, !from_to_uncompressed. repeat (split; auto).
  now apply (own_vector B1 (ic vk) true).
Qed.
Lemma own_params checked p : (Z.of_nat (length (ic (p_vk p))) < 2 ^ 32)%Z -> Forall (fun x => x <> gzero) (ic (p_vk p)) ->
  Forall (fun v => (Z.of_nat (length v) < 2 ^ 32)%Z /\ Forall (fun x => x <> gzero) v) [p_h p; p_l p; p_a p; p_b_g1 p] ->
  (Z.of_nat (length (p_b_g2 p)) < 2 ^ 32)%Z -> Forall (fun x => x <> gzero) (p_b_g2 p) ->
  params_bytes checked (params_encoding p) p.
Proof.
  intros H1 H2 HF H3 H4. inversion HF as [|? ? [F1 G1'] HF1]; subst. inversion HF1 as [|? ? [F2 G2'] HF2]; subst. inversion HF2 as [|? ? [F3 G3] HF3]; subst. inversion HF3 as [|? ? [F4 G4] _]; subst.
  unfold params_encoding. do 6 eexists. split; [reflexivity|]. split; [now apply own_vk|]. repeat split; now apply own_vector.
Qed.
End Formats.

(** ** C43 *)
Section C43.
Context {P : PrimeField} {E : Engine P} (B1 : GroupBytes (E_G1 E)) (B2 : GroupBytes (E_G2 E)).

(** Writing to an unlimited writer appends the three encodings; a limited one is an error exactly if they do not fit. *)
Theorem C43_write (p : Proof_ E) bs :
  proof_write B1 B2 p (mkWriter bs None) = (mkWriter (bs ++ to_bytes B1 (proof_a p) ++ to_bytes B2 (proof_b p) ++ to_bytes B1 (proof_c p)) None, Ok tt) /\
  forall n, (exists w, proof_write B1 B2 p (mkWriter bs (Some n)) = (w, Ok tt)) <-> repr_len B1 + repr_len B2 + repr_len B1 <= n.
Proof.
  split; [now rewrite proof_write_eq|]. intros n. rewrite proof_write_eq. unfold write_all, proof_encoding. cbn [room]. rewrite !app_length, !to_bytes_length.
  destruct (Nat.leb_spec (repr_len B1 + (repr_len B2 + repr_len B1)) n); split; try lia; eauto. intros [w Hw]. discriminate.
Qed.

Theorem C43_roundtrip (p : Proof_ E) rest k :
  proof_a p <> gzero -> proof_b p <> gzero -> proof_c p <> gzero ->
  proof_read B1 B2 (mkReader (written (fst (proof_write B1 B2 p (mkWriter [] None))) ++ rest) k) = Ok (p, mkReader rest k).
Proof.
  intros Ha Hb Hc. rewrite proof_write_eq. cbn [fst write_all room written app]. apply (spec_complete _ _ (proof_read_spec B1 B2)). now apply own_proof.
Qed.

(** Exactly what is read, from any bytes. *)
Theorem C43_reads_iff bs k (p : Proof_ E) r :
  proof_read B1 B2 (mkReader bs k) = Ok (p, r) <-> exists pre rest, r = mkReader rest k /\ bs = pre ++ rest /\ proof_bytes B1 B2 pre p.
Proof.
  split; [apply (spec_sound _ _ (proof_read_spec B1 B2))|]. intros (pre & rest & -> & -> & H). now apply (spec_complete _ _ (proof_read_spec B1 B2)).
Qed.

Theorem C43_truncated (p : Proof_ E) bs more k :
  written (fst (proof_write B1 B2 p (mkWriter [] None))) = bs ++ more -> more <> [] ->
  exists e, proof_read B1 B2 (mkReader bs k) = Err e.
Proof.
  rewrite proof_write_eq. cbn [fst write_all room written app]. intros H N. destruct (proof_read B1 B2 (mkReader bs k)) as [[q r]|e] eqn:Er; [|eauto]. exfalso.
  apply C43_reads_iff in Er as (pre & rest & -> & -> & (a & b & c & -> & A1 & A2 & A3 & _)).
  apply (f_equal (@length byte)) in H. unfold proof_encoding in H. rewrite !app_length, !to_bytes_length, A1, A2, A3 in H. destruct more; [congruence|]. cbn in H. lia.
Qed.

(** An undecodable element, or the identity, is an error; so a proof containing the identity does not survive a round trip. *)
Theorem C43_rejects a b c rest k :
  length a = repr_len B1 -> length b = repr_len B2 -> length c = repr_len B1 ->
  (from_bytes B1 a = None \/ from_bytes B1 a = Some gzero) \/ (from_bytes B2 b = None \/ from_bytes B2 b = Some gzero) \/ (from_bytes B1 c = None \/ from_bytes B1 c = Some gzero) ->
  proof_read B1 B2 (mkReader (a ++ b ++ c ++ rest) k) = Err InvalidData.
Proof.
  intros La Lb Lc H.
  assert (X : forall (M : FMod P) (B : GroupBytes M) x rest k, length x = repr_len B ->
    read_compressed B (mkReader (x ++ rest) k) = match from_bytes B x with Some g => if is_identity g then Err InvalidData else Ok (g, mkReader rest k) | None => Err InvalidData end).
  { clear. intros M B x rest k L. unfold read_compressed, read_exact. cbn [data at_end]. rewrite app_length. destruct (Nat.ltb_spec (length x + length rest) (repr_len B)); [lia|].
    cbn [dbind]. rewrite <- L, firstn_app, skipn_app, Nat.sub_diag, firstn_all, skipn_all, firstn_O, app_nil_r. cbn [skipn app]. unfold with_reader, non_identity, decoded.
    destruct (from_bytes B x) as [g|]; auto. now destruct (is_identity g). }
  assert (Z : forall (M : FMod P), is_identity (gzero : M) = true) by (intros M; unfold is_identity; destruct (geqb_spec (gzero : M) gzero); congruence).
  unfold proof_read. rewrite X by auto.
  destruct (from_bytes B1 a) as [ga|]; [|reflexivity]. destruct (is_identity ga) eqn:Ia; [reflexivity|]. cbn [dbind]. rewrite X by auto.
  destruct (from_bytes B2 b) as [gb|]; [|reflexivity]. destruct (is_identity gb) eqn:Ib; [reflexivity|]. cbn [dbind]. rewrite X by auto.
  destruct (from_bytes B1 c) as [gc|]; [|reflexivity]. destruct (is_identity gc) eqn:Ic; [reflexivity|]. exfalso.
  destruct H as [[H|H]|[[H|H]|[H|H]]]; try discriminate; injection H as ->; rewrite Z in *; discriminate.
Qed.

(** The only errors are [InvalidData] and that of the reader running out. *)
Theorem C43_errors bs k e : proof_read B1 B2 (mkReader bs k) = Err e -> e = k \/ e = InvalidData.
Proof. apply (spec_errors _ _ (proof_read_spec B1 B2)). Qed.
End C43.
Print Assumptions C43_write.
Print Assumptions C43_roundtrip.
Print Assumptions C43_reads_iff.
Print Assumptions C43_truncated.
Print Assumptions C43_rejects.
Print Assumptions C43_errors.

(** ** C44 *)
Section C44.
Context {P : PrimeField} {E : Engine P} (B1 : GroupBytes (E_G1 E)) (B2 : GroupBytes (E_G2 E)).

Theorem C44_roundtrip (vk : VerifyingKey E) rest k :
  (Z.of_nat (length (ic vk)) < 2 ^ 32)%Z -> Forall (fun x => x <> gzero) (ic vk) ->
  vk_read B1 B2 (mkReader (written (fst (vk_write B1 B2 vk (mkWriter [] None))) ++ rest) k) = Ok (vk, mkReader rest k).
Proof. intros HL HN. rewrite vk_write_eq. cbn [fst write_all room written app]. apply (spec_complete _ _ (vk_read_spec B1 B2)). now apply own_vk. Qed.

Theorem C44_reads_iff bs k (vk : VerifyingKey E) r :
  vk_read B1 B2 (mkReader bs k) = Ok (vk, r) <-> exists pre rest, r = mkReader rest k /\ bs = pre ++ rest /\ vk_bytes B1 B2 pre vk.
Proof. split; [apply (spec_sound _ _ (vk_read_spec B1 B2))|]. intros (pre & rest & -> & -> & H). now apply (spec_complete _ _ (vk_read_spec B1 B2)). Qed.

Theorem C44_truncated (vk : VerifyingKey E) bs more k :
  (Z.of_nat (length (ic vk)) < 2 ^ 32)%Z -> Forall (fun x => x <> gzero) (ic vk) ->
  written (fst (vk_write B1 B2 vk (mkWriter [] None))) = bs ++ more -> more <> [] -> vk_read B1 B2 (mkReader bs k) = Err k.
Proof.
  intros HL HN. rewrite vk_write_eq. cbn [fst write_all room written app]. intros H N. apply (spec_short _ _ (vk_read_spec B1 B2) bs more vk k); auto. rewrite <- H. now apply own_vk.
Qed.

(** No key is read with an identity among its [ic]; in particular not the one that was written. *)
Theorem C44_no_identity bs k (vk : VerifyingKey E) r : vk_read B1 B2 (mkReader bs k) = Ok (vk, r) -> Forall (fun x => x <> gzero) (ic vk).
Proof.
  intros H. apply C44_reads_iff in H as (pre & rest & _ & _ & (a & b1 & b2 & g & d1 & d2 & v & _ & _ & _ & _ & _ & _ & _ & (cs & es & _ & _ & He))).
  induction He; constructor; auto.
Qed.

Theorem C44_errors bs k e : vk_read B1 B2 (mkReader bs k) = Err e -> e = k \/ e = InvalidData.
Proof. apply (spec_errors _ _ (vk_read_spec B1 B2)). Qed.

(** The length is written modulo 2^32: of a longer [ic] only the first elements come back, and the others are left unread. *)
Theorem C44_length_wraps (vk : VerifyingKey E) rest k :
  Forall (fun x => x <> gzero) (ic vk) ->
  let n := Z.to_nat (Z.of_nat (length (ic vk)) mod 2 ^ 32) in
  vk_read B1 B2 (mkReader (written (fst (vk_write B1 B2 vk (mkWriter [] None))) ++ rest) k) =
  Ok (mkVK (alpha_g1 vk) (beta_g1 vk) (beta_g2 vk) (gamma_g2 vk) (delta_g1 vk) (delta_g2 vk) (firstn n (ic vk)),
      mkReader (flat_map (to_uncompressed B1) (skipn n (ic vk)) ++ rest) k).
Proof.
  intros HN n. rewrite vk_write_eq. cbn [fst write_all room written app].
  set (vk' := mkVK (alpha_g1 vk) (beta_g1 vk) (beta_g2 vk) (gamma_g2 vk) (delta_g1 vk) (delta_g2 vk) (firstn n (ic vk))).
  pose proof (Z.mod_pos_bound (Z.of_nat (length (ic vk))) (2 ^ 32) eq_refl) as Hb.
  assert (Hle : (Z.of_nat (length (ic vk)) mod 2 ^ 32 <= Z.of_nat (length (ic vk)))%Z) by (apply Z.mod_le; lia).
  assert (Hlen : length (ic vk') = n) by (cbn [vk' ic]; rewrite firstn_length; unfold n; lia).
  replace (vk_encoding B1 B2 vk ++ rest) with (vk_encoding B1 B2 vk' ++ (flat_map (to_uncompressed B1) (skipn n (ic vk)) ++ rest)).
  - apply (spec_complete _ _ (vk_read_spec B1 B2)). apply own_vk; [unfold n in Hlen; lia|]. cbn [vk' ic].
    rewrite <- (firstn_skipn n (ic vk)) in HN. now apply Forall_app in HN as [HN _].
  - unfold vk_encoding. rewrite <- !app_assoc. cbn [vk' alpha_g1 beta_g1 beta_g2 gamma_g2 delta_g1 delta_g2 ic]. do 6 f_equal. unfold vector_encoding. cbn [vk' ic] in Hlen. rewrite Hlen.
    rewrite <- !app_assoc. unfold n at 1. rewrite Z2Nat.id, Z.mod_mod by lia. f_equal. rewrite app_assoc, <- flat_map_app, firstn_skipn. reflexivity.
Qed.
End C44.
Print Assumptions C44_roundtrip.
Print Assumptions C44_reads_iff.
Print Assumptions C44_truncated.
Print Assumptions C44_no_identity.
Print Assumptions C44_errors.
Print Assumptions C44_length_wraps.

(** ** C45 *)
Section C45.
Context {P : PrimeField} {E : Engine P} (B1 : GroupBytes (E_G1 E)) (B2 : GroupBytes (E_G2 E)).

(** Vectors short enough for their length to be written, without the identity: true of generated parameters up to their size. *)
Definition storable {M : FMod P} (v : list M) : Prop := (Z.of_nat (length v) < 2 ^ 32)%Z /\ Forall (fun x => x <> gzero) v.
Definition storable_params (p : Parameters E) : Prop :=
  storable (ic (p_vk p)) /\ storable (p_h p) /\ storable (p_l p) /\ storable (p_a p) /\ storable (p_b_g1 p) /\ storable (p_b_g2 p).

Theorem C45_roundtrip (p : Parameters E) checked rest k : storable_params p ->
  params_read B1 B2 checked (mkReader (written (fst (params_write B1 B2 p (mkWriter [] None))) ++ rest) k) = Ok (p, mkReader rest k).
Proof.
  intros ([H1 H2] & H3 & H4 & H5 & H6 & [H7 H8]). rewrite params_write_eq. cbn [fst write_all room written app].
  apply (spec_complete _ _ (params_read_spec B1 B2 checked)). apply own_params; auto.
Qed.

Theorem C45_reads_iff checked bs k (p : Parameters E) r :
  params_read B1 B2 checked (mkReader bs k) = Ok (p, r) <-> exists pre rest, r = mkReader rest k /\ bs = pre ++ rest /\ params_bytes B1 B2 checked pre p.
Proof. split; [apply (spec_sound _ _ (params_read_spec B1 B2 checked))|]. intros (pre & rest & -> & -> & H). now apply (spec_complete _ _ (params_read_spec B1 B2 checked)). Qed.

Theorem C45_truncated (p : Parameters E) checked bs more k : storable_params p ->
  written (fst (params_write B1 B2 p (mkWriter [] None))) = bs ++ more -> more <> [] -> params_read B1 B2 checked (mkReader bs k) = Err k.
Proof.
  intros ([H1 H2] & H3 & H4 & H5 & H6 & [H7 H8]). rewrite params_write_eq. cbn [fst write_all room written app]. intros H N.
  apply (spec_short _ _ (params_read_spec B1 B2 checked) bs more p k); auto. rewrite <- H. apply own_params; auto.
Qed.

Theorem C45_no_identity checked bs k (p : Parameters E) r : params_read B1 B2 checked (mkReader bs k) = Ok (p, r) ->
  Forall (fun x => x <> gzero) (ic (p_vk p)) /\ Forall (fun x => x <> gzero) (p_h p) /\ Forall (fun x => x <> gzero) (p_l p) /\
  Forall (fun x => x <> gzero) (p_a p) /\ Forall (fun x => x <> gzero) (p_b_g1 p) /\ Forall (fun x => x <> gzero) (p_b_g2 p).
Proof.
  assert (X : forall (M : FMod P) len (dec : list byte -> option M) bs xs, vector_bytes len dec bs xs -> Forall (fun x => x <> gzero) xs).
  { intros M len dec bs' xs (cs & es & _ & _ & He). induction He; constructor; auto. }
  intros H. apply C45_reads_iff in H as (pre & rest & _ & _ & (v & h & l & a & b1 & b2 & _ & (? & ? & ? & ? & ? & ? & ? & _ & _ & _ & _ & _ & _ & _ & V0) & V1 & V2 & V3 & V4 & V5)).
  apply X in V0, V1, V2, V3, V4, V5. repeat split; assumption.
Qed.

Theorem C45_errors checked bs k e : params_read B1 B2 checked (mkReader bs k) = Err e -> e = k \/ e = InvalidData.
Proof. apply (spec_errors _ _ (params_read_spec B1 B2 checked)). Qed.

(** Whatever a checked read returns an unchecked read returns too, if the unchecked decoding of a point extends the checked one. *)
Theorem C45_unchecked_extends bs k (p : Parameters E) r :
  (forall b x, from_uncompressed B1 b = Some x -> from_uncompressed_unchecked B1 b = Some x) ->
  (forall b x, from_uncompressed B2 b = Some x -> from_uncompressed_unchecked B2 b = Some x) ->
  params_read B1 B2 true (mkReader bs k) = Ok (p, r) -> params_read B1 B2 false (mkReader bs k) = Ok (p, r).
Proof.
  intros U1 U2 H. apply C45_reads_iff in H as (pre & rest & -> & -> & (v & h & l & a & b1 & b2 & -> & V & V1 & V2 & V3 & V4 & V5)).
  apply C45_reads_iff. exists (v ++ h ++ l ++ a ++ b1 ++ b2), rest. split; auto. split; auto. exists v, h, l, a, b1, b2. split; auto. split; auto.
  assert (X : forall (M : FMod P) (B : GroupBytes M) (U : forall b x, from_uncompressed B b = Some x -> from_uncompressed_unchecked B b = Some x) bs xs,
    vector_bytes (uncompressed_len B) (point_decoder B true) bs xs -> vector_bytes (uncompressed_len B) (point_decoder B false) bs xs).
  { clear. intros M B U bs xs (cs & es & -> & Hc & He). exists cs, es. split; auto. split; auto. clear Hc. induction He; constructor; auto. now apply U. }
  repeat split; auto.
Qed.
End C45.
Print Assumptions C45_roundtrip.
Print Assumptions C45_reads_iff.
Print Assumptions C45_truncated.
Print Assumptions C45_no_identity.
Print Assumptions C45_errors.
Print Assumptions C45_unchecked_extends.

(** ** A concrete encoding: elements of the 64513-element test group as 4 (compressed) or 5 (uncompressed) bytes *)
Definition decode_64513 (bs : list byte) : option (ScalarMod Fr64513) :=
  let v := be_value bs in if (v <? 64513)%Z then Some (ofZ v : ScalarMod Fr64513) else None.
Lemma decode_encode (x : ScalarMod Fr64513) : decode_64513 (u32_be (toZ (x : Fr64513))) = Some x.
Proof.
  pose proof (toZ_range Fr64513 x) as H. change (modulus Fr64513) with 64513%Z in H. unfold decode_64513. rewrite be_u32 by lia.
  destruct (Z.ltb_spec (toZ (x : Fr64513)) 64513); [|lia]. f_equal. apply ofZ_toZ.
Qed.
Definition bytes_64513 : GroupBytes (ScalarMod Fr64513).
Proof.
  refine (@Build_GroupBytes Fr64513 (ScalarMod Fr64513) 4 (fun x => u32_be (toZ (x : Fr64513))) decode_64513 _ decode_encode
            5 (fun x => x04 :: u32_be (toZ (x : Fr64513))) (fun bs => decode_64513 (skipn 1 bs)) (fun bs => decode_64513 (skipn 1 bs)) _ _ _);
    try reflexivity; intros x; apply decode_encode.
Defined.

Definition c43_proof (a b c : Z) : Proof_ (DummyEngine Fr64513) := mkProof (E := DummyEngine Fr64513) (ofZ a) (ofZ b) (ofZ c).
Definition c43_outcome {A} (f : A -> list Z) (x : io (A * reader)) : (list Z * list byte) + io_kind :=
  match x with Ok (p, r) => inl (f p, data r) | Err k => inr k end.
Definition c43_show (p : Proof_ (DummyEngine Fr64513)) : list Z := [toZ (proof_a p : Fr64513); toZ (proof_b p : Fr64513); toZ (proof_c p : Fr64513)].
Definition c43_file p := written (fst (proof_write (E := DummyEngine Fr64513) bytes_64513 bytes_64513 p (mkWriter [] None))).
Definition c43_read bs := c43_outcome c43_show (proof_read (E := DummyEngine Fr64513) bytes_64513 bytes_64513 (mkReader bs UnexpectedEof)).
Example C43_ex :
  c43_read (c43_file (c43_proof 7 300 64512) ++ [xff; x01]) = inl ([7; 300; 64512]%Z, [xff; x01]) /\
  c43_read (firstn 11 (c43_file (c43_proof 7 300 64512))) = inr UnexpectedEof /\
  c43_read (c43_file (c43_proof 7 0 64512)) = inr InvalidData /\
  c43_read ([xff; xff; xff; xff] ++ c43_file (c43_proof 7 300 64512)) = inr InvalidData.
Proof. vm_compute. repeat split. Qed.

Definition c44_vk (ics : list Z) : VerifyingKey (DummyEngine Fr64513) :=
  mkVK (E := DummyEngine Fr64513) (ofZ 3) (ofZ 5) (ofZ 5) (ofZ 0) (ofZ 11) (ofZ 11) (map (fun x => ofZ x : ScalarMod Fr64513) ics).
Definition c44_file vk := written (fst (vk_write (E := DummyEngine Fr64513) bytes_64513 bytes_64513 vk (mkWriter [] None))).
Definition c44_read bs := c43_outcome (fun vk : VerifyingKey (DummyEngine Fr64513) => toZ (gamma_g2 vk : Fr64513) :: map (fun x : ScalarMod Fr64513 => toZ (x : Fr64513)) (ic vk))
  (vk_read (E := DummyEngine Fr64513) bytes_64513 bytes_64513 (mkReader bs UnexpectedEof)).
(** (The identity is accepted as [gamma_g2].) *)
Example C44_ex :
  c44_read (c44_file (c44_vk [8; 9; 10]%Z) ++ [x07]) = inl ([0; 8; 9; 10]%Z, [x07]) /\
  c44_read (firstn 48 (c44_file (c44_vk [8; 9; 10]%Z))) = inr UnexpectedEof /\
  c44_read (c44_file (c44_vk [8; 0; 10]%Z)) = inr InvalidData.
Proof. vm_compute. repeat split. Qed.

Definition c45_params (l : list Z) : Parameters (DummyEngine Fr64513) :=
  let v := map (fun x => ofZ x : ScalarMod Fr64513) in
  mkParams (E := DummyEngine Fr64513) (c44_vk [8; 9]%Z) (v [1; 2]%Z) (v l) (v []) (v [4]%Z) (v [5; 6; 7]%Z).
Definition c45_file p := written (fst (params_write (E := DummyEngine Fr64513) bytes_64513 bytes_64513 p (mkWriter [] None))).
Definition c45_read checked bs := c43_outcome (fun p : Parameters (DummyEngine Fr64513) => map (fun x : ScalarMod Fr64513 => toZ (x : Fr64513)) (p_l p ++ p_b_g2 p))
  (params_read (E := DummyEngine Fr64513) bytes_64513 bytes_64513 checked (mkReader bs UnexpectedEof)).
Example C45_ex :
  c45_read true (c45_file (c45_params [12; 13]%Z)) = inl ([12; 13; 5; 6; 7]%Z, []) /\
  c45_read false (c45_file (c45_params [12; 13]%Z) ++ [x01]) = inl ([12; 13; 5; 6; 7]%Z, [x01]) /\
  c45_read false (c45_file (c45_params [12; 0]%Z)) = inr InvalidData /\
  c45_read true (firstn 100 (c45_file (c45_params [12; 13]%Z))) = inr UnexpectedEof.
Proof. vm_compute. repeat split. Qed.
