(** Compositional facts about readers and writers. *)
From Coq Require Import ZArith List Bool Lia.
From Coq Require Import Strings.Byte.
From Verif Require Import Prelude PrimeField FModule Groth16 Encoding.
Import ListNotations.
Local Open Scope nat_scope.

(** ** Writers *)
Lemma write_all_nil w : write_all w [] = (w, Ok tt).
Proof. destruct w as [bs [n|]]; unfold write_all; cbn; rewrite ?app_nil_r, ?Nat.sub_0_r; reflexivity. Qed.
Lemma write_all_app w a b : wthen (write_all w a) (fun w => write_all w b) = write_all w (a ++ b).
Proof.
  destruct w as [bs [n|]]; unfold write_all; cbn [room written wthen].
  - rewrite app_length. destruct (Nat.leb_spec (length a) n) as [H|H]; cbn [wthen room written].
    + destruct (Nat.leb_spec (length b) (n - length a)); destruct (Nat.leb_spec (length a + length b) n); try lia.
      * do 2 f_equal; [now rewrite app_assoc|]. f_equal. lia.
      * do 2 f_equal. rewrite <- app_assoc, firstn_app, (firstn_all2 a) by lia. reflexivity.
    + destruct (Nat.leb_spec (length a + length b) n); [lia|]. do 2 f_equal. rewrite firstn_app. replace (n - length a) with 0 by lia. now rewrite firstn_O, app_nil_r.
  - cbn. now rewrite app_assoc.
Qed.
Lemma wthen_ext x f g : (forall w, f w = g w) -> wthen x f = wthen x g.
Proof. intros H. destruct x as [w [[]|]]; cbn; auto. Qed.
Lemma wthen_write w a f b : (forall w, f w = write_all w b) -> wthen (write_all w a) f = write_all w (a ++ b).
Proof. intros H. rewrite (wthen_ext _ _ _ H). apply write_all_app. Qed.

(** ** Readers *)
Record Spec {A} (p : reader -> io (A * reader)) (R : list byte -> A -> Prop) : Prop := {
  spec_sound : forall bs k a r, p (mkReader bs k) = Ok (a, r) -> exists pre rest, r = mkReader rest k /\ bs = pre ++ rest /\ R pre a;
  spec_complete : forall pre a rest k, R pre a -> p (mkReader (pre ++ rest) k) = Ok (a, mkReader rest k);
  spec_short : forall bs more a k, R (bs ++ more) a -> more <> [] -> p (mkReader bs k) = Err k;
  spec_errors : forall bs k e, p (mkReader bs k) = Err e -> e = k \/ e = InvalidData
}.

Lemma Spec_iff {A} (p : reader -> io (A * reader)) R R' : (forall bs a, R bs a <-> R' bs a) -> Spec p R -> Spec p R'.
Proof.
  intros H [S1 S2 S3 S4]. split; auto.
  - intros bs k a r Hr. destruct (S1 _ _ _ _ Hr) as (pre & rest & ? & ? & ?). exists pre, rest. repeat split; auto. now apply H.
  - intros. apply S2. now apply H.
  - intros bs more a k Hr. apply (S3 bs more a k). now apply H.
Qed.
Lemma Spec_ext {A} (p q : reader -> io (A * reader)) R : (forall r, p r = q r) -> Spec p R -> Spec q R.
Proof.
  intros H [S1 S2 S3 S4]. split; intros.
  - apply (S1 bs k); now rewrite H.
  - rewrite <- H; auto.
  - rewrite <- H; eauto.
  - apply (S4 bs); now rewrite H.
Qed.

Lemma Spec_ret {A} (a : A) : Spec (fun r => Ok (a, r)) (fun pre x => pre = [] /\ x = a).
Proof.
  split; try discriminate.
  - intros bs k x r [= <- <-]. exists [], bs. auto.
  - intros pre x rest k [-> ->]. reflexivity.
  - intros bs more x k [H _] N. apply app_eq_nil in H as [_ H]. contradiction.
Qed.

Lemma Spec_exact {A} n (f : list byte -> io A) : (forall bs e, f bs = Err e -> e = InvalidData) ->
  Spec (fun r => dbind (read_exact n r) (fun bs r => with_reader r (f bs))) (fun pre a => length pre = n /\ f pre = Ok a).
Proof.
  intros Hf. split; unfold read_exact; cbn [data at_end].
  - intros bs k a r. destruct (Nat.ltb_spec (length bs) n) as [|H]; [discriminate|]. cbn [dbind]. unfold with_reader.
    destruct (f (firstn n bs)) as [x|] eqn:Ef; [|discriminate]. intros [= <- <-]. exists (firstn n bs), (skipn n bs).
    rewrite firstn_skipn, firstn_length. repeat split; auto. lia.
  - intros pre a rest k [HL Ha]. rewrite app_length. destruct (Nat.ltb_spec (length pre + length rest) n); [lia|]. cbn [dbind].
    subst n. rewrite firstn_app, skipn_app, Nat.sub_diag, firstn_all, skipn_all, firstn_O, app_nil_r. cbn [skipn app]. unfold with_reader. now rewrite Ha.
  - intros bs more a k [HL Ha] N. rewrite app_length in HL. destruct more; [congruence|]. cbn in HL. destruct (Nat.ltb_spec (length bs) n); [reflexivity|lia].
  - intros bs k e. destruct (Nat.ltb_spec (length bs) n); cbn [dbind]; [intros [= <-]; auto|]. unfold with_reader. destruct (f _) eqn:Ef; [discriminate|].
    intros [= <-]. right. eapply Hf; eauto.
Qed.

Lemma app_split {A} (a b c d : list A) : a ++ b = c ++ d -> (exists l, c = a ++ l /\ b = l ++ d) \/ (exists l, l <> [] /\ a = c ++ l /\ d = l ++ b).
Proof.
  revert c. induction a as [|x a IH]; intros [|y c] H; cbn in *.
  - left. exists []. auto.
  - left. exists (y :: c). auto.
  - right. exists (x :: a). repeat split; auto. discriminate.
  - injection H as <- H. destruct (IH c H) as [(l & -> & ->)|(l & N & -> & ->)]; [left|right]; exists l; auto.
Qed.

Lemma Spec_bind {A B} (p : reader -> io (A * reader)) (q : A -> reader -> io (B * reader)) R R' : Spec p R -> (forall a, Spec (q a) (R' a)) ->
  Spec (fun r => dbind (p r) q) (fun pre b => exists a p1 p2, pre = p1 ++ p2 /\ R p1 a /\ R' a p2 b).
Proof.
  intros Sp Sq. split.
  - intros bs k b r H. unfold dbind in H. destruct (p (mkReader bs k)) as [[a r1]|] eqn:Ep; [|discriminate].
    destruct (spec_sound _ _ Sp _ _ _ _ Ep) as (p1 & rest1 & -> & -> & H1). destruct (spec_sound _ _ (Sq a) _ _ _ _ H) as (p2 & rest & -> & -> & H2).
    exists (p1 ++ p2), rest. rewrite app_assoc. repeat split; auto. exists a, p1, p2. auto.
  - intros pre b rest k (a & p1 & p2 & -> & H1 & H2). rewrite <- app_assoc. unfold dbind. rewrite (spec_complete _ _ Sp _ _ _ _ H1).
    now apply (spec_complete _ _ (Sq a)).
  - intros bs more b k (a & p1 & p2 & E & H1 & H2) N. apply app_split in E as [(l & -> & ->)|(l & N' & -> & ->)].
    + destruct l as [|x l].
      * rewrite app_nil_r in H1. unfold dbind. rewrite <- (app_nil_r bs) at 1. rewrite (spec_complete _ _ Sp _ _ _ _ H1). apply (spec_short _ _ (Sq a) [] p2 b); auto.
      * unfold dbind. rewrite (spec_short _ _ Sp bs (x :: l) a k); auto. discriminate.
    + unfold dbind. rewrite (spec_complete _ _ Sp _ _ _ _ H1). now apply (spec_short _ _ (Sq a) l more b).
  - intros bs k e H. unfold dbind in H. destruct (p (mkReader bs k)) as [[a r1]|] eqn:Ep.
    + destruct (spec_sound _ _ Sp _ _ _ _ Ep) as (p1 & rest1 & -> & -> & H1). eapply (spec_errors _ _ (Sq a)); eauto.
    + injection H as <-. eapply (spec_errors _ _ Sp); eauto.
Qed.

(** ** Integers *)
Lemma to_N_byte_of_Z x : Z.of_N (to_N (byte_of_Z x)) = (x mod 256)%Z.
Proof.
  unfold byte_of_Z. pose proof (Z.mod_pos_bound x 256 eq_refl) as H. destruct (of_N (Z.to_N (x mod 256))) as [b|] eqn:Eb.
  - apply to_of_N in Eb. rewrite Eb. apply Z2N.id. lia.
  - apply of_N_None_iff in Eb. lia.
Qed.
Lemma be_u32 x : (0 <= x < 2 ^ 32)%Z -> be_value (u32_be x) = x.
Proof.
  intros H. unfold be_value, u32_be. cbn [fold_left]. rewrite !to_N_byte_of_Z.
  change (2 ^ 24)%Z with 16777216%Z. change (2 ^ 16)%Z with 65536%Z. change (2 ^ 8)%Z with 256%Z. change (2 ^ 32)%Z with 4294967296%Z in H.
  assert (E1 : (x / 65536 = x / 256 / 256)%Z) by (rewrite Z.div_div by lia; reflexivity).
  assert (E2 : (x / 16777216 = x / 256 / 256 / 256)%Z) by (rewrite !Z.div_div by lia; reflexivity).
  rewrite E1, E2. pose proof (Z.div_mod x 256). pose proof (Z.div_mod (x / 256) 256). pose proof (Z.div_mod (x / 256 / 256) 256).
  assert ((x / 256 / 256 / 256) mod 256 = x / 256 / 256 / 256)%Z. { apply Z.mod_small. rewrite <- E2. split; [apply Z.div_pos; lia|apply Z.div_lt_upper_bound; lia]. }
  lia.
Qed.
Lemma be_value_nonneg bs : (0 <= be_value bs)%Z.
Proof.
  unfold be_value. assert (H : forall l a, (0 <= a)%Z -> (0 <= fold_left (fun acc b => acc * 256 + Z.of_N (to_N b)) l a)%Z).
  { induction l as [|b l IH]; intros a Ha; cbn; auto. apply IH. lia. }
  apply H. lia.
Qed.
Lemma Spec_u32 : Spec read_u32 (fun pre v => length pre = 4 /\ v = be_value pre).
Proof.
  eapply Spec_iff; [|apply (Spec_exact 4 (fun bs => Ok (be_value bs))); discriminate]. intros bs a. cbn beta. split; intros [H1 H2]; split; auto; congruence.
Qed.

Section Elements.
Context {P : PrimeField}.

Definition some_element {M : FMod P} (n : nat) (dec : list byte -> option M) (pre : list byte) (x : M) : Prop := length pre = n /\ dec pre = Some x.
Definition nonid_element {M : FMod P} (n : nat) (dec : list byte -> option M) (pre : list byte) (x : M) : Prop := length pre = n /\ dec pre = Some x /\ x <> gzero.

Lemma decoded_ok {M : FMod P} (o : option M) x : decoded o = Ok x <-> o = Some x.
Proof. destruct o; cbn; split; congruence. Qed.
Lemma decoded_err {M : FMod P} (o : option M) e : decoded o = Err e -> e = InvalidData.
Proof. destruct o; cbn; congruence. Qed.
Lemma non_identity_ok {M : FMod P} (o : option M) x : non_identity (decoded o) = Ok x <-> o = Some x /\ x <> gzero.
Proof.
  destruct o as [y|]; cbn; [|split; [discriminate|intros [? _]; discriminate]]. unfold is_identity.
  destruct (geqb_spec y gzero) as [->|N]; split; intros H; try discriminate; try (destruct H as [[= <-] ?]; auto; contradiction).
  injection H as <-. auto.
Qed.
Lemma non_identity_err {M : FMod P} (o : option M) e : non_identity (decoded o) = Err e -> e = InvalidData.
Proof. destruct o as [y|]; cbn; [|congruence]. destruct (is_identity y); congruence. Qed.

Lemma Spec_compressed {M : FMod P} (B : GroupBytes M) : Spec (read_compressed B) (nonid_element (repr_len B) (from_bytes B)).
Proof.
  eapply Spec_iff; [|apply (Spec_exact _ (fun bs => non_identity (decoded (from_bytes B bs)))); intros; eapply non_identity_err; eauto].
  intros bs a. cbn beta. unfold nonid_element. rewrite non_identity_ok. tauto.
Qed.
Lemma Spec_uncompressed {M : FMod P} (B : GroupBytes M) : Spec (read_uncompressed B) (some_element (uncompressed_len B) (from_uncompressed B)).
Proof.
  eapply Spec_iff; [|apply (Spec_exact _ (fun bs => decoded (from_uncompressed B bs))); intros; eapply decoded_err; eauto].
  intros bs a. cbn beta. unfold some_element. rewrite decoded_ok. tauto.
Qed.
Definition decoder {M : FMod P} (B : GroupBytes M) (checked : bool) := if checked then from_uncompressed B else from_uncompressed_unchecked B.
Lemma Spec_point {M : FMod P} (B : GroupBytes M) checked : Spec (read_point B checked) (nonid_element (uncompressed_len B) (decoder B checked)).
Proof.
  eapply Spec_iff; [|apply (Spec_exact _ (fun bs => non_identity (decoded (if checked then from_uncompressed B bs else from_uncompressed_unchecked B bs)))); intros; eapply non_identity_err; eauto].
  intros bs a. cbn beta. unfold nonid_element, decoder. rewrite non_identity_ok. destruct checked; tauto.
Qed.
Lemma Spec_ic {E : Engine P} (B : GroupBytes (E_G1 E)) : Spec (read_ic B) (nonid_element (uncompressed_len B) (from_uncompressed B)).
Proof.
  eapply Spec_ext; [|apply (Spec_point B true)]. intros r. unfold read_point, read_ic, read_uncompressed.
  destruct (read_exact (uncompressed_len B) r) as [[bs r']|]; cbn [dbind]; auto. unfold with_reader, decoded, non_identity.
  destruct (from_uncompressed B bs) as [x|]; auto. destruct (is_identity x); auto.
Qed.

Lemma Spec_each {M : FMod P} (p : reader -> io (M * reader)) R : Spec p R -> forall n acc,
  Spec (read_each p n acc) (fun pre l => exists bss xs, l = acc ++ xs /\ length xs = n /\ pre = concat bss /\ Forall2 R bss xs).
Proof.
  intros Sp. induction n as [|n IH]; intros acc.
  - eapply Spec_iff; [|apply Spec_ret]. intros pre l. cbn beta. split.
    + intros [-> ->]. exists [], []. rewrite app_nil_r. auto.
    + intros (bss & xs & -> & H & -> & F). destruct xs; [|discriminate]. inversion F; subst. rewrite app_nil_r. auto.
  - eapply Spec_iff; [|eapply Spec_bind; [exact Sp|intros a; exact (IH (acc ++ [a]))]]. intros pre l. cbn beta. split.
    + intros (x & p1 & p2 & -> & Hx & bss & xs & -> & Hl & -> & F). exists (p1 :: bss), (x :: xs). rewrite <- app_assoc. cbn. auto.
    + intros (bss & xs & -> & H & -> & F). destruct xs as [|x xs]; [discriminate|]. inversion F as [|b ? bss' ? Hb F']; subst.
      exists x, b, (concat bss'). split; auto. split; auto. exists bss', xs. rewrite <- app_assoc. cbn in *. auto.
Qed.

(** A vector: its length in four bytes, then its elements. *)
Definition vector {M : FMod P} (R : list byte -> M -> Prop) (pre : list byte) (xs : list M) : Prop :=
  exists count bss, pre = count ++ concat bss /\ length count = 4 /\ be_value count = Z.of_nat (length xs) /\ Forall2 R bss xs.
Lemma Spec_counted {M : FMod P} (p : reader -> io (M * reader)) R : Spec p R ->
  Spec (fun r => dbind (read_u32 r) (fun len r => read_each p (Z.to_nat len) [] r)) (vector R).
Proof.
  intros Sp. eapply Spec_iff; [|eapply Spec_bind; [apply Spec_u32|intros n; exact (Spec_each p R Sp (Z.to_nat n) [])]]. intros pre l. cbn beta. unfold vector. split.
  - intros (v & p1 & p2 & -> & [L ->] & bss & xs & -> & H & -> & F). exists p1, bss. cbn [app]. repeat split; auto. pose proof (be_value_nonneg p1). lia.
  - intros (c & bss & -> & Lc & Hc & F). exists (be_value c), c, (concat bss). repeat split; auto. exists bss, l. cbn [app]. repeat split; auto. lia.
Qed.
Lemma Spec_vec {M : FMod P} (B : GroupBytes M) checked : Spec (read_vec B checked) (vector (nonid_element (uncompressed_len B) (decoder B checked))).
Proof. apply Spec_counted, Spec_point. Qed.

(** ** Writing elements *)
Lemma write_each_eq {M : FMod P} (B : GroupBytes M) xs : forall w, write_each B xs w = write_all w (flat_map (to_uncompressed B) xs).
Proof. induction xs as [|x xs IH]; intros w; cbn [write_each flat_map]; [now rewrite write_all_nil|]. now apply wthen_write. Qed.
Lemma write_vec_eq {M : FMod P} (B : GroupBytes M) xs w : write_vec B xs w = write_all w (u32_be (as_u32 (length xs)) ++ flat_map (to_uncompressed B) xs).
Proof. unfold write_vec, write_u32. apply wthen_write. apply write_each_eq. Qed.

Lemma decode_vector {M : FMod P} (R : list byte -> M -> Prop) (enc : M -> list byte) xs :
  (Z.of_nat (length xs) < 2 ^ 32)%Z -> Forall (fun x => R (enc x) x) xs -> vector R (u32_be (as_u32 (length xs)) ++ flat_map enc xs) xs.
Proof.
  intros HL HR. exists (u32_be (as_u32 (length xs))), (map enc xs). rewrite flat_map_concat_map. split; auto. split; auto. split.
  - unfold as_u32. rewrite Z.mod_small by lia. apply be_u32. lia.
  - induction HR; cbn; constructor; auto. apply IHHR. cbn [length] in HL. lia.
Qed.
End Elements.
