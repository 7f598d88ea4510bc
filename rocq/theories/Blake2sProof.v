(** Proofs about the BLAKE2s gadget. *)
From Coq Require Import String.
From Coq Require Import ZArith List Bool Lia.
From Verif Require Import Prelude PrimeField Circuit Loops BooleanGadget NumGadget MultiEq UInt32 UInt32Proof Spec WordLogic Sha256Spec Sha256 Sha256Proof
  Blake2sSpec Blake2s.
Import ListNotations.
Local Open Scope nat_scope.

Lemma SIGMA_table : SIGMA = b2_SIGMA. Proof. reflexivity. Qed.
Lemma B_IV_table : B_IV = b2_IV. Proof. vm_compute. reflexivity. Qed.

Lemma Forall2_upd {A B} (R : A -> B -> Prop) l m i x y : Forall2 R l m -> R x y -> Forall2 R (upd i x l) (upd i y m).
Proof. intros H Hxy. revert i. induction H; intros [|i]; cbn; constructor; auto. Qed.

Section Body.
Context {P : PrimeField} (L : WL P).
Let W1 := Wd L.
Let V v z := Forall2 W1 v z /\ length v = 16.

Lemma wp_get {B} l zs i (k : UInt32 -> prog P (res B)) Q : V l zs -> i < 16 ->
  (forall w, W1 w (get zs i) -> wp L (k w) Q) -> wp L (idx l i k) Q.
Proof. intros [HF Hl] Hi H. eapply wp_idx; [exact HF|lia|exact H]. Qed.
Lemma V_upd v z i w x : V v z -> W1 w x -> V (upd i w v) (upd i x z).
Proof. intros [HF Hl] H. split; [now apply Forall2_upd|]. now rewrite upd_length. Qed.

Lemma set_add3_wp n v z i j x xz : V v z -> i < 16 -> j < 16 -> W1 x xz ->
  wp L (set_add3 n v i j x) (fun v' => V v' (upd i ((get z i + get z j + xz) mod 2 ^ 32)%Z z)).
Proof.
  intros HV Hi Hj Hx. unfold set_add3. eapply wp_get; [exact HV|exact Hi|]. intros vi Hvi.
  eapply wp_get; [exact HV|exact Hj|]. intros vj Hvj. eapply wp_bindq.
  - apply wp_ns, wp_add with (zs := [get z i; get z j; xz]); [cbn; lia|]. repeat (constructor; [eassumption|]). constructor.
  - cbv beta. intros t Ht. apply wp_ret. apply V_upd; [exact HV|]. replace (get z i + get z j + xz)%Z with (zsum [get z i; get z j; xz]); [exact Ht|].
    cbn [zsum]. ring.
Qed.
Lemma set_add2_wp n v z i j : V v z -> i < 16 -> j < 16 ->
  wp L (set_add2 n v i j) (fun v' => V v' (upd i ((get z i + get z j) mod 2 ^ 32)%Z z)).
Proof.
  intros HV Hi Hj. unfold set_add2. eapply wp_get; [exact HV|exact Hi|]. intros vi Hvi.
  eapply wp_get; [exact HV|exact Hj|]. intros vj Hvj. eapply wp_bindq.
  - apply wp_ns, wp_add with (zs := [get z i; get z j]); [cbn; lia|]. repeat (constructor; [eassumption|]). constructor.
  - cbv beta. intros t Ht. apply wp_ret. apply V_upd; [exact HV|]. replace (get z i + get z j)%Z with (zsum [get z i; get z j]); [exact Ht|].
    cbn [zsum]. ring.
Qed.
Lemma set_xor_wp n v z i j r : V v z -> i < 16 -> j < 16 -> r < 32 ->
  wp L (set_xor n v i j r) (fun v' => V v' (upd i (ROTR (Z.of_nat r) (Z.lxor (get z i) (get z j))) z)).
Proof.
  intros HV Hi Hj Hr. unfold set_xor. eapply wp_get; [exact HV|exact Hi|]. intros vi Hvi.
  eapply wp_get; [exact HV|exact Hj|]. intros vj Hvj. eapply wp_bindq.
  - apply wp_ns, wp_xor; eassumption.
  - cbv beta. intros t Ht. apply wp_ret. apply V_upd; [exact HV|].
    rewrite <- ROTR_rotr32 by (first [lia|exact (Wd_u32 L _ _ Ht)]). apply (Wd_rotr L); auto.
Qed.
Lemma mixing_wp v z a b c d x y xz yz : V v z -> a < 16 -> b < 16 -> c < 16 -> d < 16 -> W1 x xz -> W1 y yz ->
  wp L (mixing_g v (a, b, c, d) x y) (fun v' => V v' (b2_G z a b c d xz yz)).
Proof.
  intros HV Ha Hb Hc Hd Hx Hy. unfold mixing_g.
  eapply wp_bindq; [apply set_add3_wp; eassumption|]. cbv beta. intros v1 H1.
  eapply wp_bindq; [apply (set_xor_wp _ _ _ _ _ R1 H1 Hd Ha); unfold R1; lia|]. cbv beta. intros v2 H2.
  eapply wp_bindq; [apply set_add2_wp; eassumption|]. cbv beta. intros v3 H3.
  eapply wp_bindq; [apply (set_xor_wp _ _ _ _ _ R2 H3 Hb Hc); unfold R2; lia|]. cbv beta. intros v4 H4.
  eapply wp_bindq; [apply set_add3_wp; eassumption|]. cbv beta. intros v5 H5.
  eapply wp_bindq; [apply (set_xor_wp _ _ _ _ _ R3 H5 Hd Ha); unfold R3; lia|]. cbv beta. intros v6 H6.
  eapply wp_bindq; [apply set_add2_wp; eassumption|]. cbv beta. intros v7 H7.
  apply (set_xor_wp _ _ _ _ _ R4 H7 Hb Hc). unfold R4; lia.
Qed.
Lemma mix_wp n m mz s i j a b c d v z : Forall2 W1 m mz -> length m = 16 -> length s = 16 -> Forall (fun k => k < 16) s -> i < 16 -> j < 16 ->
  V v z -> a < 16 -> b < 16 -> c < 16 -> d < 16 ->
  wp L (mix n m s i j (a, b, c, d) v) (fun v' => V v' (b2_G z a b c d (get mz (nth i s 0)) (get mz (nth j s 0)))).
Proof.
  intros Hm Hl Hs Hs' Hi Hj HV Ha Hb Hc Hd. unfold mix.
  assert (Hsk : forall k B (f : nat -> prog P (res B)) Q, k < 16 -> (nth k s 0 < 16 -> wp L (f (nth k s 0)) Q) -> wp L (idx s k f) Q).
  { intros k B f Q Hk H. unfold idx. destruct (nth_error s k) as [y|] eqn:E; [|apply nth_error_None in E; lia].
    rewrite (nth_error_nth _ _ 0 E) in H. apply H. rewrite Forall_forall in Hs'. apply Hs'. eapply nth_error_In; eauto. }
  apply Hsk; [exact Hi|]. intros Hi'. apply Hsk; [exact Hj|]. intros Hj'.
  eapply wp_idx; [exact Hm|lia|]. intros x Hx. eapply wp_idx; [exact Hm|lia|]. intros y Hy.
  apply wp_ns. apply mixing_wp; auto.
Qed.
Lemma b_round_wp m mz i v z : Forall2 W1 m mz -> length m = 16 -> V v z ->
  wp L (b_round m i v) (fun v' => V v' (b2_round mz z i)).
Proof.
  intros Hm Hl HV. unfold b_round. apply wp_ns. unfold b2_round. cbv zeta.
  pose proof (Nat.mod_upper_bound i 10 ltac:(discriminate)) as Hi.
  set (s := nth (i mod 10) b2_SIGMA []).
  assert (Es : nth_error SIGMA (i mod 10) = Some s) by (apply nth_error_nth'; cbn; lia).
  assert (Hs : length s = 16 /\ Forall (fun k => k < 16) s).
  { assert (HA : Forall (fun s => length s = 16 /\ Forall (fun k => k < 16) s) SIGMA)
      by (unfold SIGMA; repeat (constructor; [split; [reflexivity|repeat (constructor; [lia|]); constructor]|]); constructor).
    rewrite Forall_forall in HA. apply HA. eapply nth_error_In; exact Es. }
  unfold idx at 1. rewrite Es. destruct Hs as [Hs Hs'].
  do 7 (eapply wp_bindq; [eapply mix_wp; try eassumption; lia|]; cbv beta; clear v HV; intros v HV).
  eapply mix_wp; try eassumption; lia.
Qed.
Lemma rounds_wp m mz v z : Forall2 W1 m mz -> length m = 16 -> V v z ->
  wp L (foldq (fun i v _ => b_round m i v) 0 v (seq 0 10)) (fun v' => Forall2 W1 v' (fold_left (b2_round mz) (seq 0 10) z)).
Proof.
  intros Hm Hl HV. eapply wp_mono; [|eapply (wp_foldq L (fun i v _ => b_round m i v) (b2_round mz) (fun _ v z => V v z) eq)].
  - cbv beta. intros v' [H _]. exact H.
  - apply Forall2_diag. auto.
  - exact HV.
  - intros j x y s t _ Hy _ HR. apply nth_error_seq in Hy as [-> _]. now apply b_round_wp.
Qed.
End Body.

(** ** Bytes and bits *)
Definition byte_bits (b : Z) : list bool := map (fun i => Z.odd (b / 2 ^ Z.of_nat i)) (seq 0 8).
Lemma byte_bits_z2le b : byte_bits b = z2le 8 b.
Proof. rewrite <- bits_of_z2le. reflexivity. Qed.
Lemma bits_of_bytes_cons b l : bits_of_bytes (b :: l) = byte_bits b ++ bits_of_bytes l.
Proof. reflexivity. Qed.
Lemma bits_of_bytes_length l : length (bits_of_bytes l) = 8 * length l.
Proof. induction l; [reflexivity|]. rewrite bits_of_bytes_cons, app_length, IHl. unfold byte_bits. rewrite map_length, seq_length. cbn [length]. lia. Qed.
Lemma firstn_bits l : forall n, firstn (8 * n) (bits_of_bytes l) = bits_of_bytes (firstn n l).
Proof.
  induction l as [|b l IH]; intros n; [now rewrite !firstn_nil|]. destruct n as [|n]; [reflexivity|].
  cbn [firstn]. rewrite !bits_of_bytes_cons. replace (8 * S n) with (length (byte_bits b) + 8 * n) by (unfold byte_bits; rewrite map_length, seq_length; lia).
  rewrite firstn_app_2. now rewrite IH.
Qed.
Lemma skipn_bits l : forall n, skipn (8 * n) (bits_of_bytes l) = bits_of_bytes (skipn n l).
Proof.
  induction l as [|b l IH]; intros n; [now rewrite !skipn_nil|]. destruct n as [|n]; [reflexivity|].
  cbn [skipn]. rewrite bits_of_bytes_cons. replace (8 * S n) with (length (byte_bits b) + 8 * n) by (unfold byte_bits; rewrite map_length, seq_length; lia).
  rewrite skipn_app. rewrite skipn_all2 by lia. cbn [app]. rewrite <- IH. f_equal. lia.
Qed.
Lemma chunks_bits n l : 0 < n -> chunks (8 * n) (bits_of_bytes l) = map bits_of_bytes (chunks n l).
Proof.
  intros Hn. induction l as [|l Hl IH] using (chunks_ind n Hn); [reflexivity|].
  rewrite (chunks_cons n l) by auto. rewrite chunks_cons.
  - cbn [map]. now rewrite firstn_bits, skipn_bits, IH.
  - lia.
  - intros E. apply (f_equal (@length _)) in E. rewrite bits_of_bytes_length in E. cbn [length] in E. destruct l; [congruence|cbn [length] in E; lia].
Qed.

Lemma skipn_skipn' {A} n : forall m (l : list A), skipn n (skipn m l) = skipn (m + n) l.
Proof. induction m; intros l; [reflexivity|]. destruct l; [now rewrite !skipn_nil|]. cbn. apply IHm. Qed.
(** Number of chunks, rounding up. *)
Lemma chunks_seq {A} n (l : list A) : 0 < n -> chunks n l = map (fun i => firstn n (skipn (n * i) l)) (seq 0 ((length l + (n - 1)) / n)).
Proof.
  intros Hn. induction l as [|l Hl IH] using (chunks_ind n Hn).
  - cbn [length Nat.add]. rewrite Nat.div_small by lia. reflexivity.
  - rewrite chunks_cons, IH by auto. rewrite skipn_length.
    assert (Hlen : 0 < length l) by (destruct l; [congruence|cbn; lia]).
    assert (E : (length l + (n - 1)) / n = S ((length l - n + (n - 1)) / n)).
    { destruct (Nat.le_gt_cases n (length l)) as [Hle|Hgt].
      - replace (length l + (n - 1)) with (length l - n + (n - 1) + 1 * n) by lia. rewrite Nat.div_add by lia. lia.
      - replace (length l - n) with 0 by lia. rewrite (Nat.div_small (0 + (n - 1))) by lia.
        symmetry. apply Nat.div_unique with (r := length l - 1); lia. }
    rewrite E. cbn [seq map]. rewrite Nat.mul_0_r, skipn_O. f_equal. rewrite <- seq_shift, map_map.
    apply map_ext. intros i. rewrite skipn_skipn'. f_equal. f_equal. lia.
Qed.

Definition byte (b : Z) : Prop := (0 <= b < 256)%Z.
Lemma le2z_app a b : le2z (a ++ b) = (le2z a + 2 ^ Z.of_nat (length a) * le2z b)%Z.
Proof.
  induction a as [|x a IH]; [cbn [app length le2z]; rewrite Z.pow_0_r; lia|]. cbn [app le2z length]. rewrite IH, Nat2Z.inj_succ, Z.pow_succ_r by lia. lia.
Qed.
Lemma le2z_app_false l k : le2z (l ++ repeat false k) = le2z l.
Proof.
  assert (Hz : le2z (repeat false k) = 0%Z) by (induction k; cbn [repeat le2z]; [reflexivity|rewrite IHk; reflexivity]).
  rewrite le2z_app, Hz. lia.
Qed.
Lemma le2z_byte b l : byte b -> le2z (byte_bits b ++ l) = (b + 256 * le2z l)%Z.
Proof.
  intros Hb. rewrite le2z_app. unfold byte_bits at 2. rewrite map_length, seq_length. rewrite byte_bits_z2le, le2z_z2le_small; [reflexivity|].
  unfold byte in Hb. cbn. lia.
Qed.
Lemma le2z_word b : Forall byte b -> length b <= 4 -> le2z (bits_of_bytes b) = le_word (map (get b) (seq 0 4)).
Proof.
  intros Hb Hl. unfold le_word. cbn [seq map]. unfold get at 1 3 5 7. cbn [nth].
  destruct Hb as [|b0 b Hb0 Hb]; [reflexivity|].
  destruct Hb as [|b1 b Hb1 Hb]; [|destruct Hb as [|b2 b Hb2 Hb]; [|destruct Hb as [|b3 b Hb3 Hb]]];
    [| | |destruct Hb; [|cbn [length] in Hl; lia]];
    rewrite !bits_of_bytes_cons, !le2z_byte by assumption; cbn [get nth bits_of_bytes map concat le2z];
    change (2 ^ 8)%Z with 256%Z; change (2 ^ 16)%Z with 65536%Z; change (2 ^ 24)%Z with 16777216%Z; unfold get; cbn [nth]; lia.
Qed.

(** A block of the message as the gadget cuts it. *)
Definition block_z (c : list bool) : list Z := push_until 16 0%Z (map (fun w => le2z (push_until 32 false w)) (chunks 32 c)).
Lemma nth_push {A} n (l : list A) d i : nth i (push_until n d l) d = nth i l d.
Proof.
  unfold push_until. destruct (Nat.lt_ge_cases i (length l)).
  - now rewrite app_nth1.
  - rewrite app_nth2, (nth_overflow l) by lia. generalize (n - length l) (i - length l). induction n0; intros [|m]; cbn; auto.
Qed.
Lemma get_firstn_skipn l n k j : j < n -> get (firstn n (skipn k l)) j = get l (k + j).
Proof.
  intros Hj. unfold get. revert l. induction k as [|k IH]; intros l.
  - cbn [skipn Nat.add]. revert n Hj l. induction j as [|j IHj]; intros [|n] Hj [|x l]; cbn; try lia; auto. apply IHj. lia.
  - destruct l as [|x l]; [rewrite skipn_nil, firstn_nil; now destruct j|]. cbn [skipn Nat.add nth]. apply IH.
Qed.
Lemma Forall_firstn {A} (Q : A -> Prop) l n : Forall Q l -> Forall Q (firstn n l).
Proof. intros H. rewrite <- (firstn_skipn n l) in H. now apply Forall_app in H. Qed.
Lemma Forall_skipn {A} (Q : A -> Prop) l n : Forall Q l -> Forall Q (skipn n l).
Proof. intros H. rewrite <- (firstn_skipn n l) in H. now apply Forall_app in H. Qed.

Lemma block_z_spec d : Forall byte d -> length d <= 64 -> block_z (bits_of_bytes d) = b2_block d 0.
Proof.
  intros Hd Hl. unfold block_z, b2_block. rewrite (chunks_bits 4) by lia.
  rewrite map_map, (chunks_seq 4) by lia. rewrite map_map.
  set (k := (length d + (4 - 1)) / 4).
  assert (Hk : k <= 16 /\ length d <= 4 * k).
  { subst k. split.
    - apply Nat.lt_succ_r, Nat.div_lt_upper_bound; lia.
    - pose proof (Nat.div_mod (length d + 3) 4 ltac:(lia)). pose proof (Nat.mod_upper_bound (length d + 3) 4 ltac:(lia)). change (4 - 1) with 3. lia. }
  apply nth_ext with (d := 0%Z) (d' := 0%Z).
  - unfold push_until. rewrite app_length, repeat_length, !map_length, !seq_length. lia.
  - intros i Hi. rewrite nth_push.
    assert (Hi16 : i < 16). { unfold push_until in Hi. rewrite app_length, repeat_length, !map_length, !seq_length in Hi. lia. }
    rewrite (nth_indep (map _ (seq 0 16)) 0%Z ((fun j => le_word (map (fun k => get d (64 * 0 + 4 * j + k)) (seq 0 4))) 0)) by (rewrite map_length, seq_length; exact Hi16).
    rewrite (map_nth (fun j => le_word (map (fun k => get d (64 * 0 + 4 * j + k)) (seq 0 4)))), seq_nth by exact Hi16.
    destruct (Nat.lt_ge_cases i k) as [Hik|Hik].
    + rewrite (nth_indep _ 0%Z ((fun x => le2z (push_until 32 false (bits_of_bytes (firstn 4 (skipn (4 * x) d))))) 0)) by (rewrite map_length, seq_length; exact Hik).
      rewrite (map_nth (fun x => le2z (push_until 32 false (bits_of_bytes (firstn 4 (skipn (4 * x) d)))))), seq_nth by exact Hik.
      unfold push_until. rewrite le2z_app_false, le2z_word.
      * f_equal. apply map_ext_in. intros j Hj. apply in_seq in Hj. rewrite get_firstn_skipn by lia. reflexivity.
      * apply Forall_firstn, Forall_skipn, Hd.
      * rewrite firstn_length. lia.
    + rewrite nth_overflow by (rewrite map_length, seq_length; exact Hik).
      assert (Hz : forall j, 4 * i <= j -> get d j = 0%Z) by (intros j Hj; unfold get; apply nth_overflow; lia).
      unfold le_word. cbn [seq map]. unfold get at 1 3 5 7. cbn [nth]. rewrite !Hz by lia. reflexivity.
Qed.
Lemma b2_block_shift d i : b2_block (firstn 64 (skipn (64 * i) d)) 0 = b2_block d i.
Proof.
  unfold b2_block. apply map_ext_in. intros j Hj. apply in_seq in Hj. f_equal. apply map_ext_in. intros k Hk. apply in_seq in Hk.
  rewrite get_firstn_skipn by lia. f_equal. lia.
Qed.
Lemma blocks_z_spec d : Forall byte d -> map block_z (chunks 512 (bits_of_bytes d)) = map (b2_block d) (seq 0 ((length d + 63) / 64)).
Proof.
  intros Hd. change 512 with (8 * 64). rewrite (chunks_bits 64) by lia. rewrite map_map, (chunks_seq 64) by lia. rewrite map_map.
  apply map_ext. intros i. rewrite block_z_spec; [apply b2_block_shift|apply Forall_firstn, Forall_skipn, Hd|rewrite firstn_length; lia].
Qed.

Lemma word_bits z : z2le 32 z = bits_of_bytes (word_bytes z).
Proof.
  assert (HB : forall (a b : nat), b < 8 -> Z.odd (z / 2 ^ Z.of_nat (a + b)) = Z.odd (z / 2 ^ Z.of_nat a mod 256 / 2 ^ Z.of_nat b)).
  { intros a b Hb. change (bit_of z (a + b) = bit_of (z / 2 ^ Z.of_nat a mod 256) b). rewrite !bit_of_testbit.
    change 256%Z with (2 ^ 8)%Z. rewrite Z.mod_pow2_bits_low, Z.div_pow2_bits by lia. f_equal. lia. }
  rewrite <- bits_of_z2le. unfold bits_of, bits_of_bytes, word_bytes. cbn [map seq concat app]. unfold bit_of.
  rewrite <- (Z.div_1_r z) at 33 34 35 36 37 38 39 40. change 1%Z with (2 ^ Z.of_nat 0)%Z. 
  change 8%Z with (Z.of_nat 8). change 16%Z with (Z.of_nat 16). change 24%Z with (Z.of_nat 24).
  rewrite <- !HB by lia. reflexivity.
Qed.

(** ** The whole function *)
Lemma read_u32_le b : length b = 4 -> read_u32 b = le_word b.
Proof. destruct b as [|b0 [|b1 [|b2 [|b3 [|]]]]]; try discriminate. intros _. unfold read_u32, le_word, get. cbn [nth]. lia. Qed.
Lemma le_word_u32 b : Forall byte b -> length b = 4 -> u32 (le_word b).
Proof.
  intros Hb Hl. destruct b as [|b0 [|b1 [|b2 [|b3 [|]]]]]; try discriminate.
  inversion Hb as [|? ? H0 Hb0]; subst. inversion Hb0 as [|? ? H1 Hb1]; subst. inversion Hb1 as [|? ? H2 Hb2]; subst. inversion Hb2 as [|? ? H3 _]; subst.
  unfold byte in *. unfold u32, le_word, get. cbn [nth]. lia.
Qed.

Lemma b2_G_length v a b c d x y : length (b2_G v a b c d x y) = length v.
Proof. unfold b2_G. do 7 (etransitivity; [apply upd_length|]). apply upd_length. Qed.

Lemma b2_round_length m v i : length (b2_round m v i) = length v.
Proof. unfold b2_round. cbv zeta. do 7 (etransitivity; [apply b2_G_length|]). apply b2_G_length. Qed.

Lemma fold_length {A B} (f : list A -> B -> list A) (Hf : forall v i, length (f v i) = length v) l :
  forall v, length (fold_left f l v) = length v.
Proof. induction l as [|i l IH]; intros v; [reflexivity|]. cbn [fold_left]. rewrite IH. apply Hf. Qed.
Lemma b2_rounds_length m l v : length (fold_left (b2_round m) l v) = length v.
Proof. exact (fold_length (b2_round m) (b2_round_length m) l v). Qed.

Section Whole.
Context {P : PrimeField} (H : HL P).
Let HV v z := Forall2 (hw H) v z /\ length v = 16.

Lemma hwp_idx {B} l zs i (k : UInt32 -> prog P (res B)) Q : Forall2 (hw H) l zs -> i < length l ->
  (forall w, hw H w (get zs i) -> hwp H (k w) Q) -> hwp H (idx l i k) Q.
Proof.
  intros HF Hi Hk. unfold idx. destruct (nth_error l i) as [w|] eqn:E; [|apply nth_error_None in E; lia].
  apply Hk. destruct (Forall2_nth_error_ex _ _ _ HF _ _ E) as (z & Ez & Hz). unfold get. now rewrite (nth_error_nth _ _ 0%Z Ez).
Qed.
Lemma hwp_foldq_idx {S T A B} (f : nat -> S -> A -> prog P (res S)) (g : T -> B -> T) (R : S -> T -> Prop) (X : A -> B -> Prop)
    l m : Forall2 X l m -> forall i s t, R s t ->
  (forall j x y s t, nth_error l j = Some x -> nth_error m j = Some y -> X x y -> R s t ->
     hwp H (f (i + j) s x) (fun s' => R s' (g t y))) ->
  hwp H (foldq f i s l) (fun s' => R s' (fold_left g m t)).
Proof.
  induction 1 as [|x y l m Hxy HF IH]; intros i s t HR Hf; cbn [foldq fold_left].
  - now apply hwp_ret.
  - eapply hwp_bindq.
    + specialize (Hf 0 x y s t eq_refl eq_refl Hxy HR). rewrite Nat.add_0_r in Hf. exact Hf.
    + cbv beta. intros s' Hs'. apply IH; [exact Hs'|]. intros j x' y' s1 t1 Hx Hy HX HR1.
      replace (Datatypes.S i + j) with (i + Datatypes.S j) by lia. now apply Hf.
Qed.

Lemma set_xor_const_hwp n v z i c : HV v z -> i < 16 -> u32 c ->
  hwp H (set_xor_const n v i c) (fun v' => HV v' (upd i (Z.lxor (get z i) c) z)).
Proof.
  intros [HF Hl] Hi Hc. unfold set_xor_const. eapply hwp_idx; [exact HF|lia|]. intros w Hw.
  eapply hwp_bindq; [apply hwp_ns, hwp_xor; [exact Hw|now apply hw_const]|]. cbv beta. intros r Hr. apply hwp_ret.
  split; [now apply Forall2_upd|]. now rewrite upd_length.
Qed.
Lemma final_fold h v : length h = 8 ->
  fold_left (fun h i => upd i (Z.lxor (Z.lxor (get h i) (get v i)) (get v (i + 8))) h) (seq 0 8) h = b2_final h v.
Proof.
  destruct h as [|h0 [|h1 [|h2 [|h3 [|h4 [|h5 [|h6 [|h7 [|]]]]]]]]]; try discriminate. intros _. reflexivity.
Qed.
Lemma final_hwp h hz v4 z4 : Forall2 (hw H) h hz -> length h = 8 -> Forall2 (hw H) v4 z4 -> length v4 = 16 ->
  hwp H (foldq (fun i h _ => final_xor v4 i h) 0 h (seq 0 8)) (fun r => Forall2 (hw H) r (b2_final hz z4) /\ length r = 8).
Proof.
  intros Hh Hl H4 Hl4. rewrite <- (final_fold hz z4) by (rewrite <- (Forall2_length _ _ _ Hh); exact Hl).
  apply (hwp_foldq_idx (fun i h _ => final_xor v4 i h) (fun h i => upd i (Z.lxor (Z.lxor (get h i) (get z4 i)) (get z4 (i + 8))) h)
    (fun h hz => Forall2 (hw H) h hz /\ length h = 8) eq).
  - apply Forall2_diag. auto.
  - auto.
  - intros j x y s tz _ Hy _ [Hs Hls]. apply nth_error_seq in Hy as [-> Hj]. unfold final_xor. cbn [Nat.add]. apply hwp_ns.
    eapply hwp_idx; [exact Hs|lia|]. intros hi Hhi. eapply hwp_idx; [exact H4|lia|]. intros vi Hvi.
    eapply hwp_bindq; [apply hwp_ns, hwp_xor; eassumption|]. cbv beta. intros a Ha.
    eapply hwp_idx; [exact H4|lia|]. intros vi8 Hvi8.
    eapply hwp_bindq; [apply hwp_ns, hwp_xor; eassumption|]. cbv beta. intros b Hb.
    apply hwp_ret. split; [now apply Forall2_upd|]. now rewrite upd_length.
Qed.
Lemma rounds_z_length mz v3 z3 v4 l : Forall2 (hw H) v3 z3 -> length v3 = 16 -> Forall2 (hw H) v4 (fold_left (b2_round mz) l z3) -> length v4 = 16.
Proof. intros H3 Hl3 H4. rewrite (Forall2_length _ _ _ H4), b2_rounds_length, <- (Forall2_length _ _ _ H3). exact Hl3. Qed.
Lemma compression_hwp h hz m mz t f : Forall2 (hw H) h hz -> length h = 8 -> Forall2 (hw H) m mz -> length m = 16 ->
  hwp H (blake2s_compression h m t f) (fun r => Forall2 (hw H) r (b2_F hz mz t f) /\ length r = 8).
Proof.
  intros Hh Hl Hm Hlm. unfold blake2s_compression. rewrite Hl, Hlm. cbn [Nat.eqb negb].
  rewrite app_length, map_length, Hl. cbn [B_IV length Nat.add Nat.eqb negb].
  assert (H0 : HV (h ++ map u_constant B_IV) (hz ++ b2_IV)).
  { split; [|now rewrite app_length, map_length, Hl]. apply Forall2_app; [exact Hh|]. rewrite <- B_IV_table.
    unfold B_IV. cbn [map]. repeat (constructor; [apply hw_const; unfold u32; lia|]). constructor. }
  eapply hwp_bindq; [apply set_xor_const_hwp; [exact H0|lia|apply mod32_u32]|]. cbv beta. intros v1 H1.
  eapply hwp_bindq; [apply set_xor_const_hwp; [exact H1|lia|apply mod32_u32]|]. cbv beta. intros v2 H2.
  eapply hwp_bindq with (Q1 := fun v => HV v (b2_init hz t f)).
  { rewrite Z.shiftr_div_pow2 in H2 by lia. unfold b2_init.
    destruct f; [apply set_xor_const_hwp; [exact H2|lia|unfold u32; lia]|now apply hwp_ret]. }
  cbv beta. clear v1 H1 v2 H2. intros v3 [H3 Hl3]. unfold b2_F.
  eapply hwp_bindq.
  { apply (hwp_scope H _ (fold_left (b2_round mz) (seq 0 10) (b2_init hz t f))). intros L HI. apply rounds_wp.
    - eapply Forall2_impl; [|exact Hm]. auto.
    - exact Hlm.
    - split; [|exact Hl3]. eapply Forall2_impl; [|exact H3]. auto. }
  cbv beta. intros v4 H4. apply final_hwp; [exact Hh|exact Hl|exact H4|]. exact (rounds_z_length mz v3 (b2_init hz t f) v4 (seq 0 10) H3 Hl3 H4).
Qed.

Lemma Forall2_push {A B} (R : A -> B -> Prop) n x y l m : Forall2 R l m -> R x y -> Forall2 R (push_until n x l) (push_until n y m).
Proof.
  intros HF Hxy. unfold push_until. rewrite <- (Forall2_length _ _ _ HF). apply Forall2_app; [exact HF|].
  generalize (n - length l). induction n0; cbn; constructor; auto.
Qed.
Lemma u32_0 : u32 0. Proof. unfold u32. lia. Qed.
Lemma chunks_le {A} n (l : list A) : 0 < n -> Forall (fun c => length c <= n) (chunks n l).
Proof.
  intros Hn. induction l as [|l Hl IH] using (chunks_ind n Hn); [constructor|]. rewrite chunks_cons by auto.
  constructor; [rewrite firstn_length; lia|exact IH].
Qed.
Lemma chunks_count {A} n k (l : list A) : 0 < n -> length l <= n * k -> length (chunks n l) <= k.
Proof.
  intros Hn Hl. rewrite chunks_seq, map_length, seq_length by lia. apply Nat.lt_succ_r, Nat.div_lt_upper_bound; lia.
Qed.
Lemma b_block_hwp block bs : length block <= 512 -> Forall2 (hb H) block bs ->
  hwp H (b_block block) (fun m => Forall2 (hw H) m (block_z bs) /\ length m = 16).
Proof.
  intros Hl HF. unfold b_block. eapply hwp_bindq.
  - eapply hwp_mapq with (X := fun w b => length w <= 32 /\ Forall2 (hb H) w b) (m := chunks 32 bs)
      (Q := fun w b => hw H w (le2z (push_until 32 false b))).
    + pose proof (chunks_le 32 block ltac:(lia)) as HC. pose proof (chunks_Forall2 (hb H) 32 ltac:(lia) _ _ HF) as HX.
      induction HX; constructor; inversion HC; subst; auto.
    + intros j w b _ _ [Hw Hb].
      destruct (hw_from H (push_until 32 (BConst false) w) (push_until 32 false b)) as (x & -> & Hx).
      * unfold push_until. rewrite app_length, repeat_length. lia.
      * apply Forall2_push; [exact Hb|apply hb_const].
      * cbn. now apply hwp_ret.
  - cbv beta. intros ws Hws. apply hwp_ret. split.
    + unfold block_z. apply Forall2_push; [|apply hw_const, u32_0].
      induction Hws; cbn [map]; constructor; auto.
    + unfold push_until. rewrite app_length, repeat_length, (Forall2_length _ _ _ Hws).
      pose proof (chunks_count 32 16 bs ltac:(lia)) as Hc. rewrite <- (Forall2_length _ _ _ HF) in Hc. specialize (Hc ltac:(lia)). lia.
Qed.

Lemma firstn_seq n k : firstn n (seq 0 k) = seq 0 (Nat.min n k).
Proof.
  destruct (Nat.le_ge_cases n k) as [Hn|Hn].
  - rewrite Nat.min_l by lia. replace k with (n + (k - n)) by lia. rewrite seq_app, firstn_app, seq_length, Nat.sub_diag, firstn_O, app_nil_r.
    apply firstn_all2. rewrite seq_length. lia.
  - rewrite Nat.min_r by lia. apply firstn_all2. rewrite seq_length. lia.
Qed.

Lemma blake2s_hwp input data person : length person = 8 -> Forall byte person -> Forall byte data ->
  Forall2 (hb H) input (bits_of_bytes data) ->
  hwp H (blake2s input person) (fun r => Forall2 (hb H) r (bits_of_bytes (blake2s_spec person data))).
Proof.
  intros Hp Hpb Hd HF. unfold blake2s. rewrite Hp. cbn [Nat.eqb negb].
  pose proof (Forall2_length _ _ _ HF) as Hl. rewrite bits_of_bytes_length in Hl.
  assert (Hm : length input mod 8 = 0) by (rewrite Hl, Nat.mul_comm; apply Nat.mod_mul; lia). rewrite Hm. cbn [Nat.eqb negb].
  set (hm := map u_constant _).
  unfold blake2s_spec. cbv zeta. set (h0 := upd 7 _ _).
  assert (Hh0 : Forall2 (hw H) hm h0 /\ length hm = 8).
  { split; [|reflexivity]. subst hm h0.
    assert (HA : length (firstn 4 person) = 4 /\ length (skipn 4 person) = 4) by (rewrite firstn_length, skipn_length, Hp; auto).
    rewrite <- !read_u32_le by apply HA.
    pose proof (le_word_u32 _ (Forall_firstn _ _ 4 Hpb) (proj1 HA)) as U1. pose proof (le_word_u32 _ (Forall_skipn _ _ 4 Hpb) (proj2 HA)) as U2.
    rewrite <- read_u32_le in U1, U2 by apply HA. revert U1 U2.
    generalize (read_u32 (firstn 4 person)) (read_u32 (skipn 4 person)). intros p1 p2 U1 U2.
    rewrite <- B_IV_table. unfold B_IV. cbn [map upd get nth].
    assert (U : forall x p, u32 x -> u32 p -> hw H (u_constant (Z.lxor x p)) (Z.lxor x p)) by (intros; apply hw_const; now apply lxor_range).
    constructor; [apply (hw_const H); vm_compute; split; [discriminate|reflexivity]|].
    do 5 (constructor; [apply hw_const; unfold u32; lia|]).
    constructor; [apply U; [unfold u32; lia|exact U1]|]. constructor; [apply U; [unfold u32; lia|exact U2]|]. constructor. }
  set (nb := (length data + 63) / 64).
  eapply hwp_bindq with (Q1 := fun blocks => Forall2 (fun m z => Forall2 (hw H) m z /\ length m = 16) blocks (map (b2_block data) (seq 0 nb))).
  { subst nb. rewrite <- blocks_z_spec by exact Hd. eapply hwp_mono; [|eapply hwp_mapq with (X := fun c b => length c <= 512 /\ Forall2 (hb H) c b) (m := chunks 512 (bits_of_bytes data))
      (Q := fun m b => Forall2 (hw H) m (block_z b) /\ length m = 16)].
    - cbv beta. intros bl Hbl. induction Hbl; cbn [map]; constructor; auto.
    - pose proof (chunks_le 512 input ltac:(lia)) as HC. pose proof (chunks_Forall2 (hb H) 512 ltac:(lia) _ _ HF) as HX.
      induction HX; constructor; inversion HC; subst; auto.
    - intros j c b _ _ [Hc Hcb]. now apply b_block_hwp. }
  cbv beta. intros blocks Hb. set (blocks' := match blocks with [] => _ | _ => _ end).
  set (dd := b2_blocks (length data)).
  assert (Hdd : dd = Nat.max 1 nb) by reflexivity.
  assert (HB : Forall2 (fun m z => Forall2 (hw H) m z /\ length m = 16) blocks' (map (b2_block data) (seq 0 dd))).
  { destruct nb as [|nb'] eqn:En.
    - cbn [seq map] in Hb. inversion Hb; subst blocks. subst blocks'. rewrite Hdd. cbn [Nat.max seq map].
      assert (Ed : data = []). { destruct data; [reflexivity|]. exfalso. subst nb. cbn [length] in En. pose proof (Nat.div_le_mono 64 (S (length data) + 63) 64 ltac:(lia) ltac:(lia)). rewrite En in *. cbn in H0. lia. }
      subst data. constructor; [|constructor]. split; [|reflexivity].
      change (b2_block [] 0) with (repeat 0%Z 16). cbn [repeat].
      repeat (constructor; [apply hw_const, u32_0|]). constructor.
    - assert (E : blocks' = blocks). { subst blocks'. destruct blocks; [inversion Hb|reflexivity]. }
      rewrite E, Hdd. cbn [Nat.max]. exact Hb. }
  clearbody blocks'. clear Hb blocks. pose proof (Forall2_length _ _ _ HB) as Hlen. rewrite map_length, seq_length in Hlen.
  assert (Hdd1 : 1 <= dd) by (rewrite Hdd; lia).
  rewrite Hlen.
  eapply hwp_bindq with (Q1 := fun h => Forall2 (hw H) h (fold_left (fun h i => b2_F h (b2_block data i) (64 * Z.of_nat (i + 1)) false) (seq 0 (dd - 1)) h0) /\ length h = 8).
  { apply (hwp_foldq_idx _ (fun h i => b2_F h (b2_block data i) (64 * Z.of_nat (i + 1)) false) (fun h hz => Forall2 (hw H) h hz /\ length h = 8)
      (fun m i => Forall2 (hw H) m (b2_block data i) /\ length m = 16)).
    - replace (seq 0 (dd - 1)) with (firstn (dd - 1) (seq 0 dd)) by (rewrite firstn_seq; f_equal; lia).
      apply WordLogic.Forall2_firstn. clear -HB. revert HB. generalize (seq 0 dd). intros l. revert blocks'.
      induction l; intros bl HB; inversion HB; subst; constructor; auto.
    - exact Hh0.
    - intros j x y s t _ Hy [Hx Hxl] [Hs Hsl]. apply nth_error_seq in Hy as [-> _]. cbn [Nat.add]. apply hwp_ns.
      replace ((Z.of_nat j + 1) * 64)%Z with (64 * Z.of_nat (j + 1))%Z by lia. now apply compression_hwp. }
  cbv beta. intros h [Hh Hlh].
  unfold idx. destruct (nth_error blocks' (dd - 1)) as [last|] eqn:El; [|apply nth_error_None in El; lia].
  destruct (Forall2_nth_error_ex _ _ _ HB _ _ El) as (lz & Elz & Hlz & Hll).
  assert (Ez : lz = b2_block data (dd - 1)).
  { rewrite nth_error_map in Elz. rewrite (nth_error_nth' _ 0) in Elz by (rewrite seq_length; lia). rewrite seq_nth in Elz by lia. now inversion Elz. }
  subst lz.
  eapply hwp_bindq; [apply hwp_ns, compression_hwp; eassumption|]. cbv beta. intros r [Hr _]. apply hwp_ret.
  replace (Z.of_nat (length input) / 8)%Z with (Z.of_nat (length data)) in Hr.
  - revert Hr. generalize (b2_F (fold_left (fun h i => b2_F h (b2_block data i) (64 * Z.of_nat (i + 1)) false) (seq 0 (dd - 1)) h0) (b2_block data (dd - 1)) (Z.of_nat (length data)) true).
    intros zs Hr. induction Hr as [|w z ws zs Hw _ IH]; [constructor|]. cbn [map concat].
    unfold bits_of_bytes. rewrite map_app, concat_app. apply Forall2_app; [|exact IH].
    change (concat (map _ (word_bytes z))) with (bits_of_bytes (word_bytes z)). rewrite <- word_bits. now apply hw_bits.
  - rewrite Hl, Nat2Z.inj_mul, Z.mul_comm, Z.div_mul by lia. reflexivity.
Qed.
End Whole.

(** ** Shape *)
Section Shape.
Context {P : PrimeField}.

Ltac mono_c := first [eapply wsimw_mono; [|eassumption] | eapply simw_mono; [|eassumption]]; intros ?Hand; rewrite ?andb_true_iff in *; tauto.
Lemma xor_wx a a' b b' : wx a a' -> wx b b' -> sim (@u_xor P a b) (u_xor a' b') (resR wx).
Proof.
  intros [ca Ha] [cb Hb].
  eapply ok_mono_sim; [|apply sim_only_ok with (Q1 := fun r => uconst r = true -> uconst a = true /\ uconst b = true) (Q2 := fun _ => True);
    [apply (xor_bits_sim (ca && cb) a a' b b'); mono_c| |]].
  - intros w w' [H [Hc _]]. exists (ca && cb). split; [exact H|]. intros E. destruct (Hc E) as [Ea Eb].
    apply (proj2 Ha) in Ea. apply (proj2 Hb) in Eb. now rewrite Ea, Eb.
  - apply u_xor_const. destruct Ha as [(_ & [[-> _] _] & _) _], Hb as [(_ & [[-> _] _] & _) _]. reflexivity.
  - apply only_true. intros [|]; exact I.
Qed.
Lemma rotr_wx w w' k : wx w w' -> wx (u_rotr w k) (u_rotr w' k).
Proof. intros [c H]. exists c. now apply rotr_sim. Qed.
Lemma addmany_wx ops ops' : Forall2 wx ops ops' -> sim (@addmany P ops) (addmany ops') (resR wx).
Proof.
  intros HF.
  assert (H : exists c, Forall2 (wsimw c) ops ops' /\ (forallb uconst ops = true -> c = true)).
  { induction HF as [|w w' l l' [d Hd] _ (c & Hc & Hk)]; [exists true; split; [constructor|auto]|].
    exists (d && c). split.
    - constructor; [mono_c|]. eapply Forall2_impl; [|exact Hc]. intros x y Hxy. mono_c.
    - cbn [forallb]. rewrite !andb_true_iff. intros [U1 U2]. split; [now apply (proj2 Hd)|auto]. }
  destruct H as (c & H1 & H2). eapply ok_mono_sim; [|apply addmany_sim; eassumption]. intros w w' Hw. now exists c.
Qed.
Lemma const_wx z : u32 z -> wx (u_constant z) (u_constant z).
Proof. intros H. exists true. now apply constant_sim. Qed.
Lemma upd_wx i w w' l l' : wx w w' -> Forall2 wx l l' -> Forall2 wx (upd i w l) (upd i w' l').
Proof. intros H HF. now apply Forall2_upd. Qed.
Lemma idx_wx {B C} (l l' : list UInt32) i (k : UInt32 -> prog P (res B)) (k' : UInt32 -> prog P (res C)) R : Forall2 wx l l' ->
  (forall w w', wx w w' -> sim (k w) (k' w') R) -> sim (idx l i k) (idx l' i k') R.
Proof. intros HF H. apply idx_sim; [exact HF|]. intros w w' c Hw. apply H. now exists c. Qed.
Lemma idx_same {A B C} (l : list A) i (k : A -> prog P (res B)) (k' : A -> prog P (res C)) R :
  (forall w, sim (k w) (k' w) R) -> sim (idx l i k) (idx l i k') R.
Proof. intros H. unfold idx. destruct (nth_error l i); [apply H|exact I]. Qed.

Ltac step_wx := apply idx_wx; [assumption|]; intros ? ? ?.
Lemma set_add3_sim n v v' i j x x' : Forall2 wx v v' -> wx x x' -> sim (@set_add3 P n v i j x) (set_add3 n v' i j x') (resR (Forall2 wx)).
Proof.
  intros HF Hx. unfold set_add3. do 2 step_wx. eapply sim_bindq; [apply sim_ns, addmany_wx; repeat (constructor; [assumption|]); constructor|].
  intros r r' Hr. cbn. now apply upd_wx.
Qed.
Lemma set_add2_sim n v v' i j : Forall2 wx v v' -> sim (@set_add2 P n v i j) (set_add2 n v' i j) (resR (Forall2 wx)).
Proof.
  intros HF. unfold set_add2. do 2 step_wx. eapply sim_bindq; [apply sim_ns, addmany_wx; repeat (constructor; [assumption|]); constructor|].
  intros r r' Hr. cbn. now apply upd_wx.
Qed.
Lemma set_xor_sim n v v' i j k : Forall2 wx v v' -> sim (@set_xor P n v i j k) (set_xor n v' i j k) (resR (Forall2 wx)).
Proof.
  intros HF. unfold set_xor. do 2 step_wx. eapply sim_bindq; [apply sim_ns, xor_wx; assumption|].
  intros r r' Hr. cbn [sim resR]. apply upd_wx; [now apply rotr_wx|exact HF].
Qed.
Lemma set_xor_const_sim n v v' i z : u32 z -> Forall2 wx v v' -> sim (@set_xor_const P n v i z) (set_xor_const n v' i z) (resR (Forall2 wx)).
Proof.
  intros Hz HF. unfold set_xor_const. step_wx. eapply sim_bindq; [apply sim_ns, xor_wx; [assumption|now apply const_wx]|].
  intros r r' Hr. cbn [sim resR]. now apply upd_wx.
Qed.
Lemma mixing_sim v v' q x x' y y' : Forall2 wx v v' -> wx x x' -> wx y y' -> sim (@mixing_g P v q x y) (mixing_g v' q x' y') (resR (Forall2 wx)).
Proof.
  intros HF Hx Hy. destruct q as [[[a b] c] d]. unfold mixing_g.
  eapply sim_bindq; [apply set_add3_sim; assumption|]. clear v v' HF. intros v v' HF.
  eapply sim_bindq; [apply set_xor_sim; assumption|]. clear v v' HF. intros v v' HF.
  eapply sim_bindq; [apply set_add2_sim; assumption|]. clear v v' HF. intros v v' HF.
  eapply sim_bindq; [apply set_xor_sim; assumption|]. clear v v' HF. intros v v' HF.
  eapply sim_bindq; [apply set_add3_sim; assumption|]. clear v v' HF. intros v v' HF.
  eapply sim_bindq; [apply set_xor_sim; assumption|]. clear v v' HF. intros v v' HF.
  eapply sim_bindq; [apply set_add2_sim; assumption|]. clear v v' HF. intros v v' HF.
  apply set_xor_sim; assumption.
Qed.
Lemma mix_sim n m m' s i j q v v' : Forall2 wx m m' -> Forall2 wx v v' -> sim (@mix P n m s i j q v) (mix n m' s i j q v') (resR (Forall2 wx)).
Proof.
  intros HM HF. unfold mix. do 2 (apply idx_same; intros ?). do 2 step_wx. apply sim_ns. now apply mixing_sim.
Qed.
Lemma b_round_sim m m' i v v' : Forall2 wx m m' -> Forall2 wx v v' -> sim (@b_round P m i v) (b_round m' i v') (resR (Forall2 wx)).
Proof.
  intros HM HF. unfold b_round. apply sim_ns, idx_same. intros s.
  do 7 (eapply sim_bindq; [apply mix_sim; assumption|]; clear v v' HF; intros v v' HF). now apply mix_sim.
Qed.
Lemma final_sim v v' i h h' : Forall2 wx v v' -> Forall2 wx h h' -> sim (@final_xor P v i h) (final_xor v' i h') (resR (Forall2 wx)).
Proof.
  intros HV HF. unfold final_xor. apply sim_ns. do 2 step_wx. eapply sim_bindq; [apply sim_ns, xor_wx; assumption|]. intros a a' Ha.
  step_wx. eapply sim_bindq; [apply sim_ns, xor_wx; assumption|]. intros b b' Hb. cbn [sim resR]. now apply upd_wx.
Qed.
Lemma Forall2_eq_refl {A} (l : list A) : Forall2 eq l l.
Proof. induction l; constructor; auto. Qed.
Lemma b_compression_sim h h' m m' t f : Forall2 wx h h' -> Forall2 wx m m' ->
  sim (@blake2s_compression P h m t f) (blake2s_compression h' m' t f) (resR (Forall2 wx)).
Proof.
  intros HH HM. unfold blake2s_compression. rewrite <- (Forall2_length _ _ _ HH), <- (Forall2_length _ _ _ HM).
  destruct (negb _); [exact I|]. destruct (negb _); [exact I|]. cbv zeta.
  rewrite !app_length, <- (Forall2_length _ _ _ HH). destruct (negb _); [exact I|].
  assert (HV : Forall2 wx (h ++ map u_constant B_IV) (h' ++ map u_constant B_IV)).
  { apply Forall2_app; [exact HH|]. unfold B_IV. cbn [map]. repeat (constructor; [apply const_wx; unfold u32; lia|]). constructor. }
  eapply sim_bindq; [apply set_xor_const_sim; [apply mod32_u32|exact HV]|]. intros v1 v1' H1.
  eapply sim_bindq; [apply set_xor_const_sim; [apply mod32_u32|exact H1]|]. intros v2 v2' H2.
  eapply sim_bindq with (R := Forall2 wx).
  { destruct f; [apply set_xor_const_sim; [unfold u32; lia|exact H2]|exact H2]. }
  intros v3 v3' H3. eapply sim_bindq.
  { apply sim_multieq. eapply sim_foldq; [apply Forall2_eq_refl|exact H3|]. intros j s s' x x' Hs _. now apply b_round_sim. }
  intros v4 v4' H4. eapply sim_foldq; [apply Forall2_eq_refl|exact HH|]. intros j s s' x x' Hs _. now apply final_sim.
Qed.
Lemma from_bits_sim bits bits' : Forall2 bsim bits bits' ->
  match from_bits bits, from_bits bits' with Done w, Done w' => wx w w' | Panicked, Panicked => True | _, _ => False end.
Proof.
  intros HF. rewrite !from_bits_rev. apply Forall2_rev in HF. destruct (from_bits_be (rev bits)) as [w|] eqn:E.
  - destruct (from_bits_be_sim _ _ HF w E) as (w' & -> & Hw). exact Hw.
  - unfold from_bits_be in *. rewrite <- (Forall2_length _ _ _ HF). destruct (Nat.eqb _ _); [discriminate|exact I].
Qed.
Lemma b_block_sim b b' : Forall2 bsim b b' -> sim (@b_block P b) (b_block b') (resR (Forall2 wx)).
Proof.
  intros HF. unfold b_block. eapply sim_bindq.
  - eapply sim_mapq; [exact (chunks_Forall2 bsim 32 ltac:(lia) _ _ HF)|]. intros j w w' Hw. cbv beta.
    pose proof (from_bits_sim (push_until 32 (BConst false) w) (push_until 32 (BConst false) w') ltac:(apply Forall2_push; [exact Hw|reflexivity])) as HP.
    destruct (from_bits (push_until 32 (BConst false) w)), (from_bits (push_until 32 (BConst false) w')); first [exact HP|exact I|destruct HP].
  - intros r r' Hr. cbn [sim resR]. apply Forall2_push; [exact Hr|apply const_wx, u32_0].
Qed.
Lemma blake2s_sim input input' person : Forall byte person -> Forall2 bsim input input' ->
  sim (@blake2s P input person) (blake2s input' person) (resR (Forall2 bsim)).
Proof.
  intros Hpb HF. unfold blake2s. rewrite <- (Forall2_length _ _ _ HF). destruct (Nat.eqb_spec (length person) 8) as [Hp|]; [|exact I]. cbn [negb].
  destruct (negb _); [exact I|]. cbv zeta.
  assert (HI : forall h0, Forall u32 h0 -> Forall2 wx (map u_constant h0) (map u_constant h0)).
  { induction 1; cbn [map]; constructor; auto. now apply const_wx. }
  match goal with |- context [map u_constant ?l] => set (h0 := l) end.
  assert (Hh0 : Forall u32 h0).
  { subst h0.
    assert (HA : length (firstn 4 person) = 4 /\ length (skipn 4 person) = 4) by (rewrite firstn_length, skipn_length, Hp; auto).
    pose proof (le_word_u32 _ (Forall_firstn _ _ 4 Hpb) (proj1 HA)) as U1. pose proof (le_word_u32 _ (Forall_skipn _ _ 4 Hpb) (proj2 HA)) as U2.
    rewrite <- read_u32_le in U1, U2 by apply HA.
    constructor; [vm_compute; split; [discriminate|reflexivity]|].
    do 5 (constructor; [unfold u32; lia|]).
    constructor; [apply lxor_range; [lia|exact U1]|]. constructor; [apply lxor_range; [lia|exact U2]|]. constructor. }
  eapply sim_bindq; [eapply sim_mapq; [exact (chunks_Forall2 bsim 512 ltac:(lia) _ _ HF)|]; intros j b b' Hb; now apply b_block_sim|].
  intros bl bl' HB.
  assert (HB' : Forall2 (Forall2 wx) (match bl with [] => [repeat (u_constant 0) 16] | _ => bl end) (match bl' with [] => [repeat (u_constant 0) 16] | _ => bl' end)).
  { inversion HB; subst; [|exact HB]. constructor; [|constructor]. cbn [repeat]. repeat (constructor; [apply const_wx, u32_0|]). constructor. }
  revert HB'. generalize (match bl with [] => [repeat (u_constant 0) 16] | _ => bl end) (match bl' with [] => [repeat (u_constant 0) 16] | _ => bl' end).
  clear bl bl' HB. intros bl bl' HB. rewrite <- (Forall2_length _ _ _ HB). eapply sim_bindq.
  { eapply sim_foldq; [apply WordLogic.Forall2_firstn; exact HB|apply HI; exact Hh0|]. intros j s s' x x' Hs Hx. apply sim_ns. now apply b_compression_sim. }
  intros h h' Hh. unfold idx. destruct (nth_error bl (length bl - 1)) as [last|] eqn:E.
  - destruct (Forall2_nth_error_ex _ _ _ HB _ _ E) as (last' & -> & Hl).
    eapply sim_bindq; [apply sim_ns, b_compression_sim; eassumption|]. intros r r' Hr. cbn [sim resR]. apply concat_Forall2, Forall2_map_both.
    eapply Forall2_impl; [|exact Hr]. intros w w' [c [[H _] _]]. exact H.
  - replace (nth_error bl' (length bl - 1)) with (@None (list UInt32)); [exact I|]. symmetry. apply nth_error_None. rewrite <- (Forall2_length _ _ _ HB).
    now apply nth_error_None.
Qed.

(** ** Structure *)
Lemma mixing_ns v q x y : ns_ok 0 (@mixing_g P v q x y).
Proof.
  pose proof (@u_xor_gadget P). pose proof (@addmany_ns P). destruct q as [[[a b] c] d].
  unfold mixing_g, set_add3, set_xor, set_add2, idx. struct; auto using g_ns.
Qed.
Lemma mixing_prop v q x y : prop isErr (@mixing_g P v q x y).
Proof.
  pose proof (@u_xor_gadget P). pose proof (@addmany_prop P). destruct q as [[[a b] c] d].
  unfold mixing_g, set_add3, set_xor, set_add2, idx. struct; auto using g_prop.
Qed.
Lemma b_rounds_ns m v l i : ns_ok 0 (foldq (fun i v (_ : nat) => @b_round P m i v) i v l).
Proof. pose proof mixing_ns. unfold b_round, mix, idx. struct; auto. Qed.
Lemma b_rounds_prop m v l i : prop isErr (foldq (fun i v (_ : nat) => @b_round P m i v) i v l).
Proof. pose proof mixing_prop. unfold b_round, mix, idx. struct; auto. Qed.
Lemma b_compression_gadget h m t f : Gadget (@blake2s_compression P h m t f).
Proof.
  pose proof (@u_xor_gadget P). unfold blake2s_compression, set_xor_const, final_xor, idx.
  constructor; struct; auto using noeq_scope, ns_ok_scope, prop_scope, b_rounds_ns, b_rounds_prop, g_noeq, g_ns, g_prop.
Qed.
Lemma b_block_gadget b : Gadget (@b_block P b).
Proof. unfold b_block, lift. gadget. Qed.
Lemma blake2s_gadget input person : Gadget (@blake2s P input person).
Proof. pose proof b_block_gadget. pose proof b_compression_gadget. unfold blake2s, idx. gadget. Qed.
End Shape.
