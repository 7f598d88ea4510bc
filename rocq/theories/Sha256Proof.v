(** Proofs about the SHA-256 gadget. *)
From Coq Require Import String.
From Coq Require Import ZArith List Bool Lia.
From Verif Require Import Prelude PrimeField Circuit Loops BooleanGadget NumGadget MultiEq UInt32 UInt32Proof Spec WordLogic Sha256Spec Sha256.
Import ListNotations.
Local Open Scope nat_scope.

(** Sums modulo 2^32. *)
Definition eq32 (a b : Z) : Prop := (a mod 2 ^ 32 = b mod 2 ^ 32)%Z.
Lemma eq32_add32 a a' b b' : eq32 a a' -> eq32 b b' -> eq32 (add32 a b) (a' + b').
Proof. unfold eq32, add32. intros H H'. rewrite Z.mod_mod by lia. rewrite Zplus_mod, H, H', <- Zplus_mod. reflexivity. Qed.
Lemma eq32_mod a a' : eq32 a a' -> eq32 (a mod 2 ^ 32) a'.
Proof. unfold eq32. now rewrite Z.mod_mod by lia. Qed.
Lemma eq32_refl a : eq32 a a. Proof. reflexivity. Qed.
Lemma add32_eq a b e : eq32 (add32 a b) e -> add32 a b = (e mod 2 ^ 32)%Z.
Proof. unfold eq32. intros <-. unfold add32. now rewrite Z.mod_mod by lia. Qed.
Ltac sum32r := etransitivity; [eapply add32_eq; repeat first [eapply eq32_add32 | eapply eq32_mod | apply eq32_refl]
  | cbn [zsum app]; apply (f_equal (fun x => x mod 2 ^ 32)%Z); ring].
Ltac sum32 := first [symmetry; sum32r | sum32r].

Lemma nth_error_seq a n j y : nth_error (seq a n) j = Some y -> y = a + j /\ j < n.
Proof.
  intros H. assert (Hj : j < n) by (rewrite <- (seq_length n a); apply nth_error_Some; congruence).
  split; [|exact Hj]. apply (nth_error_nth _ _ 0) in H. rewrite seq_nth in H by auto. congruence.
Qed.

Section Body.
Context {P : PrimeField} (L : WL P).
Let W1 := Wd L.

Lemma wp_sig {B} w z a b c (n1 n2 : string) (k : UInt32 -> prog P (res B)) Q : a < 32 -> b < 32 -> c < 32 -> W1 w z ->
  (forall r, W1 r (Z.lxor (Z.lxor (ROTR (Z.of_nat a) z) (ROTR (Z.of_nat b) z)) (ROTR (Z.of_nat c) z)) -> wp L (k r) Q) ->
  wp L (bindq (ns n1 (u_xor (u_rotr w a) (u_rotr w b))) (fun s => bindq (ns n2 (u_xor s (u_rotr w c))) k)) Q.
Proof.
  intros Ha Hb Hc Hw Hk. pose proof (Wd_u32 L w z Hw) as Hz.
  rewrite <- !ROTR_rotr32 in Hk by (auto; lia).
  eapply wp_bindq; [apply wp_ns, wp_xor; [apply (Wd_rotr L _ _ a Ha Hw)|apply (Wd_rotr L _ _ b Hb Hw)]|].
  cbv beta. intros s Hs. eapply wp_bindq; [apply wp_ns, wp_xor; [exact Hs|apply (Wd_rotr L _ _ c Hc Hw)]|exact Hk].
Qed.
Lemma wp_sig_shr {B} w z a b c (n1 n2 : string) (k : UInt32 -> prog P (res B)) Q : a < 32 -> b < 32 -> c < 32 -> W1 w z ->
  (forall r, W1 r (Z.lxor (Z.lxor (ROTR (Z.of_nat a) z) (ROTR (Z.of_nat b) z)) (SHR (Z.of_nat c) z)) -> wp L (k r) Q) ->
  wp L (bindq (ns n1 (u_xor (u_rotr w a) (u_rotr w b))) (fun s => bindq (ns n2 (u_xor s (u_shr w c))) k)) Q.
Proof.
  intros Ha Hb Hc Hw Hk. pose proof (Wd_u32 L w z Hw) as Hz.
  rewrite <- !ROTR_rotr32, <- SHR_div in Hk by (auto; lia).
  eapply wp_bindq; [apply wp_ns, wp_xor; [apply (Wd_rotr L _ _ a Ha Hw)|apply (Wd_rotr L _ _ b Hb Hw)]|].
  cbv beta. intros s Hs. eapply wp_bindq; [apply wp_ns, wp_xor; [exact Hs|apply (Wd_shr L _ _ c Hc Hw)]|exact Hk].
Qed.

Lemma wp_idx {B} (l : list UInt32) zs i (k : UInt32 -> prog P (res B)) Q : Forall2 W1 l zs -> i < length l ->
  (forall w, W1 w (nth i zs 0%Z) -> wp L (k w) Q) -> wp L (idx l i k) Q.
Proof.
  intros HF Hi H. unfold idx. destruct (nth_error l i) as [w|] eqn:E; [|apply nth_error_None in E; lia].
  apply H. destruct (Forall2_nth_error_ex _ _ _ HF _ _ E) as (z & Ez & Hz). now rewrite (nth_error_nth _ _ 0%Z Ez).
Qed.

Lemma w_extension_wp i w W : 16 <= i -> length w = i -> Forall2 W1 w W ->
  wp L (w_extension i w) (fun w' => Forall2 W1 w' (W_step W i) /\ length w' = S i).
Proof.
  intros Hi Hl HF. unfold w_extension. apply wp_ns.
  apply (wp_idx w W _ _ _ HF); [lia|]. intros w15 H15.
  eapply (wp_sig_shr w15 _ 7 18 3); [lia|lia|lia|exact H15|].
  intros s0 Hs0. change (W1 s0 (SSIG0 (nth (i - 15) W 0%Z))) in Hs0. apply (wp_idx w W _ _ _ HF); [lia|]. intros w2 H2.
  eapply (wp_sig_shr w2 _ 17 19 10); [lia|lia|lia|exact H2|].
  intros s1 Hs1. change (W1 s1 (SSIG1 (nth (i - 2) W 0%Z))) in Hs1. apply (wp_idx w W _ _ _ HF); [lia|]. intros w16 H16. apply (wp_idx w W _ _ _ HF); [lia|]. intros w7 H7.
  eapply wp_bindq.
  { apply wp_ns, wp_add with (zs := [nth (i - 16) W 0%Z; SSIG0 (nth (i - 15) W 0%Z); nth (i - 7) W 0%Z; SSIG1 (nth (i - 2) W 0%Z)]);
      [cbn; lia|]. repeat constructor; auto. }
  cbv beta. intros r Hr. apply wp_ret. split; [|rewrite app_length; cbn; lia].
  unfold W_step. apply Forall2_app; [exact HF|]. constructor; [|constructor].
  eapply eq_ind; [exact Hr|]. sum32.
Qed.

Definition mwd (m : Maybe) (z : Z) : Prop :=
  match m with
  | Concrete w => W1 w z
  | Deferred v => 2 <= length v <= 9 /\ exists zs, Forall2 W1 v zs /\ z = (zsum zs mod 2 ^ 32)%Z
  end.
Definition deferred (m : Maybe) : Prop := match m with Deferred _ => True | Concrete _ => False end.

Lemma compute_wp m z n : mwd m z -> wp L (compute m n []) (fun r => W1 r z).
Proof.
  intros H. unfold compute. apply wp_ns. destruct m as [v|w]; cbn in H.
  - destruct H as (Hl & zs & HF & ->). rewrite app_nil_r. apply wp_add; [lia|exact HF].
  - now apply wp_ret.
Qed.
Lemma zsum_app a b : zsum (a ++ b) = (zsum a + zsum b)%Z.
Proof. induction a as [|x a IH]; cbn [zsum app]; [lia|]. rewrite IH. lia. Qed.
Lemma compute_wp1 m z n c zc : deferred m -> mwd m z -> W1 c zc -> wp L (compute m n [c]) (fun r => W1 r (add32 z zc)).
Proof.
  intros Hd H Hc. unfold compute. apply wp_ns. destruct m as [v|w]; [|destruct Hd].
  destruct H as (Hl & zs & HF & ->). eapply wp_mono; [|apply wp_add with (zs := zs ++ [zc])].
  - intros r Hr. eapply eq_ind; [exact Hr|]. rewrite zsum_app. sum32.
  - rewrite app_length. cbn. lia.
  - apply Forall2_app; auto.
Qed.

Definition regs_wd (i : nat) (r : Regs) (s : HState) : Prop :=
  mwd (ra r) (hA s) /\ W1 (rb r) (hB s) /\ W1 (rc r) (hC s) /\ W1 (rd r) (hD s) /\
  mwd (re r) (hE s) /\ W1 (rf r) (hF s) /\ W1 (rg r) (hG s) /\ W1 (rh r) (hH s) /\
  (0 < i -> deferred (ra r) /\ deferred (re r)).

Lemma K256_u32 : Forall u32 K256.
Proof. rewrite <- K_table. unfold ROUND_CONSTANTS. repeat (constructor; [unfold u32; lia|]). constructor. Qed.

Lemma round_wp w W i r s : length w = 64 -> Forall2 W1 w W -> i < 64 -> regs_wd i r s ->
  wp L (round_step w i r) (fun r' => regs_wd (S i) r' (round W s i)).
Proof.
  intros Hl HF Hi (Ha & Hb & Hc & Hd & He & Hf & Hg & Hh & _). unfold round_step. apply wp_ns.
  eapply wp_bindq; [apply (compute_wp _ _ _ He)|]. intros e He'.
  eapply (wp_sig e _ 6 11 25); [lia|lia|lia|exact He'|].
  intros s1 Hs1. change (W1 s1 (BSIG1 (hE s))) in Hs1. eapply wp_bindq; [apply wp_ns, wp_ch; [exact He'|exact Hf|exact Hg]|]. cbv beta. intros ch Hch.
  rewrite (ch_Ch _ _ _ (Wd_u32 L _ _ He')) in Hch.
  unfold idx at 1. destruct (nth_error ROUND_CONSTANTS i) as [k|] eqn:Ek; [|apply nth_error_None in Ek; cbn in Ek; lia].
  assert (Hk : W1 (u_constant k) (nth i K256 0%Z)).
  { rewrite <- K_table, (nth_error_nth _ _ 0%Z Ek). apply Wd_const. pose proof K256_u32 as HK. rewrite <- K_table in HK.
    rewrite Forall_forall in HK. apply HK. eapply nth_error_In; eauto. }
  apply (wp_idx w W _ _ _ HF); [lia|]. intros wi Hwi. cbv zeta.
  eapply wp_bindq; [apply (compute_wp _ _ _ Ha)|]. intros a Ha'.
  eapply (wp_sig a _ 2 13 22); [lia|lia|lia|exact Ha'|].
  intros s0 Hs0. change (W1 s0 (BSIG0 (hA s))) in Hs0. eapply wp_bindq; [apply wp_ns, wp_maj; [exact Ha'|exact Hb|exact Hc]|]. cbv beta. intros mj Hmj.
  apply wp_ret. unfold regs_wd. cbn [ra rb rc rd re rf rg rh round hA hB hC hD hE hF hG hH app mwd deferred].
  refine (conj _ (conj Ha' (conj Hb (conj Hc (conj _ (conj He' (conj Hf (conj Hg (fun _ => conj I I))))))))).
  - split; [cbn; lia|]. eexists. split; [repeat (constructor; [eassumption|]); constructor|]. change (Maj (hA s) (hB s) (hC s)) with (maj_fn (hA s) (hB s) (hC s)). sum32.
  - split; [cbn; lia|]. eexists. split; [repeat (constructor; [eassumption|]); constructor|]. sum32.
Qed.

Lemma schedule_wp w M : length w = 16 -> Forall2 W1 w M ->
  wp L (foldq (fun i w _ => w_extension i w) 16 w (seq 16 48)) (fun w' => Forall2 W1 w' (schedule M) /\ length w' = 64).
Proof.
  intros Hl HF. unfold schedule.
  apply (wp_foldq L (fun i w _ => w_extension i w) W_step (fun i w W => Forall2 W1 w W /\ length w = i) eq) with (i := 16).
  - generalize (seq 16 48). induction l; constructor; auto.
  - auto.
  - intros j x y s t Hx Hy _ [HR Hs]. apply nth_error_seq in Hy as [-> Hj]. apply w_extension_wp; auto. lia.
Qed.

Lemma body_wp w cur M H : length w = 16 -> Forall2 W1 w M -> Forall2 W1 cur (h_list H) ->
  wp L (compression_body w cur) (fun r => Forall2 W1 r (h_list (compress H M))).
Proof.
  intros Hl HF HC. unfold compression_body. eapply wp_bindq; [apply (schedule_wp w M Hl HF)|]. intros w' [HW HL].
  rewrite HL. cbn [Nat.eqb negb]. 
  unfold h_list in HC.
  inversion HC as [|c0 ? t0 ? E0 HC0]; subst; clear HC.
  inversion HC0 as [|c1 ? t1 ? E1 HC1]; subst; clear HC0.
  inversion HC1 as [|c2 ? t2 ? E2 HC2]; subst; clear HC1.
  inversion HC2 as [|c3 ? t3 ? E3 HC3]; subst; clear HC2.
  inversion HC3 as [|c4 ? t4 ? E4 HC4]; subst; clear HC3.
  inversion HC4 as [|c5 ? t5 ? E5 HC5]; subst; clear HC4.
  inversion HC5 as [|c6 ? t6 ? E6 HC6]; subst; clear HC5.
  inversion HC6 as [|c7 ? t7 ? E7 HC7]; subst; clear HC6.
  inversion HC7; subst.
  eapply wp_bindq.
  { eapply (wp_foldq L (fun i r _ => round_step w' i r) (round (schedule M)) (fun i r s => regs_wd i r s) eq) with (i := 0) (m := seq 0 64).
    - generalize (seq 0 64). induction l; constructor; auto.
    - instantiate (1 := H). unfold regs_wd. cbn. repeat split; try assumption; lia.
    - intros j x y s t Hx Hy _ HR. apply nth_error_seq in Hy as [-> Hj]. apply round_wp; auto. }
  cbv beta. intros r (Ha & Hb & Hc & Hd & He & Hf & Hg & Hh & Hdef). destruct (Hdef ltac:(cbn; lia)) as [Da De].
  set (s := fold_left (round (schedule M)) (seq 0 64) H) in *.
  assert (Hadd : forall n x y a b, W1 x a -> W1 y b -> wp L (ns n (addmany [y; x])) (fun r => W1 r (add32 a b))).
  { intros n x y a b Hx Hy. apply wp_ns. eapply wp_mono; [|apply wp_add with (zs := [b; a]); [cbn; lia|auto]].
    intros r0 Hr0. eapply eq_ind; [exact Hr0|]. sum32. }
  unfold finish.
  eapply wp_bindq; [apply compute_wp1; eassumption|]. intros h0 H0.
  eapply wp_bindq; [apply Hadd; eassumption|]. intros h1 H1'.
  eapply wp_bindq; [apply Hadd; eassumption|]. intros h2 H2'.
  eapply wp_bindq; [apply Hadd; eassumption|]. intros h3 H3'.
  eapply wp_bindq; [apply compute_wp1; eassumption|]. intros h4 H4'.
  eapply wp_bindq; [apply Hadd; eassumption|]. intros h5 H5'.
  eapply wp_bindq; [apply Hadd; eassumption|]. intros h6 H6'.
  eapply wp_bindq; [apply Hadd; eassumption|]. intros h7 H7'.
  apply wp_ret. unfold compress, h_list. cbv zeta. fold s. cbn [hA hB hC hD hE hF hG hH].
  repeat (constructor; [assumption|]). constructor.
Qed.
End Body.

(** ** Padding *)
Lemma pad_zeros_spec k : forall fuel l, k <= fuel -> k < 512 -> (length l + 64 + k) mod 512 = 0 ->
  pad_zeros fuel l = Some (l ++ repeat (BConst false) k).
Proof.
  induction k as [|k IH]; intros fuel l Hf Hk Hm.
  - rewrite Nat.add_0_r in Hm. destruct fuel; cbn [pad_zeros]; rewrite Hm; cbn [Nat.eqb repeat]; now rewrite app_nil_r.
  - destruct fuel as [|fuel]; [lia|]. cbn [pad_zeros]. destruct (Nat.eqb_spec ((length l + 64) mod 512) 0) as [E|_].
    + exfalso. rewrite Nat.add_mod, E, Nat.add_0_l, Nat.mod_mod, Nat.mod_small in Hm by lia. lia.
    + rewrite IH; [|lia|lia|rewrite app_length; cbn [length]; replace (length l + 1 + 64 + k) with (length l + 64 + S k) by lia; exact Hm].
      rewrite <- app_assoc. reflexivity.
Qed.
Lemma pad_count l : exists q, l + 1 + 64 + Z.to_nat ((448 - (Z.of_nat l + 1)) mod 512) = q * 512 /\ Z.to_nat ((448 - (Z.of_nat l + 1)) mod 512) < 512.
Proof.
  pose proof (Z.div_mod (448 - (Z.of_nat l + 1)) 512 ltac:(lia)) as E.
  pose proof (Z.mod_pos_bound (448 - (Z.of_nat l + 1)) 512 ltac:(lia)) as Hb.
  set (k := ((448 - (Z.of_nat l + 1)) mod 512)%Z) in *. set (q := ((448 - (Z.of_nat l + 1)) / 512)%Z) in *.
  exists (Z.to_nat (1 - q)). lia.
Qed.
Lemma land1_odd x : Z.eqb (Z.land x 1) 1 = Z.odd x.
Proof. change 1%Z with (Z.ones 1) at 1. rewrite Z.land_ones by lia. change (2 ^ 1)%Z with 2%Z. rewrite Zmod_odd. now destruct (Z.odd x). Qed.

Lemma padding_spec (R : Boolean -> bool -> Prop) (Rc : forall b, R (BConst b) b) input bs : Forall2 R input bs ->
  exists padded k, sha256_padding input = Some padded /\ Forall2 R padded (sha256_pad bs) /\ length padded = k * 512.
Proof.
  intros HF. pose proof (Forall2_length _ _ _ HF) as Hl. destruct (pad_count (length input)) as (q & Hq & Hk).
  unfold sha256_padding, sha256_pad. rewrite <- Hl.
  rewrite (pad_zeros_spec (Z.to_nat ((448 - (Z.of_nat (length input) + 1)) mod 512))).
  - eexists. exists q. split; [reflexivity|]. split.
    + rewrite <- !app_assoc. apply Forall2_app; [exact HF|]. apply Forall2_app; [repeat constructor; apply Rc|].
      apply Forall2_app.
      * generalize (Z.to_nat ((448 - (Z.of_nat (length input) + 1)) mod 512)). induction n; cbn; constructor; auto.
      * unfold sha256_bits64. change (rev (seq 0 64)) with (map (fun i => 63 - i) (seq 0 64)). rewrite map_map.
        apply Forall2_map_both, Forall2_diag. intros i Hi. apply in_seq in Hi. rewrite land1_odd, Z.shiftr_div_pow2 by lia.
        replace (Z.of_nat (63 - i)) with (63 - Z.of_nat i)%Z by lia. apply Rc.
    + rewrite !app_length, map_length, rev_length, seq_length, repeat_length. cbn [length]. lia.
  - lia.
  - lia.
  - rewrite app_length. cbn [length].
    replace (length input + 1 + 64 + Z.to_nat ((448 - (Z.of_nat (length input) + 1)) mod 512)) with (q * 512) by lia.
    apply Nat.mod_mul. lia.
Qed.

Lemma bits_of_word_rev z : bits_of_word z = rev (z2le 32 z).
Proof.
  rewrite <- bits_of_z2le. unfold bits_of_word, bits_of. rewrite <- map_rev. change (rev (seq 0 32)) with (map (fun i => 31 - i) (seq 0 32)).
  rewrite map_map. apply map_ext_in. intros i Hi. apply in_seq in Hi. unfold bit_of.
  now replace (Z.of_nat (31 - i)) with (31 - Z.of_nat i)%Z by lia.
Qed.

(** ** The whole function *)
Section Whole.
Context {P : PrimeField} (H : HL P).

Lemma compression_hwp input bs cur h : length input = 512 -> Forall2 (hb H) input bs -> Forall2 (hw H) cur (h_list h) ->
  hwp H (sha256_compression input cur) (fun r => Forall2 (hw H) r (h_list (compress h (words_of_block bs)))).
Proof.
  intros Hl HF HC. unfold sha256_compression. rewrite Hl. cbn [Nat.eqb negb]. rewrite (Forall2_length _ _ _ HC).
  destruct (chunks_length 32 16 ltac:(lia) input Hl) as [HL HE].
  eapply hwp_bindq with (Q1 := fun w => Forall2 (hw H) w (words_of_block bs)).
  - unfold words_of_block. apply hwp_mapq with (X := fun c z => length c = 32 /\ exists b, Forall2 (hb H) c b /\ z = word_of_bits b).
    + pose proof (chunks_Forall2 (hb H) 32 ltac:(lia) _ _ HF) as HCk. revert HE. clear HL.
      induction HCk as [|c b l m Hcb _ IH]; intros HE; cbn; constructor; inversion HE; subst; eauto.
    + intros j c z _ _ (Hc & b & Hb & ->). destruct (hw_from_be H c b Hc Hb) as (w & -> & Hw). cbn. now apply hwp_ret.
  - cbv beta. intros w Hw. change (hwp H (multieq_scope (compression_body w cur)) (fun r => Forall2 (hw H) r (h_list (compress h (words_of_block bs))))).
    apply hwp_scope. intros L HI. apply body_wp.
    + rewrite (Forall2_length _ _ _ Hw). unfold words_of_block. rewrite map_length.
      apply (chunks_length 32 16); [lia|]. now rewrite <- (Forall2_length _ _ _ HF).
    + eapply Forall2_impl; [|exact Hw]. auto.
    + eapply Forall2_impl; [|exact HC]. auto.
Qed.

Lemma H0_u32 : Forall u32 H0_256.
Proof. rewrite <- IV_table. unfold IV. repeat (constructor; [unfold u32; lia|]). constructor. Qed.
Lemma iv_hw : Forall2 (hw H) get_sha256_iv (h_list (h_of H0_256)).
Proof.
  unfold get_sha256_iv. rewrite IV_table. pose proof H0_u32 as HU. change (h_list (h_of H0_256)) with H0_256.
  induction HU; cbn; constructor; auto. now apply hw_const.
Qed.
Lemma output_hb r zs : Forall2 (hw H) r zs -> Forall2 (hb H) (concat (map into_bits_be r)) (concat (map bits_of_word zs)).
Proof.
  intros HF. apply concat_Forall2, Forall2_map_both. eapply Forall2_impl; [|exact HF]. intros w z Hw.
  unfold into_bits_be. rewrite bits_of_word_rev. apply Forall2_rev, hw_bits. exact Hw.
Qed.

Lemma block_hwp input bs : length input = 512 -> Forall2 (hb H) input bs ->
  hwp H (sha256_block_no_padding input) (fun r => Forall2 (hb H) r (sha256_block_spec bs)).
Proof.
  intros Hl HF. unfold sha256_block_no_padding. rewrite Hl. cbn [Nat.eqb negb].
  eapply hwp_bindq; [apply (compression_hwp input bs _ _ Hl HF iv_hw)|]. cbv beta. intros r Hr.
  apply hwp_ret. now apply output_hb.
Qed.

Lemma sha256_hwp input bs : length input mod 8 = 0 -> Forall2 (hb H) input bs ->
  hwp H (sha256 input) (fun r => Forall2 (hb H) r (sha256_spec bs)).
Proof.
  intros Hl HF. unfold sha256. rewrite Hl. cbn [Nat.eqb negb].
  destruct (padding_spec (hb H) (hb_const H) input bs HF) as (padded & k & -> & HP & Hk).
  rewrite Hk, Nat.mod_mul by lia. cbn [Nat.eqb negb].
  destruct (chunks_length 512 k ltac:(lia) padded Hk) as [_ HE]. rewrite Forall_forall in HE.
  eapply hwp_bindq.
  - eapply hwp_foldq with (X := Forall2 (hb H)) (R := fun cur h => Forall2 (hw H) cur (h_list h)) (g := fun h block => compress h (words_of_block block)).
    + apply chunks_Forall2; [lia|exact HP].
    + exact iv_hw.
    + intros j x y s t Hx _ Hxy Hst. apply hwp_ns. apply compression_hwp; auto.
  - cbv beta. intros r Hr. apply hwp_ret. now apply output_hb.
Qed.
End Whole.

(** ** Witness independence *)
Section Shape.
Context {P : PrimeField}.
Definition wx (w w' : UInt32) : Prop := exists c, wsim c w w'.

Lemma from_bits_be_sim bits bits' : Forall2 bsim bits bits' -> forall w, from_bits_be bits = Done w ->
  exists w', from_bits_be bits' = Done w' /\ wx w w'.
Proof.
  intros HF w E. pose proof (Forall2_length _ _ _ HF) as Hl. unfold from_bits_be in *. rewrite <- Hl.
  destruct (Nat.eqb_spec (length bits) 32) as [H32|]; [|discriminate]. inversion E; subst. eexists. split; [reflexivity|].
  eexists. split; [|intros HE; exact HE]. split; [|split].
  - cbn [u_bits]. now apply Forall2_rev.
  - split; [apply (from_bits_be_tracks bits)|apply (from_bits_be_tracks bits')]; unfold from_bits_be; [rewrite H32|rewrite <- Hl, H32]; reflexivity.
  - intros HE. unfold uconst in HE. cbn [u_bits u_value] in *.
    assert (Hk : exists bs, Forall2 (fun x b => b_value x = Some b) bits bs /\ Forall2 (fun x b => b_value x = Some b) bits' bs).
    { assert (HE' : forallb is_constant bits = true).
      { rewrite forallb_forall in HE |- *. intros x Hx. apply HE. now apply in_rev in Hx. }
      clear -HF HE'. induction HF as [|x y l l' Hxy _ IH]; [exists []; split; constructor|]. cbn in HE'. apply andb_true_iff in HE' as [Hx Hl].
      destruct (IH Hl) as (bs & H1 & H2). destruct x as [a|a|b]; try discriminate. destruct y as [a'|a'|b']; cbn in Hxy; try tauto. subst.
      exists (b' :: bs). split; constructor; auto. }
    destruct Hk as (bs & K1 & K2). rewrite (from_bits_be_known bits bs), (from_bits_be_known bits' bs) by (auto; lia). split; discriminate.
Qed.

Lemma idx_sim {B C} (l l' : list UInt32) i (k : UInt32 -> prog P (res B)) (k' : UInt32 -> prog P (res C)) R : Forall2 wx l l' ->
  (forall w w' c, wsim c w w' -> sim (k w) (k' w') R) -> sim (idx l i k) (idx l' i k') R.
Proof.
  intros HF H. unfold idx. destruct (nth_error l i) as [w|] eqn:E.
  - destruct (Forall2_nth_error_ex _ _ _ HF _ _ E) as (w' & -> & c & Hc). eauto.
  - replace (nth_error l' i) with (@None UInt32); [exact I|]. symmetry. apply nth_error_None. rewrite <- (Forall2_length _ _ _ HF).
    now apply nth_error_None.
Qed.

Lemma sig_sim {B C} c w w' a b d n1 n2 (k : UInt32 -> prog P (res B)) (k' : UInt32 -> prog P (res C)) R : wsim c w w' ->
  (forall r r', wsim c r r' -> sim (k r) (k' r') (resR R)) ->
  sim (bindq (ns n1 (u_xor (u_rotr w a) (u_rotr w b))) (fun s => bindq (ns n2 (u_xor s (u_rotr w d))) k))
      (bindq (ns n1 (u_xor (u_rotr w' a) (u_rotr w' b))) (fun s => bindq (ns n2 (u_xor s (u_rotr w' d))) k')) (resR R).
Proof.
  intros Hw H. eapply sim_bindq; [apply sim_ns, u_xor_sim; [apply rotr_sim, Hw|eapply sim_weak, rotr_sim, Hw]|].
  intros r r' Hr. eapply sim_bindq; [apply sim_ns, u_xor_sim; [exact Hr|eapply sim_weak, rotr_sim, Hw]|exact H].
Qed.
Lemma sig_shr_sim {B C} c w w' a b d n1 n2 (k : UInt32 -> prog P (res B)) (k' : UInt32 -> prog P (res C)) R : wsim c w w' ->
  (forall r r', wsim c r r' -> sim (k r) (k' r') (resR R)) ->
  sim (bindq (ns n1 (u_xor (u_rotr w a) (u_rotr w b))) (fun s => bindq (ns n2 (u_xor s (u_shr w d))) k))
      (bindq (ns n1 (u_xor (u_rotr w' a) (u_rotr w' b))) (fun s => bindq (ns n2 (u_xor s (u_shr w' d))) k')) (resR R).
Proof.
  intros Hw H. eapply sim_bindq; [apply sim_ns, u_xor_sim; [apply rotr_sim, Hw|eapply sim_weak, rotr_sim, Hw]|].
  intros r r' Hr. eapply sim_bindq; [apply sim_ns, u_xor_sim; [exact Hr|eapply shr_simw, sim_weak, Hw]|exact H].
Qed.

Lemma wsimw_mono (c c' : bool) w w' : (c' = true -> c = true) -> wsim c w w' -> wsimw c' w w'.
Proof. intros H Hw. eapply simw_mono; [exact H|]. now apply sim_weak. Qed.
Ltac mono_c := first [eapply wsimw_mono; [|eassumption] | eapply simw_mono; [|eassumption]]; intros ?Hand; rewrite ?andb_true_iff in *; tauto.

Lemma w_extension_sim i w w' : Forall2 wx w w' -> sim (@w_extension P i w) (w_extension i w') (resR (Forall2 wx)).
Proof.
  intros HF. unfold w_extension. apply sim_ns. apply idx_sim; [exact HF|]. intros w15 w15' c15 H15.
  eapply sig_shr_sim; [exact H15|]. intros s0 s0' Hs0. apply idx_sim; [exact HF|]. intros w2 w2' c2 H2.
  eapply sig_shr_sim; [exact H2|]. intros s1 s1' Hs1.
  apply idx_sim; [exact HF|]. intros w16 w16' c16 H16. apply idx_sim; [exact HF|]. intros w7 w7' c7 H7.
  eapply sim_bindq.
  - apply sim_ns, addmany_sim with (c := c16 && c15 && c7 && c2).
    + repeat (constructor; [mono_c|]); constructor.
    + cbn [forallb]. rewrite !andb_true_iff. intros (U1 & U2 & U3 & U4 & _).
      apply (proj2 H16) in U1. apply (proj2 Hs0) in U2. apply (proj2 H7) in U3. apply (proj2 Hs1) in U4. tauto.
  - intros r r' Hr. cbn. apply Forall2_app; [exact HF|]. constructor; [eexists; exact Hr|constructor].
Qed.

Definition msim (c : bool) (m m' : Maybe) : Prop :=
  match m, m' with
  | Concrete w, Concrete w' => wsim c w w'
  | Deferred v, Deferred v' => Forall2 (wsimw c) v v' /\ (forallb uconst v = true -> c = true)
  | _, _ => False
  end.
Lemma compute_sim c m m' n : msim c m m' -> sim (@compute P m n []) (compute m' n []) (resR (wsim c)).
Proof.
  intros H. unfold compute. apply sim_ns. destruct m as [v|w], m' as [v'|w']; cbn in H; try tauto.
  rewrite !app_nil_r. now apply addmany_sim.
Qed.
Lemma compute_sim1 c m m' n d o o' : deferred m -> msim c m m' -> wsim d o o' ->
  sim (@compute P m n [o]) (compute m' n [o']) (resR (wsim (c && d))).
Proof.
  intros HD H Ho. unfold compute. apply sim_ns. destruct m as [v|w], m' as [v'|w']; cbn in H, HD; try tauto.
  destruct H as [H Hc]. apply addmany_sim.
  - apply Forall2_app.
    + eapply Forall2_impl; [|exact H]. intros x y Hxy. mono_c.
    + constructor; [mono_c|constructor].
  - rewrite forallb_app. cbn [forallb]. rewrite !andb_true_iff. intros (U1 & U2 & _). split; [auto|]. now apply (proj2 Ho).
Qed.

Definition rsim (r r' : Regs) : Prop := exists ca cb cc cd ce cf cg ch,
  (msim ca (ra r) (ra r') /\ wsim cb (rb r) (rb r') /\ wsim cc (rc r) (rc r') /\ wsim cd (rd r) (rd r')) /\
  (msim ce (re r) (re r') /\ wsim cf (rf r) (rf r') /\ wsim cg (rg r) (rg r') /\ wsim ch (rh r) (rh r')) /\
  ((ca = true -> cb = true) /\ (cb = true -> cc = true) /\ (ce = true -> cf = true) /\ (cf = true -> cg = true)).

Lemma round_sim w w' i r r' : Forall2 wx w w' -> rsim r r' ->
  sim (@round_step P w i r) (round_step w' i r') (resR (fun r r' => rsim r r' /\ deferred (ra r) /\ deferred (re r))).
Proof.
  intros HF (ca & cb & cc & cd & ce & cf & cg & ch & (Ha & Hb & Hc & Hd) & (He & Hf & Hg & Hh) & (X1 & X2 & X3 & X4)).
  unfold round_step. apply sim_ns.
  eapply sim_bindq; [apply compute_sim; exact He|]. intros e e' He'.
  eapply sig_sim; [exact He'|]. intros s1 s1' Hs1.
  eapply sim_bindq; [apply sim_ns, u_ch_sim with (k := ce && cf && cg); mono_c|]. intros chw chw' Hch.
  unfold idx at 1 3. destruct (nth_error ROUND_CONSTANTS i) as [k|] eqn:Ek; [|exact I].
  assert (Hk : wsim true (u_constant k) (u_constant k)).
  { apply constant_sim; [|reflexivity]. pose proof K256_u32 as HK. rewrite <- K_table in HK. rewrite Forall_forall in HK.
    apply HK. eapply nth_error_In; eauto. }
  apply idx_sim; [exact HF|]. intros wi wi' cw Hwi. cbv zeta.
  eapply sim_bindq; [apply compute_sim; exact Ha|]. intros a a' Ha'.
  eapply sig_sim; [exact Ha'|]. intros s0 s0' Hs0.
  eapply sim_bindq; [apply sim_ns, u_maj_sim with (k := ca && cb && cc); mono_c|]. intros mj mj' Hmj.
  cbn [sim resR]. split; [|cbn; auto].
  exists (ch && ce && (ce && cf && cg) && cw && ca && (ca && cb && cc)), ca, cb, cc, (ch && ce && (ce && cf && cg) && cw && cd), ce, cf, cg.
  cbn [ra rb rc rd re rf rg rh msim app].
  refine (conj (conj _ (conj Ha' (conj Hb Hc))) (conj (conj _ (conj He' (conj Hf Hg))) _)).
  - split.
    + repeat (constructor; [mono_c|]); constructor.
    + cbn [forallb]. rewrite !andb_true_iff. intros (U1 & U2 & _ & _ & U5 & U6 & _).
      apply (proj2 Hh) in U1. apply (proj2 Hs1) in U2. apply (proj2 Hwi) in U5. apply (proj2 Hs0) in U6. tauto.
  - split.
    + repeat (constructor; [mono_c|]); constructor.
    + cbn [forallb]. rewrite !andb_true_iff. intros (U1 & U2 & _ & _ & U5 & U6 & _).
      apply (proj2 Hh) in U1. apply (proj2 Hs1) in U2. apply (proj2 Hwi) in U5. apply (proj2 Hd) in U6. tauto.
  - rewrite !andb_true_iff. tauto.
Qed.

(** The chaining value: eight words, with the dependencies between them that the rounds rely on. *)
Definition csim (cur cur' : list UInt32) : Prop :=
  match cur, cur' with
  | [x0; x1; x2; x3; x4; x5; x6; x7], [y0; y1; y2; y3; y4; y5; y6; y7] =>
      rsim (mkRegs (Concrete x0) x1 x2 x3 (Concrete x4) x5 x6 x7) (mkRegs (Concrete y0) y1 y2 y3 (Concrete y4) y5 y6 y7)
  | _, _ => False
  end.

Lemma add2_sim n c d x x' y y' : wsim c x x' -> wsim d y y' -> sim (ns n (@addmany P [x; y])) (ns n (addmany [x'; y'])) (resR (wsim (d && c))).
Proof.
  intros Hx Hy. apply sim_ns, addmany_sim.
  - repeat (constructor; [mono_c|]); constructor.
  - cbn [forallb]. rewrite !andb_true_iff. intros (U1 & U2 & _). apply (proj2 Hx) in U1. apply (proj2 Hy) in U2. auto.
Qed.

Lemma sim_foldq_ne {S S' A A'} (f : nat -> S -> A -> prog P (res S)) (g : nat -> S' -> A' -> prog P (res S')) (I : A -> A' -> Prop)
    (R R1 : S -> S' -> Prop) x x' l l' i s s' : I x x' -> Forall2 I l l' -> R s s' ->
  (forall j s s' x x', R s s' -> I x x' -> sim (f j s x) (g j s' x') (resR (fun s s' => R s s' /\ R1 s s'))) ->
  sim (foldq f i s (x :: l)) (foldq g i s' (x' :: l')) (resR (fun s s' => R s s' /\ R1 s s')).
Proof.
  intros Hx HF HR H. cbn [foldq]. eapply sim_bindq; [apply H; eauto|]. intros t t' Ht.
  eapply sim_foldq; [exact HF|exact Ht|]. intros j u u' y y' [Hu _] Hy. eauto.
Qed.

Lemma body_sim w w' cur cur' : Forall2 wx w w' -> csim cur cur' ->
  sim (@compression_body P w cur) (compression_body w' cur') (resR csim).
Proof.
  intros HF HC. unfold compression_body. eapply sim_bindq.
  { apply sim_foldq with (I := eq) (R := Forall2 wx); [|exact HF|].
    - generalize (seq 16 48). induction l; constructor; auto.
    - intros j s s' x x' Hs _. now apply w_extension_sim. }
  intros v v' HV. rewrite <- (Forall2_length _ _ _ HV). destruct (negb _); [exact I|].
  destruct cur as [|x0 [|x1 [|x2 [|x3 [|x4 [|x5 [|x6 [|x7 [|]]]]]]]]]; cbn in HC; try tauto.
  destruct cur' as [|y0 [|y1 [|y2 [|y3 [|y4 [|y5 [|y6 [|y7 [|]]]]]]]]]; cbn in HC; try tauto.
  eapply sim_bindq.
  { change (seq 0 64) with (0 :: seq 1 63).
    apply sim_foldq_ne with (I := eq) (R := rsim) (R1 := fun r r' => deferred (ra r) /\ deferred (re r)); [reflexivity| |exact HC|].
    - generalize (seq 1 63). induction l; constructor; auto.
    - intros j s s' x x' Hs _. now apply round_sim. }
  intros r r' ((ca & cb & cc & cd & ce & cf & cg & ch & (Ha & Hb & Hc & Hd) & (He & Hf & Hg & Hh) & (X1 & X2 & X3 & X4)) & Da & De).
  destruct HC as (ka & kb & kc & kd & ke & kf & kg & kh & (Ka & Kb & Kc & Kd) & (Ke & Kf & Kg & Kh) & (Y1 & Y2 & Y3 & Y4)).
  cbn [ra rb rc rd re rf rg rh msim] in Ka, Kb, Kc, Kd, Ke, Kf, Kg, Kh. unfold finish.
  eapply sim_bindq; [apply compute_sim1; eassumption|]. intros h0 h0' H0.
  eapply sim_bindq; [apply add2_sim; eassumption|]. intros h1 h1' H1.
  eapply sim_bindq; [apply add2_sim; eassumption|]. intros h2 h2' H2.
  eapply sim_bindq; [apply add2_sim; eassumption|]. intros h3 h3' H3.
  eapply sim_bindq; [apply compute_sim1; eassumption|]. intros h4 h4' H4.
  eapply sim_bindq; [apply add2_sim; eassumption|]. intros h5 h5' H5.
  eapply sim_bindq; [apply add2_sim; eassumption|]. intros h6 h6' H6.
  eapply sim_bindq; [apply add2_sim; eassumption|]. intros h7 h7' H7.
  cbn [sim resR csim]. do 8 eexists. cbn [ra rb rc rd re rf rg rh msim].
  refine (conj (conj H0 (conj H1 (conj H2 H3))) (conj (conj H4 (conj H5 (conj H6 H7))) _)).
  rewrite !andb_true_iff. tauto.
Qed.

Lemma compression_sim input input' cur cur' : Forall2 bsim input input' -> csim cur cur' ->
  sim (@sha256_compression P input cur) (sha256_compression input' cur') (resR csim).
Proof.
  intros HF HC. unfold sha256_compression. rewrite <- (Forall2_length _ _ _ HF). destruct (negb _); [exact I|].
  assert (El : length cur = length cur').
  { destruct cur as [|? [|? [|? [|? [|? [|? [|? [|? [|]]]]]]]]]; cbn in HC; try tauto.
    destruct cur' as [|? [|? [|? [|? [|? [|? [|? [|? [|]]]]]]]]]; cbn in HC; try tauto. }
  rewrite <- El. destruct (negb _); [exact I|]. eapply sim_bindq with (R := Forall2 wx).
  - eapply sim_mapq; [exact (chunks_Forall2 bsim 32 ltac:(lia) _ _ HF)|]. intros j c c' Hc.
    destruct (from_bits_be c) as [w|] eqn:E.
    + destruct (from_bits_be_sim _ _ Hc w E) as (w' & -> & Hw). cbn. exact Hw.
    + unfold from_bits_be in *. rewrite <- (Forall2_length _ _ _ Hc). destruct (Nat.eqb _ _); [discriminate|]. exact I.
  - intros w w' Hw. apply sim_multieq. now apply body_sim.
Qed.

Lemma iv_sim : csim get_sha256_iv get_sha256_iv.
Proof.
  unfold csim, get_sha256_iv, IV. cbn [map]. exists true, true, true, true, true, true, true, true. cbn [ra rb rc rd re rf rg rh msim].
  repeat match goal with |- _ /\ _ => split end; auto; (apply constant_sim; [unfold u32; lia|reflexivity]).
Qed.
Lemma output_sim cur cur' : csim cur cur' -> Forall2 bsim (concat (map into_bits_be cur)) (concat (map into_bits_be cur')).
Proof.
  intros HC. apply concat_Forall2, Forall2_map_both.
  destruct cur as [|? [|? [|? [|? [|? [|? [|? [|? [|]]]]]]]]]; cbn in HC; try tauto.
  destruct cur' as [|? [|? [|? [|? [|? [|? [|? [|? [|]]]]]]]]]; cbn in HC; try tauto.
  destruct HC as (ka & kb & kc & kd & ke & kf & kg & kh & (Ka & Kb & Kc & Kd) & (Ke & Kf & Kg & Kh) & _).
  cbn [ra rb rc rd re rf rg rh msim] in *.
  assert (HB : forall c w w', wsim c w w' -> Forall2 bsim (into_bits_be w) (into_bits_be w')).
  { intros c w w' [[H _] _]. now apply Forall2_rev. }
  repeat (constructor; [eapply HB; eassumption|]). constructor.
Qed.
Lemma block_sim input input' : Forall2 bsim input input' ->
  sim (@sha256_block_no_padding P input) (sha256_block_no_padding input') (resR (Forall2 bsim)).
Proof.
  intros HF. unfold sha256_block_no_padding. rewrite <- (Forall2_length _ _ _ HF). destruct (negb _); [exact I|].
  eapply sim_bindq; [apply compression_sim; [exact HF|apply iv_sim]|]. intros r r' Hr. cbn. now apply output_sim.
Qed.
Lemma pad_zeros_sim (l l' : list Boolean) fuel : Forall2 bsim l l' ->
  match pad_zeros fuel l, pad_zeros fuel l' with Some p, Some p' => Forall2 bsim p p' | None, None => True | _, _ => False end.
Proof.
  revert l l'. induction fuel as [|f IH]; intros l l' HF; cbn [pad_zeros]; rewrite <- (Forall2_length _ _ _ HF); destruct (Nat.eqb _ _); auto.
  apply IH. apply Forall2_app; auto. repeat constructor.
Qed.
Lemma sha256_sim input input' : Forall2 bsim input input' -> sim (@sha256 P input) (sha256 input') (resR (Forall2 bsim)).
Proof.
  intros HF. unfold sha256. rewrite <- (Forall2_length _ _ _ HF). destruct (negb _); [exact I|].
  unfold sha256_padding. rewrite <- (Forall2_length _ _ _ HF).
  pose proof (pad_zeros_sim (input ++ [BConst true]) (input' ++ [BConst true]) 512) as HP.
  destruct (pad_zeros 512 (input ++ [BConst true])) as [p|], (pad_zeros 512 (input' ++ [BConst true])) as [p'|];
    try (apply False_ind, HP, Forall2_app; [exact HF|repeat constructor]); [|exact I].
  assert (HP' : Forall2 bsim p p') by (apply HP; apply Forall2_app; auto; repeat constructor). clear HP.
  set (len := map _ _).
  assert (HL : Forall2 bsim len len) by (apply Forall2_diag; intros; apply bsim_refl).
  rewrite !app_length, <- (Forall2_length _ _ _ HP'). destruct (negb _); [exact I|].
  eapply sim_bindq.
  - eapply sim_foldq; [exact (chunks_Forall2 bsim 512 ltac:(lia) _ _ (Forall2_app HP' HL))|exact iv_sim|].
    intros j s s' x x' Hs Hx. apply sim_ns. now apply compression_sim.
  - intros r r' Hr. cbn. now apply output_sim.
Qed.

(** ** Structure *)
Lemma body_ns w cur : ns_ok 0 (@compression_body P w cur).
Proof.
  pose proof (@u_xor_gadget P). pose proof (@u_ch_gadget P). pose proof (@u_maj_gadget P). pose proof (@addmany_ns P).
  unfold compression_body, w_extension, round_step, finish, compute, idx. struct; auto using g_ns.
Qed.
Lemma body_prop w cur : prop isErr (@compression_body P w cur).
Proof.
  pose proof (@u_xor_gadget P). pose proof (@u_ch_gadget P). pose proof (@u_maj_gadget P). pose proof (@addmany_prop P).
  unfold compression_body, w_extension, round_step, finish, compute, idx. struct; auto using g_prop.
Qed.
Lemma compression_gadget input cur : Gadget (@sha256_compression P input cur).
Proof.
  unfold sha256_compression, lift. constructor; struct; auto using noeq_scope, ns_ok_scope, prop_scope, body_ns, body_prop.
Qed.
Lemma block_gadget input : Gadget (@sha256_block_no_padding P input).
Proof. unfold sha256_block_no_padding. pose proof compression_gadget. gadget. Qed.
Lemma sha256_gadget input : Gadget (@sha256 P input).
Proof. unfold sha256. pose proof compression_gadget. gadget. Qed.
End Shape.
