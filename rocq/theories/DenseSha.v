(** Dense.v continued: MultiEq, SHA-256 and the circuit of the crate documentation. *)
From Coq Require Import String.
From Coq Require Import ZArith List Bool Lia Field.
From Verif Require Import Prelude PrimeField Circuit Loops BooleanGadget NumGadget MultiEq UInt32 UInt32Proof Multipack Sha256 Sha256d DomainProof Scope Covered Dense.
Import ListNotations.
Local Open Scope nat_scope.

Section Dense.
Context {P : PrimeField}.
Add Field PFdensesha : (F_field P).
Variable G : Var -> bool.

(** ** MultiEq *)
Definition inv (s : MeSt (P := P)) : Prop := intsafe G (me_used s) (me_lhs s) /\ me_used s <= capacity P.
Lemma inv_new : inv me_new.
Proof. split; [|cbn; lia]. intros v _ _. exists 0%Z. cbn. rewrite ofZ_0. split; [lia|]. split; [reflexivity|]. split; [intros []|reflexivity]. Qed.
Lemma ofZ_small_nonzero z : (Z.abs z < modulus P)%Z -> z <> 0%Z -> (ofZ z : P) <> fzero.
Proof.
  intros H Hz E. pose proof (modulus_pos (P := P)). destruct (Z.lt_ge_cases z 0) as [Hn|Hn].
  - assert (E' : (ofZ (- z) : P) = fzero) by (rewrite ofZ_neg, E; ring). rewrite <- ofZ_0 in E'. apply ofZ_inj_small in E'; lia.
  - rewrite <- ofZ_0 in E. apply ofZ_inj_small in E; lia.
Qed.
Lemma intsafe_safe n l : n <= capacity P -> intsafe (P := P) G n l -> safe G is_aux l.
Proof.
  intros Hn H v Ha Hg Hm. apply written_mentioned in Hm. destruct (H v Ha Hg) as (z & Hz & E & H1 & _). rewrite E. apply ofZ_small_nonzero; [|auto].
  eapply Z.lt_le_trans; [exact Hz|]. eapply Z.le_trans; [|exact (pow2_capacity (P := P))]. apply Z.pow_le_mono_r; lia.
Qed.
Lemma intsafe_push u n L l : intsafe (P := P) G u L -> intsafe G n l -> intsafe G (u + n) (lc_add_scaled L (fpow (ofZ 2) u) l).
Proof.
  intros HL Hl v Ha Hg. destruct (HL v Ha Hg) as (z & Hz & E & Z1 & Z2), (Hl v Ha Hg) as (z' & Hz' & E' & Z1' & Z2').
  exists (z + 2 ^ Z.of_nat u * z')%Z. rewrite add_scaled_app, cf_app, cf_scale, E, E'. unfold mentioned in *. rewrite map_app, fst_scale, in_app_iff.
  assert (HU : (0 < 2 ^ Z.of_nat u)%Z) by (apply Z.pow_pos_nonneg; lia).
  assert (HP : (2 ^ Z.of_nat (u + n) = 2 ^ Z.of_nat u * 2 ^ Z.of_nat n)%Z) by (rewrite Nat2Z.inj_add, Z.pow_add_r by lia; reflexivity).
  split; [rewrite HP; nia|]. split; [rewrite ofZ_add, ofZ_mul, ofZ_pow2_fpow; ring|]. split.
  - intros HM. destruct (in_dec var_dec v (map fst l)) as [Hi|Hi].
    + specialize (Z1' Hi). nia.
    + rewrite (Z2' Hi), Z.mul_0_r, Z.add_0_r. apply Z1. tauto.
  - intros HM. rewrite Z2, Z2' by tauto. lia.
Qed.
Lemma accumulate_dn na s : inv s -> wpD G na (me_accumulate s) (fun n s' => n = na /\ inv s').
Proof.
  intros [H1 H2]. unfold me_accumulate. cbn [bind cs_enforce wpD]. split; [now apply (intsafe_safe (me_used s))|]. split; [apply safe_var|]. intros _.
  split; [reflexivity|]. exact inv_new.
Qed.
Lemma me_eq_dn na s n l r : inv s -> intsafe G n l -> wpD G na (me_enforce_equal s n l r) (fun n' s' => n' = na /\ inv s').
Proof.
  intros Hs Hl. unfold me_enforce_equal.
  assert (K : forall s0, inv s0 -> wpD (P := P) G na (if Nat.ltb (me_used s0 + n) (capacity P) then Ret (me_push s0 n l r) else Panic) (fun n' s' => n' = na /\ inv s')).
  { intros s0 [I1 I2]. destruct (Nat.ltb_spec (me_used s0 + n) (capacity P)); [|exact I]. split; [reflexivity|]. split; cbn [me_push me_used me_lhs]; [now apply intsafe_push|lia]. }
  destruct (Nat.leb _ _).
  - apply wpD_bind. eapply wpD_mono; [|apply accumulate_dn; exact Hs]. intros n0 s0 _ [-> I1]. now apply K.
  - now apply K.
Qed.
Lemma multieq_dn {A} (p : prog P A) : forall na s Q, wpD G na p Q -> inv s -> wpD G na (multieq p s) (fun n x => Q n (fst x) /\ inv (snd x)).
Proof.
  induction p as [a| |n f k IH|n f k IH|n a b c k IH|n l rr k IH|n k IH|k IH]; intros na s Q H Hs; cbn [multieq wpD] in *; auto.
  - destruct H as (H1 & H2 & H3). split; [exact H1|]. split; [exact H2|]. intros HG. now apply IH; [apply H3|].
  - destruct H as [H1 H2]. apply wpD_bind. eapply wpD_mono; [|apply me_eq_dn; [exact Hs|exact H1]]. intros n0 s' _ [-> Hs']. now apply IH.
Qed.
Lemma multieq_scope_dn {A} na (p : prog P (res A)) Q : dn G na p Q -> dn G na (multieq_scope p) Q.
Proof.
  intros H. unfold dn, multieq_scope. apply wpD_bind. eapply wpD_mono; [|apply multieq_dn; [exact H|exact inv_new]]. intros n [r s] _ [Hr Hs]. cbn [fst snd] in *.
  apply wpD_bind. unfold me_drop. destruct (Nat.ltb 0 (me_used s)); [|exact Hr]. apply wpD_bind. eapply wpD_mono; [|apply accumulate_dn; exact Hs]. intros n' s' _ [-> _]. exact Hr.
Qed.

(** ** Loops *)
Lemma foldq_dn {S A} (f : nat -> S -> A -> prog P (res S)) (Inv : nat -> S -> Prop) l : forall i na s,
  (forall j n s x, In x l -> Inv n s -> dn G n (f j s x) Inv) -> Inv na s -> dn G na (foldq f i s l) Inv.
Proof.
  induction l as [|x l IH]; intros i na s Hf Hs; cbn [foldq]; [exact Hs|].
  eapply dn_bindq; [apply Hf; [now left|exact Hs]|]. intros n s' _ Hs'. apply IH; [|exact Hs']. intros. apply Hf; [now right|assumption].
Qed.
Lemma mapq_dn {A B} (f : nat -> A -> prog P (res B)) (R : B -> Prop) l : forall i na,
  (forall j n x, In x l -> dn G n (f j x) (fun _ y => R y)) -> dn G na (mapq f i l) (fun _ ys => Forall R ys).
Proof.
  induction l as [|x l IH]; intros i na Hf; cbn [mapq]; [constructor|].
  eapply dn_bindq; [apply Hf; now left|]. intros n y _ Hy. eapply dn_bindq; [apply IH; intros; apply Hf; now right|]. intros n' ys _ Hys. apply dn_ret. now constructor.
Qed.
Lemma idx_dn {A B} na (l : list A) i (k : A -> prog P (res B)) Q : (forall x, In x l -> dn G na (k x) Q) -> dn G na (idx l i k) Q.
Proof. intros H. unfold idx. destruct (nth_error l i) as [x|] eqn:E; [|exact I]. apply H. exact (nth_error_In _ _ E). Qed.
Lemma chunks_Forall {A} (Q : A -> Prop) n l : 0 < n -> Forall Q l -> Forall (Forall Q) (chunks n l).
Proof. intros Hn H. rewrite <- (chunks_concat n l Hn) in H. apply Forall_forall. intros c Hc. apply Forall_forall. intros x Hx. apply (proj1 (Forall_forall _ _) H). apply in_concat. eauto. Qed.

(** ** SHA-256 *)
Notation sw := (sw G). Notation sb := (sb G).
Definition len32 (w : UInt32) : Prop := length (u_bits w) = 32.
Definition wlw (lo n : nat) (l : list UInt32) : Prop := Forall len32 l /\ wl G lo n (flat_map u_bits l).
Lemma wlw_app lo m n x y : lo <= m -> m <= n -> wlw lo m x -> wlw m n y -> wlw lo n (x ++ y).
Proof. intros H1 H2 [X1 X2] [Y1 Y2]. split; [now apply Forall_app|]. rewrite flat_map_app. now apply wl_app with (m := m). Qed.
Lemma wlw_mono lo n lo' n' x : lo' <= lo -> n <= n' -> wlw lo n x -> wlw lo' n' x.
Proof. intros H1 H2 [X1 X2]. split; [exact X1|]. now apply (wl_mono G lo n). Qed.
Lemma wlw_one lo n w : ww G lo n w -> wlw lo n [w].
Proof. intros [H1 H2]. split; [constructor; [exact H1|constructor]|]. cbn [flat_map]. now rewrite app_nil_r. Qed.
Lemma wlw_strong lo n l : Forall sw l -> wlw lo n l.
Proof.
  intros H. split.
  - eapply Forall_impl; [|exact H]. intros w [Hw _]. exact Hw.
  - apply wl_strong. apply Forall_flat_map. eapply Forall_impl; [|exact H]. intros w [_ Hw]. exact Hw.
Qed.
Lemma add_dn na lo n ops : wlw lo n ops -> dn G na (@addmany P ops) (fun _ w => sw w).
Proof. intros [H1 [H2 _]]. eapply dn_mono; [now apply addmany_dn|]. intros ? ? _ H. exact (proj1 H). Qed.
Lemma add_strong_dn na ops : Forall sw ops -> dn G na (@addmany P ops) (fun _ w => sw w).
Proof. intros H. eapply add_dn. exact (wlw_strong 0 0 ops H). Qed.
Lemma xor_xor_dn {A} na a b c n1 n2 (k : UInt32 -> prog P (res A)) Q : sw a -> sw b -> sw c -> (forall n w, na <= n -> ww G na n w -> dn G n (k w) Q) ->
  dn G na (bindq (ns n1 (u_xor a b)) (fun s => bindq (ns n2 (u_xor s c)) k)) Q.
Proof.
  intros Ha Hb Hc Hk. eapply dn_bindq; [apply dn_ns, (u_xor_dn G na na); [lia|now apply sw_ww|exact Hb]|]. intros n s Hn Hs.
  eapply dn_bindq; [apply dn_ns, (u_xor_dn G na n); [lia|exact Hs|exact Hc]|]. intros n' s' Hn' Hs'. apply Hk; [lia|exact Hs'].
Qed.
Lemma sw_in l w : Forall sw l -> In w l -> sw w. Proof. intros H. exact (proj1 (Forall_forall _ _) H w). Qed.
Lemma w_extension_dn na i w : Forall sw w -> dn G na (@w_extension P i w) (fun _ w' => Forall sw w').
Proof.
  intros Hw. unfold w_extension. apply dn_ns, idx_dn. intros w15 H15. apply (sw_in w) in H15; [|exact Hw].
  apply xor_xor_dn; [now apply sw_rotr|now apply sw_rotr|now apply sw_shr|]. intros n s0 Hn Hs0.
  apply idx_dn. intros w2 H2. apply (sw_in w) in H2; [|exact Hw].
  apply xor_xor_dn; [now apply sw_rotr|now apply sw_rotr|now apply sw_shr|]. intros n' s1 Hn' Hs1.
  apply idx_dn. intros w16 H16. apply idx_dn. intros w7 H7. apply (sw_in w) in H16, H7; [|exact Hw|exact Hw].
  eapply dn_bindq; [apply dn_ns, (add_dn n' na n')|].
  - apply (wlw_app na n n' [w16; s0; w7] [s1]); [lia|lia| |now apply wlw_one]. apply (wlw_app na n n [w16; s0] [w7]); [lia|lia| |apply wlw_strong; auto].
    apply (wlw_app na na n [w16] [s0]); [lia|lia|apply wlw_strong; auto|now apply wlw_one].
  - intros n2 t _ Ht. apply dn_ret. apply Forall_app. auto.
Qed.
Definition mb (n : nat) (m : Maybe) : Prop := match m with Concrete w => sw w | Deferred l => wlw 0 n l end.
Lemma compute_dn na n m name others : mb n m -> Forall sw others -> dn G na (@compute P m name others) (fun _ w => sw w).
Proof.
  intros Hm Ho. unfold compute. apply dn_ns. destruct m as [l|w]; [|exact Hm]. apply (add_dn na 0 n).
  apply (wlw_app 0 n n); [lia|lia|exact Hm|]. now apply wlw_strong.
Qed.
Definition rinv (n : nat) (r : Regs) : Prop :=
  mb n (ra r) /\ sw (rb r) /\ sw (rc r) /\ sw (rd r) /\ mb n (re r) /\ sw (rf r) /\ sw (rg r) /\ sw (rh r).
Lemma round_step_dn na w i r : Forall sw w -> rinv na r -> dn G na (@round_step P w i r) rinv.
Proof.
  intros Hw (Ha & Hb & Hc & Hd & He & Hf & Hg & Hh). unfold round_step. apply dn_ns.
  eapply dn_bindq; [apply (compute_dn na na); [exact He|constructor]|]. intros n0 e _ Se.
  apply xor_xor_dn; [now apply sw_rotr|now apply sw_rotr|now apply sw_rotr|]. intros n1 s1 H1 Hs1.
  eapply dn_bindq; [apply dn_ns, u_ch_dn; assumption|]. intros n2 ch H2 Hch.
  apply idx_dn. intros k _. apply idx_dn. intros wi Hwi. apply (sw_in w) in Hwi; [|exact Hw]. cbv zeta.
  assert (T1 : wlw n0 n2 [rh r; s1; ch; u_constant k; wi]).
  { apply (wlw_app n0 n2 n2 [rh r; s1; ch] [u_constant k; wi]); [lia|lia| |apply wlw_strong; constructor; [apply sw_const|constructor; [exact Hwi|constructor]]].
    apply (wlw_app n0 n1 n2 [rh r; s1] [ch]); [lia|lia| |now apply wlw_one].
    apply (wlw_app n0 n0 n1 [rh r] [s1]); [lia|lia|apply wlw_strong; auto|now apply wlw_one]. }
  eapply dn_bindq; [apply (compute_dn n2 na); [exact Ha|constructor]|]. intros n3 a H3 Sa.
  apply xor_xor_dn; [now apply sw_rotr|now apply sw_rotr|now apply sw_rotr|]. intros n4 s0 H4 Hs0.
  eapply dn_bindq; [apply dn_ns, u_maj_dn; assumption|]. intros n5 mj H5 Hmj. apply dn_ret.
  unfold rinv. cbn [ra rb rc rd re rf rg rh mb].
  assert (B1 : wlw 0 n5 ([rh r; s1; ch; u_constant k; wi] ++ [s0; mj])).
  { apply (wlw_app 0 n3 n5); [lia|lia|apply (wlw_mono n0 n2); [lia|lia|exact T1]|]. apply (wlw_app n3 n4 n5 [s0] [mj]); [lia|lia| |]; now apply wlw_one. }
  assert (B2 : wlw 0 n5 ([rh r; s1; ch; u_constant k; wi] ++ [rd r])).
  { apply (wlw_app 0 n2 n5); [lia|lia|apply (wlw_mono n0 n2); [lia|lia|exact T1]|]. apply wlw_strong; auto. }
  exact (conj B1 (conj Sa (conj Hb (conj Hc (conj B2 (conj Se (conj Hf Hg))))))).
Qed.
Lemma finish_dn na r c0 c1 c2 c3 c4 c5 c6 c7 : rinv na r -> Forall sw [c0; c1; c2; c3; c4; c5; c6; c7] ->
  dn G na (@finish P r c0 c1 c2 c3 c4 c5 c6 c7) (fun _ l => Forall sw l /\ length l = 8).
Proof.
  intros (Ha & Hb & Hc & Hd & He & Hf & Hg & Hh) HC.
  assert (S0 := Forall_inv HC). apply Forall_inv_tail in HC. assert (S1 := Forall_inv HC). apply Forall_inv_tail in HC. assert (S2 := Forall_inv HC). apply Forall_inv_tail in HC.
  assert (S3 := Forall_inv HC). apply Forall_inv_tail in HC. assert (S4 := Forall_inv HC). apply Forall_inv_tail in HC. assert (S5 := Forall_inv HC). apply Forall_inv_tail in HC.
  assert (S6 := Forall_inv HC). apply Forall_inv_tail in HC. assert (S7 := Forall_inv HC). clear HC. unfold finish.
  eapply dn_bindq; [apply (compute_dn _ na); auto|]. intros n0 h0 _ H0. do 3 (eapply dn_bindq; [apply dn_ns, add_strong_dn; auto|]; intros ? ? _ ?).
  eapply dn_bindq; [apply (compute_dn _ na); auto|]. intros n4 h4 _ H4. do 3 (eapply dn_bindq; [apply dn_ns, add_strong_dn; auto|]; intros ? ? _ ?).
  apply dn_ret. split; [auto 10|reflexivity].
Qed.
Lemma compression_dn na input cur : Forall sb input -> Forall sw cur -> dn G na (@sha256_compression P input cur) (fun _ l => Forall sw l /\ length l = 8).
Proof.
  intros Hi Hc. unfold sha256_compression. destruct (negb _); [exact I|]. destruct (negb _); [exact I|].
  eapply dn_bindq; [apply (mapq_dn _ sw)|].
  - intros j n c Hin. pose proof (proj1 (Forall_forall _ _) (chunks_Forall sb 32 input ltac:(lia) Hi) c Hin) as Hs. unfold from_bits_be.
    destruct (Nat.eqb_spec (length c) 32) as [E|]; [|exact I]. cbn [lift]. apply dn_ret. split; cbn [u_bits]; [now rewrite rev_length|now apply Forall_rev].
  - intros n w _ Hw. apply multieq_scope_dn. unfold compression_body. eapply dn_bindq; [apply (foldq_dn _ (fun _ l => Forall sw l)); [|exact Hw]|].
    + intros j n' l x _ Hl. now apply w_extension_dn.
    + intros n' w' _ Hw'. destruct (negb _); [exact I|]. destruct cur as [|c0 [|c1 [|c2 [|c3 [|c4 [|c5 [|c6 [|c7 [|c8 cur]]]]]]]]]; try exact I.
      eapply dn_bindq; [apply (foldq_dn _ rinv)|].
      * intros j n2 r x _ Hr. now apply round_step_dn.
      * pose proof (proj1 (Forall_forall _ _) Hc) as K. cbn [In] in K. unfold rinv. cbn [ra rb rc rd re rf rg rh mb].
        repeat split; apply K; tauto.
      * intros n2 r _ Hr. now apply finish_dn.
Qed.
Lemma sb_const c : sb (BConst c). Proof. intros v []. Qed.
Lemma pad_zeros_sb f : forall l p, Forall sb l -> pad_zeros f l = Some p -> Forall sb p.
Proof.
  induction f as [|f IH]; intros l p Hl; cbn [pad_zeros]; destruct (Nat.eqb _ 0); try discriminate; try (intros E; injection E as <-; exact Hl).
  intros E. apply (IH _ _) in E; [exact E|]. apply Forall_app. split; [exact Hl|]. constructor; [apply sb_const|constructor].
Qed.
Lemma some_inj {A} (a b : A) : Some a = Some b -> a = b. Proof. congruence. Qed.
Lemma digest_length l : Forall sw l -> length (concat (map into_bits_be l)) = 32 * length l.
Proof. induction 1 as [|w l [Hw _] _ IH]; cbn [map concat length]; [reflexivity|]. rewrite app_length, IH. unfold into_bits_be. rewrite rev_length, Hw. lia. Qed.
Lemma digest_sb l : Forall sw l -> Forall sb (concat (map into_bits_be l)).
Proof. intros H. apply Forall_concat, Forall_map. eapply Forall_impl; [|exact H]. intros w [_ Hw]. now apply Forall_rev. Qed.
Lemma block_dn na input : Forall sb input -> dn G na (@sha256_block_no_padding P input) (fun _ l => Forall sb l /\ length l = 256).
Proof.
  intros Hi. unfold sha256_block_no_padding. destruct (negb _); [exact I|]. eapply dn_bindq; [apply compression_dn; [exact Hi|]|].
  - unfold get_sha256_iv. apply Forall_map, Forall_forall. intros z _. apply sw_const.
  - intros n l _ [Hl L]. apply dn_ret. split; [now apply digest_sb|]. rewrite digest_length, L by exact Hl. reflexivity.
Qed.
Lemma sha256_dn na input : Forall sb input -> dn G na (@sha256 P input) (fun _ l => Forall sb l /\ length l = 256).
Proof.
  intros Hi. unfold sha256. destruct (negb _); [exact I|]. destruct (sha256_padding input) as [padded|] eqn:E; [|exact I]. destruct (negb _); [exact I|].
  assert (Hp : Forall sb padded).
  { unfold sha256_padding in E. destruct (pad_zeros 512 (input ++ [BConst true])) as [p|] eqn:Ep; [|discriminate]. apply some_inj in E. rewrite <- E. apply Forall_app. split.
    - apply (pad_zeros_sb 512 (input ++ [BConst true])); [|exact Ep]. apply Forall_app. split; [exact Hi|]. constructor; [apply sb_const|constructor].
    - apply Forall_map, Forall_forall. intros i _. apply sb_const. }
  eapply dn_bindq; [apply (foldq_dn _ (fun _ l => Forall sw l /\ length l = 8))|].
  - intros j n cur block Hin [Hcur _]. apply dn_ns, compression_dn; [|exact Hcur]. exact (proj1 (Forall_forall _ _) (chunks_Forall sb 512 padded ltac:(lia) Hp) block Hin).
  - split; [|reflexivity]. unfold get_sha256_iv. apply Forall_map, Forall_forall. intros z _. apply sw_const.
  - intros n cur _ [Hcur L]. apply dn_ret. split; [now apply digest_sb|]. rewrite digest_length, L by exact Hcur. reflexivity.
Qed.

(** ** The circuit of the crate documentation *)
Lemma flip_Forall (l : list Boolean) : Forall sb l -> Forall sb (flip l).
Proof. intros H. unfold flip. apply Forall_flat_map. eapply Forall_impl; [|apply (chunks_Forall sb 8 l ltac:(lia) H)]. intros c Hc. now apply Forall_rev. Qed.
Lemma sha256d_dn na data : Forall sb data -> dn G na (@sha256d P data) (fun _ l => Forall sb l).
Proof.
  intros H. unfold sha256d. cbv zeta. eapply dn_bindq; [apply dn_ns, sha256_dn, flip_Forall, H|]. intros n mid _ [Hm _].
  eapply dn_bindq; [apply dn_ns, sha256_dn, Hm|]. intros n' r _ [Hr _]. apply dn_ret. now apply flip_Forall.
Qed.
Lemma pack_num_mentioned v bits : is_aux v -> Forall sb bits -> forall acc, (mentioned v (num_lc_ (fst acc)) -> G v = true) ->
  mentioned (P := P) v (num_lc_ (fst (fold_left pack_step bits acc))) -> G v = true.
Proof.
  intros Ha Hb. induction Hb as [|b bits Hb _ IH]; intros [num c] Hn; cbn [fold_left]; [exact Hn|]. apply IH. cbn [pack_step fst num_add_bool num_lc_].
  unfold mentioned. rewrite add_lc_app, map_app, in_app_iff. intros [K|K]; [exact (Hn K)|]. apply (lit_mentioned_aux _ _ _ Ha) in K. exact (Hb v K).
Qed.
Lemma pack_dn na bits : Forall sb bits -> dn G na (@pack_into_inputs P bits) (fun _ _ => True).
Proof.
  intros Hb. unfold pack_into_inputs. apply (foldq_dn _ (fun _ _ => True)); [|exact I]. intros j n [] c Hin _.
  pose proof (proj1 (Forall_forall _ _) (chunks_Forall sb _ bits (capacity_pos (P := P)) Hb) c Hin) as Hc.
  unfold pack_chunk, dn, bindq, cs_alloc_input. cbn [bind wpD cs_enforce]. intros i. split; [|split; [apply safe_var|intros _; exact I]].
  apply safe_strong. intros v Ha. unfold num_lc. rewrite add_scaled_app. unfold mentioned. rewrite map_app, fst_scale. cbn [lc_zero map app].
  apply (pack_num_mentioned v c Ha Hc). intros [].
Qed.
Lemma my_circuit_dn na n pre : dn G na (@my_circuit P n pre) (fun _ _ => True).
Proof.
  unfold my_circuit. cbv zeta. destruct (negb _); [exact I|]. eapply dn_bindq; [apply (mapq_dn _ sb)|].
  - intros j m x _. eapply dn_bindq; [apply dn_ns, ab_alloc_dn|]. intros m' a _ [_ Ha]. apply dn_ret. intros v [<-|[]]. exact Ha.
  - intros m bits _ Hb. eapply dn_bindq; [apply dn_ns, sha256d_dn, Hb|]. intros m' h _ Hh. now apply dn_ns, pack_dn.
Qed.
End Dense.
