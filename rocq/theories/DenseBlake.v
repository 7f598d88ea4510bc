(** Dense.v continued: BLAKE2s. *)
From Coq Require Import String.
From Coq Require Import ZArith List Bool Lia Field.
From Verif Require Import Prelude PrimeField Circuit Loops BooleanGadget NumGadget MultiEq UInt32 UInt32Proof Sha256 Blake2s Scope Covered Dense DenseSha.
Import ListNotations.
Local Open Scope nat_scope.

Section Dense.
Context {P : PrimeField}.
Add Field PFdenseblake : (F_field P).
Variable G : Var -> bool.
Notation sw := (sw G). Notation sb := (sb G). Notation weak := (weak G). Notation weakv := (weakv G).

Lemma wpD_and {A} (p : prog P A) : forall na (Q1 Q2 : nat -> A -> Prop), wpD G na p Q1 -> wpD G na p Q2 -> wpD G na p (fun n a => Q1 n a /\ Q2 n a).
Proof.
  induction p as [a| |n f k IH|n f k IH|n a b c k IH|n l rr k IH|n k IH|k IH]; intros na Q1 Q2 H1 H2; cbn [wpD] in *; auto.
  - destruct H1 as (A1 & A2 & A3), H2 as (_ & _ & B3). auto.
  - destruct H1 as (A1 & A2), H2 as (_ & B2). auto.
Qed.
Lemma dn_and {A} na (p : prog P (res A)) Q1 Q2 : dn G na p Q1 -> dn G na p Q2 -> dn G na p (fun n a => Q1 n a /\ Q2 n a).
Proof. intros H1 H2. unfold dn. eapply wpD_mono; [|exact (wpD_and p na _ _ H1 H2)]. intros n [a|e] _ H; [exact H|exact I]. Qed.

(** Words whose bits are all constant or all not; each variable that is not in [G] occurs once and belongs to class [c]. *)
Definition cw (lo : nat) (own : nat -> nat) (na c : nat) (w : UInt32) : Prop :=
  length (u_bits w) = 32 /\ uni w /\ NoDup (weak (u_bits w)) /\ forall v, In v (weak (u_bits w)) -> exists j, v = Aux j /\ lo <= j < na /\ own j = c.
Definition grows (na : nat) (own own' : nat -> nat) : Prop := forall j, j < na -> own' j = own j.
Definition mine (own : nat -> nat) (na c : nat) : nat -> nat := fun j => if j <? na then own j else c.
Lemma grows_refl na own : grows na own own. Proof. intros j _. reflexivity. Qed.
Lemma grows_trans na n a b c : na <= n -> grows na a b -> grows n b c -> grows na a c. Proof. intros Hn H1 H2 j Hj. rewrite H2 by lia. auto. Qed.
Lemma grows_mine na own c : grows na own (mine own na c). Proof. intros j Hj. unfold mine. now apply Nat.ltb_lt in Hj as ->. Qed.
Lemma cw_mono lo own na own' na' c w : grows na own own' -> na <= na' -> cw lo own na c w -> cw lo own' na' c w.
Proof. intros Hg Hn (L & U & N & V). split; [exact L|]. split; [exact U|]. split; [exact N|]. intros v Hv. destruct (V v Hv) as (j & -> & Hj & Ho). exists j. split; [reflexivity|]. split; [lia|]. rewrite Hg by lia. exact Ho. Qed.
Lemma cw_strong lo own na c w : sw w -> uni w -> cw lo own na c w.
Proof. intros [L S] U. split; [exact L|]. split; [exact U|]. rewrite (weak_strong G _ S). split; [constructor|intros v []]. Qed.

Lemma const_bvs b : is_const b -> bvs b = []. Proof. destruct b; [contradiction|contradiction|reflexivity]. Qed.
Lemma b_not_const b : is_const (b_not b) <-> is_const b. Proof. destruct b; reflexivity. Qed.
Lemma xor_free na a b : ~ is_const a -> ~ is_const b -> dn G na (@b_xor P a b) (der G [] na).
Proof.
  intros Ha Hb. destruct a, b; cbn [is_const] in *; try tauto; cbn [b_xor]; unfold b_xor_is; try apply not_dn; apply is_dn, ab_xor_dn.
Qed.
Lemma xor_is_kind na x y : dn G na (@b_xor_is P x y) (fun _ b => ~ is_const b).
Proof. unfold b_xor_is. eapply dn_bindq; [apply ab_xor_dn|]. intros n r _ _. apply dn_ret. exact (fun H => H). Qed.
Lemma not_kind na (p : prog P (res Boolean)) : dn G na p (fun _ b => ~ is_const b) -> dn G na (bindq p (fun r => Ret (Ok (b_not r)))) (fun _ b => ~ is_const b).
Proof. intros H. eapply dn_bindq; [exact H|]. intros n r _ Hr. apply dn_ret. now rewrite b_not_const. Qed.
Lemma xor_kind na a b : dn G na (@b_xor P a b) (fun _ y => is_const y <-> is_const a /\ is_const b).
Proof.
  destruct a as [x|x|[|]], b as [y|y|[|]]; cbn [b_xor]; try (apply dn_ret; rewrite ?b_not_const; cbn [is_const]; tauto);
    (eapply dn_mono; [first [apply xor_is_kind|apply not_kind, xor_is_kind]|]; intros n r _ Hr; cbn [is_const] in *; tauto).
Qed.
Lemma xor_cw lo own na c a b : lo <= na -> cw lo own na c a -> cw lo own na c b -> dn G na (@u_xor P a b) (fun n w => cw lo (mine own na c) n c w).
Proof.
  intros Hlo (La & Ua & Na & Va) (Lb & Ub & Nb & Vb). unfold u_xor. cbv zeta. assert (L : length (u_bits a) = length (u_bits b)) by congruence.
  set (src := fun x : Boolean * Boolean => if match fst x with BConst _ => true | _ => false end then bvs (snd x) else if match snd x with BConst _ => true | _ => false end then bvs (fst x) else []).
  assert (Hs : forall n x, dn G n (@b_xor P (fst x) (snd x)) (der G (src x) n)).
  { intros n [x y]. unfold src. cbn [fst snd]. destruct x as [x|x|x].
    - destruct y as [y|y|y]; try (apply xor_free; exact (fun H => H)). eapply dn_mono; [apply b_xor_dn|]. intros n' z _ H. cbn [bvs] in H. rewrite app_nil_r in H. exact H.
    - destruct y as [y|y|y]; try (apply xor_free; exact (fun H => H)). eapply dn_mono; [apply b_xor_dn|]. intros n' z _ H. cbn [bvs] in H. rewrite app_nil_r in H. exact H.
    - exact (b_xor_dn G n (BConst x) y). }
  assert (E : flat_map src (combine (u_bits a) (u_bits b)) = flat_map bvs (u_bits a) \/ flat_map src (combine (u_bits a) (u_bits b)) = flat_map bvs (u_bits b) \/ flat_map src (combine (u_bits a) (u_bits b)) = []).
  { unfold uni in *. revert L Ua Ub. generalize (u_bits a) as l, (u_bits b) as m. clear. intros l m L [A|A] Ub.
    - right. left. clear Ub. revert m L. induction A as [|x l Hx A IH]; intros [|y m] L; try discriminate; [reflexivity|]. cbn [combine flat_map]. f_equal; [|apply IH; now injection L]. destruct x; try contradiction. reflexivity.
    - destruct Ub as [B|B]; [left|right; right]; revert m L B; induction A as [|x l Hx A IH]; intros [|y m] L B; try discriminate; try reflexivity; inversion B as [|? ? By Bm]; subst; cbn [combine flat_map];
        (rewrite (IH m); [|now injection L|exact Bm]); unfold src; cbn [fst snd]; destruct x; cbn [is_const] in *; try tauto; destruct y; cbn [is_const] in *; try tauto; reflexivity. }
  assert (X : NoDup (weakv (flat_map src (combine (u_bits a) (u_bits b)))) /\ forall v, In v (weakv (flat_map src (combine (u_bits a) (u_bits b)))) -> exists j, v = Aux j /\ lo <= j < na /\ own j = c).
  { destruct E as [E|[E|E]]; rewrite E; [split; assumption|split; assumption|]. split; [constructor|intros v []]. }
  clear E. destruct X as [X1 X2].
  assert (K : (forall x y, In (x, y) (combine (u_bits a) (u_bits b)) -> is_const x /\ is_const y) \/ forall x y, In (x, y) (combine (u_bits a) (u_bits b)) -> ~ (is_const x /\ is_const y)).
  { unfold uni in *. rewrite !Forall_forall in Ua, Ub. destruct Ua as [A|A]; [destruct Ub as [B|B]|].
    - left. intros x y H. split; [apply A; eapply in_combine_l; eauto|apply B; eapply in_combine_r; eauto].
    - right. intros x y H [_ Hy]. exact (B y (in_combine_r _ _ _ _ H) Hy).
    - right. intros x y H [Hx _]. exact (A x (in_combine_l _ _ _ _ H) Hx). }
  eapply dn_bindq; [apply dn_and; [apply (mapq_wl G _ src _ 0 lo na)|]|].
  - intros j x n _ _. apply dn_ns, Hs.
  - exact Hlo.
  - exact X1.
  - intros v Hv. destruct (X2 v Hv) as (j & Ej & Hj & _). exists j. auto.
  - instantiate (1 := fun _ ys => Forall is_const ys \/ Forall (fun b => ~ is_const b) ys). cbv beta. destruct K as [K|K].
    + eapply dn_mono; [apply (mapq_dn G _ is_const)|intros; left; assumption]. intros j n [x y] Hx. apply dn_ns. eapply dn_mono; [apply xor_kind|]. cbn [fst snd]. intros n' z _ Hz. apply Hz, K, Hx.
    + eapply dn_mono; [apply (mapq_dn G _ (fun b => ~ is_const b))|intros; right; assumption]. intros j n [x y] Hx. apply dn_ns. eapply dn_mono; [apply xor_kind|]. cbn [fst snd]. intros n' z _ Hz Hc. apply (K x y Hx), Hz, Hc.
  - cbv beta. intros n ys Hn ((L0 & N & V) & U). apply dn_ret. split; cbn [u_bits]; [rewrite L0, combine_length; lia|]. split; [exact U|]. split; [exact N|].
    intros v Hv. destruct (V v Hv) as [Hw|(j & -> & Hj)].
    + destruct (X2 v Hw) as (j & -> & Hj & Ho). exists j. split; [reflexivity|]. split; [lia|]. rewrite grows_mine by lia. exact Ho.
    + exists j. split; [reflexivity|]. split; [lia|]. unfold mine. destruct (Nat.ltb_spec j na); [lia|reflexivity].
Qed.
Lemma rotr_bits w k : length (u_bits w) = 32 -> u_bits (u_rotr w k) = skipn (k mod 32) (u_bits w) ++ firstn (k mod 32) (u_bits w).
Proof.
  intros L. cbn [u_rotr u_bits]. assert (k mod 32 < 32) by (apply Nat.mod_upper_bound; lia). rewrite firstn_app, skipn_length, L. rewrite firstn_all2 by (rewrite skipn_length, L; lia). f_equal. f_equal. lia.
Qed.
Lemma cw_rotr lo own na c w k : cw lo own na c w -> cw lo own na c (u_rotr w k).
Proof.
  intros (L & U & N & V). unfold cw, uni. rewrite (rotr_bits w k L). rewrite weak_app. rewrite <- (firstn_skipn (k mod 32) (u_bits w)) in N. rewrite weak_app in N. apply nodup_app in N as (N1 & N2 & N3).
  split; [rewrite app_length, skipn_length, firstn_length, L; lia|]. split; [destruct U as [U|U]; [left|right]; apply Forall_app; (split; [now apply Forall_skipn|now apply Forall_firstn])|].
  split; [apply nodup_app; split; [exact N2|]; split; [exact N1|]; intros x H1 H2; exact (N3 x H2 H1)|].
  intros v Hv. apply V. rewrite <- (firstn_skipn (k mod 32) (u_bits w)), weak_app. apply in_app_or in Hv. apply in_or_app. tauto.
Qed.

(** The state: the words of place [i] belong to class [i mod 8]. *)
Definition cv (lo : nat) (own : nat -> nat) (na : nat) (v : list UInt32) : Prop := forall i w, nth_error v i = Some w -> cw lo own na (i mod 8) w.
Definition px lo own na n v : Prop := exists own', grows na own own' /\ cv lo own' n v.
Definition strong_at (v : list UInt32) (i : nat) : Prop := forall w, nth_error v i = Some w -> sw w /\ uni w.
Lemma cv_mono lo own na own' na' v : grows na own own' -> na <= na' -> cv lo own na v -> cv lo own' na' v.
Proof. intros Hg Hn H i w Hw. eapply cw_mono; eauto. Qed.
Lemma nth_upd_inv {A} (x : A) l : forall i j y, nth_error (upd i x l) j = Some y -> (j = i /\ y = x) \/ (j <> i /\ nth_error l j = Some y).
Proof.
  induction l as [|h l IH]; intros [|i] [|j] y H; cbn [upd nth_error] in *; try discriminate; auto.
  - left. split; [reflexivity|congruence].
  - destruct (IH i j y H) as [[-> ->]|[Hn Hy]]; [now left|right]. split; [congruence|exact Hy].
Qed.
Lemma cv_upd lo own na v i w : cv lo own na v -> cw lo own na (i mod 8) w -> cv lo own na (upd i w v).
Proof. intros H Hw j x Hx. apply nth_upd_inv in Hx as [[-> ->]|[_ Hx]]; [exact Hw|exact (H j x Hx)]. Qed.
Lemma idx_at {A B} na (l : list A) i (k : A -> prog P (res B)) Q : (forall x, nth_error l i = Some x -> dn G na (k x) Q) -> dn G na (idx l i k) Q.
Proof. intros H. unfold idx. destruct (nth_error l i) as [x|]; [auto|exact I]. Qed.
Lemma cw_apart lo own na c d a b : c <> d -> cw lo own na c a -> cw lo own na d b -> NoDup (weak (u_bits a ++ u_bits b)).
Proof.
  intros Hcd (_ & _ & Na & Va) (_ & _ & Nb & Vb). rewrite weak_app. apply nodup_app. split; [exact Na|]. split; [exact Nb|]. intros x Hx Hy.
  destruct (Va x Hx) as (j & -> & _ & Hj). destruct (Vb _ Hy) as (j' & E & _ & Hj'). injection E as <-. congruence.
Qed.
Lemma add3_dn lo own na name v i j x : cv lo own na v -> i mod 8 <> j mod 8 -> sw x -> dn G na (@set_add3 P name v i j x) (fun n v' => cv lo own n v' /\ strong_at v' i).
Proof.
  intros H Hij Hx. unfold set_add3. apply idx_at. intros vi Hi. apply idx_at. intros vj Hj. pose proof (H _ _ Hi) as Ci. pose proof (H _ _ Hj) as Cj.
  eapply dn_bindq; [apply dn_ns, addmany_dn|].
  - constructor; [exact (proj1 Ci)|]. constructor; [exact (proj1 Cj)|]. constructor; [exact (proj1 Hx)|constructor].
  - cbn [flat_map]. rewrite app_nil_r, app_assoc, weak_app, (weak_strong G _ (proj2 Hx)), app_nil_r. exact (cw_apart _ _ _ _ _ _ _ Hij Ci Cj).
  - cbv beta. intros n t Hn [S U]. apply dn_ret. split.
    + apply cv_upd; [eapply cv_mono; [apply grows_refl|exact Hn|exact H]|now apply cw_strong].
    + intros w Hw. apply nth_upd_inv in Hw as [[_ ->]|[K _]]; [auto|congruence].
Qed.
Lemma add2_dn lo own na name v i j : cv lo own na v -> i mod 8 <> j mod 8 -> dn G na (@set_add2 P name v i j) (fun n v' => cv lo own n v' /\ strong_at v' i).
Proof.
  intros H Hij. unfold set_add2. apply idx_at. intros vi Hi. apply idx_at. intros vj Hj. pose proof (H _ _ Hi) as Ci. pose proof (H _ _ Hj) as Cj.
  eapply dn_bindq; [apply dn_ns, addmany_dn|].
  - constructor; [exact (proj1 Ci)|]. constructor; [exact (proj1 Cj)|constructor].
  - cbn [flat_map]. rewrite app_nil_r. exact (cw_apart _ _ _ _ _ _ _ Hij Ci Cj).
  - cbv beta. intros n t Hn [S U]. apply dn_ret. split.
    + apply cv_upd; [eapply cv_mono; [apply grows_refl|exact Hn|exact H]|now apply cw_strong].
    + intros w Hw. apply nth_upd_inv in Hw as [[_ ->]|[K _]]; [auto|congruence].
Qed.
Lemma setxor_dn lo own na name v i j r : lo <= na -> cv lo own na v -> strong_at v j -> dn G na (@set_xor P name v i j r) (px lo own na).
Proof.
  intros Hlo H Hs. unfold set_xor. apply idx_at. intros vi Hi. apply idx_at. intros vj Hj. destruct (Hs _ Hj) as [S U].
  eapply dn_bindq; [apply dn_ns, (xor_cw lo own na (i mod 8)); [exact Hlo|exact (H _ _ Hi)|now apply cw_strong]|]. cbv beta. intros n t Hn Ht. apply dn_ret.
  exists (mine own na (i mod 8)). split; [apply grows_mine|]. apply cv_upd; [eapply cv_mono; [apply grows_mine|exact Hn|exact H]|now apply cw_rotr].
Qed.
Lemma px_trans lo own own1 na n1 n v : na <= n1 -> grows na own own1 -> px lo own1 n1 n v -> px lo own na n v.
Proof. intros Hn Hg (own2 & H1 & H2). exists own2. split; [eapply grows_trans; eauto|exact H2]. Qed.
Lemma mixing_dn lo own na v a b c d x y : lo <= na -> cv lo own na v -> a mod 8 <> b mod 8 -> c mod 8 <> d mod 8 -> sw x -> sw y -> dn G na (@mixing_g P v (a, b, c, d) x y) (px lo own na).
Proof.
  intros Hlo H Hab Hcd Hx Hy. unfold mixing_g.
  eapply dn_bindq; [apply (add3_dn lo own); assumption|]. cbv beta. intros n1 v1 Hn1 [C1 S1].
  eapply dn_bindq; [apply (setxor_dn lo own); [lia|exact C1|exact S1]|]. intros n2 v2 Hn2 (own2 & G2 & C2).
  eapply dn_bindq; [apply (add2_dn lo own2); assumption|]. cbv beta. intros n3 v3 Hn3 [C3 S3].
  eapply dn_bindq; [apply (setxor_dn lo own2); [lia|exact C3|exact S3]|]. intros n4 v4 Hn4 (own4 & G4 & C4).
  eapply dn_bindq; [apply (add3_dn lo own4); assumption|]. cbv beta. intros n5 v5 Hn5 [C5 S5].
  eapply dn_bindq; [apply (setxor_dn lo own4); [lia|exact C5|exact S5]|]. intros n6 v6 Hn6 (own6 & G6 & C6).
  eapply dn_bindq; [apply (add2_dn lo own6); assumption|]. cbv beta. intros n7 v7 Hn7 [C7 S7].
  eapply dn_mono; [apply (setxor_dn lo own6); [lia|exact C7|exact S7]|]. intros n8 v8 Hn8 (own8 & G8 & C8).
  exists own8. split; [|exact C8]. intros j Hj. rewrite G8, G6, G4, G2 by lia. reflexivity.
Qed.
Lemma mix_dn lo own na name m s i j a b c d v : lo <= na -> Forall sw m -> cv lo own na v -> a mod 8 <> b mod 8 -> c mod 8 <> d mod 8 -> dn G na (@mix P name m s i j (a, b, c, d) v) (px lo own na).
Proof.
  intros Hlo Hm H Hab Hcd. unfold mix. apply idx_at. intros si _. apply idx_at. intros sj _. apply idx_dn. intros x Hx. apply idx_dn. intros y Hy. apply dn_ns.
  apply mixing_dn; auto; eapply sw_in; eauto.
Qed.
Lemma b_round_dn lo own na m i v : lo <= na -> Forall sw m -> cv lo own na v -> dn G na (@b_round P m i v) (px lo own na).
Proof.
  intros Hlo Hm H. unfold b_round. apply dn_ns, idx_at. intros s _.
  eapply dn_bindq; [apply (mix_dn lo own); [exact Hlo|exact Hm|exact H|discriminate|discriminate]|]. intros n1 v1 Hn1 (o1 & G1 & C1).
  eapply dn_bindq; [apply (mix_dn lo o1); [lia|exact Hm|exact C1|discriminate|discriminate]|]. intros n2 v2 Hn2 (o2 & G2 & C2).
  eapply dn_bindq; [apply (mix_dn lo o2); [lia|exact Hm|exact C2|discriminate|discriminate]|]. intros n3 v3 Hn3 (o3 & G3 & C3).
  eapply dn_bindq; [apply (mix_dn lo o3); [lia|exact Hm|exact C3|discriminate|discriminate]|]. intros n4 v4 Hn4 (o4 & G4 & C4).
  eapply dn_bindq; [apply (mix_dn lo o4); [lia|exact Hm|exact C4|discriminate|discriminate]|]. intros n5 v5 Hn5 (o5 & G5 & C5).
  eapply dn_bindq; [apply (mix_dn lo o5); [lia|exact Hm|exact C5|discriminate|discriminate]|]. intros n6 v6 Hn6 (o6 & G6 & C6).
  eapply dn_bindq; [apply (mix_dn lo o6); [lia|exact Hm|exact C6|discriminate|discriminate]|]. intros n7 v7 Hn7 (o7 & G7 & C7).
  eapply dn_mono; [apply (mix_dn lo o7); [lia|exact Hm|exact C7|discriminate|discriminate]|]. intros n8 v8 Hn8 (o8 & G8 & C8).
  exists o8. split; [|exact C8]. intros j Hj. rewrite G8, G7, G6, G5, G4, G3, G2, G1 by lia. reflexivity.
Qed.
Lemma xconst_dn lo own na name v i z : lo <= na -> cv lo own na v -> dn G na (@set_xor_const P name v i z) (px lo own na).
Proof.
  intros Hlo H. unfold set_xor_const. apply idx_at. intros vi Hi.
  eapply dn_bindq; [apply dn_ns, (xor_cw lo own na (i mod 8)); [exact Hlo|exact (H _ _ Hi)|apply cw_strong; [apply sw_const|apply uni_const]]|]. cbv beta. intros n t Hn Ht. apply dn_ret.
  exists (mine own na (i mod 8)). split; [apply grows_mine|]. apply cv_upd; [eapply cv_mono; [apply grows_mine|exact Hn|exact H]|exact Ht].
Qed.
Definition both lo (v : list UInt32) (n : nat) (h : list UInt32) : Prop := lo <= n /\ length h = 8 /\ exists own, cv lo own n v /\ cv lo own n h.
Lemma final_dn lo na v i h : both lo v na h -> dn G na (@final_xor P v i h) (both lo v).
Proof.
  intros (Hlo & L & own & Hv & Hh). unfold final_xor. apply dn_ns, idx_at. intros hi Ehi. apply idx_at. intros vi Evi.
  eapply dn_bindq; [apply dn_ns, (xor_cw lo own na (i mod 8)); [exact Hlo|exact (Hh _ _ Ehi)|exact (Hv _ _ Evi)]|]. cbv beta. intros n a Hn Ha. apply idx_at. intros v8 Ev8.
  assert (M : (i + 8) mod 8 = i mod 8) by (rewrite <- (Nat.mul_1_l 8) at 1; apply Nat.mod_add; lia). pose proof (Hv _ _ Ev8) as C8. rewrite M in C8.
  eapply dn_bindq; [apply dn_ns, (xor_cw lo (mine own na (i mod 8)) n (i mod 8)); [lia|exact Ha|eapply cw_mono; [apply grows_mine|exact Hn|exact C8]]|]. cbv beta. intros n' b Hn' Hb. apply dn_ret.
  split; [lia|]. split; [now rewrite upd_length|]. exists (mine (mine own na (i mod 8)) n (i mod 8)).
  assert (Gr : grows na own (mine (mine own na (i mod 8)) n (i mod 8))) by (eapply grows_trans; [exact Hn|apply grows_mine|apply grows_mine]).
  split; [eapply cv_mono; [exact Gr| |exact Hv]; lia|]. apply cv_upd; [eapply cv_mono; [exact Gr| |exact Hh]; lia|exact Hb].
Qed.
Definition hinv lo (n : nat) (h : list UInt32) : Prop := lo <= n /\ length h = 8 /\ exists own, cv lo own n h.
Lemma b_compression_dn lo na h m t f : Forall sw m -> hinv lo na h -> dn G na (@blake2s_compression P h m t f) (hinv lo).
Proof.
  intros Hm (Hlo & L & own & Hh). unfold blake2s_compression. destruct (negb _); [exact I|]. destruct (negb (Nat.eqb (length m) 16)); [exact I|]. cbv zeta. destruct (negb _); [exact I|].
  assert (H0 : cv lo own na (h ++ map u_constant B_IV)).
  { intros i w Hw. destruct (Nat.lt_ge_cases i (length h)) as [Hi|Hi].
    - rewrite nth_error_app1 in Hw by exact Hi. exact (Hh _ _ Hw).
    - rewrite nth_error_app2 in Hw by exact Hi. apply nth_error_In, in_map_iff in Hw as (z & <- & _). apply cw_strong; [apply sw_const|apply uni_const]. }
  eapply dn_bindq; [apply (xconst_dn lo own); [exact Hlo|exact H0]|]. intros n1 v1 Hn1 (o1 & G1 & C1).
  eapply dn_bindq; [apply (xconst_dn lo o1); [lia|exact C1]|]. intros n2 v2 Hn2 (o2 & G2 & C2).
  apply dn_bindq with (Q1 := px lo o2 n2). { destruct f; [apply (xconst_dn lo o2); [lia|exact C2]|apply dn_ret; exists o2; split; [apply grows_refl|exact C2]]. }
  intros n3 v3 Hn3 (o3 & G3 & C3).
  assert (Gr : grows na own o3) by (intros j Hj; rewrite G3, G2, G1 by lia; reflexivity).
  apply dn_bindq with (Q1 := fun n v => lo <= n /\ na <= n /\ exists o, grows na own o /\ cv lo o n v).
  { apply multieq_scope_dn. apply (foldq_dn G _ (fun n v => lo <= n /\ na <= n /\ exists o, grows na own o /\ cv lo o n v)).
    - intros j n v i _ (A1 & A2 & o & A3 & A4). apply dn_mono with (Q := fun n' v' => px lo o n n' v'); [now apply b_round_dn|]. intros n' v' Hn' (o' & B1 & B2). split; [lia|]. split; [lia|]. exists o'. split; [eapply grows_trans; eauto|exact B2].
    - split; [lia|]. split; [lia|]. eauto. }
  cbv beta. intros n4 v4 Hn4 (A1 & A2 & o4 & G4 & C4).
  eapply dn_mono; [apply (foldq_dn G _ (both lo v4))|].
  - intros j n s x Hx Hs. now apply final_dn.
  - split; [lia|]. split; [exact L|]. exists o4. split; [exact C4|]. eapply cv_mono; [exact G4| |exact Hh]. lia.
  - intros n5 h5 Hn5 (B1 & B2 & o5 & _ & B3). split; [exact B1|]. split; [exact B2|]. eauto.
Qed.
Lemma b_block_dn na block : Forall sb block -> dn G na (@b_block P block) (fun _ l => Forall sw l).
Proof.
  intros H. unfold b_block. eapply dn_bindq; [apply (mapq_dn G _ sw)|].
  - intros j n word Hw. pose proof (proj1 (Forall_forall _ _) (chunks_Forall sb 32 block ltac:(lia) H) word Hw) as Hs. unfold from_bits.
    destruct (Nat.eqb_spec (length (push_until 32 (BConst false) word)) 32) as [E|E]; cbn [lift]; [|exact I]. apply dn_ret. split; [exact E|]. cbn [u_bits]. unfold push_until. apply Forall_app. split; [exact Hs|].
    apply Forall_forall. intros b Hb. apply repeat_spec in Hb as ->. apply sb_const.
  - cbv beta. intros n l _ Hl. apply dn_ret. unfold push_until. apply Forall_app. split; [exact Hl|]. apply Forall_forall. intros w Hw. apply repeat_spec in Hw as ->. apply sw_const.
Qed.
Lemma bits_wl own lo na h : length h <= 8 -> cv lo own na h -> wl G lo na (concat (map u_bits h)) /\ length (concat (map u_bits h)) = 32 * length h.
Proof.
  intros L H.
  assert (X : forall k l, k + length l <= 8 -> (forall i w, nth_error l i = Some w -> cw lo own na (k + i) w) ->
    length (concat (map u_bits l)) = 32 * length l /\ NoDup (weak (concat (map u_bits l))) /\ forall v, In v (weak (concat (map u_bits l))) -> exists j, v = Aux j /\ lo <= j < na /\ k <= own j).
  { intros k l. revert k. induction l as [|w l IH]; intros k Hk Hl; cbn [map concat length] in *; [split; [reflexivity|]; split; [constructor|intros v []]|].
    destruct (Hl 0 w eq_refl) as (L1 & _ & N1 & V1). destruct (IH (S k)) as (L2 & N2 & V2); [lia|intros i x Hx; replace (S k + i) with (k + S i) by lia; exact (Hl (S i) x Hx)|].
    split; [rewrite app_length, L1, L2; lia|]. rewrite weak_app. split.
    - apply nodup_app. split; [exact N1|]. split; [exact N2|]. intros v Hv Hw. destruct (V1 v Hv) as (j & -> & _ & Hj). destruct (V2 _ Hw) as (j' & E & _ & Hj'). injection E as <-. lia.
    - intros v Hv. apply in_app_or in Hv as [Hv|Hv]; [destruct (V1 v Hv) as (j & -> & Hr & Hj)|destruct (V2 v Hv) as (j & -> & Hr & Hj)]; exists j; (split; [reflexivity|]; split; [exact Hr|lia]). }
  destruct (X 0 h) as (A & B & C); [lia| |].
  - intros i w Hw. assert (i < length h) by (apply nth_error_Some; congruence). specialize (H i w Hw). rewrite Nat.mod_small in H by lia. exact H.
  - split; [|exact A]. split; [exact B|]. intros v Hv. destruct (C v Hv) as (j & Ej & Hj & _). exists j. auto.
Qed.
(** The bits of the digest: the variables that are not in [G] are new and occur once. *)
Theorem blake2s_dn na input pers : Forall sb input -> dn G na (@blake2s P input pers) (fun n l => wl G na n l /\ length l = 256).
Proof.
  intros H. unfold blake2s. destruct (negb _); [exact I|]. destruct (negb _); [exact I|]. cbv zeta.
  eapply dn_bindq; [apply (mapq_dn G _ (Forall sw))|].
  - intros j n b Hb. apply b_block_dn. exact (proj1 (Forall_forall _ _) (chunks_Forall sb 512 input ltac:(lia) H) b Hb).
  - cbv beta. intros n blocks0 Hn HB0. set (blocks := match blocks0 with [] => [repeat (u_constant 0) 16] | _ => blocks0 end).
    assert (HB : Forall (Forall sw) blocks) by (unfold blocks; destruct blocks0; [constructor; [|constructor]; apply Forall_forall; intros w Hw; apply repeat_spec in Hw as ->; apply sw_const|exact HB0]). clearbody blocks.
    apply dn_bindq with (Q1 := hinv na).
    + apply (foldq_dn G _ (hinv na)).
      * intros j n1 s x Hx Hs. apply dn_ns, b_compression_dn; [|exact Hs]. apply (proj1 (Forall_forall _ _) HB). rewrite <- (firstn_skipn (length blocks - 1) blocks). apply in_or_app. now left.
      * split; [exact Hn|]. split; [reflexivity|]. exists (fun _ => 0). intros i w Hw. apply nth_error_In, in_map_iff in Hw as (z & <- & _). apply cw_strong; [apply sw_const|apply uni_const].
    + intros n1 h1 Hn1 Hh1. apply idx_dn. intros last Hlast.
      eapply dn_bindq; [apply dn_ns, b_compression_dn; [exact (proj1 (Forall_forall _ _) HB _ Hlast)|exact Hh1]|]. intros n2 h2 Hn2 (A1 & A2 & own & A3). apply dn_ret.
      destruct (bits_wl own na n2 h2) as [B1 B2]; [lia|exact A3|]. split; [exact B1|]. rewrite B2, A2. reflexivity.
Qed.
End Dense.
