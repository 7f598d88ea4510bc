(** Tidy programs have circuits whose coefficients do not cancel and whose variables are constrained: auxiliary lemmas. *)
From Coq Require Import String.
From Coq Require Import ZArith List Bool Lia Field.
From Verif Require Import Prelude PrimeField Circuit Loops BooleanGadget NumGadget LookupGadget MultiEq UInt32 UInt32Proof Multipack Sha256 DomainProof Scope Covered Dense DenseSha DenseBlake DenseNum
  Mimc PropScope Straight StraightProof Tidy.
Import Circuit.
Import ListNotations.
Local Open Scope nat_scope.

Lemma disjoint_spec l m : disjoint l m = true -> forall x, In x l -> ~ In x m.
Proof.
  unfold disjoint. rewrite forallb_forall. intros H x Hx Hm. specialize (H x Hx). apply negb_true_iff in H. rewrite <- not_true_iff_false, existsb_exists in H. apply H. exists x. split; [exact Hm|]. now apply Nat.eqb_eq.
Qed.

Section Tidy.
Context {P : PrimeField}.
Add Field PFtidy : (F_field P).
Variable G : Var -> bool.
Notation sb := (sb G). Notation okb := (okb G). Notation sw := (sw G). Notation weak := (weak G). Notation der := (der G). Notation weakv := (weakv G).
Implicit Types (own : nat -> nat) (marks : list mark) (regs : list (reg P)).

(** ** Where variables come from *)
Definition tagv own (na : nat) (F : list nat) (v : Var) : Prop := G v = true \/ exists j, v = Aux j /\ j < na /\ In (own j) F.
Definition tb own na (b : Boolean) (F : list nat) : Prop := forall v, In v (bvs b) -> tagv own na F v.
Definition written_vars (l : LC P) : list Var := map fst (filter (fun t => negb (feqb (snd t) fzero)) l).
Lemma in_written v l : In v (written_vars l) <-> written v l.
Proof.
  unfold written_vars. split.
  - intros H. apply in_map_iff in H as ((v' & c) & <- & H). apply filter_In in H as [H1 H2]. exists c. split; [exact H1|]. cbn [snd] in H2. destruct (feqb_spec c fzero); [discriminate|assumption].
  - intros (c & H1 & H2). apply in_map_iff. exists (v, c). split; [reflexivity|]. apply filter_In. split; [exact H1|]. cbn [snd]. destruct (feqb_spec c fzero); [contradiction|reflexivity].
Qed.
Lemma not_written v (l : LC P) : ~ written v l -> cf v l = fzero.
Proof.
  induction l as [|[w c] l IH]; intros H; [reflexivity|]. assert (T : cf v l = fzero) by (apply IH; intros (d & H1 & H2); apply H; exists d; split; [now right|exact H2]).
  cbn [cf fst snd]. rewrite T. destruct (Scope.var_eqb_spec w v) as [->|]; [|reflexivity]. destruct (feqb_spec c fzero) as [->|Hc]; [ring|]. exfalso. apply H. exists c. split; [now left|exact Hc].
Qed.
Definition tagged own na (i : nat) (m : mark) (r : reg P) : Prop :=
  match m, r with
  | MBit F, RBit b => tb own na b F
  | MBit F, RABit a => tagv own na F (ab_var a)
  | MNum, RNum a => exists j, an_var a = Aux j /\ j < na /\ own j = i
  | MLin F _, RLin n => (forall v, is_aux v -> written v (num_lc_ n) -> tagv own na F v) /\ safe G is_aux (num_lc_ n)
  | _, _ => False
  end.
Definition at_ own na base marks regs : Prop := length marks = length regs /\
  forall i m r, nth_error marks i = Some m -> nth_error regs i = Some r -> tagged own na (base + i) m r.
Definition ext (na : nat) own own' : Prop := forall j, j < na -> own' j = own j.
Definition post own na base marks (n : nat) regs : Prop := exists own', ext na own own' /\ at_ own' n base marks regs.

Lemma tagv_mono own own' na na' F F' v : ext na own own' -> na <= na' -> incl F F' -> tagv own na F v -> tagv own' na' F' v.
Proof. intros He Hn HF [H|(j & -> & Hj & Hi)]; [now left|right]. exists j. split; [reflexivity|]. split; [lia|]. rewrite He by exact Hj. auto. Qed.
Lemma tb_mono own own' na na' F F' b : ext na own own' -> na <= na' -> incl F F' -> tb own na b F -> tb own' na' b F'.
Proof. intros He Hn HF H v Hv. eapply tagv_mono; eauto. Qed.
Lemma tagged_mono own own' na na' i m r : ext na own own' -> na <= na' -> tagged own na i m r -> tagged own' na' i m r.
Proof.
  intros He Hn. destruct m as [F| |F S], r as [b|a|a|a]; cbn [tagged]; auto.
  - apply tb_mono; auto using incl_refl.
  - apply tagv_mono; auto using incl_refl.
  - intros (j & E & Hj & Hi). exists j. split; [exact E|]. split; [lia|]. now rewrite He.
  - intros [H1 H2]. split; [|exact H2]. intros v Ha Hv. eapply tagv_mono; eauto using incl_refl.
Qed.
Lemma at_mono own own' na na' base marks regs : ext na own own' -> na <= na' -> at_ own na base marks regs -> at_ own' na' base marks regs.
Proof. intros He Hn [L H]. split; [exact L|]. intros i m r Hm Hr. eapply tagged_mono; eauto. Qed.
Lemma at_app own na marks regs m' r' : at_ own na 0 marks regs -> at_ own na (length marks) m' r' -> at_ own na 0 (marks ++ m') (regs ++ r').
Proof.
  intros [L1 H1] [L2 H2]. split; [rewrite !app_length; lia|]. intros i m r Hm Hr. destruct (Nat.lt_ge_cases i (length marks)) as [Hi|Hi].
  - rewrite nth_error_app1 in Hm, Hr by lia. now apply H1.
  - rewrite nth_error_app2 in Hm, Hr by lia. rewrite <- L1 in Hr. specialize (H2 _ _ _ Hm Hr). replace (0 + i) with (length marks + (i - length marks)) by lia. exact H2.
Qed.
Lemma ext_refl na own : ext na own own. Proof. intros j _. reflexivity. Qed.
Lemma at_nil own na base : at_ own na base [] []. Proof. split; [reflexivity|]. intros [|i] m r; discriminate. Qed.
Lemma at_one own na base m r : tagged own na base m r -> at_ own na base [m] [r].
Proof. intros H. split; [reflexivity|]. intros [|[|i]] m' r'; cbn; try discriminate. intros [= <-] [= <-]. now rewrite Nat.add_0_r. Qed.
Lemma at_two own na base m r m' r' : tagged own na base m r -> tagged own na (S base) m' r' -> at_ own na base [m; m'] [r; r'].
Proof.
  intros H H'. split; [reflexivity|]. intros [|[|[|i]]] m2 r2; cbn; try discriminate; intros [= <-] [= <-]; [now rewrite Nat.add_0_r|]. now replace (base + 1) with (S base) by lia.
Qed.
Lemma at_bits own na base bs Fs : Forall2 (tb own na) bs Fs -> at_ own na base (map MBit Fs) (map RBit bs).
Proof.
  intros H. split; [rewrite !map_length; symmetry; exact (Forall2_length _ _ _ H)|]. intros i m r Hm Hr. rewrite nth_error_map in Hm, Hr.
  assert (K := nth_rel _ _ _ i H). destruct (nth_error bs i), (nth_error Fs i); cbn [option_map orel] in *; try discriminate. injection Hm as <-. injection Hr as <-. exact K.
Qed.
Lemma post_same own na base marks n regs : na <= n -> at_ own n base marks regs -> post own na base marks n regs.
Proof. intros _ H. exists own. split; [apply ext_refl|exact H]. Qed.
Lemma post_strong own na base n k bs : Forall sb bs -> length bs = k -> post own na base (repeat (MBit []) k) n (map RBit bs).
Proof.
  intros H L. exists own. split; [apply ext_refl|]. replace (repeat (MBit []) k) with (map MBit (repeat [] k)) by (clear; induction k; cbn; congruence). apply at_bits. subst k. clear - H.
  induction H as [|b bs Hb _ IH]; cbn [length repeat]; constructor; [|exact IH]. intros v Hv. left. auto.
Qed.

(** The owner of new variables. *)
Definition patch own (na : nat) (f : nat -> nat) : nat -> nat := fun j => if j <? na then own j else f j.
Lemma patch_ext own na f : ext na own (patch own na f). Proof. intros j Hj. unfold patch. destruct (Nat.ltb_spec j na); [reflexivity|lia]. Qed.
Lemma patch_new own na f j : na <= j -> patch own na f j = f j. Proof. intros Hj. unfold patch. destruct (Nat.ltb_spec j na); [lia|reflexivity]. Qed.
Lemma tb_der own na n l y base F : na <= n -> der l na n y -> (forall v, In v l -> tagv own na F v) -> tb (patch own na (fun _ => base)) n y (base :: F).
Proof.
  intros Hn Hy Hl v Hv. destruct (Hy v Hv) as [H|[H|(j & -> & Hj)]]; [now left| |].
  - eapply tagv_mono; [apply patch_ext|exact Hn|apply incl_tl, incl_refl|auto].
  - right. exists j. split; [reflexivity|]. split; [lia|]. rewrite patch_new by lia. now left.
Qed.
Lemma post_der own na base n l y F : na <= n -> der l na n y -> (forall v, In v l -> tagv own na F v) -> post own na base [MBit (base :: F)] n [RBit y].
Proof. intros Hn Hy Hl. exists (patch own na (fun _ => base)). split; [apply patch_ext|]. apply at_one. cbn [tagged]. eapply tb_der; eauto. Qed.
Lemma post_num own na base n a j : an_var a = Aux j -> na <= j < n -> post own na base [MNum] n [RNum a].
Proof.
  intros E Hj. exists (patch own na (fun _ => base)). split; [apply patch_ext|]. apply at_one. cbn [tagged]. exists j. split; [exact E|]. split; [lia|]. now rewrite patch_new by lia.
Qed.
Lemma post_nums own na base n a b : an_var a = Aux na -> an_var b = Aux (S na) -> S (S na) <= n -> post own na base [MNum; MNum] n [RNum a; RNum b].
Proof.
  intros Ea Eb Hn. exists (patch own na (fun j => if j =? na then base else S base)). split; [apply patch_ext|]. apply at_two; cbn [tagged].
  - exists na. split; [exact Ea|]. split; [lia|]. rewrite patch_new by lia. now rewrite Nat.eqb_refl.
  - exists (S na). split; [exact Eb|]. split; [lia|]. rewrite patch_new by lia. destruct (Nat.eqb_spec (S na) na); [lia|reflexivity].
Qed.

(** Loops that make one bit in each round. *)
Lemma mapq_pos {X} (f : nat -> X -> prog P (res Boolean)) (src : X -> list Var) l : forall i na,
  (forall j x n, In x l -> na <= n -> dn G n (f j x) (der (src x) n)) ->
  dn G na (mapq f i l) (fun n ys => length ys = length l /\ exists pos, forall k x y v, nth_error l k = Some x -> nth_error ys k = Some y -> In v (bvs y) ->
    G v = true \/ In v (src x) \/ exists j, v = Aux j /\ na <= j < n /\ pos j = k).
Proof.
  induction l as [|x l IH]; intros i na Hf; cbn [mapq].
  { apply dn_ret. split; [reflexivity|]. exists (fun _ => 0). intros [|k] x y v; discriminate. }
  eapply dn_bindq; [apply Hf; [now left|lia]|]. intros n1 y Hn1 Hy.
  eapply dn_bindq; [apply (IH (S i) n1); intros; apply Hf; [now right|lia]|]. cbv beta. intros n2 ys Hn2 (L & pos & Hp). apply dn_ret. split; [cbn; lia|].
  exists (fun j => if j <? n1 then 0 else S (pos j)). intros [|k] x0 y0 v Hx Hy0 Hv; cbn [nth_error] in Hx, Hy0.
  - apply Some_eq in Hx, Hy0. subst x0 y0. destruct (Hy v Hv) as [H|[H|(j & -> & Hj)]]; auto. right. right. exists j. split; [reflexivity|]. split; [lia|]. destruct (Nat.ltb_spec j n1); [reflexivity|lia].
  - destruct (Hp k x0 y0 v Hx Hy0 Hv) as [H|[H|(j & -> & Hj & E)]]; auto. right. right. exists j. split; [reflexivity|]. split; [lia|]. destruct (Nat.ltb_spec j n1); [lia|now rewrite E].
Qed.
Lemma post_loop {X} own na base n (src : X -> list Var) l ys (Fs : list (list nat)) pos : na <= n -> length ys = length l ->
  (forall k x y v, nth_error l k = Some x -> nth_error ys k = Some y -> In v (bvs y) -> G v = true \/ In v (src x) \/ exists j, v = Aux j /\ na <= j < n /\ pos j = k) ->
  Forall2 (fun x F => forall v, In v (src x) -> tagv own na F v) l Fs ->
  post own na base (map (fun x => MBit ((base + fst x) :: snd x)) (combine (seq 0 (length l)) Fs)) n (map RBit ys).
Proof.
  intros Hn L Hp HF. exists (patch own na (fun j => base + pos j)). split; [apply patch_ext|].
  rewrite <- (map_map (fun x => (base + fst x) :: snd x) MBit). apply at_bits.
  assert (E : forall k, Forall2 (fun x F => forall v, In v (src x) -> tagv own na F v) l Fs -> length ys = length l ->
    (forall i x y v, nth_error l i = Some x -> nth_error ys i = Some y -> In v (bvs y) -> G v = true \/ In v (src x) \/ exists j, v = Aux j /\ na <= j < n /\ pos j = k + i) ->
    Forall2 (tb (patch own na (fun j => base + pos j)) n) ys (map (fun x => (base + fst x) :: snd x) (combine (seq k (length l)) Fs))).
  { clear Hp HF L. intros k HF. revert k ys. induction HF as [|x F l Fs Hx _ IH]; intros k [|y ys] L Hp; try discriminate; cbn [length seq combine map]; constructor.
    - intros v Hv. destruct (Hp 0 x y v eq_refl eq_refl Hv) as [H|[H|(j & -> & Hj & E)]]; [now left| |].
      + eapply tagv_mono; [apply patch_ext|exact Hn|apply incl_tl, incl_refl|auto].
      + right. exists j. split; [reflexivity|]. split; [lia|]. rewrite patch_new by lia. left. cbn [fst]. lia.
    - apply IH; [now injection L|]. intros i x' y' v H1 H2 H3. destruct (Hp (S i) x' y' v H1 H2 H3) as [H|[H|(j & -> & Hj & E)]]; auto. right. right. exists j. split; [reflexivity|]. split; [lia|]. lia. }
  apply (E 0 HF L). exact Hp.
Qed.

(** ** Operands *)
Lemma from_bit own na marks regs i F b : at_ own na 0 marks regs -> bit_from marks i = Some F -> pick r_bit regs i = Some b -> tb own na b F.
Proof.
  intros [_ H] HF Hb. unfold bit_from in HF. unfold pick in Hb. destruct (nth_error marks i) as [[f| |f S]|] eqn:Em; try discriminate HF. apply Some_eq in HF. subst F.
  destruct (nth_error regs i) as [r|] eqn:Er; [|discriminate Hb]. destruct r as [x|x|x|x]; cbn [r_bit] in Hb; try discriminate Hb. apply Some_eq in Hb. subst b. exact (H i _ _ Em Er).
Qed.
Lemma from_abit own na marks regs i F b : at_ own na 0 marks regs -> bit_from marks i = Some F -> pick r_abit regs i = Some b -> tagv own na F (ab_var b).
Proof.
  intros [_ H] HF Hb. unfold bit_from in HF. unfold pick in Hb. destruct (nth_error marks i) as [[f| |f S]|] eqn:Em; try discriminate HF. apply Some_eq in HF. subst F.
  destruct (nth_error regs i) as [r|] eqn:Er; [|discriminate Hb]. destruct r as [x|x|x|x]; cbn [r_abit] in Hb; try discriminate Hb. apply Some_eq in Hb. subst b. exact (H i _ _ Em Er).
Qed.
Lemma mark_of own na marks regs i r : at_ own na 0 marks regs -> nth_error regs i = Some r -> exists m, nth_error marks i = Some m /\ tagged own na i m r.
Proof.
  intros [L H] Hr. destruct (nth_error marks i) as [m|] eqn:Em; [exists m; split; [reflexivity|]; exact (H i m r Em Hr)|].
  apply nth_error_None in Em. rewrite L in Em. apply nth_error_None in Em. congruence.
Qed.
Lemma pick_bit_at own na marks regs i b : at_ own na 0 marks regs -> pick r_bit regs i = Some b -> exists F, tb own na b F.
Proof.
  intros H Hb. unfold pick in Hb. destruct (nth_error regs i) as [r|] eqn:Er; [|discriminate Hb]. destruct (mark_of _ _ _ _ _ _ H Er) as (m & _ & T).
  destruct r as [x|x|x|x]; cbn [r_bit] in Hb; try discriminate Hb. apply Some_eq in Hb. subst b. destruct m; try contradiction. eauto.
Qed.
Lemma pick_abit_at own na marks regs i b : at_ own na 0 marks regs -> pick r_abit regs i = Some b -> exists F, tagv own na F (ab_var b).
Proof.
  intros H Hb. unfold pick in Hb. destruct (nth_error regs i) as [r|] eqn:Er; [|discriminate Hb]. destruct (mark_of _ _ _ _ _ _ H Er) as (m & _ & T).
  destruct r as [x|x|x|x]; cbn [r_abit] in Hb; try discriminate Hb. apply Some_eq in Hb. subst b. destruct m; try contradiction. eauto.
Qed.
Lemma pick_num_at own na marks regs i a : at_ own na 0 marks regs -> pick r_num regs i = Some a -> exists j, an_var a = Aux j /\ j < na /\ own j = i.
Proof.
  intros H Hb. unfold pick in Hb. destruct (nth_error regs i) as [r|] eqn:Er; [|discriminate Hb]. destruct (mark_of _ _ _ _ _ _ H Er) as (m & _ & T).
  destruct r as [x|x|x|x]; cbn [r_num] in Hb; try discriminate Hb. apply Some_eq in Hb. subst a. destruct m; try contradiction. exact T.
Qed.
Lemma tagv_ok own na F v : tagv own na F v -> ok G v. Proof. intros [H|(j & -> & _)]; [now left|right; exact I]. Qed.
Lemma tb_okb own na F b : tb own na b F -> okb b. Proof. intros H v Hv. eapply tagv_ok; eauto. Qed.
Lemma tb_sb own na b : tb own na b [] -> sb b. Proof. intros H v Hv. destruct (H v Hv) as [K|(j & _ & _ & [])]. exact K. Qed.
Lemma own_sb own na marks regs i b : at_ own na 0 marks regs -> own_bit marks i = true -> pick r_bit regs i = Some b -> sb b.
Proof.
  intros H Ho Hb. apply (tb_sb own na). eapply from_bit; eauto. unfold own_bit, bit_from in *. destruct (nth_error marks i) as [[[|]| |]|]; try discriminate Ho. reflexivity.
Qed.
Lemma own_sbs own na marks regs is : at_ own na 0 marks regs -> forall l, forallb (own_bit marks) is = true -> picks r_bit regs is = Some l -> Forall sb l.
Proof.
  intros H. induction is as [|i is IH]; cbn [picks forallb]; intros l Ho E; [apply Some_eq in E; subst; constructor|]. apply andb_true_iff in Ho as [Ho1 Ho2].
  destruct (pick r_bit regs i) as [b|] eqn:Eb; [|discriminate E]. destruct (picks r_bit regs is) as [t|]; [|discriminate E]. apply Some_eq in E. subst l. constructor; [eapply own_sb; eauto|auto].
Qed.
Lemma from_bits_at own na marks regs is : at_ own na 0 marks regs -> forall Fs l, all_some (map (bit_from marks) is) = Some Fs -> picks r_bit regs is = Some l -> Forall2 (tb own na) l Fs.
Proof.
  intros H. induction is as [|i is IH]; cbn [picks map all_some]; intros Fs l EF E; [apply Some_eq in E, EF; subst; constructor|].
  destruct (bit_from marks i) as [F|] eqn:Ef; [|discriminate EF]. destruct (all_some (map (bit_from marks) is)) as [Ft|]; [|discriminate EF]. apply Some_eq in EF.
  destruct (pick r_bit regs i) as [b|] eqn:Eb; [|discriminate E]. destruct (picks r_bit regs is) as [t|]; [|discriminate E]. apply Some_eq in E. subst l Fs. constructor; [eapply from_bit; eauto|auto].
Qed.
Lemma weak_tags own na bs Fs v : Forall2 (tb own na) bs Fs -> In v (weak bs) -> exists j, v = Aux j /\ In (own j) (concat Fs).
Proof.
  intros H. induction H as [|b F bs Fs Hb _ IH]; [intros []|]. rewrite weak_cons. cbn [concat]. intros Hv. apply in_app_or in Hv as [Hv|Hv].
  - apply in_weakv in Hv as [Hv Hg]. destruct (Hb v Hv) as [K|(j & -> & _ & Hi)]; [congruence|]. exists j. split; [reflexivity|]. apply in_or_app. now left.
  - destruct (IH Hv) as (j & -> & Hi). exists j. split; [reflexivity|]. apply in_or_app. now right.
Qed.
Lemma tags_weak own na bs Fs : Forall2 (tb own na) bs Fs -> separate Fs = true -> NoDup (weak bs).
Proof.
  intros H. induction H as [|b F bs Fs Hb HF IH]; [constructor|]. cbn [separate]. rewrite weak_cons. intros HN. apply andb_true_iff in HN as [N3 N2].
  apply nodup_app. split; [apply weakv_nodup, bvs_nodup|]. split; [auto|]. intros v Hv Hw. apply in_weakv in Hv as [Hv Hg]. destruct (Hb v Hv) as [K|(j & -> & _ & Hi)]; [congruence|].
  destruct (weak_tags _ _ _ _ _ HF Hw) as (j' & E & Hi'). injection E as <-. exact (disjoint_spec _ _ N3 _ Hi Hi').
Qed.
Lemma apart_weak own na marks regs is l : at_ own na 0 marks regs -> apart (bit_from marks) is = true -> picks r_bit regs is = Some l -> NoDup (weak l).
Proof.
  intros H Ha E. unfold apart in Ha. destruct (all_some (map (bit_from marks) is)) as [Fs|] eqn:EF; [|discriminate Ha]. eapply tags_weak; [eapply from_bits_at; eauto|exact Ha].
Qed.
Lemma word_inv regs is w : opt (picks r_bit regs is) (fun l => done (from_bits l)) = Some w -> picks r_bit regs is = Some (u_bits w) /\ length (u_bits w) = 32.
Proof.
  destruct (picks r_bit regs is) as [l|]; cbn [opt]; [|discriminate]. unfold from_bits. destruct (Nat.eqb_spec (length l) 32) as [L|L]; cbn [done]; [|discriminate]. intros E. apply Some_eq in E. subst w. auto.
Qed.
Lemma picks_length {A B} (proj : A -> option B) l is : forall bs, picks proj l is = Some bs -> length bs = length is.
Proof.
  induction is as [|i is IH]; cbn [picks]; intros bs E; [apply Some_eq in E; now subst|]. destruct (pick proj l i); [|discriminate E]. destruct (picks proj l is) as [t|]; [|discriminate E].
  apply Some_eq in E. subst bs. cbn. now rewrite (IH t eq_refl).
Qed.
Lemma picks_app {A B} (proj : A -> option B) l is js bs cs : picks proj l is = Some bs -> picks proj l js = Some cs -> picks proj l (is ++ js) = Some (bs ++ cs).
Proof.
  revert bs. induction is as [|i is IH]; cbn [picks app]; intros bs E E'; [apply Some_eq in E; now subst|]. destruct (pick proj l i); [|discriminate E]. destruct (picks proj l is) as [t|]; [|discriminate E].
  apply Some_eq in E. subst bs. now rewrite (IH t eq_refl E').
Qed.
Lemma words_inv regs words : forall ws ops, all_some (map (picks r_bit regs) words) = Some ws -> all_some (map (fun w => done (from_bits w)) ws) = Some ops ->
  picks r_bit regs (concat words) = Some (flat_map u_bits ops) /\ Forall (fun w => length (u_bits w) = 32) ops.
Proof.
  induction words as [|is words IH]; cbn [map all_some concat]; intros ws ops Ew Eo.
  - apply Some_eq in Ew. subst ws. cbn in Eo. apply Some_eq in Eo. subst ops. split; [reflexivity|constructor].
  - destruct (picks r_bit regs is) as [l|] eqn:El; [|discriminate Ew]. destruct (all_some (map (picks r_bit regs) words)) as [t|]; [|discriminate Ew]. apply Some_eq in Ew. subst ws. cbn [map all_some] in Eo.
    unfold from_bits at 1 in Eo. destruct (Nat.eqb_spec (length l) 32) as [L|L]; cbn [done] in Eo; [|discriminate Eo].
    destruct (all_some (map (fun w => done (from_bits w)) t)) as [ot|] eqn:Eot; [|discriminate Eo]. apply Some_eq in Eo. subst ops. destruct (IH t ot eq_refl Eot) as [I1 I2].
    split; [cbn [flat_map u_bits]; now apply picks_app|constructor; [exact L|exact I2]].
Qed.

(** ** Constraints of one's own *)
Definition rvars (r : reg P) : list Var := match r with RBit b => bvs b | RABit a => [ab_var a] | RNum a => [an_var a] | RLin n => written_vars (num_lc_ n) end.
Lemma tagged_from own na marks regs i F r : at_ own na 0 marks regs -> any_from marks i = Some F -> nth_error regs i = Some r ->
  match r with RLin n => safe G is_aux (num_lc_ n) | _ => True end /\ forall v, is_aux v -> In v (rvars r) -> tagv own na F v.
Proof.
  intros [_ H] HF Hr. unfold any_from in HF. destruct (nth_error marks i) as [[f| |f S]|] eqn:Em; [| | |discriminate HF]; apply Some_eq in HF; subst F; specialize (H i _ _ Em Hr);
    destruct r as [b|a|a|a]; cbn [tagged rvars] in *; try contradiction.
  - split; [exact I|]. intros v _. exact (H v).
  - split; [exact I|]. intros v _ [<-|[]]. exact H.
  - split; [exact I|]. destruct H as (j & E & Hj & Hi). intros v _ [<-|[]]. right. exists j. rewrite E. split; [reflexivity|]. split; [exact Hj|]. left. exact (eq_sym Hi).
  - destruct H as [H1 H2]. split; [exact H2|]. intros v Ha Hv. apply H1; [exact Ha|]. now apply in_written.
Qed.
Lemma all_some_in {A} (f : A -> option (list nat)) is : forall Fs i, all_some (map f is) = Some Fs -> In i is -> exists F, f i = Some F /\ incl F (concat Fs).
Proof.
  induction is as [|x is IH]; cbn [map all_some]; [intros Fs i _ []|]. intros Fs i E [Hi|Hi]; (destruct (f x) as [F|] eqn:Ef; [|discriminate E]); (destruct (all_some (map f is)) as [Ft|]; [|discriminate E]); apply Some_eq in E; subst Fs; cbn [concat].
  - subst i. exists F. split; [exact Ef|apply incl_appl, incl_refl].
  - destruct (IH Ft i eq_refl Hi) as (F' & H & HI). exists F'. split; [exact H|now apply incl_appr].
Qed.
(** The coefficient of a variable outside [G]. *)
Lemma lin_weak own na marks regs v : at_ own na 0 marks regs -> is_aux v -> G v = false -> forall l Fs acc lc, all_some (map (any_from marks) (map snd l)) = Some Fs -> separate Fs = true ->
  lin_lc regs l acc = Some lc -> exists s c, s <> fzero /\ cf v lc = (cf v acc + s * c)%F /\ (written v lc -> written v acc \/ c <> fzero) /\
    (forall c' i r, In (c', i) l -> nth_error regs i = Some r -> In v (rvars r) -> c' = c) /\
    ((forall j, v = Aux j -> ~ In (own j) (concat Fs)) -> c = fzero).
Proof.
  intros HA Ha Hg. induction l as [|[c0 i0] l IH]; intros Fs acc lc EF HN E; cbn [map all_some lin_lc snd] in *.
  { apply Some_eq in E, EF. subst lc Fs. exists fone, fzero. split; [apply f_1_neq_0|]. split; [ring|]. split; [now left|]. split; [intros ? ? ? []|reflexivity]. }
  destruct (any_from marks i0) as [F|] eqn:Ef; [|discriminate EF]. destruct (all_some (map (any_from marks) (map snd l))) as [Ft|] eqn:Et; [|discriminate EF]. apply Some_eq in EF. subst Fs. cbn [separate] in HN.
  apply andb_true_iff in HN as [N3 N2]. destruct (nth_error regs i0) as [r|] eqn:Er; [|discriminate E]. destruct (tagged_from own na marks regs i0 F r HA Ef Er) as [Hl Ht].
  assert (T : exists acc' s0, lin_lc regs l acc' = Some lc /\ s0 <> fzero /\ cf v acc' = (cf v acc + (if in_dec var_dec v (rvars r) then s0 * c0 else fzero))%F /\
    (written v acc' -> written v acc \/ In v (rvars r) /\ c0 <> fzero)).
  { destruct r as [b|a|a|a]; cbn [rvars].
    - exists (lc_add_lc acc (b_lc b one_var c0)), (match b with BNot _ => (- (1))%F | _ => fone end). split; [exact E|]. split; [destruct b; first [apply f_1_neq_0|exact (one_not (P := P))]|]. rewrite add_lc_app. split.
      + rewrite cf_app, lit_cf by exact Ha. destruct (in_dec var_dec v (bvs b)) as [Hi|Hi].
        * rewrite (proj2 (not_in_bvs v b) Hi). destruct b; ring.
        * destruct (existsb _ (bvs b)) eqn:Ex; [apply not_in_bvs in Ex; contradiction|]. ring.
      + intros (d & Hd & Hn). apply in_app_or in Hd as [Hd|Hd]; [left; exists d; auto|right]. assert (W : written v (b_lc b one_var c0 : LC P)) by (exists d; auto).
        split; [|exact (lit_nonzero b c0 v Ha W)]. apply written_mentioned in W. now apply (lit_mentioned_aux _ _ _ Ha) in W.
    - exists (lc_add_term acc c0 (ab_var a)), fone. split; [exact E|]. split; [apply f_1_neq_0|]. unfold lc_add_term. split.
      + rewrite cf_app. destruct (in_dec var_dec v [ab_var a]) as [[<-|[]]|Hi]; [rewrite cf_hd; cbn [cf]; ring|]. rewrite cf_tl by (intros K; apply Hi; now left). cbn [cf]. ring.
      + intros (d & Hd & Hn). apply in_app_or in Hd as [Hd|[Hd|[]]]; [left; exists d; auto|right]. injection Hd as <- <-. split; [now left|exact Hn].
    - exists (lc_add_term acc c0 (an_var a)), fone. split; [exact E|]. split; [apply f_1_neq_0|]. unfold lc_add_term. split.
      + rewrite cf_app. destruct (in_dec var_dec v [an_var a]) as [[<-|[]]|Hi]; [rewrite cf_hd; cbn [cf]; ring|]. rewrite cf_tl by (intros K; apply Hi; now left). cbn [cf]. ring.
      + intros (d & Hd & Hn). apply in_app_or in Hd as [Hd|[Hd|[]]]; [left; exists d; auto|right]. injection Hd as <- <-. split; [now left|exact Hn].
    - exists (lc_add_lc acc (num_lc a c0)), (if in_dec var_dec v (written_vars (num_lc_ a)) then cf v (num_lc_ a) else fone). split; [exact E|]. split; [|split].
      + destruct (in_dec var_dec v (written_vars (num_lc_ a))) as [Hi|Hi]; [|apply f_1_neq_0]. apply Hl; [exact Ha|exact Hg|now apply in_written].
      + rewrite add_lc_app, cf_app. unfold num_lc. rewrite add_scaled_app, cf_app, cf_scale. change (cf v lc_zero) with (fzero : P).
        destruct (in_dec var_dec v (written_vars (num_lc_ a))) as [Hi|Hi]; [ring|]. rewrite (not_written v (num_lc_ a)) by (intros K; apply Hi; now apply in_written). ring.
      + rewrite add_lc_app. intros (d & Hd & Hn). apply in_app_or in Hd as [Hd|Hd]; [left; exists d; auto|right]. unfold num_lc in Hd. rewrite add_scaled_app in Hd. cbn [lc_zero app] in Hd.
        apply in_map_iff in Hd as ((v' & c') & Ed & Hd). cbn [fst snd] in Ed. injection Ed as <- <-. split.
        * apply in_written. exists c'. split; [exact Hd|]. intros ->. apply Hn. ring.
        * intros ->. apply Hn. ring. }
  clear E. destruct T as (acc' & s0 & E & Hs0 & C0 & W0). destruct (IH Ft acc' lc eq_refl N2 E) as (s & c & Hs & C & W & U & Z). destruct (in_dec var_dec v (rvars r)) as [Hi|Hi].
  - (* the head is the only term with the variable *)
    destruct (Ht v Ha Hi) as [K|(j & Ej & _ & Hj)]; [congruence|]. assert (N : ~ In (own j) (concat Ft)) by (intros K; exact (disjoint_spec _ _ N3 _ Hj K)).
    assert (c = fzero) as -> by (apply Z; intros j' E'; rewrite Ej in E'; injection E' as <-; exact N).
    exists s0, c0. split; [exact Hs0|]. split; [rewrite C, C0; ring|]. split; [|split].
    + intros K. apply W in K as [K|K]; [|contradiction]. apply W0 in K as [K|[_ K]]; auto.
    + intros c' i r' [K|K] Hr' Hv; [now injection K as <- _|]. exfalso.
      destruct (all_some_in (any_from marks) (map snd l) Ft i Et (in_map snd _ _ K)) as (F' & HF' & HI).
      destruct (tagged_from own na marks regs i F' r' HA HF' Hr') as [_ T']. destruct (T' v Ha Hv) as [Q|(j' & E' & _ & Hj')]; [congruence|].
      rewrite Ej in E'. injection E' as <-. exact (N (HI _ Hj')).
    + intros K. exfalso. apply (K j Ej). cbn [concat]. apply in_or_app. now left.
  - exists s, c. split; [exact Hs|]. split; [rewrite C, C0; ring|]. split; [|split].
    + intros K. apply W in K as [K|K]; [|now right]. apply W0 in K as [K|[K _]]; [now left|contradiction].
    + intros c' i r' [K|K] Hr' Hv; [injection K as <- <-; rewrite Er in Hr'; apply Some_eq in Hr'; subst r'; contradiction|]. eapply U; eauto.
    + intros K. apply Z. intros j Ej Hj. apply (K j Ej). cbn [concat]. apply in_or_app. now right.
Qed.
(** With numbers only, the input variables do not change. *)
Lemma lin_inputs own na marks regs v : at_ own na 0 marks regs -> ~ is_aux v -> forall l acc lc, forallb (is_number marks) (map snd l) = true -> lin_lc regs l acc = Some lc ->
  cf v lc = cf v acc /\ (written v lc -> written v acc).
Proof.
  intros [_ HA] Ha. induction l as [|[c0 i0] l IH]; intros acc lc HN E; cbn [map forallb lin_lc snd] in *; [apply Some_eq in E; subst; auto|]. apply andb_true_iff in HN as [N1 N2].
  unfold is_number in N1. destruct (nth_error marks i0) as [[f| |f S]|] eqn:Em; try discriminate N1. destruct (nth_error regs i0) as [r|] eqn:Er; [|discriminate E]. specialize (HA i0 _ _ Em Er).
  destruct r as [b|a|a|a]; cbn [tagged] in HA; try contradiction. destruct HA as (j & Ej & _). assert (N : an_var a <> v) by (rewrite Ej; intros <-; exact (Ha I)).
  destruct (IH _ _ N2 E) as [H1 H2]. unfold lc_add_term in *. rewrite cf_app, cf_tl in H1 by exact N. split; [rewrite H1; cbn [cf]; ring|]. intros K. destruct (H2 K) as (d & Hd & Hn).
  apply in_app_or in Hd as [Hd|[Hd|[]]]; [exists d; auto|]. injection Hd as Hd _. contradiction.
Qed.
Lemma sign_nonzero (s c : P) : s <> fzero -> c <> fzero -> (s * c)%F <> fzero.
Proof. intros Hs Hc E. apply Hc. transitivity (finv s * (s * c))%F; [field; exact Hs|]. rewrite E. ring. Qed.
Lemma start_aux v c : is_aux v -> cf v (lc_add_term lc_zero c one_var : LC P) = fzero /\ ~ written v (lc_add_term lc_zero c one_var : LC P).
Proof. intros Ha. unfold lc_add_term, lc_zero. cbn [app]. split; [rewrite cf_tl by (now apply aux_one); reflexivity|]. intros (d & [K|[]] & _). injection K as K _. exact (aux_one v Ha K). Qed.
Lemma lin_safe own na marks regs a lc : at_ own na 0 marks regs -> apart (any_from marks) (map snd (snd a)) = true -> lin_of regs a = Some lc -> safe G is_aux lc.
Proof.
  intros HA Hp E v Ha Hg W. unfold apart in Hp. destruct (all_some (map (any_from marks) (map snd (snd a)))) as [Fs|] eqn:EF; [|discriminate Hp].
  destruct (start_aux v (fst a) Ha) as [S1 S2]. destruct (lin_weak own na marks regs v HA Ha Hg _ Fs _ lc EF Hp E) as (s & c & Hs & C & Hw & _). rewrite C, S1. apply Hw in W as [W|W]; [contradiction|].
  intros K. apply (sign_nonzero s c Hs W). etransitivity; [|exact K]. ring.
Qed.
Lemma lin_safe_b own na marks regs a lc : at_ own na 0 marks regs -> apart (any_from marks) (map snd (snd a)) = true -> forallb (is_number marks) (map snd (snd a)) = true ->
  lin_of regs a = Some lc -> safe G (fun _ => True) lc.
Proof.
  intros HA Hp HN E v _ Hg W. destruct v as [i|j]; [|eapply lin_safe; eauto; exact I].
  destruct (lin_inputs own na marks regs (Input i) HA (fun x => x) _ _ _ HN E) as [H1 H2]. rewrite H1. destruct (H2 W) as (d & [K|[]] & Hd). injection K as K1 K2. rewrite K2. rewrite <- K1.
  unfold lc_add_term, lc_zero. cbn [app]. rewrite cf_same. exact Hd.
Qed.

(** ** The statements *)
Lemma dn_have {A B} na (o : option A) (k : A -> prog P (res B)) Q : (forall a, o = Some a -> dn G na (k a) Q) -> dn G na (have o k) Q.
Proof. intros H. destruct o; cbn [have]; [auto|exact I]. Qed.
Lemma opt_inv {A B} (o : option A) (f : A -> option B) r : opt o f = Some r -> exists a, o = Some a /\ f a = Some r.
Proof. destruct o; cbn [opt]; [eauto|discriminate]. Qed.
Lemma guard_inv {A} b (o : option A) r : guard b o = Some r -> b = true /\ o = Some r.
Proof. destruct b; cbn [guard]; [auto|discriminate]. Qed.
Lemma triop_pos na a b c fn (f : nat -> Boolean -> Boolean -> Boolean -> prog P (res Boolean)) own base : sw a -> sw b -> sw c ->
  (forall j n x y z, sb x -> sb y -> sb z -> dn G n (f j x y z) (der [] n)) ->
  dn G na (@triop P a b c fn f) (fun n w => post own na base (map (fun k => MBit [base + k]) (seq 0 32)) n (map RBit (into_bits w))).
Proof.
  intros [A1 A2] [B1 B2] [C1 C2] Hf. unfold triop. cbv zeta.
  eapply dn_bindq.
  - apply (mapq_pos _ (fun _ => [])).
    intros j [[x y] z] n Hx Hn. cbn [fst snd]. pose proof (in_combine_r _ _ _ _ Hx) as Hz. apply in_combine_l in Hx. pose proof (in_combine_r _ _ _ _ Hx) as Hy. apply in_combine_l in Hx.
    apply Hf; [exact (proj1 (Forall_forall _ _) A2 _ Hx)|exact (proj1 (Forall_forall _ _) B2 _ Hy)|exact (proj1 (Forall_forall _ _) C2 _ Hz)].
  - cbv beta. intros n ys Hn (L & pos & Hp). apply dn_ret. unfold into_bits. cbn [u_bits].
    match type of Hp with forall k x y v, nth_error ?l k = _ -> _ => set (l0 := l) in * end.
    assert (L0 : length l0 = 32) by (unfold l0; rewrite !combine_length; lia).
    replace (map (fun k => MBit [base + k]) (seq 0 32)) with (map (fun x : nat * list nat => MBit ((base + fst x) :: snd x)) (combine (seq 0 (length l0)) (repeat [] (length l0)))) by (rewrite L0; reflexivity).
    eapply post_loop with (src := fun _ => []); [exact Hn|exact L|exact Hp|]. clear. induction l0 as [|x l IH]; cbn [length repeat]; constructor; [intros v []|exact IH].
Qed.
Lemma combine_rel {A B C} (R : A -> B -> Prop) l m Fs Gs (T : A * A -> C -> Prop) (h : B -> B -> C) : Forall2 R l Fs -> Forall2 R m Gs -> (forall x y f g, R x f -> R y g -> T (x, y) (h f g)) ->
  Forall2 T (combine l m) (map (fun p => h (fst p) (snd p)) (combine Fs Gs)).
Proof.
  intros HF HG HT. revert m Gs HG. induction HF as [|x F l Fs Hx _ IH]; intros m Gs HG; [constructor|]. destruct HG as [|y g m Gs Hy HG]; [constructor|]. cbn [combine map fst snd]. constructor; [auto|apply IH; exact HG].
Qed.
Lemma xor_pos na a b own base Fa Fb : length (u_bits a) = 32 -> length (u_bits b) = 32 -> Forall2 (tb own na) (u_bits a) Fa -> Forall2 (tb own na) (u_bits b) Fb ->
  dn G na (@u_xor P a b) (fun n w => post own na base (map (fun x => MBit ((base + fst x) :: fst (snd x) ++ snd (snd x))) (combine (seq 0 32) (combine Fa Fb))) n (map RBit (into_bits w))).
Proof.
  intros A1 B1 HA HB. unfold u_xor. cbv zeta. eapply dn_bindq.
  - apply (mapq_pos _ (fun x => bvs (fst x) ++ bvs (snd x))). intros j x n Hx Hn. apply dn_ns. eapply dn_mono; [apply b_xor_dn|]. intros n' y _ Hy. exact Hy.
  - cbv beta. intros n ys Hn (L & pos & Hp). apply dn_ret. unfold into_bits. cbn [u_bits].
    assert (L0 : length (combine (u_bits a) (u_bits b)) = 32) by (rewrite combine_length; lia).
    assert (E : forall k, map (fun x : nat * (list nat * list nat) => MBit ((base + fst x) :: fst (snd x) ++ snd (snd x))) (combine (seq k 32) (combine Fa Fb)) =
      map (fun x : nat * list nat => MBit ((base + fst x) :: snd x)) (combine (seq k 32) (map (fun p => fst p ++ snd p) (combine Fa Fb)))).
    { generalize 32 as u. generalize (combine Fa Fb) as M. induction M as [|m M IH]; intros [|u] k; try reflexivity. cbn [seq combine map fst snd]. f_equal. apply IH. }
    rewrite E. rewrite <- L0 at 1. eapply post_loop; [exact Hn|exact L|exact Hp|].
    eapply combine_rel with (R := tb own na) (h := fun f g => f ++ g); [exact HA|exact HB|]. intros x y f g Hx Hy v Hv. cbn [fst snd] in Hv. apply in_app_or in Hv as [Hv|Hv].
    + eapply tagv_mono; [apply ext_refl|apply Nat.le_refl|apply incl_appl, incl_refl|auto].
    + eapply tagv_mono; [apply ext_refl|apply Nat.le_refl|apply incl_appr, incl_refl|auto].
Qed.

Lemma sb_is a : G (ab_var a) = true -> sb (BIs a). Proof. intros H v [<-|[]]. exact H. Qed.
Lemma post_sb own na base n b : sb b -> post own na base [MBit []] n [RBit b].
Proof. intros Hb. exact (post_strong own na _ n 1 [b] (Forall_cons _ Hb (Forall_nil _)) eq_refl). Qed.
Lemma post_abit own na base n a F : na <= n -> tagv own na F (ab_var a) -> post own na base [MBit F] n [RABit a].
Proof. intros Hn H. exists own. split; [apply ext_refl|]. apply at_one. cbn [tagged]. eapply tagv_mono; eauto using ext_refl, incl_refl. Qed.
Lemma post_bit own na base n b F : na <= n -> tb own na b F -> post own na base [MBit F] n [RBit b].
Proof. intros Hn H. exists own. split; [apply ext_refl|]. apply at_one. cbn [tagged]. eapply tb_mono; eauto using ext_refl, incl_refl. Qed.
Lemma post_bits own na base n bs Fs : na <= n -> Forall2 (tb own na) bs Fs -> post own na base (map MBit Fs) n (map RBit bs).
Proof.
  intros Hn H. exists own. split; [apply ext_refl|]. apply at_bits. revert H. apply Forall2_impl. intros b F. apply tb_mono; auto using ext_refl, incl_refl.
Qed.
Lemma post_none own na base n : post own na base [] n []. Proof. exists own. split; [apply ext_refl|apply at_nil]. Qed.
Lemma own_in own na marks regs is js b l : at_ own na 0 marks regs -> forallb (own_bit marks) js = true -> incl is js -> picks r_bit regs is = Some l -> b = l -> Forall sb b.
Proof. intros HA Ho Hi E ->. eapply own_sbs; [exact HA| |exact E]. apply forallb_forall. intros x Hx. exact (proj1 (forallb_forall _ _) Ho x (Hi x Hx)). Qed.

Lemma from_lin own na marks regs i F S n : at_ own na 0 marks regs -> lin_from marks i = Some (F, S) -> pick r_lin regs i = Some n ->
  (forall v, is_aux v -> written v (num_lc_ n) -> tagv own na F v) /\ safe G is_aux (num_lc_ n).
Proof.
  intros [_ H] HF Hb. unfold lin_from in HF. unfold pick in Hb. destruct (nth_error marks i) as [[f| |f S']|] eqn:Em; try discriminate HF. apply Some_eq in HF. injection HF as -> ->.
  destruct (nth_error regs i) as [r|] eqn:Er; [|discriminate Hb]. destruct r as [x|x|x|x]; cbn [r_lin] in Hb; try discriminate Hb. apply Some_eq in Hb. subst n. exact (H i _ _ Em Er).
Qed.
Lemma add_bool_cf own na F F' (n : Num P) b coeff v : (forall v, is_aux v -> written v (num_lc_ n) -> tagv own na F v) -> tb own na b F' -> (forall x, In x F -> ~ In x F') -> is_aux v -> G v = false ->
  (cf v (num_lc_ n ++ b_lc b one_var coeff) = cf v (num_lc_ n) /\ (written v (num_lc_ n ++ b_lc b one_var coeff) -> written v (num_lc_ n))) \/
  (~ written v (num_lc_ n) /\ (written v (num_lc_ n ++ b_lc b one_var coeff) -> cf v (num_lc_ n ++ b_lc b one_var coeff) <> fzero)).
Proof.
  intros T Tb D Ha Hg. rewrite cf_app. destruct (in_dec var_dec v (bvs b)) as [Hi|Hi].
  - right. assert (N : ~ written v (num_lc_ n)).
    { intros W. destruct (T v Ha W) as [K|(j & Ej & _ & Hj)]; [congruence|]. destruct (Tb v Hi) as [K|(j' & Ej' & _ & Hj')]; [congruence|]. rewrite Ej in Ej'. injection Ej' as <-. exact (D _ Hj Hj'). }
    split; [exact N|]. intros (d & Hd & Hn). apply in_app_or in Hd as [Hd|Hd]; [exfalso; apply N; exists d; auto|]. rewrite (not_written _ _ N).
    assert (W : written v (b_lc b one_var coeff : LC P)) by (exists d; auto). intros K. apply (lit_cf_nonzero b coeff v Ha Hi (lit_nonzero b coeff v Ha W)). etransitivity; [|exact K]. ring.
  - left. assert (N : ~ mentioned v (b_lc b one_var coeff : LC P)) by (intros K; apply Hi; exact (proj1 (lit_mentioned_aux (P := P) b coeff v Ha) K)). split.
    + rewrite (cf_unmentioned G v _ N). ring.
    + intros (d & Hd & Hn). apply in_app_or in Hd as [Hd|Hd]; [exists d; auto|]. exfalso. apply N, written_mentioned. exists d. auto.
Qed.
Lemma safe_of R (n : Num P) v : num_lc_ n = [(v, fone)] -> safe G R (num_lc_ n). Proof. intros ->. apply safe_one, f_1_neq_0. Qed.
Lemma lookup_neg_dn na b0 b1 b2 coords : sb b0 -> sb b1 -> sb b2 -> dn G na (@lookup3_xy_neg P [b0; b1; b2] coords) (fun n r => S na <= n /\ num_lc_ (snd r) = [(Aux na, fone)] /\
  exists pc, der [] (S na) n pc /\ (forall v, is_aux v -> written v (num_lc_ (fst r)) -> G v = true \/ In v (bvs pc)) /\ safe G is_aux (num_lc_ (fst r))).
Proof.
  intros H0 H1 H2. unfold lookup3_xy_neg. destruct (negb _); [exact I|]. cbv zeta.
  eapply dn_bindq; [apply dn_ns, an_alloc_dn|]. cbv beta. intros n y _ [-> Hy].
  eapply dn_bindq; [apply dn_ns, b_and_dn_s; assumption|]. intros n pc Hn Hpc.
  assert (N : forall v b c, is_aux v -> G v = false -> sb b -> cf v (b_lc b one_var c : LC P) = fzero /\ ~ written v (b_lc b one_var c : LC P)).
  { intros v b c Ha Hg Hb. assert (X : ~ mentioned v (b_lc b one_var c : LC P)) by (intros Hm; apply (lit_mentioned_aux _ _ _ Ha) in Hm; rewrite (Hb v Hm) in Hg; discriminate).
    split; [now apply (cf_unmentioned G)|]. intros K. now apply X, written_mentioned. }
  assert (Nc : forall v c, is_aux v -> cf v (b_lc (BConst true) one_var c : LC P) = fzero /\ ~ written v (b_lc (BConst true) one_var c : LC P)).
  { intros v c Ha. assert (X : ~ mentioned v (b_lc (BConst true) one_var c : LC P)) by (intros Hm; apply (lit_mentioned_aux _ _ _ Ha) in Hm; destruct Hm).
    split; [now apply (cf_unmentioned G)|]. intros K. now apply X, written_mentioned. }
  unfold dn. cbn [bind cs_enforce wpD]. split; [|split; [|intros _]].
  - rewrite !add_lc_app. unfold lc_add_term, lc_zero. cbn [app]. intros v Ha Hg W. rewrite !cf_app.
    rewrite (proj1 (N v b0 _ Ha Hg H0)), (proj1 (N v b1 _ Ha Hg H1)), !cf_tl by now apply aux_one. cbn [cf].
    assert (Wp : written v (b_lc pc one_var (nth 3 (synth 2 (map snd coords)) fzero) : LC P)).
    { destruct W as (d & Hd & Hw). rewrite !in_app_iff in Hd. 
      destruct Hd as [[[[Hd|Hd]|Hd]|Hd]|[[[Hd|Hd]|Hd]|Hd]]; try (exists d; split; [exact Hd|exact Hw]); exfalso;
        first [eapply (proj2 (N v b0 _ Ha Hg H0)); exists d; split; [exact Hd|exact Hw]|eapply (proj2 (N v b1 _ Ha Hg H1)); exists d; split; [exact Hd|exact Hw]|destruct Hd as [Hd|[]]; injection Hd as Hd _; exact (aux_one _ Ha Hd)]. }
    pose proof (lit_nonzero _ _ _ Ha Wp) as Hc. apply written_mentioned in Wp. apply (lit_mentioned_aux _ _ _ Ha) in Wp. pose proof (lit_cf_nonzero pc _ v Ha Wp Hc) as X.
    intros K. apply (sign_nonzero (1 + 1)%F (cf v (b_lc pc one_var (nth 3 (synth 2 (map snd coords)) fzero)))); [exact (f_2_neq_0 (P := P))|exact X|]. etransitivity; [|exact K]. ring.
  - rewrite add_lc_app. cbn [lc_zero app]. apply safe_lit. now apply sb_okb.
  - cbn [fst snd num_of_allocated num_add_bool num_zero num_lc_]. split; [exact Hn|]. split; [unfold num_of_allocated; cbn [num_lc_]; unfold lc_add_term, lc_add_var, lc_zero; rewrite Hy; reflexivity|]. exists pc. split; [exact Hpc|]. unfold num_add_bool, num_zero. cbn [num_lc_]. rewrite !add_lc_app. unfold lc_zero. cbn [app].
    assert (Wp : forall v, is_aux v -> G v = false -> written v (((b_lc (BConst true) one_var (nth 0 (synth 2 (map fst coords)) fzero) ++ b_lc b0 one_var (nth 1 (synth 2 (map fst coords)) fzero)) ++ b_lc b1 one_var (nth 2 (synth 2 (map fst coords)) fzero)) ++
      b_lc pc one_var (nth 3 (synth 2 (map fst coords)) fzero) : LC P) -> written v (b_lc pc one_var (nth 3 (synth 2 (map fst coords)) fzero) : LC P)).
    { intros v Ha Hg (d & Hd & Hw). rewrite !in_app_iff in Hd. destruct Hd as [[[Hd|Hd]|Hd]|Hd]; try (exists d; split; [exact Hd|exact Hw]); exfalso;
        [eapply (proj2 (Nc v _ Ha))|eapply (proj2 (N v b0 _ Ha Hg H0))|eapply (proj2 (N v b1 _ Ha Hg H1))]; exists d; (split; [exact Hd|exact Hw]). }
    split.
    + intros v Ha W. destruct (G v) eqn:Hg; [now left|right]. apply (Wp v Ha Hg) in W. apply written_mentioned in W. exact (proj1 (lit_mentioned_aux _ _ _ Ha) W).
    + intros v Ha Hg W. apply (Wp v Ha Hg) in W. cbn [fst num_lc_]. rewrite !cf_app, (proj1 (Nc v _ Ha)), (proj1 (N v b0 _ Ha Hg H0)), (proj1 (N v b1 _ Ha Hg H1)).
      pose proof (lit_nonzero _ _ _ Ha W) as Hc. apply written_mentioned in W. apply (lit_mentioned_aux _ _ _ Ha) in W. intros K. apply (lit_cf_nonzero pc _ v Ha W Hc). etransitivity; [|exact K]. ring.
Qed.

(** Bits whose variables without a constraint of their own occur once. *)
Fixpoint place (v : Var) (l : list Boolean) : nat := match l with [] => 0 | b :: t => if in_dec var_dec v (bvs b) then 0 else S (place v t) end.
Lemma place_spec v : G v = false -> forall l k b, NoDup (weak l) -> nth_error l k = Some b -> In v (bvs b) -> place v l = k.
Proof.
  intros Hg. induction l as [|x l IH]; intros [|k] b HN Hb Hv; cbn [nth_error place] in *; try discriminate.
  - apply Some_eq in Hb. subst x. destruct (in_dec var_dec v (bvs b)); [reflexivity|contradiction].
  - rewrite weak_cons in HN. apply nodup_app in HN as (_ & N2 & N3). destruct (in_dec var_dec v (bvs x)) as [Hx|_]; [|f_equal; eapply IH; eauto].
    exfalso. apply (N3 v); [now apply in_weakv|]. apply in_weakv. split; [|exact Hg]. apply in_flat_map. exists b. split; [exact (nth_error_In _ _ Hb)|exact Hv].
Qed.
Lemma post_once own na base n l m : na <= n -> wl G na n l -> length l = m -> post own na base (map (fun k => MBit [base + k]) (seq 0 m)) n (map RBit l).
Proof.
  intros Hn [N V] <-. exists (patch own na (fun j => base + place (Aux j) l)). split; [apply patch_ext|]. rewrite <- (map_map (fun k => [base + k]) MBit). apply at_bits.
  assert (T : forall k b, nth_error l k = Some b -> tb (patch own na (fun j => base + place (Aux j) l)) n b [base + (0 + k)]).
  { intros k b Hb v Hv. destruct (G v) eqn:Hg; [now left|right]. destruct (V v) as (j & -> & Hj).
    { apply in_weakv. split; [|exact Hg]. apply in_flat_map. exists b. split; [exact (nth_error_In _ _ Hb)|exact Hv]. }
    exists j. split; [reflexivity|]. split; [lia|]. rewrite patch_new by lia. rewrite (place_spec _ Hg l k b N Hb Hv). now left. }
  revert T. generalize (patch own na (fun j => base + place (Aux j) l)) as o. clear N V. generalize 0 as s. induction l as [|b l IH]; intros s o T; cbn [length seq map]; constructor.
  - specialize (T 0 b eq_refl). now rewrite Nat.add_0_r in T.
  - apply IH. intros k x Hx. replace (S s + k) with (s + S k) by lia. exact (T (S k) x Hx).
Qed.

Ltac dhave H := apply dn_have; intros ? H.
Lemma statement_dn own na marks regs w st new : at_ own na 0 marks regs -> tidy_step marks st = Some new -> dn G na (statement w regs st) (fun n l => post own na (length marks) new n l).
Proof.
  intros HA. unfold tidy_step. cbv zeta. intros HT.
  destruct st; cbn [statement]; try discriminate HT.
  - (* SBit *) apply Some_eq in HT. subst new. unfold new_bit. apply dn_bindq with (Q1 := fun _ b => sb b); [eapply dn_bindq; [apply ab_alloc_dn|]|].
    + cbv beta. intros n a Hn [_ Hg]. apply dn_ret. exact (sb_is a Hg).
    + cbv beta. intros n b Hn Hb. apply dn_ret. now apply post_sb.
  - (* SNum *) apply Some_eq in HT. subst new. unfold new_num. eapply dn_bindq; [apply an_alloc_dn|]. cbv beta. intros n a Hn [E1 E2]. apply dn_ret. eapply post_num; [exact E2|lia].
  - (* SAllocated *) apply Some_eq in HT. subst new. unfold new_abit. eapply dn_bindq; [apply ab_alloc_dn|]. cbv beta. intros n a Hn [_ Hg]. apply dn_ret. apply post_abit; [exact Hn|now left].
  - (* SUnless *) apply Some_eq in HT. subst new. dhave Ea. unfold new_abit. eapply dn_bindq; [apply cond_dn|]. cbv beta. intros n r Hn [_ Hg]. apply dn_ret. apply post_abit; [exact Hn|now left].
  - (* SGate *) apply Some_eq in HT. subst new. dhave Ea. dhave Eb. destruct (pick_abit_at _ _ _ _ _ _ HA Ea) as (Fa & Ta). destruct (pick_abit_at _ _ _ _ _ _ HA Eb) as (Fb & Tb).
    apply tagv_ok in Ta, Tb. unfold new_abit. eapply dn_bindq; [instantiate (1 := fresh na); destruct g; cbn [ab_gate]; [apply ab_xor_dn|apply ab_and_dn|apply ab_and_not_dn; assumption|apply ab_nor_dn; assumption]|].
    intros n r Hn [E1 E2]. apply dn_ret. exists (patch own na (fun _ => length marks)). split; [apply patch_ext|]. apply at_one. cbn [tagged]. right. exists na. split; [exact E2|]. split; [lia|]. rewrite patch_new by lia. now left.
  - (* SFrom *) apply opt_inv in HT as (F & EF & HT). apply Some_eq in HT. subst new. dhave Ea. apply dn_ret. apply post_bit; [apply Nat.le_refl|]. intros v [<-|[]]. eapply from_abit; eauto.
  - (* SConst *) apply Some_eq in HT. subst new. apply dn_ret. apply post_sb. intros v [].
  - (* SNot *) apply opt_inv in HT as (F & EF & HT). apply Some_eq in HT. subst new. dhave Ea. apply dn_ret. apply post_bit; [apply Nat.le_refl|]. unfold tb. rewrite bvs_not. eapply from_bit; eauto.
  - (* SAnd *) apply opt_inv in HT as (F & EF & HT). apply opt_inv in HT as (F' & EF' & HT). apply Some_eq in HT. subst new. dhave Ea. dhave Eb. pose proof (from_bit _ _ _ _ _ _ _ HA EF Ea) as Ta. pose proof (from_bit _ _ _ _ _ _ _ HA EF' Eb) as Tb.
    unfold new_bit. eapply dn_bindq; [apply b_and_dn; eapply tb_okb; eassumption|]. intros n y Hn Hy. apply dn_ret. eapply post_der; [exact Hn|exact Hy|]. intros v Hv. apply in_app_or in Hv as [Hv|Hv].
    + eapply tagv_mono; [apply ext_refl|apply Nat.le_refl|apply incl_appl, incl_refl|auto].
    + eapply tagv_mono; [apply ext_refl|apply Nat.le_refl|apply incl_appr, incl_refl|auto].
  - (* SXor *) apply opt_inv in HT as (F & EF & HT). apply opt_inv in HT as (F' & EF' & HT). apply Some_eq in HT. subst new. dhave Ea. dhave Eb. pose proof (from_bit _ _ _ _ _ _ _ HA EF Ea) as Ta. pose proof (from_bit _ _ _ _ _ _ _ HA EF' Eb) as Tb.
    unfold new_bit. eapply dn_bindq; [apply b_xor_dn|]. intros n y Hn Hy. apply dn_ret. eapply post_der; [exact Hn|exact Hy|]. intros v Hv. apply in_app_or in Hv as [Hv|Hv].
    + eapply tagv_mono; [apply ext_refl|apply Nat.le_refl|apply incl_appl, incl_refl|auto].
    + eapply tagv_mono; [apply ext_refl|apply Nat.le_refl|apply incl_appr, incl_refl|auto].
  - (* SCh *) apply guard_inv in HT as [Ho HT]. apply Some_eq in HT. subst new. cbn [forallb] in Ho. rewrite !andb_true_iff in Ho. destruct Ho as (O1 & O2 & O3 & _). dhave Ea. dhave Eb. dhave Ec.
    unfold new_bit. eapply dn_bindq; [apply b_ch_dn; (eapply own_sb; [exact HA| |eassumption]; eassumption)|]. intros n y Hn Hy. apply dn_ret. eapply post_der; [exact Hn|exact Hy|intros v []].
  - (* SMaj *) apply guard_inv in HT as [Ho HT]. apply Some_eq in HT. subst new. cbn [forallb] in Ho. rewrite !andb_true_iff in Ho. destruct Ho as (O1 & O2 & O3 & _). dhave Ea. dhave Eb. dhave Ec.
    unfold new_bit. eapply dn_bindq; [apply b_maj_dn; (eapply own_sb; [exact HA| |eassumption]; eassumption)|]. intros n y Hn Hy. apply dn_ret. eapply post_der; [exact Hn|exact Hy|intros v []].
  - (* SAdd *) apply guard_inv in HT as [Ho HT]. apply Some_eq in HT. subst new. dhave Ew. dhave Eo. destruct (words_inv _ _ _ _ Ew Eo) as [H1 H2]. unfold new_bits.
    apply dn_bindq with (Q1 := fun _ l => length l = 32 /\ Forall sb l); [eapply dn_bindq; [apply multieq_scope_dn, addmany_dn; [exact H2|eapply apart_weak; eauto]|]|].
    + cbv beta. intros n r Hn [[L Hr] _]. apply dn_ret. exact (conj L Hr : length (into_bits r) = 32 /\ Forall sb (into_bits r)).
    + cbv beta. intros n l Hn [L Hl]. apply dn_ret. now apply post_strong.
  - (* SWord *) apply Some_eq in HT. subst new. unfold new_word. eapply dn_bindq; [apply u_alloc_dn|]. cbv beta. intros n r Hn [L Hr]. apply dn_ret. now apply post_strong.
  - (* SLong *) apply Some_eq in HT. subst new. unfold new_bits. eapply dn_bindq; [apply u64_dn|]. cbv beta. intros n r Hn [Hr L]. apply dn_ret. now apply post_strong.
  - (* SWordXor *) apply opt_inv in HT as (Fa & EFa & HT). apply opt_inv in HT as (Fb & EFb & HT). apply guard_inv in HT as [_ HT]. apply Some_eq in HT. subst new. dhave Ea. dhave Eb.
    apply word_inv in Ea as [Ea La], Eb as [Eb Lb]. unfold new_word. eapply dn_bindq; [exact (xor_pos na _ _ own (length marks) Fa Fb La Lb (from_bits_at _ _ _ _ _ HA _ _ EFa Ea) (from_bits_at _ _ _ _ _ HA _ _ EFb Eb))|]. cbv beta. intros n r Hn Hr. apply dn_ret. exact Hr.
  - (* SWordCh *) apply guard_inv in HT as [Ho HT]. apply Some_eq in HT. subst new. dhave Ea. dhave Eb. dhave Ec. apply word_inv in Ea as [Ea La], Eb as [Eb Lb], Ec as [Ec Lc]. unfold new_word.
    rewrite !forallb_app, !andb_true_iff in Ho. destruct Ho as (O1 & O2 & O3).
    eapply dn_bindq; [unfold u_ch; eapply triop_pos; [split; [assumption|(eapply own_sbs; [exact HA| |eassumption]; eassumption)]..|intros; now apply dn_ns, b_ch_dn]|]. cbv beta. intros n r Hn Hr. apply dn_ret. exact Hr.
  - (* SWordMaj *) apply guard_inv in HT as [Ho HT]. apply Some_eq in HT. subst new. dhave Ea. dhave Eb. dhave Ec. apply word_inv in Ea as [Ea La], Eb as [Eb Lb], Ec as [Ec Lc]. unfold new_word.
    rewrite !forallb_app, !andb_true_iff in Ho. destruct Ho as (O1 & O2 & O3).
    eapply dn_bindq; [unfold u_maj; eapply triop_pos; [split; [assumption|(eapply own_sbs; [exact HA| |eassumption]; eassumption)]..|intros; now apply dn_ns, b_maj_dn]|]. cbv beta. intros n r Hn Hr. apply dn_ret. exact Hr.
  - (* SRotr *) apply opt_inv in HT as (Fa & EFa & HT). apply guard_inv in HT as [_ HT]. apply Some_eq in HT. subst new. dhave Ea. apply word_inv in Ea as [Ea La]. apply dn_ret. apply post_bits; [apply Nat.le_refl|].
    pose proof (from_bits_at _ _ _ _ _ HA _ _ EFa Ea) as T. apply rotr_list; [rewrite <- (Forall2_length _ _ _ T); exact La|exact T].
  - (* SShr *) apply opt_inv in HT as (Fa & EFa & HT). apply guard_inv in HT as [_ HT]. apply Some_eq in HT. subst new. dhave Ea. apply word_inv in Ea as [Ea La]. apply dn_ret. apply post_bits; [apply Nat.le_refl|].
    pose proof (from_bits_at _ _ _ _ _ HA _ _ EFa Ea) as T. apply shr_list; [intros v []|rewrite <- (Forall2_length _ _ _ T); exact La|exact T].
  - (* SBlock *) apply guard_inv in HT as [Ho HT]. apply Some_eq in HT. subst new. dhave Ea. unfold new_bits. eapply dn_bindq; [apply block_dn; (eapply own_sbs; [exact HA| |eassumption]; eassumption)|]. cbv beta. intros n r Hn [Hr L]. apply dn_ret. now apply post_strong.
  - (* SSha256 *) apply guard_inv in HT as [Ho HT]. apply Some_eq in HT. subst new. dhave Ea. unfold new_bits. eapply dn_bindq; [apply sha256_dn; (eapply own_sbs; [exact HA| |eassumption]; eassumption)|]. cbv beta. intros n r Hn [Hr L]. apply dn_ret. now apply post_strong.
  - (* SBlake2s *) apply guard_inv in HT as [Ho HT]. apply Some_eq in HT. subst new. dhave Ea. destruct (forallb is_byte _); [|exact I]. unfold new_bits. eapply dn_bindq; [apply blake2s_dn; (eapply own_sbs; [exact HA| |eassumption]; eassumption)|]. cbv beta. intros n r Hn [Hr L]. apply dn_ret. now apply post_once.
  - (* SMul *) apply Some_eq in HT. subst new. dhave Ea. dhave Eb. unfold new_num. eapply dn_bindq; [apply mul_dn|]. cbv beta. intros n r Hn [E1 E2]. apply dn_ret. eapply post_num; [exact E2|lia].
  - (* SSquare *) apply Some_eq in HT. subst new. dhave Ea. unfold new_num. eapply dn_bindq; [apply square_dn|]. cbv beta. intros n r Hn [E1 E2]. apply dn_ret. eapply post_num; [exact E2|lia].
  - (* SSwap *) apply guard_inv in HT as [Ho HT]. apply Some_eq in HT. subst new. dhave Ea. dhave Eb. dhave Ec. destruct (pick_num_at _ _ _ _ _ _ HA Ea) as (ja & Ja & _ & Oa). destruct (pick_num_at _ _ _ _ _ _ HA Eb) as (jb & Jb & _ & Ob).
    destruct (pick_bit_at _ _ _ _ _ _ HA Ec) as (Fc & Tc). unfold new_nums. eapply dn_bindq; [apply reverse_dn; [|eapply tb_okb; eauto]|].
    + rewrite Ja, Jb. intros K. injection K as K. apply negb_true_iff, Nat.eqb_neq in Ho. congruence.
    + cbv beta. intros n r Hn (E1 & E2 & E3). apply dn_ret. apply post_nums; [exact E2|exact E3|lia].
  - (* SLookup *) apply guard_inv in HT as [Ho HT]. apply Some_eq in HT. subst new. cbn [forallb] in Ho. rewrite !andb_true_iff in Ho. destruct Ho as (O1 & O2 & O3 & _). dhave Ea. dhave Eb. dhave Ec.
    unfold new_nums. eapply dn_bindq; [apply lookup3_dn; repeat constructor; (eapply own_sb; [exact HA| |eassumption]; eassumption)|]. cbv beta. intros n r Hn (E1 & E2 & E3). apply dn_ret. apply post_nums; [exact E2|exact E3|lia].
  - (* SLookupNeg *) apply guard_inv in HT as [Ho HT]. apply Some_eq in HT. subst new. cbn [forallb] in Ho. rewrite !andb_true_iff in Ho. destruct Ho as (O1 & O2 & O3 & _). dhave Ea. dhave Eb. dhave Ec.
    unfold new_lins. eapply dn_bindq; [apply lookup_neg_dn; (eapply own_sb; [exact HA| |eassumption]; eassumption)|]. cbv beta. intros n r Hn (E1 & Ey & pc & Hpc & Hx & Sx). apply dn_ret.
    exists (patch own na (fun j => if j =? na then S (length marks) else length marks)). split; [apply patch_ext|]. apply at_two; cbn [tagged]; (split; [|first [assumption|eapply safe_of; exact Ey]]).
    + intros v Hv W. specialize (Hx v Hv W). destruct (G v) eqn:Hg; [now left|right]. destruct (Hpc v) as [K|[[]|(q & -> & Hj)]]; [destruct Hx as [K|Hx]; [congruence|exact Hx]|congruence|].
      exists q. split; [reflexivity|]. split; [lia|]. rewrite patch_new by lia. destruct (Nat.eqb_spec q na); [lia|now left].
    + intros v Hv W. rewrite Ey in W. destruct W as (d & [W|[]] & _). injection W as <- _. right. exists na. split; [reflexivity|]. split; [lia|]. rewrite patch_new by lia. rewrite Nat.eqb_refl. now left.
  - (* SZero *) apply Some_eq in HT. subst new. apply dn_ret. exists own. split; [apply ext_refl|]. apply at_one. cbn [tagged num_zero num_lc_]. split; [intros v _ (d & [] & _)|apply safe_nil].
  - (* SOf *) apply guard_inv in HT as [Ho HT]. apply Some_eq in HT. subst new. dhave Ea. destruct (pick_num_at _ _ _ _ _ _ HA Ea) as (j & Ej & Hj & Oj). apply dn_ret. exists own. split; [apply ext_refl|]. apply at_one.
    cbn [tagged num_of_allocated num_lc_]. split; [|apply safe_var]. intros v Hv (d & [W|[]] & _). injection W as <- _. rewrite Ej. right. exists j. split; [reflexivity|]. split; [exact Hj|]. now left.
  - (* SAddBit *) apply opt_inv in HT as ([F S] & EF & HT). apply opt_inv in HT as (F' & EF' & HT). apply guard_inv in HT as [Ho HT]. cbn [fst snd] in *. apply Some_eq in HT. subst new. dhave Ea. dhave Eb.
    pose proof (from_bit _ _ _ _ _ _ _ HA EF' Eb) as Tb. destruct (from_lin _ _ _ _ _ _ _ _ HA EF Ea) as [T1 T2]. apply dn_ret. exists own. split; [apply ext_refl|]. apply at_one. cbn [tagged num_add_bool num_lc_]. rewrite add_lc_app. split.
    + intros v Hv (d & Hd & Hn). apply in_app_or in Hd as [Hd|Hd].
      * eapply tagv_mono; [apply ext_refl|apply Nat.le_refl|apply incl_appl, incl_refl|]. apply T1; [exact Hv|]. exists d. auto.
      * eapply tagv_mono; [apply ext_refl|apply Nat.le_refl|apply incl_appr, incl_refl|]. apply Tb. apply (lit_mentioned_aux (P := P) _ coeff _ Hv). apply written_mentioned. exists d. auto.
    + intros v Hv Hg W. destruct (add_bool_cf own na F F' _ _ coeff v T1 Tb (disjoint_spec _ _ Ho) Hv Hg) as [X|X].
      * rewrite (proj1 X). apply T2; [exact Hv|exact Hg|]. now apply (proj2 X).
      * apply (proj2 X), W.
  - (* SBits *) apply Some_eq in HT. subst new. dhave Ea. unfold new_bits. eapply dn_bindq; [apply strict_dn|]. cbv beta. intros n r Hn [Hr L]. apply dn_ret. now apply post_strong.
  - (* SLinear *) apply guard_inv in HT as [Ho HT]. apply Some_eq in HT. subst new. rewrite !andb_true_iff in Ho. destruct Ho as (((O1 & O2) & O3) & O4). dhave Ea. dhave Eb. dhave Ec.
    unfold dn. cbn [bind cs_enforce wpD]. split; [eapply lin_safe; [exact HA|exact O1|exact Ea]|]. split; [eapply lin_safe_b; [exact HA|exact O2|exact O4|exact Eb]|]. intros _. apply post_none.
  - (* SNonzero *) apply Some_eq in HT. subst new. dhave Ea. unfold no_result. eapply dn_bindq; [apply nonzero_dn|]. intros n r Hn _. apply dn_ret, post_none.
  - (* SEqual *) apply Some_eq in HT. subst new. dhave Ea. dhave Eb. unfold no_result. eapply dn_bindq; [apply b_enforce_equal_dn|]. intros n r Hn _. apply dn_ret, post_none.
  - (* SInput *) apply Some_eq in HT. subst new. dhave Ea. unfold no_result. eapply dn_bindq; [apply inputize_dn|]. intros n r Hn _. apply dn_ret, post_none.
  - (* SPack *) apply guard_inv in HT as [Ho HT]. apply Some_eq in HT. subst new. dhave Ea. unfold no_result. eapply dn_bindq; [apply pack_weak_dn; eapply apart_weak; eauto|]. intros n r Hn _. apply dn_ret, post_none.
Qed.

(** ** Numbers that occur in a constraint *)
Notation touched a p := (cov is_err (an_var a) p).
Lemma mul_touch_l a b : touched a (@an_mul P a b).
Proof. unfold an_mul, bindq, cs_alloc. cbn [bind cov cs_enforce]. split; [|intros; exact I]. intros w ? Hw. left. apply touch_add. constructor. Qed.
Lemma mul_touch_r a b : touched b (@an_mul P a b).
Proof. unfold an_mul, bindq, cs_alloc. cbn [bind cov cs_enforce]. split; [|intros; exact I]. intros w ? Hw. right. left. apply touch_add. constructor. Qed.
Lemma square_touch a : touched a (@an_square P a).
Proof. unfold an_square, bindq, cs_alloc. cbn [bind cov cs_enforce]. split; [|intros; exact I]. intros w ? Hw. left. apply touch_add. constructor. Qed.
Lemma nonzero_touch a : touched a (@an_assert_nonzero P a).
Proof. unfold an_assert_nonzero, bindq, cs_alloc. cbn [bind cov cs_enforce]. split; [|intros; exact I]. intros w ? Hw. left. apply touch_add. constructor. Qed.
Lemma inputize_touch a : touched a (@an_inputize P a).
Proof. unfold an_inputize, bindq, cs_alloc_input. cbn [bind cov cs_enforce]. split; [|intros; exact I]. intros w ? Hw. right. right. left. apply touch_add. constructor. Qed.
Lemma off_term w u (c : P) : w <> u -> lck (fun x => x <> u) [(w, c)]. Proof. intros H. constructor; [exact H|constructor]. Qed.
Lemma difference_touch u w : w <> u -> cf u (lc_sub_var (lc_add_var lc_zero u) w : LC P) <> fzero.
Proof. intros H. unfold lc_sub_var. apply touch_term; [|exact H]. apply touch_add. constructor. Qed.
Lemma reverse_touch a b c x : x = a \/ x = b -> touched x (@an_conditionally_reverse P a b c).
Proof.
  intros Hx. unfold an_conditionally_reverse, ns, an_alloc, bindq, cs_alloc. cbn [bind cov cs_enforce]. split; [|intros; exact I]. intros w ? Hw. cbn [bind cov cs_enforce an_var].
  destruct Hx as [->| ->].
  - right. right. left. now apply difference_touch.
  - right. right. right. split; [|intros; exact I]. intros w' ? Hw'. cbn [bind cov cs_enforce an_var]. right. right. left. now apply difference_touch.
Qed.
Lemma strict_touch a : is_aux (an_var a) -> touched a (@to_bits_le_strict P a).
Proof.
  intros Ha. set (K := fun w => w <> an_var a). assert (K1 : K one_var) by (apply aux_one; exact Ha). unfold to_bits_le_strict.
  eapply cov_afterq with (Q := kst K).
  - apply scop_wpK. apply scop_foldq with (Inv := kst K); [|intros; now apply strict_step_scop]. split; [constructor|]. split; [discriminate|constructor].
  - intros s (H1 & _ & _). destruct (st_current_run s); [|exact I]. cbn [cov cs_enforce bind]. right. right. left. apply touch_sub. apply unpack_scope. now apply Forall_rev.
Qed.
Lemma pick_num regs i a : nth_error regs i = Some (RNum a) -> pick r_num regs i = Some a. Proof. unfold pick. now intros ->. Qed.
Lemma cov_have {A B} v (o : option A) (k : A -> prog P (res B)) : (forall a, o = Some a -> cov is_err v (k a)) -> cov is_err v (have o k).
Proof. intros H. destruct o; cbn [have]; [auto|exact I]. Qed.
Ltac chave := apply cov_have; intros.
Lemma statement_touch own na marks regs w st i a : at_ own na 0 marks regs -> In i (constrains marks st) -> match st with SLinear _ _ _ => False | _ => True end -> nth_error regs i = Some (RNum a) ->
  touched a (statement w regs st).
Proof.
  intros HA Hi Hl Hr. destruct (mark_of _ _ _ _ _ _ HA Hr) as ([F| |F S0] & _ & T); [contradiction| |contradiction]. destruct T as (j & Ej & _). apply pick_num in Hr.
  destruct st; cbn [constrains] in Hi; try contradiction; cbn [statement].
  - unfold new_num. repeat chave. apply cov_bindq. destruct Hi as [->|[->|[]]]; [replace a0 with a by congruence; apply mul_touch_l|replace a1 with a by congruence; apply mul_touch_r].
  - unfold new_num. repeat chave. apply cov_bindq. destruct Hi as [->|[]]; replace a0 with a by congruence. apply square_touch.
  - unfold new_nums. repeat chave. apply cov_bindq. apply reverse_touch. destruct Hi as [->|[->|[]]]; [left|right]; congruence.
  - unfold new_bits. repeat chave. apply cov_bindq. destruct Hi as [->|[]]; replace a0 with a by congruence. apply strict_touch. rewrite Ej. exact I.
  - unfold no_result. repeat chave. apply cov_bindq. destruct Hi as [->|[]]; replace a0 with a by congruence. apply nonzero_touch.
  - unfold no_result. repeat chave. apply cov_bindq. destruct Hi as [->|[]]; replace a0 with a by congruence. apply inputize_touch.
Qed.
Lemma terms_in marks (l : P * list (P * nat)) i : In i (terms marks l) -> exists c i', In (c, i') (snd l) /\ c <> fzero /\ In i (numbers marks i').
Proof.
  unfold terms. intros H. apply in_flat_map in H as (i' & H & Hi). apply in_map_iff in H as ((c & i'') & <- & H). apply filter_In in H as [H1 H2]. exists c, i''. split; [exact H1|]. split; [|exact Hi]. cbn [fst] in H2. destruct (feqb_spec c fzero); [discriminate|assumption].
Qed.
(** The numbers that a linear combination is sure to have. *)
Definition has (regs : list (reg P)) (S : list nat) (n : Num P) : Prop := forall k, In k S -> exists a, nth_error regs k = Some (RNum a) /\ (G (an_var a) = true \/ cf (an_var a) (num_lc_ n) <> fzero).
Definition sure (marks : list mark) (regs : list (reg P)) : Prop := forall i F S n, nth_error marks i = Some (MLin F S) -> nth_error regs i = Some (RLin n) -> has regs S n.
Lemma has_nil regs n : has regs [] n. Proof. intros k []. Qed.
Lemma has_app regs new S n : has regs S n -> has (regs ++ new) S n.
Proof. intros H k Hk. destruct (H k Hk) as (a & Ha & H'). exists a. split; [|exact H']. rewrite nth_error_app1; [exact Ha|]. apply nth_error_Some. now rewrite Ha. Qed.
Lemma sure_app marks regs nm new : length marks = length regs -> sure marks regs -> (forall i F S n, nth_error nm i = Some (MLin F S) -> nth_error new i = Some (RLin n) -> has regs S n) -> sure (marks ++ nm) (regs ++ new).
Proof.
  intros L H1 H2 i F S n Hm Hr. apply has_app. destruct (Nat.lt_ge_cases i (length marks)) as [Hi|Hi].
  - rewrite nth_error_app1 in Hm by exact Hi. rewrite nth_error_app1 in Hr by lia. eauto.
  - rewrite nth_error_app2 in Hm by exact Hi. rewrite nth_error_app2 in Hr by lia. rewrite L in Hm. eauto.
Qed.
Lemma step_sure marks (st : stmt P) nm F S : tidy_step marks st = Some nm -> match st with SOf _ | SAddBit _ _ _ => False | _ => True end -> In (MLin F S) nm -> S = [].
Proof.
  unfold tidy_step. cbv zeta. intros H D Hi. destruct st; try contradiction D; try discriminate H;
    repeat first [apply opt_inv in H as (? & _ & H)|apply guard_inv in H as [_ H]]; apply Some_eq in H; subst nm;
    first [apply in_map_iff in Hi as (? & Hi & _); discriminate Hi|apply repeat_spec in Hi; discriminate Hi|
           cbn [In] in Hi; repeat match goal with H : _ \/ _ |- _ => destruct H end; try contradiction; try discriminate; match goal with H : MLin _ _ = MLin _ _ |- _ => injection H; congruence end].
Qed.
Lemma statement_sure own na marks regs w st nm t new t' : at_ own na 0 marks regs -> sure marks regs -> tidy_step marks st = Some nm -> run (ShapeCS P) (statement w regs st) t = Done (Ok new, t') -> sure (marks ++ nm) (regs ++ new).
Proof.
  intros HA HS HT E. apply sure_app; [exact (proj1 HA)|exact HS|]. intros i F S n Hm Hr.
  assert (D : match st with SOf _ | SAddBit _ _ _ => False | _ => True end \/ (exists i, st = SOf i) \/ exists i j c, st = SAddBit i j c) by (destruct st; eauto 6).
  destruct D as [D|[(i0 & ->)|(i0 & j0 & c & ->)]].
  - rewrite (step_sure _ _ _ _ _ HT D (nth_error_In _ _ Hm)). apply has_nil.
  - unfold tidy_step in HT. cbv zeta in HT. apply guard_inv in HT as [Ho HT]. apply Some_eq in HT. subst nm. cbn [statement] in E. destruct (pick r_num regs i0) as [a|] eqn:Ea; cbn [have run] in E; [|discriminate E].
    injection E as <- _. destruct i as [|i]; [|destruct i; discriminate Hm]. cbn [nth_error] in Hm, Hr. apply Some_eq in Hm, Hr. injection Hm as -> ->. assert (n = num_of_allocated a) as -> by congruence. clear Hr. intros k [<-|[]]. exists a. split.
    + unfold pick in Ea. destruct (nth_error regs i0) as [r|]; [|discriminate Ea]. destruct r; cbn [r_num] in Ea; try discriminate Ea. apply Some_eq in Ea. now subst.
    + right. cbn [num_of_allocated num_lc_]. unfold lc_add_var, lc_add_term, lc_zero. cbn [app]. rewrite cf_hd. cbn [cf]. intros K. apply (f_1_neq_0 (P := P)). etransitivity; [|exact K]. ring.
  - unfold tidy_step in HT. cbv zeta in HT. apply opt_inv in HT as ([F0 S0] & EF & HT). apply opt_inv in HT as (F' & EF' & HT). apply guard_inv in HT as [Ho HT]. cbn [fst snd] in *. apply Some_eq in HT. subst nm.
    cbn [statement] in E. destruct (pick r_lin regs i0) as [x|] eqn:Ex; cbn [have run] in E; [|discriminate E]. destruct (pick r_bit regs j0) as [b|] eqn:Eb; cbn [have run] in E; [|discriminate E].
    injection E as <- _. destruct i as [|i]; [|destruct i; discriminate Hm]. cbn [nth_error] in Hm, Hr. apply Some_eq in Hm, Hr. injection Hm as _ ->. assert (n = num_add_bool x one_var b c) as -> by congruence. clear Hr.
    pose proof (from_bit _ _ _ _ _ _ _ HA EF' Eb) as Tb. destruct (from_lin _ _ _ _ _ _ _ _ HA EF Ex) as [T1 T2].
    assert (Hx : has regs S0 x).
    { unfold lin_from in EF. destruct (nth_error marks i0) as [m|] eqn:Em; [|discriminate EF]. destruct m as [f| |f S1]; try discriminate EF. apply Some_eq in EF. injection EF as -> ->.
      unfold pick in Ex. destruct (nth_error regs i0) as [r|] eqn:Er; [|discriminate Ex]. destruct r; cbn [r_lin] in Ex; try discriminate Ex. apply Some_eq in Ex. subst. exact (HS _ _ _ _ Em Er). }
    intros k Hk. destruct (Hx k Hk) as (a & Ha & Hc). exists a. split; [exact Ha|]. destruct (G (an_var a)) eqn:Hg; [now left|right]. destruct Hc as [Hc|Hc]; [discriminate|].
    destruct (mark_of _ _ _ _ _ _ HA Ha) as ([f| |f S1] & _ & T); [contradiction| |contradiction]. destruct T as (j & Ej & _).
    assert (Hv : is_aux (an_var a)) by (rewrite Ej; exact I). cbn [num_add_bool num_lc_]. rewrite add_lc_app.
    destruct (add_bool_cf own na F0 F' x b c (an_var a) T1 Tb (disjoint_spec _ _ Ho) Hv Hg) as [[X _]|[X _]]; [rewrite X; exact Hc|]. exfalso. apply Hc. now apply not_written.
Qed.
Lemma lin_touch own na marks regs l lc i a : at_ own na 0 marks regs -> sure marks regs -> apart (any_from marks) (map snd (snd l)) = true -> lin_of regs l = Some lc -> In i (terms marks l) -> nth_error regs i = Some (RNum a) ->
  G (an_var a) = true \/ cf (an_var a) lc <> fzero.
Proof.
  intros HA HS Hp E Hi Hr. destruct (G (an_var a)) eqn:Hg; [now left|right]. destruct (mark_of _ _ _ _ _ _ HA Hr) as ([F| |F S] & _ & T); [contradiction| |contradiction]. destruct T as (j & Ej & _).
  assert (Ha : is_aux (an_var a)) by (rewrite Ej; exact I).
  unfold apart in Hp. destruct (all_some (map (any_from marks) (map snd (snd l)))) as [Fs|] eqn:EF; [|discriminate Hp].
  destruct (start_aux (an_var a) (fst l) Ha) as [S1 S2]. destruct (lin_weak own na marks regs _ HA Ha Hg _ Fs _ lc EF Hp E) as (s & c & Hs & C & _ & U & _). rewrite C, S1.
  destruct (terms_in _ _ _ Hi) as (c' & i' & Hc & Hn & Hi').
  assert (R : exists r, nth_error regs i' = Some r /\ In (an_var a) (rvars r)).
  { unfold numbers in Hi'. destruct (nth_error marks i') as [[f| |f S]|] eqn:Em; try (destruct Hi' as [<-|[]]; exists (RNum a); split; [exact Hr|now left]).
    destruct (nth_error regs i') as [r|] eqn:Er.
    - exists r. split; [reflexivity|]. pose proof (proj2 HA i' _ _ Em Er) as T. cbn [tagged] in T. destruct r as [b|b|b|n]; try contradiction. destruct (HS _ _ _ _ Em Er i Hi') as (a' & Ha' & [K|K]).
      + assert (a' = a) as -> by congruence. congruence.
      + assert (a' = a) as -> by congruence. cbn [rvars]. destruct (in_dec var_dec (an_var a) (written_vars (num_lc_ n))) as [Hin|Hin]; [exact Hin|]. exfalso. apply K. apply not_written. intros W. apply Hin. now apply in_written.
    - apply nth_error_None in Er. rewrite <- (proj1 HA) in Er. apply nth_error_None in Er. congruence. }
  destruct R as (r & Er & Hv). assert (c' = c) by (eapply U; [exact Hc|exact Er|exact Hv]). subst c'. intros K. apply (sign_nonzero s c Hs Hn). etransitivity; [|exact K]. ring.
Qed.

(** ** Programs *)
Lemma kr_mono (K K' : Var -> Prop) (r : reg P) : (forall v, K v -> K' v) -> kr K r -> kr K' r.
Proof.
  intros H. destruct r as [b|a|a|a]; cbn [kr].
  - destruct b; cbn [kb]; auto.
  - unfold ka. auto.
  - unfold kn. auto.
  - unfold knum, lck. apply Forall_impl. auto.
Qed.
Lemma old_more t t' new (v : Var) : more t t' new -> old (P := P) t v -> old t' v.
Proof. intros (_ & A & B). destruct v; cbn [old]; lia. Qed.
Lemma wpK_run {A} (p : prog P A) Q : forall t r t', run (ShapeCS P) p t = Done (r, t') -> wpK (old t') p Q -> Q r.
Proof.
  induction p as [a| |n f k IH|n f k IH|n a b c k IH|n l rr k IH|n k IH|k IH]; intros t r t' Er H;
    cbn [run m_alloc m_alloc_input m_enforce m_push m_pop ShapeCS obind fst snd wpK] in *; try discriminate.
  - injection Er as <- <-. exact H.
  - destruct (run_more _ _ _ _ Er) as (new & M). eapply IH; [exact Er|]. apply (proj1 H). eapply old_more; [exact M|]. cbn [old k_aux]. lia.
  - destruct (run_more _ _ _ _ Er) as (new & M). eapply IH; [exact Er|]. apply (proj1 H). eapply old_more; [exact M|]. cbn [old k_inputs]. lia.
  - eapply IH; [exact Er|]. apply H.
  - eapply IH; [exact Er|exact H].
  - eapply IH; [exact Er|exact H].
Qed.
Lemma not_loose i l loose : In i loose -> In i l \/ In i (filter (fun i => negb (existsb (Nat.eqb i) l)) loose).
Proof.
  intros H. destruct (existsb (Nat.eqb i) l) eqn:E.
  - left. apply existsb_exists in E as (y & Hy & E). apply Nat.eqb_eq in E. now subst y.
  - right. apply filter_In. split; [exact H|]. now rewrite E.
Qed.
Lemma compile_tidy (C : list (Constraint P)) : (forall k v, In k C -> cf v (fst (fst k)) <> fzero -> cf v (snd (fst k)) <> fzero -> G v = true) ->
  (forall v, G v = true -> exists k, In k C /\ hits v k) ->
  forall code w i regs marks loose own t rr t', at_ own (k_aux t) 0 marks regs -> sure marks regs -> Forall (kr (old t)) regs -> old t one_var -> tidy_from marks loose code = true ->
  run (ShapeCS P) (compile w i regs code) t = Done (Ok rr, t') -> incl (k_cons t') C ->
  exists new, k_cons t' = k_cons t ++ new /\ Forall (safe_row G) new /\
    (forall i a, In i loose -> nth_error regs i = Some (RNum a) -> exists k, In k C /\ hits (an_var a) k) /\
    (forall j, k_aux t <= j < k_aux t' -> exists k, In k C /\ hits (Aux j) k).
Proof.
  intros HG HG'. induction code as [|st code IH]; intros w i regs marks loose own t rr t' HA HS HK K1 HT Er HC; cbn [compile tidy_from] in *.
  { cbn [run] in Er. injection Er as _ <-. exists []. split; [now rewrite app_nil_r|]. split; [constructor|]. split; [destruct loose; [intros ? ? []|discriminate HT]|intros j Hj; lia]. }
  destruct (tidy_step marks st) as [nm|] eqn:Es; [|discriminate HT].
  rewrite run_bindq, run_ns in Er. cbn [m_push m_pop ShapeCS obind] in Er.
  destruct (run (ShapeCS P) (statement (hd None w) regs st) t) as [[[new|e] t1]|] eqn:E1; cbn [obind fst snd] in Er; try discriminate Er.
  destruct (run_more _ _ _ _ Er) as (new2 & M2). destruct (run_more _ _ _ _ E1) as (new1 & M1).
  destruct (wpD_run G _ _ t (Ok new) t1 (statement_dn own (k_aux t) marks regs (hd None w) st nm HA Es) E1) as (new1' & Ec1 & H1).
  assert (new1' = new1) as -> by (apply (app_inv_head (k_cons t)); rewrite <- Ec1; exact (proj1 M1)).
  assert (I1 : incl new1 C). { intros k Hk. apply HC. rewrite (proj1 M2), Ec1. apply in_or_app. left. apply in_or_app. now right. }
  destruct H1 as [S1 (own' & He & HA1)]; [intros k v Hk; apply HG, I1, Hk|].
  assert (HA2 : at_ own' (k_aux t1) 0 (marks ++ nm) (regs ++ new)).
  { apply at_app; [|exact HA1]. eapply at_mono; [exact He|exact (proj2 (proj2 M1))|exact HA]. }
  assert (K1' : old t1 one_var) by (eapply old_more; [exact M1|exact K1]).
  assert (HK1 : Forall (kr (old t1)) regs) by (revert HK; apply Forall_impl; intros r; apply kr_mono; intros v; apply (old_more _ _ _ v M1)).
  assert (HK2 : Forall (kr (old t1)) (regs ++ new)).
  { apply Forall_app. split; [exact HK1|]. exact (wpK_run _ _ _ _ _ E1 (statement_wpK (old t1) K1' (hd None w) regs st HK1)). }
  destruct (IH _ _ _ _ _ _ _ _ _ HA2 (statement_sure _ _ _ _ _ _ _ _ _ _ HA HS Es E1) HK2 K1' HT Er HC) as (new2' & Ec2 & S2 & L2 & A2).
  exists (new1 ++ new2'). split; [rewrite Ec2, Ec1, app_assoc; reflexivity|]. split; [apply Forall_app; now split|]. split.
  - intros i0 a Hi Hr. destruct (not_loose i0 (constrains marks st) loose Hi) as [Hc|Hl].
    + assert (D : match st with SLinear _ _ _ => False | _ => True end \/ exists a b c, st = SLinear a b c) by (destruct st; eauto). destruct D as [D|(a0 & b & c & ->)].
      { pose proof (statement_touch own (k_aux t) marks regs (hd None w) st i0 a HA Hc D Hr) as Tc.
        assert (Ov : old t (an_var a)) by (rewrite Forall_forall in HK; exact (HK _ (nth_error_In _ _ Hr))).
        destruct (cov_run _ _ _ Tc _ _ _ Ov E1) as (nw & Mw & [[]|(k & Hk & Hh)]). exists k. split; [|exact Hh]. apply I1.
        replace new1 with nw; [exact Hk|]. apply (app_inv_head (k_cons t)). rewrite <- (proj1 Mw). exact (proj1 M1). }
      cbn [constrains] in Hc.
      unfold tidy_step in Es. cbv zeta in Es. apply guard_inv in Es as [Ho _]. rewrite !andb_true_iff in Ho. destruct Ho as (((O1 & O2) & O3) & _).
      cbn [statement] in E1. destruct (lin_of regs a0) as [x|] eqn:Ex; [|discriminate E1]. destruct (lin_of regs b) as [y|] eqn:Ey; [|discriminate E1]. destruct (lin_of regs c) as [z|] eqn:Ez; [|discriminate E1].
      cbn [have bind cs_enforce run m_enforce ShapeCS obind] in E1. injection E1 as <- <-. cbn [k_cons] in *.
      assert (Hn : new1 = [(x, y, z)]) by (apply (app_inv_head (k_cons t)); symmetry; exact (proj1 M1)). subst new1.
      assert (T : G (an_var a) = true \/ hits (an_var a) (x, y, z)).
      { apply in_app_or in Hc as [Hc|Hc]; [|apply in_app_or in Hc as [Hc|Hc]].
        - destruct (lin_touch own (k_aux t) marks regs a0 x i0 a HA HS O1 Ex Hc Hr) as [T|T]; [now left|right; now left].
        - destruct (lin_touch own (k_aux t) marks regs b y i0 a HA HS O2 Ey Hc Hr) as [T|T]; [now left|right; right; now left].
        - destruct (lin_touch own (k_aux t) marks regs c z i0 a HA HS O3 Ez Hc Hr) as [T|T]; [now left|right; right; now right]. }
      destruct T as [T|T]; [now apply HG'|]. exists (x, y, z). split; [apply I1; now left|exact T].
    + apply (L2 i0 a); [apply in_or_app; now left|]. rewrite nth_error_app1; [exact Hr|]. apply nth_error_Some. now rewrite Hr.
  - intros j Hj. destruct (Nat.lt_ge_cases j (k_aux t1)) as [Hj1|Hj1]; [|apply A2; lia]. destruct (bare st) eqn:Hb.
    + destruct st; try discriminate Hb.
      assert (W : dn G (k_aux t) (statement (hd None w) regs SNum) (fun n l => n = S (k_aux t) /\ exists a, l = [RNum a] /\ an_var a = Aux (k_aux t))).
      { cbn [statement]. unfold new_num. eapply dn_bindq; [apply an_alloc_dn|]. cbv beta. intros n a _ [En Ea]. apply dn_ret. eauto. }
      destruct (wpD_run G _ _ t (Ok new) t1 W E1) as (nw & Ew & Hw). destruct Hw as [_ (En & a & -> & Ea)].
      { intros k v Hk. apply HG, I1. replace new1 with nw; [exact Hk|]. apply (app_inv_head (k_cons t)). rewrite <- Ew. exact (proj1 M1). }
      assert (j = k_aux t) as -> by lia. rewrite <- Ea. apply (L2 (length marks) a).
      * apply in_or_app. right. now left.
      * rewrite nth_error_app2 by (rewrite (proj1 HA); lia). rewrite (proj1 HA), Nat.sub_diag. reflexivity.
    + destruct (Covered.wpC_run is_err (statement (hd None w) regs st) (fun K => okP (Forall (kr K))) t (Ok new) t1) as (nw & Mw & [[]|Hh]); [|exact E1|].
      * intros K HKK. apply statement_scop; [apply HKK; exact K1|exact Hb|]. revert HK. apply Forall_impl. intros r. now apply kr_mono.
      * destruct (Hh j ltac:(lia)) as (k & Hk & Hx). exists k. split; [|exact Hx]. apply I1. replace new1 with nw; [exact Hk|]. apply (app_inv_head (k_cons t)). rewrite <- (proj1 Mw). exact (proj1 M1).
Qed.
End Tidy.
