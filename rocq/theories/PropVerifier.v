(** Property theorems C38, C40, C41, C42: proof verification, one at a time and in batches. *)
From Coq Require Import ZArith List Bool Lia.
From Verif Require Import Prelude PrimeField FModule Groth16 ProverProof Batch BatchProof Fields.
Import ListNotations.
Local Open Scope nat_scope.

(** ** Specification *)
Section Spec.
Context {P : PrimeField} {E : Engine P}.

(** x_1 g_1 + x_2 g_2 + ... *)
Fixpoint combination (xs : list P) (gs : list (E_G1 E)) : E_G1 E :=
  match xs, gs with x :: xs, g :: gs => x *g g +g combination xs gs | _, _ => gzero end.

(** The Groth16 verification equation. *)
Definition verifies (vk : VerifyingKey E) (proof : Proof_ E) (inputs : list P) : Prop :=
  exists ic0 ics, ic vk = ic0 :: ics /\ length inputs = length ics /\
    pair (proof_a proof) (proof_b proof) =
      pair (alpha_g1 vk) (beta_g2 vk) +g pair (ic0 +g combination inputs ics) (gamma_g2 vk) +g pair (proof_c proof) (delta_g2 vk).
Definition item_verifies (vk : VerifyingKey E) (item : Item E) : Prop := verifies vk (item_proof item) (item_inputs item).
Definition right_length (vk : VerifyingKey E) (item : Item E) : Prop := length (ic vk) = length (item_inputs item) + 1.

(** The coefficients a run uses: the non-zero ones among the values drawn. *)
Definition coefficients (rng : nat -> P) (zs : list P) : Prop :=
  exists n, zs = filter (fun x => negb (feqb x fzero)) (map rng (seq 0 n)).
(** The first non-zero value of a source. *)
Definition coefficient_of (rng : nat -> P) (zc : P) : Prop := zc <> fzero /\ exists k, rng k = zc /\ forall j, j < k -> rng j = fzero.
Definition never_dries_up (rng : nat -> P) : Prop := forall n, exists k, n <= k /\ rng k <> fzero.

(** A reduction tree over the chunks of 8 items, in order. *)
Definition reduces (t : rtree) (items : list (Item E)) : Prop := leaves t = seq 0 ((length items + 7) / 8).

Lemma combination_dotl xs : forall gs, combination xs gs = dotl xs gs.
Proof. induction xs as [|x xs IH]; intros [|g gs]; cbn; auto. Qed.
Lemma verifies_defect vk item : item_verifies vk item <-> right_length vk item /\ defect vk item = gzero.
Proof.
  unfold item_verifies, verifies, right_length, defect. destruct (ic vk) as [|ic0 ics].
  { split; [intros (? & ? & [=] & _)|intros [H _]; cbn in H; lia]. }
  cbn [dotl]. rewrite gmul_1. set (a := pair (alpha_g1 vk) _). set (b := pair (proof_a _) _). set (c := pair (proof_c _) _). set (d := pair (_ +g _) _).
  split.
  - intros (i & is' & [= <- <-] & Hl & H). split; [cbn; lia|]. rewrite combination_dotl in H. fold b d a c in H. rewrite H.
    apply (gadd_cancel_l _ _ ((a +g d) +g c)). rewrite gadd_0_r. rewrite !gadd_assoc, gadd_neg_r, gadd_0_l. rewrite (gadd_comm _ _ a d), (gadd_comm _ _ c d), <- !gadd_assoc. f_equal. apply gadd_comm.
  - intros [Hl H]. exists ic0, ics. split; auto. cbn in Hl. split; [lia|]. rewrite combination_dotl. fold b d a c.
    apply (gadd_cancel_l _ _ (gneg b)). rewrite gadd_neg_l, <- H, <- !gadd_assoc. f_equal. rewrite (gadd_swap c d), (gadd_comm _ _ c a). apply gadd_swap.
Qed.
Lemma single_cases vk item :
  (right_length vk item /\ verify_single item (prepare_verifying_key vk) = Done (if geqb (defect vk item) gzero then Ok tt else Err InvalidProof)) \/
  (~ right_length vk item /\ verify_single item (prepare_verifying_key vk) = Done (Err InvalidVerifyingKey)).
Proof.
  unfold right_length. destruct (Nat.eq_dec (length (item_inputs item) + 1) (length (ic vk))) as [H|H].
  - left. split; auto. now apply verify_single_defect.
  - right. split; auto. now apply verify_single_lengths.
Qed.
Lemma single_ok vk item : verify_single item (prepare_verifying_key vk) = Done (Ok tt) <-> item_verifies vk item.
Proof.
  rewrite verifies_defect. destruct (single_cases vk item) as [[H ->]|[H ->]].
  - destruct (geqb_spec (defect vk item) gzero); split; intros X; try discriminate; tauto.
  - split; [discriminate|tauto].
Qed.
Lemma right_lengths vk (items : list (Item E)) : ~ (exists item, In item items /\ ~ right_length vk item) ->
  Forall (fun item => length (item_inputs item) + 1 = length (ic vk)) items.
Proof.
  intros H. apply Forall_forall. intros x Hx. destruct (Nat.eq_dec (length (item_inputs x) + 1) (length (ic vk))); auto. exfalso. apply H.
  exists x. split; auto; unfold right_length; lia.
Qed.
Lemma wrong_iff vk (items : list (Item E)) : existsb (wrong_inputs vk) items = true <-> exists item, In item items /\ ~ right_length vk item.
Proof. rewrite wrong_lengths. unfold right_length. split; intros (i & H & H'); exists i; split; auto. Qed.
Lemma ok_right {M : Miller E} vk fuel rng (items : list (Item E)) : verify M fuel rng items vk = Some (Done (Ok tt)) ->
  Forall (fun item => length (item_inputs item) + 1 = length (ic vk)) items.
Proof.
  intros H. unfold verify in H. destruct (existsb (wrong_inputs vk) items) eqn:Ew; [discriminate|]. apply right_lengths. rewrite <- wrong_iff. congruence.
Qed.
Lemma ok_right_mc {M : Miller E} vk fuel rngs t (items : list (Item E)) : verify_multicore M fuel rngs t items vk = Some (Done (Ok tt)) ->
  Forall (fun item => length (item_inputs item) + 1 = length (ic vk)) items.
Proof.
  intros H. unfold verify_multicore in H. destruct (existsb (wrong_inputs vk) items) eqn:Ew; [discriminate|]. apply right_lengths. rewrite <- wrong_iff. congruence.
Qed.
Lemma chunk_count {A} (l : list A) : length (chunks 8 l) = (length l + 7) / 8.
Proof.
  apply (chunks_ind 8 (ltac:(lia)) (fun l => length (chunks 8 l) = (length l + 7) / 8)); [reflexivity|]. intros l' Hl IH.
  rewrite chunks_cons by (auto; lia). cbn [length]. rewrite IH, skipn_length. destruct (Nat.le_gt_cases 8 (length l')).
  - replace (length l' + 7) with (length l' - 8 + 7 + 1 * 8) by lia. rewrite Nat.div_add by lia. lia.
  - replace (length l' - 8 + 7) with 7 by lia. destruct l' as [|x l']; [congruence|]. cbn [length] in *.
    replace (S (length l') + 7) with (length l' + 1 * 8) by lia. rewrite Nat.div_add, (Nat.div_small 7), Nat.div_small by lia. reflexivity.
Qed.
Lemma coefficients_unique rng zs zs' : coefficients rng zs -> coefficients rng zs' -> length zs = length zs' -> zs = zs'.
Proof.
  assert (X : forall n m, n <= m -> exists l, filter (fun x => negb (feqb x fzero)) (map rng (seq 0 m)) = filter (fun x => negb (feqb x fzero)) (map rng (seq 0 n)) ++ l).
  { intros n m Hle. replace m with (n + (m - n)) by lia. rewrite seq_app, map_app, filter_app. eauto. }
  intros [n ->] [m ->] HL. destruct (Nat.le_ge_cases n m) as [H|H]; destruct (X _ _ H) as [l El]; rewrite El in *; rewrite app_length in HL; destruct l as [|x l]; cbn in HL; try lia;
    now rewrite app_nil_r.
Qed.
Lemma loop_total (items : list (Item E)) rng : never_dries_up rng -> forall pos acc, exists fuel0, forall fuel, fuel0 <= fuel -> verify_loop fuel rng pos acc items <> None.
Proof.
  intros Hr. induction items as [|item items IH]; intros pos acc; [exists 0; discriminate|].
  destruct (Hr pos) as (k & Hk & Hnz). destruct (draw_exists rng k pos Hk Hnz) as (zc & pos' & _ & Hd).
  destruct (step acc item zc) as [acc'|] eqn:Es.
  - destruct (IH pos' acc') as [f0 H0]. exists (Nat.max f0 (S k)). intros fuel Hf. cbn [verify_loop]. rewrite Hd by lia. rewrite Es. apply H0. lia.
  - exists (S k). intros fuel Hf. cbn [verify_loop]. rewrite Hd by lia. rewrite Es. discriminate.
Qed.
Lemma verify_total {M : Miller E} vk items rng : never_dries_up rng -> exists fuel0, forall fuel, fuel0 <= fuel -> verify M fuel rng items vk <> None.
Proof.
  intros Hr. destruct (loop_total items rng Hr 0 (mkAcc [] (repeat fzero (length (ic vk))) gzero fzero)) as [f0 H0]. exists f0. intros fuel Hf.
  unfold verify. destruct (existsb _ _); [discriminate|]. specialize (H0 fuel Hf). destruct (verify_loop _ _ _ _ _) as [[?|]|]; congruence.
Qed.
Lemma multicore_total {M : Miller E} vk (items : list (Item E)) rngs t : reduces t items -> (forall i, exists k, rngs i k <> fzero) ->
  exists fuel0, forall fuel, fuel0 <= fuel -> verify_multicore M fuel rngs t items vk <> None.
Proof.
  intros Ht Hr.
  assert (HB : exists B, forall i, i < length (chunks 8 items) -> exists k, k < B /\ rngs i k <> fzero).
  { generalize (length (chunks 8 items)). induction n as [|n [B HB]]; [exists 0; lia|]. destruct (Hr n) as [k Hk]. exists (Nat.max B (S k)). intros i Hi.
    destruct (Nat.eq_dec i n); [subst; exists k; split; [lia|auto]|]. destruct (HB i) as (k' & H1 & H2); [lia|]. exists k'. split; [lia|auto]. }
  destruct HB as [B HB]. exists (S B). intros fuel Hf. unfold verify_multicore. destruct (existsb _ _); [discriminate|].
  set (work := fun i => match nth_error (chunks 8 items) i with Some c => chunk_acc M fuel (rngs i) (length (ic vk)) c | None => None end).
  assert (Hw : forall i, In i (leaves t) -> work i <> None).
  { intros i Hi. unfold reduces in Ht. rewrite Ht, <- chunk_count in Hi. apply in_seq in Hi. unfold work. destruct (nth_error (chunks 8 items) i) as [c|] eqn:Ec.
    - destruct (HB i) as (k & H1 & H2); [lia|]. destruct (draw_exists (rngs i) k 0) as (zc & pos' & _ & Hd); auto; [lia|].
      unfold chunk_acc. rewrite Hd by lia. discriminate.
    - apply nth_error_None in Ec. lia. }
  assert (Hred : forall t', (forall i, In i (leaves t') -> work i <> None) -> reduce M (length (ic vk)) work t' <> None).
  { clear. induction t' as [|i|l IHl r IHr]; intros Hw; cbn [reduce leaves] in *; [discriminate|apply Hw; now left|].
    destruct (reduce M _ work l) eqn:E1; [|exfalso; apply IHl; auto; intros; apply Hw, in_or_app; auto].
    destruct (reduce M _ work r) eqn:E2; [discriminate|exfalso; apply IHr; auto; intros; apply Hw, in_or_app; auto]. }
  specialize (Hred t Hw). destruct (reduce M _ work t) as [[?|]|]; congruence.
Qed.
Lemma combined_app vk (l l' : list (Item E)) zs zs' : length zs = length l -> combined vk (l ++ l') (zs ++ zs') = combined vk l zs +g combined vk l' zs'.
Proof.
  unfold combined. revert zs. induction l as [|x l IH]; intros [|y zs] H; cbn [length app map dotl] in *; try lia; [now rewrite gadd_0_l|].
  rewrite IH by lia. now rewrite gadd_assoc.
Qed.
Lemma gsuml_pick {G : FMod P} (f : nat -> G) c n : forall s, s <= c < s + n ->
  gsuml (map f (seq s n)) = gsuml (map (fun i => if i =? c then gzero else f i) (seq s n)) +g f c.
Proof.
  induction n as [|n IH]; intros s H; [lia|]. cbn [seq map gsuml]. destruct (Nat.eqb_spec s c) as [->|Hn].
  - rewrite gadd_0_l, gadd_comm. f_equal. f_equal. apply map_ext_in. intros i Hi. apply in_seq in Hi. destruct (Nat.eqb_spec i c); [lia|auto].
  - rewrite IH by lia. now rewrite gadd_assoc.
Qed.
Lemma in_chunk (items : list (Item E)) c item : nth_error (chunks 8 items) c = Some item -> length item <= 8 /\ forall x, In x item -> In x items.
Proof.
  intros H. split.
  - apply nth_error_In in H. revert H. apply (chunks_ind 8 (ltac:(lia)) (fun l => In item (chunks 8 l) -> length item <= 8)); [contradiction|].
    intros l Hl IH. rewrite chunks_cons by (auto; lia). intros [<-|H]; auto. rewrite firstn_length. lia.
  - intros x Hx. rewrite <- (chunks_concat 8 items) by lia. apply in_concat. exists item. split; auto. eapply nth_error_In; eauto.
Qed.
End Spec.

(** ** C38 *)
Section C38.
Context {P : PrimeField} {E : Engine P}.

Theorem C38_accepts_iff (vk : VerifyingKey E) proof inputs :
  verify_proof (prepare_verifying_key vk) proof inputs = Done (Ok tt) <-> verifies vk proof inputs.
Proof. apply (single_ok vk (mkItem proof inputs)). Qed.

Theorem C38_invalid_key_iff (vk : VerifyingKey E) proof inputs :
  verify_proof (prepare_verifying_key vk) proof inputs = Done (Err InvalidVerifyingKey) <-> length (ic vk) <> length inputs + 1.
Proof.
  destruct (single_cases vk (mkItem proof inputs)) as [[H Eq]|[H Eq]]; unfold verify_single, right_length in *; cbn [item_proof item_inputs] in *; rewrite Eq.
  - split; [|tauto]. destruct (geqb _ _); discriminate.
  - tauto.
Qed.

(** It never panics, so in all other cases it is [InvalidProof]. *)
Theorem C38_invalid_proof_iff (vk : VerifyingKey E) proof inputs :
  verify_proof (prepare_verifying_key vk) proof inputs = Done (Err InvalidProof) <-> length (ic vk) = length inputs + 1 /\ ~ verifies vk proof inputs.
Proof.
  rewrite <- C38_accepts_iff. destruct (single_cases vk (mkItem proof inputs)) as [[H Eq]|[H Eq]]; unfold verify_single, right_length in *; cbn [item_proof item_inputs] in *; rewrite Eq.
  - destruct (geqb _ _); split; intros X; try discriminate; try tauto. split; auto. discriminate.
  - split; [discriminate|tauto].
Qed.
End C38.
Print Assumptions C38_accepts_iff.
Print Assumptions C38_invalid_key_iff.
Print Assumptions C38_invalid_proof_iff.

(** A key, valid and invalid proofs over the test engine: 4 * 25 = 3 * 5 + (1 + 4 * 2) * 7 + 2 * 11. *)
Definition c38_vk : VerifyingKey (DummyEngine Fr64513) :=
  mkVK (E := DummyEngine Fr64513) (ofZ 3) (ofZ 5) (ofZ 5) (ofZ 7) (ofZ 11) (ofZ 11) [ofZ 1; ofZ 2].
Definition c38_item (b x : Z) : Item (DummyEngine Fr64513) := mkItem (E := DummyEngine Fr64513) (mkProof (E := DummyEngine Fr64513) (ofZ 4) (ofZ b) (ofZ 2)) [ofZ x].
Example C38_ex :
  verify_single (c38_item 25 4) (prepare_verifying_key c38_vk) = Done (Ok tt) /\
  verify_single (c38_item 26 4) (prepare_verifying_key c38_vk) = Done (Err InvalidProof) /\
  verify_proof (prepare_verifying_key c38_vk) (item_proof (c38_item 25 4)) [] = Done (Err InvalidVerifyingKey).
Proof. vm_compute. repeat split. Qed.

(** ** C40 *)
Section C40.
Context {P : PrimeField} {E : Engine P} (M : Miller E).

(** Whatever is drawn, the only possible answer is [Ok]; and there is an answer unless the source eventually only returns zeros. *)
Theorem C40_verify (vk : VerifyingKey E) items rng :
  (forall item, In item items -> verify_single item (prepare_verifying_key vk) = Done (Ok tt)) ->
  (forall fuel, verify M fuel rng items vk = None \/ verify M fuel rng items vk = Some (Done (Ok tt))) /\
  (never_dries_up rng -> exists fuel0, forall fuel, fuel0 <= fuel -> verify M fuel rng items vk = Some (Done (Ok tt))).
Proof.
  intros H.
  assert (A : forall fuel, verify M fuel rng items vk = None \/ verify M fuel rng items vk = Some (Done (Ok tt))).
  { intros fuel. destruct (verify M fuel rng items vk) as [r|] eqn:Ev; auto. right. f_equal.
    assert (Hi : Forall (fun item => length (item_inputs item) + 1 = length (ic vk)) items).
    { apply Forall_forall. intros x Hx. apply H, single_ok, verifies_defect in Hx as [Hx _]. now symmetry. }
    destruct (verify_spec M vk fuel rng items r Hi Ev) as (zs & n & _ & _ & _ & ->). replace (combined vk items zs) with (gzero : E_GT E).
    - destruct (geqb_spec (gzero : E_GT E) gzero); congruence.
    - symmetry. unfold combined. clear - H. revert zs. induction items as [|x items IH]; intros [|y zs]; cbn [map dotl]; auto.
      rewrite IH by (intros; apply H; now right). specialize (H x (or_introl eq_refl)). apply single_ok, verifies_defect in H as [_ ->].
      now rewrite gmul_0_r, gadd_0_l. }
  split; auto. intros Hr. destruct (verify_total (M := M) vk items rng Hr) as [f0 H0]. exists f0. intros fuel Hf. destruct (A fuel); auto. exfalso. now apply (H0 fuel).
Qed.

Theorem C40_verify_multicore (vk : VerifyingKey E) items rngs t : reduces t items ->
  (forall item, In item items -> verify_single item (prepare_verifying_key vk) = Done (Ok tt)) ->
  (forall fuel, verify_multicore M fuel rngs t items vk = None \/ verify_multicore M fuel rngs t items vk = Some (Done (Ok tt))) /\
  ((forall i, exists k, rngs i k <> fzero) -> exists fuel0, forall fuel, fuel0 <= fuel -> verify_multicore M fuel rngs t items vk = Some (Done (Ok tt))).
Proof.
  intros Ht H.
  assert (A : forall fuel, verify_multicore M fuel rngs t items vk = None \/ verify_multicore M fuel rngs t items vk = Some (Done (Ok tt))).
  { intros fuel. destruct (verify_multicore M fuel rngs t items vk) as [r|] eqn:Ev; auto. right. f_equal.
    assert (Hi : Forall (fun item => length (item_inputs item) + 1 = length (ic vk)) items).
    { apply Forall_forall. intros x Hx. apply H, single_ok, verifies_defect in Hx as [Hx _]. now symmetry. }
    unfold reduces in Ht. rewrite <- chunk_count in Ht. destruct (multicore_spec M vk fuel rngs t items r Hi Ht Ev) as (zs & Lz & _ & ->).
    rewrite gsuml_zero; [destruct (geqb_spec (gzero : E_GT E) gzero); congruence|]. apply Forall_forall. intros v Hv. apply in_map_iff in Hv as (i & <- & Hin).
    apply in_seq in Hin. unfold chunk_value, chunk_nth. destruct (nth_error (chunks 8 items) i) as [c|] eqn:Ec; [|apply nth_error_None in Ec; lia].
    rewrite (nth_error_nth _ _ _ Ec). destruct (in_chunk _ _ _ Ec) as [_ Hc].
    assert (Z : forall x, gpeval (map (defect vk) c) x = gzero).
    { intros x. clear Ec. induction c as [|y c IH]; cbn [map gpeval]; auto. rewrite IH by (intros; apply Hc; now right). rewrite gmul_0_r, gadd_0_r.
      specialize (H y (Hc y (or_introl eq_refl))). now apply single_ok, verifies_defect in H as [_ ->]. }
    rewrite Z. apply gmul_0_r. }
  split; auto. intros Hr. destruct (multicore_total (M := M) vk items rngs t Ht Hr) as [f0 H0]. exists f0. intros fuel Hf. destruct (A fuel); auto. exfalso. now apply (H0 fuel).
Qed.
End C40.
Print Assumptions C40_verify.
Print Assumptions C40_verify_multicore.

(** Nine valid proofs (two chunks), with a source whose first value is zero, and a tree with a stray identity. *)
Example C40_ex :
  let items := repeat (c38_item 25 4) 9 in
  let rng n := ofZ (p := Fr64513) (Z.of_nat n) in
  verify (DummyMiller Fr64513) 2 rng items c38_vk = Some (Done (Ok tt)) /\
  verify_multicore (DummyMiller Fr64513) 2 (fun i n => rng (i + n)) (RNode (RNode (RChunk 0) RIdentity) (RChunk 1)) items c38_vk = Some (Done (Ok tt)) /\
  verify_multicore (DummyMiller Fr64513) 2 (fun i n => rng (i + n)) (RNode (RNode (RChunk 0) RIdentity) (RChunk 1)) (c38_item 26 4 :: items) c38_vk = Some (Done (Err InvalidProof)).
Proof. vm_compute. repeat split. Qed.

(** ** C41 *)
Section C41.
Context {P : PrimeField} {E : Engine P} (M : Miller E).
Add Field PFfield_c41 : (F_field P).

(** Two accepting runs on the same batch whose coefficients differ at most at an item that does not verify have the same coefficients. *)
Theorem C41_verify (vk : VerifyingKey E) before item after rng rng' fuel fuel' xs zc zc' ys :
  ~ item_verifies vk item ->
  length xs = length before -> length ys = length after ->
  coefficients rng (xs ++ zc :: ys) -> coefficients rng' (xs ++ zc' :: ys) ->
  verify M fuel rng (before ++ item :: after) vk = Some (Done (Ok tt)) ->
  verify M fuel' rng' (before ++ item :: after) vk = Some (Done (Ok tt)) ->
  zc = zc'.
Proof.
  intros Hn Lx Ly C1 C2 V1 V2. pose proof (ok_right _ _ _ _ V1) as Hi.
  assert (Hd : defect vk item <> gzero).
  { intros H. apply Hn, verifies_defect. split; auto. rewrite Forall_forall in Hi. symmetry. apply Hi. apply in_or_app. right. now left. }
  assert (K : forall rng fuel zc, coefficients rng (xs ++ zc :: ys) -> verify M fuel rng (before ++ item :: after) vk = Some (Done (Ok tt)) ->
    combined vk before xs +g (zc *g defect vk item +g combined vk after ys) = gzero).
  { clear - Hi Lx Ly. intros rng fuel zc C V. destruct (verify_spec M vk fuel rng _ _ Hi V) as (zs & n & Lz & _ & Ez & Er).
    assert (H : zs = xs ++ zc :: ys). { apply (coefficients_unique rng); auto. - exists n. auto. - rewrite Lz, !app_length. cbn. lia. }
    rewrite H in Er. revert Er. destruct (geqb_spec (combined vk (before ++ item :: after) (xs ++ zc :: ys)) gzero) as [Z|]; intros Er; [|discriminate Er].
    rewrite combined_app in Z by auto. exact Z. }
  pose proof (K _ _ _ C1 V1) as K1. pose proof (K _ _ _ C2 V2) as K2. rewrite <- K1 in K2. apply gadd_cancel_l, gadd_cancel_r in K2.
  symmetry in K2. apply gsub_0_eq in K2. rewrite <- gmul_sub_l in K2. apply gmul_cancel in K2 as [K2|]; [|contradiction].
  replace zc with ((zc - zc') + zc')%F by ring. rewrite K2. ring.
Qed.

(** If a chunk contains an item that does not verify then, for given coefficients of the other chunks, at most 8 coefficients of this chunk are accepted. *)
Theorem C41_verify_multicore (vk : VerifyingKey E) items chunk c item (others : nat -> P) (accepted : list P) :
  nth_error (chunks 8 items) c = Some chunk -> In item chunk -> ~ item_verifies vk item ->
  NoDup accepted ->
  (forall zc, In zc accepted -> exists fuel rngs t, reduces t items /\ coefficient_of (rngs c) zc /\
     (forall i, i <> c -> i < (length items + 7) / 8 -> coefficient_of (rngs i) (others i)) /\
     verify_multicore M fuel rngs t items vk = Some (Done (Ok tt))) ->
  length accepted <= 8.
Proof.
  intros Hc Hin Hn ND HA. destruct (Nat.le_gt_cases (length accepted) 8) as [|HL]; auto. exfalso.
  destruct accepted as [|z0 acc0] eqn:Ea; [cbn in HL; lia|]. rewrite <- Ea in *.
  assert (Hi : Forall (fun item => length (item_inputs item) + 1 = length (ic vk)) items).
  { destruct (HA z0) as (fuel & rngs & t & _ & _ & _ & V); [rewrite Ea; now left|]. eapply ok_right_mc; eauto. }
  assert (Hlt : c < length (chunks 8 items)) by (apply nth_error_Some; congruence).
  destruct (in_chunk _ _ _ Hc) as [L8 Hsub].
  set (K := gsuml (map (fun i => if i =? c then gzero else chunk_value vk (chunk_nth items i) (others i)) (seq 0 (length (chunks 8 items))))).
  assert (R : forall zc, In zc accepted -> gpeval (K :: map (defect vk) chunk) zc = gzero).
  { intros zc Hz. destruct (HA zc Hz) as (fuel & rngs & t & Ht & Cc & Co & V). unfold reduces in Ht. rewrite <- chunk_count in Ht, Co.
    destruct (multicore_spec M vk fuel rngs t items _ Hi Ht V) as (zs & Lz & Fz & Er).
    revert Er. destruct (geqb_spec (gsuml (map (fun i => chunk_value vk (chunk_nth items i) (nth i zs fzero)) (seq 0 (length zs)))) gzero) as [Z|]; intros Er; [|discriminate Er].
    cbn [gpeval]. rewrite (gsuml_pick _ c) in Z by lia. rewrite <- Z. f_equal.
    - unfold K. rewrite Lz. f_equal. apply map_ext_in. intros i Hi'. apply in_seq in Hi'. destruct (Nat.eqb_spec i c); auto. f_equal.
      apply (first_nonzero_unique (rngs i)); [apply Co; lia|apply Fz; lia].
    - unfold chunk_value, chunk_nth. rewrite (nth_error_nth _ _ _ Hc). replace (nth c zs fzero) with zc; auto.
      apply (first_nonzero_unique (rngs c)); [exact Cc|apply Fz; lia]. }
  assert (Z : Forall (fun d => d = gzero) (K :: map (defect vk) chunk)).
  { apply (groots accepted); auto. cbn [length]. rewrite map_length. lia. }
  inversion Z as [|? ? _ Z']; subst. rewrite Forall_forall in Z'. apply Hn, verifies_defect. split.
  - rewrite Forall_forall in Hi. symmetry. apply Hi, Hsub, Hin.
  - apply Z', in_map, Hin.
Qed.
End C41.
Print Assumptions C41_verify.
Print Assumptions C41_verify_multicore.

(** Two wrong proofs whose errors cancel exactly when both get the same coefficient. *)
Example C41_ex :
  let items := [c38_item 26 4; c38_item 24 4] in
  let rng x n := match n with 0 => ofZ (p := Fr64513) 5 | _ => ofZ x end in
  verify (DummyMiller Fr64513) 1 (rng 5%Z) items c38_vk = Some (Done (Ok tt)) /\
  verify (DummyMiller Fr64513) 1 (rng 6%Z) items c38_vk = Some (Done (Err InvalidProof)) /\
  verify_multicore (DummyMiller Fr64513) 1 (fun _ _ => ofZ 5) (RChunk 0) items c38_vk = Some (Done (Err InvalidProof)) /\
  verify_multicore (DummyMiller Fr64513) 1 (fun _ _ => ofZ 1) (RChunk 0) items c38_vk = Some (Done (Ok tt)).
Proof. vm_compute. repeat split. Qed.

(** ** C42 *)
Section C42.
Context {P : PrimeField} {E : Engine P} (M : Miller E).

Theorem C42_invalid_key (vk : VerifyingKey E) items fuel rng :
  verify M fuel rng items vk = Some (Done (Err InvalidVerifyingKey)) <-> exists item, In item items /\ length (ic vk) <> length (item_inputs item) + 1.
Proof.
  change (exists item, In item items /\ length (ic vk) <> length (item_inputs item) + 1) with (exists item, In item items /\ ~ right_length vk item).
  rewrite <- wrong_iff. split.
  - intros H. destruct (existsb (wrong_inputs vk) items) eqn:Ew; auto. exfalso.
    assert (Hi : Forall (fun item => length (item_inputs item) + 1 = length (ic vk)) items) by (apply right_lengths; rewrite <- wrong_iff; congruence).
    destruct (verify_spec M vk fuel rng items _ Hi H) as (? & ? & _ & _ & _ & Er). destruct (geqb _ _); discriminate.
  - intros H. unfold verify. now rewrite H.
Qed.
Theorem C42_invalid_key_multicore (vk : VerifyingKey E) items fuel rngs t : reduces t items ->
  verify_multicore M fuel rngs t items vk = Some (Done (Err InvalidVerifyingKey)) <-> exists item, In item items /\ length (ic vk) <> length (item_inputs item) + 1.
Proof.
  intros Ht. change (exists item, In item items /\ length (ic vk) <> length (item_inputs item) + 1) with (exists item, In item items /\ ~ right_length vk item).
  rewrite <- wrong_iff. split.
  - intros H. destruct (existsb (wrong_inputs vk) items) eqn:Ew; auto. exfalso.
    assert (Hi : Forall (fun item => length (item_inputs item) + 1 = length (ic vk)) items) by (apply right_lengths; rewrite <- wrong_iff; congruence).
    unfold reduces in Ht. rewrite <- chunk_count in Ht. destruct (multicore_spec M vk fuel rngs t items _ Hi Ht H) as (? & _ & _ & Er). destruct (geqb _ _); discriminate.
  - intros H. unfold verify_multicore. now rewrite H.
Qed.

Theorem C42_empty (vk : VerifyingKey E) fuel rng : verify M fuel rng [] vk = Some (Done (Ok tt)).
Proof.
  destruct (verify M fuel rng [] vk) as [r|] eqn:Ev; [|discriminate Ev]. destruct (verify_spec M vk fuel rng [] r (Forall_nil _) Ev) as (zs & n & Lz & _ & _ & ->).
  destruct zs; [|discriminate]. unfold combined. cbn [map dotl]. destruct (geqb_spec (gzero : E_GT E) gzero); congruence.
Qed.
Theorem C42_empty_multicore (vk : VerifyingKey E) fuel rngs t : reduces (E := E) t [] -> verify_multicore M fuel rngs t [] vk = Some (Done (Ok tt)).
Proof.
  intros Ht. destruct (C40_verify_multicore M vk [] rngs t Ht ltac:(contradiction)) as [A _]. destruct (A fuel) as [C|]; auto. exfalso.
  unfold verify_multicore in C. cbn [existsb] in C. unfold reduces in Ht. cbn in Ht.
  match type of C with match reduce _ _ ?w _ with _ => _ end = _ => assert (X : forall t', leaves t' = [] -> reduce M (length (ic vk)) w t' <> None) end.
  { induction t' as [|i|l IHl r IHr]; cbn [leaves reduce]; try discriminate. intros X. apply app_eq_nil in X as [X1 X2]. specialize (IHl X1). specialize (IHr X2).
    destruct (reduce _ _ _ l); [|congruence]. destruct (reduce _ _ _ r); congruence. }
  specialize (X t Ht). destruct (reduce _ _ _ t) as [[?|]|]; try discriminate. now apply X.
Qed.

(** A batch of one gives exactly the result of verifying the item by itself. *)
Theorem C42_single (vk : VerifyingKey E) item fuel rng r :
  verify M fuel rng [item] vk = Some r -> r = verify_single item (prepare_verifying_key vk).
Proof.
  intros H. destruct (single_cases vk item) as [[L ->]|[L ->]].
  - destruct (verify_spec M vk fuel rng [item] r ltac:(repeat constructor; unfold right_length in L; lia) H) as (zs & n & Lz & Fz & _ & ->).
    destruct zs as [|zc [|]]; try discriminate. inversion Fz as [|? ? Hz _]; subst. unfold combined. cbn [map dotl]. rewrite gadd_0_r.
    destruct (geqb_spec (zc *g defect vk item) gzero) as [X|X]; destruct (geqb_spec (defect vk item) gzero) as [Y|Y]; auto.
    + apply gmul_cancel in X as [X|X]; contradiction.
    + exfalso. apply X. rewrite Y. apply gmul_0_r.
  - assert (X : exists i, In i [item] /\ length (ic vk) <> length (item_inputs i) + 1) by (exists item; split; [now left|exact L]).
    apply (C42_invalid_key vk [item] fuel rng) in X. congruence.
Qed.
Theorem C42_single_multicore (vk : VerifyingKey E) item fuel rngs t r : reduces t [item] ->
  verify_multicore M fuel rngs t [item] vk = Some r -> r = verify_single item (prepare_verifying_key vk).
Proof.
  intros Ht H. destruct (single_cases vk item) as [[L ->]|[L ->]].
  - unfold reduces in Ht. rewrite <- chunk_count in Ht.
    destruct (multicore_spec M vk fuel rngs t [item] r ltac:(repeat constructor; unfold right_length in L; lia) Ht H) as (zs & Lz & Fz & ->).
    change (length (chunks 8 [item])) with 1 in Lz. rewrite Lz. cbn [seq map gsuml]. rewrite gadd_0_r. destruct (Fz 0) as [Hz _]; [lia|].
    unfold chunk_value. change (chunk_nth [item] 0) with [item]. cbn [map gpeval]. rewrite gmul_0_r, gadd_0_r.
    destruct (geqb_spec (nth 0 zs fzero *g defect vk item) gzero) as [X|X]; destruct (geqb_spec (defect vk item) gzero) as [Y|Y]; auto.
    + apply gmul_cancel in X as [X|X]; contradiction.
    + exfalso. apply X. rewrite Y. apply gmul_0_r.
  - assert (X : exists i, In i [item] /\ length (ic vk) <> length (item_inputs i) + 1) by (exists item; split; [now left|exact L]).
    apply (C42_invalid_key_multicore vk [item] fuel rngs t Ht) in X. congruence.
Qed.

(** No panic. *)
Theorem C42_no_panic (vk : VerifyingKey E) items fuel rng : verify M fuel rng items vk <> Some Panicked.
Proof.
  intros H. destruct (existsb (wrong_inputs vk) items) eqn:Ew; [unfold verify in H; rewrite Ew in H; discriminate|].
  assert (Hi : Forall (fun item => length (item_inputs item) + 1 = length (ic vk)) items) by (apply right_lengths; rewrite <- wrong_iff; congruence).
  destruct (verify_spec M vk fuel rng items _ Hi H) as (? & ? & _ & _ & _ & Er). discriminate.
Qed.
Theorem C42_no_panic_multicore (vk : VerifyingKey E) items fuel rngs t : reduces t items -> verify_multicore M fuel rngs t items vk <> Some Panicked.
Proof.
  intros Ht H. destruct (existsb (wrong_inputs vk) items) eqn:Ew; [unfold verify_multicore in H; rewrite Ew in H; discriminate|].
  assert (Hi : Forall (fun item => length (item_inputs item) + 1 = length (ic vk)) items) by (apply right_lengths; rewrite <- wrong_iff; congruence).
  unfold reduces in Ht. rewrite <- chunk_count in Ht. destruct (multicore_spec M vk fuel rngs t items _ Hi Ht H) as (? & _ & _ & Er). discriminate.
Qed.
End C42.
Print Assumptions C42_invalid_key.
Print Assumptions C42_invalid_key_multicore.
Print Assumptions C42_empty.
Print Assumptions C42_empty_multicore.
Print Assumptions C42_single.
Print Assumptions C42_single_multicore.
Print Assumptions C42_no_panic.
Print Assumptions C42_no_panic_multicore.

Example C42_ex :
  let bad := mkItem (E := DummyEngine Fr64513) (item_proof (c38_item 25 4)) [] in
  verify (DummyMiller Fr64513) 0 (fun _ => fzero) [c38_item 25 4; bad] c38_vk = Some (Done (Err InvalidVerifyingKey)) /\
  verify (DummyMiller Fr64513) 1 (fun _ => fone) [c38_item 25 4] c38_vk = Some (Done (Ok tt)) /\
  verify (DummyMiller Fr64513) 1 (fun _ => fone) [c38_item 26 4] c38_vk = Some (Done (Err InvalidProof)) /\
  verify_multicore (DummyMiller Fr64513) 1 (fun _ _ => fone) (RNode RIdentity (RChunk 0)) [c38_item 26 4] c38_vk = Some (Done (Err InvalidProof)) /\
  verify_multicore (DummyMiller Fr64513) 1 (fun _ _ => fone) RIdentity [] c38_vk = Some (Done (Ok tt)).
Proof. vm_compute. repeat split. Qed.
