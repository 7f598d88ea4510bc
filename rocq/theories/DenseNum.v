(** Dense.v continued: conditional bits, numbers, their bits, lookups and packing. *)
From Coq Require Import String.
From Coq Require Import ZArith List Bool Lia Field.
From Verif Require Import Prelude PrimeField Circuit Loops BooleanGadget NumGadget LookupGadget MultiEq UInt32 UInt32Proof Multipack DomainProof Scope Covered Dense DenseSha.
Import ListNotations.
Local Open Scope nat_scope.

Section Dense.
Context {P : PrimeField}.
Add Field PFdensenum : (F_field P).
Variable G : Var -> bool.
Notation sb := (sb G). Notation okb := (okb G). Notation sw := (sw G). Notation weak := (weak G). Notation der := (der G). Notation weakv := (weakv G).

Lemma two_not : (- (1) + - (1) : P)%F <> fzero.
Proof. intros E. apply (f_2_neq_0 (P := P)). transitivity (- (- (1) + - (1)) : P)%F; [ring|]. rewrite E. ring. Qed.
Lemma cond_dn na v l : dn G na (@ab_alloc_conditionally P v l) (fun n a => n = S na /\ G (ab_var a) = true).
Proof.
  unfold ab_alloc_conditionally, dn, bindq, cs_alloc. cbn [bind wpD cs_enforce].
  assert (C : forall x, (x = Aux na \/ x = ab_var l) -> is_aux x -> cf x (lc_sub_var (lc_sub_var (lc_add_var lc_zero one_var) (ab_var l)) (Aux na) : LC P) <> fzero).
  { intros x Hx Ha. unfold lc_sub_var, lc_sub_term, lc_add_var, lc_add_term, lc_zero. cbn [app]. rewrite cf_tl by now apply aux_one.
    destruct (var_dec (ab_var l) x) as [<-|N].
    - rewrite cf_hd. destruct (var_dec (Aux na) (ab_var l)) as [<-|M].
      + rewrite cf_hd. cbn [cf]. intros E. apply two_not. rewrite <- E. ring.
      + rewrite cf_tl by exact M. cbn [cf]. intros E. apply (one_not (P := P)). rewrite <- E. ring.
    - destruct Hx as [->|Hx]; [|congruence]. rewrite cf_tl by exact N. rewrite cf_hd. cbn [cf]. intros E. apply (one_not (P := P)). rewrite <- E. ring. }
  split; [|split; [apply safe_var|]].
  - intros x Ha _ Hw. apply written_mentioned in Hw. apply C; [|exact Ha]. unfold mentioned, lc_sub_var, lc_sub_term, lc_add_var, lc_add_term, lc_zero in Hw. cbn in Hw. destruct Hw as [<-|[<-|[<-|[]]]]; auto. destruct Ha.
  - intros HG. cbn [ab_var]. split; [reflexivity|]. apply HG; [apply C; [now left|exact I]|]. apply touch_add. constructor.
Qed.
Lemma b_enforce_equal_dn na a b : dn G na (@b_enforce_equal P a b) (fun _ _ => True).
Proof.
  assert (X : forall s c, dn G na (bind (@cs_enforce P s lc_zero lc_zero c) (fun _ => Ret (Ok tt))) (fun _ (_ : unit) => True)).
  { intros s c. unfold dn. cbn [bind cs_enforce wpD]. split; [apply safe_nil|]. split; [apply safe_nil|]. intros _. exact I. }
  destruct a as [a|a|[|]], b as [b|b|[|]]; cbn [b_enforce_equal eqb]; first [exact I|refine (X _ _)].
Qed.
Lemma u_alloc_dn na v : dn G na (@u_alloc P v) (fun _ w => sw w).
Proof.
  unfold u_alloc. cbv zeta.
  assert (L : length (match v with Some val => map Some (low_bits 32 val) | None => repeat None 32 end) = 32).
  { destruct v; reflexivity. }
  set (l := match v with Some val => _ | None => _ end) in *. clearbody l.
  eapply dn_bindq with (Q1 := fun _ bits => length bits = length l /\ Forall sb bits).
  - generalize 0 as i, na as n. clear L. induction l as [|x l IH]; intros i n; cbn [mapq]; [apply dn_ret; auto|].
    eapply dn_bindq; [eapply dn_bindq; [apply dn_ns, ab_alloc_dn|]; intros n' a _ [_ Ha]; apply dn_ret; instantiate (1 := fun _ => sb); intros u [<-|[]]; exact Ha|].
    intros n' b _ Hb. eapply dn_bindq; [apply IH|]. intros n2 bs _ [L Hs]. apply dn_ret. cbn [length]. auto.
  - intros n bits _ [L' Hb]. apply dn_ret. split; cbn [u_bits]; [congruence|exact Hb].
Qed.
Lemma u64_dn na v : dn G na (@u64_into_boolean_vec_le P v) (fun _ l => Forall sb l /\ length l = 64).
Proof.
  unfold u64_into_boolean_vec_le. cbv zeta.
  assert (L : length (match v with Some v => map (fun i => Some (Z.eqb (Z.land (Z.shiftr v (Z.of_nat i)) 1) 1)) (seq 0 64) | None => repeat None 64 end) = 64).
  { destruct v; [rewrite map_length, seq_length|rewrite repeat_length]; reflexivity. }
  set (l := match v with Some val => _ | None => _ end) in *. clearbody l. rewrite <- L. clear L.
  generalize 0 as i, na as n. induction l as [|x l IH]; intros i n; cbn [mapq]; [apply dn_ret; auto|].
  eapply dn_bindq; [eapply dn_bindq; [apply dn_ns, ab_alloc_dn|]; intros n' a _ [_ Ha]; apply dn_ret; instantiate (1 := fun _ => sb); intros u [<-|[]]; exact Ha|].
  intros n' b _ Hb. eapply dn_bindq; [apply IH|]. intros n2 bs _ [Hs L]. apply dn_ret. cbn [length]. auto.
Qed.

(** ** Numbers *)
Definition nfresh (na n : nat) (a : AllocatedNum P) : Prop := exists j, an_var a = Aux j /\ na <= j < n.
Lemma an_alloc_dn na v : dn G na (@an_alloc P v) (fun n a => n = S na /\ an_var a = Aux na).
Proof. unfold an_alloc, dn, bindq, cs_alloc. cbn [bind wpD]. split; reflexivity. Qed.
Lemma mul_dn na a b : dn G na (@an_mul P a b) (fun n r => n = S na /\ an_var r = Aux na).
Proof. unfold an_mul, dn, bindq, cs_alloc. cbn [bind wpD cs_enforce]. split; [apply safe_var|]. split; [apply safe_var|]. intros _. split; reflexivity. Qed.
Lemma square_dn na a : dn G na (@an_square P a) (fun n r => n = S na /\ an_var r = Aux na).
Proof. unfold an_square, dn, bindq, cs_alloc. cbn [bind wpD cs_enforce]. split; [apply safe_var|]. split; [apply safe_var|]. intros _. split; reflexivity. Qed.
Lemma nonzero_dn na a : dn G na (@an_assert_nonzero P a) (fun _ _ => True).
Proof. unfold an_assert_nonzero, dn, bindq, cs_alloc. cbn [bind wpD cs_enforce]. split; [apply safe_var|]. split; [apply safe_var|]. intros _. exact I. Qed.
Lemma inputize_dn na a : dn G na (@an_inputize P a) (fun _ _ => True).
Proof. unfold an_inputize, dn, bindq, cs_alloc_input. cbn [bind wpD cs_enforce]. intros i. split; [apply safe_var|]. split; [apply safe_var|]. intros _. exact I. Qed.
Lemma safe_difference R u v : u <> v \/ G u = true -> safe (P := P) G R (lc_sub_var (lc_add_var lc_zero u) v).
Proof.
  intros Hn x _ Hg Hw. apply written_mentioned in Hw. unfold mentioned, lc_sub_var, lc_sub_term, lc_add_var, lc_add_term, lc_zero in *. cbn [app map fst In] in *.
  destruct Hw as [<-|[<-|[]]].
  - destruct Hn as [Hn|Hn]; [|congruence]. rewrite cf_hd, cf_tl by auto. cbn [cf]. intros E. apply (f_1_neq_0 (P := P)). rewrite <- E. ring.
  - assert (Hn' : u <> v) by (destruct Hn as [Hn|Hn]; congruence). rewrite cf_tl, cf_hd by auto. cbn [cf]. intros E. apply (one_not (P := P)). rewrite <- E. ring.
Qed.
Lemma reverse_dn na a b c : an_var a <> an_var b -> okb c -> dn G na (@an_conditionally_reverse P a b c) (fun n r => n = S (S na) /\ an_var (fst r) = Aux na /\ an_var (snd r) = Aux (S na)).
Proof.
  intros Hn Hc. unfold an_conditionally_reverse.
  eapply dn_bindq; [apply dn_ns, an_alloc_dn|]. intros n x _ [-> Hx]. unfold dn. cbn [bind cs_enforce wpD].
  split; [apply safe_difference; auto|]. split; [now apply safe_lit|]. intros _.
  match goal with |- wpD _ ?m ?p ?Q => change (dn G m p (fun n r => n = S (S na) /\ an_var (fst r) = Aux na /\ an_var (snd r) = Aux (S na))) end.
  eapply dn_bindq; [apply dn_ns, an_alloc_dn|]. intros n y _ [-> Hy]. unfold dn. cbn [bind cs_enforce wpD].
  split; [apply safe_difference; auto|]. split; [now apply safe_lit|]. intros _. split; [reflexivity|]. split; assumption.
Qed.

(** ** Bits of numbers *)
Definition aset (l : list AllocatedBit) : Prop := Forall (fun a => G (ab_var a) = true) l.
Lemma kary_dn na l : dn G na (@kary_and P l) (fun _ _ => True).
Proof.
  unfold kary_and. destruct l as [|x l]; [exact I|]. apply (foldq_dn _ _ (fun _ _ => True)); [|exact I]. intros j n s y _ _. eapply dn_mono; [apply dn_ns, ab_and_dn|]. auto.
Qed.
Lemma strict_step_dn na s b x : aset (st_result s) -> dn G na (@strict_step P s (b, x)) (fun _ s' =>
  aset (st_result s') /\ st_found_one s' = st_found_one s || b /\ (st_found_one s' = true -> length (st_result s') = S (length (st_result s)))).
Proof.
  intros Hs. unfold strict_step. destruct (st_found_one s || b) eqn:Ef; cbn [negb].
  - destruct b.
    + eapply dn_bindq; [apply dn_ns, ab_alloc_dn|]. intros n a _ [_ Ha]. apply dn_ret. cbn [st_result st_found_one]. split; [apply Forall_app; split; [exact Hs|constructor; auto]|].
      split; [reflexivity|]. intros _. rewrite app_length. cbn. lia.
    + eapply dn_bindq with (Q1 := fun _ _ => True).
      * destruct (st_current_run s); [exact I|]. eapply dn_bindq; [apply dn_ns, kary_dn|]. intros n k _ _. exact I.
      * intros n [l|] _ _; [|exact I]. eapply dn_bindq; [apply dn_ns, cond_dn|]. intros n' a _ [_ Ha]. apply dn_ret. cbn [st_result st_found_one]. split; [apply Forall_app; split; [exact Hs|constructor; auto]|].
        split; [reflexivity|]. intros _. rewrite app_length. cbn. lia.
  - destruct x as [[|]|]; try exact I; apply dn_ret; cbn [st_result st_found_one]; (split; [exact Hs|split; [reflexivity|discriminate]]).
Qed.
Lemma strict_loop_dn l : forall i na s, aset (st_result s) -> st_found_one s = true -> dn G na (foldq (fun _ => @strict_step P) i s l) (fun _ s' => aset (st_result s') /\ length (st_result s') = length (st_result s) + length l).
Proof.
  induction l as [|[b x] l IH]; intros i na s Hs Hf; cbn [foldq]; [apply dn_ret; split; [exact Hs|cbn; lia]|].
  eapply dn_bindq; [apply strict_step_dn, Hs|]. cbv beta. rewrite Hf. cbn [orb]. intros n s' _ (H1 & H2 & H3). eapply dn_mono; [now apply IH|]. cbv beta. cbn [length]. rewrite (H3 H2). intros n' s2 _ [K1 K2]. split; [exact K1|lia].
Qed.
Lemma strict_dn na a : dn G na (@to_bits_le_strict P a) (fun _ l => Forall sb l /\ length l = num_bits P).
Proof.
  unfold to_bits_le_strict. fold strict_init. cbv zeta. rewrite strict_loop_eq. unfold strict_loop. destruct (rbits_head (P := P)) as [t Ht].
  pose proof (rbits_length (P := P)) as HL. pose proof (abits_be_length (an_value a)) as HA. rewrite Ht in HL |- *. destruct (abits_be (an_value a)) as [|x xs]; [cbn in *; lia|].
  cbn [combine]. cbn [length] in HL, HA.
  eapply dn_bindq with (Q1 := fun _ s => aset (st_result s) /\ length (st_result s) = num_bits P).
  - cbn [foldq]. eapply dn_bindq; [apply strict_step_dn; constructor|]. cbv beta. intros n s _ (H1 & H2 & H3). rewrite orb_true_r in H2. eapply dn_mono; [now apply strict_loop_dn|]. cbv beta.
    rewrite (H3 H2). cbn [strict_init st_result length]. rewrite combine_length. intros n' s' _ [K1 K2]. split; [exact K1|]. lia.
  - intros n s _ [Hs L]. destruct (st_current_run s); [|exact I]. unfold dn. cbn [bind cs_enforce wpD]. split; [apply safe_nil|]. split; [apply safe_nil|]. intros _.
    split; [|rewrite rev_length, map_length; exact L]. apply Forall_rev, Forall_map. eapply Forall_impl; [|exact Hs]. intros b Hb v [<-|[]]. exact Hb.
Qed.

(** ** Lookups *)
Lemma lit_nonzero b c v : is_aux v -> written (P := P) v (b_lc b one_var c) -> c <> fzero.
Proof.
  intros Ha (d & Hd & Hn) ->. apply aux_one in Ha. destruct b as [a|a|[|]]; cbn [b_lc] in Hd; unfold lc_sub_term, lc_add_term, lc_zero in Hd; cbn [app In] in Hd.
  - destruct Hd as [E|[]]. congruence.
  - destruct Hd as [E|[E|[]]]; [congruence|]. injection E as _ E. apply Hn. rewrite <- E. ring.
  - destruct Hd as [E|[]]. congruence.
  - exact Hd.
Qed.
Lemma fneg_nonzero (c : P) : c <> fzero -> (- c)%F <> fzero.
Proof. intros H E. apply H. transitivity (- - c)%F; [ring|]. rewrite E. ring. Qed.
Lemma lit_cf_nonzero b c v : is_aux v -> In v (bvs b) -> c <> fzero -> cf v (b_lc b one_var c : LC P) <> fzero.
Proof. intros Ha Hv Hc. rewrite lit_cf, (proj2 (not_in_bvs v b) Hv) by exact Ha. destruct b; auto using fneg_nonzero. Qed.
Lemma lookup_con_dn {A} na name b0 b1 b2 pc cs r (k : unit -> prog P (res A)) Q : okb b0 -> sb b1 -> sb b2 -> dn G na (k tt) Q -> dn G na (bind (lookup_constraint name b0 b1 b2 pc cs r) k) Q.
Proof.
  intros H0 H1 H2 Hk. unfold lookup_constraint, dn. cbv zeta. cbn [bind cs_enforce wpD]. split; [|split; [|intros _; exact Hk]].
  - rewrite !add_lc_app. unfold lc_add_term, lc_zero. cbn [app]. intros v Ha Hg Hw.
    assert (N : forall b c, sb b -> cf v (b_lc b one_var c : LC P) = fzero /\ ~ written v (b_lc b one_var c : LC P)).
    { intros b c Hb. assert (X : ~ mentioned v (b_lc b one_var c : LC P)) by (intros Hm; apply (lit_mentioned_aux _ _ _ Ha) in Hm; rewrite (Hb v Hm) in Hg; discriminate).
      split; [now apply (cf_unmentioned G)|]. intros K. now apply X, written_mentioned. }
    destruct Hw as (d & Hd & Hn). destruct Hd as [E|Hd]; [|apply in_app_or in Hd as [Hd|Hd]; [apply in_app_or in Hd as [Hd|Hd]|]].
    + injection E as E _. exfalso. exact (aux_one _ Ha E).
    + exfalso. apply (proj2 (N b1 (nth 3 cs fzero) H1)). exists d. split; [exact Hd|exact Hn].
    + exfalso. apply (proj2 (N b2 (nth 5 cs fzero) H2)). exists d. split; [exact Hd|exact Hn].
    + assert (W : written v (b_lc pc one_var (nth 7 cs fzero) : LC P)) by (exists d; auto).
      rewrite cf_tl, !cf_app by now apply aux_one. rewrite (proj1 (N b1 (nth 3 cs fzero) H1)), (proj1 (N b2 (nth 5 cs fzero) H2)).
      pose proof (lit_nonzero _ _ _ Ha W) as Hc. apply written_mentioned in W. apply (lit_mentioned_aux _ _ _ Ha) in W.
      intros E. apply (lit_cf_nonzero pc _ v Ha W Hc). etransitivity; [|exact E]. ring.
  - rewrite add_lc_app. cbn [lc_zero app]. now apply safe_lit.
Qed.
Lemma lookup3_dn na bits coords : Forall sb bits -> dn G na (@lookup3_xy P bits coords) (fun n r => S (S na) <= n /\ an_var (fst r) = Aux na /\ an_var (snd r) = Aux (S na)).
Proof.
  intros Hb. unfold lookup3_xy. destruct bits as [|b0 [|b1 [|b2 [|? ?]]]]; try exact I. destruct (negb _); [exact I|]. cbv zeta.
  pose proof (Forall_inv Hb) as H0. apply Forall_inv_tail in Hb. pose proof (Forall_inv Hb) as H1. apply Forall_inv_tail in Hb. pose proof (Forall_inv Hb) as H2.
  eapply dn_bindq; [apply dn_ns, an_alloc_dn|]. intros n x _ [-> Hx]. eapply dn_bindq; [apply dn_ns, an_alloc_dn|]. intros n y _ [-> Hy].
  eapply dn_bindq; [apply dn_ns, b_and_dn; now apply sb_okb|]. intros n pc Hn _.
  apply lookup_con_dn; [now apply sb_okb|assumption|assumption|]. apply lookup_con_dn; [now apply sb_okb|assumption|assumption|]. apply dn_ret. cbn [fst snd]. auto.
Qed.

(** ** Packing *)
Lemma fdouble_nonzero (c : P) : c <> fzero -> fdouble c <> fzero.
Proof.
  intros Hc E. unfold fdouble in E. assert (E' : ((1 + 1) * c = 0)%F) by (rewrite <- E; ring).
  apply (f_2_neq_0 (P := P)). transitivity ((1 + 1) * c * finv c)%F; [field; exact Hc|]. rewrite E'. ring.
Qed.
Lemma pack_gains v bits : is_aux v -> G v = false -> forall num c, NoDup (weak bits) -> c <> fzero ->
  let l := num_lc_ (fst (fold_left (@pack_step P) bits (num, c))) in
  (mentioned v l <-> mentioned v (num_lc_ num) \/ In v (flat_map bvs bits)) /\
  (~ In v (flat_map bvs bits) -> cf v l = cf v (num_lc_ num)) /\
  (In v (flat_map bvs bits) -> cf v (num_lc_ num) = fzero -> cf v l <> fzero).
Proof.
  intros Ha Hg. induction bits as [|b bits IH]; intros num c HN Hc; cbn [fold_left]; cbv zeta.
  { cbn. split; [tauto|]. split; [reflexivity|tauto]. }
  rewrite weak_cons in HN. apply nodup_app in HN as (_ & N2 & N3). cbn [pack_step].
  specialize (IH (num_add_bool num one_var b c) (fdouble c) N2 (fdouble_nonzero c Hc)). cbv zeta in IH. destruct IH as (I1 & I2 & I3).
  assert (E : num_lc_ (num_add_bool num one_var b c) = (num_lc_ num ++ b_lc b one_var c)%list) by (cbn [num_add_bool num_lc_]; apply add_lc_app).
  rewrite E in I1, I2, I3. cbn [flat_map].
  assert (M : mentioned v (num_lc_ num ++ b_lc b one_var c)%list <-> mentioned v (num_lc_ num) \/ In v (bvs b)).
  { unfold mentioned. rewrite map_app, in_app_iff. fold (mentioned v (num_lc_ num)) (mentioned v (b_lc b one_var c : LC P)). rewrite lit_mentioned_aux by exact Ha. tauto. }
  assert (Z : ~ In v (bvs b) -> cf v (b_lc b one_var c : LC P) = fzero) by (intros K; apply (cf_unmentioned G); intros K'; apply (lit_mentioned_aux _ _ _ Ha) in K'; auto).
  split; [rewrite I1, M, in_app_iff; tauto|]. split.
  - intros HI. rewrite in_app_iff in HI. rewrite I2 by tauto. rewrite cf_app, Z by tauto. ring.
  - intros HI E0. apply in_app_or in HI as [HI|HI].
    + assert (K : ~ In v (flat_map bvs bits)) by (intros K; apply (N3 v); now apply in_weakv). rewrite (I2 K), cf_app, E0. intros X. apply (lit_cf_nonzero b c v Ha HI Hc). rewrite <- X. ring.
    + apply I3; [exact HI|]. rewrite cf_app, E0, Z; [ring|]. intros K. apply (N3 v); now apply in_weakv.
Qed.
Lemma safe_pack bits : NoDup (weak bits) -> safe (P := P) G is_aux (num_lc (pack_num bits) fone).
Proof.
  intros HN v Ha Hg Hw. apply written_mentioned in Hw. unfold num_lc in *. unfold mentioned in Hw. rewrite add_scaled_app in Hw |- *. unfold lc_zero in *. cbn [app] in *. rewrite (fst_scale fone) in Hw.
  rewrite cf_scale. destruct (pack_gains v bits Ha Hg num_zero fone HN (f_1_neq_0 (P := P))) as (H1 & _ & H3). apply H1 in Hw as [[]|Hw].
  intros E. apply (H3 Hw eq_refl). unfold pack_num in E. rewrite <- E. ring.
Qed.
Lemma weak_incl l m : incl l m -> NoDup (weak m) -> (exists x y, m = x ++ l ++ y) -> NoDup (weak l).
Proof. intros _ H (x & y & ->). rewrite !weak_app in H. apply nodup_app in H as (_ & H & _). apply nodup_app in H as (H & _ & _). exact H. Qed.
Lemma pack_weak_dn na bits : NoDup (weak bits) -> dn G na (@pack_into_inputs P bits) (fun _ _ => True).
Proof.
  intros Hb. unfold pack_into_inputs. apply (foldq_dn _ _ (fun _ _ => True)); [|exact I]. intros j n [] c Hin _.
  assert (Hc : NoDup (weak c)).
  { apply in_split in Hin as (x & y & E). pose proof (chunks_concat (capacity P) bits (capacity_pos (P := P))) as C. rewrite E, concat_app in C. cbn [concat] in C. rewrite <- C, !weak_app in Hb.
    apply nodup_app in Hb as (_ & Hb & _). apply nodup_app in Hb as (Hb & _ & _). exact Hb. }
  unfold pack_chunk, dn, bindq, cs_alloc_input. cbn [bind wpD cs_enforce]. intros i. split; [now apply safe_pack|split; [apply safe_var|intros _; exact I]].
Qed.
End Dense.
