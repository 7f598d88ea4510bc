(** Unit tests of sha256.rs and blake2s.rs: auxiliary lemmas. *)
From Coq Require Import String Ascii.
From Coq Require Import ZArith List Bool Lia Field.
From Verif Require Import Prelude PrimeField Loops BooleanGadget NumGadget MultiEq UInt32 UInt32Proof WordLogic Sha256 Sha256Spec Sha256Proof Blake2s Blake2sSpec Blake2sProof
  Spec TestCS TestCSProof PropTestCS Scope ScopeRun PropScope Names NamesGadgets NamesFit CostSpec Cost CostProof CostRun UnitTests UnitTestsProof UnitTestsProof2 HashTests.
From Verif Require Mimc Spec.
From Verif Require Import Circuit.
Import ListNotations.
Local Open Scope nat_scope.

(** ** Bits *)
Lemma bit_at_odd byte i : bit_at byte i = Z.odd (byte / 2 ^ Z.of_nat i).
Proof.
  unfold bit_at. rewrite Z.shiftr_div_pow2 by lia. set (z := (byte / _)%Z). change 1%Z with (Z.ones 1) at 1. rewrite Z.land_ones by lia.
  change (2 ^ 1)%Z with 2%Z. rewrite Zmod_odd. destruct (Z.odd z); reflexivity.
Qed.
Lemma stream_bytes l : stream lsb_first l = bits_of_bytes l.
Proof.
  unfold stream, bits_of_bytes. rewrite flat_map_concat_map. f_equal. apply map_ext. intros b. apply map_ext. intros i. apply bit_at_odd.
Qed.
Lemma stream_length order l : length (stream order l) = length l * length order.
Proof. unfold stream. induction l as [|x l IH]; [reflexivity|]. cbn [flat_map length]. rewrite app_length, map_length, IH. lia. Qed.

(** ** Comparing *)
Definition eq_bits (a b : list bool) : bool := if list_eq_dec bool_dec a b then true else false.
Lemma eq_bits_cons x y a b : eq_bits (x :: a) (y :: b) = Bool.eqb x y && eq_bits a b.
Proof.
  unfold eq_bits. destruct (list_eq_dec bool_dec (x :: a) (y :: b)) as [E|E].
  - injection E as -> ->. rewrite eqb_reflx. destruct (list_eq_dec _ _ _); [reflexivity|congruence].
  - destruct (Bool.eqb x y) eqn:Ex; [|reflexivity]. apply eqb_prop in Ex as ->. destruct (list_eq_dec _ _ _); [congruence|reflexivity].
Qed.
Lemma eq_bits_true a b : eq_bits a b = true <-> a = b.
Proof. unfold eq_bits. destruct (list_eq_dec _ _ _); split; congruence. Qed.
Definition passes (b : bool) : outcome unit := if b then Done tt else Panicked.
Lemma assert_passes b : assert b = passes b. Proof. reflexivity. Qed.
Lemma passes_bind b (c : bool) : obind (passes b) (fun _ => passes c) = passes (b && c).
Proof. destruct b; reflexivity. Qed.
Lemma compare_spec blank r bs : Forall2 (fun x b => b_value x = Some b) r bs -> (blank = true \/ Forall (fun x => isvar x = true) r) ->
  forall s, compare blank r s = passes (eq_bits (firstn (length r) s) bs).
Proof.
  induction 1 as [|x b r bs Hx _ IH]; intros HB s; [reflexivity|]. cbn [compare length firstn].
  assert (HB' : blank = true \/ Forall (fun x => isvar x = true) r) by (destruct HB as [HB|HB]; [now left|right; now inversion HB]).
  assert (HC : obind (match x with BConst _ => assert blank | _ => Done tt end) (fun _ => match s with [] => Panicked | y :: s =>
     obind (match x with BIs a => do v <- unwrap_o (ab_value a); assert (Bool.eqb y v) | BNot a => do v <- unwrap_o (ab_value a); assert (negb (Bool.eqb y v))
            | BConst c => assert (Bool.eqb y c) end) (fun _ => compare blank r s) end) = match s with [] => Panicked | y :: s => obind (passes (Bool.eqb y b)) (fun _ => compare blank r s) end).
  { destruct x as [a|a|c]; cbn [b_value isvar] in *.
    - rewrite Hx. reflexivity.
    - destruct (ab_value a) as [v|]; [|discriminate]. injection Hx as <-. cbn [obind]. destruct s as [|y s]; [reflexivity|]. cbn [unwrap_o obind]. destruct y, v; reflexivity.
    - injection Hx as ->. destruct HB as [->|HB]; [reflexivity|]. inversion HB; discriminate. }
  rewrite HC. destruct s as [|y s]; [reflexivity|]. rewrite IH by assumption. rewrite passes_bind, eq_bits_cons. reflexivity.
Qed.
Lemma shows_spec r bs : Forall2 (fun x b => b_value x = Some b) r bs -> forall e, length e = length r -> shows e r = passes (eq_bits bs e).
Proof.
  induction 1 as [|x b r bs Hx _ IH]; intros [|y e] He; try discriminate; [reflexivity|]. cbn [shows]. rewrite Hx. cbn [unwrap_o obind].
  rewrite IH by (injection He; auto). rewrite eq_bits_cons. apply passes_bind.
Qed.

(** ** Names *)
Lemma digits_split a b s t : digits a = true -> digits b = true -> (a ++ String " " s = b ++ String " " t)%string -> a = b /\ s = t.
Proof.
  revert b. induction a as [|c a IH]; intros [|d b] Ha Hb E; cbn [append] in E.
  - injection E as ->. auto.
  - injection E as <- _. discriminate Hb.
  - injection E as -> _. discriminate Ha.
  - injection E as <- E. cbn [digits] in Ha, Hb. apply andb_true_iff in Ha as [_ Ha]. apply andb_true_iff in Hb as [_ Hb]. destruct (IH b Ha Hb E) as [-> ->]. auto.
Qed.
Definition byte_name (i j : nat) : string := ("input bit " ++ nat_str i ++ " " ++ nat_str j)%string.
Lemma byte_name_inj i j i' j' : byte_name i j = byte_name i' j' -> i = i' /\ j = j'.
Proof.
  intros E. unfold byte_name in E. apply append_inj_l in E. cbn [append] in E. apply digits_split in E as [E1 E2]; [|apply nat_str_digits..].
  split; apply nat_str_inj; assumption.
Qed.
Lemma byte_name_word i j : word (byte_name i j).
Proof. unfold word, byte_name. now rewrite !has_slash_app, !nat_str_slash. Qed.
Definition byte_names : names := fun n => exists i j, n = byte_name i j.

Lemma firstn_repeat_min {A} (x : A) k n : firstn k (repeat x n) = repeat x (Nat.min k n).
Proof. revert n. induction k as [|k IH]; intros [|n]; [reflexivity..|]. cbn. now rewrite IH. Qed.
Lemma skipn_repeat_sub {A} (x : A) k n : skipn k (repeat x n) = repeat x (n - k)%nat.
Proof. revert n. induction k as [|k IH]; intros [|n]; [reflexivity..|]. cbn. now rewrite IH. Qed.

Section Hash.
Context {P : PrimeField}.
Local Open Scope F_scope.
Local Open Scope prog_scope.
Local Open Scope string_scope.
Add Field PFhash : (F_field P).
Notation T := (TState P).
Notation W p N := (uses word p N (okP (fun _ => True))).

Lemma uses_els {A B} (f : nat -> A -> prog P (res B)) (N : A -> names) l : (forall x y, x <> y -> apart (N x) (N y)) -> (forall j x, W (f j x) (N x)) -> NoDup l ->
  forall i, W (mapq f i l) (fun n => exists x, In x l /\ N x n).
Proof.
  intros Hd Hf. induction 1 as [|x l Hx _ IH]; intros i; cbn [mapq]; [apply uses_res|].
  eapply uses_q; [apply Hf|intros y; apply uses_then, IH| |].
  - intros n Hn (z & Hz & Hn'). apply (Hd x z) with (x := n); auto. intros ->. contradiction.
  - intros n [Hn|(z & Hz & Hn)]; [exists x|exists z]; cbn; auto.
Qed.

(** What an allocation of input bits is to do: the bits [bs], of which [fs] says whether they are variables; [k] constraints. *)
Record gives (al : prog P (res (list Boolean))) (bs fs : list bool) (k : Z) (N : names) : Prop := {
  g_ne : noeq al; g_names : W al N; g_one : ~ N "ONE";
  g_hon : forall rho, rho one_var = 1 -> wpC rho al (isOk (fun l => Forall2 (bit_hon rho) l bs));
  g_scope : forall K : Var -> Prop, K one_var -> wpK K al (okP (Forall (kb K)));
  g_cost : costs al (fbill (k, [])) (fun l => map isvar l = fs) }.

Lemma mapq_hon {A} (f : nat -> A -> prog P (res Boolean)) (v : A -> bool) rho l : (forall j x, wpC rho (f j x) (isOk (fun b => bit_hon rho b (v x)))) ->
  forall i, wpC rho (mapq f i l) (isOk (fun r => Forall2 (bit_hon rho) r (map v l))).
Proof.
  intros Hf. induction l as [|x l IH]; intros i; cbn [mapq map]; [cbn; constructor|]. eapply wpC_bindq'; [apply Hf|]. intros y Hy.
  eapply wpC_bindq'; [apply IH|]. intros r Hr. cbn. constructor; assumption.
Qed.
Lemma mapq_known {A B} (f : nat -> A -> prog P (res B)) (K : Var -> Prop) (Q : B -> Prop) l : (forall j x, wpK K (f j x) (okP Q)) ->
  forall i, wpK K (mapq f i l) (okP (Forall Q)).
Proof.
  intros Hf. induction l as [|x l IH]; intros i; cbn [mapq]; [cbn; constructor|]. eapply wpK_q; [apply Hf|]. intros y Hy. eapply wpK_q; [apply IH|]. intros r Hr. cbn. constructor; assumption.
Qed.
Lemma mapq_cost {A} (f : nat -> A -> prog P (res Boolean)) l : (forall j x, costf (f j x) one_gate (fun b => isvar b = true)) ->
  forall i, costf (mapq f i l) (Z.of_nat (length l), []) (fun r => map isvar r = repeat true (length l)).
Proof.
  intros Hf i. eapply costf_eq with (x := fees (map (fun _ => one_gate) l)).
  - clear. induction l as [|x l IH]; [reflexivity|]. cbn [map fees length]. rewrite IH. unfold plus, one_gate. cbn [fst snd app]. f_equal. lia.
  - eapply costf_mono; [|apply costf_mapq with (Q := fun _ b => isvar b = true); intros; apply Hf]. clear. induction 1 as [|x y l r Hy _ IH]; [reflexivity|].
    cbn [map length repeat]. now rewrite Hy, IH.
Qed.
Lemma named_bit n b : (forall rho : Var -> P, rho one_var = 1 -> wpC rho (let* a := ns n (ab_alloc (Some b)) in Ret (Ok (BIs a))) (isOk (fun x => bit_hon rho x b))) /\
  (forall K : Var -> Prop, K one_var -> wpK K (let* a := ns n (@ab_alloc P (Some b)) in Ret (Ok (BIs a))) (okP (kb K))) /\
  costf (let* a := ns n (@ab_alloc P (Some b)) in Ret (Ok (BIs a))) one_gate (fun x => isvar x = true).
Proof.
  split; [|split].
  - intros rho H1. eapply wpC_bindq'; [apply wpC_ns, ab_alloc_complete; exact H1|]. intros a Ha. now apply bit_of.
  - intros K K1. eapply wpK_q; [apply wpK_ns, scop_wpK, Scope.ab_alloc_scop; exact K1|]. intros a Ha. exact Ha.
  - eapply costf_last; [apply costf_ns, ab_alloc_costs|]. reflexivity.
Qed.
Lemma vars_give bits : gives (input_vars bits) bits (repeat true (length bits)) (Z.of_nat (length bits)) (fam "input bit ").
Proof.
  split; unfold input_vars.
  - struct.
  - apply weak, uses_map. intros j x. apply uses_then. eapply uses_in; [pl|apply ab_alloc_u].
  - intros [i E]. discriminate E.
  - intros rho H1. pose proof (mapq_hon (fun i b => let* a := ns ("input bit " ++ nat_str i) (@ab_alloc P (Some b)) in Ret (Ok (BIs a))) (fun b => b) rho bits) as X.
    rewrite map_id in X. apply X. intros j x. now apply named_bit.
  - intros K K1. apply mapq_known. intros j x. now apply named_bit.
  - apply mapq_cost. intros j x. apply named_bit.
Qed.
Lemma byte_gives order i byte : NoDup order -> gives (input_byte order i byte) (map (bit_at byte) order) (repeat true (length order)) (Z.of_nat (length order)) (fun n => exists j, n = byte_name i j).
Proof.
  intros Hd. split; unfold input_byte.
  - struct.
  - eapply uses_sub with (N := fun n => exists j, In j order /\ just (byte_name i j) n); [intros n (j & _ & E); now exists j|].
    apply uses_els; [|intros k j; apply uses_then; eapply uses_in; [apply byte_name_word|apply weak, ab_alloc_u]|exact Hd].
    intros j k Hjk n E1 E2. unfold just in *. apply Hjk. subst n. symmetry. now apply byte_name_inj in E2.
  - intros [j E]. discriminate E.
  - intros rho H1. apply mapq_hon. intros j x. now apply named_bit.
  - intros K K1. apply mapq_known. intros j x. now apply named_bit.
  - apply mapq_cost. intros j x. apply named_bit.
Qed.
Lemma bytes_give order data : NoDup order ->
  gives (input_bytes order data) (stream order data) (repeat true (length data * length order)) (Z.of_nat (length data * length order)) byte_names.
Proof.
  intros Hd. split; unfold input_bytes.
  - apply noeq_bindq; [|intros; struct]. apply noeq_mapq. intros j x. now apply byte_gives.
  - apply uses_then. eapply uses_ok, uses_sub; [|apply uses_mapq with (N := fun i n => exists j, n = byte_name i j)].
    + intros n (i & _ & j & E). exists i, j. exact E.
    + intros i x. now apply byte_gives.
    + intros i k Hik n [j E1] [j' E2]. apply Hik. subst n. now apply byte_name_inj in E2.
  - intros (i & j & E). discriminate E.
  - intros rho H1. eapply wpC_bindq' with (Q1 := fun l => Forall2 (bit_hon rho) (concat l) (stream order data)).
    + generalize 0%nat. induction data as [|x data IH]; intros i; cbn [mapq]; [cbn; constructor|]. eapply wpC_bindq'; [apply (byte_gives order i x Hd); exact H1|]. intros y Hy.
      eapply wpC_bindq'; [apply IH|]. intros r Hr. cbn. apply Forall2_app; assumption.
    + intros l Hl. exact Hl.
  - intros K K1. eapply wpK_q with (Q1 := Forall (Forall (kb K))).
    + apply mapq_known. intros j x. apply (byte_gives order j x Hd). exact K1.
    + intros l Hl. cbn. clear -Hl. induction Hl; cbn [concat]; [constructor|]. now apply Forall_app.
  - eapply costs_ret_bindq with (Q1 := fun l => map isvar (concat l) = repeat true (length data * length order)); [|auto].
    generalize 0%nat. induction data as [|x data IH]; intros i; cbn [mapq]; [apply (costf_ret (P := P)); reflexivity|].
    eapply costf_eq; [|eapply costf_bindq; [apply (byte_gives order i x Hd)|]].
    2: { intros y Hy. eapply costf_last; [apply IH|]. intros r Hr. cbv beta in *. cbn [concat length]. rewrite map_app, Hr, Hy, <- repeat_app. reflexivity. }
    unfold plus. cbn [fst snd app length]. f_equal. lia.
Qed.
Lemma none_give (bs : list bool) : gives (Ret (Ok (map BConst bs))) bs (repeat false (length bs)) 0 none.
Proof.
  split.
  - exact I.
  - apply uses_res.
  - intros [].
  - intros rho H1. cbn. induction bs as [|b bs IH]; constructor; [split; reflexivity|exact IH].
  - intros K K1. cbn. induction bs; constructor; auto. exact I.
  - apply (costf_ret (P := P)). induction bs as [|b bs IH]; [reflexivity|]. cbn [map length repeat]. now rewrite <- IH.
Qed.
Lemma const_hon rho cs : Forall2 (@bit_hon P rho) (map BConst cs) cs.
Proof. induction cs; constructor; auto. split; reflexivity. Qed.
Lemma const_kb (K : Var -> Prop) cs : Forall (kb K) (map BConst cs).
Proof. induction cs; constructor; auto. exact I. Qed.
Lemma const_vars cs : map isvar (map BConst cs) = repeat false (length cs).
Proof. induction cs as [|b cs IH]; [reflexivity|]. cbn [map length repeat]. now rewrite <- IH. Qed.

(** ** A run *)
Lemma hash_run {A} al bs fs k N (g : list Boolean -> prog P (res A)) N' x (Q : (Var -> P) -> A -> Prop) (R : A -> Prop) : gives al bs fs k N ->
  (forall l, noeq (g l)) -> (forall l, W (g l) N') -> ~ N' "ONE" -> apart N N' ->
  (forall rho, rho one_var = 1 -> forall l, Forall2 (bit_hon rho) l bs -> wpC rho (g l) (isOk (Q rho))) ->
  (forall (K : Var -> Prop) l, K one_var -> Forall (kb K) l -> wpK K (g l) (okP (fun _ => True))) ->
  (forall l, map isvar l = fs -> costs (g l) (pbill x) R) ->
  exists r s, circuit (let* l := al in g l) = Done (r, s) /\ is_satisfied s = Done true /\ Z.of_nat (num_constraints s) = (k + CostSpec.p_cons x)%Z /\ (exists rho, Q rho r) /\ R r.
Proof.
  intros [H1 H2 H3 H4 H5 H6] Gn Gu G1 Ha Gc Gk Gx.
  destruct (test_run (let* l := al in g l) (join N N') Q) as (r & s & cs & Ec & Hs & Hq & Hsat & _).
  - apply noeq_bindq; auto.
  - eapply uses_q; [exact H2|exact Gu|exact Ha|intros n Hn; exact Hn].
  - intros [E|E]; auto.
  - intros rho R1. eapply wpC_bindq'; [apply H4, R1|]. intros l Hl. now apply Gc.
  - intros K K1. eapply wpK_q; [apply H5, K1|]. intros l Hl. now apply Gk.
  - assert (HC : costs (let* l := al in g l) (bill_add (fbill (k, [])) (pbill x)) R) by (eapply costs_bindq; [exact H6|exact Gx]).
    exists r, s. split; [exact Ec|]. split; [exact (ok_satisfied _ Hs Hsat)|].
    unfold circuit in Ec. destruct (run TestCS (let* l := al in g l) test_new) as [[[a|] s']|] eqn:E; [|discriminate|discriminate]. cbn in Ec. injection Ec as -> ->.
    destruct (test_counts _ _ _ HC _ _ _ E) as (_ & _ & E3). split; [|split; [exists (asg (pstate s)); exact Hq|]].
    + cbv beta in E3. rewrite E3. reflexivity.
    + destruct (C02_records P _ _ test_new (Ok r) s E) as (_ & _ & _ & cs' & Hem & _). 
      pose proof (emits_spends _ _ _ _ Hem) as (y & Sy & _). exact (proj2 (HC _ _ Sy)).
Qed.

Lemma values rho r bs : Forall2 (@bit_hon P rho) r bs -> Forall2 (fun x b => b_value x = Some b) r bs.
Proof. apply Forall2_impl. intros x b [_ H]. exact H. Qed.
Lemma all_vars (r : list Boolean) n : map isvar r = repeat true n -> Forall (fun x => isvar x = true) r.
Proof. revert n. induction r as [|x r IH]; intros [|n] E; [constructor..|discriminate|]. cbn in E. injection E as Ex Er. constructor; [exact Ex|now apply (IH n)]. Qed.
Lemma any_true n : 0 < n -> any (repeat true n) = true.
Proof. destruct n; [lia|reflexivity]. Qed.
Lemma any_false n : any (repeat false n) = false.
Proof. induction n; auto. Qed.
Lemma satisfied_all (s : T) : is_satisfied s = Done true -> assert_satisfied s = Done tt.
Proof. apply satisfied_ok. Qed.

(** A round of the tests with vectors. *)
Lemma round_spec (g : list Boolean -> prog P (res (list Boolean))) order data out N' x : NoDup order -> length order = 8 ->
  (forall l, noeq (g l)) -> (forall l, W (g l) N') -> ~ N' "ONE" -> apart byte_names N' ->
  (forall rho, rho one_var = 1 -> forall l, Forall2 (bit_hon rho) l (stream order data) -> wpC rho (g l) (isOk (fun r => Forall2 (bit_hon rho) r out))) ->
  (forall (K : Var -> Prop) l, K one_var -> Forall (kb K) l -> wpK K (g l) (okP (fun _ => True))) ->
  (forall l, map isvar l = repeat true (length data * 8) -> costs (g l) (pbill x) (fun r => 0 < length data -> exists n, map isvar r = repeat true n)) ->
  forall digest, vectors_round g order data digest = passes (eq_bits (firstn (length out) (stream order digest)) out).
Proof.
  intros Hd Ho Gn Gu G1 Ha Gc Gk Gx digest. pose proof (bytes_give order data Hd) as HG. rewrite Ho in HG.
  destruct (hash_run _ _ _ _ _ g N' x _ _ HG Gn Gu G1 Ha Gc Gk Gx) as (r & s & Ec & Es & _ & [rho Hr] & Hv).
  unfold vectors_round. rewrite Ec. cbn [obind]. rewrite satisfied_all by exact Es. cbn [obind]. apply values in Hr.
  rewrite (compare_spec _ r out Hr).
  - now rewrite (Forall2_length _ _ _ Hr).
  - destruct data as [|z data]; [now left|]. right. destruct Hv as [n Hn]; [cbn; lia|]. exact (all_vars _ _ Hn).
Qed.
Lemma msb_ok : NoDup msb_first /\ length msb_first = 8.
Proof. split; [|reflexivity]. unfold msb_first. apply NoDup_rev, seq_NoDup. Qed.
Lemma lsb_ok : NoDup lsb_first /\ length lsb_first = 8.
Proof. split; [apply seq_NoDup|reflexivity]. Qed.

(** ** sha256.rs *)
Lemma sha_spec_length m : length (sha256_spec m) = 256.
Proof. reflexivity. Qed.
Lemma sha_apart : apart byte_names (fam "block ").
Proof. intros n (i & j & E) (k & E2). subst n. discriminate E2. Qed.
Lemma sha_round data digest : 64 <= num_bits P ->
  vectors_round (@sha256 P) msb_first data digest = passes (eq_bits (firstn 256 (stream msb_first digest)) (sha256_spec (stream msb_first data))).
Proof.
  intros H64. destruct msb_ok as [Hd Ho].
  apply (round_spec (@sha256 P) msb_first data (sha256_spec (stream msb_first data)) (fam "block ") (sha256_price (capacity P) (repeat true (length data * 8))) Hd Ho).
  - intros l. apply (g_noeq (Gadget := sha256_gadget l)).
  - apply sha256_u.
  - intros [i E]. discriminate E.
  - exact sha_apart.
  - intros rho R1 l Hl. apply (sha256_hwp (CompleteHL rho R1 H64) l); [|exact Hl].
    rewrite (Forall2_length _ _ _ Hl), stream_length, Ho. apply Nat.mod_mul. lia.
  - intros K l K1 Hl. eapply wpK_any. apply scop_wpK, sha256_scop; assumption.
  - intros l El. rewrite <- El. eapply costs_mono; [|apply sha256_costs]. intros r Hr Hp. rewrite El, any_true in Hr by lia. now exists 256.
Qed.
Lemma compression_scop (K : Var -> Prop) input : K one_var -> Forall (kb K) input -> scop K (@sha256_compression P input get_sha256_iv) (fun _ => True).
Proof.
  intros K1 H. destruct (Nat.eq_dec (length input) 512) as [E|E].
  - eapply scop_mono; [|exact (Sha256Proof.compression_hwp (ScopeHL K K1) input _ get_sha256_iv (h_of H0_256) E (any_bits K K1 _ H) (iv_hw _))]. auto.
  - unfold sha256_compression. rewrite (proj2 (Nat.eqb_neq _ _) E). exact I.
Qed.
Definition block_words (bs : list bool) : list Z := h_list (compress (h_of H0_256) (words_of_block bs)).
Lemma block_hon (H64 : 64 <= num_bits P) rho l bs : rho one_var = 1 -> Forall2 (bit_hon rho) l bs -> length bs = 512 ->
  wpC rho (@sha256_compression P l get_sha256_iv) (isOk (fun r => Forall2 (whon rho) r (block_words bs))).
Proof.
  intros R1 Hl E. exact (Sha256Proof.compression_hwp (CompleteHL rho R1 H64) l bs get_sha256_iv (h_of H0_256) (eq_trans (Forall2_length _ _ _ Hl) E) Hl (iv_hw _)).
Qed.
Lemma full_block bits : 64 <= num_bits P -> length bits = 512 ->
  @sha256_test_full_block P bits = passes (Z.eqb (CostSpec.p_cons (sha256_block_price (capacity P) (repeat true 512))) 25840).
Proof.
  intros H64 Hl. pose proof (vars_give bits) as HG. rewrite Hl in HG.
  destruct (hash_run _ _ _ _ _ (fun l => ns "sha256" (sha256_compression l get_sha256_iv)) (just "sha256") (sha256_block_price (capacity P) (repeat true 512))
     (fun rho r => Forall2 (whon rho) r (block_words bits)) (fun _ => True) HG) as (r & s & Ec & Es & En & _).
  - intros l. apply noeq_ns, (g_noeq (Gadget := compression_gadget _ _)).
  - intros l. eapply uses_in; [wd|apply sha256_compression_u].
  - discriminate.
  - intros n [i E] E2. unfold just in E2. subst n. discriminate E2.
  - intros rho R1 l Hb. apply wpC_ns. now apply block_hon.
  - intros K l K1 Hk. apply wpK_ns. eapply wpK_any. apply scop_wpK, compression_scop; assumption.
  - intros l El. apply costs_ns. rewrite <- El. unfold sha256_block_price. eapply costs_mono; [|exact (compression_costs false l get_sha256_iv iv_fl)]. auto.
  - unfold sha256_test_full_block. rewrite Ec. cbn [obind]. rewrite satisfied_all by exact Es. cbn [obind]. unfold assert_constraints. rewrite En.
    set (c := CostSpec.p_cons _). destruct (Z.eqb_spec c 25840) as [->|H]; [reflexivity|]. destruct (Z.eqb_spec (Z.of_nat 512 + c) (512 + 25840)); [lia|reflexivity].
Qed.
Lemma ret_first {A B} (l : A) (g : A -> prog P (res B)) : (let* x := Ret (Ok l) in g x) = g l.
Proof. reflexivity. Qed.
Definition blank_block : list bool := true :: repeat false 511.
Lemma sha_blank expected : 64 <= num_bits P -> length expected = 32 ->
  @sha256_test_blank_hash P expected = passes (eq_bits (sha256_block_spec blank_block) (stream msb_first expected)).
Proof.
  intros H64 Hl. pose proof (none_give blank_block) as HG.
  destruct (hash_run _ _ _ _ _ (fun l => @sha256_compression P l get_sha256_iv) (join n_compression mq) price0
     (fun rho r => Forall2 (whon rho) r (block_words blank_block)) (fun _ => True) HG) as (r & s & Ec & Es & En & [rho Hr] & _).
  - intros l. apply (g_noeq (Gadget := compression_gadget _ _)).
  - intros l. apply sha256_compression_u.
  - intros H. unfold n_compression, mq, n_finish in H. ns_.
  - intros n [].
  - intros rho R1 l Hb. now apply block_hon.
  - intros K l K1 Hk. eapply wpK_any. apply scop_wpK, compression_scop; assumption.
  - intros l El. eapply costs_mono; [|eapply costs_eq; [|apply (compression_costs false), iv_fl]]; [auto|]. rewrite El.
    assert (E0 : sha_block_fee false (sha_words (repeat false (length blank_block))) = free) by (vm_compute; reflexivity). rewrite E0. reflexivity.
  - unfold sha256_test_blank_hash. rewrite ret_first in Ec.
    assert (Em : map BConst blank_block = BConst true :: repeat (BConst false) 511) by reflexivity. rewrite Em in Ec. rewrite Ec. cbn [obind].
    rewrite satisfied_all by exact Es. cbn [obind]. unfold assert_constraints. rewrite En. cbn [price0 CostSpec.p_cons Z.add Z.eqb assert obind].
    assert (HF : Forall2 (bit_hon rho) (concat (map into_bits_be r)) (sha256_block_spec blank_block)).
    { unfold sha256_block_spec. fold (block_words blank_block). apply concat_Forall2, Forall2_map_both. eapply Forall2_impl; [|exact Hr]. intros w z (_ & HF & _).
      unfold into_bits_be. rewrite bits_of_word_rev. apply Forall2_rev, HF. }
    apply values in HF. apply shows_spec; [exact HF|]. rewrite (Forall2_length _ _ _ HF), stream_length, Hl. reflexivity.
Qed.

(** ** blake2s.rs *)
Lemma person_ok : length PERSON = 8 /\ Forall byte PERSON.
Proof. split; [reflexivity|]. unfold PERSON, byte. repeat constructor; lia. Qed.
Lemma blake_apart : apart byte_names (join (fam "block ") (just "final block")).
Proof. intros n (i & j & ->) [(k & E2)|E2]; [|unfold just in E2]; discriminate E2. Qed.
Definition full (fs : list bool) : bool := forallb (fun b => b) fs.
Lemma full_repeat fs : full fs = true -> fs = repeat true (length fs).
Proof. induction fs as [|[] fs IH]; cbn; [reflexivity| |discriminate]. intros H. now rewrite <- IH. Qed.
(** The words of blocks of variables *)
Lemma words_of_vars : forallb (fun k => existsb (fun j => eq_bits (blake_words (repeat true k)) (repeat true j ++ repeat false (16 - j))) (seq 1 16)) (seq 1 512) = true.
Proof. vm_compute. reflexivity. Qed.
Definition flags_F (h m : list bool) : list bool := let v := fst (blake_rounds h m) in map (fun i => flag h i || flag v i || flag v (i + 8)) (seq 0 8).
Lemma flags_F_spec cap h m : fst (blake_F cap h m) = flags_F h m.
Proof. unfold blake_F, flags_F. destruct (blake_rounds h m) as [v x]. reflexivity. Qed.
Lemma spread : forallb (fun j => let m := (repeat true j ++ repeat false (16 - j))%list in
  eq_bits (flags_F (repeat false 8) m) (repeat true 8) && eq_bits (flags_F (repeat true 8) m) (repeat true 8)) (seq 1 16) = true.
Proof. vm_compute. reflexivity. Qed.
Lemma spread_vars k h : 1 <= k <= 512 -> h = repeat false 8 \/ h = repeat true 8 -> flags_F h (blake_words (repeat true k)) = repeat true 8.
Proof.
  intros Hk Hh. pose proof words_of_vars as H. rewrite forallb_forall in H. specialize (H k ltac:(apply in_seq; lia)).
  apply existsb_exists in H as (j & Hj & E). apply eq_bits_true in E. rewrite E. pose proof spread as S. rewrite forallb_forall in S. specialize (S j Hj). cbv zeta in S.
  apply andb_true_iff in S as [S1 S2]. apply eq_bits_true in S1, S2. destruct Hh as [->| ->]; assumption.
Qed.
Lemma vars_chunk n c : In c (chunks 512 (repeat true n)) -> exists k, 1 <= k <= 512 /\ c = repeat true k.
Proof.
  remember (repeat true n) as l eqn:El. revert n El. induction l as [|l Hl IH] using (chunks_ind 512 ltac:(lia)); intros n El H; [destruct H|].
  rewrite chunks_cons in H by (auto; lia). destruct H as [<-|H].
  - assert (0 < n) by (destruct n; [subst; contradiction|lia]). exists (Nat.min 512 n). split; [lia|]. subst l. apply firstn_repeat_min.
  - apply (IH (n - 512)%nat); [|exact H]. subst l. apply skipn_repeat_sub.
Qed.
Lemma chain_vars cap l : Forall (fun c => exists k, 1 <= k <= 512 /\ c = repeat true k) l -> forall h x, h = repeat false 8 \/ h = repeat true 8 -> l <> [] ->
  fst (fold_left (blake_chain cap) (map blake_words l) (h, x)) = repeat true 8.
Proof.
  induction 1 as [|c l (k & Hk & ->) Hl IH]; intros h x Hh Hn; [contradiction|]. cbn [map fold_left]. unfold blake_chain at 2. cbn [fst snd].
  pose proof (flags_F_spec cap h (blake_words (repeat true k))) as E. rewrite (spread_vars k h Hk Hh) in E. destruct (blake_F cap h _) as [h' y]. cbn [fst] in E. subst h'.
  destruct l as [|c l]; [reflexivity|]. apply IH; [now right|discriminate].
Qed.
Lemma blake_flags_vars cap n : 0 < n -> concat (map (fun f => repeat f 32) (blake2s_flags cap (repeat true n))) = repeat true 256.
Proof.
  intros Hn. assert (E : blake2s_flags cap (repeat true n) = repeat true 8); [|rewrite E; reflexivity].
  unfold blake2s_flags. pose proof (chunks_cons 512 (repeat true n) ltac:(lia) ltac:(destruct n; [lia|discriminate])) as Ec. pose proof (vars_chunk n) as Hc.
  cbv zeta. destruct (chunks 512 (repeat true n)) as [|c l]; [discriminate|]. apply chain_vars; [|now left|discriminate]. apply Forall_forall. exact Hc.
Qed.
Notation blake := (fun input => @blake2s P input PERSON).
Lemma blake_spec_bits data : length (bits_of_bytes (blake2s_spec PERSON data)) = 256.
Proof. rewrite bits_of_bytes_length. reflexivity. Qed.
Lemma blake_hon (H64 : 64 <= num_bits P) rho l data : rho one_var = 1 -> Forall byte data -> Forall2 (bit_hon rho) l (bits_of_bytes data) ->
  wpC rho (blake l) (isOk (fun r => Forall2 (bit_hon rho) r (bits_of_bytes (blake2s_spec PERSON data)))).
Proof. intros R1 Hd Hl. destruct person_ok as [Hp Hpb]. exact (blake2s_hwp (CompleteHL rho R1 H64) l data PERSON Hp Hpb Hd Hl). Qed.
Lemma blake_round data digest : 64 <= num_bits P -> Forall byte data ->
  vectors_round blake lsb_first data digest = passes (eq_bits (firstn 256 (stream lsb_first digest)) (stream lsb_first (blake2s_spec PERSON data))).
Proof.
  intros H64 HB. destruct lsb_ok as [Hd Ho]. rewrite (stream_bytes (blake2s_spec PERSON data)). rewrite <- (blake_spec_bits data).
  apply (round_spec blake lsb_first data (bits_of_bytes (blake2s_spec PERSON data)) (join (fam "block ") (just "final block")) (blake2s_price (capacity P) (repeat true (length data * 8))) Hd Ho).
  - intros l. apply (g_noeq (Gadget := blake2s_gadget l PERSON)).
  - intros l. apply blake2s_u.
  - intros [[i E]|E]; [|unfold just in E]; discriminate E.
  - exact blake_apart.
  - intros rho R1 l Hl. rewrite stream_bytes in Hl. now apply blake_hon.
  - intros K l K1 Hl. eapply wpK_any. apply scop_wpK, blake2s_scop; [exact K1|apply person_ok|exact Hl].
  - intros l El. rewrite <- El. eapply costs_mono; [|apply blake2s_costs_flags]. intros r Hr Hp. rewrite El, blake_flags_vars in Hr by lia. now exists 256.
Qed.
(** The runs of the other tests: [data] are the bytes the input bits are of, [pre] those of them that are constants in front. *)
Lemma blake_run pre al bs data fs k N : 64 <= num_bits P -> Forall byte data -> gives al bs fs k N -> bits_of_bytes data = (pre ++ bs)%list -> apart N (join (fam "block ") (just "final block")) ->
  exists r s, circuit (let* l := al in blake2s (map BConst pre ++ l)%list PERSON) = Done (r, s) /\ is_satisfied s = Done true /\
    Z.of_nat (num_constraints s) = (k + CostSpec.p_cons (blake2s_price (capacity P) (repeat false (length pre) ++ fs)%list))%Z /\
    Forall2 (fun x b => b_value x = Some b) r (bits_of_bytes (blake2s_spec PERSON data)).
Proof.
  intros H64 HB HG Eb Ha.
  destruct (hash_run al _ fs k N (fun l => blake (map BConst pre ++ l)%list) (join (fam "block ") (just "final block")) (blake2s_price (capacity P) (repeat false (length pre) ++ fs)%list)
     (fun rho r => Forall2 (bit_hon rho) r (bits_of_bytes (blake2s_spec PERSON data))) (fun _ => True) HG) as (r & s & Ec & Es & En & [rho Hr] & _).
  - intros l. apply (g_noeq (Gadget := blake2s_gadget _ PERSON)).
  - intros l. apply blake2s_u.
  - intros [[i E]|E]; [|unfold just in E]; discriminate E.
  - exact Ha.
  - intros rho R1 l Hl. apply blake_hon; [exact H64|exact R1|exact HB|]. rewrite Eb. apply Forall2_app; [apply const_hon|exact Hl].
  - intros K l K1 Hl. eapply wpK_any. apply scop_wpK, blake2s_scop; [exact K1|apply person_ok|]. apply Forall_app. split; [apply const_kb|exact Hl].
  - intros l El. rewrite <- El, <- const_vars, <- map_app. apply blake2s_costs.
  - exists r, s. apply values in Hr. auto.
Qed.
Lemma blake_given size data expected : 64 <= num_bits P -> Forall byte data -> length expected = 32 ->
  @blake2s_test_given P size data expected = passes (Nat.eqb (length data) size && eq_bits (stream lsb_first (blake2s_spec PERSON data)) (stream lsb_first expected)).
Proof.
  intros H64 HB He. destruct lsb_ok as [Hd Ho]. pose proof (bytes_give lsb_first data Hd) as HG. rewrite stream_bytes, Ho in HG.
  destruct (blake_run [] _ _ _ _ _ _ H64 HB HG eq_refl blake_apart) as (r & s & Ec & Es & _ & Hr).
  unfold blake2s_test_given. cbn [map app] in Ec. rewrite Ec. cbn [obind]. rewrite satisfied_all by exact Es. cbn [obind]. rewrite (shows_spec _ _ Hr).
  - rewrite <- stream_bytes. apply passes_bind.
  - rewrite (Forall2_length _ _ _ Hr), blake_spec_bits, stream_length, He, Ho. reflexivity.
Qed.
Lemma blake_blank expected : 64 <= num_bits P -> length expected = 32 ->
  @blake2s_test_blank_hash P expected = passes (eq_bits (stream lsb_first (blake2s_spec PERSON [])) (stream lsb_first expected)).
Proof.
  intros H64 He. pose proof (none_give []) as HG. destruct (blake_run [] _ _ [] _ _ _ H64 ltac:(constructor) HG eq_refl) as (r & s & Ec & Es & En & Hr); [intros n []|].
  unfold blake2s_test_blank_hash. rewrite ret_first in Ec. cbn [map app] in Ec. rewrite Ec. cbn [obind].
  rewrite satisfied_all by exact Es. cbn [obind]. unfold assert_constraints. rewrite En.
  assert (E0 : blake2s_price (capacity P) (repeat false (length (@nil bool)) ++ repeat false (length (@nil bool)))%list = price0) by reflexivity. rewrite E0. cbn [price0 CostSpec.p_cons Z.add Z.eqb assert obind].
  rewrite (shows_spec _ _ Hr), (stream_bytes (blake2s_spec PERSON [])); [reflexivity|]. rewrite (Forall2_length _ _ _ Hr), blake_spec_bits, stream_length, He. reflexivity.
Qed.
(** Any bits, a multiple of eight, are the bits of bytes. *)
Lemma some_bytes (n : nat) (bs : list bool) : length bs = (n * 8)%nat -> exists data, Forall byte data /\ bits_of_bytes data = bs.
Proof.
  revert bs. induction n as [|n IH]; intros bs Hl; [destruct bs; [|discriminate]; exists []; split; [constructor|reflexivity]|].
  do 8 (destruct bs as [|? bs]; [discriminate|]). destruct (IH bs) as (data & Hd & E); [cbn in Hl; lia|].
  exists (byte_of_bits [b; b0; b1; b2; b3; b4; b5; b6] :: data). split.
  - constructor; [|exact Hd]. unfold byte. destruct b, b0, b1, b2, b3, b4, b5, b6; vm_compute; split; congruence.
  - unfold bits_of_bytes. cbn [map concat]. fold (bits_of_bytes data). rewrite E. destruct b, b0, b1, b2, b3, b4, b5, b6; reflexivity.
Qed.
Lemma vars_apart : apart (fam "input bit ") (join (fam "block ") (just "final block")).
Proof. intros n [i ->] [(k & E2)|E2]; [|unfold just in E2]; discriminate E2. Qed.
Lemma blake_constraints : 64 <= num_bits P ->
  @blake2s_test_constraints P = passes (Z.eqb (512 + CostSpec.p_cons (blake2s_price (capacity P) (repeat true 512))) 21518).
Proof.
  intros H64. destruct (some_bytes 64 (repeat true 512) (repeat_length _ _)) as (data & Hd & E). pose proof (vars_give (repeat true 512)) as HG.
  rewrite repeat_length in HG. destruct (blake_run [] _ _ data _ _ _ H64 Hd HG E vars_apart) as (r & s & Ec & Es & En & _).
  unfold blake2s_test_constraints. cbn [map app] in Ec. rewrite Ec. cbn [obind]. rewrite satisfied_all by exact Es. cbn [obind]. unfold assert_constraints. rewrite En, assert_passes. cbn [length]. change (Z.of_nat 512) with 512%Z. change (repeat false 0) with (@nil bool). rewrite app_nil_l. reflexivity.
Qed.
Lemma blake_precomp bits : 64 <= num_bits P -> length bits = 512 ->
  @blake2s_test_precomp_constraints P bits = passes (Z.eqb (512 + CostSpec.p_cons (blake2s_price (capacity P) (repeat false 512 ++ repeat true 512))) 21518).
Proof.
  intros H64 Hl. destruct (some_bytes 128 (bits ++ repeat true 512)) as (data & Hd & E); [now rewrite app_length, repeat_length, Hl|].
  pose proof (vars_give (repeat true 512)) as HG. rewrite repeat_length in HG.
  destruct (blake_run bits _ _ data _ _ _ H64 Hd HG E vars_apart) as (r & s & Ec & Es & En & _). rewrite Hl in En.
  unfold blake2s_test_precomp_constraints. rewrite Ec. cbn [obind]. rewrite satisfied_all by exact Es. cbn [obind]. unfold assert_constraints. rewrite En, assert_passes. change (Z.of_nat 512) with 512%Z. reflexivity.
Qed.
Lemma blake_constant bits : 64 <= num_bits P -> length bits = 512 -> @blake2s_test_constant_constraints P bits = Done tt.
Proof.
  intros H64 Hl. destruct (some_bytes 64 bits Hl) as (data & Hd & E). pose proof (none_give bits) as HG.
  destruct (blake_run [] _ _ data _ _ _ H64 Hd HG E) as (r & s & Ec & Es & En & _); [intros n []|].
  unfold blake2s_test_constant_constraints. rewrite ret_first in Ec. cbn [map app] in Ec. rewrite Ec. cbn [obind]. unfold assert_constraints. rewrite En, Hl. cbn [length]. change (repeat false 0) with (@nil bool). rewrite app_nil_l.
  assert (E0 : CostSpec.p_cons (blake2s_price (capacity P) (repeat false 512)) = 0%Z) by (vm_compute; reflexivity). rewrite E0. reflexivity.
Qed.

(** *** A gadget that binds its output to nothing *)
Definition loose_bits (bits : list bool) : prog P (res (list Boolean)) :=
  mapq (fun i b => let* a := ns ("bit " ++ nat_str i) (ab_alloc (Some b)) in Ret (Ok (BIs a))) 0 bits.
Lemma loose_give bits : gives (loose_bits bits) bits (repeat true (length bits)) (Z.of_nat (length bits)) (fam "bit ").
Proof.
  split; unfold loose_bits.
  - struct.
  - apply weak, uses_map. intros j x. apply uses_then. eapply uses_in; [pl|apply ab_alloc_u].
  - intros [i E]. discriminate E.
  - intros rho H1. pose proof (mapq_hon (fun i b => let* a := ns ("bit " ++ nat_str i) (@ab_alloc P (Some b)) in Ret (Ok (BIs a))) (fun b => b) rho bits) as X.
    rewrite map_id in X. apply X. intros j x. now apply named_bit.
  - intros K K1. apply mapq_known. intros j x. now apply named_bit.
  - apply mapq_cost. intros j x. apply named_bit.
Qed.
Definition seen (x : Boolean) : bool := match b_value x with Some v => v | None => false end.
Lemma loose_round data digest :
  vectors_round (fun input => loose_bits (sha256_spec (map seen input))) msb_first data digest = passes (eq_bits (firstn 256 (stream msb_first digest)) (sha256_spec (stream msb_first data))).
Proof.
  destruct msb_ok as [Hd Ho].
  apply (round_spec (fun input => loose_bits (sha256_spec (map seen input))) msb_first data (sha256_spec (stream msb_first data)) (fam "bit ") (CostSpec.mkPrice 256 256) Hd Ho).
  - intros l. apply loose_give.
  - intros l. apply loose_give.
  - intros [i E]. discriminate E.
  - intros n (i & j & E) (k & E2). subst n. discriminate E2.
  - intros rho R1 l Hl. apply values in Hl. assert (E : map seen l = stream msb_first data).
    { clear -Hl. induction Hl as [|x b l m E _ IH]; [reflexivity|]. cbn [map]. rewrite IH. unfold seen. now rewrite E. }
    rewrite E. now apply loose_give.
  - intros K l K1 _. eapply wpK_any. now apply loose_give.
  - intros l _. pose proof (g_cost _ _ _ _ _ (loose_give (sha256_spec (map seen l)))) as X. rewrite sha_spec_length in X.
    eapply costs_mono; [|exact X]. intros r Hr _. now exists 256.
Qed.
Lemma loose_run (rho : Var -> P) c : rho one_var = 1 -> (forall i, rho (Aux i) = fb c) -> forall bits i s, sat rho (p_cons s) ->
  exists r s', run (HonestCS P) (mapq (fun i b => let* a := ns ("bit " ++ nat_str i) (ab_alloc (Some b)) in Ret (Ok (BIs a))) i bits) s = Done (Ok r, s') /\
    sat rho (p_cons s') /\ length r = length bits /\ Forall (fun x => Spec.den rho x c) r.
Proof.
  intros H1 Ha. induction bits as [|b bits IH]; intros i s Hs.
  - exists [], s. repeat split; auto.
  - set (s1 := {| p_inputs := p_inputs s; p_aux := p_aux s ++ [fbit b]; p_cons := p_cons s ++ [(lc_zero +v one_var -v Aux (length (p_aux s)), lc_zero +v Aux (length (p_aux s)), lc_zero)%lc] |}).
    assert (Hs1 : sat rho (p_cons s1)).
    { apply Forall_app. split; [exact Hs|]. constructor; [|constructor]. unfold holds. cbn -[fadd fsub fmul fzero fone]. rewrite eval_sub_var, !eval_add_var, !eval_zero, H1, Ha. destruct c; cbn; ring. }
    destruct (IH (S i) s1 Hs1) as (r & s' & E & Hs' & Hl & Hr). exists (BIs {| ab_var := Aux (length (p_aux s)); ab_value := Some b |} :: r), s'.
    split; [|split; [exact Hs'|split; [cbn; now rewrite Hl|constructor; [apply Ha|exact Hr]]]].
    cbn [mapq]. rewrite Mimc.run_bindq. match goal with |- obind ?x _ = _ => change x with (@Done (res Boolean * PState P) (Ok (BIs {| ab_var := Aux (length (p_aux s)); ab_value := Some b |}), s1)) end.
    cbn [obind fst snd]. rewrite Mimc.run_bindq, E. reflexivity.
Qed.
End Hash.
