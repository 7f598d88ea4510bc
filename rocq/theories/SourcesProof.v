(** Facts about user-written sources (Sources.v). *)
From Coq Require Import ZArith List Bool Lia.
From Verif Require Import Prelude PrimeField FModule Circuit Multicore Domain Quotient Multiexp MultiexpProof Assembly Groth16 Sources SourcesSpec.
Import ListNotations.
Local Open Scope nat_scope.

Section Proof.
Context {P : PrimeField} {M : FMod P}.

(** ** Elements enough *)
Lemma loop_supplied (src : Source M) bases n j items ds : dense_digits j items ds -> Forall (fun d => (0 <= d <= Z.of_nat n)%Z) ds ->
  forall pos st acc buckets, length buckets = n -> supplies src (skipn pos bases) st -> pos + length ds <= length bases ->
  exists acc' b', bucket_loop_of src j items st acc buckets = Done (Ok (acc', b')) /\ acc' +g wsum b' = (acc +g wsum buckets) +g dsum bases pos ds.
Proof.
  induction 1 as [|e t ds H IH|e t d ds Hd H IH]; intros F pos st acc buckets Lb Hs Hl; cbn [dsum bucket_loop_of].
  - do 2 eexists. split; [reflexivity|]. now rewrite gadd_0_r.
  - apply IH; auto.
  - inversion F as [|? ? Fd Ft]; subst. specialize (IH Ft). cbn [length] in Hl.
    destruct (nth_error bases pos) as [b|] eqn:Eb; [|apply nth_error_None in Eb; lia].
    assert (Es : skipn pos bases = b :: skipn (pos + 1) bases).
    { clear - Eb. revert pos Eb. induction bases as [|x l IHl]; intros [|pos] Eb; cbn in *; try discriminate; [congruence|]. now apply IHl. }
    rewrite Es in Hs. cbn [supplies] in Hs. destruct Hs as [(sn & En & Hn) (sk & Ek & Hk)]. rewrite (nth_error_nth _ _ gzero Eb).
    assert (Skip : d = 0%Z -> exists acc' b', obindr (s_skip src st 1) (fun st => bucket_loop_of src j t st acc buckets) = Done (Ok (acc', b')) /\
         acc' +g wsum b' = (acc +g wsum buckets) +g (zmul d b +g dsum bases (pos + 1) ds)).
    { intros ->. rewrite Ek. cbn [obindr obind]. destruct (IH (pos + 1) sk acc buckets eq_refl Hk ltac:(lia)) as (a' & b' & E & Sm). exists a', b'. split; auto. rewrite Sm.
      f_equal. unfold zmul. now rewrite ofZ_0, gmul_0_l, gadd_0_l. }
    destruct e as [| |cs]; cbn [has_digit] in Hd.
    + apply Skip, Hd.
    + destruct (Nat.eqb_spec j 0); [|apply Skip, Hd]. subst d. rewrite En. cbn [obindr obind fst snd].
      destruct (IH (pos + 1) sn (acc +g b) buckets eq_refl Hn ltac:(lia)) as (a' & b' & E & Sm). exists a', b'. split; auto. rewrite Sm.
      unfold zmul. rewrite ofZ_1, gmul_1. rewrite <- !gadd_assoc. f_equal. apply gadd_swap.
    + rewrite Hd. destruct (Z.eqb_spec d 0) as [E0|E0]; cbn [negb andb]; [exact (Skip E0)|].
      destruct (nth_error buckets (Z.to_nat (d - 1))) as [old|] eqn:Eo; [|apply nth_error_None in Eo; lia].
      rewrite En. cbn [obindr obind fst snd].
      destruct (IH (pos + 1) sn acc (upd (Z.to_nat (d - 1)) (old +g b) buckets) ltac:(now rewrite upd_length) Hn ltac:(lia)) as (a' & b' & E & Sm).
      exists a', b'. split; auto. rewrite Sm. rewrite (wsum_upd _ _ _ _ Eo). replace (Z.of_nat (S (Z.to_nat (d - 1)))) with d by lia. now rewrite !gadd_assoc.
Qed.

(** ** Too few elements *)
Lemma loop_short (src : Source M) err n j items ds : dense_digits j items ds -> Forall (fun d => (0 <= d <= Z.of_nat n)%Z) ds ->
  forall l st acc buckets, length buckets = n -> supplies_only src l err st -> length l < length ds -> bucket_loop_of src j items st acc buckets = Done (Err err).
Proof.
  induction 1 as [|e t ds H IH|e t d ds Hd H IH]; intros F l st acc buckets Lb Hs Hl; cbn [bucket_loop_of].
  - cbn in Hl. lia.
  - eapply IH; eauto.
  - inversion F as [|? ? Fd Ft]; subst. specialize (IH Ft). cbn [length] in Hl.
    assert (Skip : d = 0%Z -> obindr (s_skip src st 1) (fun st => bucket_loop_of src j t st acc buckets) = Done (Err err)).
    { intros ->. destruct l as [|b l]; cbn [supplies_only] in Hs; [destruct Hs as [_ ->]; reflexivity|]. destruct Hs as [_ (sk & -> & Hk)]. cbn [obindr obind].
      cbn [length] in Hl. eapply IH; eauto. lia. }
    destruct e as [| |cs]; cbn [has_digit] in Hd.
    + apply Skip, Hd.
    + destruct (Nat.eqb_spec j 0); [|apply Skip, Hd]. destruct l as [|b l]; cbn [supplies_only] in Hs; [destruct Hs as [-> _]; reflexivity|]. destruct Hs as [(sn & -> & Hn) _].
      cbn [obindr obind fst snd length] in *. eapply IH; eauto. lia.
    + rewrite Hd. destruct (Z.eqb_spec d 0) as [E0|E0]; cbn [negb andb]; [exact (Skip E0)|].
      destruct (nth_error buckets (Z.to_nat (d - 1))) as [old|] eqn:Eo; [|apply nth_error_None in Eo; lia].
      destruct l as [|b l]; cbn [supplies_only] in Hs; [destruct Hs as [-> _]; reflexivity|]. destruct Hs as [(sn & -> & Hn) _].
      cbn [obindr obind fst snd length] in *. eapply IH; [now rewrite upd_length|exact Hn|lia].
Qed.

(** ** Any source *)
Lemma loop_any (src : Source M) st0 n j items ds : dense_digits j items ds -> Forall (fun d => (0 <= d <= Z.of_nat n)%Z) ds ->
  forall st acc buckets, length buckets = n -> reach src st0 st ->
  match bucket_loop_of src j items st acc buckets with
  | Done (Ok _) => True
  | Done (Err e) => complains src st0 e
  | Panicked => ~ never_panics src st0
  end.
Proof.
  induction 1 as [|e t ds H IH|e t d ds Hd H IH]; intros F st acc buckets Lb Hr; cbn [bucket_loop_of].
  - exact I.
  - apply IH; auto.
  - inversion F as [|? ? Fd Ft]; subst. specialize (IH Ft).
    assert (Skip : match obindr (s_skip src st 1) (fun st => bucket_loop_of src j t st acc buckets) with
                   | Done (Ok _) => True | Done (Err e) => complains src st0 e | Panicked => ~ never_panics src st0 end).
    { destruct (s_skip src st 1) as [[sk|er]|] eqn:Ek; cbn [obindr obind].
      - apply IH; [reflexivity|]. eapply reach_skip; eauto.
      - exists st. auto.
      - intros X. apply (proj2 (X st Hr)). exact Ek. }
    assert (Next : forall (acc' : M -> M) (bk : M -> list M), (forall b, length (bk b) = length buckets) ->
                   match obindr (s_next src st) (fun bs => bucket_loop_of src j t (snd bs) (acc' (fst bs)) (bk (fst bs))) with
                   | Done (Ok _) => True | Done (Err e) => complains src st0 e | Panicked => ~ never_panics src st0 end).
    { intros acc' bk Hbk. destruct (s_next src st) as [[[b sn]|er]|] eqn:En; cbn [obindr obind fst snd].
      - apply IH; [apply Hbk|]. eapply reach_next; eauto.
      - exists st. auto.
      - intros X. apply (proj1 (X st Hr)). exact En. }
    destruct e as [| |cs]; cbn [has_digit] in Hd; [exact Skip| |].
    + destruct (Nat.eqb_spec j 0); [|exact Skip]. apply (Next (fun b => acc +g b) (fun _ => buckets)); auto.
    + rewrite Hd. destruct (Z.eqb_spec d 0) as [E0|E0]; cbn [negb andb]; [exact Skip|].
      destruct (nth_error buckets (Z.to_nat (d - 1))) as [old|] eqn:Eo; [|apply nth_error_None in Eo; lia].
      apply (Next (fun _ => acc) (fun b => upd (Z.to_nat (d - 1)) (old +g b) buckets)); auto. intros b. apply upd_length.
Qed.

(** ** Sources that cannot be told apart *)
Lemma loop_same (src src' : Source M) R j items : same_source src src' R -> forall st st' acc buckets, R st st' ->
  bucket_loop_of src j items st acc buckets = bucket_loop_of src' j items st' acc buckets.
Proof.
  intros HR. induction items as [|[e [|]] t IH]; intros st st' acc buckets Hst; cbn [bucket_loop_of]; [reflexivity| |now apply IH].
  destruct (HR st st' Hst) as [HN HK].
  assert (Skip : obindr (s_skip src st 1) (fun st => bucket_loop_of src j t st acc buckets) = obindr (s_skip src' st' 1) (fun st => bucket_loop_of src' j t st acc buckets)).
  { destruct (s_skip src st 1) as [[x|x]|], (s_skip src' st' 1) as [[y|y]|]; cbn [obindr obind]; try contradiction; [now apply IH|now subst|reflexivity]. }
  assert (Next : forall (f : M -> M) (bk : M -> list M), obindr (s_next src st) (fun bs => bucket_loop_of src j t (snd bs) (f (fst bs)) (bk (fst bs))) =
                                     obindr (s_next src' st') (fun bs => bucket_loop_of src' j t (snd bs) (f (fst bs)) (bk (fst bs)))).
  { intros f bk. destruct (s_next src st) as [[[b x]|x]|], (s_next src' st') as [[[b' y]|y]|]; cbn [obindr obind fst snd]; try contradiction; [|now subst|reflexivity].
    destruct HN as [-> HN]. now apply IH. }
  destruct e as [| |cs]; [exact Skip| |].
  - destruct (j =? 0); [|exact Skip]. apply (Next (fun b => acc +g b) (fun _ => buckets)).
  - destruct (nth_error cs j) as [exp|]; [|reflexivity]. destruct (negb _); [|exact Skip]. destruct (nth_error buckets _) as [old|]; [|reflexivity].
    apply (Next (fun _ => acc) (fun b => upd (Z.to_nat (exp - 1)) (old +g b) buckets)).
Qed.
Lemma omap_same {A B} (f g : A -> outcome B) l : (forall x, f x = g x) -> omap f l = omap g l.
Proof. intros H. induction l as [|x l IH]; cbn [omap]; [reflexivity|]. now rewrite H, IH. Qed.
Lemma multiexp_inner_same (bld bld' : SourceBuilder M) d exps c : same_builder bld bld' -> multiexp_inner_of bld d exps c = multiexp_inner_of bld' d exps c.
Proof.
  intros (R & HR & Hb). unfold multiexp_inner_of. destruct (c =? 0); [reflexivity|]. destruct (omap _ exps) as [es|]; cbn [obind]; [|reflexivity].
  rewrite (omap_same _ (window_of bld' (q_iter d (length es)) es c)); [reflexivity|]. intros j. unfold window_of. destruct (64 <=? c); [reflexivity|].
  rewrite (loop_same _ _ R j _ HR _ _ gzero _ (Hb j)). reflexivity.
Qed.

(** The vectors of the crate. *)
Lemma loop_vec (bases : list M) j items : forall pos acc buckets, bucket_loop_of (vec_source bases) j items pos acc buckets = bucket_loop bases j items pos acc buckets.
Proof.
  induction items as [|[e [|]] t IH]; intros pos acc buckets; cbn [bucket_loop_of bucket_loop]; [reflexivity| |now apply IH].
  assert (Skip : obindr (s_skip (vec_source bases) pos 1) (fun st => bucket_loop_of (vec_source bases) j t st acc buckets) =
                 match src_skip bases pos 1 with Err e => Done (Err e) | Ok pos => bucket_loop bases j t pos acc buckets end).
  { cbn [s_skip vec_source]. destruct (src_skip bases pos 1); cbn [obindr obind]; auto. }
  destruct e as [| |cs]; [exact Skip| |].
  - destruct (j =? 0); [|exact Skip]. cbn [s_next vec_source]. destruct (src_next bases pos) as [[b p]|e]; cbn [obindr obind fst snd]; auto.
  - destruct (nth_error cs j) as [exp|]; [|reflexivity]. destruct (negb _); [|exact Skip]. destruct (nth_error buckets _) as [old|]; [|reflexivity].
    cbn [s_next vec_source]. destruct (src_next bases pos) as [[b p]|e]; cbn [obindr obind fst snd]; auto.
Qed.
Lemma multiexp_inner_vec (bases : list M) start d exps c : multiexp_inner_of (vec_builder bases start) (density_of d) exps c = multiexp_inner bases start d exps c.
Proof.
  unfold multiexp_inner_of, multiexp_inner. destruct (c =? 0); [reflexivity|]. destruct (omap _ exps) as [es|]; cbn [obind]; [|reflexivity].
  rewrite (omap_same _ (window bases start (density_iter (length es) d) es c)); [reflexivity|]. intros j. unfold window_of, window. destruct (64 <=? c); [reflexivity|].
  cbn [vec_builder b_source b_build density_of q_iter]. rewrite loop_vec. destruct (bucket_loop _ _ _ _ _ _) as [[[a b]|e]|]; reflexivity.
Qed.
Lemma multiexp_vec ln_ceil (bases : list M) start d exps : multiexp_of ln_ceil (vec_builder bases start) (density_of d) exps = multiexp_start ln_ceil bases start d exps.
Proof. unfold multiexp_of, multiexp_start. cbn [density_of q_size]. rewrite multiexp_inner_vec. reflexivity. Qed.

(** ** The windows together *)
Lemma chunks_of (xs : list P) c : 0 < c < 64 -> exists es, omap (exp_chunks c) (map exponent_of xs) = Done es /\ length es = length xs /\
  forall dens j, j < steps (num_bits P) c -> dense_digits j (combine es dens) (map (digit c j) (dense xs dens)).
Proof.
  intros Hc.
  assert (E : exists es, omap (exp_chunks c) (map exponent_of xs) = Done es /\
    Forall2 (fun x e => forall j, j < steps (num_bits P) c -> has_digit j e (digit c j x)) xs es).
  { induction xs as [|x l IH]; cbn [map omap]; [eexists; split; [reflexivity|constructor]|].
    destruct (exp_chunks_spec c x ltac:(lia)) as (e & -> & He). destruct IH as (es & -> & F). cbn [obind].
    eexists. split; [reflexivity|]. constructor; auto. }
  destruct E as (es & E & F). exists es. split; [exact E|]. split; [now rewrite (Forall2_length' _ _ _ F)|]. intros dens j Hj. now apply dense_digits_of.
Qed.
Lemma digits_small (ys : list P) c j : 0 < c -> Forall (fun d => (0 <= d <= Z.of_nat (2 ^ c - 1))%Z) (map (digit c j) ys).
Proof.
  intros Hc. apply Forall_map, Forall_forall. intros x _. pose proof (digit_range c j x). rewrite Nat2Z.inj_sub, Nat2Z.inj_pow by (assert (2 ^ c <> 0) by (apply Nat.pow_nonzero; lia); lia).
  change (Z.of_nat 2) with 2%Z. lia.
Qed.
Lemma combine_ok (bases : list M) start c (xs : list P) n : 0 < c ->
  combine_parts c (dsum bases start (map (fun x => toZ x / 2 ^ Z.of_nat (c * n))%Z xs)) (rev (map (fun j => Ok (dsum bases start (map (digit c j) xs))) (seq 0 n)))
  = Ok (dsum bases start (map toZ xs)).
Proof.
  intros Hc. induction n.
  - cbn [seq map rev combine_parts]. do 2 f_equal. apply map_ext. intros x. rewrite Nat.mul_0_r. cbn [Z.of_nat]. now rewrite Z.pow_0_r, Z.div_1_r.
  - rewrite seq_S, map_app, rev_app_distr. cbn [map rev app combine_parts].
    rewrite double_n_spec, dsum_zmul, map_map, dsum_add. cbn [Nat.add]. rewrite <- IHn. f_equal. f_equal.
    apply map_ext. intros x. rewrite (zdigit_step c n (toZ x) (toZ_nn x)). unfold digit. lia.
Qed.
Lemma inner_supplied (bld : SourceBuilder M) bases d (xs : list P) c : 0 < c < 64 -> (forall j, supplies (b_source bld) bases (b_build bld j)) ->
  let ys := dense xs (q_iter d (length xs)) in length ys <= length bases ->
  multiexp_inner_of bld d (map exponent_of xs) c = Done (Ok (gsum (length ys) (fun i => nth i ys fzero *g nth i bases gzero))).
Proof.
  intros Hc Hs ys Hl. unfold multiexp_inner_of. destruct (Nat.eqb_spec c 0); [lia|]. destruct (chunks_of xs c Hc) as (es & -> & Le & Hd). cbn [obind]. rewrite Le.
  rewrite (omap_done _ (fun j => Ok (dsum bases 0 (map (digit c j) ys)))).
  - cbn [obind]. f_equal. transitivity (Ok (E:=SynthesisError) (dsum bases 0 (map toZ ys))); [|f_equal; apply (dsum_scalars bases ys 0)]. rewrite <- (combine_ok bases 0 c ys (steps (num_bits P) c)) by lia. f_equal. symmetry. apply dsum_zero.
    intros x _. apply toZ_windows. lia.
  - intros j Hj. apply in_seq in Hj. unfold window_of. destruct (Nat.leb_spec 64 c); [lia|].
    destruct (loop_supplied (b_source bld) bases (2 ^ c - 1) j _ _ (Hd (q_iter d (length xs)) j ltac:(lia)) (digits_small ys c j ltac:(lia)) 0 (b_build bld j) gzero (repeat gzero (2 ^ c - 1))
      (repeat_length _ _) (Hs j)) as (a & b & E & Sm); [rewrite map_length; cbn; exact Hl|].
    rewrite E. cbn [obindr obind fst snd]. do 2 f_equal. rewrite by_parts_spec, Sm, wsum_zeros. now rewrite !gadd_0_l.
Qed.
Lemma inner_short (bld : SourceBuilder M) bases e d (xs : list P) c : 0 < c < 64 -> (forall j, supplies_only (b_source bld) bases e (b_build bld j)) ->
  length bases < length (dense xs (q_iter d (length xs))) -> multiexp_inner_of bld d (map exponent_of xs) c = Done (Err e).
Proof.
  intros Hc Hs Hl. set (ys := dense xs (q_iter d (length xs))) in *. unfold multiexp_inner_of. destruct (Nat.eqb_spec c 0); [lia|].
  destruct (chunks_of xs c Hc) as (es & -> & Le & Hd). cbn [obind]. rewrite Le. rewrite (omap_done _ (fun j => Err e)).
  - cbn [obind]. f_equal. pose proof (steps_pos (P:=P) c ltac:(lia)) as Hp. destruct (steps (num_bits P) c) as [|m]; [lia|]. rewrite seq_S, map_app, rev_app_distr. reflexivity.
  - intros j Hj. apply in_seq in Hj. unfold window_of. destruct (Nat.leb_spec 64 c); [lia|].
    rewrite (loop_short (b_source bld) e (2 ^ c - 1) j _ _ (Hd (q_iter d (length xs)) j ltac:(lia)) (digits_small ys c j ltac:(lia)) bases (b_build bld j) gzero (repeat gzero (2 ^ c - 1))
      (repeat_length _ _) (Hs j)); [reflexivity|]. rewrite map_length. exact Hl.
Qed.
Lemma omap_cases {A B} (f : A -> outcome B) l : match omap f l with Done r => Forall2 (fun x y => f x = Done y) l r | Panicked => exists x, In x l /\ f x = Panicked end.
Proof.
  induction l as [|x l IH]; cbn [omap]; [constructor|]. destruct (f x) as [y|] eqn:E; cbn [obind]; [|exists x; cbn; auto].
  destruct (omap f l) as [r|]; cbn [obind]; [constructor; auto|]. destruct IH as (z & Hz & Ez). exists z. cbn; auto.
Qed.
Lemma combine_err c parts : forall (acc : M) e, combine_parts c acc parts = Err e -> In (Err e) parts.
Proof.
  induction parts as [|[x|x] parts IH]; intros acc e E; cbn [combine_parts] in E; [discriminate|right; eauto|left; congruence].
Qed.
Lemma inner_any (bld : SourceBuilder M) d (xs : list P) c : 0 < c < 64 ->
  match multiexp_inner_of bld d (map exponent_of xs) c with
  | Done (Ok _) => True
  | Done (Err e) => exists j, j < steps (num_bits P) c /\ complains (b_source bld) (b_build bld j) e
  | Panicked => exists j, j < steps (num_bits P) c /\ ~ never_panics (b_source bld) (b_build bld j)
  end.
Proof.
  intros Hc. set (ys := dense xs (q_iter d (length xs))) in *. unfold multiexp_inner_of. destruct (Nat.eqb_spec c 0); [lia|].
  destruct (chunks_of xs c Hc) as (es & -> & Le & Hd). cbn [obind]. rewrite Le.
  assert (W : forall j, In j (seq 0 (steps (num_bits P) c)) -> j < steps (num_bits P) c /\ match window_of bld (q_iter d (length xs)) es c j with
    | Done (Ok _) => True | Done (Err e) => complains (b_source bld) (b_build bld j) e | Panicked => ~ never_panics (b_source bld) (b_build bld j) end).
  { intros j Hj. apply in_seq in Hj. split; [lia|]. unfold window_of. destruct (Nat.leb_spec 64 c); [lia|].
    pose proof (loop_any (b_source bld) (b_build bld j) (2 ^ c - 1) j _ _ (Hd (q_iter d (length xs)) j ltac:(lia)) (digits_small ys c j ltac:(lia)) (b_build bld j) gzero (repeat gzero (2 ^ c - 1))
      (repeat_length _ _) (reach_start _ _)) as L. destruct (bucket_loop_of _ _ _ _ _ _) as [[r|e]|]; exact L. }
  pose proof (omap_cases (window_of bld (q_iter d (length xs)) es c) (seq 0 (steps (num_bits P) c))) as C.
  destruct (omap _ _) as [parts|]; cbn [obind].
  - destruct (combine_parts c gzero (rev parts)) as [r|e] eqn:Ec; [exact I|]. apply combine_err in Ec. apply in_rev in Ec.
    clear - C W Ec. induction C as [|j p l parts Hj _ IH]; [destruct Ec|]. destruct Ec as [->|Ec].
    + exists j. destruct (W j (or_introl eq_refl)) as [A B]. rewrite Hj in B. auto.
    + apply IH; auto. intros k Hk. apply W. now right.
  - destruct C as (j & Hj & Ej). exists j. destruct (W j Hj) as [A B]. rewrite Ej in B. auto.
Qed.
End Proof.

(** ** A source that follows a vector *)
Section Follow.
Context {P : PrimeField} {M : FMod P}.

Lemma supplies_less (src : Source M) l : forall k st, supplies src l st -> supplies src (firstn k l) st.
Proof.
  induction l as [|b l IH]; intros [|k] st H; cbn [firstn supplies] in *; auto. destruct H as [(s1 & E1 & H1) (s2 & E2 & H2)]. split; eauto.
Qed.
Definition wanted (items : list (ChunkedExponent * bool)) : nat := length (filter snd items).
Lemma skipn_cons (bases : list M) pos b : nth_error bases pos = Some b -> skipn pos bases = b :: skipn (pos + 1) bases.
Proof. revert pos. induction bases as [|x l IHl]; intros [|pos] Eb; cbn in *; try discriminate; [congruence|]. now apply IHl. Qed.
Lemma src_next_ok (bases : list M) pos b pos' : src_next bases pos = Ok (b, pos') -> nth_error bases pos = Some b /\ pos' = pos + 1.
Proof. unfold src_next. destruct (nth_error bases pos) as [x|]; [|discriminate]. destruct (geqb x gzero); [discriminate|]. intros [= <- <-]. auto. Qed.
Lemma src_skip_ok (bases : list M) pos pos' : src_skip bases pos 1 = Ok pos' -> pos < length bases /\ pos' = pos + 1.
Proof. unfold src_skip. destruct (Nat.leb_spec (length bases) pos); [discriminate|]. intros [= <-]. auto. Qed.
Lemma loop_follow (src : Source M) bases j items : forall pos st acc buckets r, bucket_loop bases j items pos acc buckets = Done (Ok r) ->
  supplies src (firstn (wanted items) (skipn pos bases)) st -> bucket_loop_of src j items st acc buckets = Done (Ok r).
Proof.
  induction items as [|[e [|]] t IH]; intros pos st acc buckets r E Hs; cbn [bucket_loop bucket_loop_of] in *; [exact E| |eapply IH; eauto].
  change (wanted ((e, true) :: t)) with (S (wanted t)) in Hs.
  assert (Skip : match src_skip bases pos 1 with Err e => Done (Err e) | Ok pos => bucket_loop bases j t pos acc buckets end = Done (Ok r) ->
                 obindr (s_skip src st 1) (fun st => bucket_loop_of src j t st acc buckets) = Done (Ok r)).
  { clear E. destruct (src_skip bases pos 1) as [pos'|] eqn:Ek; [|discriminate]. apply src_skip_ok in Ek as [Hp ->]. intros E.
    destruct (nth_error bases pos) as [b|] eqn:Eb; [|apply nth_error_None in Eb; lia]. rewrite (skipn_cons _ _ _ Eb) in Hs. cbn [firstn supplies] in Hs.
    destruct Hs as [_ (sk & -> & Hk)]. cbn [obindr obind]. eapply IH; eauto. }
  assert (Next : forall (f : M -> M) (bk : M -> list M), match src_next bases pos with Err e => Done (Err e) | Ok (b, pos) => bucket_loop bases j t pos (f b) (bk b) end = Done (Ok r) ->
                 obindr (s_next src st) (fun bs => bucket_loop_of src j t (snd bs) (f (fst bs)) (bk (fst bs))) = Done (Ok r)).
  { clear E. intros f bk. destruct (src_next bases pos) as [[b pos']|] eqn:En; [|discriminate]. apply src_next_ok in En as [Eb ->]. intros E.
    rewrite (skipn_cons _ _ _ Eb) in Hs. cbn [firstn supplies] in Hs. destruct Hs as [(sn & -> & Hn) _]. cbn [obindr obind fst snd]. eapply IH; eauto. }
  destruct e as [| |cs]; [exact (Skip E)| |].
  - destruct (j =? 0); [|exact (Skip E)]. apply (Next (fun b => acc +g b) (fun _ => buckets)). exact E.
  - destruct (nth_error cs j) as [exp|]; [|discriminate]. destruct (negb _); [|exact (Skip E)]. destruct (nth_error buckets _) as [old|]; [|discriminate].
    apply (Next (fun _ => acc) (fun b => upd (Z.to_nat (exp - 1)) (old +g b) buckets)). exact E.
Qed.
Lemma wanted_le (es : list ChunkedExponent) : forall dens, wanted (combine es dens) <= count_occ bool_dec dens true.
Proof.
  unfold wanted. induction es as [|e es IH]; intros [|[|] dens]; cbn [combine filter snd length count_occ]; try lia.
  - destruct (bool_dec true true); [|congruence]. cbn [length]. specialize (IH dens). lia.
  - destruct (bool_dec false true); [congruence|]. apply IH.
Qed.
Lemma combine_parts_oks c parts : forall (acc r : M), combine_parts c acc parts = Ok r -> forall p, In p parts -> exists x, p = Ok x.
Proof.
  induction parts as [|[x|x] parts IH]; intros acc r E p Hp; cbn [combine_parts] in E; [destruct Hp| |discriminate]. destruct Hp as [<-|Hp]; eauto.
Qed.
Lemma omap_follow {A B} (f g : A -> outcome B) l r : omap f l = Done r -> (forall x y, In x l -> In y r -> f x = Done y -> g x = Done y) -> omap g l = Done r.
Proof.
  revert r. induction l as [|x l IH]; intros r E H; cbn [omap] in *; [exact E|]. destruct (f x) as [y|] eqn:Ef; cbn [obind] in *; [|discriminate].
  destruct (omap f l) as [r'|] eqn:Eo; cbn [obind] in *; [|discriminate]. injection E as <-. rewrite (H x y); cbn; auto.
  rewrite (IH r' eq_refl); [reflexivity|]. intros x' y' Hx Hy. apply H; cbn; auto.
Qed.
Lemma follow ln_ceil (bld : SourceBuilder M) bases start d exps v n :
  multiexp_start ln_ceil bases start d exps = Done (Done (Ok v)) -> builds bld (firstn n (skipn start bases)) ->
  count_occ bool_dec (density_iter (length exps) d) true <= n -> multiexp_of ln_ceil bld (density_of d) exps = Done (Done (Ok v)).
Proof.
  unfold multiexp_start, multiexp_of. cbn [density_of q_size]. intros E Hb Hn.
  assert (I : multiexp_inner bases start d exps (window_size ln_ceil (length exps)) = Done (Ok v) -> multiexp_inner_of bld (density_of d) exps (window_size ln_ceil (length exps)) = Done (Ok v)).
  { clear E. set (c := window_size ln_ceil (length exps)). clearbody c. unfold multiexp_inner, multiexp_inner_of. destruct (c =? 0); [discriminate|].
    destruct (omap (exp_chunks c) exps) as [es|] eqn:Ee; cbn [obind]; [|discriminate].
    assert (Le : length es = length exps). { pose proof (omap_cases (exp_chunks c) exps) as C. rewrite Ee in C. eapply Forall2_length'; eauto. }
    destruct (omap (window _ _ _ _ _) _) as [parts|] eqn:Ep; cbn [obind]; [|discriminate]. intros Ec. injection Ec as Ec.
    rewrite (omap_follow _ _ _ _ Ep); [cbn [obind]; now rewrite Ec|]. intros j p _ Hp Ew. apply in_rev in Hp. destruct (combine_parts_oks _ _ _ _ Ec p Hp) as [x ->].
    unfold window in Ew. unfold window_of. destruct (64 <=? c); [discriminate|]. destruct (bucket_loop _ _ _ _ _ _) as [[[a b]|]|] eqn:El; try discriminate.
    cbn [density_of q_iter]. rewrite (loop_follow (b_source bld) bases j _ start (b_build bld j) gzero _ _ El); [exact Ew|].
    pose proof (wanted_le es (density_iter (length es) d)) as W. rewrite <- (Nat.min_l (wanted (combine es (density_iter (length es) d))) n) by (rewrite Le in *; lia). rewrite <- firstn_firstn. apply supplies_less. apply Hb. }
  destruct (get_query_size d); [|injection E as E; now rewrite I]. destruct (_ =? _); [|discriminate]. injection E as E. now rewrite I.
Qed.
End Follow.

(** ** The prover *)
Section Create.
Context {P : PrimeField} {E : Engine P}.

Lemma create_parameters (w : Worker) ln_ceil (circuit : prog P (res unit)) (params : Parameters E) r s :
  create_proof_from (from_parameters params) w ln_ceil circuit r s tt = (create_proof w ln_ceil circuit params r s, tt).
Proof.
  unfold create_proof_from, create_proof, ask, pure, sure, from_parameters. cbn [get_vk get_h get_l get_a get_b_g1 get_b_g2 ps_state fst snd].
  destruct (synthesize_prover circuit) as [[t|e]|]; cbn [obindr obind]; [|reflexivity..].
  destruct (prover_h w _ _ _) as [[h|e]|]; cbn [obindr obind]; [|reflexivity..].
  repeat (rewrite multiexp_vec; match goal with |- context [multiexp_start ?a ?b ?c ?d ?e] => destruct (multiexp_start a b c d e) end; cbn [obind]; [|reflexivity]).
  reflexivity.
Qed.

Lemma count_full n : count_occ bool_dec (density_iter n FullDensity) true = n.
Proof. cbn [density_iter]. induction n; cbn; auto. Qed.
Lemma multiexp_of_done {M : FMod P} ln_ceil (bld : SourceBuilder M) d (xs : list P) : (forall bv, d = Tracked bv -> length bv = length xs) ->
  multiexp_of ln_ceil bld (density_of d) (map exponent_of xs) = Done (multiexp_inner_of bld (density_of d) (map exponent_of xs) (window_size ln_ceil (length xs))).
Proof. intros H. unfold multiexp_of. rewrite map_length. cbn [density_of q_size]. destruct d as [|bv]; cbn [get_query_size]; [reflexivity|]. now rewrite (H bv eq_refl), Nat.eqb_refl. Qed.

Lemma create_inv (w : Worker) ln_ceil (circuit : prog P (res unit)) (params : Parameters E) r s proof :
  create_proof w ln_ceil circuit params r s = Done (Ok proof) ->
  exists t h mh ml ma ma' m1 m1' m2 m2', let vk := p_vk params in let ins := map exponent_of (input_assignment t) in let aux := map exponent_of (aux_assignment t) in
  synthesize_prover circuit = Done (Ok t) /\ prover_h w (pa_a t) (pa_b t) (pa_c t) = Done (Ok h) /\
  multiexp_start ln_ceil (p_h params) 0 FullDensity (map exponent_of h) = Done (Done (Ok mh)) /\ multiexp_start ln_ceil (p_l params) 0 FullDensity aux = Done (Done (Ok ml)) /\
  multiexp_start ln_ceil (p_a params) 0 FullDensity ins = Done (Done (Ok ma)) /\ multiexp_start ln_ceil (p_a params) (length ins) (Tracked (a_aux_density t)) aux = Done (Done (Ok ma')) /\
  multiexp_start ln_ceil (p_b_g1 params) 0 (Tracked (b_input_density t)) ins = Done (Done (Ok m1)) /\
  multiexp_start ln_ceil (p_b_g1 params) (dt_get_total_density (b_input_density t)) (Tracked (b_aux_density t)) aux = Done (Done (Ok m1')) /\
  multiexp_start ln_ceil (p_b_g2 params) 0 (Tracked (b_input_density t)) ins = Done (Done (Ok m2)) /\
  multiexp_start ln_ceil (p_b_g2 params) (dt_get_total_density (b_input_density t)) (Tracked (b_aux_density t)) aux = Done (Done (Ok m2')) /\
  (is_identity (delta_g1 vk) || is_identity (delta_g2 vk))%bool = false /\
  proof = mkProof (r *g delta_g1 vk +g alpha_g1 vk +g (ma +g ma')) (s *g delta_g2 vk +g beta_g2 vk +g (m2 +g m2'))
    ((r * s)%F *g delta_g1 vk +g s *g alpha_g1 vk +g r *g beta_g1 vk +g s *g (ma +g ma') +g r *g (m1 +g m1') +g mh +g ml).
Proof.
  unfold create_proof. destruct (synthesize_prover circuit) as [[t|e]|]; cbn [obindr obind]; [|discriminate..].
  destruct (prover_h w _ _ _) as [[h|e]|] eqn:Eh; cbn [obindr obind]; [|discriminate..]. cbv zeta.
  destruct (multiexp_start _ (p_h params) _ _ _) as [mh|] eqn:Mh; cbn [obind]; [|discriminate].
  destruct (multiexp_start _ (p_l params) _ _ _) as [ml|] eqn:Ml; cbn [obind]; [|discriminate].
  destruct (multiexp_start _ (p_a params) 0 _ _) as [ma|] eqn:Ma; cbn [obind]; [|discriminate].
  destruct (multiexp_start _ (p_a params) (length (map exponent_of (input_assignment t))) _ _) as [ma'|] eqn:Ma'; cbn [obind]; [|discriminate].
  destruct (multiexp_start _ (p_b_g1 params) 0 _ _) as [m1|] eqn:M1; cbn [obind]; [|discriminate].
  destruct (multiexp_start _ (p_b_g1 params) (dt_get_total_density (b_input_density t)) _ _) as [m1'|] eqn:M1'; cbn [obind]; [|discriminate].
  destruct (multiexp_start _ (p_b_g2 params) 0 _ _) as [m2|] eqn:M2; cbn [obind]; [|discriminate].
  destruct (multiexp_start _ (p_b_g2 params) (dt_get_total_density (b_input_density t)) _ _) as [m2'|] eqn:M2'; cbn [obind]; [|discriminate].
  destruct (_ || _)%bool eqn:Ed; [discriminate|].
  destruct ma as [[ma|]|]; cbn [obindr obind]; try discriminate. destruct ma' as [[ma'|]|]; cbn [obindr obind]; try discriminate.
  destruct m1 as [[m1|]|]; cbn [obindr obind]; try discriminate. destruct m1' as [[m1'|]|]; cbn [obindr obind]; try discriminate.
  destruct m2 as [[m2|]|]; cbn [obindr obind]; try discriminate. destruct m2' as [[m2'|]|]; cbn [obindr obind]; try discriminate.
  destruct mh as [[mh|]|]; cbn [obindr obind]; try discriminate. destruct ml as [[ml|]|]; cbn [obindr obind]; try discriminate. intros [= <-].
  exists t, h, mh, ml, ma, ma', m1, m1', m2, m2'. repeat (split; [assumption || reflexivity|]). assumption || reflexivity.
Qed.
Lemma create_serves (ps : ParameterSource E) (w : Worker) ln_ceil (circuit : prog P (res unit)) (params : Parameters E) I r s proof st :
  serves ps params I -> I st -> create_proof w ln_ceil circuit params r s = Done (Ok proof) ->
  exists st', create_proof_from ps w ln_ceil circuit r s st = (Done (Ok proof), st') /\ I st'.
Proof.
  intros HS HI Ec. destruct (create_inv _ _ _ _ _ _ _ Ec) as (t & h & mh & ml & ma & ma' & m1 & m1' & m2 & m2' & Et & Eh & Mh & Ml & Ma & Ma' & M1 & M1' & M2 & M2' & Ed & Er).
  set (ins := map exponent_of (input_assignment t)) in *. set (aux := map exponent_of (aux_assignment t)) in *.
  unfold create_proof_from, ask, pure, sure. rewrite Et.
  destruct (serves_vk _ _ _ HS st (length (input_assignment t)) HI) as (st1 & -> & HI1). rewrite Eh.
  destruct (serves_h _ _ _ HS st1 (length h) HI1) as (bh & st2 & -> & HI2 & Hbh).
  rewrite (follow _ bh _ _ _ _ _ (length h) Mh) by (try exact Hbh; rewrite count_full, map_length; auto). cbn [obind]. cbv zeta. fold ins aux.
  destruct (serves_l _ _ _ HS st2 (length aux) HI2) as (bl & st3 & -> & HI3 & Hbl).
  rewrite (follow _ bl _ _ _ _ _ (length aux) Ml) by (try exact Hbl; rewrite count_full; auto). cbn [obind].
  destruct (serves_a _ _ _ HS st3 (length ins) (dt_get_total_density (a_aux_density t)) HI3) as (ba & ba' & st4 & -> & HI4 & Hba & Hba'). cbn [fst snd].
  rewrite (follow _ ba _ _ _ _ _ (length ins) Ma) by (try exact Hba; rewrite count_full; auto). cbn [obind].
  rewrite (follow _ ba' _ _ _ _ _ _ Ma' Hba') by apply le_n. cbn [obind].
  destruct (serves_b_g1 _ _ _ HS st4 (dt_get_total_density (b_input_density t)) (dt_get_total_density (b_aux_density t)) HI4) as (b1 & b1' & st5 & -> & HI5 & Hb1 & Hb1'). cbn [fst snd].
  rewrite (follow _ b1 _ _ _ _ _ _ M1 Hb1) by apply le_n. cbn [obind].
  rewrite (follow _ b1' _ _ _ _ _ _ M1' Hb1') by apply le_n. cbn [obind].
  destruct (serves_b_g2 _ _ _ HS st5 (dt_get_total_density (b_input_density t)) (dt_get_total_density (b_aux_density t)) HI5) as (b2 & b2' & st6 & -> & HI6 & Hb2 & Hb2'). cbn [fst snd].
  rewrite (follow _ b2 _ _ _ _ _ _ M2 Hb2) by apply le_n. cbn [obind].
  rewrite (follow _ b2' _ _ _ _ _ _ M2' Hb2') by apply le_n. cbn [obind].
  rewrite Ed. exists st6. split; [|exact HI6]. cbn [obindr obind]. now rewrite Er.
Qed.

Definition asked (t : ProvingAssignment P) (h : list P) : list Query :=
  [AskVk (length (input_assignment t)); AskH (length h); AskL (length (aux_assignment t)); AskA (length (input_assignment t)) (dt_get_total_density (a_aux_density t));
   AskB1 (dt_get_total_density (b_input_density t)) (dt_get_total_density (b_aux_density t));
   AskB2 (dt_get_total_density (b_input_density t)) (dt_get_total_density (b_aux_density t))].
Section Notes.
Variables (ps : ParameterSource E) (w : Worker) (ln_ceil : Z -> nat) (circuit : prog P (res unit)) (t : ProvingAssignment P) (h : list P).
Hypothesis Et : synthesize_prover circuit = Done (Ok t).
Hypothesis Eh : prover_h w (pa_a t) (pa_b t) (pa_c t) = Done (Ok h).
Hypothesis La : length (a_aux_density t) = length (aux_assignment t).
Hypothesis Lbi : length (b_input_density t) = length (input_assignment t).
Hypothesis Lba : length (b_aux_density t) = length (aux_assignment t).

Lemma create_noted r s st result st' log : create_proof_from (noting ps) w ln_ceil circuit r s (st, []) = (result, (st', log)) ->
  create_proof_from ps w ln_ceil circuit r s st = (result, st') /\ noted (asked t h) result log.
Proof.
  unfold create_proof_from, ask, pure, sure. rewrite Et, Eh. cbv zeta. unfold noting. cbn [get_vk get_h get_l get_a get_b_g1 get_b_g2 ps_state]. unfold note. cbn [fst snd].
  assert (Bad : forall k q e, nth_error (asked t h) k = Some q -> noted (A := Proof_ E) (asked t h) (Done (Err e)) (map fine (firstn k (asked t h)) ++ [(q, Done (Some e))])).
  { intros k q e Hk. right. left. exists k, q, e. auto. }
  assert (Bad' : forall k q, nth_error (asked t h) k = Some q -> noted (A := Proof_ E) (asked t h) Panicked (map fine (firstn k (asked t h)) ++ [(q, Panicked)])).
  { intros k q Hk. right. right. exists k, q. auto. }
  rewrite !map_length.
  destruct (get_vk ps _ st) as [[[vk|er]|] st1]; cbn [fst snd app].
  2:{ intros [= <- <- <-]. split; [reflexivity|]. apply (Bad 0). reflexivity. }
  2:{ intros [= <- <- <-]. split; [reflexivity|]. apply (Bad' 0). reflexivity. }
  destruct (get_h ps _ st1) as [[[bh|er]|] st2]; cbn [fst snd app].
  2:{ intros [= <- <- <-]. split; [reflexivity|]. apply (Bad 1). reflexivity. }
  2:{ intros [= <- <- <-]. split; [reflexivity|]. apply (Bad' 1). reflexivity. }
  rewrite multiexp_of_done by discriminate. cbn [obind].
  destruct (get_l ps _ st2) as [[[bl|er]|] st3]; cbn [fst snd app].
  2:{ intros [= <- <- <-]. split; [reflexivity|]. apply (Bad 2). reflexivity. }
  2:{ intros [= <- <- <-]. split; [reflexivity|]. apply (Bad' 2). reflexivity. }
  rewrite multiexp_of_done by discriminate. cbn [obind].
  destruct (get_a ps _ _ st3) as [[[[ba ba']|er]|] st4]; cbn [fst snd app].
  2:{ intros [= <- <- <-]. split; [reflexivity|]. apply (Bad 3). reflexivity. }
  2:{ intros [= <- <- <-]. split; [reflexivity|]. apply (Bad' 3). reflexivity. }
  rewrite !multiexp_of_done by (intros ? Q; first [discriminate Q | injection Q as <-; assumption]). cbn [obind].
  destruct (get_b_g1 ps _ _ st4) as [[[[b1 b1']|er]|] st5]; cbn [fst snd app].
  2:{ intros [= <- <- <-]. split; [reflexivity|]. apply (Bad 4). reflexivity. }
  2:{ intros [= <- <- <-]. split; [reflexivity|]. apply (Bad' 4). reflexivity. }
  rewrite !multiexp_of_done by (intros ? Q; first [discriminate Q | injection Q as <-; assumption]). cbn [obind].
  destruct (get_b_g2 ps _ _ st5) as [[[[b2 b2']|er]|] st6]; cbn [fst snd app].
  2:{ intros [= <- <- <-]. split; [reflexivity|]. apply (Bad 5). reflexivity. }
  2:{ intros [= <- <- <-]. split; [reflexivity|]. apply (Bad' 5). reflexivity. }
  rewrite !multiexp_of_done by (intros ? Q; first [discriminate Q | injection Q as <-; assumption]). cbn [obind].
  intros Q. apply (f_equal fst) in Q as Q1. apply (f_equal snd) in Q as Q2. cbn [fst snd] in Q1, Q2. injection Q2 as <- <-. clear Q. rewrite Q1. split; [reflexivity|]. left. reflexivity.
Qed.

Lemma calm_inner {M : FMod P} (bld : SourceBuilder M) d (xs : list P) c : 0 < c < 64 -> calm bld -> exists res, multiexp_inner_of bld d (map exponent_of xs) c = Done res.
Proof.
  intros Hc Hb. pose proof (inner_any bld d xs c Hc) as X. destruct (multiexp_inner_of bld d _ c) as [r|]; [eauto|]. destruct X as (j & _ & X). destruct (X (Hb j)).
Qed.
Lemma create_calm (I : ps_state ps -> Prop) r s st : calm_parameters ps I -> I st ->
  0 < window_size ln_ceil (length (input_assignment t)) < 64 -> 0 < window_size ln_ceil (length (aux_assignment t)) < 64 -> 0 < window_size ln_ceil (length h) < 64 ->
  exists result st', create_proof_from ps w ln_ceil circuit r s st = (Done result, st') /\ I st'.
Proof.
  intros HC HI Wi Wa Wh. unfold create_proof_from, ask, pure, sure. rewrite Et, Eh. cbv zeta. rewrite !map_length.
  destruct (HC (length (input_assignment t)) 0) as (C & _). destruct (C st HI) as (r1 & st1 & -> & HI1 & _). clear C. destruct r1 as [vk|er]; [|eauto].
  destruct (HC (length h) 0) as (_ & C & _). destruct (C st1 HI1) as (r2 & st2 & -> & HI2 & F2). clear C. destruct r2 as [bh|er]; [|eauto]. specialize (F2 bh eq_refl).
  rewrite multiexp_of_done by discriminate. cbn [obind].
  destruct (HC (length (aux_assignment t)) 0) as (_ & _ & C & _). destruct (C st2 HI2) as (r3 & st3 & -> & HI3 & F3). clear C. destruct r3 as [bl|er]; [|eauto]. specialize (F3 bl eq_refl).
  rewrite multiexp_of_done by discriminate. cbn [obind].
  destruct (HC (length (input_assignment t)) (dt_get_total_density (a_aux_density t))) as (_ & _ & _ & C & _). destruct (C st3 HI3) as (r4 & st4 & -> & HI4 & F4). clear C. destruct r4 as [[ba ba']|er]; [|eauto].
  destruct (F4 _ eq_refl) as [F4a F4b]. cbn [fst snd] in F4a, F4b.
  rewrite !multiexp_of_done by (intros ? Q; first [discriminate Q | injection Q as <-; assumption]). cbn [obind fst snd].
  destruct (HC (dt_get_total_density (b_input_density t)) (dt_get_total_density (b_aux_density t))) as (_ & _ & _ & _ & C & C'). destruct (C st4 HI4) as (r5 & st5 & -> & HI5 & F5). clear C. destruct r5 as [[b1 b1']|er]; [|eauto].
  destruct (F5 _ eq_refl) as [F5a F5b]. cbn [fst snd] in F5a, F5b.
  rewrite !multiexp_of_done by (intros ? Q; first [discriminate Q | injection Q as <-; assumption]). cbn [obind fst snd].
  destruct (C' st5 HI5) as (r6 & st6 & -> & HI6 & F6). clear C'. destruct r6 as [[b2 b2']|er]; [|eauto].
  destruct (F6 _ eq_refl) as [F6a F6b]. cbn [fst snd] in F6a, F6b.
  rewrite !multiexp_of_done by (intros ? Q; first [discriminate Q | injection Q as <-; assumption]). cbn [obind fst snd].
  destruct (_ || _)%bool; [eauto|].
  repeat match goal with |- context [multiexp_inner_of ?b ?d (map exponent_of ?xs) ?c] =>
    let r := fresh "res" in let Er := fresh "Er" in destruct (calm_inner b d xs c ltac:(assumption) ltac:(assumption)) as [r Er]; rewrite Er; cbn [obindr obind]; clear Er;
    destruct r as [?|?]; cbn [obindr obind]; [|eauto; fail] end.
  eauto.
Qed.
End Notes.
End Create.
