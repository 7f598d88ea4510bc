(** Correctness of [serial_fft] and [parallel_fft]: both compute the discrete Fourier transform. *)
From Coq Require Import ZArith List Bool Lia Field.
From Verif Require Import Prelude PrimeField FModule Multicore Domain.
Import ListNotations.
Local Open Scope nat_scope.

(** ** Bit reversal *)
Lemma bitrev_acc l : forall n r, bitrev_loop l n r = r * 2 ^ l + bitrev_loop l n 0.
Proof.
  induction l; intros n r; cbn [bitrev_loop]; [cbn; lia|].
  rewrite (IHl _ (2 * r + _)), (IHl _ (2 * 0 + _)), Nat.pow_succ_r'. nia.
Qed.
Lemma bitrev_S n l : bitreverse n (S l) = (n mod 2) * 2 ^ l + bitreverse (n / 2) l.
Proof. unfold bitreverse. cbn [bitrev_loop]. rewrite bitrev_acc. f_equal. Qed.
Lemma bitrev_0 n : bitreverse n 0 = 0. Proof. reflexivity. Qed.
Lemma bitrev_even b l : bitreverse (2 * b) (S l) = bitreverse b l.
Proof.
  rewrite bitrev_S. replace (2 * b) with (b * 2) by lia. rewrite Nat.mod_mul, Nat.div_mul by lia. lia.
Qed.
Lemma bitrev_odd b l : bitreverse (2 * b + 1) (S l) = 2 ^ l + bitreverse b l.
Proof.
  rewrite bitrev_S. replace (2 * b + 1) with (1 + b * 2) by lia. rewrite Nat.mod_add, Nat.div_add by lia. cbn [Nat.modulo Nat.div]. cbn. lia.
Qed.
Lemma pow2_gt0 l : 0 < 2 ^ l.
Proof. apply Nat.neq_0_lt_0, Nat.pow_nonzero. lia. Qed.
Lemma bitrev_lt l : forall n, bitreverse n l < 2 ^ l.
Proof.
  induction l; intros n; [cbn; lia|]. rewrite bitrev_S, Nat.pow_succ_r'. specialize (IHl (n / 2)).
  pose proof (Nat.mod_upper_bound n 2). nia.
Qed.
Lemma bitrev_high l : forall x c, x < 2 ^ l -> c < 2 -> bitreverse (x + c * 2 ^ l) (S l) = 2 * bitreverse x l + c.
Proof.
  induction l; intros x c Hx Hc.
  - cbn in Hx. replace x with 0 by lia. rewrite bitrev_S, !bitrev_0. cbn [Nat.pow]. rewrite Nat.mod_small by lia. lia.
  - rewrite bitrev_S. rewrite (bitrev_S x l). rewrite Nat.pow_succ_r' in Hx |- *.
    replace (x + c * (2 * 2 ^ l)) with (x + (c * 2 ^ l) * 2) by lia. rewrite Nat.mod_add, Nat.div_add by lia.
    rewrite IHl; auto; [nia|]. apply Nat.div_lt_upper_bound; lia.
Qed.
Lemma bitrev_invol l : forall n, n < 2 ^ l -> bitreverse (bitreverse n l) l = n.
Proof.
  induction l; intros n Hn; [cbn in Hn; rewrite !bitrev_0; lia|].
  rewrite (bitrev_S n). rewrite Nat.add_comm. rewrite Nat.pow_succ_r' in Hn.
  rewrite bitrev_high; [|apply bitrev_lt|apply Nat.mod_upper_bound; lia].
  rewrite IHl by (apply Nat.div_lt_upper_bound; lia). symmetry. apply Nat.div_mod. lia.
Qed.

Section Proof.
Context {P : PrimeField} {M : FMod P}.
Add Field PFfield_fft : (F_field P).
Implicit Types a : list M.

(** The discrete Fourier transform, straight from the definition. *)
Definition dft (w : P) (n : nat) (f : nat -> M) (k : nat) : M := gsum n (fun j => fpow w (j * k) *g f j).

(** ** The permutation *)
Lemma swap_length a i j : length (swap a i j) = length a.
Proof. unfold swap. now rewrite !upd_length. Qed.
Lemma nth_swap a i j k : i < length a -> j < length a -> i <> j ->
  nth k (swap a i j) gzero = nth (if k =? i then j else if k =? j then i else k) a gzero.
Proof.
  intros Hi Hj Hne. unfold swap. destruct (Nat.eqb_spec k i) as [->|Hki].
  - now rewrite nth_upd_same by now rewrite upd_length.
  - rewrite nth_upd_other by auto. destruct (Nat.eqb_spec k j) as [->|Hkj].
    + now rewrite nth_upd_same.
    + now rewrite nth_upd_other by auto.
Qed.

Lemma perm_loop_spec l a : length a = 2 ^ l ->
  length (perm_loop l (2 ^ l) a) = 2 ^ l /\
  forall i, i < 2 ^ l -> nth i (perm_loop l (2 ^ l) a) gzero = nth (bitreverse i l) a gzero.
Proof.
  intros La.
  assert (G : forall K, K <= 2 ^ l ->
    let b := fold_left (perm_step l) (seq 0 K) a in
    length b = 2 ^ l /\
    forall i, i < 2 ^ l -> nth i b gzero = nth (if Nat.min i (bitreverse i l) <? K then bitreverse i l else i) a gzero).
  { induction K; intros HK b.
    - split; auto.
    - unfold b. rewrite seq_S, fold_left_app. cbn [fold_left Nat.add].
      destruct IHK as [Lb Hb]; [lia|]. set (c := fold_left (perm_step l) (seq 0 K) a) in *.
      unfold perm_step. pose proof (bitrev_lt l K) as Hr. set (rK := bitreverse K l) in *.
      pose proof (bitrev_invol l K ltac:(lia)) as Hinv. fold rK in Hinv.
      destruct (Nat.ltb_spec K rK) as [Hlt|Hge].
      + split; [now rewrite swap_length|]. intros i Hi. rewrite nth_swap by lia.
        destruct (Nat.eqb_spec i rK) as [->|N1]; [|destruct (Nat.eqb_spec i K) as [->|N2]].
        * rewrite Hb by lia. fold rK. rewrite Hinv.
          destruct (Nat.ltb_spec (Nat.min K rK) K); [lia|].
          destruct (Nat.ltb_spec (Nat.min rK K) (S K)); [auto|lia].
        * rewrite Hb by lia. rewrite Hinv. fold rK. 
          destruct (Nat.ltb_spec (Nat.min rK K) K); [lia|].
          destruct (Nat.ltb_spec (Nat.min K rK) (S K)); [auto|lia].
        * rewrite Hb by auto. f_equal. pose proof (bitrev_invol l i Hi) as Hi2.
          assert (bitreverse i l <> K) by (intros E; apply N1; unfold rK; now rewrite <- E, Hi2).
          destruct (Nat.ltb_spec (Nat.min i (bitreverse i l)) K), (Nat.ltb_spec (Nat.min i (bitreverse i l)) (S K)); auto; lia.
      + split; auto. intros i Hi. rewrite Hb by auto. f_equal. pose proof (bitrev_invol l i Hi) as Hi2.
        destruct (Nat.ltb_spec (Nat.min i (bitreverse i l)) K), (Nat.ltb_spec (Nat.min i (bitreverse i l)) (S K)); auto; try lia.
        assert (Nat.min i (bitreverse i l) = K) as E by lia.
        destruct (Nat.eq_dec i K) as [->|N]; [fold rK in H, H0 |- *; lia|].
        assert (E2 : bitreverse i l = K) by lia. rewrite E2 in Hi2. fold rK in Hi2. lia. }
  destruct (G (2 ^ l) (le_n _)) as [L H]. split; auto.
  intros i Hi. unfold perm_loop. rewrite H by auto. f_equal.
  destruct (Nat.ltb_spec (Nat.min i (bitreverse i l)) (2 ^ l)); auto. lia.
Qed.

(** ** One stage *)
Lemma fpow_S_r (x : P) n : fpow x (S n) = (fpow x n * x)%F.
Proof. rewrite fpow_S. ring. Qed.

Lemma block_spec m k (w_m : P) a : k + 2 * m <= length a ->
  length (block m w_m a k) = length a /\
  forall i, nth i (block m w_m a k) gzero =
    if (k <=? i) && (i <? k + m) then nth i a gzero +g fpow w_m (i - k) *g nth (i + m) a gzero
    else if (k + m <=? i) && (i <? k + 2 * m) then nth (i - m) a gzero -g fpow w_m (i - k - m) *g nth i a gzero
    else nth i a gzero.
Proof.
  intros Ha.
  assert (G : forall J, J <= m -> let st := fold_left (butterfly m k w_m) (seq 0 J) (a, fone) in
    length (fst st) = length a /\ snd st = fpow w_m J /\
    forall i, nth i (fst st) gzero =
      if (k <=? i) && (i <? k + J) then nth i a gzero +g fpow w_m (i - k) *g nth (i + m) a gzero
      else if (k + m <=? i) && (i <? k + m + J) then nth (i - m) a gzero -g fpow w_m (i - k - m) *g nth i a gzero
      else nth i a gzero).
  { induction J; intros HJ st.
    - split; [auto|]. split; [reflexivity|]. intros i. cbn [st fold_left seq fst].
      destruct (Nat.leb_spec k i), (Nat.ltb_spec i (k + 0)); cbn [andb]; try lia;
      destruct (Nat.leb_spec (k + m) i), (Nat.ltb_spec i (k + m + 0)); cbn [andb]; auto; lia.
    - unfold st. rewrite seq_S, fold_left_app. cbn [fold_left Nat.add].
      destruct IHJ as (L & W & H); [lia|]. destruct (fold_left (butterfly m k w_m) (seq 0 J) (a, fone)) as [b w]. cbn [fst snd] in L, W, H.
      subst w. unfold butterfly. cbn [fst snd]. split; [now rewrite !upd_length|]. split; [now rewrite fpow_S_r|].
      assert (H1 : nth (k + J + m) b gzero = nth (k + J + m) a gzero).
      { rewrite H. destruct (Nat.leb_spec k (k + J + m)), (Nat.ltb_spec (k + J + m) (k + J)); cbn [andb]; try lia;
        destruct (Nat.leb_spec (k + m) (k + J + m)), (Nat.ltb_spec (k + J + m) (k + m + J)); cbn [andb]; auto; lia. }
      assert (H2 : nth (k + J) b gzero = nth (k + J) a gzero).
      { rewrite H. destruct (Nat.leb_spec k (k + J)), (Nat.ltb_spec (k + J) (k + J)); cbn [andb]; try lia;
        destruct (Nat.leb_spec (k + m) (k + J)), (Nat.ltb_spec (k + J) (k + m + J)); cbn [andb]; auto; lia. }
      intros i. rewrite nth_upd, upd_length, (nth_upd_other (k + J + m) (k + J)) by lia. rewrite H1, H2.
      destruct (Nat.eqb_spec (k + J) i) as [<-|N1].
      + destruct (Nat.ltb_spec (k + J) (length b)); [cbn [andb]|lia].
        destruct (Nat.leb_spec k (k + J)), (Nat.ltb_spec (k + J) (k + S J)); cbn [andb]; try lia.
        now replace (k + J - k) with J by lia.
      + cbn [andb]. rewrite nth_upd. destruct (Nat.eqb_spec (k + J + m) i) as [<-|N2].
        * destruct (Nat.ltb_spec (k + J + m) (length b)); [cbn [andb]|lia].
          destruct (Nat.leb_spec k (k + J + m)), (Nat.ltb_spec (k + J + m) (k + S J)); cbn [andb]; try lia;
          destruct (Nat.leb_spec (k + m) (k + J + m)), (Nat.ltb_spec (k + J + m) (k + m + S J)); cbn [andb]; try lia.
          replace (k + J + m - m) with (k + J) by lia. now replace (k + J + m - k - m) with J by lia.
        * cbn [andb]. rewrite H.
          destruct (Nat.leb_spec k i), (Nat.ltb_spec i (k + J)), (Nat.ltb_spec i (k + S J)); cbn [andb]; auto; try lia;
          destruct (Nat.leb_spec (k + m) i), (Nat.ltb_spec i (k + m + J)), (Nat.ltb_spec i (k + m + S J)); cbn [andb]; auto; lia. }
  destruct (G m (le_n _)) as (L & _ & H). split; auto. intros i. unfold block. rewrite H.
  now replace (k + m + m) with (k + 2 * m) by lia.
Qed.

Lemma stage_spec q m (w_m : P) a : 0 < m -> length a = q * (2 * m) ->
  let r := stage (q * (2 * m)) m w_m a in
  length r = q * (2 * m) /\
  forall b i, b < q -> i < m ->
    nth (b * (2 * m) + i) r gzero = nth (b * (2 * m) + i) a gzero +g fpow w_m i *g nth (b * (2 * m) + i + m) a gzero /\
    nth (b * (2 * m) + i + m) r gzero = nth (b * (2 * m) + i) a gzero -g fpow w_m i *g nth (b * (2 * m) + i + m) a gzero.
Proof.
  intros Hm La r.
  assert (G : forall K, K <= q -> let r := fold_left (fun a b => block m w_m a (b * (2 * m))) (seq 0 K) a in
    length r = q * (2 * m) /\ (forall i, K * (2 * m) <= i -> nth i r gzero = nth i a gzero) /\
    forall b i, b < K -> i < m ->
    nth (b * (2 * m) + i) r gzero = nth (b * (2 * m) + i) a gzero +g fpow w_m i *g nth (b * (2 * m) + i + m) a gzero /\
    nth (b * (2 * m) + i + m) r gzero = nth (b * (2 * m) + i) a gzero -g fpow w_m i *g nth (b * (2 * m) + i + m) a gzero).
  { clear r. induction K; intros HK r.
    - split; [auto|]. split; [auto|]. intros; lia.
    - unfold r. rewrite seq_S, fold_left_app. cbn [fold_left Nat.add]. destruct IHK as (L & R & H); [lia|].
      clear r. set (c := fold_left (fun a b => block m w_m a (b * (2 * m))) (seq 0 K) a) in *.
      destruct (block_spec m (K * (2 * m)) w_m c) as [Lb Hb]; [nia|].
      split; [congruence|]. split.
      + intros i Hi. rewrite Hb. destruct (Nat.leb_spec (K * (2 * m)) i), (Nat.ltb_spec i (K * (2 * m) + m)); cbn [andb]; try nia;
        destruct (Nat.leb_spec (K * (2 * m) + m) i), (Nat.ltb_spec i (K * (2 * m) + 2 * m)); cbn [andb]; try nia; apply R; nia.
      + intros b i Hbk Hi. destruct (Nat.eq_dec b K) as [->|Hne].
        * rewrite !Hb. set (k := K * (2 * m)) in *.
          destruct (Nat.leb_spec k (k + i)), (Nat.ltb_spec (k + i) (k + m)); cbn [andb]; try lia.
          destruct (Nat.leb_spec k (k + i + m)), (Nat.ltb_spec (k + i + m) (k + m)); cbn [andb]; try lia.
          destruct (Nat.leb_spec (k + m) (k + i + m)), (Nat.ltb_spec (k + i + m) (k + 2 * m)); cbn [andb]; try lia.
          replace (k + i + m - m) with (k + i) by lia. replace (k + i - k) with i by lia. replace (k + i + m - k - m) with i by lia.
          rewrite !R by lia. auto.
        * assert (Hlt : b < K) by lia. assert (Hbnd : b * (2 * m) + i + m < K * (2 * m)) by nia.
          destruct (H b i Hlt Hi) as [H1 H2]. rewrite <- H1, <- H2.
          assert (E : forall x, x < K * (2 * m) -> nth x (block m w_m c (K * (2 * m))) gzero = nth x c gzero).
          { intros x Hx. rewrite Hb. destruct (Nat.leb_spec (K * (2 * m)) x); cbn [andb]; [lia|].
            destruct (Nat.leb_spec (K * (2 * m) + m) x); cbn [andb]; [lia|]. reflexivity. }
          split; apply E; lia. }
  unfold r, stage. rewrite Nat.div_mul by lia. destruct (G q (le_n _)) as (L & _ & H). auto.
Qed.

(** ** All stages *)
(** [w] is a primitive [2^l]-th root of unity (for [l = 0] nothing is needed). *)
Definition prim (w : P) (l : nat) : Prop := match l with O => w = fone | S l' => fpow w (2 ^ l') = (- (1))%F end.

Lemma prim_pow w l : prim w l -> fpow w (2 ^ l) = fone.
Proof.
  destruct l as [|l]; cbn [prim]; [intros ->; apply fpow_one|]. intros H.
  rewrite Nat.pow_succ_r', Nat.mul_comm, fpow_mul, H. cbn. ring.
Qed.

Lemma fpow_mod (w : P) n e : fpow w n = fone -> fpow w (e * n) = fone.
Proof. intros H. rewrite Nat.mul_comm, fpow_mul, H. apply fpow_one. Qed.

Lemma stages_spec l w (a : nat -> M) : prim w l -> forall r s (v : list M), r + s = l -> length v = 2 ^ l ->
  (forall b i, b < 2 ^ r -> i < 2 ^ s -> nth (b * 2 ^ s + i) v gzero = dft (fpow w (2 ^ r)) (2 ^ s) (fun j => a (bitreverse b r + 2 ^ r * j)) i) ->
  length (stages r (2 ^ l) (2 ^ s) w v) = 2 ^ l /\
  forall i, i < 2 ^ l -> nth i (stages r (2 ^ l) (2 ^ s) w v) gzero = dft w (2 ^ l) a i.
Proof.
  intros Hw. induction r; intros s v Hrs Lv Hv.
  - cbn [stages]. split; auto. intros i Hi. cbn [Nat.add] in Hrs. subst s. specialize (Hv 0 i ltac:(cbn; lia) Hi).
    cbn [Nat.mul Nat.add] in Hv. rewrite Hv. unfold dft. apply gsum_ext. intros j Hj. cbn [Nat.pow]. rewrite fpow_1, bitrev_0. f_equal. f_equal. lia.
  - cbn [stages].
    assert (E2 : 2 * 2 ^ s = 2 ^ (S s)) by now rewrite Nat.pow_succ_r'.
    assert (En : 2 ^ l = 2 ^ r * (2 * 2 ^ s)).
    { rewrite E2, <- Nat.pow_add_r. f_equal. lia. }
    assert (Ed : 2 ^ l / (2 * 2 ^ s) = 2 ^ r) by (rewrite En; apply Nat.div_mul; pose proof (pow2_gt0 s); lia).
    rewrite Ed. set (W := fpow w (2 ^ r)).
    assert (HWm : fpow W (2 ^ s) = (- (1))%F).
    { unfold W. rewrite <- fpow_mul, <- Nat.pow_add_r. replace l with (S (r + s)) in Hw by lia. exact Hw. }
    assert (HW2 : fpow w (2 ^ (S r)) = (W * W)%F).
    { unfold W. rewrite <- fpow_add. f_equal. rewrite Nat.pow_succ_r'. lia. }
    rewrite HW2 in Hv.
    destruct (stage_spec (2 ^ r) (2 ^ s) W v (pow2_gt0 s)) as [Ls Hs]; [congruence|]. rewrite <- En in Ls, Hs.
    rewrite E2. apply IHr; auto; [lia|].
    intros b i Hb Hi. fold W. rewrite <- E2 in Hi |- *.
    set (f := fun j => a (bitreverse b r + 2 ^ r * j)).
    assert (He : forall i, i < 2 ^ s -> nth (b * (2 * 2 ^ s) + i) v gzero = dft (W * W)%F (2 ^ s) (fun j => f (2 * j)) i).
    { intros i' Hi'. replace (b * (2 * 2 ^ s) + i') with ((2 * b) * 2 ^ s + i') by lia.
      rewrite Hv; auto; [|rewrite Nat.pow_succ_r'; lia].
      unfold dft. apply gsum_ext. intros j Hj. rewrite bitrev_even. unfold f. f_equal. f_equal. rewrite Nat.pow_succ_r'. lia. }
    assert (Ho : forall i, i < 2 ^ s -> nth (b * (2 * 2 ^ s) + i + 2 ^ s) v gzero = dft (W * W)%F (2 ^ s) (fun j => f (2 * j + 1)) i).
    { intros i' Hi'. replace (b * (2 * 2 ^ s) + i' + 2 ^ s) with ((2 * b + 1) * 2 ^ s + i') by lia.
      rewrite Hv; auto; [|rewrite Nat.pow_succ_r'; lia].
      unfold dft. apply gsum_ext. intros j Hj. rewrite bitrev_odd. unfold f. f_equal. f_equal. rewrite Nat.pow_succ_r'. lia. }
    assert (Hd : forall i, dft W (2 * 2 ^ s) f i =
       gsum (2 ^ s) (fun j => fpow (W * W)%F (j * i) *g f (2 * j)) +g fpow W i *g gsum (2 ^ s) (fun j => fpow (W * W)%F (j * i) *g f (2 * j + 1))).
    { intros i'. unfold dft. rewrite gsum_even_odd. rewrite <- gsum_mul. f_equal; apply gsum_ext; intros j Hj.
      - f_equal. rewrite fpow_mul_base, <- fpow_add. f_equal. lia.
      - rewrite <- gmul_mul. f_equal. rewrite fpow_mul_base, <- !fpow_add. f_equal. lia. }
    rewrite Hd. destruct (Nat.lt_ge_cases i (2 ^ s)) as [Hlt|Hge].
    + destruct (Hs b i Hb Hlt) as [-> _]. rewrite He, Ho by auto. reflexivity.
    + set (i0 := i - 2 ^ s). assert (Hi0 : i0 < 2 ^ s) by (unfold i0; lia).
      replace (b * (2 * 2 ^ s) + i) with (b * (2 * 2 ^ s) + i0 + 2 ^ s) by (unfold i0; lia).
      destruct (Hs b i0 Hb Hi0) as [_ ->]. rewrite He, Ho by auto.
      assert (Ep : fpow W i = (- fpow W i0)%F).
      { replace i with (i0 + 2 ^ s) by (unfold i0; lia). rewrite fpow_add, HWm. ring. }
      assert (Eq : forall j, fpow (W * W)%F (j * i) = fpow (W * W)%F (j * i0)).
      { intros j. replace (j * i) with (j * i0 + j * 2 ^ s) by (unfold i0; nia). rewrite fpow_add, (fpow_mod _ (2 ^ s)).
        - ring.
        - rewrite fpow_mul_base, HWm. ring. }
      rewrite Ep, gmul_neg_l. unfold gsub, dft. f_equal; [|f_equal; f_equal]; apply gsum_ext; intros j Hj; now rewrite Eq.
Qed.

Lemma serial_fft_spec l w a : prim w l -> length a = 2 ^ l ->
  exists b, serial_fft a w l = Done b /\ length b = 2 ^ l /\
    forall k, k < 2 ^ l -> nth k b gzero = dft w (2 ^ l) (fun j => nth j a gzero) k.
Proof.
  intros Hw La. unfold serial_fft. rewrite La, Nat.eqb_refl. eexists. split; [reflexivity|].
  destruct (perm_loop_spec l a La) as [Lp Hp].
  apply (stages_spec l w (fun j => nth j a gzero) Hw l 0); auto.
  intros b i Hb Hi. cbn in Hi. replace i with 0 by lia. cbn [Nat.pow]. rewrite Nat.mul_1_r, Nat.add_0_r, Hp by auto.
  unfold dft. cbn [gsum Nat.mul]. rewrite gadd_0_l, fpow_0, gmul_1. f_equal. lia.
Qed.

(** ** The parallel algorithm *)
Lemma shuffle_spec (a : list M) n num_cpus lnn (wj wstep : P) : forall tmp elt i, 
  Forall (fun x => x = gzero) tmp ->
  let r := shuffle a n num_cpus lnn wj wstep elt i tmp in
  length r = length tmp /\
  forall k, k < length tmp -> nth k r gzero =
    gsum num_cpus (fun s => (elt * fpow (fpow wstep num_cpus * wj) k * fpow wstep s)%F *g nth ((i + k + s * 2 ^ lnn) mod n) a gzero).
Proof.
  assert (Inner : forall i t elt J, fold_left (shuffle_inner a n lnn i wstep) (seq 0 J) (t, elt) =
     (t +g gsum J (fun s => (elt * fpow wstep s)%F *g nth ((i + s * 2 ^ lnn) mod n) a gzero), (elt * fpow wstep J)%F)).
  { intros i t elt. induction J.
    - cbn. rewrite gadd_0_r. f_equal. ring.
    - rewrite seq_S, fold_left_app, IHJ. cbn [fold_left Nat.add]. unfold shuffle_inner. cbn [gsum].
      f_equal; [now rewrite gadd_assoc|]. rewrite fpow_S. ring. }
  induction tmp as [|t tmp IH]; intros elt i HF r; [split; auto; cbn; intros; lia|].
  inversion HF as [|? ? -> HF']; subst. unfold r. cbn [shuffle]. rewrite Inner. rewrite gadd_0_l.
  destruct (IH (elt * fpow wstep num_cpus * wj)%F (S i) HF') as [L H]. split; [cbn [length]; now rewrite L|].
  intros [|k] Hk; cbn [nth].
  - apply gsum_ext. intros s _. rewrite Nat.add_0_r. f_equal. rewrite fpow_0. ring.
  - rewrite H by (cbn in Hk; lia). apply gsum_ext. intros s _. replace (S i + k) with (i + S k) by lia. f_equal.
    rewrite fpow_S. ring.
Qed.

Lemma omap_spec {A B} (f : A -> outcome B) (Q : A -> B -> Prop) l : (forall x, In x l -> exists y, f x = Done y /\ Q x y) ->
  exists r, omap f l = Done r /\ Forall2 Q l r.
Proof.
  induction l as [|x l IH]; intros H; cbn [omap].
  - exists []. split; auto.
  - destruct (H x (or_introl eq_refl)) as (y & -> & Hy). cbn [obind].
    destruct IH as (r & -> & Hr); [intros; apply H; now right|]. cbn [obind]. eauto.
Qed.

Lemma prim_sub w l lc : prim w l -> lc <= l -> prim (fpow w (2 ^ lc)) (l - lc).
Proof.
  intros Hw Hle. destruct (l - lc) as [|d] eqn:E; cbn [prim].
  - replace lc with l by lia. now apply prim_pow.
  - rewrite <- fpow_mul, <- Nat.pow_add_r. replace l with (S (lc + d)) in Hw by lia. exact Hw.
Qed.

Lemma parallel_fft_spec l lc w (wk : Worker) a : prim w l -> lc <= l -> length a = 2 ^ l -> wf_worker wk ->
  exists b, parallel_fft a wk w l lc = Done b /\ length b = 2 ^ l /\
    forall k, k < 2 ^ l -> nth k b gzero = dft w (2 ^ l) (fun j => nth j a gzero) k.
Proof.
  intros Hw Hle La Hwk. unfold parallel_fft. destruct (Nat.ltb_spec l lc); [lia|].
  set (N := 2 ^ (l - lc)). set (c := 2 ^ lc).
  assert (En : 2 ^ l = c * N) by (unfold c, N; rewrite <- Nat.pow_add_r; f_equal; lia).
  assert (Hc : 0 < c) by apply pow2_gt0. assert (HN : 0 < N) by apply pow2_gt0.
  pose proof (prim_pow w l Hw) as Hw1.
  set (A := fun j => nth j a gzero).
  destruct (omap_spec (fun jt : nat * list M => let (j, t) := jt in
           serial_fft (shuffle a (2 ^ l) c (l - lc) (fpow w j) (fpow w (j * N)) fone 0 t) (fpow w c) (l - lc))
     (fun jt r => length r = N /\ forall k, k < N -> nth k r gzero = dft w (2 ^ l) A (c * k + fst jt))
     (combine (seq 0 c) (repeat (repeat gzero N) c))) as (tmp & Etmp & Htmp).
  { intros [j t] Hin. pose proof (in_combine_r _ _ _ _ Hin) as Ht. apply repeat_spec in Ht as ->. clear Hin.
    destruct (shuffle_spec a (2 ^ l) c (l - lc) (fpow w j) (fpow w (j * N)) (repeat gzero N) fone 0) as [Ls Hs].
    { apply Forall_forall. intros x Hx. now apply repeat_spec in Hx. }
    rewrite repeat_length in Ls, Hs.
    destruct (serial_fft_spec (l - lc) (fpow w c) _ (prim_sub w l lc Hw Hle) Ls) as (b & -> & Lb & Hb).
    exists b. split; [reflexivity|]. split; [exact Lb|]. intros k Hk. rewrite Hb by exact Hk. cbn [fst].
    unfold dft. fold N. etransitivity; [apply gsum_ext; intros i Hi; rewrite Hs by exact Hi; rewrite <- gsum_mul; reflexivity|].
    clear Hs Ls Hb Lb. rewrite En, gsum_blocks, (gsum_swap c N).
    apply gsum_ext. intros i Hi. apply gsum_ext. intros s Hsc.
    rewrite <- gmul_mul. fold N. cbn [Nat.add]. rewrite Nat.mod_small by nia. rewrite (Nat.add_comm i). f_equal.
    (* exponents *)
    replace ((s * N + i) * (c * k + j)) with (c * i * k + (j * i + j * N * s) + (s * k) * (c * N)) by nia.
    rewrite !fpow_add, (fpow_mod w (c * N)) by (now rewrite <- En).
    rewrite <- (fpow_mul w (j * N) c). replace (j * N * c) with (j * (c * N)) by lia. rewrite (fpow_mod w (c * N)) by (now rewrite <- En).
    rewrite fpow_mul_base, fpow_one, <- !fpow_mul. replace (c * (i * k)) with (c * i * k) by lia. ring. }
  cbv zeta. fold N c. rewrite Etmp. cbn [obind].
  assert (Htmp' : forall j, j < c -> length (nth j tmp []) = N /\ forall k, k < N -> nth k (nth j tmp []) gzero = dft w (2 ^ l) A (c * k + j)).
  { intros j Hj. pose proof (Forall2_length _ _ _ Htmp) as L. rewrite combine_length, seq_length, repeat_length in L.
    pose proof (Forall2_nth _ _ _ (0, []) [] Htmp j) as H1. rewrite combine_length, seq_length, repeat_length in H1.
    specialize (H1 ltac:(lia)). rewrite combine_nth in H1 by now rewrite seq_length, repeat_length.
    rewrite seq_nth in H1 by auto. exact H1. }
  assert (Hpos : 0 < length a) by (rewrite La; apply pow2_gt0).
  rewrite (par_for_spec wk (length a) _ _ (fun _ k s => s = k) (fun idx _ => nth (idx / c) (nth (idx mod c) tmp []) gzero)).
  - eexists. split; [reflexivity|]. split; [now rewrite mapi_length|]. intros k Hk. rewrite (nth_mapi _ _ gzero) by lia.
    destruct (Htmp' (k mod c)) as [_ H1]; [apply Nat.mod_upper_bound; lia|]. rewrite H1 by (apply Nat.div_lt_upper_bound; lia).
    f_equal. symmetry. apply Nat.div_mod. lia.
  - apply scope_chunk_pos; auto.
  - reflexivity.
  - intros i k s x _ ->. eauto.
Qed.

Lemma wf_log w : wf_worker w -> exists r, log_num_threads w = Done r.
Proof.
  destruct w as [t|]; cbn; [|eauto]. intros [H0 H1]. destruct (log2_floor_spec (Z.of_nat t)) as (r & -> & _); auto; [lia|]. eauto.
Qed.

Lemma best_fft_spec l w (wk : Worker) a : prim w l -> length a = 2 ^ l -> wf_worker wk ->
  exists b, best_fft a wk w l = Done b /\ length b = 2 ^ l /\
    forall k, k < 2 ^ l -> nth k b gzero = dft w (2 ^ l) (fun j => nth j a gzero) k.
Proof.
  intros Hw La Hk. unfold best_fft. destruct (wf_log wk Hk) as (r & ->). cbn [obind].
  destruct (Nat.leb_spec l r); [now apply serial_fft_spec|]. apply parallel_fft_spec; auto. lia.
Qed.
End Proof.
