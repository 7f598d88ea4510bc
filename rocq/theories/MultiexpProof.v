(** Multiexponentiation computes the naive sum. *)
From Coq Require Import ZArith List Bool Lia Field.
From Verif Require Import Prelude PrimeField FModule Multicore Domain Multiexp.
Import ListNotations.
Local Open Scope nat_scope.

(** ** Digits *)
Lemma chunk_fold l : forall a i, i + length l <= 64 ->
  fold_left chunk_step l (Done a, i) = (Done (a + 2 ^ Z.of_nat i * le2z l)%Z, i + length l).
Proof.
  induction l as [|b l IH]; intros a i H; cbn [fold_left le2z length] in *; [f_equal; [f_equal|]; lia|].
  unfold chunk_step at 2. cbn [obind]. destruct (Nat.ltb_spec i 64); [|lia]. rewrite IH by lia.
  f_equal; [|lia]. f_equal. rewrite Z.shiftl_mul_pow2 by lia. rewrite Nat2Z.inj_succ, Z.pow_succ_r by lia. ring.
Qed.
Lemma chunk_value_spec l : length l <= 64 -> chunk_value l = Done (le2z l).
Proof. intros H. unfold chunk_value. rewrite chunk_fold by lia. cbn [fst]. f_equal. cbn [Z.of_nat]. rewrite Z.pow_0_r. ring. Qed.

Lemma omap_done {A B} (f : A -> outcome B) (g : A -> B) l : (forall x, In x l -> f x = Done (g x)) -> omap f l = Done (map g l).
Proof.
  induction l as [|x l IH]; intros H; cbn; auto. rewrite H by now left. cbn. rewrite IH; [reflexivity|]. intros; apply H; now right.
Qed.

Lemma chunks_len {A} c (l : list A) : 0 < c -> forall x, In x (chunks c l) -> length x <= c.
Proof.
  intros Hc. apply (chunks_ind c Hc (fun l => forall x, In x (chunks c l) -> length x <= c)).
  - intros x. rewrite chunks_nil. intros [].
  - intros l' Hl IH x. rewrite chunks_cons by auto. intros [<-|H]; [rewrite firstn_length; lia|auto].
Qed.

(** Digit [j] in base [2^c]. *)
Definition zdigit (c j : nat) (z : Z) : Z := ((z / 2 ^ Z.of_nat (c * j)) mod 2 ^ Z.of_nat c)%Z.

Lemma le2z_firstn n l : le2z (firstn n l) = (le2z l mod 2 ^ Z.of_nat n)%Z.
Proof.
  rewrite <- (firstn_skipn n l) at 2. rewrite le2z_app. destruct (Nat.le_gt_cases (length l) n) as [H|H].
  - rewrite skipn_all2, firstn_all2 by auto. cbn [le2z]. rewrite Z.mul_0_r, Z.add_0_r, Z.mod_small; auto.
    split; [apply le2z_nonneg|]. eapply Z.lt_le_trans; [apply le2z_bound|]. apply Z.pow_le_mono_r; lia.
  - rewrite firstn_length, Nat.min_l by lia. rewrite Z.mul_comm, Z.mod_add by (pose proof (pow2_pos n); lia).
    rewrite Z.mod_small; auto. split; [apply le2z_nonneg|]. pose proof (le2z_bound (firstn n l)) as B. rewrite firstn_length, Nat.min_l in B by lia. auto.
Qed.
Lemma le2z_skipn n l : le2z (skipn n l) = (le2z l / 2 ^ Z.of_nat n)%Z.
Proof.
  rewrite <- (firstn_skipn n l) at 2. rewrite le2z_app. destruct (Nat.le_gt_cases (length l) n) as [H|H].
  - rewrite skipn_all2, firstn_all2 by auto. cbn [le2z]. rewrite Z.mul_0_r, Z.add_0_r, Z.div_small; auto.
    split; [apply le2z_nonneg|]. eapply Z.lt_le_trans; [apply le2z_bound|]. apply Z.pow_le_mono_r; lia.
  - rewrite firstn_length, Nat.min_l by lia. rewrite Z.mul_comm, Z.div_add by (pose proof (pow2_pos n); lia).
    rewrite Z.div_small; auto. split; [apply le2z_nonneg|]. pose proof (le2z_bound (firstn n l)) as B. rewrite firstn_length, Nat.min_l in B by lia. auto.
Qed.

Lemma chunks_digit c l : 0 < c -> forall j, c * j < length l -> nth_error (map le2z (chunks c l)) j = Some (zdigit c j (le2z l)).
Proof.
  intros Hc. apply (chunks_ind c Hc (fun l => forall j, c * j < length l -> nth_error (map le2z (chunks c l)) j = Some (zdigit c j (le2z l)))).
  - intros j H. cbn in H. lia.
  - intros l' Hl IH j Hj. rewrite chunks_cons by auto. destruct j as [|j]; cbn [map nth_error].
    + f_equal. rewrite le2z_firstn. unfold zdigit. rewrite Nat.mul_0_r. cbn [Z.of_nat]. now rewrite Z.pow_0_r, Z.div_1_r.
    + rewrite IH by (rewrite skipn_length; lia). f_equal. unfold zdigit. rewrite le2z_skipn, Z.div_div by (pose proof (pow2_pos c); pose proof (pow2_pos (c * j)); lia).
      rewrite <- Z.pow_add_r by lia. do 3 f_equal. lia.
Qed.

Lemma steps_cover n c : 0 < c -> n <= c * steps n c.
Proof. intros H. unfold steps. pose proof (Nat.div_mod (n + c - 1) c). pose proof (Nat.mod_upper_bound (n + c - 1) c). lia. Qed.
Lemma steps_in n c j : 0 < c -> j < steps n c -> c * j < n.
Proof. intros H Hj. unfold steps in *. pose proof (Nat.div_mod (n + c - 1) c). pose proof (Nat.mod_upper_bound (n + c - 1) c). nia. Qed.

(** Value of the digits from [j] on. *)
Lemma zdigit_step c j z : (0 <= z)%Z ->
  (z / 2 ^ Z.of_nat (c * j) = zdigit c j z + 2 ^ Z.of_nat c * (z / 2 ^ Z.of_nat (c * S j)))%Z.
Proof.
  intros H. unfold zdigit. replace (c * S j) with (c * j + c) by lia. rewrite Nat2Z.inj_add, Z.pow_add_r by lia.
  rewrite <- Z.div_div by (pose proof (pow2_pos c); pose proof (pow2_pos (c * j)); lia).
  rewrite (Z.div_mod (z / 2 ^ Z.of_nat (c * j)) (2 ^ Z.of_nat c)) at 1 by (pose proof (pow2_pos c); lia). ring.
Qed.

Section Proof.
Context {P : PrimeField} {M : FMod P}.
Add Field PFfield_me : (F_field P).

(** The digit used for a scalar in window [j]; scalars 0 and 1 have the same digits as their bits. *)
Definition digit (c j : nat) (x : P) : Z := zdigit c j (toZ x).

Lemma toZ_nn (x : P) : (0 <= toZ x)%Z. Proof. apply (toZ_range P x). Qed.
Lemma one_lt_modulus : (1 < modulus P)%Z.
Proof. pose proof (Znumtheory.prime_ge_2 _ (modulus_prime P)). lia. Qed.
Lemma toZ_one : toZ (fone : P) = 1%Z.
Proof. rewrite <- (ofZ_1 P), toZ_ofZ, Z.mod_small; auto. pose proof one_lt_modulus. lia. Qed.

Lemma zdigit_0 c j : zdigit c j 0 = 0%Z.
Proof. unfold zdigit. now rewrite Z.div_0_l, Z.mod_0_l by (pose proof (pow2_pos c); pose proof (pow2_pos (c * j)); lia). Qed.
Lemma zdigit_1 c j : 0 < c -> zdigit c j 1 = if j =? 0 then 1%Z else 0%Z.
Proof.
  intros Hc. unfold zdigit. destruct (Nat.eqb_spec j 0) as [->|Hj].
  - rewrite Nat.mul_0_r. cbn [Z.of_nat]. rewrite Z.pow_0_r, Z.div_1_r, Z.mod_small; auto. split; [lia|].
    apply Z.pow_gt_1; lia.
  - rewrite Z.div_small, Z.mod_0_l; auto; [pose proof (pow2_pos c); lia|]. split; [lia|]. apply Z.pow_gt_1; nia.
Qed.
Lemma digit_range c j (x : P) : (0 <= digit c j x < 2 ^ Z.of_nat c)%Z.
Proof. unfold digit, zdigit. apply Z.mod_pos_bound. pose proof (pow2_pos c). lia. Qed.

(** What the chunked form of a scalar provides in window [j]. *)
Definition has_digit (j : nat) (e : ChunkedExponent) (d : Z) : Prop :=
  match e with
  | CZero => d = 0%Z
  | COne => d = if j =? 0 then 1%Z else 0%Z
  | CChunks l => nth_error l j = Some d
  end.

Lemma exp_chunks_spec c (x : P) : 0 < c <= 64 ->
  exists e, exp_chunks c (exponent_of x) = Done e /\ forall j, j < steps (num_bits P) c -> has_digit j e (digit c j x).
Proof.
  intros Hc. unfold exponent_of. destruct (feqb_spec x fzero) as [->|Hx0]; [|destruct (feqb_spec x fone) as [->|Hx1]].
  - eexists. split; [reflexivity|]. intros j _. unfold has_digit, digit. rewrite toZ_0. apply zdigit_0.
  - eexists. split; [reflexivity|]. intros j _. unfold has_digit, digit. rewrite toZ_one. apply zdigit_1. lia.
  - cbn [exp_chunks]. unfold chunks_mut. destruct (Nat.eqb_spec c 0); [lia|]. cbn [obind].
    rewrite (omap_done chunk_value le2z) by (intros l Hl; apply chunk_value_spec; apply chunks_len in Hl; lia).
    eexists. split; [reflexivity|]. intros j Hj. cbn [has_digit]. pose proof (repr_bits_ge P).
    rewrite chunks_digit; [|lia|rewrite z2le_length; apply steps_in in Hj; lia].
    rewrite le2z_z2le_small; [reflexivity|]. pose proof (toZ_range P x). pose proof (num_bits_hi P).
    split; [lia|]. assert (2 ^ Z.of_nat (num_bits P) <= 2 ^ Z.of_nat (repr_bits P))%Z by (apply Z.pow_le_mono_r; lia). lia.
Qed.

(** ** Buckets *)
Fixpoint lsum (l : list M) : M := match l with [] => gzero | b :: t => b +g lsum t end.
(** [1 * l_0 + 2 * l_1 + ...] *)
Fixpoint wsum (l : list M) : M := match l with [] => gzero | b :: t => b +g (wsum t +g lsum t) end.

Lemma by_parts_fold l : forall acc,
  fold_left (fun (st : M * M) b => let (running, acc) := st in
               let running := running +g b in (running, acc +g running)) (rev l) (gzero, acc) = (lsum l, acc +g wsum l).
Proof.
  induction l as [|b l IH]; intros acc; cbn [rev lsum wsum fold_left]; [now rewrite gadd_0_r|].
  rewrite fold_left_app, IH. cbn [fold_left]. f_equal; [apply gadd_comm|].
  rewrite (gadd_comm _ _ (lsum l) b), <- gadd_assoc. f_equal. rewrite !gadd_assoc. f_equal. apply gadd_comm.
Qed.
Lemma by_parts_spec acc l : by_parts acc l = acc +g wsum l.
Proof. unfold by_parts. now rewrite by_parts_fold. Qed.

Lemma lsum_upd l : forall i old x, nth_error l i = Some old -> lsum (upd i (old +g x) l) = lsum l +g x.
Proof.
  induction l as [|b l IH]; intros [|i] old x H; cbn in H; try discriminate; cbn [upd lsum].
  - injection H as ->. rewrite <- !gadd_assoc. f_equal. apply gadd_comm.
  - rewrite (IH _ _ _ H). now rewrite gadd_assoc.
Qed.
Definition zmul (z : Z) (x : M) : M := (ofZ z : P) *g x.
Lemma wsum_upd l : forall i old x, nth_error l i = Some old -> wsum (upd i (old +g x) l) = wsum l +g zmul (Z.of_nat (S i)) x.
Proof.
  induction l as [|b l IH]; intros [|i] old x H; cbn [nth_error] in H; try discriminate; cbn [upd wsum].
  - injection H as ->. change (Z.of_nat 1) with 1%Z. unfold zmul. rewrite ofZ_1, gmul_1. rewrite <- !gadd_assoc. f_equal. rewrite gadd_comm, <- gadd_assoc. reflexivity.
  - rewrite (IH _ _ _ H), (lsum_upd _ _ _ _ H). rewrite <- (gadd_assoc _ _ b (wsum l +g lsum l)). f_equal.
    unfold zmul. replace (Z.of_nat (S (S i))) with (Z.of_nat (S i) + 1)%Z by lia. rewrite ofZ_add, ofZ_1, gmul_add_l, gmul_1.
    rewrite gadd_4. reflexivity.
Qed.
Lemma wsum_zeros n : wsum (repeat gzero n) = gzero.
Proof.
  assert (L : lsum (repeat gzero n) = gzero) by (induction n; cbn; rewrite ?IHn, ?gadd_0_l; auto).
  induction n; cbn; auto. cbn in L. rewrite gadd_0_l in L. rewrite IHn, L, !gadd_0_l; auto.
Qed.

(** ** One window *)
Section Window.
Variable bases : list M.

(** The error a window with digits [ds] runs into, if any. *)
Fixpoint window_err (pos : nat) (ds : list Z) : option SynthesisError :=
  match ds with
  | [] => None
  | d :: t =>
      match nth_error bases pos with
      | None => Some (IoError UnexpectedEof)
      | Some b => if negb (d =? 0)%Z && geqb b gzero then Some UnexpectedIdentity else window_err (pos + 1) t
      end
  end.
Fixpoint dsum (pos : nat) (ds : list Z) : M :=
  match ds with [] => gzero | d :: t => zmul d (nth pos bases gzero) +g dsum (pos + 1) t end.

Lemma src_skip_spec pos : src_skip bases pos 1 = match nth_error bases pos with None => Err (IoError UnexpectedEof) | Some _ => Ok (pos + 1) end.
Proof.
  unfold src_skip. destruct (Nat.leb_spec (length bases) pos) as [H|H].
  - apply nth_error_None in H. now rewrite H.
  - apply nth_error_Some in H. destruct (nth_error bases pos); congruence.
Qed.

(** [ds] are the digits of the dense items. *)
Inductive dense_digits (j : nat) : list (ChunkedExponent * bool) -> list Z -> Prop :=
| dd_nil : dense_digits j [] []
| dd_skip e t ds : dense_digits j t ds -> dense_digits j ((e, false) :: t) ds
| dd_take e t d ds : has_digit j e d -> dense_digits j t ds -> dense_digits j ((e, true) :: t) (d :: ds).

Lemma bucket_loop_spec n j items ds : dense_digits j items ds -> Forall (fun d => (0 <= d <= Z.of_nat n)%Z) ds ->
  forall pos acc buckets, length buckets = n ->
  match window_err pos ds with
  | Some e => bucket_loop bases j items pos acc buckets = Done (Err e)
  | None => exists acc' b', bucket_loop bases j items pos acc buckets = Done (Ok (acc', b')) /\
      acc' +g wsum b' = (acc +g wsum buckets) +g dsum pos ds
  end.
Proof.
  induction 1 as [|e t ds H IH|e t d ds Hd H IH]; intros F pos acc buckets Lb; cbn [window_err dsum bucket_loop].
  - do 2 eexists. split; [reflexivity|]. now rewrite gadd_0_r.
  - apply IH; auto.
  - inversion F as [|? ? Fd Ft]; subst. specialize (IH Ft).
    assert (Skip : d = 0%Z ->
      match match nth_error bases pos with
        | Some b => if negb (d =? 0)%Z && geqb b gzero then Some UnexpectedIdentity else window_err (pos + 1) ds
        | None => Some (IoError UnexpectedEof) end with
      | Some e0 => match src_skip bases pos 1 with Err e => Done (Err e) | Ok pos => bucket_loop bases j t pos acc buckets end = Done (Err e0)
      | None => exists acc' b', match src_skip bases pos 1 with Err e => Done (Err e) | Ok pos => bucket_loop bases j t pos acc buckets end = Done (Ok (acc', b')) /\
         acc' +g wsum b' = (acc +g wsum buckets) +g (zmul d (nth pos bases gzero) +g dsum (pos + 1) ds)
      end).
    { intros ->. rewrite src_skip_spec. destruct (nth_error bases pos) as [b|]; [|reflexivity]. cbn [Z.eqb negb andb].
      specialize (IH (pos + 1) acc buckets eq_refl). destruct (window_err (pos + 1) ds); auto.
      destruct IH as (a' & b' & E & Sm). exists a', b'. split; auto. rewrite Sm. f_equal. unfold zmul. now rewrite ofZ_0, gmul_0_l, gadd_0_l. }
    destruct e as [| |cs]; cbn [has_digit] in Hd.
    + apply Skip, Hd.
    + destruct (Nat.eqb_spec j 0); [|apply Skip, Hd]. subst d. unfold src_next.
      destruct (nth_error bases pos) as [b|] eqn:Eb; [|reflexivity]. cbn [Z.eqb negb andb].
      destruct (geqb b gzero); [reflexivity|]. specialize (IH (pos + 1) (acc +g b) buckets eq_refl).
      destruct (window_err (pos + 1) ds); auto. destruct IH as (a' & b' & E & Sm). exists a', b'. split; auto. rewrite Sm.
      rewrite (nth_error_nth _ _ gzero Eb). unfold zmul. rewrite ofZ_1, gmul_1. rewrite <- !gadd_assoc. f_equal. apply gadd_swap.
    + rewrite Hd. destruct (Z.eqb_spec d 0) as [E0|E0]; cbn [negb andb]; [exact (Skip E0)|].
      destruct (nth_error buckets (Z.to_nat (d - 1))) as [old|] eqn:Eo; [|apply nth_error_None in Eo; lia].
      unfold src_next. destruct (nth_error bases pos) as [b|] eqn:Eb; [|reflexivity].
      destruct (geqb b gzero); [reflexivity|].
      specialize (IH (pos + 1) acc (upd (Z.to_nat (d - 1)) (old +g b) buckets) ltac:(now rewrite upd_length)).
      destruct (window_err (pos + 1) ds); auto. destruct IH as (a' & b' & E & Sm). exists a', b'. split; auto. rewrite Sm.
      rewrite (wsum_upd _ _ _ _ Eo), (nth_error_nth _ _ gzero Eb). replace (Z.of_nat (S (Z.to_nat (d - 1)))) with d by lia.
      now rewrite !gadd_assoc.
Qed.

Lemma window_spec c j start dens exps ds : 0 < c < 64 -> dense_digits j (combine exps dens) ds ->
  Forall (fun d => (0 <= d < 2 ^ Z.of_nat c)%Z) ds ->
  window bases start dens exps c j = Done (match window_err start ds with Some e => Err e | None => Ok (dsum start ds) end).
Proof.
  intros Hc H F. unfold window. destruct (Nat.leb_spec 64 c); [lia|].
  pose proof (bucket_loop_spec (2 ^ c - 1) j _ _ H) as B. specialize (B).
  assert (F' : Forall (fun d => (0 <= d <= Z.of_nat (2 ^ c - 1))%Z) ds).
  { eapply Forall_impl; [|exact F]. cbn. intros d Hd. rewrite Nat2Z.inj_sub, Nat2Z.inj_pow by (assert (2 ^ c <> 0) by (apply Nat.pow_nonzero; lia); lia). change (Z.of_nat 2) with 2%Z. lia. }
  specialize (B F' start gzero (repeat gzero (2 ^ c - 1)) (repeat_length _ _)).
  destruct (window_err start ds) as [e|]; [now rewrite B|]. destruct B as (a & b & -> & S). cbn [obind]. do 2 f_equal.
  rewrite by_parts_spec, S, wsum_zeros. now rewrite !gadd_0_l.
Qed.
End Window.

(** ** Putting the windows together *)
Lemma double_n_spec n (x : M) : double_n n x = zmul (2 ^ Z.of_nat n) x.
Proof.
  revert x. induction n; intros x; cbn [double_n]; [unfold zmul; cbn [Z.of_nat]; now rewrite Z.pow_0_r, ofZ_1, gmul_1|].
  rewrite IHn. unfold zmul. rewrite Nat2Z.inj_succ, Z.pow_succ_r, (Z.mul_comm 2), ofZ_mul, gmul_mul by lia. f_equal.
  change 2%Z with (1 + 1)%Z. now rewrite ofZ_add, ofZ_1, gmul_add_l, gmul_1.
Qed.

(** The dense exponents. *)
Fixpoint dense {A} (l : list A) (dens : list bool) : list A :=
  match l, dens with
  | x :: t, true :: u => x :: dense t u
  | _ :: t, false :: u => dense t u
  | _, _ => []
  end.

Lemma dense_digits_of c j (xs : list P) dens es : j < steps (num_bits P) c ->
  Forall2 (fun x e => forall j, j < steps (num_bits P) c -> has_digit j e (digit c j x)) xs es ->
  dense_digits j (combine es dens) (map (digit c j) (dense xs dens)).
Proof.
  intros Hj F. revert dens. induction F as [|x e xs es H F IH]; intros dens; [destruct dens; constructor|].
  destruct dens as [|[|] u]; cbn [combine dense map]; constructor; auto.
Qed.

Lemma dsum_zmul (bases : list M) z ds : forall pos, zmul z (dsum bases pos ds) = dsum bases pos (map (fun d => z * d)%Z ds).
Proof.
  unfold zmul. induction ds as [|d ds IH]; intros pos; cbn [dsum map]; [apply gmul_0_r|].
  rewrite gmul_add_r, IH. f_equal. unfold zmul. now rewrite ofZ_mul, gmul_mul.
Qed.
Lemma dsum_add (bases : list M) {A} (f g : A -> Z) l : forall pos,
  dsum bases pos (map f l) +g dsum bases pos (map g l) = dsum bases pos (map (fun a => f a + g a)%Z l).
Proof.
  induction l as [|a l IH]; intros pos; cbn [dsum map]; [apply gadd_0_l|]. rewrite gadd_4, IH. f_equal.
  unfold zmul. now rewrite ofZ_add, gmul_add_l.
Qed.

Section Combine.
Variables (bases : list M) (start c : nat) (xs : list P).
Hypothesis Hc : 0 < c.

Definition part (j : nat) : res M :=
  match window_err bases start (map (digit c j) xs) with Some e => Err e | None => Ok (dsum bases start (map (digit c j) xs)) end.

(** The parts [j, j-1, …, 0], the digits above having been dealt with. *)
Lemma combine_parts_ok n : (forall j, j < n -> window_err bases start (map (digit c j) xs) = None) ->
  combine_parts c (dsum bases start (map (fun x => toZ x / 2 ^ Z.of_nat (c * n))%Z xs)) (rev (map part (seq 0 n)))
  = Ok (dsum bases start (map toZ xs)).
Proof.
  induction n; intros H.
  - cbn [seq map rev combine_parts]. do 2 f_equal. apply map_ext. intros x. rewrite Nat.mul_0_r. cbn [Z.of_nat]. now rewrite Z.pow_0_r, Z.div_1_r.
  - rewrite seq_S, map_app, rev_app_distr. cbn [map rev app combine_parts]. unfold part at 1. rewrite H by lia.
    rewrite double_n_spec, dsum_zmul, map_map, dsum_add. cbn [Nat.add]. rewrite <- IHn by (intros; apply H; lia). f_equal. f_equal.
    apply map_ext. intros x. rewrite (zdigit_step c n (toZ x) (toZ_nn x)). unfold digit. lia.
Qed.

Lemma combine_parts_err n acc j e : j < n -> window_err bases start (map (digit c j) xs) = Some e ->
  exists j' e', j' < n /\ window_err bases start (map (digit c j') xs) = Some e' /\ combine_parts c acc (rev (map part (seq 0 n))) = Err e' /\
    forall i, j' < i < n -> window_err bases start (map (digit c i) xs) = None.
Proof.
  revert acc. induction n; intros acc Hj He; [lia|].
  rewrite seq_S, map_app, rev_app_distr. cbn [map rev app combine_parts]. cbn [Nat.add]. unfold part at 1.
  destruct (window_err bases start (map (digit c n) xs)) as [e'|] eqn:E.
  - exists n, e'. repeat split; auto. intros; lia.
  - assert (j < n) by (destruct (Nat.eq_dec j n); [congruence|lia]).
    destruct (IHn (double_n c acc +g dsum bases start (map (digit c n) xs)) H He) as (j' & e' & H1 & H2 & H3 & H4).
    exists j', e'. repeat split; auto. intros i Hi. destruct (Nat.eq_dec i n); [congruence|apply H4; lia].
Qed.
End Combine.

Lemma Forall2_length' {A B} (R : A -> B -> Prop) l m : Forall2 R l m -> length m = length l.
Proof. induction 1; cbn; auto. Qed.

Lemma multiexp_inner_eq (bases : list M) start d (xs : list P) c : 0 < c < 64 ->
  multiexp_inner bases start d (map exponent_of xs) c =
  Done (combine_parts c gzero (rev (map (part bases start c (dense xs (density_iter (length xs) d))) (seq 0 (steps (num_bits P) c))))).
Proof.
  intros Hc. unfold multiexp_inner. destruct (Nat.eqb_spec c 0); [lia|].
  assert (E : exists es, omap (exp_chunks c) (map exponent_of xs) = Done es /\
    Forall2 (fun x e => forall j, j < steps (num_bits P) c -> has_digit j e (digit c j x)) xs es).
  { induction xs as [|x xs IH]; cbn [map omap]; [eexists; split; [reflexivity|constructor]|].
    destruct (exp_chunks_spec c x ltac:(lia)) as (e & -> & He). destruct IH as (es & -> & F). cbn [obind].
    eexists. split; [reflexivity|]. constructor; auto. }
  destruct E as (es & -> & F). cbn [obind]. rewrite (Forall2_length' _ _ _ F).
  rewrite (omap_done _ (part bases start c (dense xs (density_iter (length xs) d)))); [reflexivity|].
  intros j Hj. apply in_seq in Hj. unfold part.
  rewrite (window_spec bases c j start _ es (map (digit c j) (dense xs (density_iter (length xs) d)))); auto.
  - apply dense_digits_of; auto. lia.
  - apply Forall_map. apply Forall_forall. intros x _. apply digit_range.
Qed.

Lemma toZ_windows (x : P) c : 0 < c -> (toZ x / 2 ^ Z.of_nat (c * steps (num_bits P) c))%Z = 0%Z.
Proof.
  intros Hc. apply Z.div_small. split; [apply toZ_nn|]. pose proof (toZ_range P x). pose proof (num_bits_hi P).
  pose proof (steps_cover (num_bits P) c Hc).
  assert (2 ^ Z.of_nat (num_bits P) <= 2 ^ Z.of_nat (c * steps (num_bits P) c))%Z by (apply Z.pow_le_mono_r; lia). lia.
Qed.

Lemma dsum_zero (bases : list M) (xs : list P) (f : P -> Z) : (forall x, In x xs -> f x = 0%Z) -> forall pos, dsum bases pos (map f xs) = gzero.
Proof.
  induction xs as [|x xs IH]; intros H pos; cbn [map dsum]; auto. rewrite H by now left. rewrite IH by (intros; apply H; now right).
  unfold zmul. now rewrite ofZ_0, gmul_0_l, gadd_0_l.
Qed.

Lemma dsum_scalars (bases : list M) (xs : list P) : forall pos, dsum bases pos (map toZ xs) = gsum (length xs) (fun i => nth i xs fzero *g nth (pos + i) bases gzero).
Proof.
  induction xs as [|x xs IH]; intros pos; [reflexivity|]. cbn [map dsum length]. rewrite gsum_S_l, IH. cbn [nth]. f_equal.
  - unfold zmul. now rewrite ofZ_toZ, Nat.add_0_r.
  - apply gsum_ext. intros i _. do 2 f_equal. lia.
Qed.

Lemma multiexp_inner_ok (bases : list M) start d (xs : list P) c : 0 < c < 64 ->
  let ys := dense xs (density_iter (length xs) d) in
  (forall j, j < steps (num_bits P) c -> window_err bases start (map (digit c j) ys) = None) ->
  multiexp_inner bases start d (map exponent_of xs) c =
  Done (Ok (gsum (length ys) (fun i => nth i ys fzero *g nth (start + i) bases gzero))).
Proof.
  intros Hc ys H. rewrite multiexp_inner_eq by auto. fold ys. f_equal. rewrite <- dsum_scalars.
  rewrite <- (combine_parts_ok bases start c ys ltac:(lia) (steps (num_bits P) c)) by auto. f_equal. symmetry. apply dsum_zero.
  intros x _. apply toZ_windows. lia.
Qed.

(** ** Errors *)
Lemma window_err_none (bases : list M) (f : P -> Z) ys : forall pos, window_err bases pos (map f ys) = None <->
  (pos + length ys <= length bases \/ ys = []) /\
  (forall i, i < length ys -> f (nth i ys fzero) <> 0%Z -> nth_error bases (pos + i) <> Some gzero).
Proof.
  induction ys as [|y ys IH]; intros pos; cbn [map window_err length].
  - split; auto. intros _. split; auto. cbn. intros; lia.
  - destruct (nth_error bases pos) as [b|] eqn:Eb.
    + assert (Hp : pos < length bases) by (apply nth_error_Some; congruence).
      destruct (Z.eqb_spec (f y) 0) as [E0|E0]; cbn [negb andb].
      * rewrite IH. split.
        -- intros [A B]. split; [left; destruct A as [A| ->]; cbn in *; lia|]. intros [|i] Hi; cbn [nth]; [congruence|].
           intros Hf. replace (pos + S i) with (pos + 1 + i) by lia. apply B; auto. lia.
        -- intros [A B]. split; [left; destruct A; [lia|discriminate]|]. intros i Hi Hf. replace (pos + 1 + i) with (pos + S i) by lia.
           apply B; [lia|auto].
      * destruct (geqb_spec b gzero) as [->|Hb].
        -- split; [discriminate|]. intros [A B]. exfalso. apply (B 0); [lia|cbn; auto|rewrite Nat.add_0_r; auto].
        -- rewrite IH. split.
           ++ intros [A B]. split; [left; destruct A as [A| ->]; cbn in *; lia|]. intros [|i] Hi; cbn [nth]; [rewrite Nat.add_0_r; congruence|].
              intros Hf. replace (pos + S i) with (pos + 1 + i) by lia. apply B; auto. lia.
           ++ intros [A B]. split; [left; destruct A; [lia|discriminate]|]. intros i Hi Hf. replace (pos + 1 + i) with (pos + S i) by lia.
              apply B; [lia|auto].
    + split; [discriminate|]. apply nth_error_None in Eb. intros [[A|A] B]; [lia|discriminate].
Qed.

Lemma window_err_some (bases : list M) ds e : forall pos, window_err bases pos ds = Some e ->
  (e = IoError UnexpectedEof /\ length bases < pos + length ds) \/
  (e = UnexpectedIdentity /\ exists i, i < length ds /\ nth i ds 0%Z <> 0%Z /\ nth_error bases (pos + i) = Some gzero).
Proof.
  induction ds as [|d ds IH]; intros pos; cbn [window_err length]; [discriminate|].
  destruct (nth_error bases pos) as [b|] eqn:Eb.
  - destruct (Z.eqb_spec d 0) as [E0|E0]; cbn [negb andb]; [|destruct (geqb_spec b gzero) as [->|Hb]].
    + intros H. destruct (IH _ H) as [[-> L]|(-> & i & Hi & Hn & Hz)]; [left; split; auto; lia|right].
      split; auto. exists (S i). cbn [nth]. replace (pos + S i) with (pos + 1 + i) by lia. repeat split; auto; lia.
    + intros H. injection H as <-. right. split; auto. exists 0. cbn [nth]. rewrite Nat.add_0_r. repeat split; auto; lia.
    + intros H. destruct (IH _ H) as [[-> L]|(-> & i & Hi & Hn & Hz)]; [left; split; auto; lia|right].
      split; auto. exists (S i). cbn [nth]. replace (pos + S i) with (pos + 1 + i) by lia. repeat split; auto; lia.
  - intros H. injection H as <-. left. split; auto. apply nth_error_None in Eb. lia.
Qed.

(** Some digit of a non-zero scalar is not zero. *)
Lemma digit_nonzero c (x : P) : 0 < c -> x <> fzero -> exists j, j < steps (num_bits P) c /\ digit c j x <> 0%Z.
Proof.
  intros Hc Hx.
  assert (D : forall n, (forall j, j < n -> digit c j x = 0%Z) -> toZ x = (2 ^ Z.of_nat (c * n) * (toZ x / 2 ^ Z.of_nat (c * n)))%Z).
  { induction n; intros H; [rewrite Nat.mul_0_r; cbn [Z.of_nat]; rewrite Z.pow_0_r, Z.div_1_r; lia|].
    rewrite IHn at 1 by (intros; apply H; lia). rewrite (zdigit_step c n (toZ x) (toZ_nn x)). fold (digit c n x). rewrite H by lia.
    replace (c * S n) with (c * n + c) by lia. rewrite (Nat2Z.inj_add (c * n) c), Z.pow_add_r by lia. lia. }
  destruct (Forall_Exists_dec (fun j => digit c j x = 0%Z) (fun j => Z.eq_dec (digit c j x) 0) (seq 0 (steps (num_bits P) c))) as [F|E].
  - exfalso. apply Hx. rewrite <- (ofZ_toZ P x), (D (steps (num_bits P) c)).
    + rewrite toZ_windows by auto. rewrite Z.mul_0_r. apply ofZ_0.
    + intros j Hj. rewrite Forall_forall in F. apply F, in_seq. lia.
  - apply Exists_exists in E as (j & Hj & Hd). exists j. apply in_seq in Hj. split; [lia|auto].
Qed.

Lemma digit_zero c j : digit c j fzero = 0%Z.
Proof. unfold digit. rewrite toZ_0. apply zdigit_0. Qed.

Lemma steps_pos c : 0 < c -> 0 < steps (num_bits P) c.
Proof. intros Hc. pose proof (steps_cover (num_bits P) c Hc). pose proof (num_bits_pos P). nia. Qed.

Lemma nth_dense_map (f : P -> Z) ys i : f fzero = 0%Z -> nth i (map f ys) 0%Z = f (nth i ys fzero).
Proof. intros H. rewrite <- H. now rewrite map_nth. Qed.

Lemma multiexp_inner_errs (bases : list M) start d (xs : list P) c : 0 < c < 64 ->
  let ys := dense xs (density_iter (length xs) d) in
  let short := ys <> [] /\ length bases < start + length ys in
  let bad := exists i, i < length ys /\ nth i ys fzero <> fzero /\ nth_error bases (start + i) = Some gzero in
  (exists e, multiexp_inner bases start d (map exponent_of xs) c = Done (Err e) /\
     (e = IoError UnexpectedEof /\ short \/ e = UnexpectedIdentity /\ bad)) \/
  (multiexp_inner bases start d (map exponent_of xs) c =
     Done (Ok (gsum (length ys) (fun i => nth i ys fzero *g nth (start + i) bases gzero))) /\ ~ short /\ ~ bad).
Proof.
  intros Hc ys short bad.
  assert (D : forall j, {window_err bases start (map (digit c j) ys) = None} + {window_err bases start (map (digit c j) ys) <> None}).
  { intros j. clear. destruct (window_err bases start (map (digit c j) ys)); [right; discriminate|now left]. }
  destruct (Forall_Exists_dec _ D (seq 0 (steps (num_bits P) c))) as [F|E]; clear D.
  - right. assert (H : forall j, j < steps (num_bits P) c -> window_err bases start (map (digit c j) ys) = None).
    { intros j Hj. rewrite Forall_forall in F. apply F, in_seq. lia. }
    split; [now apply multiexp_inner_ok|]. split.
    + intros [Hn Hs]. specialize (H 0 (steps_pos c ltac:(lia))). apply window_err_none in H as [[A|A] _]; [lia|auto].
    + intros (i & Hi & Hx & Hz). destruct (digit_nonzero c _ ltac:(lia) Hx) as (j & Hj & Hd). specialize (H j Hj).
      apply window_err_none in H as [_ B]. exact (B i Hi Hd Hz).
  - left. apply Exists_exists in E as (j & Hj & Hd). apply in_seq in Hj.
    destruct (window_err bases start (map (digit c j) ys)) as [e|] eqn:Ee; [|congruence].
    destruct (combine_parts_err bases start c ys ltac:(lia) (steps (num_bits P) c) gzero j e ltac:(lia) Ee) as (j' & e' & _ & H2 & H3 & _).
    exists e'. split; [rewrite multiexp_inner_eq by auto; fold ys; now rewrite H3|].
    destruct (window_err_some _ _ _ _ H2) as [[-> L]|(-> & i & Hi & Hn & Hz)]; rewrite map_length in *.
    + left. repeat split; auto. intros E. rewrite E in H2. discriminate.
    + right. split; auto. exists i. repeat split; auto. rewrite nth_dense_map in Hn by apply digit_zero. intros E. rewrite E, digit_zero in Hn. auto.
Qed.
End Proof.
