(** Properties C32 - C34: multiexponentiation and density tracking. *)
From Coq Require Import ZArith List Bool Lia.
From Verif Require Import Prelude PrimeField Fields FModule Multicore Domain Multiexp MultiexpProof.
Import ListNotations.
Local Open Scope nat_scope.

(** ** Vocabulary *)

(** The exponents at the dense positions, in order.  [None] is the full density. *)
Definition dense_exponents {A} (xs : list A) (density : option (list bool)) : list A :=
  match density with
  | None => xs
  | Some bits => map fst (filter (fun xb => snd xb) (combine xs bits))
  end.
Definition as_density (density : option (list bool)) : Density :=
  match density with None => FullDensity | Some bits => Tracked bits end.
(** The naive sum: the [i]-th dense exponent times the [i]-th base after [start]. *)
Definition naive_sum {P : PrimeField} {M : FMod P} (bases : list M) (start : nat) (ys : list P) : M :=
  gsum (length ys) (fun i => nth i ys fzero *g nth (start + i) bases gzero).
(** What is assumed of the floating-point expression [f64::from(n).ln().ceil() as u32]. *)
Definition sane_ln_ceil (ln_ceil : Z -> nat) : Prop := forall n, (32 <= n < 2 ^ 32)%Z -> 1 <= ln_ceil n <= 63.

Lemma dense_spec {A} (xs : list A) density : (forall bits, density = Some bits -> length bits = length xs) ->
  dense xs (density_iter (length xs) (as_density density)) = dense_exponents xs density.
Proof.
  destruct density as [bits|]; cbn [as_density density_iter dense_exponents]; intros H.
  - clear H. revert bits. induction xs as [|x xs IH]; intros [|[|] bits]; cbn; auto. now rewrite IH.
  - clear H. induction xs; cbn; auto. now rewrite IHxs.
Qed.

Lemma window_ok ln_ceil n : sane_ln_ceil ln_ceil -> (Z.of_nat n < 2 ^ 32)%Z -> 0 < window_size ln_ceil n < 64.
Proof.
  intros H Hn. unfold window_size. destruct (Nat.ltb_spec n 32); [lia|]. rewrite Z.mod_small by lia.
  specialize (H (Z.of_nat n)). lia.
Qed.

Lemma multiexp_unfold {P : PrimeField} {M : FMod P} ln_ceil (bases : list M) start density (xs : list P) :
  (forall bits, density = Some bits -> length bits = length xs) ->
  multiexp ln_ceil bases start (as_density density) (map exponent_of xs) =
  multiexp_inner bases start (as_density density) (map exponent_of xs) (window_size ln_ceil (length xs)).
Proof.
  intros H. unfold multiexp. rewrite map_length. destruct density as [bits|]; cbn [as_density get_query_size]; auto.
  now rewrite (H bits eq_refl), Nat.eqb_refl.
Qed.

(** ** C32 *)
Theorem C32_value {P : PrimeField} {M : FMod P} ln_ceil (bases : list M) (start : nat) (density : option (list bool)) (xs : list P) (r : M) :
  sane_ln_ceil ln_ceil -> (Z.of_nat (length xs) < 2 ^ 32)%Z ->
  multiexp ln_ceil bases start (as_density density) (map exponent_of xs) = Done (Ok r) ->
  r = naive_sum bases start (dense_exponents xs density).
Proof.
  intros Hl Hn E.
  assert (H : forall bits, density = Some bits -> length bits = length xs).
  { intros bits ->. unfold multiexp in E. cbn [as_density get_query_size] in E. rewrite map_length in E.
    destruct (Nat.eqb_spec (length bits) (length xs)); [auto|discriminate]. }
  rewrite multiexp_unfold in E by auto.
  destruct (multiexp_inner_errs bases start (as_density density) xs _ (window_ok _ _ Hl Hn)) as [(e & E' & _)|(E' & _)];
    rewrite E' in E; [discriminate|]. rewrite dense_spec in E by auto. unfold naive_sum. congruence.
Qed.
Print Assumptions C32_value.

(** Every window size gives the same result: the naive sum, whenever the bases suffice. *)
Theorem C32_every_window {P : PrimeField} {M : FMod P} (bases : list M) (start : nat) (density : option (list bool)) (xs : list P) (c : nat) :
  1 <= c <= 63 -> (forall bits, density = Some bits -> length bits = length xs) ->
  let ys := dense_exponents xs density in
  start + length ys <= length bases ->
  (forall i, i < length ys -> nth i ys fzero <> fzero -> nth (start + i) bases gzero <> gzero) ->
  multiexp_inner bases start (as_density density) (map exponent_of xs) c = Done (Ok (naive_sum bases start ys)).
Proof.
  intros Hc Hd ys Hs Hb.
  pose proof (multiexp_inner_errs bases start (as_density density) xs c ltac:(lia)) as X. cbv zeta in X.
  rewrite dense_spec in X by auto. fold ys in X. destruct X as [(e & E' & Hbad)|(E' & _)]; [exfalso|rewrite E'; reflexivity].
  destruct Hbad as [[_ [_ H]]|[_ (i & Hi & Hx & Hz)]]; [lia|]. apply (Hb i Hi Hx). now apply nth_error_nth.
Qed.
Print Assumptions C32_every_window.

(** Exponents 0, 1, 300, 5 and 64512 (= -1), the third position not dense, bases 7, 11, 13, 17 after an offset of one. *)
Example C32_ex :
  let xs := map (ofZ (p := Fr64513)) [0; 1; 300; 5; 64512]%Z in
  let bases : list (ScalarMod Fr64513) := map (ofZ (p := Fr64513)) [99; 7; 11; 13; 17]%Z in
  match multiexp (fun _ => 4) bases 1 (Tracked [true; true; false; true; true]) (map exponent_of xs) with
  | Done (Ok r) => toZ (r : Fr64513) = ((0 * 7 + 1 * 11 + 5 * 13 + 64512 * 17) mod 64513)%Z
  | _ => False
  end.
Proof. vm_compute. reflexivity. Qed.

(** ** C33 *)
Section C33.
Context {P : PrimeField} {M : FMod P}.
Variables (ln_ceil : Z -> nat) (bases : list M) (start : nat) (density : option (list bool)) (xs : list P).
Let ys := dense_exponents xs density.
Let call := multiexp ln_ceil bases start (as_density density) (map exponent_of xs).

(** The source has fewer bases (after its starting position) than there are dense positions. *)
Definition too_few : Prop := length bases - start < length ys.
(** Some dense position with a non-zero exponent meets the identity. *)
Definition meets_identity : Prop := exists i, i < length ys /\ nth i ys fzero <> fzero /\ nth_error bases (start + i) = Some gzero.

Theorem C33_panics_iff : sane_ln_ceil ln_ceil -> (Z.of_nat (length xs) < 2 ^ 32)%Z ->
  (call = Panicked <-> exists bits, density = Some bits /\ length bits <> length xs).
Proof.
  intros Hl Hn. unfold call. split.
  - intros E. destruct density as [bits|]; cbn [as_density] in *.
    + exists bits. split; auto. intros H. rewrite (multiexp_unfold ln_ceil bases start (Some bits)) in E by (intros ? [= <-]; auto).
      destruct (multiexp_inner_errs bases start (as_density (Some bits)) xs _ (window_ok _ _ Hl Hn)) as [(e & E' & _)|(E' & _)];
        rewrite E' in E; discriminate.
    + exfalso. rewrite (multiexp_unfold ln_ceil bases start None) in E by discriminate.
      destruct (multiexp_inner_errs bases start (as_density None) xs _ (window_ok _ _ Hl Hn)) as [(e & E' & _)|(E' & _)];
        rewrite E' in E; discriminate.
  - intros (bits & -> & H). unfold multiexp. cbn [as_density get_query_size]. rewrite map_length.
    destruct (Nat.eqb_spec (length bits) (length xs)); [contradiction|auto].
Qed.

Theorem C33_fails_iff : sane_ln_ceil ln_ceil -> (Z.of_nat (length xs) < 2 ^ 32)%Z ->
  (forall bits, density = Some bits -> length bits = length xs) ->
  ((exists e, call = Done (Err e)) <-> too_few \/ meets_identity).
Proof.
  intros Hl Hn Hd. unfold call. rewrite multiexp_unfold by auto.
  pose proof (multiexp_inner_errs bases start (as_density density) xs _ (window_ok _ _ Hl Hn)) as X. cbv zeta in X.
  rewrite dense_spec in X by auto. fold ys in X. destruct X as [(e & E' & H)|(E' & H1 & H2)]; rewrite E'.
  - split; [intros _|intros _; eauto]. unfold too_few, meets_identity.
    destruct H as [[_ [H3 H4]]|[_ H]]; [left|right; auto]. destruct ys; [congruence|]. cbn [length] in *. lia.
  - split; [intros [e H]; discriminate|]. intros [H|H]; exfalso; [apply H1|exact (H2 H)]. unfold too_few in H.
    split; [intros E0; rewrite E0 in H; cbn in H; lia|lia].
Qed.

(** The kind of the error. *)
Theorem C33_error_kind : sane_ln_ceil ln_ceil -> (Z.of_nat (length xs) < 2 ^ 32)%Z ->
  forall e, call = Done (Err e) -> (e = IoError UnexpectedEof /\ too_few) \/ (e = UnexpectedIdentity /\ meets_identity).
Proof.
  intros Hl Hn e E. assert (Hd : forall bits, density = Some bits -> length bits = length xs).
  { intros bits Hb. destruct (Nat.eq_dec (length bits) (length xs)) as [|Hne]; auto.
    assert (X : call = Panicked) by (apply C33_panics_iff; eauto). congruence. }
  unfold call in E. rewrite multiexp_unfold in E by auto.
  pose proof (multiexp_inner_errs bases start (as_density density) xs _ (window_ok _ _ Hl Hn)) as X. cbv zeta in X.
  rewrite dense_spec in X by auto. fold ys in X. destruct X as [(e' & E' & H)|(E' & H1 & H2)]; rewrite E' in E; [|discriminate].
  assert (e' = e) by congruence. subst e'. unfold too_few, meets_identity.
  destruct H as [[-> [H3 H4]]|[-> H]]; [left|right; auto]. split; auto. destruct ys; [congruence|]. cbn [length] in *. lia.
Qed.
End C33.
Print Assumptions C33_panics_iff.
Print Assumptions C33_fails_iff.
Print Assumptions C33_error_kind.

(** Three bases for four exponents; an identity base under a non-zero exponent; the same under a zero
    exponent is no error; a density of the wrong length panics. *)
Example C33_ex :
  let xs := map (ofZ (p := Fr64513)) [3; 0; 9; 4]%Z in
  let run (bases : list Z) d := multiexp (M := ScalarMod Fr64513) (fun _ => 4) (map (ofZ (p := Fr64513)) bases) 0 d (map exponent_of xs) in
  (match run [1; 2; 3]%Z FullDensity with Done (Err (IoError UnexpectedEof)) => True | _ => False end) /\
  (match run [1; 2; 0; 5]%Z FullDensity with Done (Err UnexpectedIdentity) => True | _ => False end) /\
  (match run [1; 0; 3; 5]%Z FullDensity with Done (Ok _) => True | _ => False end) /\
  (match run [1; 0; 3; 5]%Z (Tracked [true]) with Panicked => True | _ => False end).
Proof. vm_compute. repeat split. Qed.

(** ** C34 *)

(** A history of calls on a tracker. *)
Inductive dt_call := AddElement | Inc (idx : nat).
Fixpoint dt_run (h : list dt_call) (t : DensityTracker) : outcome DensityTracker :=
  match h with
  | [] => Done t
  | AddElement :: h => dt_run h (dt_add_element t)
  | Inc i :: h => obind (dt_inc i t) (dt_run h)
  end.

(** The number of elements a history adds; the indices it increments. *)
Definition added (h : list dt_call) : nat := length (filter (fun c => match c with AddElement => true | _ => false end) h).
Definition was_inced (h : list dt_call) (i : nat) : Prop := In (Inc i) h.

Lemma dt_inc_spec t i : dt_inc i t = if i <? length t then Done (upd i true t) else Panicked.
Proof.
  unfold dt_inc. destruct (Nat.ltb_spec i (length t)) as [H|H].
  - destruct (nth_error t i) as [[|]|] eqn:E; cbn [negb]; auto.
    + f_equal. apply (nth_ext _ _ false false); [now rewrite upd_length|]. intros j Hj. rewrite nth_upd. destruct (Nat.eqb_spec i j) as [->|]; auto.
      apply nth_error_nth with (d := false) in E. destruct (j <? length t); auto.
    + apply nth_error_None in E. lia.
  - apply nth_error_None in H. now rewrite H.
Qed.

Lemma dt_run_gen h : forall t t', dt_run h t = Done t' ->
  length t' = length t + added h /\ (forall i, nth i t' false = true <-> nth i t false = true \/ was_inced h i) /\ (forall i, was_inced h i -> i < length t').
Proof.
  induction h as [|c h IH]; intros t t' E; cbn [dt_run] in E.
  - injection E as <-. split; [cbn; lia|]. split; [|intros i []]. intros i. split; auto. intros [H|[]]; auto.
  - destruct c as [|k].
    + destruct (IH _ _ E) as (L & H & B). unfold dt_add_element in *. rewrite app_length in L. cbn [length] in L. unfold added in *. cbn [filter length] in *.
      split; [lia|]. split.
      * intros i. rewrite H. unfold was_inced. cbn [In]. split.
        -- intros [Hn|Hn]; [|auto]. left. destruct (Nat.lt_ge_cases i (length t)); [now rewrite app_nth1 in Hn|].
           rewrite app_nth2 in Hn by auto. destruct (i - length t) as [|[|]]; cbn in Hn; discriminate.
        -- intros [Hn|[Hn|Hn]]; [|discriminate|auto]. left. destruct (Nat.lt_ge_cases i (length t)); [now rewrite app_nth1|].
           rewrite nth_overflow in Hn by auto. discriminate.
      * intros i [Hn|Hn]; [discriminate|auto].
    + rewrite dt_inc_spec in E. destruct (Nat.ltb_spec k (length t)) as [Hk|Hk]; [|discriminate]. cbn [obind] in E.
      destruct (IH _ _ E) as (L & H & B). rewrite upd_length in L. unfold added in *. cbn [filter length] in *.
      split; [lia|]. split.
      * intros i. rewrite H. rewrite nth_upd. unfold was_inced. cbn [In]. destruct (Nat.eqb_spec k i) as [->|Hne].
        -- apply Nat.ltb_lt in Hk. rewrite Hk. split; auto.
        -- split; [intros [|]; auto|]. intros [|[X|]]; auto. congruence.
      * intros i [X|X]; [|auto]. injection X as ->. lia.
Qed.

(** Iteration yields true exactly at the indices inc'ed, over all elements added. *)
Theorem C34_tracks (h : list dt_call) (t : DensityTracker) : dt_run h dt_new = Done t ->
  length t = added h /\ get_query_size (Tracked t) = Some (added h) /\
  forall i, nth i t false = true <-> was_inced h i.
Proof.
  intros E. destruct (dt_run_gen h _ _ E) as (L & H & _). cbn in L. split; auto. split; [cbn; now rewrite L|].
  intros i. rewrite H. unfold dt_new. split; [|auto]. intros [X|]; auto. destruct i; discriminate.
Qed.
Print Assumptions C34_tracks.

Lemma count_true_filter t : forall k, count_occ bool_dec t true = length (filter (fun i => nth (i - k) t false) (seq k (length t))).
Proof.
  induction t as [|b t IH]; intros k; [reflexivity|]. cbn [length seq filter].
  rewrite Nat.sub_diag. assert (X : filter (fun i => nth (i - k) (b :: t) false) (seq (S k) (length t)) = filter (fun i => nth (i - S k) t false) (seq (S k) (length t))).
  { apply filter_ext_in. intros i Hi. apply in_seq in Hi. replace (i - k) with (S (i - S k)) by lia. reflexivity. }
  rewrite X. cbn [nth]. destruct b; cbn [count_occ]; destruct (bool_dec _ _); try congruence; cbn [length]; now rewrite (IH (S k)).
Qed.

(** The total density is the number of distinct indices inc'ed: the length of any list without
    repetition that has exactly those elements. *)
Theorem C34_total (h : list dt_call) (t : DensityTracker) (distinct : list nat) : dt_run h dt_new = Done t ->
  NoDup distinct -> (forall i, In i distinct <-> was_inced h i) ->
  dt_get_total_density t = length distinct.
Proof.
  intros E Hd Hi. destruct (C34_tracks h t E) as (L & _ & H). destruct (dt_run_gen h _ _ E) as (_ & _ & B). unfold dt_get_total_density.
  rewrite (count_true_filter t 0). apply Nat.le_antisymm; apply NoDup_incl_length; auto.
  - apply NoDup_filter, seq_NoDup.
  - intros i Hf. apply filter_In in Hf as [_ Hf]. rewrite Nat.sub_0_r in Hf. apply Hi, H, Hf.
  - intros i Hf. apply Hi in Hf. apply filter_In. rewrite Nat.sub_0_r. split; [apply in_seq; specialize (B i Hf); lia|now apply H].
Qed.
Print Assumptions C34_total.

(** Out-of-range [inc] panics, and nothing else does. *)
Theorem C34_panics_iff (h : list dt_call) :
  dt_run h dt_new = Panicked <-> exists h1 i h2, h = h1 ++ Inc i :: h2 /\ added h1 <= i.
Proof.
  assert (G : forall h t, dt_run h t = Panicked <-> exists h1 i h2, h = h1 ++ Inc i :: h2 /\ length t + added h1 <= i).
  { clear h. induction h as [|c h IH]; intros t; cbn [dt_run].
    - split; [discriminate|]. intros ([|? ?] & i & h2 & X & _); discriminate.
    - destruct c as [|k].
      + rewrite IH. unfold dt_add_element. rewrite app_length. cbn [length]. split.
        * intros (h1 & i & h2 & -> & Hi). exists (AddElement :: h1), i, h2. split; auto. unfold added in *. cbn [filter length]. lia.
        * intros ([|c h1] & i & h2 & X & Hi); cbn [app] in X; [discriminate|]. injection X as <- ->. exists h1, i, h2. split; auto.
          unfold added in *. cbn [filter length] in Hi. lia.
      + rewrite dt_inc_spec. destruct (Nat.ltb_spec k (length t)) as [Hk|Hk]; cbn [obind].
        * rewrite IH, upd_length. split.
          -- intros (h1 & i & h2 & -> & Hi). exists (Inc k :: h1), i, h2. split; auto.
          -- intros ([|c h1] & i & h2 & X & Hi); cbn [app] in X.
             ++ injection X as -> ->. unfold added in Hi. cbn in Hi. lia.
             ++ injection X as <- ->. exists h1, i, h2. split; auto.
        * split; auto. intros _. exists [], k, h. split; auto. unfold added. cbn. lia. }
  apply (G h dt_new).
Qed.
Print Assumptions C34_panics_iff.

Example C34_ex :
  dt_run [AddElement; AddElement; Inc 1; AddElement; Inc 1; Inc 2] dt_new = Done [false; true; true] /\
  dt_get_total_density [false; true; true] = 2 /\
  dt_run [AddElement; Inc 1] dt_new = Panicked.
Proof. repeat split. Qed.
