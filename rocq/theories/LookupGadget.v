(** Model of src/gadgets/lookup.rs. *)
From Coq Require Import String.
From Coq Require Import ZArith List Bool Lia Field.
From Verif Require Import Prelude PrimeField Circuit Loops BooleanGadget NumGadget.
Import ListNotations.

Section Model.
Context {P : PrimeField}.
Local Open Scope F_scope.
Local Open Scope lc_scope.
Local Open Scope prog_scope.
Local Open Scope string_scope.

(** lookup.rs:17-26: one iteration of the outer loop. *)
Definition synth_step (i : nat) (constant : P) (a : list P) : list P :=
  let cur := - nth i a 0 + constant in
  map (fun j => if Nat.eqb j i then cur
                else if andb (Nat.ltb i j) (Nat.eqb (Nat.land j i) i) then nth j a 0 + cur
                else nth j a 0) (seq 0 (List.length a)).

Fixpoint synth_loop (i : nat) (constants : list P) (a : list P) : list P :=
  match constants with
  | [] => a
  | c :: t => synth_loop (S i) t (synth_step i c a)
  end.

(** lookup.rs:11-27 [synth], called with [assignment] all zero (lookup.rs:71-74, 160-163). The
    number of constants is checked by the callers before, so the indexing cannot fail. *)
Definition synth (window_size : nat) (constants : list P) : list P :=
  synth_loop 0 constants (repeat 0 (2 ^ window_size)).

(** lookup.rs:43-62 *)
Definition index3 (a b c : Boolean) : option nat :=
  match b_value a, b_value b, b_value c with
  | Some x, Some y, Some z => Some ((if x then 1 else 0) + (if y then 2 else 0) + (if z then 4 else 0))%nat
  | _, _, _ => None
  end.

(** lookup.rs:133-145 *)
Definition index2 (a b : Boolean) : option nat :=
  match b_value a, b_value b with
  | Some x, Some y => Some ((if x then 1 else 0) + (if y then 2 else 0))%nat
  | _, _ => None
  end.

(** lookup.rs:80-96 resp. 98-114: the constraint for one coordinate. *)
Definition lookup_constraint (name : string) (b0 b1 b2 precomp : Boolean) (coeffs : list P) (r : AllocatedNum P) : prog P unit :=
  let one := one_var in
  let c := fun i => nth i coeffs 0 in
  cs_enforce name
    (lc_zero +t (c 1%nat, one) +l b_lc b1 one (c 3%nat) +l b_lc b2 one (c 5%nat) +l b_lc precomp one (c 7%nat))
    (lc_zero +l b_lc b0 one 1)
    (lc_zero +v an_var r -t (c 0%nat, one) -l b_lc b1 one (c 2%nat) -l b_lc b2 one (c 4%nat) -l b_lc precomp one (c 6%nat)).

(** lookup.rs:31-117 [lookup3_xy] *)
Definition lookup3_xy (bits : list Boolean) (coords : list (P * P)) : prog P (res (AllocatedNum P * AllocatedNum P)) :=
  match bits with
  | [b0; b1; b2] =>
      if negb (Nat.eqb (List.length coords) 8) then Panic else
      let i := index3 b0 b1 b2 in
      let* res_x := ns "x" (an_alloc (rmap (fun i => fst (nth i coords (0, 0))) (get i))) in
      let* res_y := ns "y" (an_alloc (rmap (fun i => snd (nth i coords (0, 0))) (get i))) in
      let x_coeffs := synth 3 (map fst coords) in
      let y_coeffs := synth 3 (map snd coords) in
      let* precomp := ns "precomp" (b_and b1 b2) in
      lookup_constraint "x-coordinate lookup" b0 b1 b2 precomp x_coeffs res_x ;;;
      lookup_constraint "y-coordinate lookup" b0 b1 b2 precomp y_coeffs res_y ;;;
      Ret (Ok (res_x, res_y))
  | _ => Panic
  end.

(** lookup.rs:121-186 [lookup3_xy_with_conditional_negation] *)
Definition lookup3_xy_neg (bits : list Boolean) (coords : list (P * P)) : prog P (res (Num P * Num P)) :=
  match bits with
  | [b0; b1; b2] =>
      if negb (Nat.eqb (List.length coords) 4) then Panic else
      let one := one_var in
      let* y := ns "y" (an_alloc
        (rbind (get (index2 b0 b1)) (fun i =>
         rbind (get (b_value b2)) (fun s : bool =>
         let tmp := snd (nth i coords (0, 0)) in Ok (if s then - tmp else tmp))))) in
      let x_coeffs := synth 2 (map fst coords) in
      let y_coeffs := synth 2 (map snd coords) in
      let cx := fun i => nth i x_coeffs 0 in
      let cy := fun i => nth i y_coeffs 0 in
      let* precomp := ns "precomp" (b_and b0 b1) in
      let x := num_add_bool (num_add_bool (num_add_bool (num_add_bool num_zero
                 one (BConst true) (cx 0%nat)) one b0 (cx 1%nat)) one b1 (cx 2%nat)) one precomp (cx 3%nat) in
      let y_lc := b_lc precomp one (cy 3%nat) +l b_lc b1 one (cy 2%nat) +l b_lc b0 one (cy 1%nat) +t (cy 0%nat, one) in
      cs_enforce "y-coordinate lookup"
        (lc_zero +l y_lc +l y_lc) (lc_zero +l b_lc b2 one 1) (lc_zero +l y_lc -v an_var y) ;;;
      Ret (Ok (x, num_of_allocated y))
  | _ => Panic
  end.

End Model.

Section Proofs.
Context {P : PrimeField}.
Local Open Scope F_scope.
Add Field PFfield_lookup : (F_field P).

Lemma synth_step_length i c a : length (@synth_step P i c a) = length a.
Proof. unfold synth_step. now rewrite map_length, seq_length. Qed.

Lemma synth_step_nth i c a j : (j < length a)%nat ->
  nth j (@synth_step P i c a) 0 =
    if Nat.eqb j i then - nth i a 0 + c
    else if andb (Nat.ltb i j) (Nat.eqb (Nat.land j i) i) then nth j a 0 + (- nth i a 0 + c)
    else nth j a 0.
Proof. intros H. unfold synth_step. now rewrite nth_map_seq. Qed.

(** Sum of [f j] over the [j < n] whose bits are among those of [b]. *)
Fixpoint subsum (f : nat -> P) (b n : nat) : P :=
  match n with
  | O => 0
  | S m => (if Nat.eqb (Nat.land b m) m then f m else 0) + subsum f b m
  end.

Lemma subsum_ext f g b n : (forall j, (j < n)%nat -> f j = g j) -> subsum f b n = subsum g b n.
Proof. induction n; cbn; intros H; [auto|]. rewrite H, IHn by auto. reflexivity. Qed.

Lemma land_le a b : (Nat.land a b <= a)%nat.
Proof. apply Nat.ldiff_le. apply Nat.bits_inj. intros n. rewrite Nat.ldiff_spec, Nat.land_spec, Nat.bits_0. destruct (Nat.testbit a n), (Nat.testbit b n); reflexivity. Qed.

Lemma subsum_stop f b n : (b < n)%nat -> subsum f b n = subsum f b (S b).
Proof.
  intros H. induction n; [lia|]. cbn [subsum].
  destruct (Nat.eq_dec n b) as [->|Hn]; [reflexivity|].
  rewrite IHn by lia. destruct (Nat.eqb (Nat.land b n) n) eqn:E; [|cbn [subsum]; ring].
  apply Nat.eqb_eq in E. pose proof (land_le b n). lia.
Qed.

(** Invariant before iteration [i]: below [i] the array interpolates, above it holds the sums. *)
Lemma synth_loop_spec cs : forall i a (done : list P), length done = i ->
  (i + length cs <= length a)%nat ->
  (forall b, (b < i)%nat -> subsum (fun j => nth j a 0) b (S b) = nth b done 0) ->
  (forall b, (i <= b < length a)%nat -> nth b a 0 = subsum (fun j => nth j a 0) b i) ->
  forall b, (b < i + length cs)%nat ->
  subsum (fun j => nth j (synth_loop i cs a) 0) b (S b) = nth b (done ++ cs) 0.
Proof.
  induction cs as [|c cs IH]; intros i a done Hd Hl Hlo Hhi b Hb; cbn [synth_loop length] in *.
  - rewrite app_nil_r. apply Hlo. lia.
  - replace (done ++ c :: cs) with ((done ++ [c]) ++ cs) by now rewrite <- app_assoc.
    assert (Hpre : forall j, (j < i)%nat -> nth j (synth_step i c a) 0 = nth j a 0).
    { intros j Hj. rewrite synth_step_nth by lia. destruct (Nat.eqb_spec j i); [lia|].
      destruct (Nat.ltb_spec i j); [lia|reflexivity]. }
    apply IH.
    + rewrite app_length. cbn. lia.
    + rewrite synth_step_length. lia.
    + intros b' Hb'. destruct (Nat.eq_dec b' i) as [->|Hne].
      * cbn [subsum]. rewrite Nat.land_diag, Nat.eqb_refl.
        rewrite synth_step_nth, Nat.eqb_refl by lia.
        rewrite (subsum_ext _ (fun j => nth j a 0)) by auto.
        rewrite <- Hhi by lia. rewrite app_nth2, Hd, Nat.sub_diag by lia. cbn. ring.
      * rewrite (subsum_ext _ (fun j => nth j a 0)) by (intros; apply Hpre; lia).
        rewrite Hlo by lia. rewrite app_nth1 by lia. reflexivity.
    + intros b' Hb'. rewrite synth_step_length in Hb'. rewrite synth_step_nth by lia.
      destruct (Nat.eqb_spec b' i); [lia|]. destruct (Nat.ltb_spec i b'); [|lia]. cbn [andb subsum].
      rewrite (subsum_ext (fun j => nth j (synth_step i c a) 0) (fun j => nth j a 0)) by auto.
      rewrite <- Hhi by lia. destruct (Nat.eqb (Nat.land b' i) i) eqn:E.
      * rewrite synth_step_nth, Nat.eqb_refl by lia. ring.
      * ring.
    + lia.
Qed.

Lemma synth_spec w (cs : list P) b : (length cs <= 2 ^ w)%nat -> (b < length cs)%nat ->
  subsum (fun j => nth j (synth w cs) 0) b (S b) = nth b cs 0.
Proof.
  intros Hl Hb. unfold synth.
  apply (synth_loop_spec cs 0 (repeat 0 (2 ^ w)) []); auto; cbn [length].
  - rewrite repeat_length. lia.
  - intros; lia.
  - intros b' Hb'. cbn. rewrite nth_repeat. reflexivity.
Qed.

Lemma synth_loop_length cs : forall i a, length (@synth_loop P i cs a) = length a.
Proof. induction cs; intros i a0; cbn; [auto|]. now rewrite IHcs, synth_step_length. Qed.
Lemma synth_length w (cs : list P) : length (synth w cs) = (2 ^ w)%nat.
Proof. unfold synth. now rewrite synth_loop_length, repeat_length. Qed.

Lemma subsum_fold f b n :
  subsum f b n = fold_right (fun j acc => if Nat.eqb (Nat.land j b) j then f j + acc else acc) 0 (seq 0 n).
Proof.
  induction n; [reflexivity|]. rewrite seq_S, fold_right_app. cbn [subsum fold_right Nat.add].
  rewrite IHn. rewrite (Nat.land_comm b n).
  set (F := fun j acc => if Nat.eqb (Nat.land j b) j then f j + acc else acc).
  assert (H : forall l a, fold_right F a l = fold_right F 0 l + a).
  { induction l as [|x l IHl]; intros a; cbn [fold_right]; [ring|]. rewrite IHl. unfold F. destruct (Nat.eqb (Nat.land x b) x); ring. }
  rewrite (H _ (if Nat.eqb (Nat.land n b) n then f n + 0 else 0)). fold F. destruct (Nat.eqb (Nat.land n b) n); ring.
Qed.

Definition idx3 (x y z : bool) : nat := (if x then 1 else 0) + (if y then 2 else 0) + (if z then 4 else 0).
Definition idx2 (x y : bool) : nat := (if x then 1 else 0) + (if y then 2 else 0).

(** The lookup constraint says that the result is the table entry. *)
Lemma lookup_equation (coeffs tbl : list P) (x y z : bool) (r : P) :
  subsum (fun j => nth j coeffs 0) (idx3 x y z) (S (idx3 x y z)) = nth (idx3 x y z) tbl 0 ->
  ((nth 1 coeffs 0 + nth 3 coeffs 0 * fbit y + nth 5 coeffs 0 * fbit z + nth 7 coeffs 0 * fbit (y && z)) * fbit x =
   r - nth 0 coeffs 0 - nth 2 coeffs 0 * fbit y - nth 4 coeffs 0 * fbit z - nth 6 coeffs 0 * fbit (y && z))
  <-> r = nth (idx3 x y z) tbl 0.
Proof.
  intros H. rewrite <- H. clear H.
  set (f := fun j => nth j coeffs 0).
  assert (E : subsum f (idx3 x y z) (S (idx3 x y z)) =
    (f 1%nat + f 3%nat * fbit y + f 5%nat * fbit z + f 7%nat * fbit (y && z)) * fbit x +
    f 0%nat + f 2%nat * fbit y + f 4%nat * fbit z + f 6%nat * fbit (y && z)).
  { clearbody f. destruct x, y, z; cbn; ring. }
  rewrite E. unfold f. clear.
  generalize (nth 0 coeffs 0) (nth 1 coeffs 0) (nth 2 coeffs 0) (nth 3 coeffs 0) (nth 4 coeffs 0) (nth 5 coeffs 0) (nth 6 coeffs 0) (nth 7 coeffs 0).
  intros c0 c1 c2 c3 c4 c5 c6 c7. split; intros H.
  - rewrite H. ring.
  - rewrite H. ring.
Qed.

Lemma idx3_lt x y z : (idx3 x y z < 8)%nat.
Proof. destruct x, y, z; cbn; lia. Qed.
Lemma idx2_lt x y : (idx2 x y < 4)%nat.
Proof. destruct x, y; cbn; lia. Qed.

Lemma synth3 (tbl : list P) x y z : length tbl = 8%nat ->
  subsum (fun j => nth j (synth 3 tbl) 0) (idx3 x y z) (S (idx3 x y z)) = nth (idx3 x y z) tbl 0.
Proof. intros H. pose proof (idx3_lt x y z). apply synth_spec; [cbn; lia|lia]. Qed.

Lemma synth2 (tbl : list P) x y : length tbl = 4%nat ->
  nth 0 (synth 2 tbl) 0 + nth 1 (synth 2 tbl) 0 * fbit x + nth 2 (synth 2 tbl) 0 * fbit y + nth 3 (synth 2 tbl) 0 * fbit (x && y)
  = nth (idx2 x y) tbl 0.
Proof.
  intros H. pose proof (idx2_lt x y). rewrite <- (synth_spec 2 tbl (idx2 x y)); [|cbn; lia|lia].
  generalize (synth 2 tbl). intros l. set (f := fun j => nth j l 0).
  change (f 0%nat + f 1%nat * fbit x + f 2%nat * fbit y + f 3%nat * fbit (x && y) = subsum f (idx2 x y) (S (idx2 x y))).
  clearbody f. destruct x, y; cbn; ring.
Qed.

Lemma nth_fst (l : list (P * P)) i : nth i (map fst l) 0 = fst (nth i l (0, 0)).
Proof. apply (map_nth fst l (0, 0) i). Qed.
Lemma nth_snd (l : list (P * P)) i : nth i (map snd l) 0 = snd (nth i l (0, 0)).
Proof. apply (map_nth snd l (0, 0) i). Qed.

Section Rho.
Variable rho : Var -> P.
Hypothesis Hone : rho one_var = 1.

(** What [lookup_constraint] enforces. *)
Lemma lookup_constraint_sem b0 b1 b2 pc x y z (tbl : list P) r :
  bit_is rho b0 x -> bit_is rho b1 y -> bit_is rho b2 z -> bit_is rho pc (y && z) -> length tbl = 8%nat ->
  forall name, exists a b c, @lookup_constraint P name b0 b1 b2 pc (synth 3 tbl) r = cs_enforce name a b c /\
  (eval rho a * eval rho b = eval rho c <-> rho (an_var r) = nth (idx3 x y z) tbl 0).
Proof.
  intros H0 H1 H2 Hp Hl name. eexists _, _, _. split; [reflexivity|].
  lcev. rewrite Hone.
  rewrite (eval_b_lc rho Hone _ _ _ H0), !(eval_b_lc rho Hone _ _ _ H1), !(eval_b_lc rho Hone _ _ _ H2), !(eval_b_lc rho Hone _ _ _ Hp).
  rewrite <- (lookup_equation (synth 3 tbl) tbl x y z (rho (an_var r)) (synth3 tbl x y z Hl)).
  generalize (nth 0 (synth 3 tbl) 0) (nth 1 (synth 3 tbl) 0) (nth 2 (synth 3 tbl) 0) (nth 3 (synth 3 tbl) 0) (nth 4 (synth 3 tbl) 0) (nth 5 (synth 3 tbl) 0) (nth 6 (synth 3 tbl) 0) (nth 7 (synth 3 tbl) 0).
  intros c0 c1 c2 c3 c4 c5 c6 c7.
  match goal with |- ?a = ?b <-> ?c = ?d => assert (E1 : a = c) by ring; assert (E2 : b = d) by ring; rewrite E1, E2; tauto end.
Qed.

Lemma lookup3_xy_sound (G : Prop) b0 b1 b2 coords x y z :
  bit_is rho b0 x -> bit_is rho b1 y -> bit_is rho b2 z ->
  wpS rho G (lookup3_xy [b0; b1; b2] coords) (okP (fun r =>
    (rho (an_var (fst r)), rho (an_var (snd r))) = nth (idx3 x y z) coords (0, 0))).
Proof.
  intros H0 H1 H2. unfold lookup3_xy. destruct (Nat.eqb_spec (length coords) 8) as [Hl|]; [|exact I]. cbn [negb].
  eapply wpS_bindq'; [apply wpS_ns, an_alloc_sound|]. intros rx _.
  eapply wpS_bindq'; [apply wpS_ns, an_alloc_sound|]. intros ry _.
  eapply wpS_bindq'; [apply wpS_ns, (b_and_sound rho Hone _ _ _ _ _ H1 H2)|]. cbv beta. intros pc Hp.
  destruct (lookup_constraint_sem b0 b1 b2 pc x y z (map fst coords) rx H0 H1 H2 Hp (eq_trans (map_length _ _) Hl) "x-coordinate lookup"%string)
    as (a & b & c & -> & E1).
  destruct (lookup_constraint_sem b0 b1 b2 pc x y z (map snd coords) ry H0 H1 H2 Hp (eq_trans (map_length _ _) Hl) "y-coordinate lookup"%string)
    as (a' & b' & c' & -> & E2).
  apply wpS_enforce. intros X. apply wpS_enforce. intros Y. cbn.
  rewrite (proj1 E1 X), (proj1 E2 Y), nth_fst, nth_snd. now destruct (nth _ coords _).
Qed.

Lemma lookup3_xy_complete b0 b1 b2 coords x y z : length coords = 8%nat ->
  bit_hon rho b0 x -> bit_hon rho b1 y -> bit_hon rho b2 z ->
  wpC rho (lookup3_xy [b0; b1; b2] coords) (isOk (fun r =>
    num_hon rho (fst r) (fst (nth (idx3 x y z) coords (0, 0))) /\
    num_hon rho (snd r) (snd (nth (idx3 x y z) coords (0, 0))))).
Proof.
  intros Hl H0 H1 H2. unfold lookup3_xy. rewrite Hl. cbn [negb Nat.eqb].
  assert (Ei : index3 b0 b1 b2 = Some (idx3 x y z)).
  { unfold index3. destruct H0 as [_ ->], H1 as [_ ->], H2 as [_ ->]. reflexivity. }
  rewrite Ei. cbn [get rmap].
  eapply wpC_bindq'; [apply wpC_ns, an_alloc_complete|]. intros rx Hx.
  eapply wpC_bindq'; [apply wpC_ns, an_alloc_complete|]. intros ry Hy.
  eapply wpC_bindq'; [apply wpC_ns, (b_and_complete rho Hone _ _ _ _ H1 H2)|]. cbv beta. intros pc Hp.
  destruct H0 as [H0 _], H1 as [H1 _], H2 as [H2 _], Hp as [Hp _].
  destruct (lookup_constraint_sem b0 b1 b2 pc x y z (map fst coords) rx H0 H1 H2 Hp (eq_trans (map_length _ _) Hl) "x-coordinate lookup"%string)
    as (a & b & c & -> & E1).
  destruct (lookup_constraint_sem b0 b1 b2 pc x y z (map snd coords) ry H0 H1 H2 Hp (eq_trans (map_length _ _) Hl) "y-coordinate lookup"%string)
    as (a' & b' & c' & -> & E2).
  apply wpC_enforce; [apply E1; rewrite nth_fst; apply Hx|].
  apply wpC_enforce; [apply E2; rewrite nth_snd; apply Hy|].
  cbn. auto.
Qed.

(** Conditional negation. *)
Definition cond_neg (s : bool) (y : P) : P := if s then - y else y.

Lemma neg_equation (s : bool) (v y : P) : ((v + v) * fbit s = v - y) <-> y = cond_neg s v.
Proof.
  destruct s; cbn; split; intros H.
  - transitivity (v - (v - y)); [ring|]. rewrite <- H. ring.
  - rewrite H. ring.
  - transitivity (v - (v - y)); [ring|]. rewrite <- H. ring.
  - rewrite H. ring.
Qed.

Lemma y_lc_eval b0 b1 pc x y (tbl : list P) : bit_is rho b0 x -> bit_is rho b1 y -> bit_is rho pc (x && y) ->
  length tbl = 4%nat ->
  eval rho (lc_add_term (lc_add_lc (lc_add_lc (b_lc pc one_var (nth 3 (synth 2 tbl) 0)) (b_lc b1 one_var (nth 2 (synth 2 tbl) 0)))
    (b_lc b0 one_var (nth 1 (synth 2 tbl) 0))) (nth 0 (synth 2 tbl) 0) one_var) = nth (idx2 x y) tbl 0.
Proof.
  intros H0 H1 Hp Hl. lcev. rewrite Hone, (eval_b_lc rho Hone _ _ _ H0), (eval_b_lc rho Hone _ _ _ H1), (eval_b_lc rho Hone _ _ _ Hp).
  rewrite <- (synth2 tbl x y Hl). ring.
Qed.

Lemma x_num_eval b0 b1 pc x y (tbl : list P) : bit_is rho b0 x -> bit_is rho b1 y -> bit_is rho pc (x && y) ->
  length tbl = 4%nat -> let c := fun i => nth i (synth 2 tbl) 0 in
  eval rho (num_lc_ (num_add_bool (num_add_bool (num_add_bool (num_add_bool num_zero
     one_var (BConst true) (c 0%nat)) one_var b0 (c 1%nat)) one_var b1 (c 2%nat)) one_var pc (c 3%nat))) = nth (idx2 x y) tbl 0.
Proof.
  intros H0 H1 Hp Hl c. rewrite (num_add_bool_eval rho Hone _ _ _ _ Hp), (num_add_bool_eval rho Hone _ _ _ _ H1),
    (num_add_bool_eval rho Hone _ _ _ _ H0), (num_add_bool_eval rho Hone _ (BConst true) true _ eq_refl).
  cbn [num_zero num_lc_]. rewrite eval_zero, <- (synth2 tbl x y Hl). subst c. cbn [fbit]. ring.
Qed.

Lemma lookup3_xy_neg_sound (G : Prop) b0 b1 b2 coords x y z :
  bit_is rho b0 x -> bit_is rho b1 y -> bit_is rho b2 z ->
  wpS rho G (lookup3_xy_neg [b0; b1; b2] coords) (okP (fun r =>
    eval rho (num_lc_ (fst r)) = fst (nth (idx2 x y) coords (0, 0)) /\
    eval rho (num_lc_ (snd r)) = cond_neg z (snd (nth (idx2 x y) coords (0, 0))))).
Proof.
  intros H0 H1 H2. unfold lookup3_xy_neg. destruct (Nat.eqb_spec (length coords) 4) as [Hl|]; [|exact I]. cbn [negb].
  eapply wpS_bindq'; [apply wpS_ns, an_alloc_sound|]. intros ry _.
  eapply wpS_bindq'; [apply wpS_ns, (b_and_sound rho Hone _ _ _ _ _ H0 H1)|]. cbv beta. intros pc Hp.
  apply wpS_enforce. rewrite !eval_add_lc, eval_sub_var, !eval_add_lc, eval_zero, (eval_b_lc rho Hone _ _ _ H2).
  rewrite (y_lc_eval b0 b1 pc x y (map snd coords)) by (auto; now rewrite map_length). intros H.
  cbn -[num_add_bool num_of_allocated]. split.
  - rewrite (x_num_eval b0 b1 pc x y (map fst coords)) by (auto; now rewrite map_length). apply nth_fst.
  - rewrite num_of_allocated_eval, <- nth_snd. apply neg_equation.
    etransitivity; [|etransitivity; [exact H|]]; ring.
Qed.

Lemma lookup3_xy_neg_complete b0 b1 b2 coords x y z : length coords = 4%nat ->
  bit_hon rho b0 x -> bit_hon rho b1 y -> bit_hon rho b2 z ->
  wpC rho (lookup3_xy_neg [b0; b1; b2] coords) (isOk (fun r =>
    numc_hon rho (fst r) (fst (nth (idx2 x y) coords (0, 0))) /\
    numc_hon rho (snd r) (cond_neg z (snd (nth (idx2 x y) coords (0, 0)))))).
Proof.
  intros Hl H0 H1 H2. unfold lookup3_xy_neg. rewrite Hl. cbn [negb Nat.eqb].
  assert (Ei : index2 b0 b1 = Some (idx2 x y)).
  { unfold index2. destruct H0 as [_ ->], H1 as [_ ->]. reflexivity. }
  rewrite Ei, (proj2 H2). cbn [get rbind].
  eapply wpC_bindq'; [apply wpC_ns, an_alloc_complete|]. intros ry Hy. fold (cond_neg z (snd (nth (idx2 x y) coords (0, 0)))) in Hy.
  eapply wpC_bindq'; [apply wpC_ns, (b_and_complete rho Hone _ _ _ _ H0 H1)|]. cbv beta. intros pc Hp.
  apply wpC_enforce.
  - rewrite !eval_add_lc, eval_sub_var, !eval_add_lc, eval_zero, (eval_b_lc rho Hone _ _ _ (proj1 H2)).
    rewrite (y_lc_eval b0 b1 pc x y (map snd coords)) by (try apply H0; try apply H1; try apply Hp; now rewrite map_length).
    destruct Hy as [Hy _]. rewrite <- nth_snd in Hy. apply neg_equation in Hy. etransitivity; [|etransitivity; [exact Hy|]]; ring.
  - cbn -[num_add_bool num_of_allocated]. split; [|now apply num_of_allocated_hon].
    pose proof (num_add_bool_hon rho Hone _ _ _ _ (nth 3 (synth 2 (map fst coords)) 0)
      (num_add_bool_hon rho Hone _ _ _ _ (nth 2 (synth 2 (map fst coords)) 0)
      (num_add_bool_hon rho Hone _ _ _ _ (nth 1 (synth 2 (map fst coords)) 0)
      (num_add_bool_hon rho Hone _ _ (BConst true) true (nth 0 (synth 2 (map fst coords)) 0) (num_zero_hon rho) (proj2 (hon_const rho true true) eq_refl))
      H0) H1) Hp) as H.
    match goal with H : numc_hon _ _ ?e |- numc_hon _ _ ?g => replace g with e; [exact H|] end.
    rewrite <- nth_fst, <- (synth2 (map fst coords) x y) by now rewrite map_length. cbn [fbit]. ring.
Qed.
End Rho.

(** ** Structure *)
Lemma lookup_constraint_sim name b0 b0' b1 b1' b2 b2' pc pc' (cf : list P) r r' {A B} (k : unit -> prog P A) (k' : unit -> prog P B) R :
  bsim b0 b0' -> bsim b1 b1' -> bsim b2 b2' -> bsim pc pc' -> ansim r r' -> sim (k tt) (k' tt) R ->
  sim (bind (lookup_constraint name b0 b1 b2 pc cf r) k) (bind (lookup_constraint name b0' b1' b2' pc' cf r') k') R.
Proof.
  intros H0 H1 H2 Hp Hr Hk. unfold lookup_constraint.
  apply sim_enforce; auto.
  - now rewrite (bsim_lc _ _ _ _ H1), (bsim_lc _ _ _ _ H2), (bsim_lc _ _ _ _ Hp).
  - now rewrite (bsim_lc _ _ _ _ H0).
  - now rewrite Hr, (bsim_lc _ _ _ _ H1), (bsim_lc _ _ _ _ H2), (bsim_lc _ _ _ _ Hp).
Qed.

Lemma lookup3_xy_sim bs bs' (coords : list (P * P)) : Forall2 bsim bs bs' ->
  sim (lookup3_xy bs coords) (lookup3_xy bs' coords) (resR (fun x y => ansim (fst x) (fst y) /\ ansim (snd x) (snd y))).
Proof.
  intros HF. destruct HF as [|b0 b0' ? ? H0 HF]; [exact I|].
  destruct HF as [|b1 b1' ? ? H1 HF]; [exact I|].
  destruct HF as [|b2 b2' ? ? H2 HF]; [exact I|].
  destruct HF as [|b3 b3' ? ? H3 HF]; [|exact I].
  unfold lookup3_xy. destruct (negb _); [exact I|].
  eapply sim_bindq; [apply sim_ns, an_alloc_sim|]. intros rx rx' Hx.
  eapply sim_bindq; [apply sim_ns, an_alloc_sim|]. intros ry ry' Hy.
  eapply sim_bindq; [apply sim_ns, (b_and_sim _ _ _ _ H1 H2)|]. intros pc pc' Hp.
  apply lookup_constraint_sim; auto. apply lookup_constraint_sim; auto. cbn. auto.
Qed.

Definition numsim (n m : Num P) : Prop := num_lc_ n = num_lc_ m.

Lemma num_add_bool_sim n m b b' c : numsim n m -> bsim b b' -> numsim (num_add_bool n one_var b c) (num_add_bool m one_var b' c).
Proof. unfold numsim. intros H Hb. cbn. now rewrite H, (bsim_lc _ _ _ _ Hb). Qed.

Lemma num_of_allocated_sim a b : ansim a b -> numsim (num_of_allocated a) (num_of_allocated b).
Proof. unfold numsim. intros H. cbn. now rewrite H. Qed.

Lemma lookup3_xy_neg_sim bs bs' (coords : list (P * P)) : Forall2 bsim bs bs' ->
  sim (lookup3_xy_neg bs coords) (lookup3_xy_neg bs' coords) (resR (fun x y => numsim (fst x) (fst y) /\ numsim (snd x) (snd y))).
Proof.
  intros HF. destruct HF as [|b0 b0' ? ? H0 HF]; [exact I|].
  destruct HF as [|b1 b1' ? ? H1 HF]; [exact I|].
  destruct HF as [|b2 b2' ? ? H2 HF]; [exact I|].
  destruct HF as [|b3 b3' ? ? H3 HF]; [|exact I].
  unfold lookup3_xy_neg. destruct (negb _); [exact I|].
  eapply sim_bindq; [apply sim_ns, an_alloc_sim|]. intros ry ry' Hy.
  eapply sim_bindq; [apply sim_ns, (b_and_sim _ _ _ _ H0 H1)|]. intros pc pc' Hp.
  apply sim_enforce; auto;
    rewrite ?Hy, ?(bsim_lc _ _ _ _ H1), ?(bsim_lc _ _ _ _ H0), ?(bsim_lc _ _ _ _ H2), ?(bsim_lc _ _ _ _ Hp); auto.
  cbn -[num_add_bool num_of_allocated]. split; [|now apply num_of_allocated_sim].
  repeat apply num_add_bool_sim; auto; reflexivity.
Qed.

Lemma lookup_constraint_noeq name b0 b1 b2 pc (cf : list P) r : noeq (lookup_constraint name b0 b1 b2 pc cf r).
Proof. unfold lookup_constraint. struct. Qed.
Lemma lookup_constraint_ns name b0 b1 b2 pc (cf : list P) r : ns_ok 0 (lookup_constraint name b0 b1 b2 pc cf r).
Proof. unfold lookup_constraint. struct. Qed.
Lemma lookup_constraint_prop Q name b0 b1 b2 pc (cf : list P) r : prop Q (lookup_constraint name b0 b1 b2 pc cf r).
Proof. unfold lookup_constraint. struct. Qed.
Hint Resolve lookup_constraint_noeq lookup_constraint_ns lookup_constraint_prop : struct_db.

Lemma lookup3_xy_gadget bs coords : Gadget (@lookup3_xy P bs coords).
Proof. destruct bs as [|b0 [|b1 [|b2 [|b3 bs]]]]; unfold lookup3_xy; [gadget|gadget|gadget| |gadget]. destruct (negb _); gadget. Qed.
Lemma lookup3_xy_neg_gadget bs coords : Gadget (@lookup3_xy_neg P bs coords).
Proof. destruct bs as [|b0 [|b1 [|b2 [|b3 bs]]]]; unfold lookup3_xy_neg; [gadget|gadget|gadget| |gadget]. destruct (negb _); gadget. Qed.
End Proofs.
#[export] Hint Resolve lookup3_xy_gadget lookup3_xy_neg_gadget : struct_db.
