(** Model of src/gadgets/multieq.rs: a constraint system that batches equalities. *)
From Coq Require Import String.
From Coq Require Import ZArith List Bool Lia Field.
From Verif Require Import Prelude PrimeField Circuit Loops BooleanGadget.
Import ListNotations.

Section Model.
Context {P : PrimeField}.
Local Open Scope F_scope.
Local Open Scope lc_scope.
Local Open Scope prog_scope.
Local Open Scope string_scope.

(** multieq.rs:5-11; the field [cs] is the program being built. *)
Record MeSt := { me_ops : nat; me_used : nat; me_lhs : LC P; me_rhs : LC P }.

(** multieq.rs:14-22 *)
Definition me_new : MeSt := {| me_ops := 0; me_used := 0; me_lhs := lc_zero; me_rhs := lc_zero |}.

(** multieq.rs:24-38 [accumulate] *)
Definition me_accumulate (s : MeSt) : prog P MeSt :=
  cs_enforce ("multieq " ++ nat_str (me_ops s)) (me_lhs s) (lc_zero +v one_var) (me_rhs s) ;;;
  Ret {| me_ops := S (me_ops s); me_used := 0; me_lhs := lc_zero; me_rhs := lc_zero |}.

(** multieq.rs:51-56 *)
Definition me_push (s : MeSt) (n : nat) (l r : LC P) : MeSt :=
  let coeff := fpow (ofZ 2) (me_used s) in
  {| me_ops := me_ops s; me_used := me_used s + n;
     me_lhs := me_lhs s +s (coeff, l); me_rhs := me_rhs s +s (coeff, r) |}.

(** multieq.rs:40-57 [enforce_equal] *)
Definition me_enforce_equal (s : MeSt) (n : nat) (l r : LC P) : prog P MeSt :=
  s <- (if Nat.leb (capacity P) (me_used s + n) then me_accumulate s else Ret s) ;;
  if Nat.ltb (me_used s + n) (capacity P) then Ret (me_push s n l r) else Panic.

(** multieq.rs:60-66 [drop] *)
Definition me_drop (s : MeSt) : prog P unit :=
  if Nat.ltb 0 (me_used s) then me_accumulate s ;;; Ret tt else Ret tt.

(** multieq.rs:68-121: everything but [enforce_equal] is forwarded to the inner system. *)
Fixpoint multieq {A} (p : prog P A) (s : MeSt) : prog P (A * MeSt) :=
  match p with
  | Ret a => Ret (a, s)
  | Panic => Panic
  | Alloc n f k => Alloc n f (fun r b => multieq (k r b) s)
  | AllocInput n f k => AllocInput n f (fun r b => multieq (k r b) s)
  | Enforce n a b c k => Enforce n a b c (multieq k s)
  | EnforceEq n l r k => bind (me_enforce_equal s n l r) (multieq k)
  | PushNs n k => PushNs n (multieq k s)
  | PopNs k => PopNs (multieq k s)
  end.

(** A block in which [cs] is shadowed by [MultiEq::new(cs)] (sha256.rs:97, blake2s.rs:331); the
    [MultiEq] is dropped when the block is left, normally or through [?]. *)
Definition multieq_scope {A} (p : prog P A) : prog P A :=
  bind (multieq p me_new) (fun x => bind (me_drop (snd x)) (fun _ => Ret (fst x))).

End Model.

Section Proofs.
Context {P : PrimeField}.
Local Open Scope F_scope.
Add Field PFfield_me : (F_field P).

(** ** Mixed-radix representation *)

Definition req_n (q : EqReq P) : nat := fst (fst q).
Definition req_l (q : EqReq P) : LC P := snd (fst q).
Definition req_r (q : EqReq P) : LC P := snd q.

Definition total (qs : list (EqReq P)) : nat := fold_right (fun q acc => (req_n q + acc)%nat) 0%nat qs.
Fixpoint wsum (rho : Var -> P) (sel : EqReq P -> LC P) (qs : list (EqReq P)) : P :=
  match qs with
  | [] => 0
  | q :: t => eval rho (sel q) + ofZ (2 ^ Z.of_nat (req_n q)) * wsum rho sel t
  end.

Lemma total_app a b : total (a ++ b) = (total a + total b)%nat.
Proof. induction a; cbn; auto. unfold total in *. lia. Qed.

Lemma wsum_app rho sel a b : wsum rho sel (a ++ b) = wsum rho sel a + ofZ (2 ^ Z.of_nat (total a)) * wsum rho sel b.
Proof.
  induction a as [|q a IH]; cbn [app wsum total fold_right].
  - change (2 ^ Z.of_nat 0)%Z with 1%Z. rewrite ofZ_1. ring.
  - fold (total a). rewrite IH, Nat2Z.inj_add, Z.pow_add_r, ofZ_mul by lia. ring.
Qed.

Definition req_bounded (rho : Var -> P) (q : EqReq P) : Prop := bounded rho (req_n q) (req_l q) /\ bounded rho (req_n q) (req_r q).
Definition req_holds (rho : Var -> P) (q : EqReq P) : Prop := eval rho (req_l q) = eval rho (req_r q).

Lemma wsum_int rho sel qs : Forall (fun q => bounded rho (req_n q) (sel q)) qs ->
  exists z, (0 <= z < 2 ^ Z.of_nat (total qs))%Z /\ wsum rho sel qs = ofZ z.
Proof.
  induction 1 as [|q qs (z & Hz & E) HF (z' & Hz' & E')]; cbn [wsum total fold_right].
  - exists 0%Z. rewrite ofZ_0. cbn. split; [lia|reflexivity].
  - fold (total qs). exists (z + 2 ^ Z.of_nat (req_n q) * z')%Z. split.
    + rewrite Nat2Z.inj_add, Z.pow_add_r by lia. nia.
    + rewrite E, E', ofZ_add, ofZ_mul. reflexivity.
Qed.

Lemma ofZ_inj_pow2 n a b : (n <= capacity P)%nat -> (0 <= a < 2 ^ Z.of_nat n)%Z -> (0 <= b < 2 ^ Z.of_nat n)%Z ->
  (ofZ a : P) = ofZ b -> a = b.
Proof.
  intros Hn Ha Hb. pose proof (pow2_capacity (P := P)).
  assert (2 ^ Z.of_nat n <= 2 ^ Z.of_nat (capacity P))%Z by (apply Z.pow_le_mono_r; lia).
  apply ofZ_inj_small; lia.
Qed.

(** Equal mixed-radix sums have equal digits. *)
Lemma wsum_digits rho qs : (total qs <= capacity P)%nat -> Forall (req_bounded rho) qs ->
  wsum rho req_l qs = wsum rho req_r qs -> Forall (req_holds rho) qs.
Proof.
  intros Hc HF. revert Hc. induction HF as [|q qs [Hl Hr] HF IH]; intros Hc H; [constructor|].
  cbn [total fold_right] in Hc. fold (total qs) in Hc. cbn [wsum] in H.
  destruct Hl as (a & Ha & Ea), Hr as (b & Hb & Eb).
  assert (HFl : Forall (fun q => bounded rho (req_n q) (req_l q)) qs) by (eapply Forall_impl; [|exact HF]; intros ? [? ?]; auto).
  assert (HFr : Forall (fun q => bounded rho (req_n q) (req_r q)) qs) by (eapply Forall_impl; [|exact HF]; intros ? [? ?]; auto).
  destruct (wsum_int _ _ _ HFl) as (x & Hx & Ex). destruct (wsum_int _ _ _ HFr) as (y & Hy & Ey).
  rewrite Ea, Eb, Ex, Ey, <- !ofZ_mul, <- !ofZ_add in H.
  apply (ofZ_inj_pow2 (req_n q + total qs)) in H; [|lia|rewrite Nat2Z.inj_add, Z.pow_add_r by lia; nia|rewrite Nat2Z.inj_add, Z.pow_add_r by lia; nia].
  assert (a = b /\ x = y) as [-> ->].
  { set (m := (2 ^ Z.of_nat (req_n q))%Z) in *.
    assert (a = b).
    { rewrite <- (Z.mod_small a m), <- (Z.mod_small b m) by lia.
      rewrite <- (Z.mod_add a x m), <- (Z.mod_add b y m) by lia. f_equal. lia. }
    split; [auto|]. subst b. nia. }
  constructor; [unfold req_holds; congruence|]. apply IH; [lia|congruence].
Qed.

Lemma wsum_eq rho qs : Forall (req_holds rho) qs -> wsum rho req_l qs = wsum rho req_r qs.
Proof. induction 1 as [|q qs H HF IH]; cbn; [auto|]. now rewrite H, IH. Qed.

(** ** Invariant: [pending] is what has been accumulated and not yet enforced. *)
Definition pend (s : @MeSt P) (pending : list (EqReq P)) : Prop :=
  me_used s = total pending /\ (me_used s <= capacity P)%nat /\
  forall rho, eval rho (me_lhs s) = wsum rho req_l pending /\ eval rho (me_rhs s) = wsum rho req_r pending.

Lemma pend_new : pend me_new [].
Proof. repeat split; cbn; try lia; apply eval_zero. Qed.

Lemma ofZ_pow2_fpow n : (fpow (ofZ 2) n : P) = ofZ (2 ^ Z.of_nat n).
Proof.
  induction n; [cbn; now rewrite ofZ_1|]. rewrite fpow_S, IHn, pow2_S, ofZ_mul. reflexivity.
Qed.

Lemma pend_push s pending n l r : pend s pending -> (me_used s + n < capacity P)%nat ->
  pend (me_push s n l r) (pending ++ [(n, l, r)]).
Proof.
  intros (H1 & H2 & H3) Hn. repeat split; cbn [me_push me_used me_lhs me_rhs].
  - rewrite total_app. cbn. lia.
  - lia.
  - rewrite eval_add_scaled, (proj1 (H3 rho)), wsum_app, ofZ_pow2_fpow, H1. cbn. ring.
  - rewrite eval_add_scaled, (proj2 (H3 rho)), wsum_app, ofZ_pow2_fpow, H1. cbn. ring.
Qed.

Lemma pend_reset (s : @MeSt P) : pend {| me_ops := S (me_ops s); me_used := 0; me_lhs := lc_zero; me_rhs := lc_zero |} [].
Proof. repeat split; cbn; try lia; apply eval_zero. Qed.

(** The constraint enforced by [accumulate]. *)
Lemma accumulate_sem rho s pending : rho one_var = 1 -> pend s pending ->
  (eval rho (me_lhs s) * eval rho (lc_add_var lc_zero one_var) = eval rho (me_rhs s) <->
   wsum rho req_l pending = wsum rho req_r pending).
Proof.
  intros H1 (_ & _ & H). destruct (H rho) as [-> ->]. rewrite eval_add_var, eval_zero, H1.
  split; intros E; [rewrite <- E|rewrite E]; ring.
Qed.

Ltac invm := match goal with He : emits _ _ _ _ |- _ => inversion He; subst; clear He end;
  match goal with H : emits (multieq _ _) _ _ _ |- _ => rename H into He1 end.

(** What a run of a batched program enforces, in terms of the requests of the program. *)
Lemma multieq_emits {A} (p : prog P A) : forall s pending r s' cs, pend s pending ->
  emits (multieq p s) (r, s') cs [] ->
  exists cs0 eqs flushed pending', (emits p r cs0 eqs /\ Forall (fun q => (req_n q < capacity P)%nat) eqs) /\ pend s' pending' /\ pending ++ eqs = flushed ++ pending' /\
    forall rho, rho one_var = 1 ->
      (sat rho cs -> sat rho cs0 /\ (Forall (req_bounded rho) flushed -> Forall (req_holds rho) flushed)) /\
      (sat rho cs0 -> Forall (req_holds rho) flushed -> sat rho cs).
Proof.
  induction p as [a| |n f k IH|n f k IH|n a b c k IH|n l r k IH|n k IH|k IH]; intros s pending res s' cs Hp He; cbn [multieq] in He.
  - inversion He; subst. exists [], [], [], pending. rewrite app_nil_r.
    refine (conj (conj (em_ret _) (Forall_nil _)) (conj Hp (conj eq_refl _))). intros rho H1. repeat split; auto.
  - inversion He.
  - invm. destruct (IH _ _ _ _ _ _ _ Hp He1) as (cs0 & eqs & fl & pd & H4 & H5 & H6 & H7).
    exists cs0, eqs, fl, pd. split; [split; [econstructor; apply H4|apply H4]|]. auto.
  - invm. destruct (IH _ _ _ _ _ _ _ Hp He1) as (cs0 & eqs & fl & pd & H4 & H5 & H6 & H7).
    exists cs0, eqs, fl, pd. split; [split; [econstructor; apply H4|apply H4]|]. auto.
  - invm. destruct (IH _ _ _ _ _ Hp He1) as (cs00 & eqs & fl & pd & H4 & H5 & H6' & H7).
    exists ((a, b, c) :: cs00), eqs, fl, pd. split; [split; [constructor; apply H4|apply H4]|]. refine (conj H5 (conj H6' _)).
    intros rho H1. destruct (H7 rho H1) as [Hs Hc]. split.
    + intros HS. inversion HS as [|? ? Hh Ht]; subst. destruct (Hs Ht) as [HA HB]. split; [constructor; [exact Hh|exact HA]|exact HB].
    + intros HS HF. inversion HS as [|? ? Hh Ht]; subst. constructor; [exact Hh|]. exact (Hc Ht HF).
  - unfold me_enforce_equal in He.
    destruct (Nat.leb (capacity P) (me_used s + n)) eqn:Ef.
    + unfold me_accumulate, cs_enforce in He; cbn [bind] in He.
      match type of He with context [Nat.ltb ?x ?y] => destruct (Nat.ltb_spec x y) as [Hlt|] end;
        [|cbn [bind] in He; inversion He; match goal with H : emits Panic _ _ _ |- _ => inversion H end].
      cbn [bind] in He. inversion He as [| | |? ? ? ? ? ? cs1 ? He1| | |]; subst. clear He.
      destruct (IH _ _ _ _ _ (pend_push _ [] n l r (pend_reset s) Hlt) He1) as (cs0 & eqs & fl & pd & H4 & H5 & H6 & H7).
      exists cs0, ((n, l, r) :: eqs), (pending ++ fl), pd. split; [split; [constructor; apply H4|constructor; [cbn in *; lia|apply H4]]|]. split; [auto|]. split.
      { cbn [app] in H6. now rewrite <- app_assoc, <- H6. }
      intros rho H1. destruct (H7 rho H1) as [Hs Hc]. split.
      * intros HS. inversion HS as [|? ? Hh Ht]; subst. destruct (Hs Ht) as [HS0 HB]. split; [auto|].
        intros HF. apply Forall_app in HF as [HF1 HF2]. apply Forall_app. split; [|auto].
        apply (accumulate_sem rho s pending H1 Hp) in Hh. destruct Hp as (Hu & Hcap & _).
        apply wsum_digits; auto. lia.
      * intros HS HF. apply Forall_app in HF as [HF1 HF2]. constructor; [|exact (Hc HS HF2)].
        apply (accumulate_sem rho s pending H1 Hp). now apply wsum_eq.
    + cbn [bind] in He. apply Nat.leb_gt in Ef. destruct (Nat.ltb_spec (me_used s + n) (capacity P)) as [Hlt|]; [|lia].
      cbn [bind] in He. destruct (IH _ _ _ _ _ (pend_push _ _ n l r Hp Hlt) He) as (cs0 & eqs & fl & pd & H4 & H5 & H6 & H7).
      exists cs0, ((n, l, r) :: eqs), fl, pd. split; [split; [constructor; apply H4|constructor; [cbn in *; lia|apply H4]]|]. split; [auto|]. split; [|auto].
      rewrite <- H6, <- app_assoc. reflexivity.
  - invm. destruct (IH _ _ _ _ _ Hp He1) as (cs0 & eqs & fl & pd & H4 & H5 & H6 & H7).
    exists cs0, eqs, fl, pd. split; [split; [econstructor; apply H4|apply H4]|]. auto.
  - invm. destruct (IH _ _ _ _ _ Hp He1) as (cs0 & eqs & fl & pd & H4 & H5 & H6 & H7).
    exists cs0, eqs, fl, pd. split; [split; [econstructor; apply H4|apply H4]|]. auto.
Qed.

Lemma total_zero_holds rho qs : total qs = 0%nat -> Forall (req_bounded rho) qs -> Forall (req_holds rho) qs.
Proof.
  intros Ht HF. induction HF as [|q qs [(a & Ha & Ea) (b & Hb & Eb)] HF IH]; [constructor|].
  cbn in Ht. fold (total qs) in Ht. assert (E : req_n q = 0%nat) by lia. rewrite E in *. cbn in Ha, Hb.
  constructor; [|apply IH; lia]. unfold req_holds. rewrite Ea, Eb. f_equal. lia.
Qed.

Lemma multieq_scope_emits {A} (p : prog P A) r cs : emits (multieq_scope p) r cs [] ->
  exists cs0 eqs, (emits p r cs0 eqs /\ Forall (fun q => (req_n q < capacity P)%nat) eqs) /\ forall rho, rho one_var = 1 ->
    (sat rho cs -> Forall (req_bounded rho) eqs -> sat rho cs0 /\ Forall (req_holds rho) eqs) /\
    (sat rho cs -> sat rho cs0) /\
    (sat rho cs0 -> Forall (req_holds rho) eqs -> sat rho cs).
Proof.
  unfold multieq_scope. intros He. apply emits_bind in He as ([a s'] & cs1 & es1 & cs2 & es2 & H1 & H2 & -> & Hes).
  symmetry in Hes. apply app_eq_nil in Hes as [-> ->]. cbn [fst snd] in H2.
  destruct (multieq_emits p me_new [] a s' cs1 pend_new H1) as (cs0 & eqs & fl & pd & H3 & H4 & H5 & H6).
  cbn [app] in H5. unfold me_drop in H2.
  assert (Hd : r = a /\ forall rho, rho one_var = 1 ->
     (sat rho cs2 -> Forall (req_bounded rho) pd -> Forall (req_holds rho) pd) /\ (Forall (req_holds rho) pd -> sat rho cs2)).
  { destruct (Nat.ltb_spec 0 (me_used s')).
    - unfold me_accumulate, cs_enforce in H2; cbn [bind] in H2. inversion H2 as [| | |? ? ? ? ? ? cs3 ? He1| | |]; subst.
      inversion He1; subst. split; [auto|]. intros rho Hone. split.
      + intros HS HB. inversion HS as [|? ? Hh Ht]; subst. apply (accumulate_sem rho s' pd Hone H4) in Hh.
        destruct H4 as (Hu & Hcap & _). apply wsum_digits; auto. lia.
      + intros HH. constructor; [|constructor]. apply (accumulate_sem rho s' pd Hone H4). now apply wsum_eq.
    - cbn [bind] in H2. inversion H2; subst. split; [auto|]. intros rho Hone. split; [|constructor].
      intros _ HB. apply total_zero_holds; auto. destruct H4 as (Hu & _). lia. }
  destruct Hd as [-> Hd]. exists cs0, eqs. split; [auto|]. intros rho Hone.
  destruct (H6 rho Hone) as [Ha Hb]. destruct (Hd rho Hone) as [Hc Hde]. repeat split.
  - apply sat_app in H. apply Ha; tauto.
  - apply sat_app in H. rewrite H5 in *. apply Forall_app in H0. apply Forall_app. split; [apply Ha; tauto|apply Hc; tauto].
  - intros HS. apply sat_app in HS. apply Ha; tauto.
  - intros HS HE. rewrite H5 in HE. apply Forall_app in HE. apply sat_app. split; [apply Hb; tauto|apply Hde; tauto].
Qed.

(** A program whose requests are all small enough does not panic in a [MultiEq]. *)
Lemma multieq_exists {A} (p : prog P A) r cs0 eqs : emits p r cs0 eqs ->
  Forall (fun q => (req_n q < capacity P)%nat) eqs -> forall s, exists cs s', emits (multieq p s) (r, s') cs [].
Proof.
  induction 1; intros HF s; cbn [multieq].
  - eexists _, _. constructor.
  - destruct (IHemits HF s) as (cs1 & s1 & H1). eexists _, _. econstructor. exact H1.
  - destruct (IHemits HF s) as (cs1 & s1 & H1). eexists _, _. econstructor. exact H1.
  - destruct (IHemits HF s) as (cs1 & s1 & H1). eexists _, _. econstructor. exact H1.
  - inversion HF as [|? ? Hn HF']; subst. cbn in Hn. unfold me_enforce_equal.
    destruct (Nat.leb (capacity P) (me_used s + n)) eqn:E.
    + unfold me_accumulate, cs_enforce. cbn [bind].
      match goal with |- context [Nat.ltb ?x ?y] => destruct (Nat.ltb_spec x y) as [Hlt|Hlt]; [|cbn in Hlt; lia] end.
      cbn [bind]. match goal with |- context [multieq k ?s1] => destruct (IHemits HF' s1) as (cs1 & s2 & H1) end.
      eexists _, _. econstructor. exact H1.
    + apply Nat.leb_gt in E. cbn [bind]. destruct (Nat.ltb_spec (me_used s + n) (capacity P)); [|lia]. cbn [bind].
      destruct (IHemits HF' (me_push s n l r)) as (cs1 & s2 & H1). eexists _, _. exact H1.
  - destruct (IHemits HF s) as (cs1 & s1 & H1). eexists _, _. econstructor. exact H1.
  - destruct (IHemits HF s) as (cs1 & s1 & H1). eexists _, _. econstructor. exact H1.
Qed.

Lemma multieq_scope_exists {A} (p : prog P A) r cs0 eqs : emits p r cs0 eqs ->
  Forall (fun q => (req_n q < capacity P)%nat) eqs -> exists cs, emits (multieq_scope p) r cs [].
Proof.
  intros He HF. destruct (multieq_exists p r cs0 eqs He HF me_new) as (cs & s' & H).
  unfold multieq_scope. unfold me_drop.
  assert (Hd : exists cs2, emits (bind (me_drop s') (fun _ => Ret r)) r cs2 []).
  { unfold me_drop. destruct (Nat.ltb _ _); eexists; [unfold me_accumulate, cs_enforce; cbn [bind]; econstructor|]; constructor. }
  destruct Hd as [cs2 H2]. exists (cs ++ cs2). apply emits_bind. exists (r, s'), cs, [], cs2, []. auto.
Qed.

(** ** Rules *)

Lemma noeq_multieq {A} (p : prog P A) : forall s, noeq (multieq p s).
Proof.
  induction p as [a| |n f k IH|n f k IH|n a b c k IH|n l r k IH|n k IH|k IH]; intros s; cbn; auto.
  apply noeq_bind; auto. unfold me_enforce_equal. apply noeq_bind.
  - destruct (Nat.leb _ _); cbn; exact I.
  - intros s1. destruct (Nat.ltb _ _); exact I.
Qed.
Lemma noeq_drop (s : @MeSt P) : noeq (@me_drop P s).
Proof. unfold me_drop. destruct (Nat.ltb _ _); cbn; exact I. Qed.
Lemma noeq_scope {A} (p : prog P A) : noeq (multieq_scope p).
Proof. apply noeq_bind; [apply noeq_multieq|]. intros x. apply noeq_bind; [apply noeq_drop|]. cbn; auto. Qed.

(** For programs without requests [wpS] says exactly what the emitted constraints imply. *)
Lemma wpS_of_emits rho (G : Prop) {A} (p : prog P A) (Q : A -> Prop) : noeq p ->
  (forall r cs, emits p r cs [] -> sat rho cs -> Q r) -> wpS rho G p Q.
Proof.
  induction p as [a| |n f k IH|n f k IH|n a b c k IH|n l r k IH|n k IH|k IH]; cbn; intros Hn H; try tauto.
  - apply (H a []); constructor.
  - intros r b. apply IH; auto. intros. eapply H; eauto. econstructor; eauto.
  - intros r b. apply IH; auto. intros. eapply H; eauto. econstructor; eauto.
  - intros E. apply IH; auto. intros r cs He Hs. apply (H r ((a, b, c) :: cs)); constructor; auto.
  - apply IH; auto. intros. eapply H; eauto. econstructor; eauto.
  - apply IH; auto. intros. eapply H; eauto. econstructor; eauto.
Qed.

Lemma wpS_bounded rho {A} (p : prog P A) (Q : A -> Prop) r cs es : wpS rho False p Q -> emits p r cs es -> sat rho cs ->
  Forall (req_bounded rho) es.
Proof.
  intros H He. revert H. induction He; cbn; intros H Hs; auto.
  - inversion Hs; subst. auto.
  - destruct H as (H1 & H2 & H3). constructor; [split; auto|]. apply IHHe; auto. apply H3. tauto.
Qed.

Lemma wpS_holds rho {A} (p : prog P A) (Q : A -> Prop) r cs es : wpS rho True p Q -> emits p r cs es -> sat rho cs ->
  Forall (req_holds rho) es -> Q r.
Proof.
  intros H He. revert H. induction He; cbn; intros H Hs HF; auto.
  - inversion Hs; subst. auto.
  - destruct H as (H1 & H2 & H3). inversion HF; subst. apply IHHe; auto.
Qed.

(** The soundness rule: reason about the body with the equalities only promised ([G']). *)
Lemma wpS_multieq rho (G : Prop) {A} (p : prog P A) (Q : A -> Prop) : rho one_var = 1 ->
  (forall G' : Prop, wpS rho G' p (fun a => G' -> Q a)) -> wpS rho G (multieq_scope p) Q.
Proof.
  intros Hone H. apply wpS_of_emits; [apply noeq_scope|]. intros r cs He Hs.
  destruct (multieq_scope_emits p r cs He) as (cs0 & eqs & [He0 _] & HS). destruct (HS rho Hone) as (H1 & H2 & _).
  apply (wpS_holds rho p _ r cs0 eqs (H True)); auto.
  apply H1; auto. apply (wpS_bounded rho p _ r cs0 eqs (H False)); auto.
Qed.

(** The completeness rule. *)
Lemma wpC_multieq_aux rho {A} (p : prog P A) Q : rho one_var = 1 -> forall s,
  eval rho (me_lhs s) = eval rho (me_rhs s) -> wpC rho p Q ->
  wpC rho (multieq p s) (fun x => Q (fst x) /\ eval rho (me_lhs (snd x)) = eval rho (me_rhs (snd x))).
Proof.
  intros Hone.
  induction p as [a| |n f k IH|n f k IH|n a b c k IH|n l r k IH|n k IH|k IH]; intros s Hs H; cbn [multieq wpC] in *; auto.
  - destruct f; auto.
  - destruct f; auto.
  - destruct H. split; auto.
  - destruct H as (He & Hn & Hk). apply wpC_bind. unfold me_enforce_equal.
    assert (Hgo : forall s, eval rho (me_lhs s) = eval rho (me_rhs s) -> (me_used s + n < capacity P)%nat ->
      wpC rho (if Nat.ltb (me_used s + n) (capacity P) then Ret (me_push s n l r) else Panic)
       (fun a => wpC rho (multieq k a) (fun x => Q (fst x) /\ eval rho (me_lhs (snd x)) = eval rho (me_rhs (snd x))))).
    { intros s1 Hs1 Hlt. apply Nat.ltb_lt in Hlt. rewrite Hlt. cbn [wpC]. apply IH; auto.
      cbn [me_push me_lhs me_rhs]. rewrite !eval_add_scaled, Hs1, He. reflexivity. }
    destruct (Nat.leb (capacity P) (me_used s + n)) eqn:E.
    + unfold me_accumulate, cs_enforce; cbn [bind wpC]. split.
      * rewrite eval_add_var, eval_zero, Hone, Hs. ring.
      * apply Hgo; [reflexivity|cbn; lia].
    + apply Nat.leb_gt in E. cbn [bind wpC]. apply Hgo; auto.
Qed.

Lemma wpC_multieq rho {A} (p : prog P A) Q : rho one_var = 1 -> wpC rho p Q -> wpC rho (multieq_scope p) Q.
Proof.
  intros Hone H. unfold multieq_scope. apply wpC_bind.
  eapply wpC_mono; [|apply (wpC_multieq_aux rho p Q Hone me_new eq_refl H)].
  intros [a s] [HQ Hs]. cbn [fst snd] in *. unfold me_drop. destruct (Nat.ltb _ _).
  - unfold me_accumulate, cs_enforce; cbn [bind wpC]. split; [|auto]. rewrite eval_add_var, eval_zero, Hone, Hs. ring.
  - cbn. auto.
Qed.

(** The structure rules. *)
Lemma sim_multieq_aux {A B} (p : prog P A) : forall (q : prog P B) R s, sim p q R ->
  sim (multieq p s) (multieq q s) (fun x y => R (fst x) (fst y) /\ snd x = snd y).
Proof.
  induction p as [a| |n f k IH|n f k IH|n a b c k IH|n l r k IH|n k IH|k IH]; intros q R s H;
    destruct q as [a'| |n' f' k'|n' f' k'|n' a' b' c' k'|n' l' r' k'|n' k'|k']; cbn [sim multieq] in *; try tauto; auto.
  - destruct H as [-> H]. split; auto. intros v. specialize (H v). destruct f'; auto.
  - destruct H as [-> H]. split; auto. intros v. specialize (H v). destruct f'; auto.
  - destruct H as (-> & -> & -> & -> & H). repeat split; auto.
  - destruct H as (-> & -> & -> & H). apply sim_bind with (R := eq); [|intros ? ? ->; auto].
    unfold me_enforce_equal. apply sim_bind with (R := eq).
    + destruct (Nat.leb _ _); unfold me_accumulate, cs_enforce; cbn; repeat split; auto.
    + intros ? ? ->. destruct (Nat.ltb _ _); cbn; auto.
  - destruct H as [-> H]. split; auto.
Qed.

Lemma sim_multieq {A B} (p : prog P A) (q : prog P B) R : sim p q R -> sim (multieq_scope p) (multieq_scope q) R.
Proof.
  intros H. unfold multieq_scope. eapply sim_bind; [apply (sim_multieq_aux p q R me_new H)|].
  intros [a s] [b s'] [HR E]. cbn [fst snd] in *. subst s'. apply sim_bind with (R := eq).
  - unfold me_drop. destruct (Nat.ltb _ _); unfold me_accumulate, cs_enforce; cbn; repeat split; auto.
  - intros _ _ _. exact HR.
Qed.

Lemma ns_ok_multieq {A} (p : prog P A) : forall d s, ns_ok d p -> ns_ok d (multieq p s).
Proof.
  induction p as [a| |n f k IH|n f k IH|n a b c k IH|n l r k IH|n k IH|k IH]; intros d s H; cbn [ns_ok multieq] in *; auto.
  - apply (ns_ok_bind _ _ 0 d); auto. unfold me_enforce_equal. apply ns_ok_bind0.
    + destruct (Nat.leb _ _); unfold me_accumulate, cs_enforce; cbn; auto.
    + intros s1. destruct (Nat.ltb _ _); cbn; auto.
  - destruct d; auto.
Qed.

Lemma ns_ok_scope {A} (p : prog P A) : ns_ok 0 p -> ns_ok 0 (multieq_scope p).
Proof.
  intros H. apply ns_ok_bind0; [now apply ns_ok_multieq|]. intros x. apply ns_ok_bind0; [|cbn; auto].
  unfold me_drop. destruct (Nat.ltb _ _); unfold me_accumulate, cs_enforce; cbn; auto.
Qed.

Lemma only_multieq {A} (Q : A -> Prop) (p : prog P A) : forall s, only Q p -> only (fun x => Q (fst x)) (multieq p s).
Proof.
  induction p as [a| |n f k IH|n f k IH|n a b c k IH|n l r k IH|n k IH|k IH]; intros s H; cbn [only multieq] in *; auto.
  apply only_bind with (Q1 := fun _ => True); [|auto].
  unfold me_enforce_equal. apply only_bind with (Q1 := fun _ => True).
  - destruct (Nat.leb _ _); unfold me_accumulate, cs_enforce; cbn; auto.
  - intros s1 _. destruct (Nat.ltb _ _); cbn; auto.
Qed.

Lemma prop_multieq {A} (Q : A -> Prop) (p : prog P A) : forall s, prop Q p -> prop (fun x => Q (fst x)) (multieq p s).
Proof.
  induction p as [a| |n f k IH|n f k IH|n a b c k IH|n l r k IH|n k IH|k IH]; intros s H; cbn [prop multieq] in *; auto.
  - destruct H as [H1 H2]. split; auto. intros. now apply only_multieq.
  - destruct H as [H1 H2]. split; auto. intros. now apply only_multieq.
  - apply prop_bind with (Bad := fun _ => False); [|auto|intros ? []].
    unfold me_enforce_equal. apply prop_bind with (Bad := fun _ => False); [|intros s1|intros ? []].
    + destruct (Nat.leb _ _); unfold me_accumulate, cs_enforce; cbn; auto.
    + destruct (Nat.ltb _ _); cbn; auto.
Qed.

Lemma prop_scope {A} (Q : A -> Prop) (p : prog P A) : prop Q p -> prop Q (multieq_scope p).
Proof.
  intros H. unfold multieq_scope. eapply prop_bind; [apply (prop_multieq Q p me_new H)| |].
  - intros [a s]. cbn [fst snd]. apply prop_bind with (Bad := fun _ => False); [|cbn; auto|intros ? []].
    unfold me_drop. destruct (Nat.ltb _ _); unfold me_accumulate, cs_enforce; cbn; auto.
  - intros [a s] Ha. cbn [fst snd] in *. apply only_bind with (Q1 := fun _ => True); [|cbn; auto].
    unfold me_drop. destruct (Nat.ltb _ _); unfold me_accumulate, cs_enforce; cbn; auto.
Qed.

End Proofs.
#[export] Hint Resolve noeq_scope : struct_db.
