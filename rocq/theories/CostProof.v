(** The gadgets cost what [CostSpec] says: auxiliary lemmas. *)
From Coq Require Import String.
From Coq Require Import ZArith List Bool Lia.
From Verif Require Import Prelude PrimeField Circuit Loops BooleanGadget MultiEq UInt32 UInt32Proof Sha256 Sha256Proof Blake2s Blake2sSpec Blake2sProof CostSpec Cost.
Import ListNotations.
Local Open Scope nat_scope.

Lemma Forall2_in_r {A B} (R : A -> B -> Prop) l m : Forall2 R l m -> forall b, In b m -> exists a, In a l /\ R a b.
Proof. induction 1 as [|x y l m H _ IH]; intros b [].
  - subst. exists x. split; [now left|auto].
  - destruct (IH b H0) as (a & Ha & Hr). exists a. split; [now right|auto].
Qed.
Definition fbill (x : fee) : bill := mkBill (fst x) (fst x) 0 (snd x).
Lemma fbill_plus x y : fbill (plus x y) = bill_add (fbill x) (fbill y).
Proof. reflexivity. Qed.
Lemma plus_free x : plus x free = x.
Proof. destruct x as [n w]. unfold plus; cbn [fst snd free]. now rewrite Z.add_0_r, app_nil_r. Qed.
Lemma free_plus x : plus free x = x.
Proof. destruct x as [n w]. reflexivity. Qed.
Lemma plus_assoc' x y z : plus x (plus y z) = plus (plus x y) z.
Proof. unfold plus; cbn [fst snd]. now rewrite Z.add_assoc, app_assoc. Qed.

Definition isvar (b : Boolean) : bool := negb (is_constant b).
Lemma isvar_not b : isvar (b_not b) = isvar b. Proof. destruct b; reflexivity. Qed.

Section Costs.
Context {P : PrimeField}.

(** ** Rules *)
Lemma costs_Alloc {B} n f (k : res Var -> bool -> prog P (res B)) x Q :
  (forall v b, costs (k (Ok v) b) x Q) -> (forall e b, exists e', k (Err e) b = Ret (Err e')) -> costs (Alloc n f k) (bill_aux x) Q.
Proof.
  intros H He r y S. inversion S; subst.
  - match goal with X : spends _ _ _ |- _ => destruct (H _ _ _ _ X) as [-> HQ] end. auto.
  - match goal with X : spends (k (Err ?e) ?b) _ _ |- _ => destruct (He e b) as [e' E]; rewrite E in X; inversion X end.
Qed.
Lemma costs_Enforce {B} n a b c (k : prog P (res B)) x Q : costs k x Q -> costs (Enforce n a b c k) (bill_con x) Q.
Proof. intros H r y S. inversion S; subst. match goal with X : spends _ _ _ |- _ => destruct (H _ _ X) as [-> HQ] end. auto. Qed.
Lemma costs_Eq {B} n l rr (k : prog P (res B)) x Q : costs k x Q -> costs (EnforceEq n l rr k) (bill_eq n x) Q.
Proof. intros H r y S. inversion S; subst. match goal with X : spends _ _ _ |- _ => destruct (H _ _ X) as [-> HQ] end. auto. Qed.

(** [p] succeeding spends the fee [x]. *)
Definition costf {A} (p : prog P (res A)) (x : fee) (Q : A -> Prop) : Prop := costs p (fbill x) Q.
Lemma costf_ret {A} (a : A) (Q : A -> Prop) : Q a -> costf (Ret (Ok a)) free Q.
Proof. intros H. exact (costs_ret a Q H). Qed.
Lemma costf_bindq {A B} (p : prog P (res A)) (g : A -> prog P (res B)) x y (Q1 : A -> Prop) Q :
  costf p x Q1 -> (forall a, Q1 a -> costf (g a) y Q) -> costf (bindq p g) (plus x y) Q.
Proof. intros H H'. unfold costf. rewrite fbill_plus. eapply costs_bindq; eauto. Qed.
Lemma costf_bindq0 {A B} (p : prog P (res A)) (g : A -> prog P (res B)) y (Q1 : A -> Prop) Q :
  costf p free Q1 -> (forall a, Q1 a -> costf (g a) y Q) -> costf (bindq p g) y Q.
Proof. intros H H'. rewrite <- (free_plus y). eapply costf_bindq; eauto. Qed.
Lemma costf_last {A B} (p : prog P (res A)) (g : A -> B) x (Q1 : A -> Prop) (Q : B -> Prop) :
  costf p x Q1 -> (forall a, Q1 a -> Q (g a)) -> costf (bindq p (fun a => Ret (Ok (g a)))) x Q.
Proof. intros Hp Hg. rewrite <- (plus_free x). eapply costf_bindq; [exact Hp|]. intros a Ha. apply costf_ret; auto. Qed.
Lemma costf_ns {A} n (p : prog P (res A)) x Q : costf p x Q -> costf (ns n p) x Q.
Proof. apply costs_ns. Qed.
Lemma costf_mono {A} (p : prog P (res A)) x (Q Q' : A -> Prop) : (forall a, Q a -> Q' a) -> costf p x Q -> costf p x Q'.
Proof. apply costs_mono. Qed.
Lemma costf_panic {A} x (Q : A -> Prop) : costf Panic x Q.
Proof. apply costs_panic. Qed.
Lemma costf_eq {A} (p : prog P (res A)) x y Q : x = y -> costf p x Q -> costf p y Q.
Proof. now intros ->. Qed.
Lemma costf_idx {A B} (l : list A) i (k : A -> prog P (res B)) x Q : (forall a, nth_error l i = Some a -> costf (k a) x Q) -> costf (idx l i k) x Q.
Proof. intros H. unfold idx. destruct (nth_error l i); [auto|apply costf_panic]. Qed.
Definition one_gate : fee := (1%Z, []).

(** ** Gates *)
Ltac gate := unfold bindq, cs_alloc, cs_enforce; cbn [bind]; change (fbill one_gate) with (bill_aux (bill_con bill0));
  unfold costf; apply costs_Alloc; [intros ? ?; cbn [bind]; apply costs_Enforce; cbn [bind]; apply costs_ret; try exact I|intros e0 ?; exists e0; reflexivity].
Lemma ab_alloc_costs v : costf (@ab_alloc P v) one_gate (fun _ => True).
Proof. unfold costf, ab_alloc. gate. Qed.
Lemma ab_xor_costs a b : costf (@ab_xor P a b) one_gate (fun _ => True).
Proof. unfold costf, ab_xor. gate. Qed.
Lemma ab_and_costs a b : costf (@ab_and P a b) one_gate (fun _ => True).
Proof. unfold costf, ab_and. gate. Qed.
Lemma ab_and_not_costs a b : costf (@ab_and_not P a b) one_gate (fun _ => True).
Proof. unfold costf, ab_and_not. gate. Qed.
Lemma ab_nor_costs a b : costf (@ab_nor P a b) one_gate (fun _ => True).
Proof. unfold costf, ab_nor. gate. Qed.

Definition gate_fee (n : bool) : fee := if n then one_gate else free.
Ltac is_gate L := eapply costf_last; [apply L|]; intros ? _; reflexivity.
Lemma b_xor_is_costs a b : costf (@b_xor_is P a b) one_gate (fun r => isvar r = true).
Proof. unfold b_xor_is. is_gate ab_xor_costs. Qed.
Lemma b_xor_costs a b : costf (@b_xor P a b) (gate_fee (isvar a && isvar b)) (fun r => isvar r = isvar a || isvar b).
Proof.
  assert (Hn : forall x y, costf (bindq (@b_xor_is P x y) (fun r => Ret (Ok (b_not r)))) one_gate (fun r => isvar r = true)).
  { intros x y. eapply costf_last; [apply b_xor_is_costs|]. intros r Hr. now rewrite isvar_not. }
  destruct a as [a|a|[|]], b as [b|b|[|]]; cbn [isvar is_constant negb andb orb gate_fee b_xor];
    first [apply b_xor_is_costs|apply Hn|apply costf_ret; reflexivity].
Qed.
Lemma b_and_costs a b : costf (@b_and P a b) (gate_fee (isvar a && isvar b)) (fun r => isvar r = true -> isvar a = true \/ isvar b = true).
Proof.
  assert (HT : forall (p : prog P (res Boolean)) x, costf p x (fun r => isvar r = true) -> costf p x (fun r => isvar r = true -> true = true \/ true = true)).
  { intros p x. apply costf_mono. auto. }
  destruct a as [a|a|[|]], b as [b|b|[|]]; cbn [isvar is_constant negb andb orb gate_fee b_and];
  first [apply costf_ret; auto; fail
        |apply HT; first [is_gate ab_and_costs|is_gate ab_and_not_costs|is_gate ab_nor_costs]].
Qed.

Lemma ch_general_costs a b c : costf (@ch_general P a b c) one_gate (fun r => isvar r = true).
Proof. unfold costf, ch_general. gate. reflexivity. Qed.
Lemma maj_general_costs a b c : costf (@maj_general P a b c) (plus one_gate (gate_fee (isvar b && isvar c))) (fun r => isvar r = true).
Proof.
  unfold maj_general. change one_gate with (plus (1, [])%Z free).
  assert (E : fbill (plus (plus (1%Z, []) free) (gate_fee (isvar b && isvar c))) = bill_aux (bill_add (fbill (gate_fee (isvar b && isvar c))) (bill_con bill0))).
  { destruct (isvar b && isvar c); reflexivity. }
  unfold costf. rewrite E. unfold bindq at 1, cs_alloc. cbn [bind]. apply costs_Alloc; [|intros e ?; exists e; reflexivity].
  intros v inv. cbn [bind]. eapply costs_bindq; [apply costf_ns, b_and_costs|]. intros bc _. unfold cs_enforce. cbn [bind].
  apply costs_Enforce, costs_ret. reflexivity.
Qed.
Lemma costf_not (p : prog P (res Boolean)) x (Q : Boolean -> Prop) : costf p x Q -> (forall r, Q r -> Q (b_not r)) ->
  costf (bindq p (fun r => Ret (Ok (b_not r)))) x Q.
Proof. intros H HQ. eapply costf_last; [exact H|]. exact HQ. Qed.
Lemma and_any (p : prog P (res Boolean)) x : costf p x (fun _ => True) -> costf p x (fun r => isvar r = true -> true = true).
Proof. apply costf_mono. auto. Qed.
Lemma b_and_any a b x : x = gate_fee (isvar a && isvar b) -> costf (@b_and P a b) x (fun _ => True).
Proof. intros ->. eapply costf_mono; [|apply b_and_costs]. auto. Qed.
(** [e], [f], [g] of a round: once variable, they remain so. *)
Lemma b_ch_costs a b c : (isvar c = true -> isvar b = true) -> (isvar b = true -> isvar a = true) ->
  costf (@b_ch P a b c) (gate_fee (isvar a && isvar b)) (fun r => isvar r = true -> isvar a = true).
Proof.
  intros H1 H2.
  destruct a as [a|a|ka], b as [b|b|kb], c as [c|c|kc]; cbn [isvar is_constant negb] in H1, H2; try (specialize (H1 eq_refl); discriminate);
    try (specialize (H2 eq_refl); discriminate); cbn [isvar is_constant negb andb gate_fee]; try destruct ka; try destruct kb; try destruct kc;
    cbn [b_ch tri_value b_value ch_bit];
    first [apply costf_ret; cbn; auto; fail
          |apply and_any; first [apply b_and_any; reflexivity|eapply costf_not; [apply b_and_any; reflexivity|auto]
             |eapply costf_mono; [|apply ch_general_costs]; auto]].
Qed.
Definition maj_fee (a b c : bool) : fee := if a && b then plus one_gate (gate_fee c) else free.
Lemma b_maj_costs a b c : (isvar c = true -> isvar b = true) -> (isvar b = true -> isvar a = true) ->
  costf (@b_maj P a b c) (maj_fee (isvar a) (isvar b) (isvar c)) (fun r => isvar r = true -> isvar a = true).
Proof.
  intros H1 H2.
  destruct a as [a|a|ka], b as [b|b|kb], c as [c|c|kc]; cbn [isvar is_constant negb] in H1, H2; try (specialize (H1 eq_refl); discriminate);
    try (specialize (H2 eq_refl); discriminate); unfold maj_fee; cbn [isvar is_constant negb andb gate_fee]; try destruct ka; try destruct kb; try destruct kc;
    cbn [b_maj tri_value b_value maj_bit];
    first [apply costf_ret; cbn; auto; fail
          |apply and_any; first [apply b_and_any; reflexivity|eapply costf_not; [apply b_and_any; reflexivity|auto]
             |eapply costf_mono; [|apply maj_general_costs]; auto]].
Qed.

(** ** Loops *)
Fixpoint fees (l : list fee) : fee := match l with [] => free | x :: t => plus x (fees t) end.
Lemma fold_plus l : forall x, fold_left plus l x = plus x (fees l).
Proof. induction l as [|y l IH]; intros x; cbn [fold_left fees]; [now rewrite plus_free|]. rewrite IH. symmetry. apply plus_assoc'. Qed.
Lemma costf_mapq {A B} (f : nat -> A -> prog P (res B)) (h : A -> fee) (Q : A -> B -> Prop) l : forall i,
  (forall j x, In x l -> costf (f j x) (h x) (Q x)) -> costf (mapq f i l) (fees (map h l)) (Forall2 Q l).
Proof.
  induction l as [|x l IH]; intros i H; cbn [mapq map fees].
  - apply costf_ret. constructor.
  - eapply costf_bindq; [apply H; now left|]. intros y Hy. eapply costf_last; [apply IH; intros; apply H; now right|].
    intros ys Hys. now constructor.
Qed.
Lemma costf_foldq {S A} (f : nat -> S -> A -> prog P (res S)) (h : nat -> fee) (Inv : nat -> S -> Prop) l : forall i s,
  Inv i s -> (forall j x s, i <= j < i + length l -> nth_error l (j - i) = Some x -> Inv j s -> costf (f j s x) (h j) (Inv (Datatypes.S j))) ->
  costf (foldq f i s l) (fees (map h (seq i (length l)))) (Inv (i + length l)).
Proof.
  induction l as [|x l IH]; intros i s HI Hf; cbn [foldq length seq map fees].
  - apply costf_ret. now rewrite Nat.add_0_r.
  - eapply costf_bindq; [apply Hf; [cbn; lia|now rewrite Nat.sub_diag|exact HI]|]. intros s' Hs'.
    replace (i + Datatypes.S (length l)) with (Datatypes.S i + length l) by lia. apply IH; [exact Hs'|].
    intros j y s0 Hj Hy HI'. apply Hf; [cbn; lia| |exact HI']. replace (j - i) with (Datatypes.S (j - Datatypes.S i)) by lia. exact Hy.
Qed.

(** ** Words *)
Definition mw (fs : list bool) (w : UInt32) : Prop := map isvar (u_bits w) = fs /\ (any fs = false -> u_value w <> None).
Definition fl (f : bool) : UInt32 -> Prop := mw (repeat f 32).
Lemma any_repeat f n : any (repeat f (Datatypes.S n)) = f.
Proof. induction n as [|n IH]; [cbn; apply orb_false_r|]. change (repeat f (S (S n))) with (f :: repeat f (S n)). unfold any in *. cbn [existsb]. rewrite IH. apply orb_diag. Qed.
Lemma uconst_any w : uconst w = negb (any (map isvar (u_bits w))).
Proof.
  unfold uconst, any. induction (u_bits w) as [|b l IH]; [reflexivity|]. cbn [forallb map existsb]. rewrite IH. unfold isvar.
  destruct (is_constant b); reflexivity.
Qed.
Lemma mw_uconst fs w : mw fs w -> uconst w = negb (any fs).
Proof. intros [H _]. now rewrite uconst_any, H. Qed.
Lemma fl_uconst f w : fl f w -> uconst w = negb f.
Proof. intros H. rewrite (mw_uconst _ _ H). now rewrite (any_repeat f 31). Qed.
Lemma any_either x : forall y, length x = length y -> any (either x y) = any x || any y.
Proof.
  unfold any, either, bits2. induction x as [|a x IH]; intros [|b y] H; cbn in *; try discriminate; auto.
  rewrite IH by lia. destruct a, b, (existsb (fun b => b) x); reflexivity.
Qed.
Lemma either_length x y : length x = length y -> length (either x y) = length x.
Proof. intros H. unfold either, bits2. rewrite map_length, combine_length. lia. Qed.
Lemma either_repeat a b n : either (repeat a n) (repeat b n) = repeat (a || b) n.
Proof. unfold either, bits2. induction n; cbn; [reflexivity|]. now rewrite IHn. Qed.
Lemma both_repeat a b n : both (repeat a n) (repeat b n) = if a && b then Z.of_nat n else 0%Z.
Proof.
  unfold both. transitivity (Z.of_nat (if a && b then n else 0)); [|destruct (a && b); reflexivity]. f_equal. unfold bits2.
  induction n as [|n IH]; [destruct (a && b); reflexivity|]. cbn [repeat combine map count_occ fst snd]. rewrite IH. destruct a, b; reflexivity.
Qed.

Lemma xor_fees (a : list Boolean) : forall b, fees (map (fun x => gate_fee (isvar (fst x) && isvar (snd x))) (combine a b)) = (both (map isvar a) (map isvar b), []).
Proof.
  unfold both, bits2. induction a as [|x a IH]; intros [|y b]; try reflexivity. cbn [combine map fees fst snd count_occ]. rewrite IH.
  destruct (isvar x && isvar y); [destruct (bool_dec true true); [|congruence]|destruct (bool_dec false true); [congruence|]]; unfold plus; cbn [gate_fee one_gate free fst snd app]; f_equal; lia.
Qed.
Lemma xor_flags (a : list Boolean) : forall b r, Forall2 (fun x r => isvar r = isvar (fst x) || isvar (snd x)) (combine a b) r ->
  map isvar r = either (map isvar a) (map isvar b).
Proof.
  unfold either, bits2. induction a as [|x a IH]; intros [|y b] r H; cbn [combine] in H; inversion H; subst; cbn [map combine fst snd]; try reflexivity.
  f_equal; auto.
Qed.
Lemma u_xor_costs_w fs gs a b : map isvar (u_bits a) = fs -> map isvar (u_bits b) = gs -> (any fs = false -> u_value a <> None) ->
  (any fs = false -> any gs = false -> u_value b <> None) -> length fs = length gs ->
  costf (@u_xor P a b) (both fs gs, []) (mw (either fs gs)).
Proof.
  intros Ha Hb Va Vb Hl. subst fs gs. rewrite <- xor_fees. unfold u_xor. eapply costf_last.
  - eapply (costf_mapq _ (fun x => gate_fee (isvar (fst x) && isvar (snd x))) (fun x r => isvar r = isvar (fst x) || isvar (snd x))).
    intros j x _. cbv beta. apply costf_ns, b_xor_costs.
  - cbv beta. intros r Hr. split; cbn [u_bits u_value]; [now apply xor_flags|]. rewrite any_either by exact Hl.
    intros E. apply orb_false_iff in E as [E1 E2]. specialize (Va E1). specialize (Vb E1 E2). destruct (u_value a), (u_value b); congruence.
Qed.
Lemma u_xor_costs fs gs a b : mw fs a -> mw gs b -> length fs = length gs -> costf (@u_xor P a b) (both fs gs, []) (mw (either fs gs)).
Proof. intros [Ha Va] [Hb Vb] Hl. apply u_xor_costs_w; auto. Qed.
Lemma fl_xor f g a b : fl f a -> fl g b -> costf (@u_xor P a b) (bits_if (f && g) 32) (fl (f || g)).
Proof.
  intros Ha Hb. pose proof (u_xor_costs _ _ a b Ha Hb ltac:(now rewrite !repeat_length)) as H.
  rewrite both_repeat, either_repeat in H. destruct (f && g); exact H.
Qed.
Lemma rot_any k x : any (rot k x) = any x.
Proof. unfold any, rot. rewrite existsb_app, orb_comm, <- existsb_app, firstn_skipn. reflexivity. Qed.
Lemma rot_length k x : length (rot k x) = length x.
Proof. unfold rot. rewrite app_length, Nat.add_comm, <- app_length, firstn_skipn. reflexivity. Qed.
Lemma shift_length k x : k <= length x -> length (shift k x) = length x.
Proof. intros H. unfold shift. rewrite app_length, skipn_length, repeat_length. lia. Qed.
Lemma mw_rot fs w k : length fs = 32 -> k < 32 -> mw fs w -> mw (rot k fs) (u_rotr w k).
Proof.
  intros Hl Hk [H V]. split; cbn [u_rotr u_bits u_value].
  - rewrite (Nat.mod_small k 32 Hk). rewrite <- firstn_map, map_app, <- skipn_map, H. unfold rot.
    rewrite firstn_app, skipn_length, Hl. rewrite firstn_all2 by (rewrite skipn_length; lia). f_equal. f_equal. lia.
  - rewrite rot_any. intros E. specialize (V E). destruct (u_value w); cbn; congruence.
Qed.
Lemma map_repeat' {A B} (f : A -> B) x n : map f (repeat x n) = repeat (f x) n.
Proof. induction n; cbn; congruence. Qed.
Lemma firstn_repeat' {A} (x : A) k : forall n, k <= n -> firstn k (repeat x n) = repeat x k.
Proof. induction k as [|k IH]; intros [|n] H; cbn; try reflexivity; [lia|]. f_equal. apply IH. lia. Qed.
Lemma shr_bits fs w k : length fs = 32 -> k < 32 -> map isvar (u_bits w) = fs -> map isvar (u_bits (u_shr w k)) = shift k fs.
Proof.
  intros Hl Hk H. cbn [u_shr u_bits]. rewrite (Nat.mod_small k 32 Hk). rewrite <- firstn_map, map_app, <- skipn_map, H, map_repeat'. unfold shift.
  rewrite firstn_app, skipn_length, Hl. rewrite firstn_all2 by (rewrite skipn_length; lia). f_equal.
  replace (32 - (32 - k)) with k by lia. apply firstn_repeat'. lia.
Qed.
Lemma sigma_costs {B} fs w i j k n1 n2 (g : UInt32 -> prog P (res B)) y Q : length fs = 32 -> i < 32 -> j < 32 -> k < 32 -> mw fs w ->
  (forall s gs, mw gs s -> any gs = any fs -> costf (g s) y Q) ->
  costf (bindq (ns n1 (u_xor (u_rotr w i) (u_rotr w j))) (fun s => bindq (ns n2 (u_xor s (u_shr w k))) g)) (plus (sigma_fee i j k fs) y) Q.
Proof.
  intros Hl Hi Hj Hk Hw Hg. unfold sigma_fee.
  assert (E : forall a b : Z, plus ((a + b)%Z, []) y = plus (a, []) (plus (b, []) y)).
  { intros a b. unfold plus; cbn [fst snd app]. now rewrite Z.add_assoc. }
  rewrite E. eapply costf_bindq; [apply costf_ns, u_xor_costs; [now apply mw_rot|now apply mw_rot|now rewrite !rot_length]|].
  intros s [Hs Vs]. eapply costf_bindq.
  - apply costf_ns, (u_xor_costs_w _ (shift k fs)); [exact Hs|apply shr_bits; auto; apply Hw|exact Vs| |].
    + intros E1 _. rewrite any_either, !rot_any, orb_diag in E1 by (now rewrite !rot_length). destruct Hw as [_ Vw]. specialize (Vw E1).
      cbn [u_shr u_value]. destruct (u_value w); cbn; congruence.
    + rewrite either_length, rot_length, shift_length; rewrite ?rot_length; lia.
  - cbv beta. intros s' Hs'. eapply Hg; [exact Hs'|]. rewrite any_either, any_either, !rot_any, orb_diag.
    + destruct (any fs) eqn:E1; [reflexivity|]. cbn [orb]. unfold any, shift in *. rewrite existsb_app.
      rewrite <- (firstn_skipn k fs), existsb_app in E1. apply orb_false_iff in E1 as [_ E1]. rewrite E1. cbn [orb].
      clear. induction k; cbn; auto.
    + now rewrite !rot_length.
    + rewrite either_length, rot_length, shift_length; rewrite ?rot_length; lia.
Qed.
Lemma rot_repeat k f n : k <= n -> rot k (repeat f n) = repeat f n.
Proof.
  intros H. unfold rot. replace n with (k + (n - k)) by lia. rewrite repeat_app, skipn_app, firstn_app, repeat_length.
  rewrite skipn_all2 by (now rewrite repeat_length). rewrite Nat.sub_diag, firstn_O, firstn_all2 by (rewrite repeat_length; lia).
  cbn [skipn app]. rewrite app_nil_r, <- !repeat_app. f_equal. lia.
Qed.
Lemma fl_rotr f w k : k < 32 -> fl f w -> fl f (u_rotr w k).
Proof. intros Hk H. pose proof (mw_rot _ w k ltac:(apply repeat_length) Hk H) as H'. rewrite rot_repeat in H' by lia. exact H'. Qed.

(** Additions *)
Definition ops (v : bool) (l : list UInt32) : Prop :=
  if v then exists w, In w l /\ uconst w = false else Forall (fun w => uconst w = true /\ u_value w <> None) l.
Lemma add_loop_costs rv m : forall i c lc bits,
  costf (@add_result_loop P rv m i c lc bits) (Z.of_nat (Pos.size_nat m), [])
    (fun r => exists nb, fst (fst r) = (bits ++ nb)%list /\ map isvar nb = repeat true (Pos.size_nat m) /\ snd r = i + Pos.size_nat m).
Proof.
  induction m as [m IH|m IH|]; intros i c lc bits; cbn [add_result_loop Pos.size_nat].
  1,2: apply (costf_eq _ (plus one_gate (Z.of_nat (Pos.size_nat m), [])));
    [unfold plus; cbn [fst snd one_gate app]; f_equal; lia|];
    eapply costf_bindq; [apply costf_ns, ab_alloc_costs|]; intros a _;
    eapply costf_mono; [|apply IH]; cbv beta; intros [[rb rl] ri] (nb & E & Hv & Hi); cbn [fst snd] in *;
    exists (BIs a :: nb); rewrite E, <- app_assoc; split; [reflexivity|split; [cbn [map repeat]; rewrite Hv; reflexivity|lia]].
  eapply costf_last; [apply costf_ns, ab_alloc_costs|]. intros a _. cbn [fst snd]. exists [BIs a]. repeat split. lia.
Qed.
Lemma add_size n : 2 <= n <= 10 -> Pos.size_nat (Z.to_pos (Z.of_nat n * (2 ^ 32 - 1))) = add_width n.
Proof. intros H. do 11 (destruct n as [|n]; [try lia; reflexivity|]). lia. Qed.
Lemma ops_const v l : ops v l -> forallb uconst l = negb v.
Proof.
  destruct v; cbn.
  - intros (w & Hi & Hc). destruct (forallb uconst l) eqn:E; [|reflexivity]. rewrite forallb_forall in E. now rewrite (E w Hi) in Hc.
  - intros H. apply forallb_forall. intros w Hi. rewrite Forall_forall in H. now apply H.
Qed.
Lemma constant_fl z : fl false (u_constant z).
Proof.
  split; cbn [u_constant u_bits u_value]; [|intros _; discriminate].
  assert (H : forall n z, map isvar (map (fun b : bool => if b then BConst true else BConst false) (low_bits n z)) = repeat false n).
  { clear z. induction n as [|n IH]; intros z; [reflexivity|]. cbn [low_bits map repeat]. rewrite IH. destruct (Z.eqb (Z.land z 1) 1); reflexivity. }
  apply H.
Qed.
Lemma addmany_costs v l : ops v l -> costf (@addmany P l) (add_fee (length l) v) (fl v).
Proof.
  intros Hv. unfold addmany.
  destruct (Nat.leb 64 (num_bits P)); cbn [negb]; [|apply costf_panic].
  destruct (Nat.leb_spec 2 (length l)) as [H2|]; cbn [negb]; [|apply costf_panic].
  destruct (Nat.leb_spec (length l) 10) as [H10|]; cbn [negb]; [|apply costf_panic].
  rewrite (add_fold l), (ops_const v l Hv). cbn [andb]. set (lc := snd (fst _)). set (rv := oadd _ _). clearbody lc.
  pose proof (add_size (length l) ltac:(lia)) as Hs. set (m := Z.to_pos _) in *. clearbody m.
  destruct v; cbn [negb].
  - assert (Hgen : costf (bindq (add_result_loop rv m 0 fone lc_zero [])
       (fun r => let '(result_bits, result_lc, i) := r in bind (cs_enforce_equal i lc result_lc) (fun _ =>
          @Ret P _ (Ok {| u_bits := firstn 32 result_bits; u_value := option_map (fun v => (v mod 2 ^ 32)%Z) rv |}))))
       (add_fee (length l) true) (fl true)).
    { unfold add_fee. rewrite <- Hs.
      apply (costf_eq _ (plus (Z.of_nat (Pos.size_nat m), []) (0%Z, [Pos.size_nat m]))); [unfold plus; cbn [fst snd app]; f_equal; lia|].
      eapply costf_bindq; [apply add_loop_costs|]. cbv beta. intros [[rb rl] ri] (nb & E & Hn & Hi). cbn [fst snd app Nat.add] in *. subst rb ri.
      unfold cs_enforce_equal. cbn [bind]. unfold costf. change (fbill (0%Z, [Pos.size_nat m])) with (bill_eq (Pos.size_nat m) bill0).
      apply costs_Eq, costs_ret. split; cbn [u_bits u_value].
      - rewrite <- firstn_map, Hn. apply firstn_repeat'. rewrite Hs. unfold add_width. repeat destruct (Nat.leb _ _); lia.
      - rewrite (any_repeat true 31). discriminate. }
    destruct rv; exact Hgen.
  - assert (Hr : exists z, rv = Some z).
    { subst rv. cbn [ops] in Hv. assert (Ho : osum (map u_value l) <> None).
      { apply osum_known. rewrite Forall_map. eapply Forall_impl; [|exact Hv]. cbv beta. tauto. }
      destruct (osum (map u_value l)); [cbn; eauto|congruence]. }
    destruct Hr as [z ->]. cbn [option_map]. apply costf_ret, constant_fl.
Qed.

Lemma fl_bits f w : fl f w -> length (u_bits w) = 32 /\ Forall (fun b => isvar b = f) (u_bits w).
Proof.
  intros [H _]. split; [rewrite <- (map_length isvar), H; apply repeat_length|]. apply Forall_forall. intros b Hb.
  apply (in_map isvar) in Hb. rewrite H in Hb. now apply repeat_spec in Hb.
Qed.
Lemma fl_const f w : fl f w -> f = false -> uconst w = true /\ u_value w <> None.
Proof. intros H ->. split; [exact (fl_uconst false w H)|]. destruct H as [_ H]. apply H. reflexivity. Qed.
Lemma fees_repeat {A} (h : A -> fee) x l : (forall a, In a l -> h a = x) -> fees (map h l) = fees (repeat x (length l)).
Proof. induction l as [|a l IH]; intros H; [reflexivity|]. cbn [map fees length repeat]. rewrite IH by (intros; apply H; now right). now rewrite H by now left. Qed.
Lemma triop_costs (e : bool) f g a b c tri_fn (h : nat -> Boolean -> Boolean -> Boolean -> prog P (res Boolean)) x :
  fl e a -> fl f b -> fl g c -> (g = true -> f = true) -> (f = true -> e = true) ->
  (forall i p q r, isvar p = e -> isvar q = f -> isvar r = g -> costf (h i p q r) x (fun b => isvar b = true -> e = true)) ->
  costf (triop a b c tri_fn h) (fees (repeat x 32)) (fun r => e = false -> uconst r = true /\ u_value r <> None).
Proof.
  intros Ha Hb Hc H1 H2 Hh. destruct (fl_bits _ _ Ha) as [La Fa]. destruct (fl_bits _ _ Hb) as [Lb Fb]. destruct (fl_bits _ _ Hc) as [Lc Fc].
  unfold triop. set (L := combine _ _).
  assert (EL : length L = 32) by (subst L; rewrite !combine_length; lia).
  rewrite <- EL, <- (fees_repeat (fun _ : Boolean * Boolean * Boolean => x) x L) by reflexivity. eapply costf_last.
  - eapply (costf_mapq _ (fun _ => x) (fun _ b => isvar b = true -> e = true)). intros j [[p q] r] Hi. subst L.
    pose proof (in_combine_r _ _ _ _ Hi) as Hr. apply in_combine_l in Hi. pose proof (in_combine_l _ _ _ _ Hi) as Hp. apply in_combine_r in Hi.
    rewrite Forall_forall in Fa, Fb, Fc. cbn [fst snd]. apply Hh; auto.
  - cbv beta. intros bits HF E. split.
    + unfold uconst. cbn [u_bits]. apply forallb_forall. intros b0 Hb0.
      destruct (Forall2_in_r _ _ _ HF b0 Hb0) as (p & _ & Hp). destruct (is_constant b0) eqn:Eb; [reflexivity|].
      unfold isvar in Hp. rewrite Eb in Hp. specialize (Hp eq_refl). congruence.
    + cbn [u_value]. assert (Ef : f = false) by (destruct f; auto; specialize (H2 eq_refl); congruence).
      assert (Eg : g = false) by (destruct g; auto; specialize (H1 eq_refl); congruence).
      destruct (fl_const _ _ Ha E) as [_ Va]. destruct (fl_const _ _ Hb Ef) as [_ Vb]. destruct (fl_const _ _ Hc Eg) as [_ Vc].
      destruct (u_value a), (u_value b), (u_value c); congruence.
Qed.
Definition le3 (e f g : bool) : Prop := (g = true -> f = true) /\ (f = true -> e = true).
Lemma u_ch_costs e f g a b c : fl e a -> fl f b -> fl g c -> le3 e f g ->
  costf (@u_ch P a b c) (bits_if (e && f) 32) (fun r => e = false -> uconst r = true /\ u_value r <> None).
Proof.
  intros Ha Hb Hc [H1 H2]. apply (costf_eq _ (fees (repeat (gate_fee (e && f)) 32))); [destruct e, f; reflexivity|].
  eapply triop_costs; eauto. intros i p q r Hp Hq Hr. apply costf_ns. rewrite <- Hp, <- Hq. apply b_ch_costs; [intros X; rewrite Hq; apply H1; congruence|intros X; rewrite Hp; apply H2; congruence].
Qed.
Lemma u_maj_costs e f g a b c : fl e a -> fl f b -> fl g c -> le3 e f g ->
  costf (@u_maj P a b c) (bits_if (e && f) (if g then 64 else 32)%Z) (fun r => e = false -> uconst r = true /\ u_value r <> None).
Proof.
  intros Ha Hb Hc [H1 H2]. apply (costf_eq _ (fees (repeat (maj_fee e f g) 32))); [destruct e, f, g; reflexivity|].
  eapply triop_costs; eauto. intros i p q r Hp Hq Hr. apply costf_ns. rewrite <- Hp, <- Hq, <- Hr. apply b_maj_costs; [intros X; rewrite Hq; apply H1; congruence|intros X; rewrite Hp; apply H2; congruence].
Qed.

(** ** SHA-256 *)
Definition wl (fs : list (list bool)) (w : list UInt32) : Prop := Forall2 mw fs w /\ Forall (fun x => length x = 32) fs.
Lemma wl_nth fs w i x : wl fs w -> nth_error w i = Some x -> mw (nth i fs []) x /\ length (nth i fs []) = 32.
Proof.
  intros [HF HL] E. revert i E HL. induction HF as [|f y fs w Hy HF IH]; intros [|i] E HL; cbn in *; try discriminate; inversion HL; subst.
  - inversion E; subst. auto.
  - auto.
Qed.
Lemma extension_costs i fs w x : wl fs w -> costf (@w_extension P i w)
  (plus (sigma_fee 7 18 3 (nth (i - 15) fs [])) (plus (sigma_fee 17 19 10 (nth (i - 2) fs []))
     (add_fee 4 (any (nth (i - 16) fs []) || any (nth (i - 15) fs []) || any (nth (i - 7) fs []) || any (nth (i - 2) fs [])))))
  (wl (fst (sha_extend (fs, x) i))).
Proof.
  intros HW. unfold w_extension. apply costf_ns, costf_idx. intros w15 E15. destruct (wl_nth _ _ _ _ HW E15) as [H15 L15].
  eapply sigma_costs; try lia; [exact H15|]. intros s0 g0 Hs0 A0.
  apply costf_idx. intros w2 E2. destruct (wl_nth _ _ _ _ HW E2) as [H2 L2].
  eapply sigma_costs; try lia; [exact H2|]. intros s1 g1 Hs1 A1.
  apply costf_idx. intros w16 E16. destruct (wl_nth _ _ _ _ HW E16) as [H16 _].
  apply costf_idx. intros w7 E7. destruct (wl_nth _ _ _ _ HW E7) as [H7 _].
  set (v := any _ || _ || _ || _). eapply costf_last; [apply costf_ns, (addmany_costs v)|].
  - assert (K : forall fs w, mw fs w -> any fs = false -> uconst w = true /\ u_value w <> None).
    { intros h y Hy E. split; [now rewrite (mw_uconst _ _ Hy), E|now apply Hy]. }
    assert (U : forall fs w, mw fs w -> any fs = true -> uconst w = false).
    { intros h y Hy E. now rewrite (mw_uconst _ _ Hy), E. }
    destruct v eqn:Ev; subst v; cbn [ops].
    + apply orb_true_iff in Ev as [Ev|Ev]; [apply orb_true_iff in Ev as [Ev|Ev]; [apply orb_true_iff in Ev as [Ev|Ev]|]|].
      * exists w16. split; [now left|eauto].
      * exists s0. split; [right; now left|]. eapply U; [exact Hs0|congruence].
      * exists w7. split; [do 2 right; now left|eauto].
      * exists s1. split; [do 3 right; now left|]. eapply U; [exact Hs1|congruence].
    + apply orb_false_iff in Ev as [Ev Ev2]. apply orb_false_iff in Ev as [Ev Ev7]. apply orb_false_iff in Ev as [Ev16 Ev15].
      repeat constructor; try (eapply K; [eassumption|congruence]).
  - intros t Ht. cbn [sha_extend fst]. destruct HW as [HF HL]. split.
    + apply Forall2_app; [exact HF|]. constructor; [exact Ht|constructor].
    + apply Forall_app. split; [exact HL|]. constructor; [apply repeat_length|constructor].
Qed.
Lemma extend_fst fs x y i : fst (sha_extend (fs, x) i) = fst (sha_extend (fs, y) i). Proof. reflexivity. Qed.
Lemma schedule_costs fs w : wl fs w -> costf (foldq (fun i w _ => @w_extension P i w) 16 w (seq 16 48)) (snd (sha_schedule fs)) (wl (fst (sha_schedule fs))).
Proof.
  unfold sha_schedule. generalize 48. intros n. generalize 16. intros i HW.
  assert (H : forall n i fs w x, wl fs w -> exists y, snd (fold_left sha_extend (seq i n) (fs, x)) = plus x y /\
    costf (foldq (fun i w _ => @w_extension P i w) i w (seq i n)) y (wl (fst (fold_left sha_extend (seq i n) (fs, x))))).
  { clear. induction n as [|n IH]; intros i fs w x HW; cbn [seq fold_left foldq].
    - exists free. split; [now rewrite plus_free|]. now apply costf_ret.
    - pose proof (extension_costs i fs w x HW) as HE. destruct (sha_extend (fs, x) i) as [fs' x'] eqn:E. cbn [fst] in HE.
      set (z := plus (sigma_fee 7 18 3 _) _) in HE.
      assert (Ex : x' = plus x z) by (unfold sha_extend in E; cbn [fst snd] in E; inversion E; reflexivity).
      assert (HE' : exists y, snd (fold_left sha_extend (seq (S i) n) (fs', x')) = plus x' y /\ forall w', wl fs' w' ->
         costf (foldq (fun i w _ => @w_extension P i w) (S i) w' (seq (S i) n)) y (wl (fst (fold_left sha_extend (seq (S i) n) (fs', x'))))).
      { exists (snd (fold_left sha_extend (seq (S i) n) (fs', free))). split.
        - clear. revert i fs' x'. induction n as [|n IH]; intros i fs x; cbn [seq fold_left]; [now rewrite plus_free|].
          rewrite (surjective_pairing (sha_extend (fs, x) (S i))), (surjective_pairing (sha_extend (fs, free) (S i))), IH.
          rewrite (IH (S i) (fst (sha_extend (fs, free) (S i))) (snd _)).
          rewrite <- (extend_fst fs x free). rewrite plus_assoc'. f_equal; try (unfold sha_extend; cbn [fst snd]; now rewrite free_plus).
        - intros w' HW'. destruct (IH (S i) fs' w' free HW') as (y & Ey & Hy). rewrite Ey, free_plus.
          replace (fst (fold_left sha_extend (seq (S i) n) (fs', x'))) with (fst (fold_left sha_extend (seq (S i) n) (fs', free))); [exact Hy|].
          clear. generalize free as u, (S i) as j. intros u j. revert u j fs' x'. induction n as [|n IH]; intros u j fs x; [reflexivity|]. cbn [seq fold_left].
          rewrite (surjective_pairing (sha_extend (fs, x) j)), (surjective_pairing (sha_extend (fs, u) j)), (extend_fst fs x u). apply IH. }
      destruct HE' as (y & Ey & Hy). exists (plus z y). split; [rewrite Ey, Ex; symmetry; apply plus_assoc'|].
      eapply costf_bindq; [exact HE|]. exact Hy. }
  destruct (H n i fs w free HW) as (y & Ey & Hy). rewrite Ey, free_plus. exact Hy.
Qed.

Section Rounds.
Variables (st : bool) (W : list (list bool)) (w : list UInt32).
Hypothesis HW : wl W w.
Let v := sha_var st W.
Lemma v_succ i : v (S i) = v i || any (nth i W []).
Proof.
  subst v. unfold sha_var. rewrite <- orb_assoc. f_equal. clear HW. revert i. induction W as [|x l IH]; intros [|i]; cbn [firstn existsb nth any]; try reflexivity.
  - unfold any. cbn [existsb]. now rewrite orb_false_r.
  - rewrite <- orb_assoc. f_equal. apply IH.
Qed.
Lemma v_mono i j : i <= j -> v i = true -> v j = true.
Proof. induction 1; [auto|]. intros H'. rewrite v_succ, IHle by exact H'. reflexivity. Qed.
Lemma v_false i j : i <= j -> v j = false -> v i = false.
Proof. intros H E. destruct (v i) eqn:Ei; [|reflexivity]. now rewrite (v_mono i j H Ei) in E. Qed.
Definition mb (i n : nat) (m : Maybe) : Prop :=
  match m with Concrete u => i = 0 /\ fl (v 0) u | Deferred l => i <> 0 /\ length l = n /\ ops (v i) l end.
Definition rinv (i : nat) (r : Regs) : Prop :=
  mb i 7 (ra r) /\ fl (v (i - 1)) (rb r) /\ fl (v (i - 2)) (rc r) /\ fl (v (i - 3)) (rd r) /\
  mb i 6 (re r) /\ fl (v (i - 1)) (rf r) /\ fl (v (i - 2)) (rg r) /\ fl (v (i - 3)) (rh r).
Lemma compute_costs i n m name : mb i n m -> costf (@compute P m name []) (if Nat.eqb i 0 then free else add_fee n (v i)) (fl (v i)).
Proof.
  intros H. unfold compute. apply costf_ns. destruct m as [l|u]; cbn [mb] in H.
  - destruct H as (H0 & <- & Ho). destruct (Nat.eqb_spec i 0); [congruence|]. rewrite app_nil_r. now apply addmany_costs.
  - destruct H as [-> H]. now apply costf_ret.
Qed.
Lemma big_sigma {B} f u i j k n1 n2 (g : UInt32 -> prog P (res B)) y Q : i < 32 -> j < 32 -> k < 32 -> fl f u ->
  (forall s, fl f s -> costf (g s) y Q) ->
  costf (bindq (ns n1 (u_xor (u_rotr u i) (u_rotr u j))) (fun s => bindq (ns n2 (u_xor s (u_rotr u k))) g)) (plus (bits_if f 64) y) Q.
Proof.
  intros Hi Hj Hk Hu Hg. apply (costf_eq _ (plus (bits_if f 32) (plus (bits_if f 32) y))).
  { rewrite plus_assoc'. f_equal. destruct f; reflexivity. }
  eapply costf_bindq.
  { pose proof (fl_xor f f _ _ (fl_rotr f u i Hi Hu) (fl_rotr f u j Hj Hu)) as H. rewrite andb_diag, orb_diag in H. apply costf_ns, H. }
  intros s Hs. eapply costf_bindq.
  { pose proof (fl_xor f f _ _ Hs (fl_rotr f u k Hk Hu)) as H. rewrite andb_diag, orb_diag in H. apply costf_ns, H. }
  exact Hg.
Qed.
Lemma le3_v i : le3 (v i) (v (i - 1)) (v (i - 2)).
Proof. split; apply v_mono; lia. Qed.
Lemma round_costs i r : rinv i r -> costf (@round_step P w i r) (sha_round_fee v i) (rinv (S i)).
Proof.
  intros (Ha & Hb & Hc & Hd & He & Hf & Hg & Hh). unfold round_step.
  apply (costf_eq _ (plus (if Nat.eqb i 0 then free else add_fee 6 (v i)) (plus (bits_if (v i) 64) (plus (bits_if (v i && v (i - 1)) 32)
    (plus (if Nat.eqb i 0 then free else add_fee 7 (v i)) (plus (bits_if (v i) 64) (bits_if (v i && v (i - 1)) (if v (i - 2) then 64 else 32)%Z))))))).
  { unfold sha_round_fee. destruct (Nat.eqb i 0), (v i), (v (i - 1)), (v (i - 2)); reflexivity. }
  apply costf_ns. eapply costf_bindq; [apply compute_costs; exact He|]. intros e He'.
  eapply big_sigma; try lia; [exact He'|]. intros s1 Hs1.
  eapply costf_bindq; [apply costf_ns, (u_ch_costs (v i) (v (i - 1)) (v (i - 2))); auto using le3_v|]. cbv beta. intros ch Hch.
  apply costf_idx. intros k _. apply costf_idx. intros wi Ewi. destruct (wl_nth _ _ _ _ HW Ewi) as [Hwi _].
  eapply costf_bindq; [apply compute_costs; exact Ha|]. intros a Ha'.
  eapply big_sigma; try lia; [exact Ha'|]. intros s0 Hs0.
  eapply costf_last; [apply costf_ns, (u_maj_costs (v i) (v (i - 1)) (v (i - 2))); auto using le3_v|]. cbv beta. intros maj Hmaj.
  assert (Hsum : forall x, fl (v (i - 3)) x \/ (v i = false -> uconst x = true /\ u_value x <> None) ->
     forall tl, Forall (fun u => v i = false -> uconst u = true /\ u_value u <> None) tl ->
     ops (v (S i)) ([rh r; s1; ch; u_constant k; wi] ++ tl)).
  { intros _ _ tl Htl. rewrite v_succ. destruct (v i) eqn:Ei; cbn [orb].
    - exists s1. split; [right; now left|]. now rewrite (fl_uconst _ _ Hs1).
    - destruct (any (nth i W [])) eqn:Ew; cbn [ops].
      + exists wi. split; [do 4 right; now left|]. now rewrite (mw_uconst _ _ Hwi), Ew.
      + assert (E3 : v (i - 3) = false) by (apply (v_false _ i); [lia|exact Ei]).
        apply Forall_app. split.
        * constructor; [now apply (fl_const _ _ Hh)|]. constructor; [now apply (fl_const _ _ Hs1)|]. constructor; [now apply Hch|].
          constructor; [now apply (fl_const _ _ (constant_fl k))|]. constructor; [|constructor].
          split; [now rewrite (mw_uconst _ _ Hwi), Ew|now apply Hwi].
        * eapply Forall_impl; [|exact Htl]. cbv beta. auto. }
  unfold rinv. cbn [ra rb rc rd re rf rg rh mb].
  replace (S i - 1) with i by lia. replace (S i - 2) with (i - 1) by lia. replace (S i - 3) with (i - 2) by lia.
  repeat (split; auto).
  - apply (Hsum s0); [right; intros E; now apply (fl_const _ _ Hs0)|]. constructor; [intros E; now apply (fl_const _ _ Hs0)|]. constructor; [exact Hmaj|constructor].
  - apply (Hsum s0); [right; intros E; now apply (fl_const _ _ Hs0)|]. constructor; [|constructor].
    intros E. apply (fl_const _ _ Hd). apply (v_false _ i); [lia|exact E].
Qed.
End Rounds.

Lemma any_nth fs i : existsb any fs = false -> any (nth i fs []) = false.
Proof.
  revert i. induction fs as [|x fs IH]; intros [|i] H; cbn [existsb] in H; try reflexivity; apply orb_false_iff in H as [H1 H2]; cbn [nth]; auto.
Qed.
Lemma schedule_prefix fs : exists ext, fst (sha_schedule fs) = fs ++ ext /\ (existsb any fs = false -> existsb any ext = false).
Proof.
  unfold sha_schedule. generalize (seq 16 48), free. intros l. revert fs. induction l as [|i l IH]; intros fs x; cbn [fold_left].
  - exists []. now rewrite app_nil_r.
  - rewrite (surjective_pairing (sha_extend (fs, x) i)). destruct (IH (fst (sha_extend (fs, x) i)) (snd (sha_extend (fs, x) i))) as (ext & E & H).
    rewrite E. cbn [sha_extend fst] in *. set (v := _ || _) in *. exists (repeat v 32 :: ext). rewrite <- app_assoc. split; [reflexivity|].
    intros Hf. assert (Ev : v = false) by (subst v; now rewrite !any_nth by exact Hf). rewrite Ev in *.
    cbn [existsb]. apply orb_false_iff. split; [reflexivity|]. apply H. rewrite existsb_app, Hf. reflexivity.
Qed.
Lemma var_late st fs i : length fs = 16 -> 16 <= i -> sha_var st (fst (sha_schedule fs)) i = st || existsb any fs.
Proof.
  intros Hl Hi. destruct (schedule_prefix fs) as (ext & -> & H). unfold sha_var. f_equal.
  rewrite firstn_app, firstn_all2 by lia. rewrite existsb_app. destruct (existsb any fs); [reflexivity|]. cbn [orb].
  specialize (H eq_refl). rewrite <- (firstn_skipn (i - length fs) ext), existsb_app in H. now apply orb_false_iff in H as [H _].
Qed.
Lemma body_costs st fs w cur : wl fs w -> length fs = 16 -> Forall (fl st) cur ->
  costf (@compression_body P w cur) (sha_block_fee st fs) (fun r => Forall (fl (st || existsb any fs)) r /\ length r = 8).
Proof.
  intros HW Hl HC. unfold compression_body, sha_block_fee. cbv zeta. eapply costf_bindq; [apply schedule_costs; exact HW|]. cbv beta. intros w' HW'.
  destruct (negb _); [apply costf_panic|].
  destruct cur as [|c0 [|c1 [|c2 [|c3 [|c4 [|c5 [|c6 [|c7 [|? ?]]]]]]]]]; try apply costf_panic.
  apply Forall_cons_iff in HC as [C0 HC]. apply Forall_cons_iff in HC as [C1 HC]. apply Forall_cons_iff in HC as [C2 HC]. apply Forall_cons_iff in HC as [C3 HC].
  apply Forall_cons_iff in HC as [C4 HC]. apply Forall_cons_iff in HC as [C5 HC]. apply Forall_cons_iff in HC as [C6 HC]. apply Forall_cons_iff in HC as [C7 _].
  set (W := fst (sha_schedule fs)) in *. rewrite fold_plus, free_plus.
  assert (Hv : forall i, 16 <= i -> sha_var st W i = st || existsb any fs) by (intros; now apply var_late).
  assert (E0 : sha_var st W 0 = st) by apply orb_false_r.
  eapply costf_bindq.
  - change (seq 0 64) with (seq 0 (length (seq 0 64))) at 2.
    apply (costf_foldq (fun i r _ => round_step w' i r) (sha_round_fee (sha_var st W)) (rinv st W)).
    + unfold rinv. cbn [ra rb rc rd re rf rg rh mb Nat.sub]. rewrite E0. auto 20.
    + intros j _ r _ _ Hr. now apply round_costs.
  - rewrite seq_length. cbn [Nat.add]. intros r (Ha & Hb & Hc & Hd & He & Hf & Hg & Hh). cbn [Nat.sub] in *.
    rewrite !Hv in * by lia. unfold mb in Ha, He. rewrite !Hv in * by lia. set (v := st || existsb any fs) in *.
    assert (Hst : forall c, fl st c -> v = false -> uconst c = true /\ u_value c <> None).
    { intros c Hc' E. subst v. apply orb_false_iff in E as [E _]. now apply (fl_const _ _ Hc'). }
    assert (H2 : forall n c x, fl st c -> fl v x -> costf (ns n (@addmany P [c; x])) (add_fee 2 v) (fl v)).
    { intros n c x Hc' Hx. apply costf_ns, (addmany_costs v [c; x]). destruct v eqn:Ev; cbn [ops].
      - exists x. split; [right; now left|]. now rewrite (fl_uconst _ _ Hx).
      - constructor; [auto|]. constructor; [now apply (fl_const _ _ Hx)|constructor]. }
    assert (HM : forall m k name c, match m with Deferred l => 64 <> 0 /\ length l = k /\ ops v l | Concrete u => 64 = 0 /\ fl (sha_var st W 0) u end -> fl st c ->
       costf (@compute P m name [c]) (add_fee (S k) v) (fl v)).
    { intros m k name c Hm Hc'. unfold compute. apply costf_ns. destruct m as [l|u]; [|now destruct Hm]. destruct Hm as (_ & <- & Ho).
      replace (S (length l)) with (length (l ++ [c])) by (rewrite app_length; cbn; lia). apply addmany_costs. destruct v eqn:Ev; cbn [ops] in *.
      - destruct Ho as (x & Hi & Hx). exists x. split; [apply in_or_app; now left|exact Hx].
      - apply Forall_app. split; [exact Ho|]. constructor; [auto|constructor]. }
    unfold finish, sha_finish_fee. rewrite fold_plus, free_plus. cbn [map fees].
    eapply costf_bindq; [now apply HM|]. intros h0 H0. do 3 (eapply costf_bindq; [now apply H2|]; intros ? ?).
    eapply costf_bindq; [now apply HM|]. intros h4 H4. do 2 (eapply costf_bindq; [now apply H2|]; intros ? ?).
    rewrite plus_free. eapply costf_last; [now apply H2|]. intros h7 H7. split; [|reflexivity]. repeat (constructor; [assumption|]). constructor.
Qed.

(** *** Blocks *)
Definition pbill (p : price) : bill := mkBill (p_cons p) (p_vars p) 0 [].
Lemma scope_costf {A} (p : prog P (res A)) x Q : costf p x Q -> costs (multieq_scope p) (pbill (total (capacity P) x)) Q.
Proof. intros H. exact (costs_scope p (fbill x) Q H). Qed.
Lemma chunks_map {A B} (f : A -> B) n : 0 < n -> forall l, chunks n (map f l) = map (map f) (chunks n l).
Proof.
  intros Hn. apply (chunks_ind n Hn).
  - reflexivity.
  - intros l Hl IH. rewrite (chunks_cons n l Hn Hl), (chunks_cons n (map f l) Hn) by (destruct l; [congruence|discriminate]).
    cbn [map]. now rewrite skipn_map, firstn_map, IH.
Qed.
Lemma be_value (bits : list Boolean) : forall z, any (map isvar bits) = false -> exists z', fold_left from_bits_be_step bits (Some z) = Some z'.
Proof.
  unfold any. induction bits as [|b bits IH]; intros z H; cbn [map existsb fold_left] in *; [eauto|]. apply orb_false_iff in H as [Hb H].
  destruct b as [b|b|[|]]; cbn in Hb; try discriminate; cbn [from_bits_be_step b_value option_map]; apply IH, H.
Qed.
Lemma any_rev l : any (rev l) = any l.
Proof. unfold any. induction l as [|x l IH]; [reflexivity|]. cbn [rev existsb]. rewrite existsb_app, IH. cbn [existsb]. rewrite orb_false_r. apply orb_comm. Qed.
Lemma from_bits_be_mw bits w : from_bits_be bits = Done w -> mw (rev (map isvar bits)) w /\ length (rev (map isvar bits)) = 32.
Proof.
  unfold from_bits_be. destruct (Nat.eqb_spec (length bits) 32) as [Hl|]; [|discriminate]. intros E. inversion E; subst w; clear E. split.
  - split; cbn [u_bits u_value]; [now rewrite map_rev|]. rewrite any_rev. intros H. destruct (be_value bits 0%Z H) as [z ->]. discriminate.
  - now rewrite rev_length, map_length.
Qed.
Lemma any_concat l : any (concat l) = existsb any l.
Proof. induction l as [|x l IH]; [reflexivity|]. cbn [concat existsb]. unfold any in *. now rewrite existsb_app, IH. Qed.
Lemma words_any block : existsb any (sha_words block) = any block.
Proof.
  unfold sha_words. rewrite <- (chunks_concat 32 block ltac:(lia)) at 2. rewrite any_concat. induction (chunks 32 block) as [|x l IH]; [reflexivity|].
  cbn [map existsb]. now rewrite any_rev, IH.
Qed.
Lemma words_length block : length block = 512 -> length (sha_words block) = 16.
Proof. intros H. unfold sha_words. rewrite map_length. exact (proj1 (WordLogic.chunks_length 32 16 ltac:(lia) block H)). Qed.
Lemma read_words (l : list (list Boolean)) : costf (mapq (fun _ c => lift (from_bits_be c) (fun w => @Ret P _ (Ok w))) 0 l) free (wl (map (fun w => rev w) (map (map isvar) l))).
Proof.
  assert (E : free = fees (map (fun _ : list Boolean => free) l)) by (induction l as [|x l IH]; [reflexivity|]; cbn [map fees]; now rewrite <- IH).
  rewrite E. eapply costf_mono; [|apply (costf_mapq _ (fun _ => free) (fun c w => mw (rev (map isvar c)) w /\ length (rev (map isvar c)) = 32))].
  - clear E. intros w HF. split.
    + induction HF as [|c y l w [Hc _] _ IH]; cbn [map]; constructor; auto.
    + induction HF as [|c y l w [_ Hc] _ IH]; cbn [map]; constructor; auto.
  - intros j c _. unfold lift. destruct (from_bits_be c) as [w|] eqn:Ew; [|apply costf_panic]. apply costf_ret. now apply from_bits_be_mw.
Qed.
Lemma compression_costs st input cur : Forall (fl st) cur -> costs (@sha256_compression P input cur)
  (pbill (total (capacity P) (sha_block_fee st (sha_words (map isvar input))))) (fun r => Forall (fl (st || any (map isvar input))) r /\ length r = 8).
Proof.
  intros HC. unfold sha256_compression. destruct (Nat.eqb_spec (length input) 512) as [Hl|]; cbn [negb]; [|apply costs_panic].
  destruct (negb _); [apply costs_panic|].
  eapply costs_bindq0; [apply read_words|]. intros w HW. cbv beta.
  assert (E : map (fun w => rev w) (map (map isvar) (chunks 32 input)) = sha_words (map isvar input)).
  { unfold sha_words. rewrite chunks_map by lia. reflexivity. }
  rewrite E in HW. rewrite <- words_any. apply scope_costf. apply body_costs; [exact HW| |exact HC]. apply words_length. now rewrite map_length.
Qed.
Lemma iv_fl : Forall (fl false) get_sha256_iv.
Proof. unfold get_sha256_iv. apply Forall_map, Forall_forall. intros z _. apply constant_fl. Qed.
Lemma block_costs input : costs (@sha256_block_no_padding P input) (pbill (sha256_block_price (capacity P) (map isvar input))) (fun _ => True).
Proof.
  unfold sha256_block_no_padding. destruct (negb _); [apply costs_panic|]. eapply costs_ret_bindq; [apply compression_costs, iv_fl|]. auto.
Qed.
Lemma pbill_add x y : pbill (price_add x y) = bill_add (pbill x) (pbill y).
Proof. reflexivity. Qed.
Lemma blocks_costs l : forall i st cur, Forall (fl st) cur ->
  costs (foldq (fun i cur block => ns ("block " ++ nat_str i) (@sha256_compression P block cur)) i cur l)
    (pbill (sha_blocks (capacity P) st (map (map isvar) l))) (fun r => length cur = 8 -> Forall (fl (st || existsb any (map (map isvar) l))) r /\ length r = 8).
Proof.
  induction l as [|b l IH]; intros i st cur HC; cbn [foldq map sha_blocks existsb]; [apply costs_ret; rewrite orb_false_r; auto|].
  rewrite pbill_add. eapply costs_bindq; [apply costs_ns, compression_costs; exact HC|]. intros cur' [HC' Hl']. eapply costs_mono; [|apply IH; exact HC'].
  cbv beta. intros r Hr _. rewrite orb_assoc. auto.
Qed.
Lemma padding_flags input padded : sha256_padding input = Some padded -> map isvar padded = sha_pad_flags (map isvar input).
Proof.
  intros E. destruct (pad_count (length input)) as (q & Hq & Hk). unfold sha256_padding in E.
  rewrite (pad_zeros_spec (Z.to_nat ((448 - (Z.of_nat (length input) + 1)) mod 512))) in E.
  - apply (f_equal (fun o => match o with Some x => x | None => [] end)) in E; cbv beta iota in E; rewrite <- E; clear E. unfold sha_pad_flags. rewrite !map_app, map_length, map_repeat', map_map, !repeat_app, <- !app_assoc.
    f_equal.
  - lia.
  - lia.
  - rewrite app_length. cbn [length].
    replace (length input + 1 + 64 + Z.to_nat ((448 - (Z.of_nat (length input) + 1)) mod 512)) with (q * 512) by lia.
    apply Nat.mod_mul. lia.
Qed.
Lemma any_sha_pad fs : any (sha_pad_flags fs) = any fs.
Proof. unfold sha_pad_flags, any. rewrite existsb_app. generalize (1 + Z.to_nat ((448 - (Z.of_nat (length fs) + 1)) mod 512) + 64). intros n. induction n as [|n IH]; cbn [repeat existsb orb]; [apply orb_false_r|exact IH]. Qed.
Lemma words_flags f r : Forall (fl f) r -> map isvar (concat (map into_bits_be r)) = repeat f (32 * length r).
Proof.
  induction 1 as [|w r [Hw _] _ IH]; [reflexivity|]. cbn [map concat length]. rewrite map_app, IH. unfold into_bits_be. rewrite map_rev, Hw.
  replace (32 * S (length r)) with (32 + 32 * length r) by lia. rewrite repeat_app. reflexivity.
Qed.
Lemma sha256_costs input : costs (@sha256 P input) (pbill (sha256_price (capacity P) (map isvar input))) (fun r => map isvar r = repeat (any (map isvar input)) 256).
Proof.
  unfold sha256. destruct (negb _); [apply costs_panic|]. destruct (sha256_padding input) as [padded|] eqn:E; [|apply costs_panic].
  destruct (negb _); [apply costs_panic|].
  unfold sha256_price. rewrite <- (any_sha_pad (map isvar input)), <- (padding_flags _ _ E), chunks_map by lia.
  eapply costs_ret_bindq; [apply blocks_costs, iv_fl|]. cbv beta. intros r Hr. destruct (Hr eq_refl) as [HF Hl].
  rewrite (words_flags _ _ HF), Hl. f_equal. cbn [orb]. rewrite <- any_concat, <- concat_map, chunks_concat by lia. reflexivity.
Qed.

(** ** BLAKE2s *)
Definition mfl (f : bool) (w : UInt32) : Prop := uconst w = negb f /\ (f = false -> u_value w <> None).
Lemma fl_mfl f w : fl f w -> mfl f w.
Proof. intros H. split; [now apply fl_uconst|]. intros E. now apply (fl_const _ _ H). Qed.
Lemma F2_flag (R : bool -> UInt32 -> Prop) fs v i x : Forall2 R fs v -> nth_error v i = Some x -> R (flag fs i) x.
Proof. intros HF. revert i. induction HF as [|f y fs v Hy _ IH]; intros [|i] E; cbn in *; try discriminate; [inversion E; subst; exact Hy|exact (IH i E)]. Qed.
Lemma ops2 f g a b : mfl f a -> mfl g b -> ops (f || g) [a; b].
Proof.
  intros [Ha Va] [Hb Vb]. destruct f; [|destruct g]; cbn [orb ops].
  - exists a. split; [now left|exact Ha].
  - exists b. split; [right; now left|exact Hb].
  - constructor; [auto|]. constructor; [auto|constructor].
Qed.
Lemma ops3 f g h a b c : mfl f a -> mfl g b -> mfl h c -> ops (f || g || h) [a; b; c].
Proof.
  intros [Ha Va] [Hb Vb] [Hc Vc]. destruct f; [|destruct g; [|destruct h]]; cbn [orb ops].
  - exists a. split; [now left|exact Ha].
  - exists b. split; [right; now left|exact Hb].
  - exists c. split; [do 2 right; now left|exact Hc].
  - repeat (constructor; [auto|]). constructor.
Qed.

Definition bst : Type := list bool * fee.
Definition framed (op : bst -> bst) : Prop := forall fs x, op (fs, x) = (fst (op (fs, free)), plus x (snd (op (fs, free)))).
Definition does (p : list UInt32 -> prog P (res (list UInt32))) (op : bst -> bst) : Prop :=
  framed op /\ forall fs v, Forall2 fl fs v -> costf (p v) (snd (op (fs, free))) (Forall2 fl (fst (op (fs, free)))).
Lemma does_seq p q op1 op2 : does p op1 -> does q op2 -> does (fun v => bindq (p v) q) (fun st => op2 (op1 st)).
Proof.
  intros [F1 H1] [F2 H2]. split.
  - intros fs x. rewrite (F1 fs x). destruct (op1 (fs, free)) as [f1 y1]. cbn [fst snd].
    rewrite (F2 f1 (plus x y1)), (F2 f1 y1). cbn [fst snd]. now rewrite plus_assoc'.
  - intros fs v HF. specialize (H1 fs v HF). destruct (op1 (fs, free)) as [f1 y1]. cbn [fst snd] in H1.
    rewrite (F2 f1 y1). cbn [fst snd]. eapply costf_bindq; [exact H1|]. intros v' HF'. now apply H2.
Qed.
Lemma does_ns n p op : does p op -> does (fun v => ns n (p v)) op.
Proof. intros [F H]. split; [exact F|]. intros fs v HF. now apply costf_ns, H. Qed.
Lemma does_id : does (fun v => Ret (Ok v)) (fun st => st).
Proof. split; [intros fs x; cbn [fst snd]; now rewrite plus_free|]. intros fs v HF. now apply costf_ret. Qed.
Lemma set_add3_does n i j f x : mfl f x -> does (fun v => @set_add3 P n v i j x) (add3 i j f).
Proof.
  intros Hx. split; [intros fs y; reflexivity|]. intros fs v HF. unfold set_add3. cbn [add3 add_to fst snd]. rewrite free_plus.
  apply costf_idx. intros a Ea. apply costf_idx. intros b Eb.
  eapply costf_last; [apply costf_ns, (addmany_costs (flag fs i || flag fs j || f) [a; b; x])|].
  - apply ops3; [apply fl_mfl, (F2_flag fl _ _ _ _ HF Ea)|apply fl_mfl, (F2_flag fl _ _ _ _ HF Eb)|exact Hx].
  - intros t Ht. now apply Forall2_upd.
Qed.
Lemma set_add2_does n i j : does (fun v => @set_add2 P n v i j) (add2 i j).
Proof.
  split; [intros fs y; reflexivity|]. intros fs v HF. unfold set_add2. cbn [add2 add_to fst snd]. rewrite free_plus.
  apply costf_idx. intros a Ea. apply costf_idx. intros b Eb.
  eapply costf_last; [apply costf_ns, (addmany_costs (flag fs i || flag fs j) [a; b])|].
  - apply ops2; [apply fl_mfl, (F2_flag fl _ _ _ _ HF Ea)|apply fl_mfl, (F2_flag fl _ _ _ _ HF Eb)].
  - intros t Ht. now apply Forall2_upd.
Qed.
Lemma set_xor_does n i j r : r < 32 -> does (fun v => @set_xor P n v i j r) (xor_to i j).
Proof.
  intros Hr. split; [intros fs y; reflexivity|]. intros fs v HF. unfold set_xor. cbn [xor_to fst snd]. rewrite free_plus.
  apply costf_idx. intros a Ea. apply costf_idx. intros b Eb.
  eapply costf_last; [apply costf_ns, (fl_xor (flag fs i) (flag fs j)); [exact (F2_flag fl _ _ _ _ HF Ea)|exact (F2_flag fl _ _ _ _ HF Eb)]|].
  intros t Ht. apply Forall2_upd; [exact HF|now apply fl_rotr].
Qed.
Lemma mixing_does a b c d f g x y : mfl f x -> mfl g y -> does (fun v => @mixing_g P v (a, b, c, d) x y) (blake_G f g a b c d).
Proof.
  intros Hx Hy.
  assert (H8 : does (fun v => @set_xor P "mixing step 8" v b c R4) (xor_to b c)) by (apply set_xor_does; unfold R4; lia).
  pose proof (does_seq _ _ _ _ (set_add2_does "mixing step 7" c d) H8) as H7.
  pose proof (does_seq _ _ _ _ (set_xor_does "mixing step 6" d a R3 ltac:(unfold R3; lia)) H7) as H6.
  pose proof (does_seq _ _ _ _ (set_add3_does "mixing step 5" a b g y Hy) H6) as H5.
  pose proof (does_seq _ _ _ _ (set_xor_does "mixing step 4" b c R2 ltac:(unfold R2; lia)) H5) as H4.
  pose proof (does_seq _ _ _ _ (set_add2_does "mixing step 3" c d) H4) as H3.
  pose proof (does_seq _ _ _ _ (set_xor_does "mixing step 2" d a R1 ltac:(unfold R1; lia)) H3) as H2.
  exact (does_seq _ _ _ _ (set_add3_does "mixing step 1" a b f x Hx) H2).
Qed.
Lemma does_panic p op : framed op -> (forall v, p v = Panic) -> does p op.
Proof. intros F H. split; [exact F|]. intros fs v _. rewrite H. apply costf_panic. Qed.
Lemma G_framed f g a b c d : framed (blake_G f g a b c d).
Proof. pose proof (mixing_does a b c d f g) as H.
  assert (Hw : forall h, exists w, mfl h w).
  { intros [|]; [|exists (u_constant 0); apply fl_mfl, constant_fl]. exists {| u_bits := [BIs {| ab_var := Aux 0; ab_value := None |}]; u_value := None |}. split; [reflexivity|discriminate]. }
  destruct (Hw f) as [x Hx], (Hw g) as [y Hy]. exact (proj1 (H x y Hx Hy)).
Qed.
Lemma mix_does n mf m s i j a b c d : Forall2 mfl mf m ->
  does (@mix P n m s i j (a, b, c, d)) (blake_G (flag mf (nth i s 0)) (flag mf (nth j s 0)) a b c d).
Proof.
  intros HM. unfold mix, idx. destruct (nth_error s i) as [si|] eqn:Ei; [|apply does_panic; [apply G_framed|reflexivity]].
  destruct (nth_error s j) as [sj|] eqn:Ej; [|apply does_panic; [apply G_framed|reflexivity]].
  rewrite (nth_error_nth _ _ 0 Ei), (nth_error_nth _ _ 0 Ej).
  destruct (nth_error m si) as [x|] eqn:Ex; [|apply does_panic; [apply G_framed|reflexivity]].
  destruct (nth_error m sj) as [y|] eqn:Ey; [|apply does_panic; [apply G_framed|reflexivity]].
  apply does_ns. apply mixing_does; [exact (F2_flag mfl _ _ _ _ HM Ex)|exact (F2_flag mfl _ _ _ _ HM Ey)].
Qed.
Lemma round_does mf m i : Forall2 mfl mf m -> does (@b_round P m i) (fun st => blake_round mf st i).
Proof.
  intros HM. unfold b_round, blake_round. apply does_ns. change SIGMA with b2_SIGMA. unfold idx.
  set (s := nth (i mod 10) b2_SIGMA []). cbv zeta.
  pose proof (mix_does "mixing invocation 8" mf m s 14 15 3 4 9 14 HM) as H8.
  pose proof (does_seq _ _ _ _ (mix_does "mixing invocation 7" mf m s 12 13 2 7 8 13 HM) H8) as H7.
  pose proof (does_seq _ _ _ _ (mix_does "mixing invocation 6" mf m s 10 11 1 6 11 12 HM) H7) as H6.
  pose proof (does_seq _ _ _ _ (mix_does "mixing invocation 5" mf m s 8 9 0 5 10 15 HM) H6) as H5.
  pose proof (does_seq _ _ _ _ (mix_does "mixing invocation 4" mf m s 6 7 3 7 11 15 HM) H5) as H4.
  pose proof (does_seq _ _ _ _ (mix_does "mixing invocation 3" mf m s 4 5 2 6 10 14 HM) H4) as H3.
  pose proof (does_seq _ _ _ _ (mix_does "mixing invocation 2" mf m s 2 3 1 5 9 13 HM) H3) as H2.
  pose proof (does_seq _ _ _ _ (mix_does "mixing invocation 1" mf m s 0 1 0 4 8 12 HM) H2) as H1.
  destruct (nth_error b2_SIGMA (i mod 10)) as [s'|] eqn:E.
  - assert (Es : s' = s) by (symmetry; exact (nth_error_nth _ _ [] E)). rewrite Es. exact H1.
  - apply does_panic; [exact (proj1 H1)|reflexivity].
Qed.
Lemma rounds_does mf m l : Forall2 mfl mf m -> forall i,
  does (fun v => foldq (fun i v _ => @b_round P m i v) i v (seq i l)) (fun st => fold_left (blake_round mf) (seq i l) st).
Proof.
  intros HM. induction l as [|l IH]; intros i; cbn [seq foldq fold_left]; [apply does_id|].
  exact (does_seq _ _ _ _ (round_does mf m i HM) (IH (S i))).
Qed.

(** *** Blocks *)
Lemma upd_same fs : forall i, upd i (flag fs i || false) fs = fs.
Proof. induction fs as [|f fs IH]; intros [|i]; cbn [upd flag nth]; try reflexivity; [now rewrite orb_false_r|]. f_equal. apply IH. Qed.
Lemma xor_const_costs n fs v i z : Forall2 fl fs v -> costf (@set_xor_const P n v i z) free (Forall2 fl fs).
Proof.
  intros HF. unfold set_xor_const. apply costf_idx. intros a Ea.
  eapply costf_last; [eapply costf_eq; [|apply costf_ns, (fl_xor (flag fs i) false); [exact (F2_flag fl _ _ _ _ HF Ea)|apply constant_fl]]|].
  - now rewrite andb_false_r.
  - intros t Ht. rewrite <- (upd_same fs i). now apply Forall2_upd.
Qed.
Lemma final_costs fs vf h v i : Forall2 fl fs h -> Forall2 fl vf v ->
  costf (@final_xor P v i h) (plus (bits_if (flag fs i && flag vf i) 32) (bits_if ((flag fs i || flag vf i) && flag vf (i + 8)) 32))
    (Forall2 fl (upd i (flag fs i || flag vf i || flag vf (i + 8)) fs)).
Proof.
  intros HF HV. unfold final_xor. apply costf_ns, costf_idx. intros a Ea. apply costf_idx. intros b Eb.
  eapply costf_bindq; [apply costf_ns, fl_xor; [exact (F2_flag fl _ _ _ _ HF Ea)|exact (F2_flag fl _ _ _ _ HV Eb)]|]. intros t Ht.
  apply costf_idx. intros c Ec. eapply costf_last; [apply costf_ns, fl_xor; [exact Ht|exact (F2_flag fl _ _ _ _ HV Ec)]|].
  intros r Hr. now apply Forall2_upd.
Qed.
Definition mid (hf vf : list bool) (i : nat) : list bool :=
  map (fun k => if Nat.ltb k i then flag hf k || flag vf k || flag vf (k + 8) else flag hf k) (seq 0 8).
Lemma mid_0 hf vf : length hf = 8 -> mid hf vf 0 = hf.
Proof. intros H. do 8 (destruct hf as [|? hf]; [discriminate H|]). destruct hf; [reflexivity|discriminate H]. Qed.
Lemma mid_flag hf vf i : i < 8 -> flag (mid hf vf i) i = flag hf i.
Proof. intros H. do 8 (destruct i as [|i]; [reflexivity|]). lia. Qed.
Lemma mid_S hf vf i : i < 8 -> upd i (flag hf i || flag vf i || flag vf (i + 8)) (mid hf vf i) = mid hf vf (S i).
Proof. intros H. do 8 (destruct i as [|i]; [reflexivity|]). lia. Qed.
Lemma final_bits hf vf i : plus (bits_if (flag hf i && flag vf i) 32) (bits_if ((flag hf i || flag vf i) && flag vf (i + 8)) 32) = (blake_final_bits hf vf i, []).
Proof. unfold blake_final_bits. destruct (flag hf i && flag vf i), ((flag hf i || flag vf i) && flag vf (i + 8)); reflexivity. Qed.
Lemma finals_costs hf vf v : Forall2 fl vf v -> forall n i h, i + n = 8 -> Forall2 fl (mid hf vf i) h ->
  costf (foldq (fun i h _ => @final_xor P v i h) i h (seq i n)) (fees (map (fun i => (blake_final_bits hf vf i, [])) (seq i n))) (Forall2 fl (mid hf vf 8)).
Proof.
  intros HV. induction n as [|n IH]; intros i h Hi HF; cbn [seq foldq map fees].
  - apply costf_ret. replace 8 with i by lia. exact HF.
  - eapply costf_bindq.
    + eapply costf_eq; [|apply (final_costs (mid hf vf i) vf); eassumption]. rewrite mid_flag by lia. apply final_bits.
    + intros h' HF'. rewrite mid_flag, mid_S in HF' by lia. apply IH; [lia|exact HF'].
Qed.
Lemma fees_sum f l : fees (map (fun i : nat => (f i, [])) l) = (fold_left Z.add (map f l) 0%Z, []).
Proof.
  assert (H : forall z, fold_left Z.add (map f l) z = (z + fold_left Z.add (map f l) 0)%Z).
  { induction l as [|x l IH]; intros z; cbn [map fold_left]; [lia|]. rewrite (IH (z + f x)%Z), (IH (0 + f x)%Z). lia. }
  induction l as [|x l IH]; [reflexivity|]. cbn [map fees].
  assert (H' : forall z, fold_left Z.add (map f l) z = (z + fold_left Z.add (map f l) 0)%Z).
  { clear H IH. induction l as [|y l IH]; intros z; cbn [map fold_left]; [lia|]. rewrite (IH (z + f y)%Z), (IH (0 + f y)%Z). lia. }
  rewrite (IH H'). cbn [map fold_left]. rewrite (H' (0 + f x)%Z). unfold plus; cbn [fst snd app]. f_equal.
Qed.
Lemma blake_compression_costs hf mf h m t f : Forall2 fl hf h -> Forall2 mfl mf m ->
  costs (@blake2s_compression P h m t f) (pbill (snd (blake_F (capacity P) hf mf))) (Forall2 fl (fst (blake_F (capacity P) hf mf))).
Proof.
  intros HH HM. unfold blake2s_compression. destruct (Nat.eqb_spec (length h) 8) as [Hl|]; cbn [negb]; [|apply costs_panic].
  destruct (negb _); [apply costs_panic|]. cbv zeta. destruct (negb _); [apply costs_panic|].
  assert (HV : Forall2 fl (hf ++ repeat false 8) (h ++ map u_constant B_IV)).
  { apply Forall2_app; [exact HH|]. unfold B_IV. cbn [map repeat]. repeat (constructor; [apply constant_fl|]). constructor. }
  eapply costs_bindq0; [apply xor_const_costs, HV|]. intros v1 H1.
  eapply costs_bindq0; [apply xor_const_costs, H1|]. intros v2 H2.
  eapply costs_bindq0 with (Q1 := Forall2 fl (hf ++ repeat false 8)); [destruct f; [apply xor_const_costs, H2|apply costs_ret, H2]|]. intros v3 H3.
  pose proof (proj2 (rounds_does mf m 10 HM 0) _ _ H3) as HR. unfold blake_F, blake_rounds.
  destruct (fold_left (blake_round mf) (seq 0 10) (hf ++ repeat false 8, free)) as [vf x]. cbn [fst snd] in *.
  rewrite pbill_add. eapply costs_bindq; [apply scope_costf, HR|]. intros v4 H4. cbv beta in H4.
  pose proof (finals_costs hf vf v4 H4 8 0 h eq_refl) as HX.
  assert (Hh : length hf = 8) by (rewrite <- Hl; eapply Forall2_length; exact HH).
  rewrite mid_0, fees_sum in HX by exact Hh. specialize (HX HH). exact HX.
Qed.

Lemma le_value (bits : list Boolean) : forall z, any (map isvar bits) = false -> exists z', fold_left from_bits_step bits (Some z) = Some z'.
Proof.
  unfold any. induction bits as [|b bits IH]; intros z H; cbn [map existsb fold_left] in *; [eauto|]. apply orb_false_iff in H as [Hb H].
  destruct b as [b|b|[|]]; cbn in Hb; try discriminate; cbn [from_bits_step option_map]; apply IH, H.
Qed.
Lemma any_pad l n : any (l ++ repeat false n) = any l.
Proof. unfold any. rewrite existsb_app. replace (existsb _ (repeat false n)) with false; [apply orb_false_r|]. induction n; [reflexivity|assumption]. Qed.
Lemma word_mfl word w : from_bits (push_until 32 (BConst false) word) = Done w -> mfl (any (map isvar word)) w.
Proof.
  unfold from_bits. destruct (Nat.eqb _ _); [|discriminate]. intros E. inversion E; subst w; clear E.
  assert (Ea : any (map isvar (push_until 32 (BConst false) word)) = any (map isvar word)).
  { unfold push_until. rewrite map_app, map_repeat'. apply any_pad. }
  split; [rewrite uconst_any; cbn [u_bits]; now rewrite Ea|]. intros H. cbn [u_value]. rewrite <- Ea in H.
  destruct (le_value (rev (push_until 32 (BConst false) word)) 0%Z) as [z ->]; [|discriminate]. rewrite map_rev, any_rev. exact H.
Qed.
Lemma fees_free {A} (l : list A) : fees (map (fun _ => free) l) = free.
Proof. induction l as [|x l IH]; [reflexivity|]. cbn [map fees]. now rewrite IH. Qed.
Lemma b_block_costs block : costf (@b_block P block) free (Forall2 mfl (blake_words (map isvar block))).
Proof.
  unfold b_block. eapply costf_last.
  - eapply costf_eq; [apply (fees_free (chunks 32 block))|]. apply (costf_mapq _ (fun _ => free) (fun c w => mfl (any (map isvar c)) w)).
    intros j c _. unfold lift. destruct (from_bits _) as [w|] eqn:Ew; [|apply costf_panic]. apply costf_ret. now apply word_mfl.
  - intros ws HW. cbv beta. unfold blake_words, push_until. rewrite chunks_map by lia. rewrite map_map, map_length.
    replace (length (chunks 32 block)) with (length ws) by (symmetry; eapply Forall2_length; exact HW).
    apply Forall2_app.
    + induction HW; cbn [map]; constructor; auto.
    + induction (16 - length ws) as [|k IH]; cbn [repeat]; constructor; [apply fl_mfl, constant_fl|exact IH].
Qed.
Section Chain.
Variable F : list bool -> list bool -> list bool * price.
Let step (st : list bool * price) (m : list bool) : list bool * price := let (h, x) := F (fst st) m in (h, price_add (snd st) x).
Lemma chain_snd l : forall h x, fold_left step l (h, x) = (fst (fold_left step l (h, price0)), price_add x (snd (fold_left step l (h, price0)))).
Proof.
  induction l as [|m l IH]; intros h x; cbn [fold_left fst snd].
  - unfold price_add, price0; cbn [p_vars p_cons]. rewrite !Z.add_0_r. now destruct x.
  - unfold step at 2 4 6. cbn [fst snd]. destruct (F h m) as [h' y]. rewrite (IH h' (price_add x y)), (IH h' (price_add price0 y)). cbn [fst snd].
    f_equal. unfold price_add; cbn [p_vars p_cons price0]. f_equal; lia.
Qed.
Variable comp : nat -> list UInt32 -> list UInt32 -> prog P (res (list UInt32)).
Hypothesis HF : forall i hf mf h m, Forall2 fl hf h -> Forall2 mfl mf m -> costs (comp i h m) (pbill (snd (F hf mf))) (Forall2 fl (fst (F hf mf))).
Lemma chain_costs mfs ms : Forall2 (Forall2 mfl) mfs ms -> forall i hf h, Forall2 fl hf h ->
  costs (foldq comp i h ms) (pbill (snd (fold_left step mfs (hf, price0)))) (Forall2 fl (fst (fold_left step mfs (hf, price0)))).
Proof.
  induction 1 as [|mf m mfs ms HM _ IH]; intros i hf h HH; cbn [foldq fold_left].
  - apply costs_ret. exact HH.
  - unfold step at 2 4. cbn [fst snd]. pose proof (HF i hf mf h m HH HM) as HC. destruct (F hf mf) as [h' y]. cbn [fst snd] in *.
    rewrite chain_snd. cbn [fst snd]. rewrite pbill_add.
    replace (price_add price0 y) with y by (unfold price_add, price0; cbn [p_vars p_cons]; now destruct y).
    eapply costs_bindq; [exact HC|]. intros h1 H1. now apply IH.
Qed.
End Chain.
Lemma read_blocks l : costf (mapq (fun _ b => @b_block P b) 0 l) free (Forall2 (fun b ws => Forall2 mfl (blake_words (map isvar b)) ws) l).
Proof.
  eapply costf_eq; [apply (fees_free l)|]. apply (costf_mapq _ (fun _ => free) (fun b ws => Forall2 mfl (blake_words (map isvar b)) ws)).
  intros j c _. apply b_block_costs.
Qed.
(** Which words of the digest are variable. *)
Definition blake2s_flags (cap : nat) (input : list bool) : list bool :=
  let blocks := match chunks 512 input with [] => [repeat false 16] | bs => map blake_words bs end in
  fst (fold_left (blake_chain cap) blocks (repeat false 8, price0)).
Lemma fl_concat fs h : Forall2 fl fs h -> map isvar (concat (map u_bits h)) = concat (map (fun f => repeat f 32) fs).
Proof. induction 1 as [|f w fs h [Hw _] _ IH]; [reflexivity|]. cbn [map concat]. now rewrite map_app, IH, Hw. Qed.
Lemma blake2s_costs_flags input person : costs (@blake2s P input person) (pbill (blake2s_price (capacity P) (map isvar input)))
  (fun r => map isvar r = concat (map (fun f => repeat f 32) (blake2s_flags (capacity P) (map isvar input)))).
Proof.
  unfold blake2s. destruct (negb _); [apply costs_panic|]. destruct (negb _); [apply costs_panic|]. cbv zeta.
  eapply costs_bindq0.
  - exact (read_blocks (chunks 512 input)).
  - intros blocks HB. unfold blake2s_price, blake2s_flags. rewrite chunks_map by lia.
    set (bs := match blocks with [] => [repeat (u_constant 0) 16] | _ => blocks end).
    set (fss := match map (map isvar) (chunks 512 input) with [] => [repeat false 16] | b => map blake_words b end).
    assert (HF : Forall2 (Forall2 mfl) fss bs).
    { subst fss bs. destruct HB as [|c y l w Hc HB]; cbn [map].
      - constructor; [|constructor]. cbn [repeat]. repeat (constructor; [apply fl_mfl, constant_fl|]). constructor.
      - constructor; [exact Hc|]. rewrite map_map. induction HB; cbn [map]; constructor; auto. }
    clearbody fss bs. clear HB blocks.
    set (h0 := map u_constant _). assert (H0 : Forall2 fl (repeat false 8) h0).
    { subst h0. cbn [map repeat]. repeat (constructor; [apply constant_fl|]). constructor. }
    clearbody h0. unfold idx. destruct (nth_error bs (length bs - 1)) as [last|] eqn:El.
    2:{ intros r y S. apply spends_bind in S as ([a|e] & u & v & _ & S & _); inversion S. }
    assert (Hsplit : bs = firstn (length bs - 1) bs ++ [last]).
    { rewrite <- (firstn_skipn (length bs - 1) bs) at 1. f_equal. clear - El. destruct bs as [|b bs]; [discriminate El|]. revert b El.
      cbn [length]. rewrite Nat.sub_succ, Nat.sub_0_r.
      induction bs as [|c bs IH]; intros b El; cbn [length] in *; [cbn in *; congruence|]. cbn [skipn nth_error] in *. exact (IH c El). }
    revert Hsplit. generalize (firstn (length bs - 1) bs). intros init Hs. clear El. subst bs.
    apply Forall2_app_inv_r in HF as (fi & fl' & HI & HL & ->). inversion HL as [|lf ? t ? Hlf Ht]; subst. inversion Ht; subst. clear HL Ht.
    rewrite fold_left_app.
    pose proof (chain_costs (blake_F (capacity P)) (fun i h block => ns ("block " ++ nat_str i) (@blake2s_compression P h block ((Z.of_nat i + 1) * 64)%Z false))
      (fun i hf mf h m H1 H2 => costs_ns _ _ _ _ (blake_compression_costs hf mf h m _ _ H1 H2)) fi init HI 0 _ h0 H0) as HC. cbv beta in HC.
    change (fun st m => let (h, x) := blake_F (capacity P) (fst st) m in (h, price_add (snd st) x)) with (blake_chain (capacity P)) in HC.
    destruct (fold_left (blake_chain (capacity P)) fi (repeat false 8, price0)) as [hf x]. cbn [fst snd fold_left] in *.
    assert (HG : forall h, Forall2 fl hf h -> costs (bindq (ns "final block" (@blake2s_compression P h last (Z.of_nat (length input) / 8) true)) (fun h => Ret (Ok (concat (map u_bits h)))))
       (pbill (snd (blake_F (capacity P) hf lf))) (fun r => map isvar r = concat (map (fun f => repeat f 32) (fst (blake_F (capacity P) hf lf))))).
    { intros h Hh. eapply costs_ret_bindq; [apply costs_ns, (blake_compression_costs hf lf); eassumption|]. intros r Hr. now apply fl_concat. }
    unfold blake_chain. cbn [fst snd]. revert HG. generalize (blake_F (capacity P) hf lf). intros [h' y] HG. cbn [fst snd] in *. rewrite pbill_add.
    eapply costs_bindq; [exact HC|]. exact HG.
Qed.
Lemma blake2s_costs input person : costs (@blake2s P input person) (pbill (blake2s_price (capacity P) (map isvar input))) (fun _ => True).
Proof. eapply costs_mono; [|apply blake2s_costs_flags]. auto. Qed.

End Costs.
