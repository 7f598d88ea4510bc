(** How many values make one of several polynomials vanish. *)
From Coq Require Import ZArith List Bool Lia Field.
From Verif Require Import Prelude PrimeField FModule DomainProof Quotient BatchProof.
Import ListNotations.
Local Open Scope nat_scope.

Section Roots.
Context {P : PrimeField}.
Add Field PFroots : (F_field P).

Lemma fsum_Sl n (f : nat -> P) : fsum (S n) f = (f 0%nat + fsum n (fun i => f (S i)))%F.
Proof.
  induction n as [|n IH].
  - rewrite fsum_S. change (fsum 0 f) with (fzero : P). change (fsum 0 (fun i => f (S i))) with (fzero : P). ring.
  - rewrite fsum_S, IH, fsum_S. ring.
Qed.

Lemma peval_horner (l : list P) x : peval l x = gpeval (M := ScalarMod P) l x.
Proof.
  unfold peval. induction l as [|c l IH]; [reflexivity|]. cbn [length gpeval]. rewrite fsum_Sl, <- IH. unfold coef. cbn [nth fpow].
  change (c * 1 + fsum (length l) (fun i => nth i l 0 * (x * fpow x i)) = c + x * fsum (length l) (fun i => nth i l 0 * fpow x i))%F.
  rewrite fsum_mul_l. rewrite (fsum_ext _ (fun i => nth i l 0 * (x * fpow x i))%F (fun i => x * (nth i l 0 * fpow x i))%F); [ring|]. intros; ring.
Qed.

Definition all_zero (l : list P) : Prop := Forall (fun c => c = fzero) l.
Lemma all_zero_eval (l : list P) x : all_zero l -> peval l x = fzero.
Proof. intros Z. rewrite peval_horner. induction Z as [|d l Hd Z IH]; [reflexivity|]. cbn [gpeval]. rewrite IH, Hd, gmul_0_r. cbn. ring. Qed.

Lemma few_roots (l roots : list P) : ~ all_zero l -> NoDup roots -> (forall r, In r roots -> peval l r = fzero) -> length roots <= length l - 1.
Proof.
  intros Hx Hn Hr. destruct (Nat.le_gt_cases (length roots) (length l - 1)) as [|Hl]; auto. exfalso. apply Hx.
  assert (X : length l <= length roots) by lia. apply (groots (M := ScalarMod P) roots); auto. intros r Hin. rewrite <- peval_horner. now apply Hr.
Qed.

Definition root_of (x : P) (p : list P) : bool := feqb (peval p x) fzero.

Lemma few_bad (ps : list (list P)) : forall bad, (forall p, In p ps -> ~ all_zero p) -> NoDup bad ->
  (forall x, In x bad -> existsb (root_of x) ps = true) -> length bad <= list_sum (map (fun p => length p - 1) ps).
Proof.
  induction ps as [|p ps IH]; intros bad Hp Hn Hb.
  - destruct bad as [|x bad]; [cbn; lia|]. specialize (Hb x (or_introl eq_refl)). discriminate.
  - pose proof (Hp p (or_introl eq_refl)) as Hx0. change (list_sum (map (fun p => length p - 1) (p :: ps))) with (length p - 1 + list_sum (map (fun p => length p - 1) ps)).
    assert (A : length (filter (fun x => root_of x p) bad) <= length p - 1).
    { apply (few_roots p _ Hx0); [now apply NoDup_filter|]. intros r Hr. apply filter_In in Hr as [_ Hr]. unfold root_of in Hr. destruct (feqb_spec (peval p r) fzero); congruence. }
    assert (B : length (filter (fun x => negb (root_of x p)) bad) <= list_sum (map (fun p => length p - 1) ps)).
    { apply IH; [intros q Hq; apply Hp; now right|now apply NoDup_filter|]. intros x Hx. apply filter_In in Hx as [Hx Hx']. specialize (Hb x Hx). cbn [existsb] in Hb.
      destruct (root_of x p); [discriminate|exact Hb]. }
    assert (C : length bad = length (filter (fun x => root_of x p) bad) + length (filter (fun x => negb (root_of x p)) bad)).
    { clear. induction bad as [|x bad IH]; [reflexivity|]. cbn [filter length]. destruct (root_of x p); cbn [negb length]; lia. }
    lia.
Qed.

(** [p], or the constant one if all coefficients of [p] are zero. *)
Definition not_zero (p : list P) : list P := if forallb (fun c => feqb c fzero) p then [fone] else p.
Lemma not_zero_ok (p : list P) : ~ all_zero (not_zero p).
Proof.
  unfold not_zero. destruct (forallb _ p) eqn:Ef; intros F; [inversion F as [|? ? H _]; now apply f_1_neq_0 in H|].
  assert (forallb (fun c => feqb c fzero) p = true); [|congruence]. apply forallb_forall. unfold all_zero in F. rewrite Forall_forall in F. intros c Hc. rewrite (F c Hc).
  destruct (feqb_spec (fzero : P) fzero); congruence.
Qed.
Lemma not_zero_id (p : list P) x : peval p x <> fzero -> not_zero p = p.
Proof.
  intros H. unfold not_zero. destruct (forallb _ p) eqn:Ef; auto. exfalso. apply H, all_zero_eval, Forall_forall. rewrite forallb_forall in Ef.
  intros d Hd. specialize (Ef d Hd). destruct (feqb_spec d fzero); [auto|discriminate].
Qed.
Lemma not_zero_length (p : list P) m : 0 < m -> length p <= m -> length (not_zero p) <= m.
Proof. intros Hm H. unfold not_zero. destruct (forallb _ p); [cbn; lia|auto]. Qed.

(** [b p + a q + r] *)
Definition lin (m : nat) (b a : P) (p q r : list P) : list P := map (fun i => (b * coef p i + a * coef q i + coef r i)%F) (seq 0 m).
Lemma lin_length m b a p q r : length (lin m b a p q r) = m.
Proof. unfold lin. now rewrite map_length, seq_length. Qed.
Lemma lin_eval m b a p q r x : length p <= m -> length q <= m -> length r <= m ->
  peval (lin m b a p q r) x = (b * peval p x + a * peval q x + peval r x)%F.
Proof.
  intros H1 H2 H3. rewrite (peval_upto p m), (peval_upto q m), (peval_upto r m) by auto. rewrite !fsum_mul_l, <- !fsum_add.
  rewrite (peval_upto (lin m b a p q r) m) by (rewrite lin_length; auto). apply fsum_ext. intros i Hi.
  unfold coef at 1. unfold lin. rewrite (nth_indep _ _ ((fun i => (b * coef p i + a * coef q i + coef r i)%F) 0)) by (rewrite map_length, seq_length; auto).
  rewrite (map_nth (fun i => (b * coef p i + a * coef q i + coef r i)%F)), seq_nth by auto. cbn [Nat.add]. ring.
Qed.

(** The polynomials [X] and [X^m - 1]. *)
Definition x_poly : list P := [fzero; fone].
Lemma x_eval x : peval x_poly x = x.
Proof. rewrite peval_horner. cbn. ring. Qed.
Definition minus_one (m : nat) : list P := (0 - 1)%F :: repeat fzero (m - 1) ++ [fone].
Lemma minus_one_length m : 0 < m -> length (minus_one m) = S m.
Proof. intros H. unfold minus_one. cbn [length]. rewrite app_length, repeat_length. cbn. lia. Qed.
Lemma minus_one_eval m x : 0 < m -> peval (minus_one m) x = (fpow x m - 1)%F.
Proof.
  intros H. rewrite peval_horner. unfold minus_one. destruct m as [|m]; [lia|]. replace (S m - 1) with m by lia. cbn [gpeval].
  assert (A : gpeval (M := ScalarMod P) (repeat fzero m ++ [fone]) x = fpow x m).
  { clear. induction m as [|m IH]; cbn [repeat app gpeval]; [cbn; ring|]. rewrite IH. cbn. ring. }
  rewrite A. cbn. ring.
Qed.
End Roots.
