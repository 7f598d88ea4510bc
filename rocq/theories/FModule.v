(** Vector spaces over a prime field: the [Group] trait of src/domain.rs:192-197 and the groups of
    a pairing engine (elements are abstract group elements, not coordinates), and finite sums. *)
From Coq Require Import ZArith List Bool Lia Field.
From Verif Require Import Prelude PrimeField.
Import ListNotations.
Local Open Scope nat_scope.

Record FMod (P : PrimeField) := {
  G :> Type;
  gzero : G;
  gadd : G -> G -> G;
  gneg : G -> G;
  gmul : P -> G -> G;
  geqb : G -> G -> bool;
  gadd_comm : forall x y, gadd x y = gadd y x;
  gadd_assoc : forall x y z, gadd x (gadd y z) = gadd (gadd x y) z;
  gadd_0_l : forall x, gadd gzero x = x;
  gadd_neg_r : forall x, gadd x (gneg x) = gzero;
  gmul_1 : forall x, gmul fone x = x;
  gmul_mul : forall a b x, gmul (fmul a b) x = gmul a (gmul b x);
  gmul_add_l : forall a b x, gmul (fadd a b) x = gadd (gmul a x) (gmul b x);
  gmul_add_r : forall a x y, gmul a (gadd x y) = gadd (gmul a x) (gmul a y);
  geqb_eq : forall x y, geqb x y = true <-> x = y
}.
Arguments gzero {P _}. Arguments gadd {P _}. Arguments gneg {P _}. Arguments gmul {P _}. Arguments geqb {P _}.

Declare Scope G_scope.
Delimit Scope G_scope with G.
Bind Scope G_scope with G.
Notation "x +g y" := (gadd x y) (at level 50, left associativity).
Notation "a *g x" := (gmul a x) (at level 40, left associativity).

Definition gsub {P} {M : FMod P} (x y : M) : M := x +g gneg y.
Notation "x -g y" := (gsub x y) (at level 50, left associativity).

Section Facts.
Context {P : PrimeField} {M : FMod P}.
Add Field PFfield_mod : (F_field P).
Implicit Types x y z : M.
Implicit Types a b : P.

Lemma gadd_0_r x : x +g gzero = x.
Proof. rewrite gadd_comm. apply gadd_0_l. Qed.
Lemma gadd_neg_l x : gneg x +g x = gzero.
Proof. rewrite gadd_comm. apply gadd_neg_r. Qed.
Lemma gadd_cancel_r x y z : x +g z = y +g z -> x = y.
Proof.
  intros H. rewrite <- (gadd_0_r x), <- (gadd_0_r y), <- (gadd_neg_r _ _ z), !gadd_assoc, H. reflexivity.
Qed.
Lemma gadd_cancel_l x y z : z +g x = z +g y -> x = y.
Proof. rewrite (gadd_comm _ _ z x), (gadd_comm _ _ z y). apply gadd_cancel_r. Qed.
Lemma gmul_0_l x : fzero *g x = gzero.
Proof.
  apply (gadd_cancel_r _ _ (fzero *g x)). rewrite gadd_0_l, <- gmul_add_l. f_equal. ring.
Qed.
Lemma gmul_0_r a : a *g gzero = (gzero : M).
Proof.
  apply (gadd_cancel_r _ _ (a *g gzero)). rewrite gadd_0_l, <- gmul_add_r. f_equal. apply gadd_0_l.
Qed.
Lemma gneg_mul x : gneg x = (- (1))%F *g x.
Proof.
  apply (gadd_cancel_l _ _ x). rewrite gadd_neg_r.
  transitivity ((fone + - (1))%F *g x).
  - replace (fone + - (1))%F with (0 : P)%F by ring. now rewrite gmul_0_l.
  - now rewrite gmul_add_l, gmul_1.
Qed.
Lemma gsub_diag x : x -g x = gzero. Proof. apply gadd_neg_r. Qed.
Lemma gsub_0_r x : x -g gzero = x.
Proof. unfold gsub. rewrite gneg_mul, gmul_0_r. apply gadd_0_r. Qed.
Lemma gsub_mul x y : x -g y = x +g (- (1))%F *g y.
Proof. unfold gsub. now rewrite gneg_mul. Qed.
Lemma gsub_0_eq x y : x -g y = gzero <-> x = y.
Proof.
  split; [|intros ->; apply gsub_diag]. intros H. apply (gadd_cancel_r _ _ (gneg y)). rewrite gadd_neg_r. exact H.
Qed.
Lemma gadd_swap x y z : x +g (y +g z) = y +g (x +g z).
Proof. rewrite !gadd_assoc. f_equal. apply gadd_comm. Qed.
Lemma gadd_4 x y z (t : M) : (x +g y) +g (z +g t) = (x +g z) +g (y +g t).
Proof. rewrite <- !gadd_assoc. f_equal. apply gadd_swap. Qed.
Lemma gmul_neg_l a x : (- a)%F *g x = gneg (a *g x).
Proof. rewrite gneg_mul, <- gmul_mul. f_equal. ring. Qed.
Lemma gmul_sub_l a b x : (a - b)%F *g x = a *g x -g b *g x.
Proof. rewrite gsub_mul, <- gmul_mul, <- gmul_add_l. f_equal. ring. Qed.
Lemma gmul_sub_r a x y : a *g (x -g y) = a *g x -g a *g y.
Proof. rewrite !gsub_mul, gmul_add_r, <- !gmul_mul. do 2 f_equal. ring. Qed.
Lemma gmul_comm a b x : a *g (b *g x) = b *g (a *g x).
Proof. rewrite <- !gmul_mul. f_equal. ring. Qed.
Lemma gmul_cancel a x : a *g x = gzero -> a = fzero \/ x = gzero.
Proof.
  intros H. destruct (feq_dec a fzero) as [|Ha]; [now left|]. right.
  rewrite <- (gmul_1 _ _ x), <- (finv_l a Ha), gmul_mul, H. apply gmul_0_r.
Qed.
Lemma geqb_spec x y : reflect (x = y) (geqb x y).
Proof. destruct (geqb x y) eqn:E; constructor; [now apply geqb_eq|]. intros H. apply geqb_eq in H. congruence. Qed.
Lemma geq_dec x y : {x = y} + {x <> y}.
Proof. destruct (geqb_spec x y); auto. Qed.

(** ** Sums *)
Fixpoint gsum (n : nat) (f : nat -> M) : M :=
  match n with O => gzero | S m => gsum m f +g f m end.

Lemma gsum_ext n f g : (forall i, i < n -> f i = g i) -> gsum n f = gsum n g.
Proof. induction n; cbn; intros H; auto. rewrite IHn, H by auto. reflexivity. Qed.
Lemma gsum_0 n : gsum n (fun _ => gzero) = gzero.
Proof. induction n; cbn; auto. rewrite IHn. apply gadd_0_l. Qed.
Lemma gsum_zero n f : (forall i, i < n -> f i = gzero) -> gsum n f = gzero.
Proof. intros H. rewrite (gsum_ext n f (fun _ => gzero) H). apply gsum_0. Qed.
Lemma gsum_add n f g : gsum n (fun i => f i +g g i) = gsum n f +g gsum n g.
Proof. induction n; cbn; [now rewrite gadd_0_l|]. rewrite IHn. apply gadd_4. Qed.
Lemma gsum_mul n a f : gsum n (fun i => a *g f i) = a *g gsum n f.
Proof. induction n; cbn; [now rewrite gmul_0_r|]. rewrite IHn. now rewrite gmul_add_r. Qed.
Lemma gsum_sub n f g : gsum n (fun i => f i -g g i) = gsum n f -g gsum n g.
Proof.
  rewrite gsub_mul, <- gsum_mul, <- gsum_add. apply gsum_ext. intros. apply gsub_mul.
Qed.
Lemma gsum_split n m f : gsum (n + m) f = gsum n f +g gsum m (fun i => f (n + i)).
Proof.
  induction m; cbn; [now rewrite Nat.add_0_r, gadd_0_r|]. rewrite Nat.add_succ_r. cbn. rewrite IHm. now rewrite gadd_assoc.
Qed.
Lemma gsum_S_l n f : gsum (S n) f = f 0 +g gsum n (fun i => f (S i)).
Proof. change (S n) with (1 + n). rewrite gsum_split. cbn. now rewrite gadd_0_l. Qed.
Lemma gsum_swap n m (f : nat -> nat -> M) : gsum n (fun i => gsum m (fun j => f i j)) = gsum m (fun j => gsum n (fun i => f i j)).
Proof.
  induction n; cbn; [now rewrite gsum_0|]. rewrite IHn, <- gsum_add. apply gsum_ext. auto.
Qed.
Lemma gsum_even_odd n f : gsum (2 * n) f = gsum n (fun i => f (2 * i)) +g gsum n (fun i => f (2 * i + 1)).
Proof.
  induction n; [cbn; now rewrite gadd_0_l|]. replace (2 * S n) with (S (S (2 * n))) by lia. cbn [gsum]. rewrite IHn.
  replace (S (2 * n)) with (2 * n + 1) by lia. rewrite <- !gadd_assoc. f_equal. rewrite !gadd_assoc. f_equal. apply gadd_comm.
Qed.
Lemma gsum_single n k f : k < n -> (forall i, i < n -> i <> k -> f i = gzero) -> gsum n f = f k.
Proof.
  intros Hk H. replace n with (k + S (n - k - 1)) by lia. rewrite gsum_split, gsum_S_l.
  rewrite gsum_zero by (intros; apply H; lia). rewrite gadd_0_l, Nat.add_0_r.
  rewrite gsum_zero by (intros; apply H; lia). apply gadd_0_r.
Qed.
(** blocks *)
Lemma gsum_blocks n m f : gsum (n * m) f = gsum n (fun i => gsum m (fun j => f (i * m + j))).
Proof.
  induction n; [reflexivity|]. replace (S n * m) with (n * m + m) by lia. rewrite gsum_split, IHn. reflexivity.
Qed.
Lemma gsum_blocks' n m f : gsum (n * m) f = gsum m (fun j => gsum n (fun i => f (i * m + j))).
Proof. rewrite gsum_blocks. apply gsum_swap. Qed.

End Facts.

(** The scalars themselves: [impl Group<S> for Scalar<S>], src/domain.rs:246-259. *)
Section Scalar.
Context (P : PrimeField).
Add Field PFfield_scalar : (F_field P).
Definition ScalarMod : FMod P.
Proof.
  refine {| G := P; gzero := fzero; gadd := fadd; gneg := fneg; gmul := fmul; geqb := feqb |};
    intros; try ring; apply feqb_eq.
Defined.
End Scalar.
Set Warnings "-projection-no-head-constant".
Canonical ScalarMod.

Section ScalarSums.
Context {P : PrimeField}.
Definition fsum (n : nat) (f : nat -> P) : P := gsum (M := ScalarMod P) n f.
End ScalarSums.
