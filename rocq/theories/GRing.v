(** A tactic for equalities of linear combinations of group elements: the coefficients are compared with [ring] or [field]. *)
From Coq Require Import ZArith List Lia Field.
From Verif Require Import Prelude PrimeField FModule.
Import ListNotations.
Local Open Scope nat_scope.

Section Reflect.
Context {P : PrimeField} {M : FMod P}.
Add Field PFgring : (F_field P).

Inductive gexp := GZero | GAtom (i : nat) | GAdd (a b : gexp) | GNeg (a : gexp) | GSub (a b : gexp) | GMul (c : P) (a : gexp).
Fixpoint denote (atoms : list M) (e : gexp) : M :=
  match e with
  | GZero => gzero
  | GAtom i => nth i atoms gzero
  | GAdd a b => denote atoms a +g denote atoms b
  | GNeg a => gneg (denote atoms a)
  | GSub a b => denote atoms a -g denote atoms b
  | GMul c a => c *g denote atoms a
  end.
Fixpoint coeff (e : gexp) (k : nat) : P :=
  match e with
  | GZero => fzero
  | GAtom i => if Nat.eqb i k then fone else fzero
  | GAdd a b => (coeff a k + coeff b k)%F
  | GNeg a => (- coeff a k)%F
  | GSub a b => (coeff a k - coeff b k)%F
  | GMul c a => (c * coeff a k)%F
  end.
Definition coeffs (n : nat) (e : gexp) : list P := map (coeff e) (seq 0 n).

Lemma denote_coeffs atoms e : denote atoms e = gsum (length atoms) (fun k => coeff e k *g nth k atoms gzero).
Proof.
  induction e as [|i|a IHa b IHb|a IH|a IHa b IHb|c a IH]; cbn [denote coeff].
  - symmetry. apply gsum_zero. intros. apply gmul_0_l.
  - destruct (Nat.lt_ge_cases i (length atoms)) as [H|H].
    + rewrite (gsum_single _ i); [now rewrite Nat.eqb_refl, gmul_1|auto|]. intros j _ Hj. destruct (Nat.eqb_spec i j); [congruence|]. apply gmul_0_l.
    + rewrite nth_overflow by auto. symmetry. apply gsum_zero. intros k Hk. destruct (Nat.eqb_spec i k); [lia|apply gmul_0_l].
  - rewrite IHa, IHb, <- gsum_add. apply gsum_ext. intros. now rewrite gmul_add_l.
  - rewrite IH, gneg_mul, <- gsum_mul. apply gsum_ext. intros. rewrite <- gmul_mul. f_equal. ring.
  - rewrite IHa, IHb, <- gsum_sub. apply gsum_ext. intros. now rewrite gmul_sub_l.
  - rewrite IH, <- gsum_mul. apply gsum_ext. intros. now rewrite gmul_mul.
Qed.
Lemma denote_eq atoms a b : Forall2 eq (coeffs (length atoms) a) (coeffs (length atoms) b) -> denote atoms a = denote atoms b.
Proof.
  intros H. rewrite !denote_coeffs. apply gsum_ext. intros k Hk. f_equal.
  assert (E : coeffs (length atoms) a = coeffs (length atoms) b) by (induction H; congruence). unfold coeffs in E.
  apply (f_equal (fun l => nth k l fzero)) in E. rewrite !(nth_indep _ fzero (coeff a 0)) in E by (rewrite map_length, seq_length; auto).
  rewrite map_nth, seq_nth in E by auto. rewrite (nth_indep _ (coeff a 0) (coeff b 0)) in E by (rewrite map_length, seq_length; auto). now rewrite map_nth, seq_nth in E by auto.
Qed.
End Reflect.

Ltac g_find x l k :=
  lazymatch l with
  | cons x _ => constr:(Some k)
  | cons _ ?t => g_find x t constr:(S k)
  | _ => constr:(@None nat)
  end.
Ltac g_in x l := lazymatch l with cons x _ => constr:(true) | cons _ ?t => g_in x t | _ => constr:(false) end.
Ltac g_app l x := lazymatch l with cons ?y ?t => let t' := g_app t x in constr:(cons y t') | @nil ?T => constr:(@cons T x nil) end.
Ltac g_atoms e l :=
  lazymatch e with
  | gzero => l
  | ?a +g ?b => let l := g_atoms a l in g_atoms b l
  | ?a -g ?b => let l := g_atoms a l in g_atoms b l
  | gneg ?a => g_atoms a l
  | ?c *g ?a => g_atoms a l
  | ?x => lazymatch g_in x l with true => l | false => g_app l x end
  end.
Ltac g_reify P e l :=
  lazymatch e with
  | gzero => constr:(@GZero P)
  | ?a +g ?b => let a := g_reify P a l in let b := g_reify P b l in constr:(@GAdd P a b)
  | ?a -g ?b => let a := g_reify P a l in let b := g_reify P b l in constr:(@GSub P a b)
  | gneg ?a => let a := g_reify P a l in constr:(@GNeg P a)
  | ?c *g ?a => let a := g_reify P a l in constr:(@GMul P c a)
  | ?x => lazymatch g_find x l 0 with Some ?k => constr:(@GAtom P k) end
  end.
(** Reduces an equality of group elements to equalities of the coefficients of each atom. *)
Ltac gcoeffs :=
  lazymatch goal with
  | |- @eq (@G ?P ?M) ?a ?b =>
      let l := g_atoms a constr:(@nil (@G P M)) in let l := g_atoms b l in
      let a' := g_reify P a l in let b' := g_reify P b l in
      change (@denote P M l a' = @denote P M l b'); apply denote_eq;
      cbn [coeffs coeff List.length seq map Nat.eqb]; repeat apply Forall2_cons; try apply Forall2_nil
  end.

(** Test. *)
Section Test.
Context {P : PrimeField} {M : FMod P}.
Add Field PFgringt : (F_field P).
Lemma gcoeffs_test (a b : P) (x y z : M) : a *g (x +g y) -g (b *g z +g a *g x) = a *g y -g b *g z.
Proof. gcoeffs; ring. Qed.
End Test.
