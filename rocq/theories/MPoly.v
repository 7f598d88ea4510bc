(** Polynomials in several variables: how many points of a grid can be zeros. *)
From Coq Require Import ZArith List Bool Lia Field.
From Verif Require Import Prelude PrimeField FModule DomainProof Quotient BatchProof Roots.
Import ListNotations.
Local Open Scope nat_scope.

Section MPoly.
Context {P : PrimeField}.
Add Field PFmpoly : (F_field P).

(** ** One variable *)
Fixpoint hev (l : list P) (x : P) : P := match l with [] => fzero | c :: l => (c + x * hev l x)%F end.
Lemma hev_peval (l : list P) x : hev l x = peval l x.
Proof. rewrite peval_horner. induction l as [|c l IH]; [reflexivity|]. cbn [hev gpeval]. rewrite IH. reflexivity. Qed.

Fixpoint padd (p q : list P) : list P :=
  match p, q with [], _ => q | _, [] => p | a :: p, b :: q => (a + b)%F :: padd p q end.
Definition psc (c : P) (p : list P) : list P := map (fmul c) p.
Fixpoint pml (p q : list P) : list P := match p with [] => [] | c :: p => padd (psc c q) (fzero :: pml p q) end.
Definition psh (n : nat) (p : list P) : list P := repeat fzero n ++ p.

Lemma hev_padd p : forall q x, hev (padd p q) x = (hev p x + hev q x)%F.
Proof. induction p as [|a p IH]; intros [|b q] x; cbn [padd hev]; try ring. rewrite IH. ring. Qed.
Lemma hev_psc c p x : hev (psc c p) x = (c * hev p x)%F.
Proof. induction p as [|a p IH]; cbn [psc map hev]; [ring|]. unfold psc in IH. rewrite IH. ring. Qed.
Lemma hev_pml p q x : hev (pml p q) x = (hev p x * hev q x)%F.
Proof. induction p as [|a p IH]; cbn [pml hev]; [ring|]. rewrite hev_padd, hev_psc. cbn [hev]. rewrite IH. ring. Qed.
Lemma hev_psh n p x : hev (psh n p) x = (fpow x n * hev p x)%F.
Proof. induction n as [|n IH]; cbn [psh repeat app hev fpow]; [ring|]. unfold psh in IH. rewrite IH. ring. Qed.

Lemma padd_length p : forall q, length (padd p q) = Nat.max (length p) (length q).
Proof. induction p as [|a p IH]; intros [|b q]; cbn [padd length]; auto. rewrite IH. lia. Qed.
Lemma psc_length c p : length (psc c p) = length p.
Proof. apply map_length. Qed.
Lemma pml_length p q : length (pml p q) <= length p + length q.
Proof. induction p as [|a p IH]; cbn [pml length]; [lia|]. rewrite padd_length, psc_length. cbn [length]. lia. Qed.
Lemma pml_length' p q n m : length p <= n -> length q <= m -> 0 < m -> length (pml p q) <= n + m - 1.
Proof.
  intros Hp Hq Hm. revert n Hp. induction p as [|a p IH]; intros n Hp; cbn [pml length] in *; [lia|]. rewrite padd_length, psc_length. cbn [length].
  specialize (IH (n - 1) ltac:(lia)). destruct p; cbn [pml length] in *; lia.
Qed.
Lemma psh_length n p : length (psh n p) = n + length p.
Proof. unfold psh. now rewrite app_length, repeat_length. Qed.

Lemma zero_hev (p : list P) x : Forall (fun c => c = fzero) p -> hev p x = fzero.
Proof. induction 1 as [|c l Hc H IH]; cbn [hev]; auto. rewrite IH, Hc. ring. Qed.

(** ** Several *)
Fixpoint mp (n : nat) : Type := match n with 0 => F P | S n => list (mp n) end.
Fixpoint mev (n : nat) : mp n -> list P -> P :=
  match n return mp n -> list P -> P with
  | 0 => fun p _ => p
  | S n => fun p xs => match xs with [] => fzero | x :: xs => hev (map (fun q => mev n q xs) p) x end
  end.
Fixpoint mzero (n : nat) : mp n -> Prop :=
  match n return mp n -> Prop with 0 => fun p => p = fzero | S n => fun p => Forall (mzero n) p end.
Fixpoint mdeg (n : nat) : mp n -> list nat -> Prop :=
  match n return mp n -> list nat -> Prop with
  | 0 => fun p ds => ds = []
  | S n => fun p ds => match ds with [] => False | d :: ds => length p <= S d /\ Forall (fun q => mdeg n q ds) p end
  end.

Lemma mzero_dec n : forall p : mp n, mzero n p \/ ~ mzero n p.
Proof.
  induction n as [|n IH]; intros p; cbn [mzero mp] in *.
  - destruct (feq_dec p fzero); auto.
  - induction p as [|q p IHp]; [left; constructor|]. destruct (IH q) as [H|H]; [|right; intros F; inversion F; contradiction].
    destruct IHp as [H'|H']; [left; constructor; auto|right; intros F; inversion F; contradiction].
Qed.
Lemma not_mzero n (p : mp (S n)) : ~ mzero (S n) p -> exists q, In q p /\ ~ mzero n q.
Proof.
  cbn [mzero mp] in *. induction p as [|q p IH]; intros H; [exfalso; apply H; constructor|].
  destruct (mzero_dec n q) as [Z|Z]; [|exists q; split; [now left|auto]].
  destruct IH as (q' & Hq & Hz); [intros F; apply H; constructor; auto|]. exists q'. split; [now right|auto].
Qed.

(** The points of the grid. *)
Fixpoint grid (D : list P) (n : nat) : list (list P) :=
  match n with 0 => [[]] | S n => flat_map (fun xs => map (fun x => x :: xs) D) (grid D n) end.
Definition zero_at n (p : mp n) (xs : list P) : bool := feqb (mev n p xs) fzero.

Lemma grid_length D n : length (grid D n) = length D ^ n.
Proof.
  induction n as [|n IH]; [reflexivity|]. cbn [grid Nat.pow]. rewrite <- IH. clear IH. induction (grid D n) as [|v l IH]; cbn [flat_map]; [cbn; lia|].
  rewrite app_length, map_length, IH. cbn [length]. lia.
Qed.
Lemma in_grid D n : forall xs, length xs = n -> (forall x, In x xs -> In x D) -> In xs (grid D n).
Proof.
  induction n as [|n IH]; intros [|x xs] L H; cbn [length] in L; try discriminate; cbn [grid]; [now left|].
  apply in_flat_map. exists xs. split; [apply IH; [lia|intros; apply H; now right]|]. apply (in_map (fun x => x :: xs)), H. now left.
Qed.

Lemma filter_flat {A B} (f : B -> bool) (g : A -> list B) l : filter f (flat_map g l) = flat_map (fun a => filter f (g a)) l.
Proof. induction l as [|a l IH]; cbn [flat_map]; auto. rewrite filter_app, IH. reflexivity. Qed.
Lemma filter_map {A B} (f : B -> bool) (g : A -> B) l : filter f (map g l) = map g (filter (fun a => f (g a)) l).
Proof. induction l as [|a l IH]; cbn [map filter]; auto. destruct (f (g a)); cbn [map]; now rewrite IH. Qed.
Lemma filter_le {A} (f : A -> bool) l : length (filter f l) <= length l.
Proof. induction l as [|a l IH]; cbn [filter]; [lia|]. destruct (f a); cbn [length]; lia. Qed.

(** Schwartz-Zippel, for bounds on the degree in each variable. *)
Theorem grid_zeros (D : list P) : NoDup D -> forall n (p : mp n) ds, ~ mzero n p -> mdeg n p ds ->
  length (filter (zero_at n p) (grid D n)) * length D <= list_sum ds * length D ^ n.
Proof.
  intros HD. induction n as [|n IH]; intros p ds Hz Hd.
  - cbn [mdeg] in Hd. subst ds. cbn [grid filter mzero] in *. unfold zero_at. cbn [mev]. destruct (feqb_spec p fzero); [contradiction|]. cbn. lia.
  - destruct ds as [|d ds]; [destruct Hd|]. destruct Hd as [Ld Hd]. destruct (not_mzero n p Hz) as (q & Hq & Nq).
    rewrite Forall_forall in Hd. specialize (IH q ds Nq (Hd q Hq)). cbn [grid]. rewrite filter_flat.
    set (N := length D) in *.
    assert (X : forall l, length (flat_map (fun a => filter (zero_at (S n) p) (map (fun x => x :: a) D)) l) <= length (filter (zero_at n q) l) * N + d * length l).
    { induction l as [|v l IHl]; cbn [flat_map filter length]; [lia|]. rewrite app_length. rewrite filter_map, map_length.
      change (zero_at n q v) with (feqb (mev n q v) fzero). destruct (feqb_spec (mev n q v) fzero) as [Zv|Zv]; cbn [length].
      - pose proof (filter_le (fun x => zero_at (S n) p (x :: v)) D). fold N in H. lia.
      - assert (R : length (filter (fun x => zero_at (S n) p (x :: v)) D) <= d).
        { assert (NZ : ~ all_zero (map (fun q => mev n q v) p)).
          { intros F. unfold all_zero in F. rewrite Forall_forall in F. apply Zv, F. now apply (in_map (fun q => mev n q v)). }
          pose proof (few_roots _ (filter (fun x => zero_at (S n) p (x :: v)) D) NZ (NoDup_filter _ HD)) as R. rewrite map_length in R.
          eapply Nat.le_trans; [apply R|apply Nat.le_sub_le_add_l; exact Ld]. intros x Hx. apply filter_In in Hx as [_ Hx]. unfold zero_at in Hx. cbn [mev] in Hx. rewrite <- hev_peval.
          destruct (feqb_spec (hev (map (fun q => mev n q v) p) x) fzero); [auto|discriminate]. }
        lia. }
    specialize (X (grid D n)). rewrite grid_length in X. fold N in X. cbn [Nat.pow list_sum fold_right]. fold (list_sum ds).
    set (a := length (flat_map _ _)) in *. set (b := length (filter (zero_at n q) (grid D n))) in *. set (k := N ^ n) in *.
    clear - X IH. nia.
Qed.

Theorem few_zeros (D : list P) n (p : mp (S n)) ds (bad : list (list P)) : NoDup D -> ~ mzero (S n) p -> mdeg (S n) p ds -> NoDup bad ->
  (forall xs, In xs bad -> length xs = S n /\ (forall x, In x xs -> In x D) /\ mev (S n) p xs = fzero) ->
  length bad <= list_sum ds * length D ^ n.
Proof.
  intros HD Hz Hd Hn Hb. pose proof (grid_zeros D HD (S n) p ds Hz Hd) as X.
  assert (L : length bad <= length (filter (zero_at (S n) p) (grid D (S n)))).
  { apply NoDup_incl_length; auto. intros xs Hx. destruct (Hb xs Hx) as (A & B & C). apply filter_In. split; [now apply in_grid|].
    unfold zero_at. rewrite C. destruct (feqb_spec (fzero : P) fzero); congruence. }
  destruct bad as [|xs bad']; [cbn; lia|]. set (bad := xs :: bad') in *.
  assert (ND : 0 < length D).
  { destruct (Hb xs (or_introl eq_refl)) as (A & B & _). destruct xs as [|x xs']; [discriminate|]. specialize (B x (or_introl eq_refl)). destruct D; [destruct B|cbn; lia]. }
  cbn [Nat.pow] in X. set (a := length (filter _ _)) in *. set (k := length D ^ n) in *. clear - X L ND. 
  assert (a <= list_sum ds * k) by nia. lia.
Qed.
End MPoly.

(** ** Lists without duplicates *)
Lemma NoDup_app_ {A} (l l' : list A) : NoDup l -> NoDup l' -> (forall x, In x l -> ~ In x l') -> NoDup (l ++ l').
Proof.
  intros H H' Hd. induction H as [|a l Hn H IH]; cbn [app]; auto. constructor.
  - rewrite in_app_iff. intros [X|X]; [contradiction|]. exact (Hd a (or_introl eq_refl) X).
  - apply IH. intros x Hx. apply Hd. now right.
Qed.
Lemma NoDup_prod {A B} (l : list A) (l' : list B) : NoDup l -> NoDup l' -> NoDup (list_prod l l').
Proof.
  intros H H'. induction H as [|a l Hn H IH]; cbn [list_prod]; [constructor|]. apply NoDup_app_; auto.
  - apply FinFun.Injective_map_NoDup; auto. now intros x y [= ->].
  - intros [x y] Hx Hy. apply in_map_iff in Hx as (z & [= <- <-] & _). apply in_prod_iff in Hy as [Hy _]. contradiction.
Qed.
Lemma NoDup_flat {A B} (f : A -> list B) (l : list A) : NoDup l -> (forall a, NoDup (f a)) -> (forall a a' b, In b (f a) -> In b (f a') -> a = a') -> NoDup (flat_map f l).
Proof.
  intros H Hf Hd. induction H as [|a l Hn H IH]; cbn [flat_map]; [constructor|]. apply NoDup_app_; auto.
  intros b Hb Hb'. apply in_flat_map in Hb' as (a' & Ha' & Hb'). now rewrite (Hd _ _ _ Hb Hb') in Hn.
Qed.
Lemma flat_long {A B} (f : A -> list B) (l : list A) n : (forall a, In a l -> n <= length (f a)) -> length l * n <= length (flat_map f l).
Proof.
  induction l as [|a l IH]; intros H; cbn [flat_map length]; [lia|]. rewrite app_length. pose proof (H a (or_introl eq_refl)).
  specialize (IH (fun a Ha => H a (or_intror Ha))). lia.
Qed.
