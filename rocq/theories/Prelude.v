(** Common vocabulary: results, panics, bit strings, slice chunking. *)
From Coq Require Import ZArith List Bool Lia.
Import ListNotations.
Open Scope Z_scope.

(** [std::io::ErrorKind], only the kinds the code constructs or receives. *)
Inductive io_kind := UnexpectedEof | InvalidData | OtherIo.

(** src/lib.rs:304-319 [SynthesisError]. *)
Inductive SynthesisError :=
| AssignmentMissing
| DivisionByZero
| Unsatisfiable
| PolynomialDegreeTooLarge
| UnexpectedIdentity
| IoError (k : io_kind)
| UnconstrainedVariable.

(** src/lib.rs:357-363 [VerificationError]. *)
Inductive VerificationError := InvalidVerifyingKey | InvalidProof.

(** [Result<A, E>]. *)
Inductive result (E A : Type) := Ok (a : A) | Err (e : E).
Arguments Ok {E A} a.
Arguments Err {E A} e.

Notation res := (result SynthesisError).

(** A Rust call either returns or panics. *)
Inductive outcome (A : Type) := Done (a : A) | Panicked.
Arguments Done {A} a.
Arguments Panicked {A}.

Definition obind {A B} (x : outcome A) (f : A -> outcome B) : outcome B :=
  match x with Done a => f a | Panicked => Panicked end.

(** The [?] operator on plain results. *)
Definition rbind {E A B} (x : result E A) (f : A -> result E B) : result E B :=
  match x with Ok a => f a | Err e => Err e end.

(** src/gadgets.rs [Assignment::get]: [None] becomes [AssignmentMissing]. *)
Definition get {A} (o : option A) : res A :=
  match o with Some a => Ok a | None => Err AssignmentMissing end.

Definition rmap {E A B} (f : A -> B) (x : result E A) : result E B :=
  match x with Ok a => Ok (f a) | Err e => Err e end.

Definition isSome {A} (o : option A) : bool :=
  match o with Some _ => true | None => false end.

(** A predicate on the [Ok] outcome only. *)
Definition okP {E A} (Q : A -> Prop) (r : result E A) : Prop :=
  match r with Ok a => Q a | Err _ => True end.

(** The result must be [Ok] and satisfy [Q]. *)
Definition isOk {E A} (Q : A -> Prop) (r : result E A) : Prop :=
  match r with Ok a => Q a | Err _ => False end.

(** ** Little-endian bit strings *)

Fixpoint le2z (l : list bool) : Z :=
  match l with
  | [] => 0
  | b :: t => Z.b2z b + 2 * le2z t
  end.

Fixpoint z2le (n : nat) (z : Z) : list bool :=
  match n with
  | O => []
  | S m => Z.odd z :: z2le m (Z.div2 z)
  end.

Lemma le2z_nonneg l : 0 <= le2z l.
Proof. induction l as [|[] t IH]; cbn [le2z Z.b2z]; lia. Qed.

Lemma pow2_S n : 2 ^ Z.of_nat (S n) = 2 * 2 ^ Z.of_nat n.
Proof. rewrite Nat2Z.inj_succ, Z.pow_succ_r; lia. Qed.

Lemma pow2_pos n : 0 < 2 ^ Z.of_nat n.
Proof. apply Z.pow_pos_nonneg; lia. Qed.

Lemma le2z_bound l : le2z l < 2 ^ Z.of_nat (length l).
Proof.
  induction l as [|b t IH]; cbn [length]; [cbn; lia|].
  rewrite pow2_S. destruct b; cbn [le2z Z.b2z]; lia.
Qed.

Lemma le2z_app l1 l2 : le2z (l1 ++ l2) = le2z l1 + 2 ^ Z.of_nat (length l1) * le2z l2.
Proof.
  induction l1 as [|b t IH]; [cbn [app le2z length Z.of_nat]; rewrite Z.pow_0_r; lia|].
  cbn [app le2z length]. rewrite pow2_S, IH. lia.
Qed.

Lemma z2le_length n z : length (z2le n z) = n.
Proof. revert z; induction n; intros; cbn; auto. Qed.

Lemma odd_b2z z : Z.b2z (Z.odd z) + 2 * Z.div2 z = z.
Proof. rewrite (Z.div2_odd z) at 3. lia. Qed.

Lemma le2z_z2le n z : le2z (z2le n z) = z mod 2 ^ Z.of_nat n.
Proof.
  revert z; induction n; intros z; [cbn; rewrite Z.mod_1_r; reflexivity|].
  cbn [z2le le2z]. rewrite IHn, pow2_S.
  pose proof (pow2_pos n).
  rewrite Z.rem_mul_r by lia.
  rewrite Z.div2_div. f_equal.
  rewrite Zmod_odd. destruct (Z.odd z); reflexivity.
Qed.

Lemma le2z_z2le_small n z : 0 <= z < 2 ^ Z.of_nat n -> le2z (z2le n z) = z.
Proof. intros. rewrite le2z_z2le. apply Z.mod_small; auto. Qed.

Lemma odd_b2z2 b z : Z.odd (Z.b2z b + 2 * z) = b.
Proof.
  rewrite Z.odd_add, Z.odd_mul. cbn [Z.odd andb]. destruct b; reflexivity.
Qed.

Lemma div2_b2z2 b z : Z.div2 (Z.b2z b + 2 * z) = z.
Proof.
  rewrite Z.div2_div. destruct b; cbn [Z.b2z].
  - replace (1 + 2 * z) with (z * 2 + 1) by lia.
    rewrite Z.div_add_l by lia. cbn. lia.
  - replace (0 + 2 * z) with (z * 2) by lia. apply Z.div_mul; lia.
Qed.

Lemma z2le_le2z l : z2le (length l) (le2z l) = l.
Proof.
  induction l as [|b t IH]; [reflexivity|].
  cbn [length le2z z2le]. rewrite odd_b2z2, div2_b2z2, IH. reflexivity.
Qed.

Lemma le2z_inj l1 l2 : length l1 = length l2 -> le2z l1 = le2z l2 -> l1 = l2.
Proof.
  intros Hl He. rewrite <- (z2le_le2z l1), <- (z2le_le2z l2), Hl, He. reflexivity.
Qed.

Lemma testbit_succ_div2 z i : Z.testbit z (Z.of_nat (S i)) = Z.testbit (Z.div2 z) (Z.of_nat i).
Proof.
  rewrite Z.div2_spec, Z.shiftr_spec by lia. f_equal. lia.
Qed.

Lemma testbit_le2z l i : Z.testbit (le2z l) (Z.of_nat i) = nth i l false.
Proof.
  revert i; induction l as [|b t IH]; intros i.
  - cbn [le2z]. rewrite Z.testbit_0_l. destruct i; reflexivity.
  - destruct i; cbn [nth le2z].
    + change (Z.of_nat 0) with 0. rewrite Z.bit0_odd. apply odd_b2z2.
    + rewrite testbit_succ_div2, div2_b2z2. apply IH.
Qed.

Lemma nth_z2le n z i : (i < n)%nat -> nth i (z2le n z) false = Z.testbit z (Z.of_nat i).
Proof.
  revert z i; induction n; intros z i Hi; [lia|].
  destruct i; cbn [z2le nth].
  - change (Z.of_nat 0) with 0. symmetry; apply Z.bit0_odd.
  - rewrite IHn by lia. now rewrite testbit_succ_div2.
Qed.

Lemma le2z_testbit_eq l z :
  0 <= z < 2 ^ Z.of_nat (length l) ->
  (forall i, (i < length l)%nat -> nth i l false = Z.testbit z (Z.of_nat i)) ->
  le2z l = z.
Proof.
  intros Hz H.
  rewrite <- (le2z_z2le_small (length l) z Hz). f_equal.
  apply (nth_ext _ _ false false).
  - now rewrite z2le_length.
  - intros i Hi. rewrite H by auto. now rewrite nth_z2le.
Qed.

(** ** Slices: [chunks(n)] of Rust, for [n > 0]. *)
Fixpoint chunks_aux {A} (fuel n : nat) (l : list A) : list (list A) :=
  match fuel with
  | O => []
  | S f => match l with
           | [] => []
           | _ => firstn n l :: chunks_aux f n (skipn n l)
           end
  end.
(** core::slice::chunks; the last chunk may be shorter.  (A chunk size of zero panics in
    Rust; callers model that separately.) *)
Definition chunks {A} (n : nat) (l : list A) : list (list A) := chunks_aux (length l) n l.

Lemma chunks_aux_nil {A} f n : chunks_aux (A:=A) f n [] = [].
Proof. destruct f; reflexivity. Qed.

Lemma chunks_aux_fuel {A} n (l : list A) : (0 < n)%nat -> forall f, (length l <= f)%nat ->
  chunks_aux f n l = chunks n l.
Proof.
  intros Hn. unfold chunks.
  assert (H : forall f g (l : list A), (length l <= f)%nat -> (length l <= g)%nat ->
             chunks_aux f n l = chunks_aux g n l).
  { induction f; intros g l0 Hf Hg.
    - destruct l0; [|cbn in Hf; lia]. now rewrite !chunks_aux_nil.
    - destruct l0 as [|a t]; [now rewrite !chunks_aux_nil|].
      destruct g; [cbn in Hg; lia|].
      cbn [chunks_aux]. f_equal. apply IHf; rewrite skipn_length; cbn [length] in *; lia. }
  intros f Hf. apply H; lia.
Qed.

Lemma chunks_nil {A} n : chunks (A:=A) n [] = [].
Proof. reflexivity. Qed.

Lemma chunks_cons {A} n (l : list A) : (0 < n)%nat -> l <> [] ->
  chunks n l = firstn n l :: chunks n (skipn n l).
Proof.
  intros Hn Hl. destruct l as [|a t]; [congruence|].
  unfold chunks at 1. cbn [length chunks_aux]. f_equal.
  rewrite chunks_aux_fuel; auto. rewrite skipn_length; cbn [length]; lia.
Qed.

Lemma chunks_concat {A} n (l : list A) : (0 < n)%nat -> concat (chunks n l) = l.
Proof.
  intros Hn. remember (length l) as k eqn:Hk.
  revert l Hk; induction k as [k IH] using lt_wf_ind; intros l Hk.
  destruct l as [|a t]; [reflexivity|].
  rewrite chunks_cons by (auto; congruence).
  cbn [concat]. rewrite (IH (length (skipn n (a :: t)))).
  - apply firstn_skipn.
  - subst k. rewrite skipn_length. cbn [length]. lia.
  - reflexivity.
Qed.

(** Induction along the chunks of a list. *)
Lemma chunks_ind {A} n (Hn : (0 < n)%nat) (Q : list A -> Prop) :
  Q [] ->
  (forall l, l <> [] -> Q (skipn n l) -> Q l) ->
  forall l, Q l.
Proof.
  intros H0 HS l. remember (length l) as k eqn:Hk.
  revert l Hk; induction k as [k IH] using lt_wf_ind; intros l Hk.
  destruct l as [|a t]; auto.
  apply HS; [congruence|].
  apply (IH (length (skipn n (a :: t)))); auto.
  subst k. rewrite skipn_length. cbn [length]. lia.
Qed.

(** Replace element [i] of a vector (no-op out of range). *)
Fixpoint upd {A} (i : nat) (x : A) (l : list A) {struct l} : list A :=
  match l, i with
  | [], _ => []
  | _ :: t, O => x :: t
  | h :: t, S j => h :: upd j x t
  end.

Lemma upd_length {A} i (x : A) l : length (upd i x l) = length l.
Proof. revert i; induction l; destruct i; cbn; auto. Qed.

Lemma nth_upd {A} i j (x : A) l d :
  nth j (upd i x l) d = if (Nat.eqb i j && Nat.ltb i (length l))%bool then x else nth j l d.
Proof.
  revert i j; induction l as [|a t IH]; intros i j.
  - cbn [upd]. replace (Nat.ltb i (length (@nil A))) with false by (symmetry; apply Nat.ltb_ge; cbn; lia).
    rewrite andb_false_r. reflexivity.
  - destruct i, j; cbn [upd nth length]; try reflexivity.
    + rewrite IH. cbn [Nat.eqb]. replace (Nat.ltb (S i) (S (length t))) with (Nat.ltb i (length t)) by reflexivity.
      reflexivity.
Qed.

Lemma nth_upd_same {A} i (x : A) l d : (i < length l)%nat -> nth i (upd i x l) d = x.
Proof. intros. rewrite nth_upd, Nat.eqb_refl. apply Nat.ltb_lt in H. now rewrite H. Qed.

Lemma nth_upd_other {A} i j (x : A) l d : i <> j -> nth j (upd i x l) d = nth j l d.
Proof. intros H. rewrite nth_upd. apply Nat.eqb_neq in H. now rewrite H. Qed.

(** All indices below [n]. *)
Notation range n := (seq 0 n).

Lemma nth_map_seq {A} (f : nat -> A) s n i d : (i < n)%nat -> nth i (map f (seq s n)) d = f (s + i)%nat.
Proof.
  intros H. rewrite (nth_indep _ _ (f 0%nat)) by now rewrite map_length, seq_length.
  rewrite map_nth, seq_nth by auto. reflexivity.
Qed.

(** Lists related element by element. *)
Lemma Forall2_length {A B} (R : A -> B -> Prop) l m : Forall2 R l m -> length l = length m.
Proof. induction 1; cbn; congruence. Qed.

Lemma Forall2_rev {A B} (R : A -> B -> Prop) l m : Forall2 R l m -> Forall2 R (rev l) (rev m).
Proof. induction 1; cbn; [constructor|]. apply Forall2_app; auto. Qed.

Lemma Forall2_map_l {A A' B} (R : A' -> B -> Prop) (f : A -> A') l m :
  Forall2 R (map f l) m <-> Forall2 (fun a => R (f a)) l m.
Proof.
  split.
  - revert m. induction l; intros m H; inversion H; subst; constructor; auto.
  - induction 1; constructor; auto.
Qed.

Lemma Forall2_map_r {A B B'} (R : A -> B' -> Prop) (f : B -> B') l m :
  Forall2 R l (map f m) <-> Forall2 (fun a b => R a (f b)) l m.
Proof.
  split.
  - revert l. induction m; intros l H; inversion H; subst; constructor; auto.
  - induction 1; constructor; auto.
Qed.

Lemma Forall2_impl {A B} (R R' : A -> B -> Prop) l m :
  (forall a b, R a b -> R' a b) -> Forall2 R l m -> Forall2 R' l m.
Proof. induction 2; constructor; auto. Qed.

Lemma Forall2_nth_error {A B} (R : A -> B -> Prop) l m : Forall2 R l m -> forall j x y,
  nth_error l j = Some x -> nth_error m j = Some y -> R x y.
Proof.
  induction 1; intros [|j] a b Ha Hb; cbn in *; try discriminate.
  - now inversion Ha; inversion Hb; subst.
  - eauto.
Qed.

Lemma Forall2_nth_error_ex {A B} (R : A -> B -> Prop) l m : Forall2 R l m -> forall j x,
  nth_error l j = Some x -> exists y, nth_error m j = Some y /\ R x y.
Proof.
  induction 1; intros [|j] a Ha; cbn in *; try discriminate; eauto.
  inversion Ha; subst; eauto.
Qed.

Lemma Forall2_nth {A B} (R : A -> B -> Prop) l m da db : Forall2 R l m -> forall j,
  (j < length l)%nat -> R (nth j l da) (nth j m db).
Proof. induction 1; intros [|j] Hj; cbn in *; try lia; auto. apply IHForall2. lia. Qed.

Lemma firstn_snoc {A} (l : list A) j x : nth_error l j = Some x -> firstn (S j) l = firstn j l ++ [x].
Proof.
  revert j; induction l as [|y l IH]; intros [|j] H; cbn in *; try discriminate.
  - now inversion H.
  - f_equal. now apply IH.
Qed.

Lemma combine_app {A B} (l1 l1' : list A) (l2 l2' : list B) : length l1 = length l2 ->
  combine (l1 ++ l1') (l2 ++ l2') = combine l1 l2 ++ combine l1' l2'.
Proof. revert l2; induction l1; intros [|]; cbn; intros; try discriminate; auto. f_equal. auto. Qed.

Lemma nth_error_combine {A B} (l : list A) : forall (m : list B) j x y,
  nth_error (combine l m) j = Some (x, y) -> nth_error l j = Some x /\ nth_error m j = Some y.
Proof.
  induction l as [|a l IH]; intros [|b m] [|j] x y H; cbn in *; try discriminate; eauto.
  inversion H; auto.
Qed.
