(** Vocabulary of the properties about 32-bit words (C20-C23), and its connection to the invariants
    used in the proofs. *)
From Coq Require Import String.
From Coq Require Import ZArith List Bool Lia.
From Verif Require Import Prelude PrimeField Circuit Loops BooleanGadget NumGadget MultiEq Spec UInt32 UInt32Proof.
Import ListNotations.
Local Open Scope nat_scope.

(** [wden rho w z]: under the assignment [rho] the bits of the word [w], least significant first, are
    the binary digits of the 32-bit integer [z]. *)
Definition wden {P : PrimeField} (rho : Var -> P) (w : UInt32) (z : Z) : Prop :=
  (0 <= z < 2 ^ 32)%Z /\ Forall2 (den rho) (u_bits w) (bits_of 32 z).

(** The value a word tracks agrees with its bits: a word has 32 bits, and if it claims the value [v]
    then every bit that claims a value claims the right digit of [v]. *)
Definition tracked (w : UInt32) : Prop :=
  length (u_bits w) = 32 /\
  forall v, u_value w = Some v -> (0 <= v < 2 ^ 32)%Z /\
    forall i x b, nth_error (u_bits w) i = Some x -> b_value x = Some b -> b = bit_of v i.

(** In state [s] the word [w] is allocated, has value [z], and the gadget knows it. *)
Definition wden_known {P : PrimeField} (s : PState P) (w : UInt32) (z : Z) : Prop :=
  (0 <= z < 2 ^ 32)%Z /\ Forall2 (den_known s) (u_bits w) (bits_of 32 z) /\ u_value w = Some z.

(** Big-endian value of a bit string. *)
Definition be_value (bs : list bool) : Z := le_value (rev bs).

Lemma Forall2_of_nth {A B} (R : A -> B -> Prop) da db l : forall m, length l = length m ->
  (forall i, i < length l -> R (nth i l da) (nth i m db)) -> Forall2 R l m.
Proof.
  induction l as [|x l IH]; intros [|y m] Hl H; try discriminate; constructor.
  - apply (H 0). cbn. lia.
  - apply IH; [cbn in Hl; lia|]. intros i Hi. apply (H (S i)). cbn. lia.
Qed.
Lemma nth_firstn {A} (l : list A) d : forall n i, i < n -> nth i (firstn n l) d = nth i l d.
Proof. induction l as [|x l IH]; intros [|n] [|i] H; cbn; try lia; auto. apply IH. lia. Qed.
Lemma nth_skipn {A} (l : list A) d : forall n i, nth i (skipn n l) d = nth (n + i) l d.
Proof. induction l as [|x l IH]; intros [|n] i; cbn; auto. destruct i; reflexivity. Qed.

Lemma tracked_tracks w : tracked w <-> tracks w.
Proof.
  unfold tracked, tracks. split; intros [Hl H]; (split; [exact Hl|]); intros v Ev; destruct (H v Ev) as [Hv HF]; (split; [exact Hv|]).
  - apply Forall2_of_nth with (da := BConst false) (db := false).
    + now rewrite z2le_length.
    + intros i Hi b Eb. rewrite nth_z2le by lia. rewrite <- bit_of_testbit. eapply HF; [|exact Eb]. now apply nth_error_nth'.
  - intros i x b Ei Eb. assert (Hi : i < 32) by (rewrite <- Hl; apply nth_error_Some; congruence).
    destruct (Forall2_nth_error_ex _ _ _ HF _ _ Ei) as (c & Ec & Hc).
    rewrite (Hc b Eb). rewrite bit_of_testbit, <- (nth_z2le 32) by lia. symmetry. now apply nth_error_nth.
Qed.

Section Bridge.
Context {P : PrimeField}.

Lemma den_bits rho bits bs : Forall2 (den (P := P) rho) bits bs <-> Forall2 (bit_is rho) bits bs.
Proof. split; intros H; (eapply Forall2_impl; [|exact H]); intros; now apply den_bit_is. Qed.

Lemma wden_word rho (w : UInt32) z : tracked w -> wden (P := P) rho w z -> forall G : Prop, word rho G w z.
Proof.
  intros Ht [Hz HF] G. split; [now apply tracked_tracks|]. exists z. split; [exact Hz|]. split; auto.
  apply den_bits. now rewrite <- bits_of_z2le.
Qed.
Lemma words_word rho ws zs : Forall tracked ws -> Forall2 (wden (P := P) rho) ws zs -> forall G : Prop, Forall2 (word rho G) ws zs.
Proof. intros HT HF G. induction HF; inversion HT; subst; constructor; auto. now apply wden_word. Qed.
Lemma word_wden rho (G : Prop) (w : UInt32) z : G -> word (P := P) rho G w z -> tracked w /\ wden rho w z.
Proof.
  intros g (Ht & z' & Hz & HF & HG). split; [now apply tracked_tracks|]. rewrite <- (HG g). split; [exact Hz|].
  rewrite bits_of_z2le. now apply den_bits.
Qed.
Lemma wden_hon (s : PState P) rho w z : agrees rho s -> wden_known s w z -> whon rho w z.
Proof.
  intros Ha (Hz & HF & Ev). split; [exact Hz|]. split; auto. rewrite <- bits_of_z2le.
  eapply Forall2_impl; [|exact HF]. intros x b. now apply den_known_hon.
Qed.
Lemma words_hon (s : PState P) rho ws zs : agrees rho s -> Forall2 (wden_known s) ws zs -> Forall2 (whon rho) ws zs.
Proof. intros Ha H. eapply Forall2_impl; [|exact H]. intros w z. now apply wden_hon. Qed.
Lemma hon_wden rho w z : whon (P := P) rho w z -> wden rho w z /\ u_value w = Some z.
Proof.
  intros (Hz & HF & Ev). split; [|exact Ev]. split; [exact Hz|]. rewrite bits_of_z2le. apply den_bits. now apply hon_is.
Qed.

Lemma in_range_req rho (eqs : list (EqReq P)) : Forall (in_range rho) eqs <-> Forall (req_bounded rho) eqs.
Proof. split; intros H; (eapply Forall_impl; [|exact H]); intros [[n l] r]; auto. Qed.
Lemma equal_req rho (eqs : list (EqReq P)) : Forall (equal rho) eqs <-> Forall (req_holds rho) eqs.
Proof. split; intros H; (eapply Forall_impl; [|exact H]); intros [[n l] r]; auto. Qed.

(** Used in a MultiEq: the requests are in range, and if they hold so does the postcondition. *)
Lemma wpS_in_scope rho {A} (p : prog P (res A)) (Q : A -> Prop) r cs eqs :
  (forall G : Prop, wpS rho G p (okP (fun a => G -> Q a))) -> emits p (Ok r) cs eqs -> sat rho cs ->
  Forall (in_range rho) eqs /\ (Forall (equal rho) eqs -> Q r).
Proof.
  intros H He Hs. split.
  - apply in_range_req. eapply wpS_bounded; [apply H|exact He|exact Hs].
  - intros Hq. apply equal_req in Hq. exact (wpS_holds rho p _ _ _ _ (H True) He Hs Hq I).
Qed.
End Bridge.

Lemma bit_of_mod z n i : i < n -> bit_of (z mod 2 ^ Z.of_nat n) i = bit_of z i.
Proof. intros H. rewrite !bit_of_testbit. apply Z.mod_pow2_bits_low. lia. Qed.

Lemma be_value_be2z bs : be_value bs = be2z bs.
Proof. unfold be_value. rewrite le_value_le2z. symmetry. apply be2z_le. Qed.

(** Bits of a rotation. *)
Lemma rotr32_bit k z i : u32 z -> i < 32 -> bit_of (rotr32 (k mod 32) z) i = bit_of z ((i + k) mod 32).
Proof.
  intros Hz Hi. pose proof (Nat.mod_upper_bound k 32 ltac:(discriminate)) as Hk.
  rewrite !bit_of_testbit, <- (nth_z2le 32 _ i) by lia. rewrite <- rotr32_bits by (auto; lia).
  assert (Hm : (i + k) mod 32 < 32) by (apply Nat.mod_upper_bound; discriminate).
  rewrite <- (nth_z2le 32 z) by exact Hm.
  rewrite Nat.add_mod, (Nat.mod_small i) in * by (try discriminate; lia).
  rewrite nth_firstn by lia.
  destruct (Nat.lt_ge_cases (i + k mod 32) 32) as [H|H].
  - rewrite (Nat.mod_small (i + k mod 32)) by lia. rewrite app_nth1 by (rewrite skipn_length, z2le_length; lia).
    rewrite nth_skipn. f_equal. lia.
  - rewrite app_nth2; rewrite skipn_length, z2le_length; [|lia].
    replace ((i + k mod 32) mod 32) with (i + k mod 32 - 32).
    + f_equal. lia.
    + apply (Nat.mod_unique _ 32 1); lia.
Qed.

Lemma ch_fn_bit x y z i : i < 32 -> bit_of (ch_fn x y z) i = (if bit_of x i then bit_of y i else bit_of z i).
Proof.
  intros Hi. rewrite !bit_of_testbit. unfold ch_fn, u32_not. rewrite !Z.lxor_spec, !Z.land_spec, Z.lxor_spec.
  rewrite (Z.ones_spec_low 32) by lia. destruct (Z.testbit x _), (Z.testbit y _), (Z.testbit z _); reflexivity.
Qed.
Lemma maj_fn_bit x y z i : Z.testbit (maj_fn x y z) i =
  xorb (xorb (Z.testbit x i && Z.testbit y i) (Z.testbit x i && Z.testbit z i)) (Z.testbit y i && Z.testbit z i).
Proof. unfold maj_fn. now rewrite !Z.lxor_spec, !Z.land_spec. Qed.
