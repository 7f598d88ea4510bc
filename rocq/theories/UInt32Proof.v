(** Soundness, completeness and witness-independence of the 32-bit word gadgets. *)
From Coq Require Import String.
From Coq Require Import ZArith List Bool Lia Field.
From Verif Require Import Prelude PrimeField Circuit Loops BooleanGadget NumGadget MultiEq UInt32.
Import ListNotations.
Local Open Scope nat_scope.

#[global] Arguments z2le : simpl never.
#[global] Arguments Nat.modulo : simpl never.

(** ** Bitwise operations *)
Section Bits.
Local Open Scope Z_scope.

Lemma bits_range x : (forall i, 32 <= i -> Z.testbit x i = false) -> 0 <= x < 2 ^ 32.
Proof.
  intros H. assert (E : x = x mod 2 ^ 32).
  { apply Z.bits_inj'. intros i Hi. destruct (Z.ltb_spec i 32).
    - now rewrite Z.mod_pow2_bits_low by lia.
    - rewrite Z.mod_pow2_bits_high by lia. auto. }
  rewrite E. apply Z.mod_pos_bound. lia.
Qed.

Lemma high_bits x i : 0 <= x < 2 ^ 32 -> 32 <= i -> Z.testbit x i = false.
Proof. intros Hx Hi. rewrite <- (Z.mod_small x (2 ^ 32)) by auto. apply Z.mod_pow2_bits_high. lia. Qed.

Lemma z2le_op2 n (f : bool -> bool -> bool) c a b :
  (forall i, 0 <= i < Z.of_nat n -> Z.testbit c i = f (Z.testbit a i) (Z.testbit b i)) ->
  z2le n c = map (fun p => f (fst p) (snd p)) (combine (z2le n a) (z2le n b)).
Proof.
  intros H. rewrite !z2le_testbit, combine_map2, map_map. apply map_ext_in. intros i Hi. apply in_seq in Hi.
  cbn [fst snd]. apply H. lia.
Qed.
Lemma z2le_op3 n (f : bool -> bool -> bool -> bool) d a b c :
  (forall i, 0 <= i < Z.of_nat n -> Z.testbit d i = f (Z.testbit a i) (Z.testbit b i) (Z.testbit c i)) ->
  z2le n d = map (fun p => f (fst (fst p)) (snd (fst p)) (snd p)) (combine (combine (z2le n a) (z2le n b)) (z2le n c)).
Proof.
  intros H. rewrite !z2le_testbit, !combine_map2, map_map. apply map_ext_in. intros i Hi. apply in_seq in Hi.
  cbn [fst snd]. apply H. lia.
Qed.

Lemma lxor_range a b : 0 <= a < 2 ^ 32 -> 0 <= b < 2 ^ 32 -> 0 <= Z.lxor a b < 2 ^ 32.
Proof. intros Ha Hb. apply bits_range. intros i Hi. now rewrite Z.lxor_spec, !high_bits. Qed.
Lemma maj_range a b c : 0 <= a < 2 ^ 32 -> 0 <= b < 2 ^ 32 -> 0 <= c < 2 ^ 32 -> 0 <= maj_fn a b c < 2 ^ 32.
Proof. intros Ha Hb Hc. apply bits_range. intros i Hi. unfold maj_fn. now rewrite !Z.lxor_spec, !Z.land_spec, !high_bits. Qed.
Lemma ch_range a b c : 0 <= a < 2 ^ 32 -> 0 <= b < 2 ^ 32 -> 0 <= c < 2 ^ 32 -> 0 <= ch_fn a b c < 2 ^ 32.
Proof.
  intros Ha Hb Hc. apply bits_range. intros i Hi. unfold ch_fn.
  rewrite !Z.lxor_spec, !Z.land_spec, (high_bits b), (high_bits c) by auto. now rewrite !andb_false_r.
Qed.

Lemma lxor_bits a b : z2le 32 (Z.lxor a b) = map (fun p => xorb (fst p) (snd p)) (combine (z2le 32 a) (z2le 32 b)).
Proof. apply z2le_op2. intros i Hi. apply Z.lxor_spec. Qed.
Lemma maj_bits a b c : z2le 32 (maj_fn a b c) =
  map (fun p => maj_bit (fst (fst p)) (snd (fst p)) (snd p)) (combine (combine (z2le 32 a) (z2le 32 b)) (z2le 32 c)).
Proof. apply z2le_op3. intros i Hi. unfold maj_fn, maj_bit. now rewrite !Z.lxor_spec, !Z.land_spec. Qed.
Lemma ch_bits a b c : z2le 32 (ch_fn a b c) =
  map (fun p => ch_bit (fst (fst p)) (snd (fst p)) (snd p)) (combine (combine (z2le 32 a) (z2le 32 b)) (z2le 32 c)).
Proof.
  apply z2le_op3. intros i Hi. unfold ch_fn, ch_bit, u32_not. rewrite !Z.lxor_spec, !Z.land_spec, Z.lxor_spec.
  rewrite (Z.ones_spec_low 32 i) by lia. now rewrite xorb_true_r.
Qed.

Lemma shr_range k z : 0 <= z < 2 ^ 32 -> 0 <= z / 2 ^ Z.of_nat k < 2 ^ 32.
Proof.
  intros H. pose proof (pow2_pos k). split; [apply Z.div_pos; lia|].
  apply Z.div_lt_upper_bound; [lia|]. nia.
Qed.

Lemma size_nat_spec m : Z.pos m < 2 ^ Z.of_nat (Pos.size_nat m) /\ 2 ^ Z.of_nat (Pos.size_nat m) <= 2 * Z.pos m.
Proof. induction m as [m IH|m IH|]; cbn [Pos.size_nat]; rewrite ?pow2_S; lia. Qed.
Lemma size_nat_pos m : (0 < Pos.size_nat m)%nat.
Proof. destruct m; cbn; lia. Qed.
End Bits.

Lemma Forall2_combine {A B C D} (R : A -> B -> Prop) (R' : C -> D -> Prop) l m : Forall2 R l m -> forall l' m',
  Forall2 R' l' m' -> Forall2 (fun p q => R (fst p) (fst q) /\ R' (snd p) (snd q)) (combine l l') (combine m m').
Proof.
  induction 1 as [|x y l m Hx HF IH]; intros l' m' H'; [constructor|].
  destruct H' as [|x' y' l' m' Hx' HF']; cbn; constructor; auto.
Qed.
Lemma Forall2_swap {A B} (R : A -> B -> Prop) l m : Forall2 R l m -> Forall2 (fun b a => R a b) m l.
Proof. induction 1; constructor; auto. Qed.
Lemma Forall2_firstn' {A B} (R : A -> B -> Prop) l m : Forall2 R l m -> forall n, Forall2 R (firstn n l) (firstn n m).
Proof. induction 1; intros [|n]; cbn; constructor; auto. Qed.
Lemma Forall2_skipn' {A B} (R : A -> B -> Prop) l m : Forall2 R l m -> forall n, Forall2 R (skipn n l) (skipn n m).
Proof. induction 1; intros [|n]; cbn; try constructor; auto. Qed.
Lemma Forall2_repeat {A B} (R : A -> B -> Prop) x y n : R x y -> Forall2 R (repeat x n) (repeat y n).
Proof. intros H. induction n; cbn; constructor; auto. Qed.
Lemma combine_length_eq {A B} (l : list A) (m : list B) n : length l = n -> length m = n -> length (combine l m) = n.
Proof. intros. rewrite combine_length. lia. Qed.

Definition u32 (z : Z) : Prop := (0 <= z < 2 ^ 32)%Z.

(** The value a word tracks agrees with the values its bits track. *)
Definition tracks (w : UInt32) : Prop :=
  length (u_bits w) = 32 /\ forall v, u_value w = Some v -> u32 v /\ Forall2 vle (u_bits w) (z2le 32 v).

(** *** Generic facts on a relation between bits, used for [bit_is rho], [bit_hon rho] and [vle] *)
Section BitRel.
Variable R : Boolean -> bool -> Prop.
Hypothesis Rc : forall c, R (BConst c) c.

Lemma const_rel v : u32 v -> Forall2 R (u_bits (u_constant v)) (z2le 32 v).
Proof.
  intros Hv. unfold u_constant. cbn [u_bits]. rewrite low_bits_z2le. apply Forall2_map_l.
  generalize (z2le 32 v). induction l as [|[] l IH]; constructor; auto.
Qed.
Lemma rotr_rel w k z : u32 z -> Forall2 R (u_bits w) (z2le 32 z) -> Forall2 R (u_bits (u_rotr w k)) (z2le 32 (rotr32 (k mod 32) z)).
Proof.
  intros Hz H. unfold u_rotr. cbn [u_bits]. pose proof (Nat.mod_upper_bound k 32 ltac:(discriminate)).
  rewrite <- rotr32_bits by (auto; lia). apply Forall2_firstn'. apply Forall2_app; auto. apply Forall2_skipn'. auto.
Qed.
Lemma shr_rel w k z : u32 z -> Forall2 R (u_bits w) (z2le 32 z) ->
  Forall2 R (u_bits (u_shr w k)) (z2le 32 (z / 2 ^ Z.of_nat (k mod 32))).
Proof.
  intros Hz H. unfold u_shr. cbn [u_bits]. pose proof (Nat.mod_upper_bound k 32 ltac:(discriminate)).
  rewrite <- shr_bits by (auto; lia). apply Forall2_firstn'. apply Forall2_app; auto. apply Forall2_skipn'. auto.
  apply Forall2_repeat. auto.
Qed.
End BitRel.

Lemma rel_length {R : Boolean -> bool -> Prop} w z : Forall2 R w (z2le 32 z) -> length w = 32.
Proof. intros H. apply Forall2_length in H. now rewrite z2le_length in H. Qed.

Lemma constant_tracks v : u32 v -> tracks (u_constant v).
Proof.
  intros Hv. assert (H : Forall2 vle (u_bits (u_constant v)) (z2le 32 v)) by (apply const_rel; auto; intros c; now apply vle_const).
  split; [eapply rel_length; eauto|]. intros x E. inversion E; subst. auto.
Qed.

Lemma rotr_range k z : u32 z -> u32 (rotr32 (k mod 32) z).
Proof. intros H. apply rotr32_range; auto. pose proof (Nat.mod_upper_bound k 32 ltac:(discriminate)). lia. Qed.

Lemma rotr_tracks w k : tracks w -> tracks (u_rotr w k).
Proof.
  intros [Hl Ht]. split.
  - unfold u_rotr; cbn [u_bits]. rewrite firstn_length, app_length, skipn_length, Hl. lia.
  - intros v E. unfold u_rotr in E. cbn [u_value] in E. destruct (u_value w) as [v0|]; [|discriminate]. cbn [option_map] in E.
    inversion E; subst. destruct (Ht v0 eq_refl) as [Hr HF].
    rewrite u32_rotate_right_spec by (first [exact Hr | pose proof (Nat.mod_upper_bound k 32 ltac:(discriminate)); lia]).
    split; [now apply rotr_range|]. apply rotr_rel; auto.
Qed.
Lemma shr_tracks w k : tracks w -> tracks (u_shr w k).
Proof.
  intros [Hl Ht]. split.
  - unfold u_shr; cbn [u_bits]. rewrite firstn_length, app_length, skipn_length, repeat_length, Hl. lia.
  - intros v E. unfold u_shr in E. cbn [u_value] in E. destruct (u_value w) as [v0|]; [|discriminate]. cbn [option_map] in E.
    inversion E; subst. destruct (Ht v0 eq_refl) as [Hr HF]. rewrite Z.shiftr_div_pow2 by lia.
    split; [now apply shr_range|]. apply shr_rel; auto. intros c. now apply vle_const.
Qed.

(** *** from_bits *)
Lemma lor_shl1 a : u32 a -> (a < 2 ^ 31)%Z -> Z.lor (u32_shl1 a) 1 = (2 * a + 1)%Z.
Proof.
  intros Ha Hl. unfold u32_shl1, u32 in *. rewrite Z.shiftl_mul_pow2, Z.mod_small by lia.
  change (2 ^ 1)%Z with 2%Z. rewrite Z.mul_comm. destruct a as [|p|p]; try reflexivity. lia.
Qed.
Lemma shl1_val a : u32 a -> (a < 2 ^ 31)%Z -> u32_shl1 a = (2 * a)%Z.
Proof.
  intros Ha Hl. unfold u32_shl1, u32 in *. rewrite Z.shiftl_mul_pow2, Z.mod_small by lia. lia.
Qed.

Lemma from_bits_step_eq o b : from_bits_step o b = from_bits_be_step o b.
Proof.
  unfold from_bits_step, from_bits_be_step. destruct b as [a|a|[]]; cbn; auto.
  - destruct (ab_value a) as [[]|]; reflexivity.
Qed.

Definition be2z (bs : list bool) : Z := fold_left (fun acc b => (2 * acc + Z.b2z b)%Z) bs 0%Z.
Lemma be2z_snoc bs b : be2z (bs ++ [b]) = (2 * be2z bs + Z.b2z b)%Z.
Proof. unfold be2z. now rewrite fold_left_app. Qed.
Lemma be2z_rev bs : be2z (rev bs) = le2z bs.
Proof. induction bs as [|b t IH]; [reflexivity|]. cbn [rev]. rewrite be2z_snoc, IH. cbn [le2z]. lia. Qed.
Lemma be2z_le bs : be2z bs = le2z (rev bs).
Proof. now rewrite <- be2z_rev, rev_involutive. Qed.
Lemma be2z_range bs : (0 <= be2z bs < 2 ^ Z.of_nat (length bs))%Z.
Proof. rewrite be2z_le. pose proof (le2z_nonneg (rev bs)). pose proof (le2z_bound (rev bs)). rewrite rev_length in *. lia. Qed.

(** The tracked value of the conversion, for bits listed most significant first. *)
Lemma from_bits_be_value bits : length bits <= 32 -> forall v, fold_left from_bits_be_step bits (Some 0%Z) = Some v ->
  exists bs, Forall2 (fun x b => b_value x = Some b) bits bs /\ v = be2z bs.
Proof.
  induction bits as [|x bits IH] using rev_ind; intros Hl v E.
  - exists []. inversion E. split; [constructor|reflexivity].
  - rewrite app_length in Hl; cbn in Hl. rewrite fold_left_app in E. cbn [fold_left] in E. unfold from_bits_be_step at 1 in E.
    destruct (fold_left from_bits_be_step bits (Some 0%Z)) as [v0|] eqn:E0; cbn [option_map] in E.
    + destruct (IH ltac:(lia) v0 eq_refl) as (bs & HF & ->).
      assert (Hb : (0 <= be2z bs < 2 ^ 31)%Z).
      { pose proof (be2z_range bs). rewrite <- (Forall2_length _ _ _ HF) in *.
        assert (2 ^ Z.of_nat (length bits) <= 2 ^ 31)%Z by (apply Z.pow_le_mono_r; lia). lia. }
      destruct (b_value x) as [b|] eqn:Eb; [|discriminate]. exists (bs ++ [b]). split; [apply Forall2_app; auto|].
      rewrite be2z_snoc. destruct b; inversion E; subst; cbn [Z.b2z].
      * rewrite lor_shl1 by (unfold u32; lia). lia.
      * rewrite shl1_val by (unfold u32; lia). lia.
    + destruct (b_value x) as [[]|]; discriminate.
Qed.
Lemma from_bits_be_known bits bs : length bits <= 32 -> Forall2 (fun x b => b_value x = Some b) bits bs ->
  fold_left from_bits_be_step bits (Some 0%Z) = Some (be2z bs).
Proof.
  revert bs. induction bits as [|x bits IH] using rev_ind; intros bs Hl HF.
  - inversion HF. reflexivity.
  - apply Forall2_app_inv_l in HF as (bs1 & bs2 & HF1 & HF2 & ->). inversion HF2 as [|? b ? ? Hb Hn]; subst.
    inversion Hn; subst. rewrite app_length in Hl; cbn in Hl. rewrite fold_left_app, (IH _ ltac:(lia) HF1).
    cbn [fold_left]. unfold from_bits_be_step. cbn [option_map]. rewrite Hb, be2z_snoc.
    assert (Hr : (0 <= be2z bs1 < 2 ^ 31)%Z).
    { pose proof (be2z_range bs1). rewrite <- (Forall2_length _ _ _ HF1) in *.
      assert (2 ^ Z.of_nat (length bits) <= 2 ^ 31)%Z by (apply Z.pow_le_mono_r; lia). lia. }
    destruct b; cbn [Z.b2z]; [rewrite lor_shl1|rewrite shl1_val]; try (unfold u32; lia); f_equal; lia.
Qed.

Lemma z2le_le2z32 bs : length bs = 32 -> z2le 32 (le2z bs) = bs.
Proof. intros <-. apply z2le_le2z. Qed.
Lemma le2z_u32 bs : length bs = 32 -> u32 (le2z bs).
Proof. intros H. pose proof (le2z_nonneg bs). pose proof (le2z_bound bs). rewrite H in *. unfold u32. lia. Qed.

Lemma known_vle bits bs : Forall2 (fun x b => b_value x = Some b) bits bs -> Forall2 vle bits bs.
Proof. apply Forall2_impl. intros x b H c E. congruence. Qed.

Lemma from_bits_be_tracks bits w : from_bits_be bits = Done w -> tracks w /\ u_bits w = rev bits.
Proof.
  unfold from_bits_be. destruct (Nat.eqb_spec (length bits) 32) as [Hl|]; [|discriminate]. intros E; inversion E; subst.
  split; [|reflexivity]. split; cbn; [now rewrite rev_length|]. intros v Ev.
  destruct (from_bits_be_value bits ltac:(lia) v Ev) as (bs & HF & ->). pose proof (Forall2_length _ _ _ HF) as HL.
  rewrite be2z_le. split; [apply le2z_u32; rewrite rev_length; congruence|].
  rewrite z2le_le2z32 by (rewrite rev_length; congruence). apply Forall2_rev. now apply known_vle.
Qed.
Lemma from_bits_rev bits : from_bits bits = from_bits_be (rev bits).
Proof.
  unfold from_bits, from_bits_be. rewrite rev_length, rev_involutive. destruct (Nat.eqb _ _); [|reflexivity].
  do 2 f_equal. generalize (rev bits) (Some 0%Z). induction l as [|b l IH]; intros o; cbn; auto. now rewrite IH, from_bits_step_eq.
Qed.
Lemma from_bits_tracks bits w : from_bits bits = Done w -> tracks w /\ u_bits w = bits.
Proof.
  rewrite from_bits_rev. intros E. destruct (from_bits_be_tracks _ _ E) as [H1 H2]. rewrite rev_involutive in H2. auto.
Qed.

(** ** Gadgets *)
Section Words.
Context {P : PrimeField}.
Add Field PFfield_u32 : (F_field P).

Lemma wpS_only_and (rho : Var -> P) (G : Prop) {A} (p : prog P (res A)) (Q1 Q2 : A -> Prop) :
  wpS rho G p (okP Q1) -> only (okP Q2) p -> wpS rho G p (okP (fun a => Q1 a /\ Q2 a)).
Proof.
  induction p as [a| |n f k IH|n f k IH|n a b c k IH|n l r k IH|n k IH|k IH]; cbn; auto.
  - destruct a; cbn; auto.
  - intros (Ha & Hb & Hc) Ho. auto.
Qed.

(** Tracked values of the results. *)
Lemma u_alloc_tracks v : (forall z, v = Some z -> u32 z) -> only (okP tracks) (@u_alloc P v).
Proof.
  intros Hv. unfold u_alloc. destruct v as [z|].
  - eapply only_bindq.
    + eapply only_mapq with (I := fun x b => x = Some b) (m := z2le 32 z) (Q := fun b r => vle r b).
      * rewrite low_bits_z2le. apply Forall2_map_l. generalize (z2le 32 z); induction l; constructor; auto.
      * intros j x c ->. eapply only_bindq; [apply only_ns|].
        -- unfold ab_alloc. apply only_alloc_q. intros var inv. apply only_enforce. cbn [only okP].
           instantiate (1 := fun a => vle (BIs a) c). cbv beta. intros b E. cbn in E. congruence.
        -- intros a Ha. exact Ha.
    + intros ys Hys. cbn [only okP]. apply Forall2_swap in Hys. split; [eapply rel_length; exact Hys|].
      cbn [u_value]. intros v E. inversion E; subst. split; auto.
  - eapply only_bindq.
    + eapply only_mapq with (I := fun x b => True) (m := repeat tt 32) (Q := fun b r => True); [|].
      * apply Forall2_repeat. exact I.
      * intros. apply only_true. intros [r|e]; exact I.
    + intros ys Hys. cbn [only okP]. split; [|discriminate]. apply Forall2_length in Hys. rewrite repeat_length in Hys. cbn [u_bits]. congruence.
Qed.

Lemma u_xor_tracks a b : tracks a -> tracks b -> only (okP tracks) (@u_xor P a b).
Proof.
  intros [Hla Ha] [Hlb Hb]. unfold u_xor.
  destruct (u_value a) as [x|] eqn:Ex; [destruct (u_value b) as [y|] eqn:Ey|].
  2,3: eapply only_bindq; [eapply only_mapq with (I := fun x c => True) (m := repeat tt 32) (Q := fun b r => True)|];
       [apply Forall2_trivial; rewrite repeat_length; now apply combine_length_eq
       |intros; apply only_true; intros [r|e]; exact I
       |intros ys Hys; cbn [only okP]; split; [|discriminate]; apply Forall2_length in Hys; rewrite repeat_length in Hys; cbn [u_bits]; congruence].
  destruct (Ha x eq_refl) as [Hx HFx], (Hb y eq_refl) as [Hy HFy].
  eapply only_bindq.
  - eapply only_mapq with (m := combine (z2le 32 x) (z2le 32 y)) (Q := fun c r => vle r (xorb (fst c) (snd c))).
    + apply Forall2_combine; eassumption.
    + cbv beta. intros j p c [H1 H2]. apply only_ns. eapply only_okmono; [|apply b_xor_vle]. intros r Hr. apply Hr; auto.
  - intros ys Hys. cbn [only okP]. cbv beta in Hys.
    assert (HF : Forall2 vle ys (z2le 32 (Z.lxor x y))).
    { rewrite lxor_bits. apply Forall2_map_r. apply Forall2_swap. exact Hys. }
    split; [eapply rel_length; exact HF|]. cbn [u_value u_bits]. intros v E. inversion E; subst. split; [now apply lxor_range|exact HF].
Qed.

Lemma triop_tracks a b c tri_fn fb (f : nat -> Boolean -> Boolean -> Boolean -> prog P (res Boolean)) :
  (forall x y z, u32 x -> u32 y -> u32 z -> u32 (tri_fn x y z)) ->
  (forall x y z, z2le 32 (tri_fn x y z) =
     map (fun p => fb (fst (fst p)) (snd (fst p)) (snd p)) (combine (combine (z2le 32 x) (z2le 32 y)) (z2le 32 z))) ->
  (forall i x y z, only (okP (vrel3 fb x y z)) (f i x y z)) ->
  tracks a -> tracks b -> tracks c -> only (okP tracks) (triop a b c tri_fn f).
Proof.
  intros Hr Hbits Hf [Hla Ha] [Hlb Hb] [Hlc Hc]. unfold triop.
  assert (Hother : forall o, o = None -> only (okP tracks) (bindq (mapq (fun i x => f i (fst (fst x)) (snd (fst x)) (snd x)) 0
                 (combine (combine (u_bits a) (u_bits b)) (u_bits c))) (fun bits => Ret (Ok {| u_bits := bits; u_value := o |})))).
  { intros o ->. eapply only_bindq; [eapply only_mapq with (I := fun x c => True) (m := repeat tt 32) (Q := fun b r => True)|].
    - apply Forall2_trivial. rewrite repeat_length. apply combine_length_eq; auto. now apply combine_length_eq.
    - intros; apply only_true; intros [r|e]; exact I.
    - intros ys Hys; cbn [only okP]; split; [|discriminate]; apply Forall2_length in Hys; rewrite repeat_length in Hys; cbn [u_bits]; congruence. }
  destruct (u_value a) as [x|] eqn:Ex; [|now apply Hother].
  destruct (u_value b) as [y|] eqn:Ey; [|now apply Hother].
  destruct (u_value c) as [z|] eqn:Ez; [|now apply Hother].
  destruct (Ha x eq_refl) as [Hx HFx], (Hb y eq_refl) as [Hy HFy], (Hc z eq_refl) as [Hz HFz].
  eapply only_bindq.
  - eapply only_mapq with (m := combine (combine (z2le 32 x) (z2le 32 y)) (z2le 32 z))
      (Q := fun c r => vle r (fb (fst (fst c)) (snd (fst c)) (snd c))).
    + apply Forall2_combine; [apply Forall2_combine|]; eassumption.
    + cbv beta. intros j p q [[H1 H2] H3]. eapply only_okmono; [|apply Hf]. intros r Hr'. apply Hr'; auto.
  - intros ys Hys. cbn [only okP]. cbv beta in Hys.
    assert (HF : Forall2 vle ys (z2le 32 (tri_fn x y z))).
    { rewrite Hbits. apply Forall2_map_r. apply Forall2_swap. exact Hys. }
    split; [eapply rel_length; exact HF|]. cbn [u_value u_bits]. intros v E. inversion E; subst. split; [now apply Hr|exact HF].
Qed.
Lemma u_ch_tracks a b c : tracks a -> tracks b -> tracks c -> only (okP tracks) (@u_ch P a b c).
Proof. apply triop_tracks with (fb := ch_bit); [exact ch_range|exact ch_bits|]. intros. apply only_ns, b_ch_vle. Qed.
Lemma u_maj_tracks a b c : tracks a -> tracks b -> tracks c -> only (okP tracks) (@u_maj P a b c).
Proof. apply triop_tracks with (fb := maj_bit); [exact maj_range|exact maj_bits|]. intros. apply only_ns, b_maj_vle. Qed.

(** *** addmany *)
Fixpoint zsum (l : list Z) : Z := match l with [] => 0 | x :: t => x + zsum t end%Z.
Fixpoint osum (l : list (option Z)) : option Z :=
  match l with
  | [] => Some 0%Z
  | x :: t => match x, osum t with Some a, Some b => Some (a + b)%Z | _, _ => None end
  end.
Definition uconst (w : UInt32) : bool := forallb is_constant (u_bits w).
Definition oadd (a b : option Z) : option Z := match a, b with Some a, Some b => Some (a + b)%Z | _, _ => None end.

Lemma add_consts (bits : list Boolean) : forall acc, fold_left (fun acc bit => andb acc (is_constant bit)) bits acc = andb acc (forallb is_constant bits).
Proof. induction bits as [|b t IH]; intros acc; cbn; [now rewrite andb_true_r|]. rewrite IH. now rewrite andb_assoc. Qed.

Lemma add_fold ops : forall rv lc ac, fold_left (@add_op_step P) ops (rv, lc, ac) =
  (oadd rv (osum (map u_value ops)), snd (fst (fold_left (@add_op_step P) ops (rv, lc, ac))), andb ac (forallb uconst ops)).
Proof.
  induction ops as [|w ops IH]; intros rv lc ac; cbn [fold_left].
  - cbn. destruct rv; cbn; rewrite ?Z.add_0_r, andb_true_r; reflexivity.
  - unfold add_op_step at 2 4. rewrite IH at 1. cbn [map osum forallb]. rewrite add_consts, andb_assoc. f_equal. f_equal.
    destruct (u_value w) as [v|], rv as [r|], (osum (map u_value ops)) as [t|]; cbn [oadd option_map]; try reflexivity. f_equal. lia.
Qed.

Lemma eval_add_bits (rho : Var -> P) bits bs : rho one_var = fone -> Forall2 (bit_is rho) bits bs -> forall lc c,
  eval rho (fst (fold_left add_bit_step bits (lc, c))) = fadd (eval rho lc) (fmul c (ofZ (le2z bs))).
Proof.
  intros H1. induction 1 as [|x b bits bs Hx HF IH]; intros lc c; cbn [fold_left].
  - cbn [fst le2z]. rewrite ofZ_0. ring.
  - unfold add_bit_step at 2. cbn [fst snd]. rewrite IH. lcev. rewrite (eval_b_lc rho H1 _ _ _ Hx).
    cbn [le2z]. rewrite ofZ_add, ofZ_mul, ofZ_b2z, ofZ_2. unfold fdouble. ring.
Qed.

Lemma eval_add_ops (rho : Var -> P) ops zs : rho one_var = fone ->
  Forall2 (fun w z => u32 z /\ Forall2 (bit_is rho) (u_bits w) (z2le 32 z)) ops zs -> forall rv lc ac,
  eval rho (snd (fst (fold_left add_op_step ops (rv, lc, ac)))) = fadd (eval rho lc) (ofZ (zsum zs)).
Proof.
  intros H1. induction 1 as [|w z ops zs [Hr Hw] HF IH]; intros rv lc ac; cbn [fold_left].
  - cbn [fst snd zsum]. rewrite ofZ_0. ring.
  - unfold add_op_step at 2. rewrite IH. rewrite (eval_add_bits rho _ _ H1 Hw), le2z_z2le_small by exact Hr.
    cbn [zsum]. rewrite ofZ_add. ring.
Qed.

Lemma add_loop_sound (rho : Var -> P) (G : Prop) rv m : rho one_var = fone -> forall i c lc bits,
  wpS rho G (add_result_loop rv m i c lc bits) (okP (fun r => exists nb bs, fst (fst r) = bits ++ nb /\
    Forall2 (bit_is rho) nb bs /\ length bs = Pos.size_nat m /\ snd r = i + Pos.size_nat m /\
    eval rho (snd (fst r)) = fadd (eval rho lc) (fmul c (ofZ (le2z bs))))).
Proof.
  intros H1. induction m as [m IH|m IH|]; intros i c lc bits; cbn [add_result_loop Pos.size_nat].
  1,2: eapply wpS_bindq'; [apply wpS_ns, ab_alloc_sound, H1|]; cbv beta; intros a [b Hb];
       eapply wpS_okmono; [|apply IH]; cbv beta; intros [[rb rl] ri] (nb & bs & E1 & HF & Hl & Ei & Ev); cbn [fst snd] in *;
       exists (BIs a :: nb), (b :: bs); repeat split; [rewrite E1, <- app_assoc; reflexivity|constructor; auto|cbn; lia|lia|];
       rewrite Ev; lcev; rewrite Hb; cbn [le2z]; rewrite ofZ_add, ofZ_mul, ofZ_b2z, ofZ_2; unfold fdouble; ring.
  eapply wpS_bindq'; [apply wpS_ns, ab_alloc_sound, H1|]. cbv beta. intros a [b Hb]. cbn [wpS okP fst snd].
  exists [BIs a], [b]. repeat split; [constructor; auto|lia|].
  lcev; rewrite Hb; cbn [le2z]; rewrite ofZ_add, ofZ_mul, ofZ_b2z, ofZ_2, ofZ_0. ring.
Qed.

Lemma add_bit_val v i : Z.eqb (Z.land (Z.shiftr v (Z.of_nat i)) 1) 1 = Z.testbit v (Z.of_nat i).
Proof. apply shift_and_bit. Qed.

Lemma z2le_cons n z : z2le (S n) z = Z.odd z :: z2le n (Z.div2 z).
Proof. reflexivity. Qed.
Lemma shift_odd v i : Z.odd (v / 2 ^ Z.of_nat i) = Z.testbit v (Z.of_nat i).
Proof. rewrite Z.testbit_odd, Z.shiftr_div_pow2 by lia. reflexivity. Qed.
Lemma shift_div2 v i : Z.div2 (v / 2 ^ Z.of_nat i) = (v / 2 ^ Z.of_nat (S i))%Z.
Proof. rewrite Z.div2_div, Z.div_div by (try lia; apply pow2_pos). f_equal. rewrite pow2_S. lia. Qed.

Lemma add_loop_complete (rho : Var -> P) v m : rho one_var = fone -> forall i c lc bits,
  wpC rho (add_result_loop (Some v) m i c lc bits) (isOk (fun r => exists nb, fst (fst r) = bits ++ nb /\
    Forall2 (bit_hon rho) nb (z2le (Pos.size_nat m) (v / 2 ^ Z.of_nat i)) /\ snd r = i + Pos.size_nat m /\
    eval rho (snd (fst r)) = fadd (eval rho lc) (fmul c (ofZ (le2z (z2le (Pos.size_nat m) (v / 2 ^ Z.of_nat i))))))).
Proof.
  intros H1. induction m as [m IH|m IH|]; intros i c lc bits; cbn [add_result_loop Pos.size_nat option_map];
  rewrite add_bit_val, z2le_cons, shift_odd, shift_div2.
  1,2: eapply wpC_bindq'; [apply wpC_ns, ab_alloc_complete, H1|]; cbv beta; intros a [Hb Hv];
       eapply wpC_okmono; [|apply IH]; cbv beta; intros [[rb rl] ri] (nb & E1 & HF & Ei & Ev); cbn [fst snd] in *;
       exists (BIs a :: nb); repeat split; [rewrite E1, <- app_assoc; reflexivity|constructor; [split; auto|auto]|lia|];
       rewrite Ev; lcev; rewrite Hb; cbn [le2z]; rewrite ofZ_add, ofZ_mul, ofZ_b2z, ofZ_2; unfold fdouble; ring.
  eapply wpC_bindq'; [apply wpC_ns, ab_alloc_complete, H1|]. cbv beta. intros a [Hb Hv]. cbn [wpC isOk fst snd].
  exists [BIs a]. repeat split; [constructor; [split; auto|constructor]|lia|].
  lcev; rewrite Hb; cbn [le2z]; rewrite ofZ_add, ofZ_mul, ofZ_b2z, ofZ_2, ofZ_0. ring.
Qed.

Lemma ab_alloc_vle v : only (okP (fun a => forall b, v = Some b -> vle (BIs a) b)) (@ab_alloc P v).
Proof.
  unfold ab_alloc. apply only_alloc_q. intros var inv. apply only_enforce. cbn [only okP]. intros b -> c E. cbn in E. congruence.
Qed.

Lemma add_loop_vle rv m : forall i c lc bits,
  only (okP (fun r => exists nb, fst (fst r) = bits ++ nb /\ length nb = Pos.size_nat m /\
    forall v, rv = Some v -> Forall2 vle nb (z2le (Pos.size_nat m) (v / 2 ^ Z.of_nat i))))
    (@add_result_loop P rv m i c lc bits).
Proof.
  induction m as [m IH|m IH|]; intros i c lc bits; cbn [add_result_loop Pos.size_nat].
  1,2: eapply only_bindq; [apply only_ns, ab_alloc_vle|]; cbv beta; intros a Ha;
       eapply only_okmono; [|apply IH]; cbv beta; intros [[rb rl] ri] (nb & E1 & Hl & HF); cbn [fst snd] in *;
       exists (BIs a :: nb); repeat split; [rewrite E1, <- app_assoc; reflexivity|cbn; lia|];
       intros v ->; rewrite z2le_cons, shift_odd, shift_div2; constructor; [|auto];
       apply Ha; cbn [option_map]; now rewrite add_bit_val.
  eapply only_bindq; [apply only_ns, ab_alloc_vle|]. cbv beta. intros a Ha. cbn [only okP fst snd].
  exists [BIs a]. repeat split. intros v ->. rewrite z2le_cons, shift_odd. constructor; [|constructor].
  apply Ha. cbn [option_map]. now rewrite add_bit_val.
Qed.

Lemma add_loop_sim rv rv' m : forall i c lc bits bits', Forall2 bsim bits bits' ->
  sim (@add_result_loop P rv m i c lc bits) (add_result_loop rv' m i c lc bits')
    (resR (fun r r' => Forall2 bsim (fst (fst r)) (fst (fst r')) /\ snd (fst r) = snd (fst r') /\ snd r = snd r' /\
       exists nb, fst (fst r) = bits ++ nb /\ Forall (fun b => is_constant b = false) nb /\ length nb = Pos.size_nat m)).
Proof.
  induction m as [m IH|m IH|]; intros i c lc bits bits' HB; cbn [add_result_loop Pos.size_nat].
  1,2: eapply sim_bindq; [apply sim_ns, ab_alloc_sim|]; intros a a' Ha; unfold absim in Ha; rewrite Ha;
       eapply sim_mono; [|apply IH, Forall2_app; [exact HB|constructor; [exact Ha|constructor]]];
       intros [[[rb rl] ri]|e] [[[rb' rl'] ri']|e'] HR; try exact HR; cbn [resR fst snd] in *;
       destruct HR as (H1 & H2 & H3 & nb & H4 & H5 & H6);
       refine (conj H1 (conj H2 (conj H3 _))); exists (BIs a :: nb);
       repeat split; [rewrite H4, <- app_assoc; reflexivity|constructor; auto|cbn; lia].
  eapply sim_bindq; [apply sim_ns, ab_alloc_sim|]. intros a a' Ha. cbn [sim resR fst snd].
  unfold absim in Ha. rewrite Ha. repeat split.
  - apply Forall2_app; auto.
  - exists [BIs a]. repeat split; auto.
Qed.

(** Size of the result. *)
Lemma add_max_size n : 2 <= n <= 10 -> let s := Pos.size_nat (Z.to_pos (Z.of_nat n * (2 ^ 32 - 1))) in
  32 < s <= 36 /\ (Z.of_nat n * (2 ^ 32 - 1) < 2 ^ Z.of_nat s)%Z.
Proof.
  intros Hn s. pose proof (size_nat_spec (Z.to_pos (Z.of_nat n * (2 ^ 32 - 1)))) as [H1 H2].
  fold s in H1, H2. rewrite Z2Pos.id in H1, H2 by lia. split; [|exact H1].
  destruct (Nat.le_gt_cases s 32) as [H|H].
  - exfalso. assert (2 ^ Z.of_nat s <= 2 ^ 32)%Z by (apply Z.pow_le_mono_r; lia). lia.
  - destruct (Nat.le_gt_cases s 36); [lia|]. exfalso.
    assert (2 ^ 37 <= 2 ^ Z.of_nat s)%Z by (apply Z.pow_le_mono_r; lia). lia.
Qed.

Lemma zsum_range zs : Forall u32 zs -> (0 <= zsum zs <= Z.of_nat (length zs) * (2 ^ 32 - 1))%Z.
Proof. induction 1 as [|z zs Hz HF IH]; cbn [zsum length]; [lia|]. unfold u32 in Hz. lia. Qed.

Definition word (rho : Var -> P) (G : Prop) (w : UInt32) (z : Z) : Prop :=
  tracks w /\ exists z', u32 z' /\ Forall2 (bit_is rho) (u_bits w) (z2le 32 z') /\ (G -> z' = z).
Definition whon (rho : Var -> P) (w : UInt32) (z : Z) : Prop :=
  u32 z /\ Forall2 (bit_hon rho) (u_bits w) (z2le 32 z) /\ u_value w = Some z.

Lemma const_word_value w v z (rho : Var -> P) : tracks w -> uconst w = true -> u_value w = Some v -> u32 z ->
  Forall2 (bit_is rho) (u_bits w) (z2le 32 z) -> v = z.
Proof.
  intros [Hl Ht] Hc Ev Hz HF. destruct (Ht v Ev) as [Hv HV].
  assert (E : z2le 32 v = z2le 32 z).
  { unfold uconst in Hc. clear -HF HV Hc. revert HF HV Hc. generalize (z2le 32 v) (z2le 32 z) (u_bits w).
    intros l m bits HF HV. revert l HV. induction HF as [|x b bits m Hx HF IH]; intros l HV Hc; inversion HV; subst; [reflexivity|].
    cbn in Hc. apply andb_true_iff in Hc as [Hc1 Hc2]. f_equal; [|auto].
    destruct x as [a|a|c]; try discriminate. cbn in Hx. subst. symmetry. apply H1. reflexivity. }
  rewrite <- (le2z_z2le_small 32 v Hv), <- (le2z_z2le_small 32 z Hz). now rewrite E.
Qed.

Lemma osum_const_ops (rho : Var -> P) ops zs v : Forall tracks ops -> forallb uconst ops = true -> osum (map u_value ops) = Some v ->
  Forall2 (fun w z => u32 z /\ Forall2 (bit_is rho) (u_bits w) (z2le 32 z)) ops zs -> v = zsum zs.
Proof.
  intros HT Hc Hs HF. revert v HT Hc Hs. induction HF as [|w z ops zs [Hz Hw] HF IH]; intros v HT Hc Hs; cbn in *.
  - now inversion Hs.
  - inversion HT; subst. apply andb_true_iff in Hc as [Hc1 Hc2].
    destruct (u_value w) as [x|] eqn:Ex; [|discriminate]. destruct (osum (map u_value ops)) as [y|] eqn:Ey; [|discriminate].
    inversion Hs; subst. rewrite (const_word_value w x z rho) by auto. f_equal. auto.
Qed.

Lemma constant_word (rho : Var -> P) (G : Prop) v z : u32 v -> (G -> v = z) -> word rho G (u_constant v) z.
Proof.
  intros Hv E. split; [now apply constant_tracks|]. exists v. repeat split; auto; try apply Hv.
  apply const_rel; auto. intros c. reflexivity.
Qed.
Lemma constant_hon (rho : Var -> P) v : u32 v -> whon rho (u_constant v) v.
Proof. intros Hv. split; auto. split; [|reflexivity]. apply const_rel; auto. intros c. split; reflexivity. Qed.

Lemma words_split (rho : Var -> P) (G : Prop) ops zs : Forall2 (word rho G) ops zs -> Forall tracks ops /\
  exists zs', Forall2 (fun w z => u32 z /\ Forall2 (bit_is rho) (u_bits w) (z2le 32 z)) ops zs' /\ (G -> zs' = zs) /\ Forall u32 zs'.
Proof.
  induction 1 as [|w z ops zs (Ht & z' & Hr & HF & HG) _ (HT & zs' & H1 & H2 & H3)].
  - split; [constructor|]. exists []. repeat split; constructor.
  - split; [constructor; auto|]. exists (z' :: zs'). repeat split; [constructor; auto| |constructor; auto].
    intros g. now rewrite HG, H2.
Qed.

Lemma mod32_u32 z : u32 (z mod 2 ^ 32).
Proof. apply Z.mod_pos_bound. lia. Qed.

Lemma osum_range vs v : Forall (fun o => forall x, o = Some x -> u32 x) vs -> osum vs = Some v ->
  (0 <= v <= Z.of_nat (length vs) * (2 ^ 32 - 1))%Z.
Proof.
  intros HF. revert v. induction HF as [|o vs Ho _ IH]; intros v E; cbn [osum length] in *.
  - inversion E. lia.
  - destruct o as [x|]; [|discriminate]. destruct (osum vs) as [y|]; [|discriminate]. inversion E; subst.
    specialize (Ho x eq_refl). specialize (IH y eq_refl). unfold u32 in Ho. lia.
Qed.

Lemma addmany_tracks ops : Forall tracks ops -> only (okP tracks) (@addmany P ops).
Proof.
  intros HT. unfold addmany. destruct (Nat.leb 64 (num_bits P)); cbn [negb]; [|exact I].
  destruct (Nat.leb_spec 2 (length ops)) as [H2|]; cbn [negb]; [|exact I].
  destruct (Nat.leb_spec (length ops) 10) as [H10|]; cbn [negb]; [|exact I].
  rewrite add_fold. set (lc := snd (fst _)).
  set (rv := oadd (Some 0%Z) (osum (map u_value ops))).
  pose proof (add_max_size (length ops) ltac:(lia)) as Hs. cbv zeta in Hs.
  set (m := Z.to_pos _) in *.
  assert (Hgen : only (okP tracks) (bindq (add_result_loop rv m 0 fone lc_zero [])
     (fun r => let '(result_bits, result_lc, i) := r in bind (cs_enforce_equal i lc result_lc) (fun _ =>
        @Ret P _ (Ok {| u_bits := firstn 32 result_bits; u_value := option_map (fun v => (v mod 2 ^ 32)%Z) rv |}))))).
  { eapply only_bindq; [apply add_loop_vle|]. cbv beta. intros [[rb rl] ri] (nb & E & Hl & HF). cbn [fst snd app] in *.
    subst rb. apply only_enforce_equal. cbn [only okP]. split; cbn [u_bits u_value].
    - rewrite firstn_length. lia.
    - intros v Ev. destruct rv as [v0|]; [|discriminate]. cbn [option_map] in Ev. inversion Ev; subst v.
      split; [apply mod32_u32|]. change 32%Z with (Z.of_nat 32). rewrite z2le_mod.
      specialize (HF v0 eq_refl). change (Z.of_nat 0) with 0%Z in HF. rewrite Z.pow_0_r, Z.div_1_r in HF.
      rewrite <- (z2le_firstn (Pos.size_nat m) 32 v0) by lia. now apply Forall2_firstn'. }
  destruct (forallb uconst ops); cbn [andb]; [|exact Hgen].
  destruct rv as [v0|]; cbn [option_map]; [|exact Hgen].
  cbn [only okP]. apply constant_tracks, mod32_u32.
Qed.

Lemma addmany_sound (rho : Var -> P) (G : Prop) ops zs : rho one_var = fone -> Forall2 (word rho G) ops zs ->
  wpS rho G (addmany ops) (okP (fun r => word rho G r (zsum zs mod 2 ^ 32)%Z)).
Proof.
  intros H1 Hops. destruct (words_split rho G ops zs Hops) as (HT & zs' & HF & HG & HU).
  assert (Hlen : length zs' = length ops) by (symmetry; eapply Forall2_length; eauto).
  assert (Hmain : wpS rho G (addmany ops) (okP (fun w => exists z', u32 z' /\ Forall2 (bit_is rho) (u_bits w) (z2le 32 z') /\
      (G -> z' = (zsum zs mod 2 ^ 32)%Z)))).
  { unfold addmany. destruct (Nat.leb_spec 64 (num_bits P)) as [H64|]; cbn [negb]; [|exact I].
    destruct (Nat.leb_spec 2 (length ops)) as [H2|]; cbn [negb]; [|exact I].
    destruct (Nat.leb_spec (length ops) 10) as [H10|]; cbn [negb]; [|exact I].
    pose proof (eval_add_ops rho ops zs' H1 HF (Some 0%Z) lc_zero true) as Hlc.
    rewrite add_fold. set (lc := snd (fst _)) in *.
    set (rv := oadd (Some 0%Z) (osum (map u_value ops))).
    pose proof (add_max_size (length ops) ltac:(lia)) as Hs. cbv zeta in Hs.
    set (m := Z.to_pos _) in *.
    rewrite eval_zero in Hlc. pose proof (zsum_range zs' HU) as HS. rewrite Hlen in HS.
    assert (Hcap : (2 ^ Z.of_nat (Pos.size_nat m) < modulus P)%Z).
    { pose proof (num_bits_lo P). assert (2 ^ Z.of_nat (Pos.size_nat m) < 2 ^ (Z.of_nat (num_bits P) - 1))%Z by (apply Z.pow_lt_mono_r; lia). lia. }
    assert (Hgen : wpS rho G (bindq (add_result_loop rv m 0 fone lc_zero [])
       (fun r => let '(result_bits, result_lc, i) := r in bind (cs_enforce_equal i lc result_lc) (fun _ =>
          Ret (Ok {| u_bits := firstn 32 result_bits; u_value := option_map (fun v => (v mod 2 ^ 32)%Z) rv |}))))
       (okP (fun w => exists z', u32 z' /\ Forall2 (bit_is rho) (u_bits w) (z2le 32 z') /\ (G -> z' = (zsum zs mod 2 ^ 32)%Z)))).
    { eapply wpS_bindq'; [apply add_loop_sound, H1|]. cbv beta. intros [[rb rl] ri] (nb & bs & E & HFb & Hl & Ei & Ev).
      cbn [fst snd app] in *. subst rb ri. rewrite eval_zero in Ev. rewrite Nat.add_0_l.
      pose proof (le2z_nonneg bs) as Hn. pose proof (le2z_bound bs) as Hb. rewrite Hl in Hb.
      apply wpS_enforce_equal.
      - exists (zsum zs'). split; [lia|]. rewrite Hlc. ring.
      - exists (le2z bs). split; [lia|]. rewrite Ev. ring.
      - intros He. cbn [wpS okP u_bits]. exists (le2z bs mod 2 ^ 32)%Z. split; [apply mod32_u32|]. split.
        + change 32%Z with (Z.of_nat 32). rewrite z2le_mod, <- (z2le_firstn (Pos.size_nat m) 32) by lia.
          rewrite <- Hl, z2le_le2z. now apply Forall2_firstn'.
        + intros g. specialize (He g). rewrite Hlc, Ev in He. rewrite <- (HG g).
          assert (zsum zs' = le2z bs) as ->; [|reflexivity].
          apply (@ofZ_inj_small P); [lia|lia|].
          transitivity (fadd fzero (ofZ (zsum zs') : P)); [ring|]. rewrite He. ring. }
    destruct (forallb uconst ops) eqn:Ec; cbn [andb]; [|exact Hgen].
    destruct rv as [v0|] eqn:Erv; cbn [option_map]; [|exact Hgen].
    cbn [wpS okP]. subst rv. cbn [oadd] in Erv. destruct (osum (map u_value ops)) as [v|] eqn:Eo; [|discriminate].
    inversion Erv; subst v0. rewrite (osum_const_ops rho ops zs' v HT Ec Eo HF). cbn [Z.add].
    exists (zsum zs' mod 2 ^ 32)%Z. split; [apply mod32_u32|]. split.
    - apply const_rel; [|apply mod32_u32]. intros c. reflexivity.
    - intros g. now rewrite (HG g). }
  eapply wpS_okmono; [|exact (wpS_only_and _ _ _ _ _ Hmain (addmany_tracks ops HT))].
  cbv beta. intros w [H2 H3]. split; auto.
Qed.

Lemma addmany_complete (rho : Var -> P) ops zs : rho one_var = fone -> 64 <= num_bits P -> 2 <= length ops <= 10 ->
  Forall2 (whon rho) ops zs -> wpC rho (addmany ops) (isOk (fun r => whon rho r (zsum zs mod 2 ^ 32)%Z)).
Proof.
  intros H1 H64 Hn HF. unfold addmany.
  destruct (Nat.leb_spec 64 (num_bits P)); [|lia]. cbn [negb].
  destruct (Nat.leb_spec 2 (length ops)); [|lia]. cbn [negb].
  destruct (Nat.leb_spec (length ops) 10); [|lia]. cbn [negb].
  assert (HFi : Forall2 (fun w z => u32 z /\ Forall2 (bit_is rho) (u_bits w) (z2le 32 z)) ops zs).
  { eapply Forall2_impl; [|exact HF]. intros w z (Hu & Hb & _). split; auto. eapply Forall2_impl; [|exact Hb]. intros x b [? ?]; auto. }
  assert (HU : Forall u32 zs) by (clear -HF; induction HF as [|w z ? ? [? ?]]; constructor; auto).
  assert (Hlen : length zs = length ops) by (symmetry; eapply Forall2_length; eauto).
  assert (Hos : osum (map u_value ops) = Some (zsum zs)).
  { clear -HF. induction HF as [|w z ops zs (_ & _ & Hv) _ IH]; cbn; [reflexivity|]. now rewrite Hv, IH. }
  pose proof (eval_add_ops rho ops zs H1 HFi (Some 0%Z) lc_zero true) as Hlc.
  rewrite add_fold. set (lc := snd (fst _)) in *. rewrite Hos. cbn [oadd Z.add option_map].
  pose proof (add_max_size (length ops) ltac:(lia)) as Hs. cbv zeta in Hs.
  set (m := Z.to_pos _) in *.
  rewrite eval_zero in Hlc. pose proof (zsum_range zs HU) as HS. rewrite Hlen in HS.
  destruct (forallb uconst ops); cbn [andb].
  - cbn [wpC isOk]. apply constant_hon, mod32_u32.
  - eapply wpC_bindq'; [apply add_loop_complete, H1|]. cbv beta. intros [[rb rl] ri] (nb & E & HFb & Ei & Ev).
    cbn [fst snd app] in *. subst rb ri. rewrite eval_zero in Ev. rewrite Nat.add_0_l.
    change (Z.of_nat 0) with 0%Z in *. rewrite Z.pow_0_r, Z.div_1_r in *. rewrite le2z_z2le_small in Ev by lia.
    apply wpC_enforce_equal.
    + rewrite Hlc, Ev. ring.
    + unfold capacity. lia.
    + cbn [wpC isOk]. split; [apply mod32_u32|]. split; [|reflexivity]. cbn [u_bits].
      change 32%Z with (Z.of_nat 32). rewrite z2le_mod, <- (z2le_firstn (Pos.size_nat m) 32) by lia. now apply Forall2_firstn'.
Qed.

(** Structure: [c] bounds from above whether the word is made of constants only, and if [c] then
    both sides know the value. *)
Definition known_if (c : bool) (w w' : UInt32) : Prop := c = true -> u_value w <> None /\ u_value w' <> None.
Definition wsimw (c : bool) (w w' : UInt32) : Prop :=
  Forall2 bsim (u_bits w) (u_bits w') /\ (tracks w /\ tracks w') /\ known_if c w w'.
Definition wsim (c : bool) (w w' : UInt32) : Prop := wsimw c w w' /\ (uconst w = true -> c = true).

Lemma bsim_const x y : bsim x y -> is_constant x = is_constant y.
Proof. destruct x, y; cbn; tauto. Qed.
Lemma bsim_uconst w w' : Forall2 bsim (u_bits w) (u_bits w') -> uconst w = uconst w'.
Proof. unfold uconst. induction 1; cbn; auto. now rewrite (bsim_const _ _ H), IHForall2. Qed.
Lemma bsim_add_bits bits bits' : Forall2 bsim bits bits' -> forall st, fold_left (@add_bit_step P) bits st = fold_left add_bit_step bits' st.
Proof.
  induction 1 as [|x y l l' Hxy _ IH]; intros st; cbn; auto. rewrite IH. f_equal. unfold add_bit_step.
  now rewrite (bsim_lc _ _ _ _ Hxy).
Qed.

Lemma osum_known l : osum l <> None <-> Forall (fun o => o <> None) l.
Proof.
  induction l as [|o l IH]; cbn; [split; [constructor|discriminate]|].
  split.
  - intros H. destruct o; [|congruence]. constructor; [discriminate|]. apply IH. destruct (osum l); congruence.
  - intros H. inversion H; subst. destruct o; [|congruence]. apply IH in H3. destruct (osum l); congruence.
Qed.

Lemma constant_sim v c : u32 v -> c = true -> wsim c (u_constant v) (u_constant v).
Proof.
  intros Hv ->. split; auto. split; [|split].
  - generalize (u_bits (u_constant v)). induction l; constructor; auto. apply bsim_refl.
  - split; now apply constant_tracks.
  - intros _. split; discriminate.
Qed.

Lemma nonconst_uconst bits v : Forall (fun b => is_constant b = false) bits -> bits <> [] -> uconst {| u_bits := bits; u_value := v |} = false.
Proof. intros H Hn. destruct H; [congruence|]. unfold uconst; cbn. now rewrite H. Qed.


Lemma sim_const_value c w w' : wsimw c w w' -> uconst w = true -> forall v v', u_value w = Some v -> u_value w' = Some v' -> v = v'.
Proof.
  intros (HB & [[_ Ht] [_ Ht']] & _) Hc v v' Ev Ev'. destruct (Ht v Ev) as [Hv HV], (Ht' v' Ev') as [Hv' HV'].
  assert (E : z2le 32 v = z2le 32 v').
  { unfold uconst in Hc. clear -HB HV HV' Hc. revert HV HV' Hc. generalize (z2le 32 v) (z2le 32 v').
    induction HB as [|x y l l' Hxy _ IH]; intros m m' HV HV' Hc; inversion HV; inversion HV'; subst; [reflexivity|].
    cbn in Hc. apply andb_true_iff in Hc as [Hc1 Hc2]. f_equal; [|auto].
    destruct x as [a|a|k], y as [a'|a'|k']; cbn in Hxy; try discriminate; try tauto. subst.
    transitivity k'; [symmetry|]; [apply H1|apply H6]; reflexivity. }
  rewrite <- (le2z_z2le_small 32 v Hv), <- (le2z_z2le_small 32 v' Hv'). now rewrite E.
Qed.

Lemma addmany_sim ops ops' c : Forall2 (wsimw c) ops ops' -> (forallb uconst ops = true -> c = true) ->
  sim (@addmany P ops) (addmany ops') (resR (wsim c)).
Proof.
  intros HF Hc.
  assert (HT : Forall tracks ops /\ Forall tracks ops').
  { clear -HF. induction HF as [|w w' l l' (_ & [? ?] & _) _ [? ?]]; split; constructor; auto. }
  destruct HT as [HT HT'].
  enough (Hmain : sim (@addmany P ops) (addmany ops') (resR (fun w w' => Forall2 bsim (u_bits w) (u_bits w') /\ known_if c w w' /\ (uconst w = true -> c = true)))).
  { pose proof (sim_only _ _ _ _ _ Hmain (addmany_tracks ops HT) (addmany_tracks ops' HT')) as H.
    eapply sim_mono; [|exact H]. intros [w|e] [w'|e']; cbn [resR okP]; try tauto. unfold wsim, wsimw. tauto. }
  unfold addmany. rewrite <- (Forall2_length _ _ _ HF).
  destruct (Nat.leb 64 (num_bits P)); cbn [negb]; [|exact I].
  destruct (Nat.leb_spec 2 (length ops)) as [H2|]; cbn [negb]; [|exact I].
  destruct (Nat.leb_spec (length ops) 10) as [H10|]; cbn [negb]; [|exact I].
  assert (Ebits : Forall2 (fun w w' => Forall2 bsim (u_bits w) (u_bits w')) ops ops').
  { eapply Forall2_impl; [|exact HF]. intros a b H. apply H. }
  assert (Ec : forallb uconst ops' = forallb uconst ops).
  { clear -Ebits. induction Ebits; cbn; auto. now rewrite (bsim_uconst _ _ H), IHEbits. }
  assert (Elc : forall rv rv' lc ac, snd (fst (fold_left (@add_op_step P) ops (rv, lc, ac))) = snd (fst (fold_left add_op_step ops' (rv', lc, ac)))).
  { clear -Ebits. induction Ebits as [|w w' l l' Hw _ IH]; intros rv rv' lc ac; [reflexivity|]. cbn [fold_left].
    unfold add_op_step at 2 4. rewrite (bsim_add_bits _ _ Hw). rewrite !add_consts.
    replace (forallb is_constant (u_bits w')) with (forallb is_constant (u_bits w)) by (apply (bsim_uconst w w' Hw)). apply IH. }
  assert (Hkn : c = true -> osum (map u_value ops) <> None /\ osum (map u_value ops') <> None).
  { intros ->. rewrite !osum_known, !Forall_map. clear -HF. induction HF as [|w w' l l' (_ & _ & Hk) _ [IH1 IH2]]; [split; constructor|].
    destruct (Hk eq_refl). split; constructor; auto. }
  rewrite (add_fold ops), (add_fold ops'). rewrite Ec. rewrite (Elc (Some 0%Z) (Some 0%Z)). set (lc := snd (fst _)).
  set (rv := oadd (Some 0%Z) (osum (map u_value ops))). set (rv' := oadd (Some 0%Z) (osum (map u_value ops'))).
  pose proof (add_max_size (length ops) ltac:(lia)) as Hs. cbv zeta in Hs.
  set (m := Z.to_pos _) in *.
  assert (Hk2 : c = true -> rv <> None /\ rv' <> None).
  { intros E. destruct (Hkn E). subst rv rv'. cbn [oadd]. destruct (osum (map u_value ops)), (osum (map u_value ops')); split; congruence. }
  assert (Hgen : sim (bindq (add_result_loop rv m 0 fone lc_zero [])
     (fun r => let '(result_bits, result_lc, i) := r in bind (cs_enforce_equal i lc result_lc) (fun _ =>
        @Ret P _ (Ok {| u_bits := firstn 32 result_bits; u_value := option_map (fun v => (v mod 2 ^ 32)%Z) rv |}))))
     (bindq (add_result_loop rv' m 0 fone lc_zero [])
     (fun r => let '(result_bits, result_lc, i) := r in bind (cs_enforce_equal i lc result_lc) (fun _ =>
        @Ret P _ (Ok {| u_bits := firstn 32 result_bits; u_value := option_map (fun v => (v mod 2 ^ 32)%Z) rv' |}))))
     (resR (fun w w' => Forall2 bsim (u_bits w) (u_bits w') /\ known_if c w w' /\ (uconst w = true -> c = true)))).
  { eapply sim_bindq; [apply add_loop_sim; constructor|]. intros [[rb rl] ri] [[rb' rl'] ri'] (Hb & El & Ei & nb & En & Hnc & Hnl).
    cbn [fst snd app] in *. subst rb rl' ri'. apply sim_enforce_equal; auto. cbn [sim resR].
    split; [|split]; cbn [u_bits].
    - now apply Forall2_firstn'.
    - intros E. destruct (Hk2 E). cbn [u_value]. destruct rv, rv'; cbn; split; congruence.
    - rewrite nonconst_uconst; [discriminate| |].
      + rewrite <- (firstn_skipn 32 nb) in Hnc. now apply Forall_app in Hnc.
      + intros E. apply (f_equal (@length _)) in E. rewrite firstn_length in E. cbn [length] in E. lia. }
  destruct (forallb uconst ops) eqn:Euc; cbn [andb].
  - destruct (Hk2 (Hc eq_refl)) as [Hk3 Hk4].
    assert (Ev : rv = rv').
    { subst rv rv'. f_equal. specialize (Hkn (Hc eq_refl)). clear -HF Euc Hkn.
      induction HF as [|w w' l l' Hw _ IH]; [reflexivity|]. cbn [map osum forallb] in *.
      apply andb_true_iff in Euc as [E1 E2].
      destruct (u_value w) as [v|] eqn:Ev; [|now destruct Hkn]. destruct (u_value w') as [v'|] eqn:Ev'; [|now destruct Hkn].
      rewrite (sim_const_value c w w' Hw E1 v v' Ev Ev').
      destruct (osum (map u_value l)); [|now destruct Hkn]. destruct (osum (map u_value l')); [|now destruct Hkn].
      specialize (IH E2 ltac:(split; discriminate)). now inversion IH. }
    rewrite <- Ev in *. destruct rv as [v|]; [|congruence]. cbn [option_map sim resR].
    assert (Hu : u32 (v mod 2 ^ 32)) by apply mod32_u32.
    destruct (constant_sim (v mod 2 ^ 32)%Z c Hu (Hc eq_refl)) as [(? & _ & ?) ?]. auto.
  - destruct rv, rv'; exact Hgen.
Qed.
End Words.

(** ** The remaining word operations *)
Section WordOps.
Context {P : PrimeField}.

Lemma hon_is (rho : Var -> P) bits bs : Forall2 (bit_hon rho) bits bs -> Forall2 (bit_is rho) bits bs.
Proof. intros H. eapply Forall2_impl; [|exact H]. intros x b [? ?]; auto. Qed.

Section Rho.
Variable rho : Var -> P.
Hypothesis H1 : rho one_var = fone.

Lemma rotr_word (G : Prop) w z k : word rho G w z -> word rho G (u_rotr w k) (rotr32 (k mod 32) z).
Proof.
  intros (Ht & z' & Hz & HF & HG). split; [now apply rotr_tracks|]. exists (rotr32 (k mod 32) z').
  split; [now apply rotr_range|]. split; [apply rotr_rel; auto; reflexivity|]. intros g. now rewrite HG.
Qed.
Lemma rotr_hon w z k : whon rho w z -> whon rho (u_rotr w k) (rotr32 (k mod 32) z).
Proof.
  intros (Hz & HF & Ev). split; [now apply rotr_range|]. split; [apply rotr_rel; auto; split; reflexivity|].
  unfold u_rotr. cbn [u_value]. rewrite Ev. cbn [option_map]. f_equal.
  apply u32_rotate_right_spec; auto. apply Nat.lt_le_incl, Nat.mod_upper_bound. discriminate.
Qed.
Lemma shr_word (G : Prop) w z k : word rho G w z -> word rho G (u_shr w k) (z / 2 ^ Z.of_nat (k mod 32)).
Proof.
  intros (Ht & z' & Hz & HF & HG). split; [now apply shr_tracks|]. exists (z' / 2 ^ Z.of_nat (k mod 32))%Z.
  split; [now apply shr_range|]. split; [apply shr_rel; auto; reflexivity|]. intros g. now rewrite HG.
Qed.
Lemma shr_hon w z k : whon rho w z -> whon rho (u_shr w k) (z / 2 ^ Z.of_nat (k mod 32)).
Proof.
  intros (Hz & HF & Ev). split; [now apply shr_range|]. split; [apply shr_rel; auto; split; reflexivity|].
  unfold u_shr. cbn [u_value]. rewrite Ev. cbn [option_map]. f_equal. apply Z.shiftr_div_pow2. lia.
Qed.

Lemma from_bits_be_word (G : Prop) bits bs w : from_bits_be bits = Done w -> Forall2 (bit_is rho) bits bs -> word rho G w (be2z bs).
Proof.
  intros E HF. destruct (from_bits_be_tracks _ _ E) as [Ht Hb]. split; auto.
  assert (Hl : length bs = 32).
  { rewrite <- (Forall2_length _ _ _ HF). unfold from_bits_be in E. destruct (Nat.eqb_spec (length bits) 32); [auto|discriminate]. }
  exists (be2z bs). pose proof (be2z_range bs) as Hr. rewrite Hl in Hr. split; [exact Hr|]. split; auto.
  rewrite Hb, be2z_le, z2le_le2z32 by (now rewrite rev_length). now apply Forall2_rev.
Qed.
Lemma from_bits_be_hon bits bs : length bits = 32 -> Forall2 (bit_hon rho) bits bs ->
  exists w, from_bits_be bits = Done w /\ whon rho w (be2z bs).
Proof.
  intros Hl HF. pose proof (Forall2_length _ _ _ HF) as Hl'. unfold from_bits_be. rewrite Hl. cbn [Nat.eqb].
  eexists. split; [reflexivity|]. pose proof (be2z_range bs) as Hr. rewrite <- Hl', Hl in Hr. split; [exact Hr|].
  cbn [u_bits u_value]. split.
  - rewrite be2z_le, z2le_le2z32 by (rewrite rev_length; lia). now apply Forall2_rev.
  - apply from_bits_be_known; [lia|]. eapply Forall2_impl; [|exact HF]. intros x b [_ ?]; auto.
Qed.
Lemma from_bits_word (G : Prop) bits bs w : from_bits bits = Done w -> Forall2 (bit_is rho) bits bs -> word rho G w (le2z bs).
Proof. rewrite from_bits_rev. intros E HF. rewrite <- be2z_rev. eapply from_bits_be_word; [exact E|now apply Forall2_rev]. Qed.
Lemma from_bits_hon bits bs : length bits = 32 -> Forall2 (bit_hon rho) bits bs ->
  exists w, from_bits bits = Done w /\ whon rho w (le2z bs).
Proof.
  intros Hl HF. rewrite from_bits_rev, <- be2z_rev. apply from_bits_be_hon; [now rewrite rev_length|now apply Forall2_rev].
Qed.

Lemma u_alloc_sound (G : Prop) v : (forall z, v = Some z -> u32 z) ->
  wpS rho G (u_alloc v) (okP (fun w => tracks w /\ exists z, u32 z /\ Forall2 (bit_is rho) (u_bits w) (z2le 32 z))).
Proof.
  intros Hv. eapply wpS_okmono; [|apply wpS_only_and; [|apply (u_alloc_tracks v Hv)]].
  { cbv beta. intros w [Ha Hb]. exact (conj Hb Ha). }
  unfold u_alloc. eapply wpS_bindq'.
  - eapply wpS_mapq2 with (I := fun x c => True) (m := repeat tt 32) (Q := fun _ r => exists b, bit_is rho r b).
    + apply Forall2_trivial. rewrite repeat_length. destruct v; [now rewrite map_length, low_bits_z2le, z2le_length|apply repeat_length].
    + intros j x c _. eapply wpS_bindq'; [apply wpS_ns, ab_alloc_sound, H1|]. cbv beta. intros a [b Hb]. cbn. exists b. exact Hb.
  - cbv beta. intros ys Hys. cbn [wpS okP u_bits].
    assert (exists bs, Forall2 (bit_is rho) ys bs) as [bs Hbs].
    { clear -Hys. induction Hys as [|? y ? ys [b Hb] _ [bs IH]]; [exists []; constructor|exists (b :: bs); constructor; auto]. }
    assert (length bs = 32) by (rewrite <- (Forall2_length _ _ _ Hbs), <- (Forall2_length _ _ _ Hys); apply repeat_length).
    exists (le2z bs). split; [now apply le2z_u32|]. now rewrite z2le_le2z32.
Qed.
Lemma u_alloc_complete z : u32 z -> wpC rho (u_alloc (Some z)) (isOk (fun w => whon rho w z)).
Proof.
  intros Hz. unfold u_alloc. eapply wpC_bindq'.
  - eapply wpC_mapq2 with (I := fun x b => x = Some b) (m := z2le 32 z) (Q := fun b r => bit_hon rho r b).
    + rewrite low_bits_z2le. apply Forall2_map_l. generalize (z2le 32 z); induction l; constructor; auto.
    + intros j x c ->. eapply wpC_bindq'; [apply wpC_ns, ab_alloc_complete, H1|]. cbv beta. intros a [Ha Hb]. cbn. split; auto.
  - cbv beta. intros ys Hys. cbn [wpC isOk]. split; [auto|]. split; [|reflexivity]. now apply Forall2_swap.
Qed.

Lemma u_xor_sound (G : Prop) a b x y : word rho G a x -> word rho G b y ->
  wpS rho G (u_xor a b) (okP (fun r => word rho G r (Z.lxor x y))).
Proof.
  intros (Ta & x' & Hx & HFx & Gx) (Tb & y' & Hy & HFy & Gy).
  eapply wpS_okmono; [|apply wpS_only_and; [|apply (u_xor_tracks a b Ta Tb)]].
  { cbv beta. intros w [Ha Hb]. exact (conj Hb Ha). }
  unfold u_xor. eapply wpS_bindq'.
  - eapply wpS_mapq2 with (m := combine (z2le 32 x') (z2le 32 y')) (Q := fun c r => bit_is rho r (xorb (fst c) (snd c))).
    + apply Forall2_combine; eassumption.
    + cbv beta. intros j p c [Hp Hq]. apply wpS_ns, b_xor_sound; auto.
  - cbv beta. intros ys Hys. cbn [wpS okP u_bits]. exists (Z.lxor x' y'). split; [now apply lxor_range|]. split.
    + rewrite lxor_bits. apply Forall2_map_r, Forall2_swap. exact Hys.
    + intros g. now rewrite Gx, Gy.
Qed.
Lemma u_xor_complete a b x y : whon rho a x -> whon rho b y -> wpC rho (u_xor a b) (isOk (fun r => whon rho r (Z.lxor x y))).
Proof.
  intros (Hx & HFx & Ex) (Hy & HFy & Ey). unfold u_xor. rewrite Ex, Ey. eapply wpC_bindq'.
  - eapply wpC_mapq2 with (m := combine (z2le 32 x) (z2le 32 y)) (Q := fun c r => bit_hon rho r (xorb (fst c) (snd c))).
    + apply Forall2_combine; eassumption.
    + cbv beta. intros j p c [Hp Hq]. apply wpC_ns, b_xor_complete; auto.
  - cbv beta. intros ys Hys. cbn [wpC isOk]. split; [now apply lxor_range|]. split; [|reflexivity].
    cbn [u_bits]. rewrite lxor_bits. apply Forall2_map_r, Forall2_swap. exact Hys.
Qed.

Lemma triop_sound (G : Prop) a b c x y z tri_fn fb (f : nat -> Boolean -> Boolean -> Boolean -> prog P (res Boolean)) :
  (forall x y z, u32 x -> u32 y -> u32 z -> u32 (tri_fn x y z)) ->
  (forall x y z, z2le 32 (tri_fn x y z) =
     map (fun p => fb (fst (fst p)) (snd (fst p)) (snd p)) (combine (combine (z2le 32 x) (z2le 32 y)) (z2le 32 z))) ->
  (forall i x y z bx by' bz, bit_is rho x bx -> bit_is rho y by' -> bit_is rho z bz ->
     wpS rho G (f i x y z) (okP (fun r => bit_is rho r (fb bx by' bz)))) ->
  only (okP tracks) (triop a b c tri_fn f) ->
  word rho G a x -> word rho G b y -> word rho G c z ->
  wpS rho G (triop a b c tri_fn f) (okP (fun r => word rho G r (tri_fn x y z))).
Proof.
  intros Hr Hbits Hf Ht (Ta & x' & Hx & HFx & Gx) (Tb & y' & Hy & HFy & Gy) (Tc & z' & Hz & HFz & Gz).
  eapply wpS_okmono; [|apply wpS_only_and; [|exact Ht]].
  { cbv beta. intros w [Ha Hb]. exact (conj Hb Ha). }
  unfold triop. eapply wpS_bindq'.
  - eapply wpS_mapq2 with (m := combine (combine (z2le 32 x') (z2le 32 y')) (z2le 32 z'))
      (Q := fun c r => bit_is rho r (fb (fst (fst c)) (snd (fst c)) (snd c))).
    + apply Forall2_combine; [apply Forall2_combine|]; eassumption.
    + cbv beta. intros j p q [[Hp Hq] Hs]. apply Hf; auto.
  - cbv beta. intros ys Hys. cbn [wpS okP u_bits]. exists (tri_fn x' y' z'). split; [now apply Hr|]. split.
    + rewrite Hbits. apply Forall2_map_r, Forall2_swap. exact Hys.
    + intros g. now rewrite Gx, Gy, Gz.
Qed.
Lemma triop_complete a b c x y z tri_fn fb (f : nat -> Boolean -> Boolean -> Boolean -> prog P (res Boolean)) :
  (forall x y z, u32 x -> u32 y -> u32 z -> u32 (tri_fn x y z)) ->
  (forall x y z, z2le 32 (tri_fn x y z) =
     map (fun p => fb (fst (fst p)) (snd (fst p)) (snd p)) (combine (combine (z2le 32 x) (z2le 32 y)) (z2le 32 z))) ->
  (forall i x y z bx by' bz, bit_hon rho x bx -> bit_hon rho y by' -> bit_hon rho z bz ->
     wpC rho (f i x y z) (isOk (fun r => bit_hon rho r (fb bx by' bz)))) ->
  whon rho a x -> whon rho b y -> whon rho c z ->
  wpC rho (triop a b c tri_fn f) (isOk (fun r => whon rho r (tri_fn x y z))).
Proof.
  intros Hr Hbits Hf (Hx & HFx & Ex) (Hy & HFy & Ey) (Hz & HFz & Ez).
  unfold triop. rewrite Ex, Ey, Ez. eapply wpC_bindq'.
  - eapply wpC_mapq2 with (m := combine (combine (z2le 32 x) (z2le 32 y)) (z2le 32 z))
      (Q := fun c r => bit_hon rho r (fb (fst (fst c)) (snd (fst c)) (snd c))).
    + apply Forall2_combine; [apply Forall2_combine|]; eassumption.
    + cbv beta. intros j p q [[Hp Hq] Hs]. apply Hf; auto.
  - cbv beta. intros ys Hys. cbn [wpC isOk]. split; [now apply Hr|]. split; [|reflexivity].
    cbn [u_bits]. rewrite Hbits. apply Forall2_map_r, Forall2_swap. exact Hys.
Qed.
Lemma u_ch_sound (G : Prop) a b c x y z : word rho G a x -> word rho G b y -> word rho G c z ->
  wpS rho G (u_ch a b c) (okP (fun r => word rho G r (ch_fn x y z))).
Proof.
  intros Ha Hb Hc. apply triop_sound with (fb := ch_bit); [exact ch_range|exact ch_bits| | |exact Ha|exact Hb|exact Hc].
  - intros. apply wpS_ns, b_ch_sound; auto.
  - apply u_ch_tracks; [apply Ha|apply Hb|apply Hc].
Qed.
Lemma u_maj_sound (G : Prop) a b c x y z : word rho G a x -> word rho G b y -> word rho G c z ->
  wpS rho G (u_maj a b c) (okP (fun r => word rho G r (maj_fn x y z))).
Proof.
  intros Ha Hb Hc. apply triop_sound with (fb := maj_bit); [exact maj_range|exact maj_bits| | |exact Ha|exact Hb|exact Hc].
  - intros. apply wpS_ns, b_maj_sound; auto.
  - apply u_maj_tracks; [apply Ha|apply Hb|apply Hc].
Qed.
Lemma u_ch_complete a b c x y z : whon rho a x -> whon rho b y -> whon rho c z ->
  wpC rho (u_ch a b c) (isOk (fun r => whon rho r (ch_fn x y z))).
Proof. apply triop_complete with (fb := ch_bit); [exact ch_range|exact ch_bits|]. intros. apply wpC_ns, b_ch_complete; auto. Qed.
Lemma u_maj_complete a b c x y z : whon rho a x -> whon rho b y -> whon rho c z ->
  wpC rho (u_maj a b c) (isOk (fun r => whon rho r (maj_fn x y z))).
Proof. apply triop_complete with (fb := maj_bit); [exact maj_range|exact maj_bits|]. intros. apply wpC_ns, b_maj_complete; auto. Qed.
End Rho.

(** *** Structure *)
Lemma ok_mono_sim {A B} (p : prog P (res A)) (q : prog P (res B)) (R R' : A -> B -> Prop) :
  (forall a b, R a b -> R' a b) -> sim p q (resR R) -> sim p q (resR R').
Proof. intros H. apply sim_mono. intros [a|e] [b|e']; cbn; auto. Qed.
Lemma sim_only_ok {A B} (p : prog P (res A)) (q : prog P (res B)) (R : A -> B -> Prop) (Q1 : A -> Prop) (Q2 : B -> Prop) :
  sim p q (resR R) -> only (okP Q1) p -> only (okP Q2) q -> sim p q (resR (fun a b => R a b /\ Q1 a /\ Q2 b)).
Proof.
  intros H H1 H2. eapply sim_mono; [|exact (sim_only _ _ _ _ _ H H1 H2)]. intros [a|e] [b|e']; cbn; tauto.
Qed.

Lemma wsimw_known c w w' : wsimw c w w' -> c = true -> exists v v', u_value w = Some v /\ u_value w' = Some v'.
Proof. intros (_ & _ & H) E. destruct (H E). destruct (u_value w), (u_value w'); try congruence. eauto. Qed.

Lemma u_alloc_sim v v' : (forall z, v = Some z -> u32 z) -> (forall z, v' = Some z -> u32 z) ->
  sim (@u_alloc P v) (u_alloc v') (resR (wsim false)).
Proof.
  intros Hv Hv'. eapply ok_mono_sim; [|apply sim_only_ok; [|apply (u_alloc_tracks v Hv)|apply (u_alloc_tracks v' Hv')]].
  { intros a b [H [Ta Tb]]. instantiate (1 := fun a b => Forall2 (fun x y => bsim x y /\ is_constant x = false) (u_bits a) (u_bits b)) in H.
    cbv beta in H. split; [split; [|split; [split; auto|discriminate]]|].
    - eapply Forall2_impl; [|exact H]. intros ? ? [? ?]; auto.
    - destruct Ta as [Hl _]. unfold uconst. destruct H as [|x y l l' [_ Hc] _]; [discriminate|]. cbn. rewrite Hc. discriminate. }
  unfold u_alloc. eapply sim_bindq.
  - eapply sim_mapq with (I := fun _ _ => True) (R := fun x y => bsim x y /\ is_constant x = false).
    + apply Forall2_trivial. destruct v, v'; rewrite ?map_length, ?low_bits_z2le, ?z2le_length, ?repeat_length; reflexivity.
    + intros. eapply sim_bindq; [apply sim_ns, ab_alloc_sim|]. intros a a' Ha. cbn. split; [exact Ha|reflexivity].
  - intros l l' Hl. cbn [sim resR u_bits]. exact Hl.
Qed.

Lemma uconst_bits w : uconst w = forallb is_constant (u_bits w). Proof. reflexivity. Qed.
Lemma forallb_skip_app {A} (f : A -> bool) k (l : list A) n : k <= n -> length l = n ->
  forallb f (firstn n (skipn k l ++ l)) = forallb f l.
Proof.
  intros Hk Hl. rewrite firstn_app, skipn_length, Hl, (firstn_all2 (skipn k l)) by (rewrite skipn_length; lia).
  replace (n - (n - k)) with k by lia. rewrite forallb_app, andb_comm, <- forallb_app, firstn_skipn. reflexivity.
Qed.
Lemma rotr_known c w w' k : known_if c w w' -> known_if c (u_rotr w k) (u_rotr w' k).
Proof. intros H E. destruct (H E). unfold u_rotr; cbn [u_value]. destruct (u_value w), (u_value w'); cbn; split; congruence. Qed.
Lemma rotr_simw c w w' k : wsimw c w w' -> wsimw c (u_rotr w k) (u_rotr w' k).
Proof.
  intros (HB & [T T'] & Hk). split; [|split; [split; now apply rotr_tracks|now apply rotr_known]].
  unfold u_rotr; cbn [u_bits]. apply Forall2_firstn', Forall2_app; auto. now apply Forall2_skipn'.
Qed.
Lemma rotr_sim c w w' k : wsim c w w' -> wsim c (u_rotr w k) (u_rotr w' k).
Proof.
  intros [H Hc]. split; [now apply rotr_simw|]. intros E. apply Hc. rewrite <- E. unfold uconst, u_rotr; cbn [u_bits].
  symmetry. apply forallb_skip_app; [|apply H]. pose proof (Nat.mod_upper_bound k 32 ltac:(discriminate)). lia.
Qed.
Lemma shr_simw c w w' k : wsimw c w w' -> wsimw c (u_shr w k) (u_shr w' k).
Proof.
  intros (HB & [T T'] & Hk). split; [|split; [split; now apply shr_tracks|]].
  - unfold u_shr; cbn [u_bits]. apply Forall2_firstn', Forall2_app; [now apply Forall2_skipn'|]. apply Forall2_repeat. reflexivity.
  - intros E. destruct (Hk E). unfold u_shr; cbn [u_value]. destruct (u_value w), (u_value w'); cbn; split; congruence.
Qed.

Lemma b_xor_const a b : only (okP (fun r => is_constant r = true -> is_constant a = true /\ is_constant b = true)) (@b_xor P a b).
Proof.
  assert (Hx : forall a b, only (okP (fun r => is_constant r = false)) (@b_xor_is P a b)).
  { intros. unfold b_xor_is. eapply only_bindq; [apply only_true; intros [r|e]; exact I|]. reflexivity. }
  assert (Hn : forall r, is_constant (b_not r) = is_constant r) by (intros [r|r|r]; reflexivity).
  destruct a as [a|a|[]], b as [b|b|[]]; unfold b_xor; cbn [only okP b_not is_constant]; auto;
    try (eapply only_okmono; [|apply Hx]; intros r ->; discriminate);
    (eapply only_bindq; [apply Hx|]); intros r Hr; cbn; rewrite Hn, Hr; discriminate.
Qed.

Lemma u_xor_const a b : length (u_bits a) = length (u_bits b) ->
  only (okP (fun r => uconst r = true -> uconst a = true /\ uconst b = true)) (@u_xor P a b).
Proof.
  intros Hl. unfold u_xor. eapply only_bindq.
  - eapply only_mapq with (I := fun x c => x = c) (m := combine (u_bits a) (u_bits b))
      (Q := fun c r => is_constant r = true -> is_constant (fst c) = true /\ is_constant (snd c) = true).
    + generalize (combine (u_bits a) (u_bits b)); induction l; constructor; auto.
    + intros j x c <-. apply only_ns, b_xor_const.
  - cbv beta. intros ys Hys. cbn [only okP]. unfold uconst; cbn [u_bits]. revert ys Hys. clear -Hl.
    revert Hl. generalize (u_bits a) (u_bits b). clear. induction l as [|x l IH]; intros [|y m] Hl ys Hys; try discriminate; cbn in *.
    + auto.
    + inversion Hys; subst. cbn in *. intros E. apply andb_true_iff in E as [E1 E2]. destruct (H1 E1) as [-> ->].
      destruct (IH m ltac:(lia) _ H3 E2) as [-> ->]. auto.
Qed.

Lemma xor_bits_sim c a a' b b' : wsimw c a a' -> wsimw c b b' ->
  sim (@u_xor P a b) (u_xor a' b') (resR (wsimw c)).
Proof.
  intros (HBa & [Ta Ta'] & Ka) (HBb & [Tb Tb'] & Kb).
  eapply ok_mono_sim; [|apply sim_only_ok; [|apply (u_xor_tracks a b Ta Tb)|apply (u_xor_tracks a' b' Ta' Tb')]].
  { intros w w' [H [T T']]. instantiate (1 := fun w w' => Forall2 bsim (u_bits w) (u_bits w') /\ known_if c w w') in H. 
    destruct H. split; auto. }
  unfold u_xor. eapply sim_bindq.
  - eapply sim_mapq with (R := bsim); [apply Forall2_combine; [exact HBa|exact HBb]|]. cbv beta.
    intros j x x' [Hx Hy]. apply sim_ns, b_xor_sim; auto.
  - intros l l' Hl. cbn [sim resR u_bits]. split; auto. intros E. destruct (Ka E), (Kb E). cbn [u_value].
    destruct (u_value a), (u_value a'), (u_value b), (u_value b'); split; congruence.
Qed.
Lemma u_xor_sim c a a' b b' : wsim c a a' -> wsimw c b b' -> sim (@u_xor P a b) (u_xor a' b') (resR (wsim c)).
Proof.
  intros [Ha Ca] Hb. eapply ok_mono_sim; [|apply sim_only_ok; [apply (xor_bits_sim c a a' b b' Ha Hb)| |]].
  - intros w w' [H [Hc _]]. split; [exact H|]. instantiate (1 := fun r => uconst r = true -> uconst a = true /\ uconst b = true) in Hc.
    intros E. apply Ca. now apply Hc.
  - apply u_xor_const. destruct Ha as (_ & [[-> _] _] & _), Hb as (_ & [[-> _] _] & _). reflexivity.
  - instantiate (1 := fun _ => True). apply only_true. intros [|]; exact I.
Qed.
Lemma u_xor_sim_r c a a' b b' : wsimw c a a' -> wsim c b b' -> sim (@u_xor P a b) (u_xor a' b') (resR (wsim c)).
Proof.
  intros Ha [Hb Cb]. eapply ok_mono_sim; [|apply sim_only_ok; [apply (xor_bits_sim c a a' b b' Ha Hb)| |]].
  - intros w w' [H [Hc _]]. split; [exact H|]. instantiate (1 := fun r => uconst r = true -> uconst a = true /\ uconst b = true) in Hc.
    intros E. apply Cb. now apply Hc.
  - apply u_xor_const. destruct Ha as (_ & [[-> _] _] & _), Hb as (_ & [[-> _] _] & _). reflexivity.
  - instantiate (1 := fun _ => True). apply only_true. intros [|]; exact I.
Qed.

Lemma triop_sim k a a' b b' c c' tri_fn (f : nat -> Boolean -> Boolean -> Boolean -> prog P (res Boolean)) :
  (forall i x x' y y' z z', bsim x x' -> bsim y y' -> bsim z z' -> sim (f i x y z) (f i x' y' z') (resR bsim)) ->
  only (okP tracks) (triop a b c tri_fn f) -> only (okP tracks) (triop a' b' c' tri_fn f) ->
  wsimw k a a' -> wsimw k b b' -> wsimw k c c' -> sim (triop a b c tri_fn f) (triop a' b' c' tri_fn f) (resR (wsimw k)).
Proof.
  intros Hf Ht Ht' (HBa & _ & Ka) (HBb & _ & Kb) (HBc & _ & Kc).
  eapply ok_mono_sim; [|apply sim_only_ok; [|exact Ht|exact Ht']].
  { intros w w' [H [T T']]. instantiate (1 := fun w w' => Forall2 bsim (u_bits w) (u_bits w') /\ known_if k w w') in H.
    destruct H. split; auto. }
  unfold triop. eapply sim_bindq.
  - eapply sim_mapq with (R := bsim); [apply Forall2_combine; [apply Forall2_combine; [exact HBa|exact HBb]|exact HBc]|]. cbv beta.
    intros j x x' [[Hx Hy] Hz]. auto.
  - intros l l' Hl. cbn [sim resR u_bits]. split; auto. intros E. destruct (Ka E), (Kb E), (Kc E). cbn [u_value].
    destruct (u_value a), (u_value a'), (u_value b), (u_value b'), (u_value c), (u_value c'); split; congruence.
Qed.
Lemma u_ch_sim k a a' b b' c c' : wsimw k a a' -> wsimw k b b' -> wsimw k c c' ->
  sim (@u_ch P a b c) (u_ch a' b' c') (resR (wsimw k)).
Proof.
  intros Ha Hb Hc. apply triop_sim; auto.
  - intros. apply sim_ns, b_ch_sim; auto.
  - apply u_ch_tracks; [apply Ha|apply Hb|apply Hc].
  - apply u_ch_tracks; [apply Ha|apply Hb|apply Hc].
Qed.
Lemma u_maj_sim k a a' b b' c c' : wsimw k a a' -> wsimw k b b' -> wsimw k c c' ->
  sim (@u_maj P a b c) (u_maj a' b' c') (resR (wsimw k)).
Proof.
  intros Ha Hb Hc. apply triop_sim; auto.
  - intros. apply sim_ns, b_maj_sim; auto.
  - apply u_maj_tracks; [apply Ha|apply Hb|apply Hc].
  - apply u_maj_tracks; [apply Ha|apply Hb|apply Hc].
Qed.

(** *** Namespaces and errors *)
Lemma u_alloc_gadget v : Gadget (@u_alloc P v).
Proof. unfold u_alloc. pose proof (@ab_alloc_gadget P). gadget. Qed.
Lemma u_xor_gadget a b : Gadget (@u_xor P a b).
Proof. unfold u_xor. pose proof (@b_xor_gadget P). gadget. Qed.
Lemma u_ch_gadget a b c : Gadget (@u_ch P a b c).
Proof. unfold u_ch, triop. pose proof (@b_ch_gadget P). gadget. Qed.
Lemma u_maj_gadget a b c : Gadget (@u_maj P a b c).
Proof. unfold u_maj, triop. pose proof (@b_maj_gadget P). gadget. Qed.
Lemma add_loop_gadget rv m : forall i c lc bits, Gadget (@add_result_loop P rv m i c lc bits).
Proof. pose proof (@ab_alloc_gadget P). induction m; intros; cbn [add_result_loop]; gadget. Qed.
Lemma addmany_ns ops : ns_ok 0 (@addmany P ops).
Proof.
  unfold addmany. pose proof add_loop_gadget.
  destruct (negb _); [exact I|]. destruct (negb _); [exact I|]. destruct (negb _); [exact I|].
  destruct (fold_left _ _ _) as [[rv lc] ac]. cbv zeta. destruct ac, (option_map _ rv); struct; intros [[? ?] ?]; cbn; auto.
Qed.
Lemma addmany_prop ops : prop isErr (@addmany P ops).
Proof.
  unfold addmany. pose proof add_loop_gadget.
  destruct (negb _); [exact I|]. destruct (negb _); [exact I|]. destruct (negb _); [exact I|].
  destruct (fold_left _ _ _) as [[rv lc] ac]. cbv zeta. destruct ac, (option_map _ rv); struct; intros [[? ?] ?]; cbn; auto.
Qed.
End WordOps.
