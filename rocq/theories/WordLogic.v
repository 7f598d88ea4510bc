(** One interface for soundness and completeness proofs about programs on words, so that the hash
    functions are traversed once. *)
From Coq Require Import String.
From Coq Require Import ZArith List Bool Lia.
From Verif Require Import Prelude PrimeField Circuit Loops BooleanGadget NumGadget MultiEq UInt32 UInt32Proof.
Import ListNotations.
Local Open Scope nat_scope.

Record WL (P : PrimeField) := {
  wp : forall {A}, prog P (res A) -> (A -> Prop) -> Prop;
  Wd : UInt32 -> Z -> Prop;
  wp_ret : forall A (a : A) (Q : A -> Prop), Q a -> wp (Ret (Ok a)) Q;
  wp_bindq : forall A B (p : prog P (res A)) (g : A -> prog P (res B)) (Q1 : A -> Prop) Q,
    wp p Q1 -> (forall a, Q1 a -> wp (g a) Q) -> wp (bindq p g) Q;
  wp_ns : forall A n (p : prog P (res A)) Q, wp p Q -> wp (ns n p) Q;
  wp_mono : forall A (p : prog P (res A)) (Q Q' : A -> Prop), (forall a, Q a -> Q' a) -> wp p Q -> wp p Q';
  Wd_u32 : forall w z, Wd w z -> u32 z;
  Wd_const : forall z, u32 z -> Wd (u_constant z) z;
  Wd_rotr : forall w z k, k < 32 -> Wd w z -> Wd (u_rotr w k) (rotr32 k z);
  Wd_shr : forall w z k, k < 32 -> Wd w z -> Wd (u_shr w k) (z / 2 ^ Z.of_nat k);
  wp_xor : forall a b x y, Wd a x -> Wd b y -> wp (u_xor a b) (fun r => Wd r (Z.lxor x y));
  wp_ch : forall a b c x y z, Wd a x -> Wd b y -> Wd c z -> wp (u_ch a b c) (fun r => Wd r (ch_fn x y z));
  wp_maj : forall a b c x y z, Wd a x -> Wd b y -> Wd c z -> wp (u_maj a b c) (fun r => Wd r (maj_fn x y z));
  wp_add : forall ops zs, 2 <= length ops <= 10 -> Forall2 Wd ops zs -> wp (addmany ops) (fun r => Wd r (zsum zs mod 2 ^ 32)%Z)
}.
Arguments wp {P} _ {A}. Arguments Wd {P}. Arguments wp_ret {P}. Arguments wp_bindq {P} _ {A B}. Arguments wp_ns {P} _ {A}.
Arguments wp_mono {P} _ {A}. Arguments Wd_u32 {P}. Arguments Wd_const {P}. Arguments Wd_rotr {P}. Arguments Wd_shr {P}.
Arguments wp_xor {P}. Arguments wp_ch {P}. Arguments wp_maj {P}. Arguments wp_add {P}.

Section Instances.
Context {P : PrimeField} (rho : Var -> P) (H1 : rho one_var = fone).

Definition SoundWL (G : Prop) : WL P.
Proof.
  refine {| wp := fun A p Q => wpS rho G p (okP Q); Wd := fun w z => word rho G w z /\ u32 z |}.
  - intros A a Q H. exact H.
  - intros A B p g Q1 Q Hp Hg. eapply wpS_bindq'; eauto.
  - intros A n p Q Hp. now apply wpS_ns.
  - intros A p Q Q' H Hp. eapply wpS_okmono; eauto.
  - intros w z [_ H]. exact H.
  - intros z Hz. split; [|exact Hz]. apply constant_word; auto.
  - intros w z k Hk [Hw Hz]. pose proof (rotr_word rho G w z k Hw) as H. pose proof (rotr_range k z Hz) as H'.
    rewrite (Nat.mod_small k 32 Hk) in *. auto.
  - intros w z k Hk [Hw Hz]. pose proof (shr_word rho G w z k Hw) as H. pose proof (shr_range k z Hz) as H'.
    rewrite (Nat.mod_small k 32 Hk) in *. auto.
  - intros a b x y [Ha Hx] [Hb Hy]. eapply wpS_okmono; [|exact (u_xor_sound rho G a b x y Ha Hb)].
    intros r Hr. split; [exact Hr|now apply lxor_range].
  - intros a b c x y z [Ha Hx] [Hb Hy] [Hc Hz]. eapply wpS_okmono; [|exact (u_ch_sound rho H1 G a b c x y z Ha Hb Hc)].
    intros r Hr. split; [exact Hr|now apply ch_range].
  - intros a b c x y z [Ha Hx] [Hb Hy] [Hc Hz]. eapply wpS_okmono; [|exact (u_maj_sound rho H1 G a b c x y z Ha Hb Hc)].
    intros r Hr. split; [exact Hr|now apply maj_range].
  - intros ops zs _ HF. eapply wpS_okmono; [|apply (addmany_sound rho G ops zs H1)].
    + intros r Hr. split; [exact Hr|apply mod32_u32].
    + eapply Forall2_impl; [|exact HF]. intros w z [? ?]; auto.
Defined.

Definition CompleteWL (H64 : 64 <= num_bits P) : WL P.
Proof.
  refine {| wp := fun A p Q => wpC rho p (isOk Q); Wd := fun w z => whon rho w z |}.
  - intros A a Q H. exact H.
  - intros A B p g Q1 Q Hp Hg. eapply wpC_bindq'; eauto.
  - intros A n p Q Hp. now apply wpC_ns.
  - intros A p Q Q' H Hp. eapply wpC_okmono; eauto.
  - intros w z [H _]. exact H.
  - intros z Hz. now apply constant_hon.
  - intros w z k Hk Hw. pose proof (rotr_hon rho w z k Hw) as H. now rewrite (Nat.mod_small k 32 Hk) in *.
  - intros w z k Hk Hw. pose proof (shr_hon rho w z k Hw) as H. now rewrite (Nat.mod_small k 32 Hk) in *.
  - intros a b x y Ha Hb. exact (u_xor_complete rho a b x y Ha Hb).
  - intros a b c x y z Ha Hb Hc. exact (u_ch_complete rho H1 a b c x y z Ha Hb Hc).
  - intros a b c x y z Ha Hb Hc. exact (u_maj_complete rho H1 a b c x y z Ha Hb Hc).
  - intros ops zs Hl HF. exact (addmany_complete rho ops zs H1 H64 Hl HF).
Defined.
End Instances.

Section Derived.
Context {P : PrimeField} (L : WL P).

(** A loop against a fold of the specification; the loop index is part of the relation. *)
Lemma wp_foldq {S T A B} (f : nat -> S -> A -> prog P (res S)) (g : T -> B -> T) (R : nat -> S -> T -> Prop) (X : A -> B -> Prop)
    l m : Forall2 X l m -> forall i s t, R i s t ->
  (forall j x y s t, nth_error l j = Some x -> nth_error m j = Some y -> X x y -> R (i + j) s t ->
     wp L (f (i + j) s x) (fun s' => R (Datatypes.S (i + j)) s' (g t y))) ->
  wp L (foldq f i s l) (fun s' => R (i + length l) s' (fold_left g m t)).
Proof.
  induction 1 as [|x y l m Hxy HF IH]; intros i s t HR H; cbn [foldq length fold_left].
  - apply wp_ret. now rewrite Nat.add_0_r.
  - eapply wp_bindq.
    + specialize (H 0 x y s t eq_refl eq_refl Hxy). rewrite Nat.add_0_r in H. apply H. exact HR.
    + cbv beta. intros s' Hs'. replace (i + Datatypes.S (length l)) with (Datatypes.S i + length l) by lia.
      apply IH; [exact Hs'|]. intros j x' y' s1 t1 Hx Hy HX HR1.
      replace (Datatypes.S i + j) with (i + Datatypes.S j) in * by lia. apply H; auto.
Qed.
End Derived.

(** ** Witness independence *)
Section Sim.
Context {P : PrimeField}.
Lemma simw_mono (c c' : bool) w w' : (c' = true -> c = true) -> wsimw c w w' -> wsimw c' w w'.
Proof. intros H (HB & HT & HK). split; auto. split; auto. intros E. auto. Qed.
Lemma sim_weak c w w' : wsim c w w' -> wsimw c w w'. Proof. intros [H _]. exact H. Qed.
End Sim.

(** ** The same interface around a MultiEq scope *)
Record HL (P : PrimeField) := {
  hwp : forall {A}, prog P (res A) -> (A -> Prop) -> Prop;
  hb : Boolean -> bool -> Prop;
  hw : UInt32 -> Z -> Prop;
  hwp_ret : forall A (a : A) (Q : A -> Prop), Q a -> hwp (Ret (Ok a)) Q;
  hwp_bindq : forall A B (p : prog P (res A)) (g : A -> prog P (res B)) (Q1 : A -> Prop) Q,
    hwp p Q1 -> (forall a, Q1 a -> hwp (g a) Q) -> hwp (bindq p g) Q;
  hwp_ns : forall A n (p : prog P (res A)) Q, hwp p Q -> hwp (ns n p) Q;
  hwp_mono : forall A (p : prog P (res A)) (Q Q' : A -> Prop), (forall a, Q a -> Q' a) -> hwp p Q -> hwp p Q';
  hb_const : forall b, hb (BConst b) b;
  hw_bits : forall w z, hw w z -> Forall2 hb (u_bits w) (z2le 32 z);
  hw_u32 : forall w z, hw w z -> u32 z;
  hw_const : forall z, u32 z -> hw (u_constant z) z;
  hw_from_be : forall bits bs, length bits = 32 -> Forall2 hb bits bs -> exists w, from_bits_be bits = Done w /\ hw w (be2z bs);
  hw_from : forall bits bs, length bits = 32 -> Forall2 hb bits bs -> exists w, from_bits bits = Done w /\ hw w (le2z bs);
  hwp_xor : forall a b x y, hw a x -> hw b y -> hwp (u_xor a b) (fun r => hw r (Z.lxor x y));
  hwp_scope : forall (p : prog P (res (list UInt32))) zs,
    (forall L : WL P, (forall w z, hw w z -> Wd L w z) -> wp L p (fun r => Forall2 (Wd L) r zs)) ->
    hwp (multieq_scope p) (fun r => Forall2 hw r zs)
}.
Arguments hwp {P} _ {A}. Arguments hb {P}. Arguments hw {P}. Arguments hwp_ret {P}. Arguments hwp_bindq {P} _ {A B}.
Arguments hwp_ns {P} _ {A}. Arguments hwp_mono {P} _ {A}. Arguments hb_const {P}. Arguments hw_bits {P}. Arguments hw_u32 {P}.
Arguments hw_const {P}. Arguments hw_from_be {P}. Arguments hw_from {P}. Arguments hwp_xor {P}. Arguments hwp_scope {P}.

Section HInstances.
Context {P : PrimeField} (rho : Var -> P) (H1 : rho one_var = fone).

Definition sword (w : UInt32) (z : Z) : Prop := word rho True w z /\ u32 z.
Lemma word_any (G G' : Prop) w z : G -> word rho G w z -> word rho G' w z.
Proof. intros g (Ht & z' & Hz & HF & E). split; auto. exists z'. split; auto. Qed.

Definition SoundHL : HL P.
Proof.
  refine {| hwp := fun A p Q => wpS rho True p (okP Q); hb := bit_is rho; hw := sword |}.
  - intros A a Q H. exact H.
  - intros A B p g Q1 Q Hp Hg. eapply wpS_bindq'; eauto.
  - intros A n p Q Hp. now apply wpS_ns.
  - intros A p Q Q' H Hp. eapply wpS_okmono; eauto.
  - intros b. reflexivity.
  - intros w z [(_ & z' & Hz & HF & E) _]. now rewrite <- (E I).
  - intros w z [_ H]. exact H.
  - intros z Hz. split; [|exact Hz]. apply constant_word; auto.
  - intros bits bs Hl HF. pose proof (Forall2_length _ _ _ HF) as Hl'. destruct (from_bits_be bits) as [w|] eqn:E.
    + exists w. split; [reflexivity|]. split; [exact (from_bits_be_word rho True bits bs w E HF)|].
      pose proof (be2z_range bs) as Hr. rewrite <- Hl', Hl in Hr. exact Hr.
    + unfold from_bits_be in E. rewrite Hl in E. discriminate.
  - intros bits bs Hl HF. pose proof (Forall2_length _ _ _ HF) as Hl'. destruct (from_bits bits) as [w|] eqn:E.
    + exists w. split; [reflexivity|]. split; [exact (from_bits_word rho True bits bs w E HF)|].
      apply le2z_u32. congruence.
    + rewrite from_bits_rev in E. unfold from_bits_be in E. rewrite rev_length, Hl in E. discriminate.
  - intros a b x y [Ha Hx] [Hb Hy]. eapply wpS_okmono; [|exact (u_xor_sound rho True a b x y Ha Hb)].
    intros r Hr. split; [exact Hr|now apply lxor_range].
  - intros p zs H. apply wpS_multieq; [exact H1|]. intros G'.
    eapply wpS_mono; [|exact (H (SoundWL rho H1 G') (fun w z Hw => conj (word_any True G' w z I (proj1 Hw)) (proj2 Hw)))].
    intros [r|e] Hr; cbn in *; [|auto]. intros g. eapply Forall2_impl; [|exact Hr].
    intros w z [Hw Hz]. split; [|exact Hz]. exact (word_any G' True w z g Hw).
Defined.

Definition CompleteHL (H64 : 64 <= num_bits P) : HL P.
Proof.
  refine {| hwp := fun A p Q => wpC rho p (isOk Q); hb := bit_hon rho; hw := whon rho |}.
  - intros A a Q H. exact H.
  - intros A B p g Q1 Q Hp Hg. eapply wpC_bindq'; eauto.
  - intros A n p Q Hp. now apply wpC_ns.
  - intros A p Q Q' H Hp. eapply wpC_okmono; eauto.
  - intros b. split; reflexivity.
  - intros w z (_ & HF & _). exact HF.
  - intros w z [H _]. exact H.
  - intros z Hz. now apply constant_hon.
  - exact (from_bits_be_hon rho).
  - exact (from_bits_hon rho).
  - intros a b x y Ha Hb. exact (u_xor_complete rho a b x y Ha Hb).
  - intros p zs H. apply wpC_multieq; [exact H1|]. apply (H (CompleteWL rho H1 H64)). intros w z Hw. exact Hw.
Defined.
End HInstances.

Section HDerived.
Context {P : PrimeField} (H : HL P).
Lemma hwp_foldq {S T A B} (f : nat -> S -> A -> prog P (res S)) (g : T -> B -> T) (R : S -> T -> Prop) (X : A -> B -> Prop)
    l m : Forall2 X l m -> forall i s t, R s t ->
  (forall j x y s t, In x l -> In y m -> X x y -> R s t -> hwp H (f j s x) (fun s' => R s' (g t y))) ->
  hwp H (foldq f i s l) (fun s' => R s' (fold_left g m t)).
Proof.
  induction 1 as [|x y l m Hxy HF IH]; intros i s t HR Hf; cbn [foldq fold_left].
  - now apply hwp_ret.
  - eapply hwp_bindq; [apply Hf; [now left|now left|exact Hxy|exact HR]|].
    cbv beta. intros s' Hs'. apply IH; [exact Hs'|]. intros j x' y' s1 t1 Hx Hy. apply Hf; now right.
Qed.
Lemma hwp_mapq {A B C} (f : nat -> A -> prog P (res B)) (Q : B -> C -> Prop) (X : A -> C -> Prop) l m : Forall2 X l m ->
  (forall j x y, In x l -> In y m -> X x y -> hwp H (f j x) (fun r => Q r y)) -> forall i,
  hwp H (mapq f i l) (fun rs => Forall2 Q rs m).
Proof.
  induction 1 as [|x y l m Hxy HF IH]; intros Hf i; cbn [mapq].
  - apply hwp_ret. constructor.
  - eapply hwp_bindq; [apply Hf; [now left|now left|exact Hxy]|]. cbv beta. intros b Hb.
    eapply hwp_bindq; [apply IH; intros; apply Hf; auto; now right|]. cbv beta. intros bs Hbs. apply hwp_ret. now constructor.
Qed.
End HDerived.

(** ** Lists cut into chunks *)
Lemma Forall2_firstn {A B} (R : A -> B -> Prop) l m : Forall2 R l m -> forall n, Forall2 R (firstn n l) (firstn n m).
Proof. induction 1; intros [|n]; cbn; constructor; auto. Qed.
Lemma Forall2_skipn {A B} (R : A -> B -> Prop) l m : Forall2 R l m -> forall n, Forall2 R (skipn n l) (skipn n m).
Proof. induction 1; intros [|n]; cbn; auto. Qed.
Lemma chunks_Forall2 {A B} (R : A -> B -> Prop) n : 0 < n -> forall l m, Forall2 R l m -> Forall2 (Forall2 R) (chunks n l) (chunks n m).
Proof.
  intros Hn l. induction l as [|l Hl IH] using (chunks_ind n Hn); intros m HF.
  - inversion HF. constructor.
  - assert (m <> []) by (destruct HF; congruence). rewrite (chunks_cons n l), (chunks_cons n m) by auto. constructor.
    + now apply Forall2_firstn.
    + apply IH. now apply Forall2_skipn.
Qed.
Lemma chunks_length {A} n k : 0 < n -> forall l : list A, length l = k * n ->
  length (chunks n l) = k /\ Forall (fun c => length c = n) (chunks n l).
Proof.
  intros Hn. induction k as [|k IH]; intros l Hl.
  - destruct l; [|discriminate]. split; [reflexivity|constructor].
  - assert (l <> []) by (intros ->; cbn in Hl; lia). rewrite chunks_cons by auto. destruct (IH (skipn n l)) as [E HF].
    + rewrite skipn_length. lia.
    + cbn [length]. split; [lia|]. constructor; [|exact HF]. rewrite firstn_length. lia.
Qed.
Lemma concat_Forall2 {A B} (R : A -> B -> Prop) l m : Forall2 (Forall2 R) l m -> Forall2 R (concat l) (concat m).
Proof. induction 1; cbn; [constructor|]. now apply Forall2_app. Qed.
Lemma Forall2_map_both {A B C D} (R : C -> D -> Prop) (f : A -> C) (g : B -> D) l m :
  Forall2 (fun a b => R (f a) (g b)) l m -> Forall2 R (map f l) (map g m).
Proof. induction 1; cbn; constructor; auto. Qed.
Lemma Forall2_diag {A} (R : A -> A -> Prop) l : (forall x, In x l -> R x x) -> Forall2 R l l.
Proof. induction l; intros H; constructor; [apply H; now left|apply IHl; intros; apply H; now right]. Qed.
