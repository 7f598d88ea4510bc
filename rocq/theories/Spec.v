(** Vocabulary of the gadget properties: what it means for a gadget to be sound, complete and
    witness-independent.  Nothing here refers to a particular gadget. *)
From Coq Require Import String.
From Coq Require Import ZArith List Bool Lia Field.
From Verif Require Import Prelude PrimeField Zp Fields Circuit Loops BooleanGadget NumGadget.
Import ListNotations.

Section Spec.
Context {P : PrimeField}.
Local Open Scope F_scope.

(** Soundness against an adversarial prover: whatever constraint system the gadget [p] ran on
    (any replies), if it returned [Ok r] after enforcing [cs], then every assignment [rho] with
    [rho ONE = 1] satisfying [cs] makes [Q rho r] true. *)
Definition Sound {A} (p : prog P (res A)) (Q : (Var -> P) -> A -> Prop) : Prop :=
  forall rho r cs, emits p (Ok r) cs [] -> rho one_var = 1 -> sat rho cs -> Q rho r.

(** Variable 0 of the inputs is the constant one. *)
Definition wf_state (s : PState P) : Prop := exists t, p_inputs s = 1 :: t.

(** Completeness: run by an honest prover in state [s], [p] returns some [Ok r], only appends to
    the state, the new constraints [cs] hold of the recorded assignment, and [Q] holds of it. *)
Definition Complete {A} (p : prog P (res A)) (s : PState P) (Q : (Var -> P) -> A -> Prop) : Prop :=
  exists r s' cs, run (HonestCS P) p s = Done (Ok r, s') /\ extends s s' /\
    p_cons s' = p_cons s ++ cs /\ sat (asg s') cs /\ Q (asg s') r.

(** Witness independence: [p] is the gadget as the key generator sees it, [q] as the prover does.
    If the prover succeeds, the key generator has the same number of variables and the same
    constraints, and the results are related by [R]. *)
Definition SameShape {A} (p q : prog P (res A)) (R : A -> A -> Prop) : Prop :=
  forall s r' s', run (HonestCS P) q s = Done (Ok r', s') ->
  exists r, run (ShapeCS P) p (shape_of s) = Done (Ok r, shape_of s') /\ R r r'.

(** A boolean / number that the state knows: its variable is allocated. *)
Definition b_known (s : PState P) (b : Boolean) : Prop :=
  match b with BIs a | BNot a => known s (ab_var a) | BConst _ => True end.

(** Decision procedure for [sat], used by the examples. *)
Definition satb (rho : Var -> P) (cs : list (Constraint P)) : bool :=
  forallb (fun c => let '(a, b, d) := c in feqb (eval rho a * eval rho b) (eval rho d)) cs.

Lemma satb_sat rho cs : satb rho cs = true <-> sat rho cs.
Proof.
  unfold satb, sat. rewrite forallb_forall, Forall_forall.
  split; intros H [[a b] d] Hin; apply H in Hin; cbn in *; now apply feqb_eq.
Qed.

Add Field PFfield_spec : (F_field P).
Lemma mul_fbit (c : P) b : c * fbit b = if b then c else 0.
Proof. destruct b; cbn; ring. Qed.

Lemma Sound_of {A} (p : prog P (res A)) Q :
  (forall rho, rho one_var = 1 -> wpS rho True p (okP (Q rho))) -> Sound p Q.
Proof. intros H rho r cs He H1 Hs. exact (wpS_emits rho p _ _ _ (H rho H1) He Hs). Qed.

Lemma wpS_forall {B} rho G {A} (p : prog P (res A)) (H : B -> Prop) (Q : B -> A -> Prop) (b0 : B) : H b0 ->
  (forall b, H b -> b = b0) -> wpS rho G p (okP (Q b0)) -> wpS rho G p (okP (fun r => forall b, H b -> Q b r)).
Proof. intros H0 Hu. apply wpS_okmono. intros r Hr b Hb. now rewrite (Hu b Hb). Qed.

Lemma agrees_one rho s : wf_state s -> agrees rho s -> rho one_var = 1.
Proof.
  intros [t Ht] H. rewrite H; cbn; rewrite Ht; cbn; [reflexivity|lia].
Qed.

Lemma Complete_of {A} (p : prog P (res A)) s Q : wf_state s -> noeq p ->
  (forall rho, agrees rho s -> rho one_var = 1 -> wpC rho p (isOk (Q rho))) -> Complete p s Q.
Proof.
  intros Hs Hn H. destruct (complete_run p Q s Hn) as (r & s' & cs & H1 & H2 & H3 & H4).
  - intros rho Hr. apply H; auto. eapply agrees_one; eauto.
  - exists r, s', cs. destruct (H4 (asg s') (agrees_asg s')). repeat split; auto.
    + now apply strict_honest.
    + apply H3.
    + apply H3.
    + apply H3.
Qed.

Lemma SameShape_of {A} (p q : prog P (res A)) R : prop isErr q -> sim p q (resR R) -> SameShape p q R.
Proof.
  intros Hp Hs s r' s' Hr. pose proof (honest_strict _ Hp _ _ _ Hr) as H.
  destruct (sim_shape _ _ _ Hs _ _ _ H) as ([r|e] & H1 & H2); [|destruct H2]. eauto.
Qed.

(** For programs that allocate nothing, completeness is about every run. *)
Fixpoint noalloc {A} (p : prog P A) : Prop :=
  match p with
  | Ret _ | Panic => True
  | Alloc _ _ _ | AllocInput _ _ _ => False
  | Enforce _ _ _ _ k | EnforceEq _ _ _ k | PushNs _ k | PopNs k => noalloc k
  end.

Lemma noalloc_sat rho {A} (p : prog P A) Q r cs es : noalloc p -> wpC rho p Q -> emits p r cs es -> sat rho cs.
Proof.
  intros Hn HC He. revert Hn HC. induction He; cbn; intros Hn HC; try contradiction; try (constructor; fail); try tauto.
  constructor; [|apply IHHe]; tauto.
Qed.

Lemma wf_extends s s' : extends s s' -> wf_state s -> wf_state s'.
Proof. intros ([l Hl] & _) [t Ht]. exists (t ++ l). now rewrite Hl, Ht. Qed.

Lemma bit_is_agrees rho (s : PState P) b x : agrees rho s -> b_known s b -> bit_is (asg s) b x -> bit_is rho b x.
Proof. intros Ha Hk. destruct b; cbn in *; auto; unfold var_bit; now rewrite Ha. Qed.
Lemma bit_hon_agrees rho (s : PState P) b x : agrees rho s -> b_known s b -> bit_hon (asg s) b x -> bit_hon rho b x.
Proof. intros Ha Hk [H1 H2]. split; auto. eapply bit_is_agrees; eauto. Qed.
Lemma abit_hon_agrees rho (s : PState P) a x : agrees rho s -> known s (ab_var a) -> abit_hon (asg s) a x -> abit_hon rho a x.
Proof. intros Ha Hk [H1 H2]. split; auto. unfold var_bit. now rewrite Ha. Qed.
Lemma num_hon_agrees rho (s : PState P) a x : agrees rho s -> known s (an_var a) -> num_hon (asg s) a x -> num_hon rho a x.
Proof. intros Ha Hk [H1 H2]. split; auto. now rewrite Ha. Qed.

End Spec.

Local Open Scope F_scope.

Definition is_bit {P : PrimeField} (x : P) : Prop := x = 0 \/ x = 1.

Lemma is_bit_fbit {P : PrimeField} (x : P) : is_bit x <-> exists b, x = fbit b.
Proof.
  split; [intros [H|H]; [exists false|exists true]; exact H|].
  intros [[] H]; [right|left]; exact H.
Qed.

Definition ex_state (l : list Z) : PState Fr64513 :=
  {| p_inputs := [ofZ 1]; p_aux := map ofZ l; p_cons := [] |}.
Definition ex_bit (i : nat) (b : bool) : AllocatedBit := {| ab_var := Aux i; ab_value := Some b |}.

Lemma ex_wf l : wf_state (ex_state l).
Proof. exists []. reflexivity. Qed.

(** What an honest run produced: value of the result, satisfaction. *)
Definition ex_run {A} (p : prog Fr64513 (res A)) (s : PState Fr64513) (out : PState Fr64513 -> A -> list Z)
  : option (list Z * nat * bool) :=
  match run (HonestCS Fr64513) p s with
  | Done (Ok r, s') => Some (out s' r, length (p_cons s'), satb (asg s') (p_cons s'))
  | _ => None
  end.
Definition ab_out (s : PState Fr64513) (a : AllocatedBit) : list Z := [toZ (asg s (ab_var a))].
Definition b_out (s : PState Fr64513) (a : Boolean) : list Z := [toZ (eval (asg s) (b_lc a one_var 1))].

Definition fb {P : PrimeField} (b : bool) : P := if b then 1 else 0.

(** Truth tables. *)
Definition tt_xor (x y : bool) : bool := match x, y with true, false | false, true => true | _, _ => false end.
Definition tt_and (x y : bool) : bool := match x, y with true, true => true | _, _ => false end.
Definition tt_and_not (x y : bool) : bool := match x, y with true, false => true | _, _ => false end.
Definition tt_nor (x y : bool) : bool := match x, y with false, false => true | _, _ => false end.

(** [den rho x b] says that the Boolean [x] denotes the bit [b] under [rho]. *)
Definition den {P : PrimeField} (rho : Var -> P) (x : Boolean) (b : bool) : Prop :=
  match x with
  | BIs a => rho (ab_var a) = fb b
  | BNot a => rho (ab_var a) = fb (negb b)
  | BConst c => c = b
  end.

Lemma den_bit_is {P : PrimeField} (rho : Var -> P) x b : den rho x b <-> bit_is rho x b.
Proof. destruct x; cbn; split; auto. Qed.

(** ... and that the gadget also knows it. *)
Definition den_known {P : PrimeField} (s : PState P) (x : Boolean) (b : bool) : Prop :=
  b_known s x /\ den (asg s) x b /\ b_value x = Some b.

Lemma den_known_hon {P : PrimeField} (s : PState P) rho x b : agrees rho s -> den_known s x b -> bit_hon rho x b.
Proof.
  intros Ha (Hk & Hd & Hv). apply (bit_hon_agrees rho s); auto. split; auto. now apply den_bit_is.
Qed.

(** Bit [i] of an integer. *)
Definition bit_of (z : Z) (i : nat) : bool := Z.odd (z / 2 ^ Z.of_nat i).

Definition bits_of (n : nat) (z : Z) : list bool := map (bit_of z) (seq 0 n).

Lemma bits_of_z2le n z : bits_of n z = z2le n z.
Proof.
  unfold bits_of. apply nth_ext with (d := false) (d' := false).
  - now rewrite map_length, seq_length, z2le_length.
  - intros i Hi. rewrite map_length, seq_length in Hi. rewrite nth_z2le by auto.
    rewrite (nth_indep _ false (bit_of z 0)) by (rewrite map_length, seq_length; lia).
    rewrite map_nth, seq_nth by lia. unfold bit_of. cbn.
    rewrite Z.testbit_odd, Z.shiftr_div_pow2 by lia. reflexivity.
Qed.

Lemma bit_of_testbit z i : bit_of z i = Z.testbit z (Z.of_nat i).
Proof. unfold bit_of. rewrite Z.testbit_odd, Z.shiftr_div_pow2 by lia. reflexivity. Qed.

(** The number [a] is allocated in [s], has value [x] there, and the gadget knows it. *)
Definition num_known {P : PrimeField} (s : PState P) (a : AllocatedNum P) (x : P) : Prop :=
  known s (an_var a) /\ asg s (an_var a) = x /\ an_value a = Some x.

Lemma num_known_hon {P : PrimeField} (s : PState P) rho a x : agrees rho s -> num_known s a x -> num_hon rho a x.
Proof. intros Ha (Hk & Hd & Hv). apply (num_hon_agrees rho s); auto. split; auto. Qed.

Definition ex_num (i : nat) (z : Z) : AllocatedNum Fr64513 := {| an_value := Some (ofZ z); an_var := Aux i |}.
Definition an_out (s : PState Fr64513) (a : AllocatedNum Fr64513) : list Z := [toZ (asg s (an_var a))].

(** Little-endian value of a bit string. *)
Fixpoint le_value (bs : list bool) : Z :=
  match bs with [] => 0 | b :: t => (if b then 1 else 0) + 2 * le_value t end%Z.

(** A [Num] built by any sequence of additions. *)
Definition num_sum {P : PrimeField} (n : Num P) (l : list (Boolean * P)) : Num P :=
  fold_left (fun n bc => num_add_bool n one_var (fst bc) (snd bc)) l n.
Definition true_coeffs {P : PrimeField} (bs : list bool) (l : list (Boolean * P)) : P :=
  fold_left (fun acc (x : bool * (Boolean * P)) => if fst x then acc + snd (snd x) else acc) (combine bs l) 0.


(** Request [(n, l, r)]: both sides are integers below [2^n]. *)
Definition in_range {P : PrimeField} (rho : Var -> P) (q : EqReq P) : Prop :=
  let '(n, l, r) := q in
  (exists z, (0 <= z < 2 ^ Z.of_nat n)%Z /\ eval rho l = ofZ z) /\
  (exists z, (0 <= z < 2 ^ Z.of_nat n)%Z /\ eval rho r = ofZ z).
Definition equal {P : PrimeField} (rho : Var -> P) (q : EqReq P) : Prop :=
  let '(n, l, r) := q in eval rho l = eval rho r.

(** ** Facts used by the property files *)
Section Facts.
Context {P : PrimeField}.
Add Field PFfield_specf : (F_field P).

Lemma one_mul (x : P) : 1 * x = x. Proof. ring. Qed.

Lemma inputize_shape (a : AllocatedNum P) (k : KState P) :
  exists k' cs, run (ShapeCS P) (an_inputize a) k = Done (Ok tt, k') /\
    k_inputs k' = S (k_inputs k) /\ k_aux k' = k_aux k /\ k_cons k' = k_cons k ++ cs /\
    forall rho, rho one_var = 1 -> (sat rho cs <-> rho (Input (k_inputs k)) = rho (an_var a)).
Proof.
  eexists. eexists. split; [reflexivity|]. cbn. repeat split; try reflexivity.
  - intros Hs. inversion Hs as [|c l Hc Hl]; subst. cbn in Hc. revert Hc. lcev. rewrite H. intros Hc.
    transitivity ((0 + rho (Input (k_inputs k))) * (0 + 1)); [ring|]. rewrite Hc. ring.
  - intros E. constructor; [|constructor]. cbn. lcev. rewrite H, E. ring.
Qed.

Lemma inputize_honest (s : PState P) (a : AllocatedNum P) (x : P) : wf_state s ->
  num_known s a x -> exists s' cs, run (HonestCS P) (an_inputize a) s = Done (Ok tt, s') /\
    p_inputs s' = p_inputs s ++ [x] /\ p_aux s' = p_aux s /\ p_cons s' = p_cons s ++ cs /\ sat (asg s') cs.
Proof.
  intros [t Ht] (Hk & Hx & Hv). unfold an_inputize. rewrite Hv. eexists. eexists. split; [reflexivity|].
  cbn [p_inputs p_aux p_cons]. repeat split; try reflexivity.
  constructor; [|constructor]. cbn [holds]. lcev.
  set (s' := {| p_inputs := _ |}).
  assert (He : extends s s').
  { subst s'. repeat split; cbn; [exists [x]; reflexivity|exists []; now rewrite app_nil_r|eexists; reflexivity]. }
  replace (asg s' (an_var a)) with x by (rewrite (asg_extends s s' _ He Hk); auto).
  replace (asg s' one_var) with (1 : P) by (cbn; rewrite Ht; reflexivity).
  replace (asg s' (Input (length (p_inputs s)))) with x; [ring|].
  cbn. rewrite app_nth2, Nat.sub_diag; [reflexivity|lia].
Qed.

Lemma assert_nonzero_error (s : PState P) (a : AllocatedNum P) :
  (exists s', run (HonestCS P) (an_assert_nonzero a) s = Done (Err DivisionByZero, s')) <-> an_value a = Some 0.
Proof.
  unfold an_assert_nonzero. destruct (an_value a) as [x|]; cbn.
  - destruct (feqb x 0) eqn:E; cbn.
    + apply feqb_eq in E. subst. split; [reflexivity|]. intros _. exists s. reflexivity.
    + apply feqb_neq in E. split; [intros [s' H]; discriminate|intros H; inversion H; contradiction].
  - split; [intros [s' H]; discriminate|discriminate].
Qed.

Lemma le_value_le2z bs : le_value bs = le2z bs.
Proof. induction bs as [|[] t IH]; cbn; [reflexivity| |]; rewrite IH; reflexivity. Qed.

Lemma den_Forall2 rho r bs : Forall2 (bit_is rho) r bs -> Forall2 (@den P rho) r bs.
Proof. apply Forall2_impl. intros x b. apply den_bit_is. Qed.

Lemma plain_sound (a : AllocatedNum P) :
  Sound (to_bits_le a) (fun rho r => length r = num_bits P /\ exists bs, Forall2 (den rho) r bs /\
    (le_value bs mod modulus P = toZ (rho (an_var a)))%Z).
Proof.
  intros rho r cs He H1 Hs.
  destruct (wpS_emits rho _ _ _ _ (to_bits_le_sound rho H1 True a) He Hs) as (bs & Hl & HF & E).
  split; [rewrite <- Hl; eapply Forall2_length; eauto|]. exists bs. split; [now apply den_Forall2|].
  rewrite le_value_le2z, <- E. symmetry. apply toZ_ofZ.
Qed.

Lemma field_into_allocated_bits_le_mapq (F2 : PrimeField) (v : option F2) :
  exists l, length l = num_bits F2 /\ @field_into_allocated_bits_le P F2 v = mapq alloc_bit_at 0 l.
Proof.
  unfold field_into_allocated_bits_le. destruct v; rewrite ?field_bits, ?rev_length, ?z2le_length, ?Nat.eqb_refl;
  eexists; (split; [|reflexivity]); now rewrite ?rev_length, ?map_length, ?rev_length, ?repeat_length, ?z2le_length.
Qed.

(** A prover that uses the bits [bs] instead of the canonical ones. *)
Definition to_bits_with (bs : list bool) (v : Var) : prog P (res (list Boolean)) :=
  bindq (mapq alloc_bit_at 0 (map Some bs)) (fun bits =>
  bind (cs_enforce "unpacking constraint"%string lc_zero lc_zero
    (lc_sub_var (unpack_lc (map ab_var bits)) v)) (fun _ =>
  Ret (Ok (map BIs bits)))).

Lemma plain_accepts (s : PState P) (a : AllocatedNum P) (bs : list bool) : wf_state s ->
  known s (an_var a) -> length bs = num_bits P -> (le_value bs mod modulus P = toZ (asg s (an_var a)))%Z ->
  exists r k' cs rho, run (ShapeCS P) (to_bits_le a) (shape_of s) = Done (Ok r, k') /\
    k_cons k' = p_cons s ++ cs /\ agrees rho s /\ sat rho cs /\ Forall2 (den rho) r bs.
Proof.
  intros Hw Hk Hl Hm.
  assert (HC : forall rho, agrees rho s -> wpC rho (to_bits_with bs (an_var a)) (isOk (fun r => Forall2 (bit_is rho) r bs))).
  { intros rho Ha. pose proof (agrees_one rho s Hw Ha) as H1. unfold to_bits_with.
    eapply wpC_bindq'; [apply (alloc_bits_complete rho H1 bs)|]. cbv beta. intros bits Hb.
    apply wpC_enforce.
    - lcev. rewrite (eval_unpack rho _ _ (abit_hon_is rho _ _ Hb)), (Ha _ Hk).
      replace (ofZ (le2z bs) : P) with (asg s (an_var a)); [ring|].
      rewrite <- (ofZ_toZ P (asg s (an_var a))), <- Hm, le_value_le2z. symmetry. apply ofZ_congr.
      rewrite Zmod_mod. reflexivity.
    - cbn. apply Forall2_map_l. eapply Forall2_impl; [|exact Hb]. intros ab b [H2 H3]. exact H2. }
  assert (Hn : noeq (to_bits_with bs (an_var a))) by (unfold to_bits_with; struct).
  destruct (complete_run _ _ s Hn HC) as (r' & s' & cs & Hr & Hc & He & Hq).
  assert (Hsim : sim (to_bits_le a) (to_bits_with bs (an_var a)) (resR (Forall2 bsim))).
  { unfold to_bits_le, to_bits_with.
    eapply sim_bindq with (R := Forall2 absim).
    - destruct (field_into_allocated_bits_le_mapq P (an_value a)) as (l & Hll & ->). apply alloc_bits_sim.
      rewrite map_length. lia.
    - intros l l' HL. apply sim_enforce; try reflexivity.
      + now rewrite (absim_vars _ _ HL).
      + cbn. now apply absim_is. }
  destruct (sim_shape _ _ _ Hsim _ _ _ Hr) as ([r|e] & H1 & H2); [|destruct H2].
  destruct (Hq (asg s') (agrees_asg s')) as [Hs HF].
  exists r, (shape_of s'), cs, (asg s'). repeat split; auto.
  - eapply agrees_extends; [exact He|apply agrees_asg].
  - apply den_Forall2. clear -H2 HF. cbn in H2. revert bs HF.
    induction H2 as [|x y l l' Hxy _ IH]; intros bs HF; inversion HF; subst; constructor; auto.
    destruct x, y; cbn in *; try contradiction; try (unfold absim, var_bit in *; congruence).
Qed.

Lemma num_sum_snoc (n : Num P) l x : num_sum n (l ++ [x]) = num_add_bool (num_sum n l) one_var (fst x) (snd x).
Proof. unfold num_sum. now rewrite fold_left_app. Qed.

Lemma true_coeffs_snoc bs b l (x : Boolean * P) : length bs = length l ->
  true_coeffs (bs ++ [b]) (l ++ [x]) = (if b then true_coeffs bs l + snd x else true_coeffs bs l).
Proof. intros H. unfold true_coeffs. rewrite combine_app by auto. rewrite fold_left_app. reflexivity. Qed.

Lemma num_sum_lc (rho : Var -> P) (l : list (Boolean * P)) (bs : list bool) (coeff : P) :
  rho one_var = 1 -> Forall2 (fun bc b => den rho (fst bc) b) l bs ->
  eval rho (num_lc (num_sum num_zero l) coeff) = coeff * true_coeffs bs l.
Proof.
  intros H1 HF. rewrite num_lc_eval. f_equal. revert bs HF.
  induction l as [|x l IH] using rev_ind; intros bs HF.
  - inversion HF. cbn. apply eval_zero.
  - apply Forall2_app_inv_l in HF as (bs1 & bs2 & HF1 & HF2 & ->). inversion HF2 as [|? b ? ? Hb Hn]; subst.
    inversion Hn; subst. rewrite num_sum_snoc, true_coeffs_snoc by (symmetry; eapply Forall2_length; eauto).
    apply den_bit_is in Hb. rewrite (num_add_bool_eval rho H1 _ _ _ _ Hb), (IH _ HF1), mul_fbit.
    destruct b; ring.
Qed.

Lemma num_sum_value (l : list (Boolean * P)) (bs : list bool) :
  Forall2 (fun bc b => b_value (fst bc) = Some b) l bs ->
  num_value (num_sum num_zero l) = Some (true_coeffs bs l).
Proof.
  revert bs. induction l as [|x l IH] using rev_ind; intros bs HF.
  - inversion HF. reflexivity.
  - apply Forall2_app_inv_l in HF as (bs1 & bs2 & HF1 & HF2 & ->). inversion HF2 as [|? b ? ? Hb Hn]; subst.
    inversion Hn; subst. rewrite num_sum_snoc, true_coeffs_snoc by (symmetry; eapply Forall2_length; eauto).
    cbn. rewrite (IH _ HF1), Hb. destruct b; reflexivity.
Qed.

Lemma num_sum_unknown (l : list (Boolean * P)) : forall (n : Num P),
  (num_value n = None \/ Exists (fun bc => b_value (fst bc) = None) l) -> num_value (num_sum n l) = None.
Proof.
  induction l as [|x l IH]; intros n H; cbn.
  - destruct H as [H|H]; [exact H|inversion H].
  - apply IH. destruct H as [H|H].
    + left. cbn. now rewrite H.
    + inversion H; subst; [left; cbn|now right]. destruct (num_value n); [|reflexivity]. now rewrite H1.
Qed.
End Facts.
