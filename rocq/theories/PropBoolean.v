(** Property theorems C01 and C07-C11: linear combinations and boolean gadgets. *)
From Coq Require Import String.
From Coq Require Import ZArith List Bool Lia Field.
From Verif Require Import Prelude PrimeField Zp Fields Circuit Loops BooleanGadget NumGadget Spec.
Import ListNotations.
Local Open Scope F_scope.

(** * C01 *)

(** The value of a combination as a sum over its terms, written independently of [eval]. *)
Fixpoint term_sum {P : PrimeField} (rho : Var -> P) (l : list (Var * P)) : P :=
  match l with
  | [] => 0
  | (v, c) :: t => term_sum rho t + rho v * c
  end.

(** The operators of src/lib.rs:197-299 as an expression language with its evident meaning. *)
Inductive lcexp (P : PrimeField) : Type :=
| EZero
| EAddTerm (e : lcexp P) (c : P) (v : Var) | ESubTerm (e : lcexp P) (c : P) (v : Var)
| EAddVar (e : lcexp P) (v : Var) | ESubVar (e : lcexp P) (v : Var)
| EAddLc (e o : lcexp P) | ESubLc (e o : lcexp P)
| EAddScaled (e : lcexp P) (c : P) (o : lcexp P) | ESubScaled (e : lcexp P) (c : P) (o : lcexp P).
Arguments EZero {P}. Arguments EAddTerm {P}. Arguments ESubTerm {P}. Arguments EAddVar {P}. Arguments ESubVar {P}.
Arguments EAddLc {P}. Arguments ESubLc {P}. Arguments EAddScaled {P}. Arguments ESubScaled {P}.

Fixpoint build {P : PrimeField} (e : lcexp P) : LC P :=
  match e with
  | EZero => lc_zero
  | EAddTerm e c v => lc_add_term (build e) c v
  | ESubTerm e c v => lc_sub_term (build e) c v
  | EAddVar e v => lc_add_var (build e) v
  | ESubVar e v => lc_sub_var (build e) v
  | EAddLc e o => lc_add_lc (build e) (build o)
  | ESubLc e o => lc_sub_lc (build e) (build o)
  | EAddScaled e c o => lc_add_scaled (build e) c (build o)
  | ESubScaled e c o => lc_sub_scaled (build e) c (build o)
  end.

Fixpoint meaning {P : PrimeField} (rho : Var -> P) (e : lcexp P) : P :=
  match e with
  | EZero => 0
  | EAddTerm e c v => meaning rho e + c * rho v
  | ESubTerm e c v => meaning rho e - c * rho v
  | EAddVar e v => meaning rho e + rho v
  | ESubVar e v => meaning rho e - rho v
  | EAddLc e o => meaning rho e + meaning rho o
  | ESubLc e o => meaning rho e - meaning rho o
  | EAddScaled e c o => meaning rho e + c * meaning rho o
  | ESubScaled e c o => meaning rho e - c * meaning rho o
  end.

Theorem C01_linear_combinations (P : PrimeField) (rho : Var -> P) (e : lcexp P) :
  term_sum rho (build e) = meaning rho e.
Proof.
  assert (E : forall l, term_sum rho l = eval rho l).
  { induction l as [|[v c] t IH]; [reflexivity|]. cbn [term_sum]. rewrite IH, eval_cons.
    rewrite (Radd_comm (F_R (F_field P))). f_equal. apply (Rmul_comm (F_R (F_field P))). }
  rewrite E. induction e; cbn [build meaning]; lcev; congruence.
Qed.
Print Assumptions C01_linear_combinations.

Example C01_example :
  let rho := fun v : Var => match v with Input 0 => ofZ 1 | Aux 0 => ofZ 7 | _ => ofZ 100 end : Fr64513 in
  (** 3x - (5, y) + 2*(y - x) with x = 7, y = 100: 21 - 500 + 186 = -293 *)
  let e := EAddScaled (ESubTerm (EAddTerm EZero (ofZ 3) (Aux 0)) (ofZ 5) (Aux 1)) (ofZ 2)
             (ESubVar (EAddVar EZero (Aux 1)) (Aux 0)) in
  toZ (term_sum rho (build e)) = (64513 - 293)%Z.
Proof. vm_compute. reflexivity. Qed.

(** * C07 *)

Theorem C07_alloc_sound (P : PrimeField) (v : option bool) :
  Sound (@ab_alloc P v) (fun rho a => is_bit (rho (ab_var a))).
Proof.
  intros rho r cs He H1 Hs. apply is_bit_fbit.
  exact (wpS_emits rho _ _ _ _ (ab_alloc_sound rho H1 True v) He Hs).
Qed.
Print Assumptions C07_alloc_sound.

Theorem C07_alloc_conditionally_sound (P : PrimeField) (v : option bool) (m : AllocatedBit) :
  Sound (@ab_alloc_conditionally P v m) (fun rho a =>
    is_bit (rho (ab_var m)) ->
    is_bit (rho (ab_var a)) /\ (rho (ab_var m) = 1 -> rho (ab_var a) = 0)).
Proof.
  intros rho r cs He H1 Hs Hm. apply is_bit_fbit in Hm as [mb Hm].
  destruct (wpS_emits rho _ _ _ _ (ab_alloc_conditionally_sound rho H1 True v m mb Hm) He Hs) as (b & Hb & Hmb).
  split; [apply is_bit_fbit; eauto|]. intros E. rewrite Hb.
  rewrite Hmb; [reflexivity|]. destruct mb; [reflexivity|]. exfalso. apply (f_1_neq_0 (P := P)).
  rewrite <- E, Hm. reflexivity.
Qed.
Print Assumptions C07_alloc_conditionally_sound.

Theorem C07_alloc_complete (P : PrimeField) (s : PState P) (b : bool) : wf_state s ->
  Complete (ab_alloc (Some b)) s (fun rho a => rho (ab_var a) = (if b then 1 else 0) /\ ab_value a = Some b).
Proof.
  intros Hw. apply Complete_of; auto; [auto with struct_db|].
  intros rho Ha H1. exact (ab_alloc_complete rho H1 b).
Qed.
Print Assumptions C07_alloc_complete.

Theorem C07_alloc_conditionally_complete (P : PrimeField) (s : PState P) (b mb : bool) (m : AllocatedBit) :
  wf_state s -> known s (ab_var m) -> asg s (ab_var m) = (if mb then 1 else 0) -> b && mb = false ->
  Complete (ab_alloc_conditionally (Some b) m) s
    (fun rho a => rho (ab_var a) = (if b then 1 else 0) /\ ab_value a = Some b).
Proof.
  intros Hw Hk Hm Hb. apply Complete_of; auto; [auto with struct_db|].
  intros rho Ha H1. eapply (ab_alloc_conditionally_complete rho H1 b m mb).
  - unfold var_bit. rewrite (Ha _ Hk). exact Hm.
  - intros ->. now rewrite andb_true_r in Hb.
Qed.
Print Assumptions C07_alloc_conditionally_complete.

(** ... and when value and condition are both true the honest assignment is rejected. *)
Theorem C07_alloc_conditionally_conflict (P : PrimeField) (m : AllocatedBit) (rho : Var -> P) (r : AllocatedBit) cs :
  emits (ab_alloc_conditionally (Some true) m) (Ok r) cs [] -> rho one_var = 1 ->
  rho (ab_var m) = 1 -> rho (ab_var r) = 1 -> ~ sat rho cs.
Proof.
  intros He H1 Hm Hr Hs.
  destruct (C07_alloc_conditionally_sound P _ m rho r cs He H1 Hs) as [_ H]; [now right|].
  apply (f_1_neq_0 (P := P)). rewrite <- Hr. auto.
Qed.
Print Assumptions C07_alloc_conditionally_conflict.

(** An unknown value is reported as [AssignmentMissing] by a proving constraint system. *)
Theorem C07_alloc_unknown (P : PrimeField) (s : PState P) (m : AllocatedBit) :
  run (HonestCS P) (ab_alloc None) s = Done (Err AssignmentMissing, s) /\
  run (HonestCS P) (ab_alloc_conditionally None m) s = Done (Err AssignmentMissing, s).
Proof. split; reflexivity. Qed.
Print Assumptions C07_alloc_unknown.

Example C07_example :
  ex_run (ab_alloc_conditionally (Some true) (ex_bit 0 false)) (ex_state [0%Z]) ab_out = Some ([1%Z], 1%nat, true) /\
  ex_run (ab_alloc_conditionally (Some true) (ex_bit 0 true)) (ex_state [1%Z]) ab_out = Some ([1%Z], 1%nat, false) /\
  ex_run (ab_alloc (Some true)) (ex_state []) ab_out = Some ([1%Z], 1%nat, true).
Proof. vm_compute. repeat split. Qed.

(** * C08 *)

Definition gate_sound (gate : forall P : PrimeField, AllocatedBit -> AllocatedBit -> prog P (res AllocatedBit))
  (op : bool -> bool -> bool) : Prop :=
  forall (P : PrimeField) (a b : AllocatedBit), Sound (gate P a b) (fun rho r =>
    forall x y, rho (ab_var a) = fb x -> rho (ab_var b) = fb y -> rho (ab_var r) = fb (op x y)).

Definition gate_complete (gate : forall P : PrimeField, AllocatedBit -> AllocatedBit -> prog P (res AllocatedBit))
  (op : bool -> bool -> bool) : Prop :=
  forall (P : PrimeField) (s : PState P) (a b : AllocatedBit) (x y : bool), wf_state s ->
    known s (ab_var a) -> asg s (ab_var a) = fb x -> ab_value a = Some x ->
    known s (ab_var b) -> asg s (ab_var b) = fb y -> ab_value b = Some y ->
    Complete (gate P a b) s (fun rho r => rho (ab_var r) = fb (op x y) /\ ab_value r = Some (op x y)).

Ltac gate_s L := intros P a b rho r cs He H1 Hs x y Hx Hy;
  pose proof (wpS_emits rho _ _ _ _ (L P rho True a b x y Hx Hy) He Hs); destruct x, y; assumption.
Ltac gate_s1 L := intros P a b rho r cs He H1 Hs x y Hx Hy;
  pose proof (wpS_emits rho _ _ _ _ (L P rho H1 True a b x y Hx Hy) He Hs); destruct x, y; assumption.
Ltac gate_c L := intros P s a b x y Hw Ka Va Ra Kb Vb Rb; apply Complete_of; auto;
  [auto with struct_db|]; intros rho Ha H1;
  assert (Hx : abit_hon rho a x) by (split; auto; unfold var_bit; rewrite Ha; auto);
  assert (Hy : abit_hon rho b y) by (split; auto; unfold var_bit; rewrite Ha; auto);
  pose proof (L P rho a b x y Hx Hy); destruct x, y; assumption.
Ltac gate_c1 L := intros P s a b x y Hw Ka Va Ra Kb Vb Rb; apply Complete_of; auto;
  [auto with struct_db|]; intros rho Ha H1;
  assert (Hx : abit_hon rho a x) by (split; auto; unfold var_bit; rewrite Ha; auto);
  assert (Hy : abit_hon rho b y) by (split; auto; unfold var_bit; rewrite Ha; auto);
  pose proof (L P rho H1 a b x y Hx Hy); destruct x, y; assumption.

Theorem C08_xor_sound : gate_sound (@ab_xor) tt_xor.
Proof. gate_s @ab_xor_sound. Qed.
Print Assumptions C08_xor_sound.
Theorem C08_and_sound : gate_sound (@ab_and) tt_and.
Proof. gate_s @ab_and_sound. Qed.
Print Assumptions C08_and_sound.
Theorem C08_and_not_sound : gate_sound (@ab_and_not) tt_and_not.
Proof. gate_s1 @ab_and_not_sound. Qed.
Print Assumptions C08_and_not_sound.
Theorem C08_nor_sound : gate_sound (@ab_nor) tt_nor.
Proof. gate_s1 @ab_nor_sound. Qed.
Print Assumptions C08_nor_sound.
Theorem C08_xor_complete : gate_complete (@ab_xor) tt_xor.
Proof. gate_c @ab_xor_complete. Qed.
Print Assumptions C08_xor_complete.
Theorem C08_and_complete : gate_complete (@ab_and) tt_and.
Proof. gate_c @ab_and_complete. Qed.
Print Assumptions C08_and_complete.
Theorem C08_and_not_complete : gate_complete (@ab_and_not) tt_and_not.
Proof. gate_c1 @ab_and_not_complete. Qed.
Print Assumptions C08_and_not_complete.
Theorem C08_nor_complete : gate_complete (@ab_nor) tt_nor.
Proof. gate_c1 @ab_nor_complete. Qed.
Print Assumptions C08_nor_complete.

Example C08_example :
  let s := ex_state [1%Z; 0%Z] in let a := ex_bit 0 true in let b := ex_bit 1 false in
  ex_run (ab_xor a b) s ab_out = Some ([1%Z], 1%nat, true) /\
  ex_run (ab_and a b) s ab_out = Some ([0%Z], 1%nat, true) /\
  ex_run (ab_and_not a b) s ab_out = Some ([1%Z], 1%nat, true) /\
  ex_run (ab_nor a b) s ab_out = Some ([0%Z], 1%nat, true).
Proof. vm_compute. repeat split. Qed.

(** * C09 *)
Theorem C09_not (P : PrimeField) (rho : Var -> P) (x : Boolean) (b : bool) :
  den rho x b -> den rho (b_not x) (negb b).
Proof. rewrite !den_bit_is. apply bit_is_not. Qed.
Print Assumptions C09_not.

Theorem C09_not_value (x : Boolean) : b_value (b_not x) = option_map negb (b_value x).
Proof. destruct x as [[v [b|]]|[v [b|]]|b]; cbn; rewrite ?negb_involutive; reflexivity. Qed.
Print Assumptions C09_not_value.

Theorem C09_lc (P : PrimeField) (rho : Var -> P) (x : Boolean) (b : bool) (c : P) :
  rho one_var = 1 -> den rho x b -> eval rho (b_lc x one_var c) = (if b then c else 0).
Proof.
  intros H1 H. apply den_bit_is in H. rewrite (eval_b_lc rho H1 _ _ c H).
  apply mul_fbit.
Qed.
Print Assumptions C09_lc.

Theorem C09_xor_sound (P : PrimeField) (a b : Boolean) : Sound (@b_xor P a b) (fun rho r =>
  forall x y, den rho a x -> den rho b y -> den rho r (tt_xor x y)).
Proof.
  intros rho r cs He H1 Hs x y Hx Hy. rewrite den_bit_is in *.
  pose proof (wpS_emits rho _ _ _ _ (b_xor_sound rho True a b x y Hx Hy) He Hs). destruct x, y; assumption.
Qed.
Print Assumptions C09_xor_sound.

Theorem C09_and_sound (P : PrimeField) (a b : Boolean) : Sound (@b_and P a b) (fun rho r =>
  forall x y, den rho a x -> den rho b y -> den rho r (tt_and x y)).
Proof.
  intros rho r cs He H1 Hs x y Hx Hy. rewrite den_bit_is in *.
  pose proof (wpS_emits rho _ _ _ _ (b_and_sound rho H1 True a b x y Hx Hy) He Hs). destruct x, y; assumption.
Qed.
Print Assumptions C09_and_sound.

Theorem C09_xor_complete (P : PrimeField) (s : PState P) (a b : Boolean) (x y : bool) : wf_state s ->
  den_known s a x -> den_known s b y ->
  Complete (b_xor a b) s (fun rho r => den rho r (tt_xor x y) /\ b_value r = Some (tt_xor x y)).
Proof.
  intros Hw Hx Hy. apply Complete_of; auto; [auto with struct_db|]. intros rho Ha H1.
  eapply wpC_okmono; [|apply (b_xor_complete rho a b x y); eauto using den_known_hon].
  intros r [H2 H3]. rewrite den_bit_is. destruct x, y; split; assumption.
Qed.
Print Assumptions C09_xor_complete.

Theorem C09_and_complete (P : PrimeField) (s : PState P) (a b : Boolean) (x y : bool) : wf_state s ->
  den_known s a x -> den_known s b y ->
  Complete (b_and a b) s (fun rho r => den rho r (tt_and x y) /\ b_value r = Some (tt_and x y)).
Proof.
  intros Hw Hx Hy. apply Complete_of; auto; [auto with struct_db|]. intros rho Ha H1.
  eapply wpC_okmono; [|apply (b_and_complete rho H1 a b x y); eauto using den_known_hon].
  intros r [H2 H3]. rewrite den_bit_is. destruct x, y; split; assumption.
Qed.
Print Assumptions C09_and_complete.

Theorem C09_enforce_equal (P : PrimeField) (a b : Boolean) (rho : Var -> P) (x y : bool) cs :
  emits (b_enforce_equal a b) (Ok tt) cs [] -> rho one_var = 1 -> den rho a x -> den rho b y ->
  (sat rho cs <-> x = y).
Proof.
  intros He H1 Hx Hy. rewrite den_bit_is in *. split.
  - intros Hs. exact (wpS_emits rho _ _ _ _ (b_enforce_equal_sound rho H1 True a b x y Hx Hy) He Hs).
  - intros <-. pose proof (b_enforce_equal_complete rho H1 a b x Hx Hy) as HC.
    eapply noalloc_sat; [|exact HC|exact He].
    destruct a as [?|?|[]], b as [?|?|[]]; exact I.
Qed.
Print Assumptions C09_enforce_equal.

Theorem C09_enforce_equal_unsatisfiable (P : PrimeField) (a b : Boolean) (e : SynthesisError) :
  (exists cs es, emits (@b_enforce_equal P a b) (Err e) cs es) <->
  e = Unsatisfiable /\ exists c, a = BConst c /\ b = BConst (negb c).
Proof.
  split.
  - intros (cs & es & H). destruct a as [?|?|[]], b as [?|?|[]]; cbn in H;
      repeat match goal with HH : emits _ _ _ _ |- _ => inversion HH; clear HH; subst end; split; eauto.
  - intros (-> & [] & -> & ->); exists [], []; constructor.
Qed.
Print Assumptions C09_enforce_equal_unsatisfiable.

Theorem C09_enforce_equal_succeeds (P : PrimeField) (s : PState P) (a b : Boolean) (x : bool) : wf_state s ->
  b_known s a -> den (asg s) a x -> b_known s b -> den (asg s) b x ->
  Complete (b_enforce_equal a b) s (fun _ _ => True).
Proof.
  intros Hw Ka Hx Kb Hy. apply Complete_of; auto; [auto with struct_db|]. intros rho Ha H1. rewrite den_bit_is in *.
  apply (b_enforce_equal_complete rho H1 a b x); eapply bit_is_agrees; eauto.
Qed.
Print Assumptions C09_enforce_equal_succeeds.

Example C09_example :
  let s := ex_state [1%Z; 0%Z] in let a := BIs (ex_bit 0 true) in let b := BNot (ex_bit 1 false) in
  den_known s b true /\
  ex_run (b_xor a b) s b_out = Some ([0%Z], 1%nat, true) /\
  ex_run (b_and a b) s b_out = Some ([1%Z], 1%nat, true) /\
  ex_run (b_and (BConst true) b) s b_out = Some ([1%Z], 0%nat, true) /\
  ex_run (b_enforce_equal a b) s (fun _ _ => []) = Some ([], 1%nat, true) /\
  ex_run (b_enforce_equal a (b_not b)) s (fun _ _ => []) = Some ([], 1%nat, false) /\
  run (HonestCS Fr64513) (b_enforce_equal (BConst true) (BConst false)) s = Done (Err Unsatisfiable, s).
Proof.
  repeat split; try (vm_compute; reflexivity).
Qed.

(** * C10 *)
Theorem C10_ch_sound (P : PrimeField) (a b c : Boolean) : Sound (@b_ch P a b c) (fun rho r =>
  forall x y z, den rho a x -> den rho b y -> den rho c z -> den rho r (xorb (x && y) (negb x && z))).
Proof.
  intros rho r cs He H1 Hs x y z Hx Hy Hz. rewrite den_bit_is in *.
  exact (wpS_emits rho _ _ _ _ (b_ch_sound rho H1 True a b c x y z Hx Hy Hz) He Hs).
Qed.
Print Assumptions C10_ch_sound.

Theorem C10_maj_sound (P : PrimeField) (a b c : Boolean) : Sound (@b_maj P a b c) (fun rho r =>
  forall x y z, den rho a x -> den rho b y -> den rho c z -> den rho r (xorb (xorb (x && y) (x && z)) (y && z))).
Proof.
  intros rho r cs He H1 Hs x y z Hx Hy Hz. rewrite den_bit_is in *.
  exact (wpS_emits rho _ _ _ _ (b_maj_sound rho H1 True a b c x y z Hx Hy Hz) He Hs).
Qed.
Print Assumptions C10_maj_sound.

Theorem C10_ch_complete (P : PrimeField) (s : PState P) (a b c : Boolean) (x y z : bool) : wf_state s ->
  den_known s a x -> den_known s b y -> den_known s c z ->
  Complete (b_ch a b c) s (fun rho r => den rho r (xorb (x && y) (negb x && z)) /\
                                        b_value r = Some (xorb (x && y) (negb x && z))).
Proof.
  intros Hw Hx Hy Hz. apply Complete_of; auto; [auto with struct_db|]. intros rho Ha H1.
  eapply wpC_okmono; [|apply (b_ch_complete rho H1 a b c x y z); eauto using den_known_hon].
  intros r [H2 H3]. rewrite den_bit_is. split; assumption.
Qed.
Print Assumptions C10_ch_complete.

Theorem C10_maj_complete (P : PrimeField) (s : PState P) (a b c : Boolean) (x y z : bool) : wf_state s ->
  den_known s a x -> den_known s b y -> den_known s c z ->
  Complete (b_maj a b c) s (fun rho r => den rho r (xorb (xorb (x && y) (x && z)) (y && z)) /\
                                         b_value r = Some (xorb (xorb (x && y) (x && z)) (y && z))).
Proof.
  intros Hw Hx Hy Hz. apply Complete_of; auto; [auto with struct_db|]. intros rho Ha H1.
  eapply wpC_okmono; [|apply (b_maj_complete rho H1 a b c x y z); eauto using den_known_hon].
  intros r [H2 H3]. rewrite den_bit_is. split; assumption.
Qed.
Print Assumptions C10_maj_complete.

Example C10_example :
  let s := ex_state [1%Z; 0%Z; 0%Z] in
  let a := BIs (ex_bit 0 true) in let b := BNot (ex_bit 1 false) in let c := BIs (ex_bit 2 false) in
  ex_run (b_ch a b c) s b_out = Some ([1%Z], 1%nat, true) /\
  ex_run (b_maj a b c) s b_out = Some ([1%Z], 2%nat, true) /\
  ex_run (b_ch (BConst false) b c) s b_out = Some ([0%Z], 0%nat, true) /\
  ex_run (b_maj (BConst true) b c) s b_out = Some ([1%Z], 1%nat, true).
Proof. vm_compute. repeat split. Qed.

(** * C11 *)

Theorem C11_u64_sound (P : PrimeField) (v : option Z) : Sound (@u64_into_boolean_vec_le P v) (fun rho r =>
  length r = 64%nat /\ Forall (fun x => exists b, den rho x b) r).
Proof.
  intros rho r cs He H1 Hs.
  destruct (wpS_emits rho _ _ _ _ (u64_into_boolean_vec_le_sound rho H1 True v) He Hs) as (bs & Hl & HF).
  split; [rewrite <- Hl; eapply Forall2_length; eauto|].
  clear -HF. induction HF; constructor; auto. exists y. now apply den_bit_is.
Qed.
Print Assumptions C11_u64_sound.

Theorem C11_u64_complete (P : PrimeField) (s : PState P) (v : Z) : wf_state s ->
  Complete (u64_into_boolean_vec_le (Some v)) s (fun rho r =>
    Forall2 (fun x b => den rho x b /\ b_value x = Some b) r (bits_of 64 v)).
Proof.
  intros Hw. apply Complete_of; auto; [auto with struct_db|]. intros rho Ha H1. rewrite bits_of_z2le.
  eapply wpC_okmono; [|apply (u64_into_boolean_vec_le_complete rho H1 v)].
  intros r. apply Forall2_impl. intros x b [H2 H3]. now rewrite den_bit_is.
Qed.
Print Assumptions C11_u64_complete.

Theorem C11_field_sound (P F2 : PrimeField) (v : option F2) :
  Sound (@field_into_allocated_bits_le P F2 v) (fun rho r =>
    length r = num_bits F2 /\ Forall (fun a => is_bit (rho (ab_var a))) r) /\
  Sound (@field_into_boolean_vec_le P F2 v) (fun rho r =>
    length r = num_bits F2 /\ Forall (fun x => exists b, den rho x b) r).
Proof.
  split; intros rho r cs He H1 Hs.
  - destruct (wpS_emits rho _ _ _ _ (field_into_allocated_bits_le_sound rho H1 F2 True v) He Hs) as (Hl & bs & HF).
    split; auto. clear -HF. induction HF; constructor; auto. apply is_bit_fbit. eauto.
  - destruct (wpS_emits rho _ _ _ _ (field_into_boolean_vec_le_sound rho H1 F2 True v) He Hs) as (Hl & bs & HF).
    split; auto. clear -HF. induction HF; constructor; auto. exists y. now apply den_bit_is.
Qed.
Print Assumptions C11_field_sound.

Theorem C11_field_complete (P F2 : PrimeField) (s : PState P) (v : F2) : wf_state s ->
  Complete (field_into_allocated_bits_le F2 (Some v)) s (fun rho r =>
    Forall2 (fun a b => rho (ab_var a) = fb b /\ ab_value a = Some b) r (bits_of (num_bits F2) (toZ v))) /\
  Complete (field_into_boolean_vec_le F2 (Some v)) s (fun rho r =>
    Forall2 (fun x b => den rho x b /\ b_value x = Some b) r (bits_of (num_bits F2) (toZ v))).
Proof.
  intros Hw. rewrite bits_of_z2le.
  split; (apply Complete_of; [auto|auto with struct_db|]); intros rho Ha H1.
  - exact (field_into_allocated_bits_le_complete rho H1 F2 v).
  - eapply wpC_okmono; [|apply (field_into_boolean_vec_le_complete rho H1 F2 v)].
    intros r. apply Forall2_impl. intros x b [H2 H3]. now rewrite den_bit_is.
Qed.
Print Assumptions C11_field_complete.

Example C11_example :
  ex_run (field_into_boolean_vec_le Fr64513 (Some (ofZ 37))) (ex_state []) (fun s l => flat_map (b_out s) l)
  = Some ([1; 0; 1; 0; 0; 1; 0; 0; 0; 0; 0; 0; 0; 0; 0; 0]%Z, 16%nat, true).
Proof. vm_compute. reflexivity. Qed.
