(** Property theorems C12-C15: field-element gadgets (src/gadgets/num.rs). *)
From Coq Require Import String.
From Coq Require Import ZArith List Bool Lia Field.
From Verif Require Import Prelude PrimeField Zp Fields Circuit Loops BooleanGadget NumGadget Spec PropBoolean.
Import ListNotations.
Local Open Scope F_scope.

(** * C12 *)

Theorem C12_alloc_complete (P : PrimeField) (s : PState P) (x : P) : wf_state s ->
  Complete (an_alloc (Ok x)) s (fun rho a => rho (an_var a) = x /\ an_value a = Some x).
Proof.
  intros Hw. apply Complete_of; [auto|auto with struct_db|]. intros rho Ha H1. exact (an_alloc_complete rho x).
Qed.
Print Assumptions C12_alloc_complete.

Theorem C12_mul_sound (P : PrimeField) (a b : AllocatedNum P) :
  Sound (an_mul a b) (fun rho r => rho (an_var r) = rho (an_var a) * rho (an_var b)).
Proof. intros rho r cs He H1 Hs. exact (wpS_emits rho _ _ _ _ (an_mul_sound rho True a b) He Hs). Qed.
Print Assumptions C12_mul_sound.

Theorem C12_square_sound (P : PrimeField) (a : AllocatedNum P) :
  Sound (an_square a) (fun rho r => rho (an_var r) = rho (an_var a) * rho (an_var a)).
Proof. intros rho r cs He H1 Hs. exact (wpS_emits rho _ _ _ _ (an_square_sound rho True a) He Hs). Qed.
Print Assumptions C12_square_sound.

Theorem C12_mul_complete (P : PrimeField) (s : PState P) (a b : AllocatedNum P) (x y : P) : wf_state s ->
  num_known s a x -> num_known s b y ->
  Complete (an_mul a b) s (fun rho r => rho (an_var r) = x * y /\ an_value r = Some (x * y)).
Proof.
  intros Hw Hx Hy. apply Complete_of; [auto|auto with struct_db|]. intros rho Ha H1.
  apply (an_mul_complete rho a b x y); eauto using num_known_hon.
Qed.
Print Assumptions C12_mul_complete.

Theorem C12_square_complete (P : PrimeField) (s : PState P) (a : AllocatedNum P) (x : P) : wf_state s ->
  num_known s a x ->
  Complete (an_square a) s (fun rho r => rho (an_var r) = x * x /\ an_value r = Some (x * x)).
Proof.
  intros Hw Hx. apply Complete_of; [auto|auto with struct_db|]. intros rho Ha H1.
  apply (an_square_complete rho a x); eauto using num_known_hon.
Qed.
Print Assumptions C12_square_complete.

(** [inputize] makes exactly one new public input, and the constraint says that it equals the number. *)
Theorem C12_inputize (P : PrimeField) (a : AllocatedNum P) (k : KState P) :
  exists k' cs, run (ShapeCS P) (an_inputize a) k = Done (Ok tt, k') /\
    k_inputs k' = S (k_inputs k) /\ k_aux k' = k_aux k /\ k_cons k' = k_cons k ++ cs /\
    forall rho, rho one_var = 1 -> (sat rho cs <-> rho (Input (k_inputs k)) = rho (an_var a)).
Proof. exact (inputize_shape a k). Qed.
Print Assumptions C12_inputize.

Theorem C12_inputize_complete (P : PrimeField) (s : PState P) (a : AllocatedNum P) (x : P) : wf_state s ->
  num_known s a x -> exists s' cs, run (HonestCS P) (an_inputize a) s = Done (Ok tt, s') /\
    p_inputs s' = p_inputs s ++ [x] /\ p_aux s' = p_aux s /\ p_cons s' = p_cons s ++ cs /\ sat (asg s') cs.
Proof. exact (inputize_honest s a x). Qed.
Print Assumptions C12_inputize_complete.

Theorem C12_assert_nonzero_sound (P : PrimeField) (a : AllocatedNum P) :
  Sound (an_assert_nonzero a) (fun rho _ => rho (an_var a) <> 0).
Proof. intros rho r cs He H1 Hs. exact (wpS_emits rho _ _ _ _ (an_assert_nonzero_sound rho H1 True a) He Hs). Qed.
Print Assumptions C12_assert_nonzero_sound.

Theorem C12_assert_nonzero_complete (P : PrimeField) (s : PState P) (a : AllocatedNum P) (x : P) : wf_state s ->
  num_known s a x -> x <> 0 -> Complete (an_assert_nonzero a) s (fun _ _ => True).
Proof.
  intros Hw Hx H0. apply Complete_of; [auto|auto with struct_db|]. intros rho Ha H1.
  apply (an_assert_nonzero_complete rho H1 a x); eauto using num_known_hon.
Qed.
Print Assumptions C12_assert_nonzero_complete.

Theorem C12_assert_nonzero_error (P : PrimeField) (s : PState P) (a : AllocatedNum P) :
  (exists s', run (HonestCS P) (an_assert_nonzero a) s = Done (Err DivisionByZero, s')) <-> an_value a = Some 0.
Proof. exact (assert_nonzero_error s a). Qed.
Print Assumptions C12_assert_nonzero_error.

Theorem C12_conditionally_reverse_sound (P : PrimeField) (a b : AllocatedNum P) (c : Boolean) :
  Sound (an_conditionally_reverse a b c) (fun rho r => forall t, den rho c t ->
    rho (an_var (fst r)) = rho (an_var (if t then b else a)) /\
    rho (an_var (snd r)) = rho (an_var (if t then a else b))).
Proof.
  intros rho r cs He H1 Hs t Ht. rewrite den_bit_is in Ht.
  pose proof (wpS_emits rho _ _ _ _ (an_conditionally_reverse_sound rho H1 True a b c t Ht) He Hs) as H.
  destruct t; exact H.
Qed.
Print Assumptions C12_conditionally_reverse_sound.

Theorem C12_conditionally_reverse_complete (P : PrimeField) (s : PState P) (a b : AllocatedNum P) (c : Boolean) x y t :
  wf_state s -> num_known s a x -> num_known s b y -> den_known s c t ->
  Complete (an_conditionally_reverse a b c) s (fun rho r =>
    rho (an_var (fst r)) = (if t then y else x) /\ an_value (fst r) = Some (if t then y else x) /\
    rho (an_var (snd r)) = (if t then x else y) /\ an_value (snd r) = Some (if t then x else y)).
Proof.
  intros Hw Hx Hy Hc. apply Complete_of; [auto|auto with struct_db|]. intros rho Ha H1.
  eapply wpC_okmono; [|apply (an_conditionally_reverse_complete rho H1 a b c x y t);
    eauto using num_known_hon, den_known_hon].
  intros r [[H2 H3] [H4 H5]]. auto.
Qed.
Print Assumptions C12_conditionally_reverse_complete.

Example C12_example :
  let s := ex_state [1000%Z; 300%Z; 1%Z] in
  num_known s (ex_num 0 1000) (ofZ 1000) /\
  ex_run (an_mul (ex_num 0 1000) (ex_num 1 300)) s an_out = Some ([41948%Z], 1%nat, true) /\
  ex_run (an_square (ex_num 1 300)) s an_out = Some ([25487%Z], 1%nat, true) /\
  ex_run (an_inputize (ex_num 1 300)) s (fun s _ => map toZ (p_inputs s)) = Some ([1%Z; 300%Z], 1%nat, true) /\
  ex_run (an_assert_nonzero (ex_num 1 300)) s (fun s _ => [toZ (asg s (Aux 3))]) = Some ([4946%Z], 1%nat, true) /\
  ex_run (an_conditionally_reverse (ex_num 0 1000) (ex_num 1 300) (BIs (ex_bit 2 true))) s
    (fun s r => an_out s (fst r) ++ an_out s (snd r)) = Some ([300%Z; 1000%Z], 2%nat, true).
Proof.
  cbv zeta. split; [split; [|split]|].
  - cbn. lia.
  - reflexivity.
  - reflexivity.
  - vm_compute. repeat split.
Qed.

(** * C13 *)
Theorem C13_strict_sound (P : PrimeField) (a : AllocatedNum P) :
  Sound (to_bits_le_strict a) (fun rho r =>
    Forall2 (den rho) r (bits_of (num_bits P) (toZ (rho (an_var a))))).
Proof.
  intros rho r cs He H1 Hs. rewrite bits_of_z2le.
  pose proof (wpS_emits rho _ _ _ _ (to_bits_le_strict_sound rho H1 True a) He Hs) as H.
  eapply Forall2_impl; [|exact H]. intros x b. apply den_bit_is.
Qed.
Print Assumptions C13_strict_sound.

Theorem C13_strict_complete (P : PrimeField) (s : PState P) (a : AllocatedNum P) (x : P) : wf_state s ->
  num_known s a x -> Complete (to_bits_le_strict a) s (fun rho r =>
    Forall2 (fun y b => den rho y b /\ b_value y = Some b) r (bits_of (num_bits P) (toZ x))).
Proof.
  intros Hw Hx. apply Complete_of; [auto|auto with struct_db|]. intros rho Ha H1. rewrite bits_of_z2le.
  eapply wpC_okmono; [|apply (to_bits_le_strict_complete rho H1 a x); eauto using num_known_hon].
  intros r. apply Forall2_impl. intros y b [H2 H3]. now rewrite den_bit_is.
Qed.
Print Assumptions C13_strict_complete.

Example C13_example :
  ex_run (to_bits_le_strict (ex_num 0 64512)) (ex_state [64512%Z]) (fun s l => flat_map (b_out s) l)
  = Some ([0; 0; 0; 0; 0; 0; 0; 0; 0; 0; 1; 1; 1; 1; 1; 1]%Z, 22%nat, true).
Proof. vm_compute. reflexivity. Qed.

(** * C14 *)

Theorem C14_plain_sound (P : PrimeField) (a : AllocatedNum P) :
  Sound (to_bits_le a) (fun rho r => length r = num_bits P /\ exists bs, Forall2 (den rho) r bs /\
    (le_value bs mod modulus P = toZ (rho (an_var a)))%Z).
Proof. exact (plain_sound a). Qed.
Print Assumptions C14_plain_sound.

Theorem C14_plain_complete (P : PrimeField) (s : PState P) (a : AllocatedNum P) (x : P) : wf_state s ->
  num_known s a x -> Complete (to_bits_le a) s (fun rho r =>
    Forall2 (fun y b => den rho y b /\ b_value y = Some b) r (bits_of (num_bits P) (toZ x))).
Proof.
  intros Hw Hx. apply Complete_of; [auto|auto with struct_db|]. intros rho Ha H1. rewrite bits_of_z2le.
  eapply wpC_okmono; [|apply (to_bits_le_complete rho H1 a x); eauto using num_known_hon].
  intros r. apply Forall2_impl. intros y b [H2 H3]. now rewrite den_bit_is.
Qed.
Print Assumptions C14_plain_complete.

(** Every bit string of the right length and residue class is accepted: the key generator's
    constraints [cs] for [to_bits_le] are satisfied by some continuation [rho] of the current assignment whose
    output bits are [bs]. *)
Theorem C14_noncanonical_accepted (P : PrimeField) (s : PState P) (a : AllocatedNum P) (bs : list bool) : wf_state s ->
  known s (an_var a) -> length bs = num_bits P -> (le_value bs mod modulus P = toZ (asg s (an_var a)))%Z ->
  exists r k' cs rho, run (ShapeCS P) (to_bits_le a) (shape_of s) = Done (Ok r, k') /\
    k_cons k' = p_cons s ++ cs /\ agrees rho s /\ sat rho cs /\ Forall2 (den rho) r bs.
Proof. exact (plain_accepts s a bs). Qed.
Print Assumptions C14_noncanonical_accepted.

(** 64513 + 5 fits 16 bits, so 5 has a second accepted decomposition. *)
Example C14_example :
  ex_run (to_bits_le (ex_num 0 5)) (ex_state [5%Z]) (fun s l => flat_map (b_out s) l)
  = Some ([1; 0; 1; 0; 0; 0; 0; 0; 0; 0; 0; 0; 0; 0; 0; 0]%Z, 17%nat, true) /\
  (let bs := bits_of 16 (64513 + 5) in length bs = num_bits Fr64513 /\
     le_value bs mod modulus Fr64513 = toZ (asg (ex_state [5]) (Aux 0)) /\ le_value bs <> 5)%Z.
Proof. split; [vm_compute; reflexivity|]. cbv zeta. repeat split; vm_compute; congruence. Qed.

(** * C15 *)

Theorem C15_lc (P : PrimeField) (rho : Var -> P) (l : list (Boolean * P)) (bs : list bool) (coeff : P) :
  rho one_var = 1 -> Forall2 (fun bc b => den rho (fst bc) b) l bs ->
  eval rho (num_lc (num_sum num_zero l) coeff) = coeff * true_coeffs bs l.
Proof. exact (num_sum_lc rho l bs coeff). Qed.
Print Assumptions C15_lc.

Theorem C15_value (P : PrimeField) (l : list (Boolean * P)) (bs : list bool) :
  Forall2 (fun bc b => b_value (fst bc) = Some b) l bs ->
  num_value (num_sum num_zero l) = Some (true_coeffs bs l).
Proof. exact (num_sum_value l bs). Qed.
Print Assumptions C15_value.

Theorem C15_unknown (P : PrimeField) (l : list (Boolean * P)) (n : Num P) :
  (num_value n = None \/ Exists (fun bc => b_value (fst bc) = None) l) -> num_value (num_sum n l) = None.
Proof. exact (num_sum_unknown l n). Qed.
Print Assumptions C15_unknown.

(** From an allocated number. *)
Theorem C15_from_allocated (P : PrimeField) (rho : Var -> P) (a : AllocatedNum P) (coeff : P) :
  eval rho (num_lc (num_of_allocated a) coeff) = coeff * rho (an_var a) /\
  num_value (num_of_allocated a) = an_value a.
Proof. split; [rewrite (num_lc_eval rho), (num_of_allocated_eval rho)|]; reflexivity. Qed.
Print Assumptions C15_from_allocated.

Example C15_example :
  let s := ex_state [1%Z; 0%Z] in
  let l := [(BIs (ex_bit 0 true), ofZ 3); (BNot (ex_bit 1 false), ofZ 50); (BConst false, ofZ 700)] in
  toZ (eval (asg s) (num_lc (num_sum num_zero l) (ofZ 2))) = 106%Z /\
  option_map toZ (num_value (num_sum num_zero l)) = Some 53%Z.
Proof. vm_compute. split; reflexivity. Qed.
