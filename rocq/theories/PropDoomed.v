(** Property theorem C72: circuits put together from gadgets for which no proof can ever be made. *)
From Coq Require Import String.
From Coq Require Import ZArith List Bool Lia.
From Verif Require Import Prelude PrimeField Fields FModule Circuit Loops BooleanGadget NumGadget LookupGadget Multipack MultiEq UInt32 Sha256 Blake2s
  Multicore Domain DomainProof Multiexp MultiexpProof PropMultiexp Assembly AssemblyProof Groth16 PropAssembly PropGenerator PropGroth16 PropScope PropCovered PropDense.
From Verif Require PropDomain Scope.
Import ListNotations.
Local Open Scope nat_scope.

(** ** Specification *)

(** Circuits put together from public gadgets (of src/gadgets) in namespaces; they neither allocate nor enforce anything themselves. *)
Inductive from_gadgets {P : PrimeField} : forall A, prog P (res A) -> Prop :=
| fg_ok A (a : A) : from_gadgets A (Ret (Ok a))
| fg_then A B (p : prog P (res A)) (g : A -> prog P (res B)) : from_gadgets A p -> (forall a, from_gadgets B (g a)) -> from_gadgets B (bindq p g)
| fg_namespace A n (p : prog P (res A)) : from_gadgets A p -> from_gadgets A (ns n p)
| fg_bit v : from_gadgets _ (ab_alloc v)
| fg_xor a b : from_gadgets _ (b_xor a b)
| fg_and a b : from_gadgets _ (b_and a b)
| fg_ch a b c : from_gadgets _ (b_ch a b c)
| fg_maj a b c : from_gadgets _ (b_maj a b c)
| fg_same_bit a b : from_gadgets _ (b_enforce_equal a b)
| fg_num v : from_gadgets _ (an_alloc v)
| fg_mul a b : from_gadgets _ (an_mul a b)
| fg_square a : from_gadgets _ (an_square a)
| fg_nonzero a : from_gadgets _ (an_assert_nonzero a)
| fg_reverse a b c : from_gadgets _ (an_conditionally_reverse a b c)
| fg_bits a : from_gadgets _ (to_bits_le a)
| fg_bits_strict a : from_gadgets _ (to_bits_le_strict a)
| fg_inputize a : from_gadgets _ (an_inputize a)
| fg_lookup bits coords : from_gadgets _ (lookup3_xy bits coords)
| fg_lookup_neg bits coords : from_gadgets _ (lookup3_xy_neg bits coords)
| fg_word v : from_gadgets _ (u_alloc v)
| fg_word_xor a b : from_gadgets _ (u_xor a b)
| fg_word_ch a b c : from_gadgets _ (u_ch a b c)
| fg_word_maj a b c : from_gadgets _ (u_maj a b c)
| fg_sum ops : from_gadgets _ (multieq_scope (addmany ops))
| fg_sha256 bits : from_gadgets _ (sha256 bits)
| fg_blake2s bits person : from_gadgets _ (blake2s bits person)
| fg_pack bits : from_gadgets _ (pack_into_inputs bits).

(** The prover has a satisfying assignment and all variables are constrained, so that keys can be generated (C70_keys), but no keys and no randomness are good for a proof. *)
Definition doomed {P : PrimeField} (circuit : prog P (res unit)) : Prop :=
  exists inst wit, describes circuit inst /\ assigns circuit wit /\ same_circuit inst wit /\ addressable wit /\ satisfying wit /\ all_constrained inst /\
  forall (E : Engine P) w w' ln_ceil (g1 : E_G1 E) (g2 : E_G2 E) alpha beta gamma delta tau params r s proof,
    wf_worker w -> wf_worker w' -> sane_ln_ceil ln_ceil -> g1 <> gzero -> g2 <> gzero ->
    generate_parameters w circuit g1 g2 alpha beta gamma delta tau = Done (Ok params) -> create_proof w' ln_ceil circuit params r s <> Done (Ok proof).

(** ** Auxiliary: these can be decided. *)
Section Decide.
Context {P : PrimeField}.
Definition lc_same (l m : LC P) : bool :=
  Nat.eqb (length l) (length m) && forallb (fun x => var_eqb (fst (fst x)) (fst (snd x)) && feqb (snd (fst x)) (snd (snd x))) (combine l m).
Definition con_same (x y : Constraint P) : bool := lc_same (fst (fst x)) (fst (fst y)) && lc_same (snd (fst x)) (snd (fst y)) && lc_same (snd x) (snd y).
Definition cons_same (l m : list (Constraint P)) : bool := Nat.eqb (length l) (length m) && forallb (fun x => con_same (fst x) (snd x)) (combine l m).
Lemma pointwise {A} (f : A -> A -> bool) (Hf : forall x y, f x y = true -> x = y) l : forall m, Nat.eqb (length l) (length m) && forallb (fun x => f (fst x) (snd x)) (combine l m) = true -> l = m.
Proof.
  induction l as [|x l IH]; intros [|y m] H; try discriminate; [reflexivity|]. cbn in H. apply andb_true_iff in H as [H1 H2]. apply andb_true_iff in H2 as [H2 H3].
  f_equal; [now apply Hf|]. apply IH. now rewrite H1, H3.
Qed.
Lemma lc_same_eq l m : lc_same l m = true -> l = m.
Proof.
  apply (pointwise (fun x y => var_eqb (fst x) (fst y) && feqb (snd x) (snd y))). intros [u c] [v d] H. cbn [fst snd] in H. apply andb_true_iff in H as [H1 H2].
  destruct (Scope.var_eqb_spec u v); [|discriminate]. destruct (feqb_spec c d); [|discriminate]. now subst.
Qed.
Lemma cons_same_eq l m : cons_same l m = true -> l = m.
Proof.
  apply pointwise. intros [[a b] c] [[a' b'] c'] H. unfold con_same in H. cbn [fst snd] in H. apply andb_true_iff in H as [H H3]. apply andb_true_iff in H as [H1 H2].
  now rewrite (lc_same_eq _ _ H1), (lc_same_eq _ _ H2), (lc_same_eq _ _ H3).
Qed.
Definition partb (k : Constraint P) (v : Var) : bool :=
  negb (feqb (coefficient (fst (fst k)) v) fzero) || negb (feqb (coefficient (snd (fst k)) v) fzero) || negb (feqb (coefficient (snd k) v) fzero).
(** What [v] is checked to violate: it is written down in an A part, but cancels in all of them. *)
Definition doomedb (v : nat) (inst : KState P) (wit : PState P) : bool :=
  Nat.eqb (k_inputs inst) (length (p_inputs wit)) && Nat.eqb (k_aux inst) (length (p_aux wit)) && cons_same (k_cons inst) (p_cons wit) &&
  Nat.ltb (length (p_inputs wit)) 1000 && Nat.ltb (length (p_aux wit)) 1000 && Nat.ltb (length (p_cons wit)) 1000 &&
  forallb (fun k => feqb (eval (value wit) (fst (fst k)) * eval (value wit) (snd (fst k)))%F (eval (value wit) (snd k))) (p_cons wit) &&
  forallb (fun i => existsb (fun k => partb k (Aux i)) (k_cons inst)) (seq 0 (k_aux inst)) &&
  Nat.ltb v (k_aux inst) && writtenb part_A (Aux v) (k_cons inst) && negb (someb part_A (Aux v) (k_cons inst)).
Lemma doomedb_ok v (circuit : prog P (res unit)) :
  match synthesize (ShapeCS P) {| k_inputs := 0; k_aux := 0; k_cons := [] |} k_inputs circuit, synthesize (HonestCS P) {| p_inputs := []; p_aux := []; p_cons := [] |} (fun s => length (p_inputs s)) circuit with
  | Done (Ok inst), Done (Ok wit) => doomedb v inst wit
  | _, _ => false
  end = true -> doomed circuit.
Proof.
  destruct (synthesize (ShapeCS P) _ _ circuit) as [[inst|]|] eqn:D; try discriminate. destruct (synthesize (HonestCS P) _ _ circuit) as [[wit|]|] eqn:A; try discriminate.
  intros H. unfold doomedb in H. repeat (apply andb_true_iff in H as [H ?H]). exists inst, wit. split; [exact D|]. split; [exact A|].
  apply Nat.eqb_eq in H, H9. apply cons_same_eq in H8. apply Nat.ltb_lt in H7, H6, H5, H2. rewrite forallb_forall in H4, H3.
  assert (S : same_circuit inst wit) by (split; [exact H|split; [exact H9|exact H8]]).
  assert (Ad : addressable wit) by (unfold addressable; lia). split; [exact S|]. split; [exact Ad|]. split; [|split].
  - intros a b c Hin. specialize (H4 _ Hin). cbn [fst snd] in H4. destruct (feqb_spec (eval (value wit) a * eval (value wit) b)%F (eval (value wit) c)); [assumption|discriminate].
  - intros i Hi. specialize (H3 i (proj2 (in_seq _ _ _) (conj (Nat.le_0_l _) Hi))). apply existsb_exists in H3 as ([[a b] c] & Hk & Hp). exists (a, b, c). split; [exact Hk|].
    unfold partb in Hp. cbn [fst snd] in Hp. unfold constrained_by. destruct (feqb_spec (coefficient a (Aux i)) fzero); [|auto]. destruct (feqb_spec (coefficient b (Aux i)) fzero); [|auto].
    destruct (feqb_spec (coefficient c (Aux i)) fzero); [discriminate|auto].
  - intros E w w' ln_ceil g1 g2 alpha beta gamma delta tau params r s proof Hw Hw' Hln Hg1 Hg2 Hgen Hc.
    pose proof (C71_needed w w' ln_ceil circuit circuit inst wit g1 g2 alpha beta gamma delta tau params r s proof Hw Hw' Hln D A S Ad Hg1 Hg2 Hgen Hc) as U.
    pose proof (proj1 (U (Aux v) H2) I (proj1 (writtenb_spec _ _ _) H1)) as X. apply negb_true_iff in H0. apply (proj2 (someb_spec part_A (Aux v) (k_cons inst))) in X. congruence.
Qed.
End Decide.

(** ** C72 *)
Local Open Scope prog_scope.
Local Open Scope string_scope.

(** Choosing between a bit and itself: the A part [b - c] of src/gadgets/boolean.rs:609 is [x - x]. *)
Definition choose_same : prog Goldilocks (res unit) :=
  let* a := ns "a" (ab_alloc (Some true)) in let* b := ns "b" (ab_alloc (Some false)) in let* x := ns "x" (b_xor (BIs a) (BIs b)) in
  let* s := ns "s" (ab_alloc (Some true)) in let* y := ns "choose" (b_ch (BIs s) x x) in Ret (Ok tt).
(** Possibly swapping a number and itself *)
Definition swap_same : prog Goldilocks (res unit) :=
  let* y := ns "y" (an_alloc (Ok (fone : Goldilocks))) in let* x := ns "x" (an_square y) in let* c := ns "c" (ab_alloc (Some true)) in
  let* r := ns "swap" (an_conditionally_reverse x x (BIs c)) in Ret (Ok tt).
(** The sum of two words with opposite lowest bits and no other bits *)
Definition low_bit (x : Boolean) : UInt32 := match from_bits (x :: repeat (BConst false) 31) with Done u => u | Panicked => u_constant 0 end.
Definition sum_of_opposites : prog Goldilocks (res unit) :=
  let* a := ns "a" (ab_alloc (Some true)) in let* b := ns "b" (ab_alloc (Some false)) in let* x := ns "x" (b_xor (BIs a) (BIs b)) in
  let* y := ns "sum" (multieq_scope (addmany [low_bit x; low_bit (b_not x)])) in Ret (Ok tt).

Local Ltac gadgets := repeat first [apply fg_then; [apply fg_namespace; first [apply fg_bit|apply fg_xor|apply fg_and|apply fg_ch|apply fg_maj|apply fg_num|apply fg_square|apply fg_reverse|apply fg_sum]|intros ?]|apply fg_ok].
(** "A circuit put together from gadgets and with all its variables constrained can be proved, given a satisfying assignment."
    It can not, if the A part of some gadget cancels: [LinearCombination] keeps a term for each addition and subtraction (src/lib.rs:204-300), the prover counts
    terms with non-zero coefficients one by one (groth16/src/prover.rs:19-55), and the keys have no point for the variable whose terms cancel. *)
Theorem C72_from_gadgets_refuted : exists circuit : prog Goldilocks (res unit), from_gadgets _ circuit /\ doomed circuit /\
  exists params, generate_parameters (E := DummyEngine Goldilocks) (Multicore 2) circuit fone fone (ofZ 3) (ofZ 5) (ofZ 7) (ofZ 11) (ofZ 13) = Done (Ok params).
Proof.
  exists choose_same. split; [|split].
  - gadgets.
  - apply (doomedb_ok 2). vm_compute. reflexivity.
  - assert (X : match generate_parameters (E := DummyEngine Goldilocks) (Multicore 2) choose_same fone fone (ofZ 3) (ofZ 5) (ofZ 7) (ofZ 11) (ofZ 13) with Done (Ok _) => true | _ => false end = true)
      by (vm_compute; reflexivity).
    destruct (generate_parameters _ choose_same _ _ _ _ _ _ _) as [[params|]|]; try discriminate X. eauto.
Qed.
Print Assumptions C72_from_gadgets_refuted.

(** Numbers and words have such gadgets, too. *)
Theorem C72_numbers_and_words : from_gadgets _ swap_same /\ doomed swap_same /\ from_gadgets _ sum_of_opposites /\ doomed sum_of_opposites.
Proof.
  split; [|split; [|split]].
  - gadgets.
  - apply (doomedb_ok 1). vm_compute. reflexivity.
  - gadgets.
  - apply (doomedb_ok 2). vm_compute. reflexivity.
Qed.
Print Assumptions C72_numbers_and_words.

(** Not doomed is, for example, the circuit of majority and conjunction of C66 to C71: its instance is [uncancelled], so by C71_keys_serve almost all keys serve every prover. *)
Example C72_ex : from_gadgets _ sc_maj /\ exists inst, describes sc_maj inst /\ all_constrained inst /\ uncancelled inst.
Proof.
  split; [gadgets|].
  destruct C71_ex as (inst & D & _ & _ & A & U). eauto.
Qed.
