(** Property C60: the circuits and the tests of groth16/src/tests/mod.rs. *)
From Coq Require Import String.
From Coq Require Import ZArith List Bool Lia Field.
From Verif Require Import Prelude PrimeField Fields FModule Circuit Loops Multicore Multiexp MultiexpProof PropMultiexp Assembly AssemblyProof PropAssembly Groth16 GeneratorProof PropGenerator PropGroth16 PropRandom PropDeterminism Mimc MimcProof Demo.
From Verif Require PropDomain.
Import ListNotations.
Local Open Scope nat_scope.

(** * C60 *)
Section C60.
Context {P : PrimeField}.
Add Field PFc60 : (F_field P).

(** The calls of the circuits. *)
Definition xor_calls (a b : bool) : list (call P) :=
  [CallAlloc (scalar_of a); CallEnforce (lc_zero +v one_var -v Aux 0)%lc (lc_zero +v Aux 0)%lc lc_zero;
   CallAlloc (scalar_of b); CallEnforce (lc_zero +v one_var -v Aux 1)%lc (lc_zero +v Aux 1)%lc lc_zero;
   CallAllocInput (scalar_of (xorb a b));
   CallEnforce (lc_zero +v Aux 0 +v Aux 0)%lc (lc_zero +v Aux 1)%lc (lc_zero +v Aux 0 +v Aux 1 -v Input 1)%lc].
Definition mult_calls (a b c : P) (one : bool) : list (call P) :=
  [CallAlloc a; CallAlloc b; CallAlloc c;
   CallEnforce (lc_zero +v Aux 0)%lc (lc_zero +t (fzero, if one then one_var else Aux 0) +v Aux 1)%lc (lc_zero +v Aux 2)%lc].

Lemma xor_keypair a b : synthesize_keypair (xor_demo None None) = synthesize_keypair (circuit_of (xor_calls a b)).
Proof.
  unfold synthesize_keypair, synthesize. rewrite !run_bindq. unfold cs_alloc_input, cs_alloc. cbn -[xor_demo circuit_of xor_calls obind ka_new]. cbn [obind fst snd]. f_equal.
Qed.
Lemma xor_shape a b : synthesize_shape (xor_demo None None) = synthesize_shape (circuit_of (xor_calls a b)).
Proof. reflexivity. Qed.
Lemma enforce_keeps (s s' : ProvingAssignment P) n a b c : m_enforce (ProvingCS P) s n a b c = Done s' ->
  aux_assignment s' = aux_assignment s /\ input_assignment s' = input_assignment s.
Proof.
  intros H. cbn in H. destruct (pa_eval a _ _ _ _ _) as [[[x1 x2] x3]|]; cbn in H; [|discriminate]. destruct (pa_eval b _ _ _ _ _) as [[[x4 x5] x6]|]; cbn in H; [|discriminate].
  destruct (pa_eval c _ _ _ _ _) as [[[x7 x8] x9]|]; cbn in H; [|discriminate]. injection H as <-. auto.
Qed.
Lemma xor_prover a b : synthesize_prover (xor_demo (Some a) (Some b)) = synthesize_prover (circuit_of (xor_calls a b)).
Proof.
  unfold synthesize_prover, synthesize. rewrite !run_bindq. unfold cs_alloc_input, cs_alloc. cbn -[xor_demo circuit_of xor_calls obind]. cbn [obind fst snd]. f_equal.
  unfold xor_demo, xor_calls, cs_alloc, cs_alloc_input, bindq, cs_enforce. cbn [bind run circuit_of m_alloc ProvingCS option_map get obind fst snd aux_assignment input_assignment length app Nat.sub].
  match goal with |- obind ?x _ = obind ?y _ => change y with x; destruct x as [s1|] eqn:E1; [|reflexivity] end. cbn [obind].
  apply enforce_keeps in E1 as [A1 I1]. cbn [aux_assignment input_assignment app length] in A1, I1. rewrite A1. cbn [app length Nat.sub].
  match goal with |- obind ?x _ = obind ?y _ => change y with x; destruct x as [s2|] eqn:E2; [|reflexivity] end. cbn [obind].
  apply enforce_keeps in E2 as [A2 I2]. cbn [aux_assignment input_assignment app length] in A2, I2.
  cbn [m_alloc_input ProvingCS obind fst snd]. rewrite I2, I1. reflexivity.
Qed.
Lemma xor_honest a b : synthesize_honest (xor_demo (Some a) (Some b)) = synthesize_honest (circuit_of (xor_calls a b)).
Proof. reflexivity. Qed.
Lemma mult_keypair a b c one : synthesize_keypair (mult_zero a b c one) = synthesize_keypair (circuit_of (mult_calls a b c one)).
Proof.
  unfold synthesize_keypair, synthesize. rewrite !run_bindq. unfold cs_alloc_input, cs_alloc. cbn -[mult_zero circuit_of mult_calls obind ka_new]. cbn [obind fst snd]. f_equal.
  destruct one; reflexivity.
Qed.
Lemma mult_shape a b c one : synthesize_shape (mult_zero a b c one) = synthesize_shape (circuit_of (mult_calls a b c one)).
Proof. destruct one; reflexivity. Qed.
Lemma mult_prover a b c one : synthesize_prover (mult_zero a b c one) = synthesize_prover (circuit_of (mult_calls a b c one)).
Proof.
  unfold synthesize_prover, synthesize. rewrite !run_bindq. unfold cs_alloc_input, cs_alloc. cbn -[mult_zero circuit_of mult_calls obind]. cbn [obind fst snd]. f_equal.
  destruct one; reflexivity.
Qed.
Lemma mult_honest a b c one : synthesize_honest (mult_zero a b c one) = synthesize_honest (circuit_of (mult_calls a b c one)).
Proof. destruct one; reflexivity. Qed.

Lemma nothing_scoped : scoped (P := P) [].
Proof. intros before a b c after v H. destruct before; discriminate. Qed.
Lemma xor_scoped a b : scoped (P := P) (xor_calls a b).
Proof.
  apply (in_scope_scoped (xor_calls a b) [] nothing_scoped). unfold xor_calls. cbn [in_scope the_inputs the_aux flat_map List.length].
  repeat split; repeat constructor; cbn; lia.
Qed.
Lemma mult_scoped a b c one : scoped (mult_calls a b c one).
Proof.
  apply (in_scope_scoped (mult_calls a b c one) [] nothing_scoped). unfold mult_calls. cbn [in_scope the_inputs the_aux flat_map List.length].
  destruct one; repeat split; repeat constructor; cbn; lia.
Qed.

(** ** The statement that is proved *)

(** The two circuits: the constraints of the key, and the prover's assignment. *)
Lemma xor_describes : describes (P := P) (xor_demo None None)
  {| k_inputs := 2; k_aux := 2; k_cons := all_constraints (xor_calls false false) |}.
Proof. change (synthesize_shape (P := P) (xor_demo None None) = Done (Ok {| k_inputs := 2; k_aux := 2; k_cons := all_constraints (xor_calls false false) |})). now rewrite (xor_shape false false), shape_synth. Qed.
Lemma xor_assigns a b : assigns (P := P) (xor_demo (Some a) (Some b))
  {| p_inputs := [fone; scalar_of (xorb a b)]; p_aux := [scalar_of a; scalar_of b]; p_cons := all_constraints (xor_calls false false) |}.
Proof.
  change (synthesize_honest (P := P) (xor_demo (Some a) (Some b)) = Done (Ok {| p_inputs := [fone; scalar_of (xorb a b)]; p_aux := [scalar_of a; scalar_of b]; p_cons := all_constraints (xor_calls false false) |})).
  now rewrite xor_honest, honest_synth.
Qed.

Lemma add_one_minus (x : P) : ((0 + 1 - x) * (0 + x))%F = fzero -> exists b, x = scalar_of b.
Proof.
  intros H. destruct (feqb_spec x fzero) as [->|Hx]; [now exists false|]. exists true. cbn [scalar_of].
  assert (X : (x * (1 - x))%F = fzero) by (rewrite <- H; ring). destruct (feqb_spec (1 - x)%F fzero) as [E|E].
  - transitivity (1 - (1 - x))%F; [ring|]. rewrite E. ring.
  - exfalso. destruct (fmul_0 _ _ X); contradiction.
Qed.
Lemma evals (rho : Var -> P) (c : P) v l : eval rho [] = fzero /\ eval rho ((v, c) :: l) = (c * rho v + eval rho l)%F.
Proof. split; [reflexivity|]. rewrite eval_cons. cbn. ring. Qed.

Lemma sat_xor (rho : Var -> P) : rho one_var = fone ->
  ((forall a b c, In (a, b, c) (all_constraints (xor_calls false false)) -> (eval rho a * eval rho b)%F = eval rho c) <->
   exists a b, rho (Aux 0) = scalar_of a /\ rho (Aux 1) = scalar_of b /\ rho (Input 1) = scalar_of (xorb a b)).
Proof.
  intros H1. split.
  - intros H.
    pose proof (H _ _ _ (or_introl eq_refl)) as C1. pose proof (H _ _ _ (or_intror (or_introl eq_refl))) as C2.
    pose proof (H _ _ _ (or_intror (or_intror (or_introl eq_refl)))) as C3. clear H.
    rewrite !eval_sub_var, !eval_add_var, eval_zero, H1 in C1. rewrite !eval_sub_var, !eval_add_var, eval_zero, H1 in C2. rewrite !eval_sub_var, !eval_add_var, eval_zero in C3.
    apply add_one_minus in C1 as [a Ea]. apply add_one_minus in C2 as [b Eb]. exists a, b. repeat split; auto. rewrite Ea, Eb in C3.
    transitivity (scalar_of a + scalar_of b - (0 + scalar_of a + scalar_of b - rho (Input 1)))%F; [ring|]. rewrite <- C3. destruct a, b; cbn; ring.
  - intros (a & b & Ea & Eb & Ec) x y z Hin. cbn in Hin.
    repeat destruct Hin as [Hin|Hin]; try contradiction; injection Hin as <- <- <-;
      rewrite ?eval_sub_var, ?eval_add_var, ?eval_zero, ?eval_cons, ?eval_nil, ?H1, ?Ea, ?Eb, ?Ec; destruct a, b; cbn; ring.
Qed.

(** Satisfying assignments are two bits and their exclusive or. *)
Theorem C60_xor_statement inst (rho : Var -> P) : describes (xor_demo None None) inst -> rho (Input 0) = fone ->
  k_inputs inst = 2 /\ k_aux inst = 2 /\
  ((forall a b c, In (a, b, c) (k_cons inst) -> (eval rho a * eval rho b)%F = eval rho c) <->
   exists a b, rho (Aux 0) = scalar_of a /\ rho (Aux 1) = scalar_of b /\ rho (Input 1) = scalar_of (xorb a b)).
Proof.
  intros Hd H1. pose proof xor_describes as D. unfold describes in *. rewrite D in Hd. injection Hd as <-. cbn [k_inputs k_aux k_cons].
  repeat split; [apply (sat_xor rho H1)|apply (sat_xor rho H1)].
Qed.

(** What the prover assigns is satisfying, whatever the bits. *)
Theorem C60_xor_complete a b : exists wit, assigns (P := P) (xor_demo (Some a) (Some b)) wit /\ satisfying wit /\
  public_inputs wit = [scalar_of (xorb a b)] /\ addressable wit /\ forall inst, describes (xor_demo None None) inst -> same_circuit inst wit.
Proof.
  eexists. split; [apply xor_assigns|]. split; [|split; [reflexivity|split; [split; [|split]; reflexivity || (vm_compute; congruence)|]]].
  - unfold satisfying. cbn [p_cons]. apply sat_xor; [reflexivity|]. exists a, b. repeat split.
  - intros inst Hd. pose proof xor_describes as D. unfold describes in *. rewrite D in Hd. injection Hd as <-. repeat split.
Qed.

(** Satisfying assignments of the other circuit are products, whichever variable has the zero coefficient. *)
Theorem C60_mult_statement x y z is_one inst (rho : Var -> P) : describes (mult_zero x y z is_one) inst -> rho (Input 0) = fone ->
  k_inputs inst = 1 /\ k_aux inst = 3 /\
  ((forall a b c, In (a, b, c) (k_cons inst) -> (eval rho a * eval rho b)%F = eval rho c) <-> (rho (Aux 0) * rho (Aux 1))%F = rho (Aux 2)).
Proof.
  intros Hd H1. pose proof (shape_synth (mult_calls x y z is_one)) as D. rewrite <- mult_shape in D. unfold describes in *. unfold synthesize_shape, shape_new in D. rewrite D in Hd.
  injection Hd as <-. cbn [k_inputs k_aux k_cons]. split; [destruct is_one; reflexivity|]. split; [destruct is_one; reflexivity|]. split.
  - intros H. destruct is_one; specialize (H _ _ _ (or_introl eq_refl)); rewrite ?eval_add_var, ?eval_add_term, ?eval_zero in H;
      transitivity (0 + rho (Aux 2))%F; try ring; rewrite <- H; ring.
  - intros H a b c Hin. destruct is_one; cbn in Hin; repeat destruct Hin as [Hin|Hin]; try contradiction; injection Hin as <- <- <-;
      rewrite ?eval_add_var, ?eval_add_term, ?eval_zero, ?eval_cons, ?eval_nil, <- ?H; ring.
Qed.

(** ** With keys and proofs *)
Section Keys.
Context {E : Engine P} (g1 : E_G1 E) (g2 : E_G2 E).

Theorem C60_xor_proofs_verify (w w' : Worker) (ln_ceil : Z -> nat) (alpha beta gamma delta tau r s : P) a b params proof :
  wf_worker w -> wf_worker w' -> sane_ln_ceil ln_ceil ->
  generate_parameters w (xor_demo None None) g1 g2 alpha beta gamma delta tau = Done (Ok params) ->
  create_proof w' ln_ceil (xor_demo (Some a) (Some b)) params r s = Done (Ok proof) ->
  verify_proof (prepare_verifying_key (p_vk params)) proof [scalar_of (xorb a b)] = Done (Ok tt).
Proof.
  intros Hw Hw' Hln Hg Hc. destruct (C60_xor_complete a b) as (wit & Ha & Hs & Hp & Hadd & Hsame). rewrite <- Hp.
  eapply C37_proofs_verify; [exact Hw|exact Hw'|exact Hln|exact Hg|apply xor_describes|exact Ha|apply Hsame, xor_describes|exact Hadd|exact Hs|exact Hc].
Qed.

Ltac coefs := repeat match goal with k := (_, _, _) : Constraint _ |- _ => subst k end; unfold part_A, part_B, part_C, lc_add_var, lc_sub_var, lc_sub_term, lc_add_term, lc_zero; cbn; ring.

(** For all but a few [tau], keys are generated and proofs are made, and verify. *)
Theorem C60_xor_few_failures (w w' : Worker) (ln_ceil : Z -> nat) (alpha beta gamma delta : P) a b (bad : list P) :
  wf_worker w -> wf_worker w' -> sane_ln_ceil ln_ceil -> 3 < two_adicity P ->
  g1 <> gzero -> g2 <> gzero -> alpha <> beta -> gamma <> fzero -> delta <> fzero ->
  NoDup bad ->
  (forall tau, In tau bad -> ~ all_goes_well w w' ln_ceil (xor_demo None None) (xor_demo (Some a) (Some b)) g1 g2 alpha beta gamma delta [scalar_of (xorb a b)] tau) ->
  List.length bad <= 79.
Proof.
  intros Hw Hw' Hln HS H1 H2 Hab Hg Hd Hn Hbad. destruct (C60_xor_complete a b) as (wit & Ha & Hs & Hp & Hadd & Hsame). rewrite <- Hp in Hbad.
  pose proof xor_describes as D. pose proof (Hsame _ D) as Hsm. pose proof (xor_assigns a b) as A. unfold assigns in A, Ha. rewrite A in Ha. injection Ha as <-.
  destruct (proj1 (C06_keygen_defined (xor_calls a b)) (xor_scoped a b)) as [ks Ek].
  destruct (prover_defined _ _ Ek) as [t Et]. rewrite <- xor_prover in Et. rewrite <- xor_keypair in Ek.
  change 79 with (2 ^ 3 + 1 + (2 * 2 + 3 * 2) * (2 ^ 3 - 1)).
  refine (C54_few_failures w w' ln_ceil _ _ ks t _ _ 3 g1 g2 alpha beta gamma delta bad Hw Hw' Hln Ek D Et A Hsm Hadd Hs _ HS _ H1 H2 Hg Hd _ Hn Hbad).
  - change (PropDomain.domain_exponent 5 3). split; [cbn; lia|]. intros e' He'. destruct e' as [|[|[|]]]; cbn; lia.
  - intros _. cbn. lia.
  - assert (N1 : forall x : P, x = (-(1))%F -> x <> fzero).
    { intros x -> X. apply (f_1_neq_0 (P := P)). transitivity (- - (1 : P))%F; [ring|]. rewrite X. ring. }
    assert (N2 : forall x : P, x = fone -> x <> fzero) by (intros x ->; apply f_1_neq_0).
    assert (N3 : forall x : P, x = (alpha - beta)%F -> x <> fzero).
    { intros x -> X. apply Hab. transitivity (alpha - beta + beta)%F; [ring|]. rewrite X. ring. }
    set (k0 := ((lc_zero +v one_var -v Aux 0)%lc, (lc_zero +v Aux 0)%lc, lc_zero) : Constraint P).
    set (k1 := ((lc_zero +v one_var -v Aux 1)%lc, (lc_zero +v Aux 1)%lc, lc_zero) : Constraint P).
    match goal with |- no_cancellation _ _ ?wt => assert (I0 : In k0 (p_cons wt)) by (left; reflexivity); assert (I1 : In k1 (p_cons wt)) by (right; left; reflexivity) end.
    split; [|split].
    + intros i (k & c & Hk & Hin & Hc).
      assert (i = 0 \/ i = 1) as [-> | ->].
      { clear - Hk Hin Hc. cbn in Hk. repeat destruct Hk as [<-|Hk]; try contradiction; cbn in Hin; repeat destruct Hin as [Hin|Hin]; try contradiction; try discriminate; injection Hin as ? ?; subst; tauto. }
      * exists k0. split; [exact I0|]. apply N1. coefs.
      * exists k1. split; [exact I1|]. apply N1. coefs.
    + intros v (k & c & Hk & Hin & Hc).
      assert (v = Aux 0 \/ v = Aux 1) as [-> | ->].
      { clear - Hk Hin Hc. cbn in Hk. repeat destruct Hk as [<-|Hk]; try contradiction; cbn in Hin; repeat destruct Hin as [Hin|Hin]; try contradiction; try discriminate; injection Hin as ? ?; subst; tauto. }
      * exists k0. split; [exact I0|]. apply N2. coefs.
      * exists k1. split; [exact I1|]. apply N2. coefs.
    + intros i Hi. cbn in Hi. assert (i = 0 \/ i = 1) as [-> | ->] by lia.
      * exists k0. split; [exact I0|]. apply N3. coefs.
      * exists k1. split; [exact I1|]. apply N3. coefs.
Qed.

(** The circuit with a zero coefficient, proved with any factors and their product. *)
Theorem C60_mult_few_failures (w w' : Worker) (ln_ceil : Z -> nat) (alpha beta gamma delta : P) x y is_one (bad : list P) :
  wf_worker w -> wf_worker w' -> sane_ln_ceil ln_ceil -> 1 < two_adicity P ->
  g1 <> gzero -> g2 <> gzero -> alpha <> fzero -> beta <> fzero -> gamma <> fzero -> delta <> fzero ->
  NoDup bad ->
  (forall tau, In tau bad -> ~ all_goes_well w w' ln_ceil (mult_zero x y (x * y)%F is_one) (mult_zero x y (x * y)%F is_one) g1 g2 alpha beta gamma delta [] tau) ->
  List.length bad <= 14.
Proof.
  intros Hw Hw' Hln HS H1 H2 Hal Hbe Hg Hd Hn Hbad. set (calls := mult_calls x y (x * y)%F is_one).
  pose proof (shape_synth calls) as D. unfold calls in D. rewrite <- mult_shape in D. unfold synthesize_shape, shape_new in D. fold calls in D.
  pose proof (honest_synth calls) as A. unfold calls in A. rewrite <- mult_honest in A. unfold synthesize_honest, honest_new in A. fold calls in A.
  destruct (C60_mult_statement x y (x * y)%F is_one _ (value {| p_inputs := the_inputs calls; p_aux := the_aux calls; p_cons := all_constraints calls |}) D eq_refl) as (_ & _ & [_ Hs]).
  specialize (Hs ltac:(destruct is_one; reflexivity)). cbn [k_cons] in Hs.
  destruct (proj1 (C06_keygen_defined calls) (mult_scoped _ _ _ _)) as [ks Ek].
  destruct (prover_defined _ _ Ek) as [t Et]. unfold calls in Ek, Et. rewrite <- mult_prover in Et. rewrite <- mult_keypair in Ek.
  change 14 with (2 ^ 1 + 1 + (2 * 1 + 3 * 3) * (2 ^ 1 - 1)).
  refine (C54_few_failures w w' ln_ceil _ _ ks t _ _ 1 g1 g2 alpha beta gamma delta bad Hw Hw' Hln Ek D Et A _ _ Hs _ HS _ H1 H2 Hg Hd _ Hn Hbad).
  - repeat split.
  - destruct is_one; (split; [|split]; cbn; lia).
  - replace (List.length (k_cons _)) with 2 by (destruct is_one; reflexivity). split; [cbn; lia|]. intros e' He'. destruct e'; cbn; lia.
  - intros _. destruct is_one; cbn; lia.
  - assert (N1 : forall z : P, z = fone -> z <> fzero) by (intros z ->; apply f_1_neq_0).
    set (k0 := ((lc_zero +v Aux 0)%lc, (lc_zero +t (fzero, if is_one then one_var else Aux 0) +v Aux 1)%lc, (lc_zero +v Aux 2)%lc) : Constraint P).
    match goal with |- no_cancellation _ _ ?wt => assert (I0 : In k0 (p_cons wt)) by (left; reflexivity) end.
    split; [|split].
    + intros i (k & c & Hk & Hin & Hc). exists k0. split; [exact I0|]. apply N1.
      assert (i = 0) as ->; [|coefs].
      clear - Hk Hin. cbn in Hk. repeat destruct Hk as [<-|Hk]; try contradiction; cbn in Hin; repeat destruct Hin as [Hin|Hin]; try contradiction; try discriminate; injection Hin as ? ?; subst; tauto.
    + intros v (k & c & Hk & Hin & Hc). exists k0. split; [exact I0|]. apply N1.
      assert (v = Aux 1) as ->.
      { clear - Hk Hin Hc. cbn in Hk. repeat destruct Hk as [<-|Hk]; try contradiction; cbn in Hin; repeat destruct Hin as [Hin|Hin]; try contradiction; try discriminate; injection Hin as ? ?; subst; tauto. }
      destruct is_one; coefs.
    + intros i Hi. exists k0. split; [exact I0|]. assert (i = 0 \/ i = 1 \/ i = 2) as [-> | [-> | ->]] by (destruct is_one; cbn in Hi; lia).
      * intros X. apply Hbe. rewrite <- X. destruct is_one; coefs.
      * intros X. apply Hal. rewrite <- X. destruct is_one; coefs.
      * apply N1. destruct is_one; coefs.
Qed.
End Keys.
End C60.
Print Assumptions C60_xor_statement.
Print Assumptions C60_xor_complete.
Print Assumptions C60_mult_statement.
Print Assumptions C60_xor_proofs_verify.
Print Assumptions C60_xor_few_failures.
Print Assumptions C60_mult_few_failures.

(** ** The tests themselves: all their assertions hold with any number of threads and any logarithm *)
Lemma any_worker (w : Worker) circuit inst (alpha beta gamma delta tau : Fr64513) : wf_worker w -> describes circuit inst -> 0 < k_aux inst -> 2 <= List.length (k_cons inst) ->
  generate_parameters (E := DummyEngine Fr64513) w circuit fone fone alpha beta gamma delta tau = generate_parameters (E := DummyEngine Fr64513) (Multicore 1) circuit fone fone alpha beta gamma delta tau.
Proof.
  intros Hw Hd H1 H2. assert (W : wf_worker (Multicore 1)) by (split; [constructor|reflexivity]). destruct w as [n|].
  - now apply C59_generator.
  - exact (C48_otherwise_same (E := DummyEngine Fr64513) fone fone alpha beta gamma delta tau 1 circuit inst (le_n 1) W Hd (or_introl (conj H1 H2))).
Qed.
Lemma same_run {A} (x y : outcome (res A)) (f : A -> bool) : (forall a, x = Done (Ok a) <-> y = Done (Ok a)) ->
  match x with Done (Ok a) => f a | _ => false end = match y with Done (Ok a) => f a | _ => false end.
Proof.
  intros H. destruct x as [[a|]|]; [rewrite (proj1 (H a) eq_refl); reflexivity|..]; destruct y as [[b|]|]; auto; exfalso; pose proof (proj2 (H b) eq_refl); discriminate.
Qed.
Lemma three_sane : sane_ln_ceil (fun _ => 3).
Proof. intros n _. split; repeat constructor. Qed.

Theorem C60_test_xordemo (w : Worker) (ln_ceil : Z -> nat) : wf_worker w -> sane_ln_ceil ln_ceil -> test_xordemo w ln_ceil = true.
Proof.
  intros Hw Hln. assert (W : wf_worker (Multicore 1)) by (split; [constructor|reflexivity]).
  transitivity (test_xordemo (Multicore 1) (fun _ => 3)); [|vm_compute; reflexivity].
  unfold test_xordemo. rewrite (any_worker w _ _ t_alpha t_beta t_gamma t_delta t_tau Hw xor_describes) by (repeat constructor).
  destruct (generate_parameters _ _ _ _ _ _ _ _ _) as [[params|]|]; [|reflexivity..]. apply same_run.
  destruct (C60_xor_complete (P := Fr64513) true false) as (wit & Ha & _ & _ & Hadd & _).
  exact (C59_windows w (Multicore 1) ln_ceil (fun _ => 3) _ params t_r t_s wit Hw W Hln three_sane Ha Hadd).
Qed.
Theorem C60_zero_coeff_tests (w : Worker) (ln_ceil : Z -> nat) (is_one : bool) : wf_worker w -> sane_ln_ceil ln_ceil -> zero_coeff_test w ln_ceil is_one = true.
Proof.
  intros Hw Hln. assert (W : wf_worker (Multicore 1)) by (split; [constructor|reflexivity]).
  transitivity (zero_coeff_test (Multicore 1) (fun _ => 3) is_one); [|destruct is_one; vm_compute; reflexivity].
  unfold zero_coeff_test. set (m := mult_zero _ _ _ _).
  pose proof (shape_synth (mult_calls (P := Fr64513) (ofZ 5) (ofZ 6) (ofZ 30) is_one)) as D. rewrite <- mult_shape in D.
  pose proof (honest_synth (mult_calls (P := Fr64513) (ofZ 5) (ofZ 6) (ofZ 30) is_one)) as A. rewrite <- mult_honest in A. fold m in D, A.
  rewrite (any_worker w m _ t_alpha t_beta t_gamma t_delta t_tau Hw D) by (destruct is_one; repeat constructor).
  destruct (generate_parameters _ _ _ _ _ _ _ _ _) as [[params|]|]; [|reflexivity..]. apply same_run.
  refine (C59_windows w (Multicore 1) ln_ceil (fun _ => 3) _ params t_r t_s _ Hw W Hln three_sane A _).
  destruct is_one; (split; [|split]; reflexivity || (vm_compute; congruence)).
Qed.
Print Assumptions C60_test_xordemo.
Print Assumptions C60_zero_coeff_tests.

(** The constants of the tests meet the conditions of the theorems on few failures. *)
Example C60_ex : t_alpha <> t_beta /\ t_alpha <> fzero /\ t_beta <> fzero /\ t_gamma <> fzero /\ t_delta <> fzero /\ 3 < two_adicity Fr64513 /\
  public_inputs {| p_inputs := [fone; scalar_of (xorb true false)]; p_aux := [scalar_of true; scalar_of false]; p_cons := all_constraints (xor_calls false false) |} = [@fone Fr64513].
Proof. repeat split; try (intros H; apply (f_equal toZ) in H; vm_compute in H; discriminate). vm_compute. repeat constructor. Qed.
