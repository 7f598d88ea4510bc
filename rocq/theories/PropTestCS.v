(** Property theorems C02, C03 and C04: the testing constraint system (src/gadgets/test/mod.rs)
    and namespaces (src/lib.rs:426-509). *)
From Coq Require Import String.
From Coq Require Import ZArith List Bool Lia.
From Verif Require Import Prelude PrimeField Zp Fields Circuit Loops BooleanGadget NumGadget LookupGadget Multipack MultiEq
  UInt32 UInt32Proof Sha256 Sha256Proof Blake2s Blake2sProof TestCS TestCSProof.
Import ListNotations.
Local Open Scope nat_scope.

(** States reachable by any sequence of synthesis programs and [set] calls. *)
Inductive Reach {P : PrimeField} : TState P -> Prop :=
| R_new : Reach test_new
| R_run (A : Type) (p : prog P A) s r s' : Reach s -> run TestCS p s = Done (r, s') -> Reach s'
| R_set s path x s' : Reach s -> t_set s path x = Done s' -> Reach s'.

Lemma reach_inv {P : PrimeField} (s : TState P) : Reach s -> Inv s.
Proof.
  induction 1 as [|A p s r s' H IH E|s path x s' H IH E].
  - apply inv_new.
  - exact (proj1 (run_ind_inv (fun _ _ => True) (fun _ => I) (fun _ _ _ _ _ => I) (fun _ _ _ _ _ _ _ _ => I)
      (fun _ _ _ _ _ _ _ _ => I) (fun _ _ _ _ _ _ _ _ => I) (fun _ _ _ _ _ => I) (fun _ _ _ _ => I) A p s r s' IH E)).
  - exact (inv_set _ _ _ _ IH E).
Qed.

(** ** C02 *)

(** Everything recorded by a run is what an honest prover (Circuit.v, [HonestCS]: values and
    constraints in the order of the calls) records, and the program gets the same replies. *)
Theorem C02_records (P : PrimeField) (A : Type) (p : prog P A) (s : TState P) (r : A) (s' : TState P) :
  run TestCS p s = Done (r, s') ->
  run (HonestCS P) p (pstate s) = Done (r, pstate s') /\
  num_constraints s' = List.length (p_cons (pstate s')) /\ num_inputs s' = List.length (p_inputs (pstate s')) /\
  exists cs, emits p r cs [] /\ p_cons (pstate s') = p_cons (pstate s) ++ cs /\
    num_constraints s' = num_constraints s + List.length cs.
Proof.
  intros H. split; [now apply run_honest|]. unfold num_constraints, num_inputs, pstate. cbn [p_cons p_inputs].
  rewrite !map_length. split; [auto|]. split; [auto|].
  revert s H. induction p as [a| |n f k IH|n f k IH|n a b c k IH|n l r0 k IH|n k IH|k IH]; intros s H; cbn in H; try discriminate.
  - inversion H; subst. exists []. rewrite app_nil_r. repeat split; [constructor|cbn; lia].
  - destruct (t_alloc s n f) as [[[s1 v] b]|] eqn:E; [|discriminate]. cbn in H.
    apply alloc_inv in E. destruct E as (path & _ & -> & [(e & -> & -> & ->)|(x & -> & _ & -> & ->)]); cbn in H;
      apply IH in H; destruct H as (cs & He & H1 & H2); exists cs; (split; [econstructor; exact He|]); auto.
  - destruct (t_alloc_input s n f) as [[[s1 v] b]|] eqn:E; [|discriminate]. cbn in H.
    apply alloc_input_inv in E. destruct E as (path & _ & -> & [(e & -> & -> & ->)|(x & -> & _ & -> & ->)]); cbn in H;
      apply IH in H; destruct H as (cs & He & H1 & H2); exists cs; (split; [econstructor; exact He|]); auto.
  - destruct (t_enforce s n a b c) as [s1|] eqn:E; [|discriminate]. cbn in H.
    apply enforce_inv in E. destruct E as (path & _ & _ & ->).
    apply IH in H. destruct H as (cs & He & H1 & H2). exists ((a, b, c) :: cs). split; [constructor; auto|].
    cbn [t_cons] in *. rewrite map_app in H1. rewrite app_length in H2. rewrite H1, <- app_assoc. cbn in *. split; [auto|lia].
  - destruct (t_push s n) as [s1|] eqn:E; [|discriminate]. cbn in H.
    apply push_inv in E. destruct E as (path & _ & _ & ->).
    apply IH in H. destruct H as (cs & He & H1 & H2). exists cs. split; [constructor; auto|]. auto.
  - destruct (t_pop s) as [s1|] eqn:E; [|discriminate]. cbn in H.
    apply pop_inv in E. destruct E as (_ & ->).
    apply IH in H. destruct H as (cs & He & H1 & H2). exists cs. split; [constructor; auto|]. auto.
Qed.
Print Assumptions C02_records.

(** Satisfaction: as long as the enforced combinations mention allocated variables only (otherwise
    the indexing panics), [is_satisfied] decides the conjunction of the constraints under the
    recorded assignment and [which_is_unsatisfied] gives the path of the first violated one. *)
Theorem C02_satisfied (P : PrimeField) (s : TState P) :
  Forall (c_in_range s) (map fst (t_cons s)) ->
  (is_satisfied s = Done true <-> sat (asg (pstate s)) (p_cons (pstate s))) /\
  (is_satisfied s = Done false <-> ~ sat (asg (pstate s)) (p_cons (pstate s))) /\
  (which_is_unsatisfied s = Done None <-> sat (asg (pstate s)) (p_cons (pstate s))) /\
  (forall path, which_is_unsatisfied s = Done (Some path) <->
    exists pre c post, t_cons s = pre ++ (c, path) :: post /\
      sat (asg (pstate s)) (map fst pre) /\ ~ holds (asg (pstate s)) c).
Proof.
  intros HR.
  assert (HT : which_is_unsatisfied s <> Panicked) by now apply first_unsat_total.
  assert (HF : forall l : list (LC P * LC P * LC P * string), Forall (c_in_range s) (map fst l) ->
    (Forall (fun c => c_in_range s (fst c) /\ holds (asg (pstate s)) (fst c)) l <-> sat (asg (pstate s)) (map fst l))).
  { induction l as [|c l IH]; intros H; [split; constructor|]. inversion H; subst. split; intros HH; inversion HH; subst; constructor.
    - tauto.
    - now apply IH.
    - tauto.
    - now apply IH. }
  assert (HN : which_is_unsatisfied s = Done None <-> sat (asg (pstate s)) (p_cons (pstate s))).
  { unfold which_is_unsatisfied. rewrite first_unsat_none. now apply HF. }
  assert (HB : is_satisfied s = Done true <-> which_is_unsatisfied s = Done None).
  { unfold is_satisfied. destruct (which_is_unsatisfied s) as [[q|]|]; cbn; split; congruence. }
  assert (HB' : is_satisfied s = Done false <-> which_is_unsatisfied s <> Done None).
  { unfold is_satisfied. destruct (which_is_unsatisfied s) as [[q|]|]; cbn; split; congruence. }
  rewrite HB, HB', HN. split; [tauto|]. split; [tauto|]. split; [tauto|].
  intros path. unfold which_is_unsatisfied. rewrite first_unsat_some. split.
  - intros (pre & c & post & E & H1 & H2 & H3). exists pre, c, post. repeat split; auto.
    apply HF; auto. rewrite E, map_app in HR. now apply Forall_app in HR.
  - intros (pre & c & post & E & H1 & H2). exists pre, c, post.
    rewrite E, map_app in HR. apply Forall_app in HR. destruct HR as [HR1 HR2]. inversion HR2; subst.
    repeat split; auto. now apply HF.
Qed.
Print Assumptions C02_satisfied.

(** A constraint over variables that exist when it is enforced stays in range. *)
Theorem C02_in_range_stable (P : PrimeField) (A : Type) (p : prog P A) (s : TState P) (r : A) (s' : TState P) (c : Constraint P) :
  Reach s -> run TestCS p s = Done (r, s') -> c_in_range s c -> c_in_range s' c.
Proof.
  intros Hr H. apply reach_inv in Hr.
  assert (HE : forall v, entry s v <> None -> entry s' v <> None).
  { refine (proj2 (run_ind_inv (fun s s' => forall v, entry s v <> None -> entry s' v <> None) _ _ _ _ _ _ _ A p s r s' Hr H)); auto.
    - intros s0 ann f s1 v b _ E w Hw. apply alloc_inv in E.
      destruct E as (path & _ & -> & [(e & -> & -> & ->)|(x & -> & _ & -> & ->)]); auto.
      rewrite entry_aux_snoc. destruct (var_eqb _ _); congruence.
    - intros s0 ann f s1 v b _ E w Hw. apply alloc_input_inv in E.
      destruct E as (path & _ & -> & [(e & -> & -> & ->)|(x & -> & _ & -> & ->)]); auto.
      rewrite entry_input_snoc. destruct (var_eqb _ _); congruence.
    - intros s0 ann a b d s1 _ E w Hw. apply enforce_inv in E. destruct E as (path & _ & _ & ->). auto.
    - intros s0 n s1 _ E w Hw. apply push_inv in E. destruct E as (path & _ & _ & ->). auto.
    - intros s0 s1 _ E w Hw. apply pop_inv in E. destruct E as (_ & ->). auto. }
  destruct c as [[a b] d]. unfold c_in_range, in_range. intros (H1 & H2 & H3).
  repeat split; (eapply Forall_impl; [|eassumption]); cbn; auto.
Qed.
Print Assumptions C02_in_range_stable.

(** [verify] compares the public inputs (all but the constant one) with the expected ones, and
    refuses a wrong number of them. *)
Theorem C02_verify (P : PrimeField) (s : TState P) (expected : list P) : Reach s ->
  (t_verify s expected = Done true <-> exists one, p_inputs (pstate s) = one :: expected) /\
  (t_verify s expected = Done false <->
     (num_inputs s = S (List.length expected) /\ ~ exists one, p_inputs (pstate s) = one :: expected)) /\
  (t_verify s expected = Panicked <-> num_inputs s <> S (List.length expected)).
Proof.
  intros H. apply reach_inv in H. destruct (i_one _ H) as (x & t & E).
  unfold t_verify, num_inputs, pstate. rewrite E. cbn [p_inputs map fst List.length skipn].
  assert (HA : List.length t = List.length expected -> (all_equal t expected = true <-> map fst t = expected)).
  { clear E. revert expected. induction t as [|[y n] t IH]; intros [|z ex]; cbn; intros L; try discriminate; [tauto|].
    injection L as L. destruct (feqb y z) eqn:Ey.
    - apply feqb_eq in Ey. subst. rewrite (IH ex L). split; congruence.
    - split; [discriminate|]. intros [= -> _]. rewrite (proj2 (feqb_eq P z z) eq_refl) in Ey. discriminate. }
  destruct (Nat.eqb_spec (List.length expected + 1) (S (List.length t))) as [L|L]; cbn [negb].
  - assert (HX : (exists one, x :: map fst t = one :: expected) <-> map fst t = expected).
    { split; [intros [o [= _ Ho]]; auto|intros ->; eauto]. }
    rewrite HX, <- HA by lia. destruct (all_equal t expected); repeat split; try congruence; try lia; intros [? ?]; congruence.
  - assert (HX : ~ exists one, x :: map fst t = one :: expected).
    { intros [o [= _ Ho]]. apply (f_equal (@List.length P)) in Ho. rewrite map_length in Ho. lia. }
    repeat split; try discriminate; try lia; try tauto.
Qed.
Print Assumptions C02_verify.

(** ** C03 *)

(** A path names at most one variable, a variable has exactly one path. *)
Theorem C03_one_path_each (P : PrimeField) (s : TState P) : Reach s ->
  forall v x, entry s v = Some x -> find_obj (snd x) (t_objs s) = Some (OVar v) /\
    forall path, find_obj path (t_objs s) = Some (OVar v) <-> path = snd x.
Proof.
  intros H v [x n] E. apply reach_inv in H. cbn [snd]. pose proof (i_named _ H _ _ _ E) as H1. split; [auto|].
  intros path. split; [|intros ->; auto]. intros H2. destruct (i_var _ H _ _ H2) as [y Hy]. congruence.
Qed.
Print Assumptions C03_one_path_each.

(** Paths are unambiguous: different namespace stacks or annotations give different paths, since
    an annotation containing a separator is refused. *)
Theorem C03_paths_injective (P : PrimeField) (s s' : TState P) (n n' : string) (path : string) : Reach s -> Reach s' ->
  compute_path (t_ns s) n = Done path -> compute_path (t_ns s') n' = Done path -> t_ns s = t_ns s' /\ n = n'.
Proof.
  intros H H' E E'. apply reach_inv in H, H'. apply has_slash_done in E, E'. destruct E as [E1 E2], E' as [E1' E2'].
  rewrite E2 in E2'. apply concat_slash_inj in E2'.
  - apply app_inj_tail in E2'. tauto.
  - now destruct (t_ns s).
  - now destruct (t_ns s').
  - apply Forall_app. split; [apply (i_ns _ H)|constructor; auto].
  - apply Forall_app. split; [apply (i_ns _ H')|constructor; auto].
Qed.
Print Assumptions C03_paths_injective.

Definition taken {P : PrimeField} (s : TState P) (path : string) : Prop := find_obj path (t_objs s) <> None.

(** Nothing a later synthesis does changes what a path names, nor a value. *)
Theorem C03_stable (P : PrimeField) (A : Type) (p : prog P A) (s : TState P) (r : A) (s' : TState P) :
  Reach s -> run TestCS p s = Done (r, s') ->
  forall path, (forall o, find_obj path (t_objs s) = Some o -> find_obj path (t_objs s') = Some o) /\
    (taken s path -> taken s' path) /\
    (forall x, t_get s path = Done x -> t_get s' path = Done x) /\
    (forall i x, t_get_input s i path = Done x -> t_get_input s' i path = Done x).
Proof.
  intros Hr H. apply reach_inv in Hr.
  assert (HE : (forall v e, entry s v = Some e -> entry s' v = Some e) /\
    forall path o, find_obj path (t_objs s) = Some o -> find_obj path (t_objs s') = Some o).
  { refine (proj2 (run_ind_inv (fun s s' => (forall v e, entry s v = Some e -> entry s' v = Some e) /\
      forall path o, find_obj path (t_objs s) = Some o -> find_obj path (t_objs s') = Some o) _ _ _ _ _ _ _ A p s r s' Hr H)); auto.
    - intros s1 s2 s3 [? ?] [? ?]. split; auto.
    - intros s0 ann f s1 v b _ E. apply alloc_inv in E.
      destruct E as (path & _ & -> & [(e & -> & -> & ->)|(x & -> & Hn & -> & ->)]); auto. split.
      + intros w e Hw. rewrite entry_aux_snoc. destruct (var_eqb_spec w (Aux (List.length (t_aux s0)))); [|auto].
        subst. rewrite entry_aux_new in Hw. discriminate.
      + intros q o Ho. cbn [t_objs]. rewrite find_cons. destruct (String.eqb_spec q path); [congruence|auto].
    - intros s0 ann f s1 v b _ E. apply alloc_input_inv in E.
      destruct E as (path & _ & -> & [(e & -> & -> & ->)|(x & -> & Hn & -> & ->)]); auto. split.
      + intros w e Hw. rewrite entry_input_snoc. destruct (var_eqb_spec w (Input (List.length (t_inputs s0)))); [|auto].
        subst. rewrite entry_input_new in Hw. discriminate.
      + intros q o Ho. cbn [t_objs]. rewrite find_cons. destruct (String.eqb_spec q path); [congruence|auto].
    - intros s0 ann a b d s1 _ E. apply enforce_inv in E. destruct E as (path & _ & Hn & ->). split; [auto|].
      intros q o Ho. cbn [t_objs]. rewrite find_cons. destruct (String.eqb_spec q path); [congruence|auto].
    - intros s0 n s1 _ E. apply push_inv in E. destruct E as (path & _ & Hn & ->). split; [auto|].
      intros q o Ho. cbn [t_objs]. rewrite find_cons. destruct (String.eqb_spec q path); [congruence|auto].
    - intros s0 s1 _ E. apply pop_inv in E. destruct E as (_ & ->). auto. }
  destruct HE as [HE HO]. intros path. split; [auto|]. split; [|split].
  - unfold taken. intros Ht. destruct (find_obj path (t_objs s)) as [o|] eqn:E; [|congruence]. now rewrite (HO _ _ E).
  - intros x. unfold t_get. destruct (find_obj path (t_objs s)) as [[i|v|]|] eqn:E; try discriminate. rewrite (HO _ _ E).
    destruct (entry s v) as [e|] eqn:Ev; [|discriminate]. now rewrite (HE _ _ Ev).
  - intros i x. unfold t_get_input. destruct (nth_error (t_inputs s) i) as [e|] eqn:Ei; [|discriminate].
    pose proof (HE (Input i) _ Ei) as Ei'. cbn in Ei'. now rewrite Ei'.
Qed.
Print Assumptions C03_stable.

(** The path of a call is the names of the open namespaces and the annotation, joined by '/'. *)
Definition path_of {P : PrimeField} (s : TState P) (name : string) : string := String.concat "/" (t_ns s ++ [name]).

(** Read back what was allocated, also after any further synthesis. *)
Theorem C03_read_back (P : PrimeField) (s : TState P) (ann : string) (x : P) : Reach s ->
  (forall s' v b, t_alloc s ann (Ok x) = Done (s', v, b) ->
     v = Ok (Aux (List.length (t_aux s))) /\ t_get s' (path_of s ann) = Done x /\
     forall A (p : prog P A) r s'', run TestCS p s' = Done (r, s'') -> t_get s'' (path_of s ann) = Done x) /\
  (forall s' v b, t_alloc_input s ann (Ok x) = Done (s', v, b) ->
     v = Ok (Input (List.length (t_inputs s))) /\ t_get s' (path_of s ann) = Done x /\
     t_get_input s' (List.length (t_inputs s)) (path_of s ann) = Done x /\
     forall A (p : prog P A) r s'', run TestCS p s' = Done (r, s'') -> t_get s'' (path_of s ann) = Done x).
Proof.
  intros Hr. split; intros s' v b E.
  - assert (Hr' : Reach s').
    { refine (R_run _ (Alloc ann (Ok x) (fun r b => Ret (r, b))) s (v, b) s' Hr _). cbn. now rewrite E. }
    apply alloc_inv in E. destruct E as (path & Hp & _ & [(e & He & _)|(y & Hy & Hn & -> & ->)]); [discriminate|].
    injection Hy as <-. apply has_slash_done in Hp. destruct Hp as [_ ->]. fold (path_of s ann) in *.
    split; [auto|].
    match goal with |- ?G /\ _ => assert (HG : G) end.
    { unfold t_get. cbn [t_objs]. rewrite find_cons, String.eqb_refl, entry_aux_snoc.
      destruct (var_eqb_spec (Aux (List.length (t_aux s))) (Aux (List.length (t_aux s)))); [reflexivity|congruence]. }
    split; [exact HG|]. intros A p r s'' Hrun. exact (proj1 (proj2 (proj2 (C03_stable P A p _ r s'' Hr' Hrun _))) _ HG).
  - assert (Hr' : Reach s').
    { refine (R_run _ (AllocInput ann (Ok x) (fun r b => Ret (r, b))) s (v, b) s' Hr _). cbn. now rewrite E. }
    apply alloc_input_inv in E. destruct E as (path & Hp & _ & [(e & He & _)|(y & Hy & Hn & -> & ->)]); [discriminate|].
    injection Hy as <-. apply has_slash_done in Hp. destruct Hp as [_ ->]. fold (path_of s ann) in *.
    split; [auto|].
    match goal with |- ?G /\ _ => assert (HG : G) end.
    { unfold t_get. cbn [t_objs]. rewrite find_cons, String.eqb_refl, entry_input_snoc.
      destruct (var_eqb_spec (Input (List.length (t_inputs s))) (Input (List.length (t_inputs s)))); [reflexivity|congruence]. }
    split; [exact HG|]. split.
    + unfold t_get_input. cbn [t_inputs]. rewrite nth_error_snoc, Nat.eqb_refl, String.eqb_refl. reflexivity.
    + intros A p r s'' Hrun. exact (proj1 (proj2 (proj2 (C03_stable P A p _ r s'' Hr' Hrun _))) _ HG).
Qed.
Print Assumptions C03_read_back.

(** Creating an object of any kind at a path: it panics iff the path is taken (or the name
    contains a separator); otherwise the path is taken afterwards. *)
Theorem C03_duplicate_panics (P : PrimeField) (s : TState P) (name : string) (x : P) (a b c : LC P) :
  has_slash name = false ->
  (t_alloc s name (Ok x) = Panicked <-> taken s (path_of s name)) /\
  (t_alloc_input s name (Ok x) = Panicked <-> taken s (path_of s name)) /\
  (t_enforce s name a b c = Panicked <-> taken s (path_of s name)) /\
  (t_push s name = Panicked <-> taken s (path_of s name)) /\
  (forall s' r z, t_alloc s name (Ok x) = Done (s', r, z) -> taken s' (path_of s name)) /\
  (forall s' r z, t_alloc_input s name (Ok x) = Done (s', r, z) -> taken s' (path_of s name)) /\
  (forall s', t_enforce s name a b c = Done s' -> taken s' (path_of s name)) /\
  (forall s', t_push s name = Done s' -> taken s' (path_of s name)).
Proof.
  intros Hn. unfold t_alloc, t_alloc_input, t_enforce, t_push, taken, path_of, set_named_obj. cbn [t_objs].
  rewrite compute_path_spec by auto. cbn [obind].
  destruct (find_obj _ (t_objs s)) as [o|] eqn:E; cbn [obind].
  - repeat split; try discriminate; auto.
  - repeat split; try discriminate; try congruence; intros *; intros [= <-]; cbn [t_objs]; rewrite find_cons, String.eqb_refl; discriminate.
Qed.
Print Assumptions C03_duplicate_panics.

(** ...and a name with a separator is always refused. *)
Theorem C03_separator_panics (P : PrimeField) (s : TState P) (name : string) (f : res P) (a b c : LC P) :
  has_slash name = true ->
  t_alloc s name f = Panicked /\ t_alloc_input s name f = Panicked /\ t_enforce s name a b c = Panicked /\ t_push s name = Panicked.
Proof. intros H. unfold t_alloc, t_alloc_input, t_enforce, t_push, compute_path. rewrite H. auto. Qed.
Print Assumptions C03_separator_panics.

(** [set] changes exactly the value of the variable at the path. *)
Theorem C03_set (P : PrimeField) (s : TState P) (path : string) (x : P) : Reach s ->
  ((exists s', t_set s path x = Done s') <-> (exists y, t_get s path = Done y)) /\
  forall s', t_set s path x = Done s' ->
    t_get s' path = Done x /\
    (forall q, q <> path -> t_get s' q = t_get s q) /\
    (exists v, find_obj path (t_objs s) = Some (OVar v) /\ asg (pstate s') v = x /\
       forall w, w <> v -> asg (pstate s') w = asg (pstate s) w) /\
    (forall q, find_obj q (t_objs s') = find_obj q (t_objs s)) /\ t_ns s' = t_ns s /\ t_cons s' = t_cons s /\
    map snd (t_inputs s') = map snd (t_inputs s) /\ map snd (t_aux s') = map snd (t_aux s).
Proof.
  intros Hr. apply reach_inv in Hr. split.
  - unfold t_set, t_get. destruct (find_obj path (t_objs s)) as [[i|v|]|] eqn:E; try (split; intros [? ?]; discriminate).
    destruct (i_var _ Hr _ _ E) as [y Hy]. rewrite Hy. split; [eauto|]. intros _.
    destruct v as [i|i]; cbn in Hy |- *; rewrite Hy; eauto.
  - intros s' H. pose proof (set_inv _ _ _ _ H) as (v & Hf & Hs).
    pose proof (set_entry_entry _ _ _ _ Hs) as (y & n & He & Ho & Hns & Hc & Hw).
    assert (HG : forall q o, find_obj q (t_objs s) = Some (OVar o) -> o = v -> q = path).
    { intros q o Hq ->. destruct (i_var _ Hr _ _ Hq) as [z Hz]. destruct (i_var _ Hr _ _ Hf) as [z' Hz']. congruence. }
    assert (Hv : var_eqb v v = true) by (destruct (var_eqb_spec v v); congruence).
    split; [|split; [|split; [|split; [|split; [|split; [|split]]]]]].
    + unfold t_get. rewrite Ho, Hf, Hw, Hv. reflexivity.
    + intros q Hq. unfold t_get. rewrite Ho. destruct (find_obj q (t_objs s)) as [[i|w|]|] eqn:E; auto.
      rewrite Hw. destruct (var_eqb_spec v w) as [<-|]; auto. now apply HG in E.
    + exists v. split; [auto|]. split.
      * rewrite (entry_asg s' v (x, n)); [reflexivity|]. now rewrite Hw, Hv.
      * intros w Hne. destruct (entry s w) as [e|] eqn:Ew.
        -- rewrite (entry_asg s w e Ew), (entry_asg s' w e); [auto|]. rewrite Hw. destruct (var_eqb_spec v w); congruence.
        -- assert (Ew' : entry s' w = None) by (rewrite Hw; destruct (var_eqb_spec v w); congruence).
           destruct w as [i|i]; cbn in Ew, Ew' |- *; apply nth_error_None in Ew, Ew';
             rewrite !nth_overflow; auto; rewrite map_length; auto.
    + intros q. now rewrite Ho.
    + auto.
    + auto.
    + assert (HU : forall l i e, nth_error l i = Some e -> map snd (upd i (x, snd e) l) = map (@snd P string) l).
      { induction l as [|z l IH]; intros [|i] e He'; cbn in *; auto; try discriminate; [congruence|]. f_equal; eauto. }
      destruct v as [i|i]; cbn in Hs.
      * destruct (nth_error (t_inputs s) i) eqn:Ei; [|discriminate]. injection Hs as <-. cbn [t_inputs]. auto.
      * destruct (nth_error (t_aux s) i) eqn:Ei; [|discriminate]. injection Hs as <-. reflexivity.
    + assert (HU : forall l i e, nth_error l i = Some e -> map snd (upd i (x, snd e) l) = map (@snd P string) l).
      { induction l as [|z l IH]; intros [|i] e He'; cbn in *; auto; try discriminate; [congruence|]. f_equal; eauto. }
      destruct v as [i|i]; cbn in Hs.
      * destruct (nth_error (t_inputs s) i) eqn:Ei; [|discriminate]. injection Hs as <-. reflexivity.
      * destruct (nth_error (t_aux s) i) eqn:Ei; [|discriminate]. injection Hs as <-. cbn [t_aux]. auto.
Qed.
Print Assumptions C03_set.

(** ** C04 *)

(** Leaving out every namespace changes nothing for the prover's and the key generator's view, and
    TestConstraintSystem with namespaces records what they record without. *)
Theorem C04_namespaces_irrelevant (P : PrimeField) (A : Type) (p : prog P A) :
  (forall s, run (HonestCS P) (strip_ns p) s = run (HonestCS P) p s) /\
  (forall s, run (ShapeCS P) (strip_ns p) s = run (ShapeCS P) p s) /\
  (forall s r s', run TestCS p s = Done (r, s') -> run (HonestCS P) (strip_ns p) (pstate s) = Done (r, pstate s')) /\
  (forall r cs es, emits (strip_ns p) r cs es <-> emits p r cs es).
Proof.
  split; [|split; [|split]].
  - intros s. now apply strip_run.
  - intros s. now apply strip_run.
  - intros s r s' H. rewrite strip_run by auto. now apply run_honest.
  - induction p as [a| |n f k IH|n f k IH|n a b c k IH|n l r0 k IH|n k IH|k IH]; intros r cs es; cbn [strip_ns].
    + tauto.
    + tauto.
    + split; intros H; inversion H; subst; econstructor; apply IH; eassumption.
    + split; intros H; inversion H; subst; econstructor; apply IH; eassumption.
    + split; intros H; inversion H; subst; econstructor; apply IH; eassumption.
    + split; intros H; inversion H; subst; econstructor; apply IH; eassumption.
    + rewrite IH. split; intros H; [now constructor|now inversion H].
    + rewrite IH. split; intros H; [now constructor|now inversion H].
Qed.
Print Assumptions C04_namespaces_irrelevant.

(** Any constraint system, watched by a stack of the open namespaces; leaving a namespace that
    was not entered panics. *)
Definition Watched {P : PrimeField} (M : Machine P) : Machine P := {|
  St := St M * list string;
  m_alloc s n f := obind (m_alloc M (fst s) n f) (fun x => Done ((fst (fst x), snd s), snd (fst x), snd x));
  m_alloc_input s n f := obind (m_alloc_input M (fst s) n f) (fun x => Done ((fst (fst x), snd s), snd (fst x), snd x));
  m_enforce s n a b c := obind (m_enforce M (fst s) n a b c) (fun s' => Done (s', snd s));
  m_push s n := obind (m_push M (fst s) n) (fun s' => Done (s', n :: snd s));
  m_pop s := match snd s with [] => Panicked | _ :: t => obind (m_pop M (fst s)) (fun s' => Done (s', t)) end
|}.

(** On every constraint system and from every stack (in particular from the empty one): the watched
    run returns the same, and the stack is the one it started with, whatever is returned. *)
Definition Balanced {P : PrimeField} {A} (p : prog P A) : Prop :=
  forall (M : Machine P) s st, run (Watched M) p (s, st) = obind (run M p s) (fun x => Done (fst x, (snd x, st))).

Lemma balanced_ns_ok {P : PrimeField} {A} (p : prog P A) : ns_ok 0 p -> Balanced p.
Proof.
  intros H M s st.
  assert (HG : forall d, ns_ok d p -> forall ext, List.length ext = d -> forall s, run (Watched M) p (s, ext ++ st) = obind (run M p s) (fun x => Done (fst x, (snd x, st)))).
  { clear H s. induction p as [a| |n f k IH|n f k IH|n a b c k IH|n l r0 k IH|n k IH|k IH]; intros d Hd ext He s; cbn in Hd |- *.
    - subst d. destruct ext; [reflexivity|discriminate].
    - reflexivity.
    - destruct (m_alloc M s n f) as [[[s1 v] b]|]; cbn; [|reflexivity]. now apply (IH _ _ d).
    - destruct (m_alloc_input M s n f) as [[[s1 v] b]|]; cbn; [|reflexivity]. now apply (IH _ _ d).
    - destruct (m_enforce M s n a b c) as [s1|]; cbn; [|reflexivity]. now apply (IH d).
    - reflexivity.
    - destruct (m_push M s n) as [s1|]; cbn; [|reflexivity]. apply (IH (S d) Hd (n :: ext)). cbn. congruence.
    - destruct d as [|d]; [easy|]. destruct ext as [|e ext]; [discriminate|]. cbn.
      destruct (m_pop M s) as [s1|]; cbn; [|reflexivity]. apply (IH d Hd ext). cbn in He. congruence. }
  exact (HG 0 H [] eq_refl s).
Qed.

(** Every program built from the library's combinators. *)
Inductive Built {P : PrimeField} : forall A, prog P A -> Prop :=
| B_ret A (a : A) : Built A (Ret a)
| B_panic A : Built A Panic
| B_alloc n f : Built _ (cs_alloc n f)
| B_alloc_input n f : Built _ (cs_alloc_input n f)
| B_enforce n a b c : Built _ (cs_enforce n a b c)
| B_enforce_equal n a b : Built _ (cs_enforce_equal n a b)
| B_seq A B (p : prog P A) (g : A -> prog P B) : Built A p -> (forall a, Built B (g a)) -> Built B (bind p g)
| B_try A B (p : prog P (res A)) (g : A -> prog P (res B)) : Built _ p -> (forall a, Built _ (g a)) -> Built _ (bindq p g)
| B_namespace A n (p : prog P A) : Built A p -> Built A (ns n p)
| B_multieq A (p : prog P A) : Built A p -> Built A (multieq_scope p).

Lemma built_ns {P : PrimeField} A (p : prog P A) : Built A p -> ns_ok 0 p.
Proof.
  induction 1; [reflexivity|exact I|apply ns_ok_cs_alloc|apply ns_ok_cs_alloc_input|reflexivity|reflexivity|..].
  - apply ns_ok_bind0; auto.
  - apply ns_ok_bindq; auto.
  - apply ns_ok_ns; auto.
  - apply ns_ok_scope; auto.
Qed.

Theorem C04_built_balanced (P : PrimeField) (A : Type) (p : prog P A) : Built A p -> Balanced p.
Proof. intros H. apply balanced_ns_ok. now apply built_ns. Qed.
Print Assumptions C04_built_balanced.

(** Every gadget of the library, for all arguments. *)
Theorem C04_gadgets_balanced (P : PrimeField) :
  (forall v, Balanced (ab_alloc (P:=P) v)) /\ (forall v m, Balanced (ab_alloc_conditionally (P:=P) v m)) /\
  (forall a b, Balanced (ab_xor (P:=P) a b)) /\ (forall a b, Balanced (ab_and (P:=P) a b)) /\
  (forall a b, Balanced (ab_and_not (P:=P) a b)) /\ (forall a b, Balanced (ab_nor (P:=P) a b)) /\
  (forall a b, Balanced (b_enforce_equal (P:=P) a b)) /\ (forall a b, Balanced (b_xor (P:=P) a b)) /\
  (forall a b, Balanced (b_and (P:=P) a b)) /\ (forall a b c, Balanced (b_ch (P:=P) a b c)) /\
  (forall a b c, Balanced (b_maj (P:=P) a b c)) /\ (forall v, Balanced (u64_into_boolean_vec_le (P:=P) v)) /\
  (forall F2 v, Balanced (field_into_boolean_vec_le (P:=P) F2 v)) /\
  (forall v, Balanced (an_alloc (P:=P) v)) /\ (forall a, Balanced (an_inputize (P:=P) a)) /\
  (forall a b, Balanced (an_mul (P:=P) a b)) /\ (forall a, Balanced (an_square (P:=P) a)) /\
  (forall a, Balanced (an_assert_nonzero (P:=P) a)) /\ (forall a b c, Balanced (an_conditionally_reverse (P:=P) a b c)) /\
  (forall a, Balanced (to_bits_le_strict (P:=P) a)) /\ (forall a, Balanced (to_bits_le (P:=P) a)) /\
  (forall bs t, Balanced (lookup3_xy (P:=P) bs t)) /\ (forall bs t, Balanced (lookup3_xy_neg (P:=P) bs t)) /\
  (forall bs, Balanced (pack_into_inputs (P:=P) bs)) /\
  (forall v, Balanced (u_alloc (P:=P) v)) /\ (forall a b, Balanced (u_xor (P:=P) a b)) /\
  (forall a b c, Balanced (u_ch (P:=P) a b c)) /\ (forall a b c, Balanced (u_maj (P:=P) a b c)) /\
  (forall l, Balanced (multieq_scope (addmany (P:=P) l))) /\
  (forall bs h, Balanced (sha256_compression (P:=P) bs h)) /\ (forall bs, Balanced (sha256_block_no_padding (P:=P) bs)) /\
  (forall bs, Balanced (sha256 (P:=P) bs)) /\
  (forall h m t f, Balanced (blake2s_compression (P:=P) h m t f)) /\ (forall bs k, Balanced (blake2s (P:=P) bs k)).
Proof.
  repeat match goal with |- _ /\ _ => split end; intros; apply balanced_ns_ok.
  - apply @g_ns, ab_alloc_gadget.
  - apply @g_ns, ab_alloc_conditionally_gadget.
  - apply @g_ns, ab_xor_gadget.
  - apply @g_ns, ab_and_gadget.
  - apply @g_ns, ab_and_not_gadget.
  - apply @g_ns, ab_nor_gadget.
  - apply @g_ns, b_enforce_equal_gadget.
  - apply @g_ns, b_xor_gadget.
  - apply @g_ns, b_and_gadget.
  - apply @g_ns, b_ch_gadget.
  - apply @g_ns, b_maj_gadget.
  - apply @g_ns, u64_into_boolean_vec_le_gadget.
  - apply @g_ns, field_into_boolean_vec_le_gadget.
  - apply @g_ns, an_alloc_gadget.
  - apply @g_ns, an_inputize_gadget.
  - apply @g_ns, an_mul_gadget.
  - apply @g_ns, an_square_gadget.
  - apply @g_ns, an_assert_nonzero_gadget.
  - apply @g_ns, an_conditionally_reverse_gadget.
  - apply @g_ns, to_bits_le_strict_gadget.
  - apply @g_ns, to_bits_le_gadget.
  - apply @g_ns, lookup3_xy_gadget.
  - apply @g_ns, lookup3_xy_neg_gadget.
  - apply @g_ns, pack_into_inputs_gadget.
  - apply @g_ns, u_alloc_gadget.
  - apply @g_ns, u_xor_gadget.
  - apply @g_ns, u_ch_gadget.
  - apply @g_ns, u_maj_gadget.
  - apply ns_ok_scope, addmany_ns.
  - apply @g_ns, compression_gadget.
  - apply @g_ns, block_gadget.
  - apply @g_ns, sha256_gadget.
  - apply @g_ns, b_compression_gadget.
  - apply @g_ns, blake2s_gadget.
Qed.
Print Assumptions C04_gadgets_balanced.

(** On TestConstraintSystem itself the namespace stack is restored. *)
Theorem C04_test_stack (P : PrimeField) (A : Type) (p : prog P A) (s : TState P) (r : A) (s' : TState P) :
  Built A p -> run TestCS p s = Done (r, s') -> t_ns s' = t_ns s.
Proof. intros H E. apply (ns_run p s r s' (t_ns s) []); [now rewrite app_nil_r|now apply built_ns|auto]. Qed.
Print Assumptions C04_test_stack.

(** ** Examples *)
Definition ex_circ (x y z : Z) (bad : bool) : prog Fr64513 (res unit) :=
  bindq (ns "a" (an_alloc (Ok (ofZ x)))) (fun a =>
  bindq (ns "b" (an_alloc (Ok (ofZ y)))) (fun b =>
  bindq (ns "out" (bindq (an_alloc (if bad then Err AssignmentMissing else Ok (ofZ z))) (fun c => bindq (an_inputize c) (fun _ => Ret (Ok c))))) (fun c =>
  bind (cs_enforce "mult" (lc_add_var lc_zero (an_var a)) (lc_add_var lc_zero (an_var b)) (lc_add_var lc_zero (an_var c))) (fun _ => Ret (Ok tt))))).
Definition ex_view (o : outcome (res unit * TState Fr64513)) :=
  match o with
  | Done (r, s) => Some (match r with Ok _ => true | Err _ => false end, t_ns s, map (fun e => (toZ (fst e), snd e)) (t_inputs s),
      map (fun e => (toZ (fst e), snd e)) (t_aux s), map snd (t_cons s), which_is_unsatisfied s, is_satisfied s)
  | Panicked => None
  end.
Example C02_C03_C04_ex :
  ex_view (run TestCS (ex_circ 3 5 15 false) test_new) =
    Some (true, [], [(1%Z, "ONE"); (15%Z, "out/input variable")]%string, [(3%Z, "a/num"); (5%Z, "b/num"); (15%Z, "out/num")]%string,
      ["out/enforce input is correct"; "mult"]%string, Done None, Done true) /\
  ex_view (run TestCS (ex_circ 3 5 16 false) test_new) =
    Some (true, [], [(1%Z, "ONE"); (16%Z, "out/input variable")]%string, [(3%Z, "a/num"); (5%Z, "b/num"); (16%Z, "out/num")]%string,
      ["out/enforce input is correct"; "mult"]%string, Done (Some "mult"%string), Done false) /\
  ex_view (run TestCS (ex_circ 3 5 15 true) test_new) =
    Some (false, [], [(1%Z, "ONE")]%string, [(3%Z, "a/num"); (5%Z, "b/num")]%string, [], Done None, Done true) /\
  run TestCS (bind (ex_circ 3 5 15 false) (fun _ => ns "a" (Ret tt))) test_new = Panicked /\
  match run TestCS (ex_circ 3 5 15 false) test_new with
  | Done (_, s) =>
      match t_set s "b/num" (ofZ 6) with
      | Done s' => which_is_unsatisfied s' = Done (Some "mult"%string) /\
          match t_get s' "a/num", t_get s' "b/num" with Done x, Done y => toZ x = 3%Z /\ toZ y = 6%Z | _, _ => False end
      | Panicked => False
      end /\ t_verify s [ofZ 15] = Done true /\ t_verify s [ofZ 14] = Done false /\ t_verify s [] = Panicked
  | Panicked => False
  end.
Proof.
  split; [vm_compute; reflexivity|]. split; [vm_compute; reflexivity|]. split; [vm_compute; reflexivity|].
  split; [|vm_compute; auto 10].
  assert (E : match run TestCS (bind (ex_circ 3 5 15 false) (fun _ => ns "a" (Ret tt))) test_new with Panicked => true | _ => false end = true)
    by (vm_compute; reflexivity).
  destruct (run _ _ _); [discriminate|reflexivity].
Qed.
