(** Unit tests: auxiliary lemmas. *)
From Coq Require Import String Ascii.
From Coq Require Import ZArith List Bool Lia Field.
From Verif Require Import Prelude PrimeField Loops BooleanGadget NumGadget MultiEq UInt32 UInt32Proof LookupGadget Multipack Spec TestCS TestCSProof PropTestCS
  Scope ScopeRun PropScope Names NamesGadgets NamesFit UnitTests.
From Verif Require DomainProof PrettyProof.
From Verif Require Import Circuit.
Import ListNotations.
Local Open Scope nat_scope.

Section Core.
Context {P : PrimeField}.
Local Open Scope F_scope.
Add Field PFunit : (F_field P).
Notation T := (TState P).

(** ** Names of variables: [M] holds of the path and the variable of every allocation. *)
Fixpoint wpV (M : string -> Var -> Prop) {A} (st : list string) (p : prog P A) (Q : list string -> A -> Prop) : Prop :=
  match p with
  | Ret a => Q st a
  | Panic => True
  | Alloc n _ k | AllocInput n _ k => (forall v b, M (String.concat "/" (st ++ [n])) v -> wpV M st (k (Ok v) b) Q) /\ (forall e b, wpV M st (k (Err e) b) Q)
  | Enforce _ _ _ _ k | EnforceEq _ _ _ k => wpV M st k Q
  | PushNs n k => wpV M (st ++ [n]) k Q
  | PopNs k => wpV M (removelast st) k Q
  end.
Lemma wpV_mono M {A} (p : prog P A) (Q Q' : list string -> A -> Prop) : (forall st a, Q st a -> Q' st a) -> forall st, wpV M st p Q -> wpV M st p Q'.
Proof. intros HQ. induction p as [a| |n f k IH|n f k IH|n a b c k IH|n l r k IH|n k IH|k IH]; cbn; intros st; auto; intros [H1 H2]; split; auto. Qed.
Lemma wpV_bind M {A B} (p : prog P A) (g : A -> prog P B) Q : forall st, wpV M st p (fun st a => wpV M st (g a) Q) -> wpV M st (bind p g) Q.
Proof. induction p as [a| |n f k IH|n f k IH|n a b c k IH|n l r k IH|n k IH|k IH]; cbn; intros st; auto; intros [H1 H2]; split; auto. Qed.
(** [p] leaves the namespace as it is; its result, if it is one, has [Q]. *)
Definition at_path (M : string -> Var -> Prop) {A} (st : list string) (p : prog P (res A)) (Q : A -> Prop) : Prop :=
  wpV M st p (fun st' r => st' = st /\ okP Q r).
Lemma at_mono M {A} st (p : prog P (res A)) (Q Q' : A -> Prop) : (forall a, Q a -> Q' a) -> at_path M st p Q -> at_path M st p Q'.
Proof. intros HQ. apply wpV_mono. intros st' [a|e] [E H]; split; auto. apply HQ, H. Qed.
Lemma at_ret M {A} st (a : A) (Q : A -> Prop) : Q a -> at_path M st (Ret (Ok a)) Q. Proof. intros H. split; [reflexivity|exact H]. Qed.
Lemma at_bindq M {A B} st (p : prog P (res A)) (g : A -> prog P (res B)) Q : at_path M st p (fun a => at_path M st (g a) Q) -> at_path M st (bindq p g) Q.
Proof. intros H. apply wpV_bind. eapply wpV_mono; [|exact H]. cbn. intros st' [a|e] [-> Hr]; [exact Hr|]. split; [reflexivity|exact I]. Qed.
Lemma at_bindq' M {A B} st (p : prog P (res A)) (g : A -> prog P (res B)) (Q1 : A -> Prop) Q : at_path M st p Q1 -> (forall a, Q1 a -> at_path M st (g a) Q) -> at_path M st (bindq p g) Q.
Proof. intros H Hg. apply at_bindq. eapply at_mono; [|exact H]. exact Hg. Qed.
Lemma at_ns M {A} st n (p : prog P (res A)) Q : at_path M (st ++ [n]) p Q -> at_path M st (ns n p) Q.
Proof.
  intros H. unfold at_path, ns. cbn [wpV]. apply wpV_bind. eapply wpV_mono; [|exact H]. cbn. intros st' r [-> Hr]. split; [|exact Hr]. apply removelast_last.
Qed.
Lemma at_alloc M st n f : at_path M st (@cs_alloc P n f) (fun r => M (String.concat "/" (st ++ [n])) (fst r)).
Proof. cbn. split; intros; (split; [reflexivity|]); cbn; auto. Qed.
Lemma at_alloc_input M st n f : at_path M st (@cs_alloc_input P n f) (fun r => M (String.concat "/" (st ++ [n])) (fst r)).
Proof. cbn. split; intros; (split; [reflexivity|]); cbn; auto. Qed.
Lemma at_enforce M {A} st n a b c (g : prog P (res A)) Q : at_path M st g Q -> at_path M st (bind (cs_enforce n a b c) (fun _ => g)) Q.
Proof. intros H. exact H. Qed.

Definition holds_at (s : T) (path : string) (v : Var) : Prop := find_obj path (t_objs s) = Some (OVar v).
Lemma wpV_run {A} (p : prog P A) : forall s r s' (Q : list string -> A -> Prop), Reach s -> run TestCS p s = Done (r, s') ->
  wpV (holds_at s') (t_ns s) p Q -> Q (t_ns s') r.
Proof.
  assert (Grow : forall A (q : prog P A) t r t' path v, Reach t -> run TestCS q t = Done (r, t') -> holds_at t path v -> holds_at t' path v).
  { intros A0 q t r t' path v Ht E. apply (proj1 (C03_stable P A0 q t r t' Ht E path)). }
  induction p as [a| |n f k IH|n f k IH|n a b c k IH|n l r0 k IH|n k IH|k IH]; intros s r s' Q Hs E H.
  - cbn in E. injection E as <- <-. exact H.
  - discriminate.
  - cbn [run] in E. destruct (m_alloc TestCS s n f) as [[[s1 v] b]|] eqn:E1; [|discriminate]. cbn [obind fst snd] in E.
    assert (Hs1 : Reach s1). { refine (R_run _ (Alloc n f (fun r b => Ret (r, b))) s (v, b) s1 Hs _). cbn [run]. rewrite E1. reflexivity. }
    cbn [wpV] in H. destruct H as [Ha He]. change (m_alloc TestCS) with (@t_alloc P) in E1. apply alloc_inv in E1.
    destruct E1 as (path & Ep & -> & [(e & -> & -> & ->)|(x & -> & Hn & -> & ->)]).
    + refine (IH _ _ _ _ _ _ Hs1 E _). apply He.
    + refine (IH _ _ _ _ _ _ Hs1 E _). cbn [t_ns]. apply Ha. eapply Grow; [exact Hs1|exact E|]. unfold holds_at. cbn [t_objs find_obj].
      apply has_slash_done in Ep as [_ ->]. now rewrite String.eqb_refl.
  - cbn [run] in E. destruct (m_alloc_input TestCS s n f) as [[[s1 v] b]|] eqn:E1; [|discriminate]. cbn [obind fst snd] in E.
    assert (Hs1 : Reach s1). { refine (R_run _ (AllocInput n f (fun r b => Ret (r, b))) s (v, b) s1 Hs _). cbn [run]. rewrite E1. reflexivity. }
    cbn [wpV] in H. destruct H as [Ha He]. change (m_alloc_input TestCS) with (@t_alloc_input P) in E1. apply alloc_input_inv in E1.
    destruct E1 as (path & Ep & -> & [(e & -> & -> & ->)|(x & -> & Hn & -> & ->)]).
    + refine (IH _ _ _ _ _ _ Hs1 E _). apply He.
    + refine (IH _ _ _ _ _ _ Hs1 E _). cbn [t_ns]. apply Ha. eapply Grow; [exact Hs1|exact E|]. unfold holds_at. cbn [t_objs find_obj].
      apply has_slash_done in Ep as [_ ->]. now rewrite String.eqb_refl.
  - cbn [run] in E. destruct (m_enforce TestCS s n a b c) as [s1|] eqn:E1; [|discriminate]. cbn [obind] in E.
    assert (Hs1 : Reach s1). { refine (R_run _ (Enforce n a b c (Ret tt)) s tt s1 Hs _). cbn [run]. rewrite E1. reflexivity. }
    change (m_enforce TestCS) with (@t_enforce P) in E1. apply enforce_inv in E1 as (path & _ & _ & ->). exact (IH _ _ _ _ Hs1 E H).
  - discriminate.
  - cbn [run] in E. destruct (m_push TestCS s n) as [s1|] eqn:E1; [|discriminate]. cbn [obind] in E.
    assert (Hs1 : Reach s1). { refine (R_run _ (PushNs n (Ret tt)) s tt s1 Hs _). cbn [run]. rewrite E1. reflexivity. }
    change (m_push TestCS) with (@t_push P) in E1. apply push_inv in E1 as (path & _ & _ & ->). exact (IH _ _ _ _ Hs1 E H).
  - cbn [run] in E. destruct (m_pop TestCS s) as [s1|] eqn:E1; [|discriminate]. cbn [obind] in E.
    assert (Hs1 : Reach s1). { refine (R_run _ (PopNs (Ret tt)) s tt s1 Hs _). cbn [run]. rewrite E1. reflexivity. }
    change (m_pop TestCS) with (@t_pop P) in E1. apply pop_inv in E1 as (_ & ->). exact (IH _ _ _ _ Hs1 E H).
Qed.

(** ** The tests *)
Lemma fit_in_range (s : T) : t_fit s -> Forall (c_in_range s) (map fst (t_cons s)).
Proof.
  unfold t_fit. intros H. apply Forall_map. eapply Forall_impl; [|exact H]. intros [[[a b] c] path] (Ha & Hb & Hc). cbn [fst snd] in *.
  assert (X : forall l : LC P, lck (t_ex s) l -> in_range s l).
  { intros l. apply Forall_impl. intros [v k] Hv. cbn [fst] in *. unfold t_ex, AssemblyProof.v_ok, entry in *. destruct v; apply nth_error_Some; exact Hv. }
  repeat split; auto.
Qed.
Lemma new_state : pstate (@test_new P) = {| p_inputs := [fone]; p_aux := []; p_cons := [] |}. Proof. reflexivity. Qed.

(** What is known about a test after the calls of gadgets. *)
Record state_ok (s : T) : Prop := { so_reach : Reach s; so_fit : t_fit s; so_one : asg (pstate s) one_var = 1 }.

Lemma test_run {A} (p : prog P (res A)) (N : names) (Q : (Var -> P) -> A -> Prop) : noeq p -> uses word p N (okP (fun _ => True)) -> ~ N "ONE"%string ->
  (forall rho, rho one_var = 1 -> wpC rho p (isOk (Q rho))) -> (forall K : Var -> Prop, K one_var -> wpK K p (okP (fun _ => True))) ->
  exists a s cs, circuit p = Done (a, s) /\ state_ok s /\ Q (asg (pstate s)) a /\ sat (asg (pstate s)) (p_cons (pstate s)) /\
    emits p (Ok a) cs [] /\ p_cons (pstate s) = cs /\
    (forall R : (string -> Var -> Prop) -> A -> Prop, (forall M, at_path M [] p (R M)) -> R (holds_at s) a).
Proof.
  intros Hne HU HN HC HK.
  assert (W : wf_state (pstate (@test_new P))) by (exists []; reflexivity).
  destruct (complete_run p Q (pstate test_new) Hne) as (a & q & cs & Er & Ec & He & Hs).
  { intros rho Ha. apply HC. eapply agrees_one; eauto. }
  apply strict_honest in Er.
  destruct (uses_run p N _ HU test_new R_new) with (r := (Ok a : res A)) (q := q) as (s & Et & Ep & _ & _ & _); [|exact Er|].
  { intros x Hx. unfold path_of, taken. cbn [t_ns test_new t_objs app String.concat find_obj]. destruct (String.eqb_spec x "ONE") as [->|]; [contradiction|]. auto. }
  subst q. assert (Hr : Reach s) by exact (R_run _ p test_new (Ok a) s R_new Et).
  destruct (t_scope p (fun _ => okP (fun _ => True)) test_new (Ok a) s) as (Hf & _ & _); [constructor| |exact Et|].
  { intros K HK1. apply HK. apply HK1. cbn. lia. }
  destruct (C02_records P _ p test_new (Ok a) s Et) as (_ & _ & _ & cs' & Hem & Hcs & _).
  destruct (Hs (asg (pstate s)) (agrees_asg _)) as [Hsat HQ].
  assert (H1 : asg (pstate s) one_var = 1). { apply (agrees_one _ (pstate test_new) W). eapply agrees_extends; [exact He|apply agrees_asg]. }
  exists a, s, cs'. split; [unfold circuit; rewrite Et; reflexivity|]. split; [split; assumption|]. split; [exact HQ|].
  rewrite new_state in Ec, Hcs. cbn [p_cons app] in Ec, Hcs. split; [rewrite Ec; exact Hsat|]. split; [exact Hem|]. split; [exact Hcs|].
  intros R HR. exact (proj2 (wpV_run p test_new (Ok a) s _ R_new Et (HR (holds_at s)))).
Qed.

Lemma ok_satisfied s : state_ok s -> sat (asg (pstate s)) (p_cons (pstate s)) -> is_satisfied s = Done true.
Proof. intros [H1 H2 H3] H. apply (C02_satisfied P s (fit_in_range s H2)), H. Qed.
Lemma ok_unsatisfied s : state_ok s -> ~ sat (asg (pstate s)) (p_cons (pstate s)) -> is_satisfied s = Done false.
Proof. intros [H1 H2 H3] H. apply (C02_satisfied P s (fit_in_range s H2)), H. Qed.

Lemma ok_get s path v : state_ok s -> holds_at s path v -> t_get s path = Done (asg (pstate s) v).
Proof.
  intros [H1 H2 H3] H. unfold t_get. rewrite H. destruct (i_var _ (reach_inv _ H1) _ _ H) as [y Hy]. rewrite Hy. cbn [fst]. now rewrite (entry_asg _ _ _ Hy).
Qed.
Lemma ok_set s path v x : state_ok s -> holds_at s path v -> v <> one_var -> exists s', t_set s path x = Done s' /\ state_ok s' /\
  asg (pstate s') v = x /\ (forall w, w <> v -> asg (pstate s') w = asg (pstate s) w) /\ p_cons (pstate s') = p_cons (pstate s) /\
  (forall q w, holds_at s' q w <-> holds_at s q w) /\ t_cons s' = t_cons s.
Proof.
  intros Hs H Hv. destruct (C03_set P s path x (so_reach _ Hs)) as [[_ He] Ha]. destruct He as [s' E]; [eexists; eapply ok_get; eauto|]. exists s'. split; [exact E|].
  destruct (Ha s' E) as (_ & _ & (v' & Hf & Hx & Ho) & Hobj & _ & Hc & Hi & Hau). unfold holds_at in H. assert (v' = v) by congruence. subst v'.
  split.
  - split.
    + exact (R_set s path x s' (so_reach _ Hs) E).
    + pose proof (so_fit _ Hs) as Hf'. unfold t_fit in *. rewrite Hc. eapply Forall_impl; [|exact Hf']. intros [[[a b] c] pth] HH. unfold con_ex, t_ex in *.
      replace (List.length (t_inputs s')) with (List.length (t_inputs s)); [replace (List.length (t_aux s')) with (List.length (t_aux s)); [exact HH|]|].
      * rewrite <- (map_length snd (t_aux s)), <- Hau. apply map_length.
      * rewrite <- (map_length snd (t_inputs s)), <- Hi. apply map_length.
    + rewrite Ho by congruence. apply Hs.
  - split; [exact Hx|]. split; [exact Ho|]. split; [unfold pstate; cbn [p_cons]; now rewrite Hc|]. split; [|exact Hc]. intros q w. unfold holds_at. now rewrite Hobj.
Qed.
(** Different paths have different variables. *)
Lemma ok_distinct s p q v w : state_ok s -> holds_at s p v -> holds_at s q w -> p <> q -> v <> w.
Proof.
  intros Hs Hp Hq Hn ->. destruct (i_var _ (reach_inv _ (so_reach _ Hs)) _ _ Hp) as [y Hy].
  pose proof (proj2 (C03_one_path_each P s (so_reach _ Hs) w _ Hy)) as H. apply Hn. transitivity p; [reflexivity|].
  rewrite (proj1 (H p) Hp). symmetry. exact (proj1 (H q) Hq).
Qed.
Lemma one_named s : Reach s -> holds_at s "ONE" one_var.
Proof.
  induction 1 as [|A p s r s' H IH E|s path x s' H IH E]; [reflexivity| |].
  - apply (proj1 (C03_stable P A p s r s' H E "ONE")). exact IH.
  - destruct (C03_set P s path x H) as [_ Ha]. unfold holds_at. destruct (Ha s' E) as (_ & _ & _ & -> & _). exact IH.
Qed.
Lemma ok_not_one s p v : state_ok s -> holds_at s p v -> p <> "ONE"%string -> v <> one_var.
Proof. intros Hs H Hn. eapply ok_distinct; [exact Hs|exact H|apply one_named, Hs|exact Hn]. Qed.
(** What soundness says about a state with the same constraints. *)
Lemma tampered {A} (p : prog P (res A)) a cs (s' : T) (R : (Var -> P) -> A -> Prop) : emits p (Ok a) cs [] -> p_cons (pstate s') = cs -> state_ok s' ->
  (forall rho, rho one_var = 1 -> wpS rho True p (okP (R rho))) -> ~ R (asg (pstate s')) a -> is_satisfied s' = Done false.
Proof.
  intros He Hc Hs HS HR. apply ok_unsatisfied; [exact Hs|]. intros Hsat. apply HR. rewrite Hc in Hsat. exact (wpS_emits _ p _ (Ok a) cs (HS _ (so_one _ Hs)) He Hsat).
Qed.
End Core.

(** ** num.rs *)
Section NumTests.
Context {P : PrimeField}.
Local Open Scope F_scope.
Local Open Scope prog_scope.
Local Open Scope string_scope.
Add Field PFunitn : (F_field P).
Notation T := (TState P).

Lemma feqb_neq (x y : P) : feqb x y = false <-> x <> y.
Proof. rewrite <- (feqb_eq P x y). destruct (feqb x y); split; congruence. Qed.
Lemma assert_true b : b = true -> assert b = Done tt. Proof. intros ->. reflexivity. Qed.
Lemma assert_eq (x y : P) : x = y -> assert (feqb x y) = Done tt. Proof. intros ->. apply assert_true. now apply feqb_eq. Qed.
Lemma satisfied_ok (s : T) : is_satisfied s = Done true -> assert_satisfied s = Done tt. Proof. unfold assert_satisfied. intros ->. reflexivity. Qed.
Lemma unsatisfied_ok (s : T) : is_satisfied s = Done false -> assert_unsatisfied s = Done tt. Proof. unfold assert_unsatisfied. intros ->. reflexivity. Qed.
Lemma wpK_bind' (K : Var -> Prop) {A B} (p : prog P A) (g : A -> prog P B) Q : wpK K p (fun a => wpK K (g a) Q) -> wpK K (bind p g) Q.
Proof. induction p as [a| |n f k IH|n f k IH|n a b c k IH|n l r k IH|n k IH|k IH]; cbn; auto; try tauto; intros [H1 H2]; split; auto. Qed.
Lemma wpK_q (K : Var -> Prop) {A B} (p : prog P (res A)) (g : A -> prog P (res B)) Q1 Q : wpK K p (okP Q1) -> (forall a, Q1 a -> wpK K (g a) (okP Q)) -> wpK K (bindq p g) (okP Q).
Proof. intros H Hg. apply wpK_bind'. eapply wpK_mono; [|exact H]. intros [a|e]; cbn; auto. Qed.
Lemma wpK_any (K : Var -> Prop) {A} (p : prog P (res A)) Q : wpK K p (okP Q) -> wpK K p (okP (fun _ => True)).
Proof. apply wpK_mono. intros [a|e]; cbn; auto. Qed.


Definition full (st : list string) (n : string) : string := String.concat "/" (st ++ [n]).
Lemma at_an_alloc M st v : at_path M st (@an_alloc P v) (fun a => M (full st "num") (an_var a)).
Proof. unfold at_path. cbn -[String.concat app]. split; intros; (split; [reflexivity|]); [assumption|exact I]. Qed.
Lemma at_square M st a : at_path M st (@an_square P a) (fun a => M (full st "squared num") (an_var a)).
Proof. unfold at_path. cbn -[String.concat app]. split; intros; (split; [reflexivity|]); [assumption|exact I]. Qed.
Lemma at_mul M st a b : at_path M st (@an_mul P a b) (fun a => M (full st "product num") (an_var a)).
Proof. unfold at_path. cbn -[String.concat app]. split; intros; (split; [reflexivity|]); [assumption|exact I]. Qed.

Lemma allocated_num : @test_allocated_num P = Done tt.
Proof.
  unfold test_allocated_num.
  destruct (test_run (an_alloc (Ok (fone : P))) (oneof ["num"]) (fun rho a => num_hon rho a 1)) as (a & s & cs & -> & Hs & [Hx _] & _ & _ & _ & HM).
  - unfold an_alloc. struct.
  - apply weak, an_alloc_u.
  - intros H. ns_.
  - intros rho _. apply an_alloc_complete.
  - intros K _. eapply wpK_any, an_alloc_wpK.
  - cbn [obind]. specialize (HM _ (fun M => at_an_alloc M [] _)). change (holds_at s "num" (an_var a)) in HM.
    rewrite (ok_get _ _ _ Hs HM). cbn [obind]. apply assert_eq. exact Hx.
Qed.

(** Setting the variable of [path] to something else. *)
Lemma set_wrong {A} (p : prog P (res A)) a cs s path v w (R : (Var -> P) -> A -> Prop) : emits p (Ok a) cs [] -> p_cons (pstate s) = cs -> state_ok s ->
  holds_at s path v -> path <> "ONE" -> (forall rho, rho one_var = 1 -> wpS rho True p (okP (R rho))) ->
  (forall rho, rho v = w -> (forall x, x <> v -> rho x = asg (pstate s) x) -> ~ R rho a) ->
  obind (t_set s path w) (fun cs => assert_unsatisfied cs) = Done tt.
Proof.
  intros He Hc Hs Hp Hn HS HR. destruct (ok_set s path v w Hs Hp (ok_not_one _ _ _ Hs Hp Hn)) as (s' & -> & Hs' & Hv & Ho & Hc' & _). cbn [obind].
  apply unsatisfied_ok. eapply tampered; [exact He|now rewrite Hc'|exact Hs'|exact HS|]. now apply HR.
Qed.


Lemma sat_ext (r r' : Var -> P) cs : (forall v, r v = r' v) -> sat r cs -> sat r' cs.
Proof.
  intros H. assert (X : forall l : LC P, eval r l = eval r' l). { intros l. unfold eval. induction l as [|t l IH]; cbn; [reflexivity|]. now rewrite IH, H. }
  apply Forall_impl. intros [[a b] c]. cbn [holds]. now rewrite !X.
Qed.
Lemma set_right (s : T) path v w : sat (asg (pstate s)) (p_cons (pstate s)) -> state_ok s -> holds_at s path v -> path <> "ONE" -> asg (pstate s) v = w ->
  exists s', t_set s path w = Done s' /\ assert_unsatisfied s' = Panicked.
Proof.
  intros Hsat Hs Hp Hn Hw. destruct (ok_set s path v w Hs Hp (ok_not_one _ _ _ Hs Hp Hn)) as (s' & E & Hs' & Hv & Ho & Hc' & _). exists s'. split; [exact E|].
  unfold assert_unsatisfied. rewrite (ok_satisfied s' Hs'); [reflexivity|]. rewrite Hc'. eapply sat_ext; [|exact Hsat]. intros x.
  destruct (PrettyProof.var_eq_dec x v) as [->|Hx]; [congruence|]. symmetry. now apply Ho.
Qed.


Ltac nn := unfold n_reverse, n_lookup, n_lookup_neg, n_bits, n_strict, n_pack, n_bit in *; ns_.
Ltac done_step := first [rewrite assert_eq by assumption | rewrite assert_true by assumption]; cbn [obind].
Lemma num_squaring (n w : P) : test_num_squaring n w = if feqb w (n * n) then Panicked else Done tt.
Proof.
  unfold test_num_squaring.
  set (p := let* n := an_alloc (Ok n) in let* n2 := an_square n in Ret (Ok (n, n2))).
  destruct (test_run p (oneof ["num"; "squared num"; "squaring constraint"])
    (fun rho a => num_hon rho (fst a) n /\ num_hon rho (snd a) (n * n))) as ([x y] & s & cs & -> & Hs & [[Hx _] [Hy Vy]] & Hsat & He & Hc & HM); unfold p.
  - struct.
  - apply weak. eapply uses_q; [apply an_alloc_u|intros; apply uses_then, square_u|ns_|ns_].
  - intros H. ns_.
  - intros rho _. eapply wpC_bindq'; [apply an_alloc_complete|]. intros a Ha. eapply wpC_bindq'; [apply an_square_complete; exact Ha|]. intros b Hb. split; [exact Ha|exact Hb].
  - intros K K1. eapply wpK_q; [apply an_alloc_wpK|]. intros a Ha. eapply wpK_q; [apply scop_wpK, square_scop; assumption|]. intros; exact I.
  - cbn [obind fst snd] in *. rewrite (satisfied_ok _ (ok_satisfied _ Hs Hsat)). cbn [obind].
    assert (HM' : holds_at s "num" (an_var x) /\ holds_at s "squared num" (an_var y)).
    { apply (HM (fun M r => M "num" (an_var (fst r)) /\ M "squared num" (an_var (snd r)))). intros M. eapply at_bindq'; [apply at_an_alloc|]. intros a Ha.
      eapply at_bindq'; [apply at_square|]. intros b Hb. apply at_ret. split; [exact Ha|exact Hb]. }
    destruct HM' as [Mx My]. rewrite (ok_get _ _ _ Hs My). cbn [obind]. done_step. rewrite Vy. cbn [unwrap_o obind]. rewrite assert_eq by reflexivity. cbn [obind].
    destruct (feqb w (n * n)) eqn:Hw.
    { apply feqb_eq in Hw. destruct (set_right s "squared num" (an_var y) w Hsat Hs My) as (s' & -> & E'); [discriminate|congruence|exact E']. }
    apply feqb_neq in Hw.
    eapply (set_wrong p) with (R := fun rho r => rho (an_var (snd r)) = rho (an_var (fst r)) * rho (an_var (fst r))); eauto; [discriminate| |].
    + intros rho _. eapply wpS_bindq'; [apply an_alloc_sound|]. intros a _. eapply wpS_bindq'; [apply an_square_sound|]. intros b Hb. exact Hb.
    + cbn [fst snd]. intros rho Hv Ho. rewrite Hv, Ho, Hx; [exact Hw|]. eapply ok_distinct; eauto. discriminate.
Qed.

Lemma num_multiplication (n m w : P) : test_num_multiplication n m w = if feqb w (n * m) then Panicked else Done tt.
Proof.
  unfold test_num_multiplication.
  set (p := let* n := ns "a" (an_alloc (Ok n)) in let* m := ns "b" (an_alloc (Ok m)) in let* n3 := an_mul n m in Ret (Ok (n, m, n3))).
  destruct (test_run p (oneof ["a"; "b"; "product num"; "multiplication constraint"])
    (fun rho a => num_hon rho (fst (fst a)) n /\ num_hon rho (snd (fst a)) m /\ num_hon rho (snd a) (n * m))) as ([[x y] z] & s & cs & -> & Hs & [[Hx _] [[Hy _] [Hz Vz]]] & Hsat & He & Hc & HM); unfold p.
  - struct.
  - apply weak. eapply uses_q; [eapply uses_in; [pl|apply an_alloc_u]|intros; eapply uses_q; [eapply uses_in; [pl|apply an_alloc_u]|intros; apply uses_then, mul_u|ns_|intros ? H; exact H]|ns_|ns_].
  - intros H. ns_.
  - intros rho _. eapply wpC_bindq'; [apply wpC_ns, an_alloc_complete|]. intros a Ha. eapply wpC_bindq'; [apply wpC_ns, an_alloc_complete|]. intros b Hb.
    eapply wpC_bindq'; [exact (an_mul_complete rho a b n m Ha Hb)|]. intros c Hc. repeat split; [apply Ha|apply Ha|apply Hb|apply Hb|apply Hc|apply Hc].
  - intros K K1. eapply wpK_q; [apply wpK_ns, an_alloc_wpK|]. intros a Ha. eapply wpK_q; [apply wpK_ns, an_alloc_wpK|]. intros b Hb. eapply wpK_q; [apply scop_wpK, mul_scop; assumption|]. intros; exact I.
  - cbn [obind fst snd] in *. rewrite (satisfied_ok _ (ok_satisfied _ Hs Hsat)). cbn [obind].
    assert (HM' : holds_at s "a/num" (an_var x) /\ holds_at s "b/num" (an_var y) /\ holds_at s "product num" (an_var z)).
    { apply (HM (fun M r => M "a/num" (an_var (fst (fst r))) /\ M "b/num" (an_var (snd (fst r))) /\ M "product num" (an_var (snd r)))). intros M. eapply at_bindq'; [apply at_ns, at_an_alloc|]. intros a Ha.
      eapply at_bindq'; [apply at_ns, at_an_alloc|]. intros b Hb. eapply at_bindq'; [apply at_mul|]. intros c Hc'. apply at_ret. split; [exact Ha|split; [exact Hb|exact Hc']]. }
    destruct HM' as (Mx & My & Mz). rewrite (ok_get _ _ _ Hs Mz). cbn [obind]. done_step. rewrite Vz. cbn [unwrap_o obind]. rewrite assert_eq by reflexivity. cbn [obind].
    destruct (feqb w (n * m)) eqn:Hw.
    { apply feqb_eq in Hw. destruct (set_right s "product num" (an_var z) w Hsat Hs Mz) as (s' & -> & E'); [discriminate|congruence|exact E']. }
    apply feqb_neq in Hw.
    eapply (set_wrong p) with (R := fun rho r => rho (an_var (snd r)) = rho (an_var (fst (fst r))) * rho (an_var (snd (fst r)))); eauto; [discriminate| |].
    + intros rho _. eapply wpS_bindq'; [apply wpS_ns, an_alloc_sound|]. intros a _. eapply wpS_bindq'; [apply wpS_ns, an_alloc_sound|]. intros b _. eapply wpS_bindq'; [apply an_mul_sound|]. intros c Hb. exact Hb.
    + cbn [fst snd]. intros rho Hv Ho. rewrite Hv, !Ho, Hx, Hy; [exact Hw| |]; eapply ok_distinct; eauto; discriminate.
Qed.

Lemma conditional_reversal_ok c (x y : P) : conditional_reversal c x y = Done tt.
Proof.
  unfold conditional_reversal.
  match goal with |- context [circuit ?q] => set (p := q) end.
  destruct (test_run p (join (oneof ["a"; "b"]) (oneof n_reverse))
    (fun rho a => an_value (fst (fst a)) = Some x /\ an_value (snd (fst a)) = Some y /\
       num_hon rho (fst (snd a)) (if c then y else x) /\ num_hon rho (snd (snd a)) (if c then x else y))) as ([[a b] [u v]] & s & cs & -> & Hs & (Va & Vb & [_ Vu] & [_ Vv]) & Hsat & _); unfold p.
  - struct.
  - apply weak. eapply uses_q; [eapply uses_in; [pl|apply an_alloc_u]|intros; eapply uses_q; [eapply uses_in; [pl|apply an_alloc_u]|intros; apply uses_then, reverse_u|nn|intros ? H; exact H]|nn|nn].
  - intros H. nn.
  - intros rho H1. eapply wpC_bindq'; [apply wpC_ns, an_alloc_complete|]. intros a Ha. eapply wpC_bindq'; [apply wpC_ns, an_alloc_complete|]. intros b Hb.
    eapply wpC_bindq'; [eapply an_conditionally_reverse_complete with (t := c); [try exact H1|exact Ha|exact Hb|split; reflexivity]|]. intros d Hd. repeat split; [apply Ha|apply Hb| | | |]; apply Hd.
  - intros K K1. eapply wpK_q; [apply wpK_ns, an_alloc_wpK|]. intros a Ha. eapply wpK_q; [apply wpK_ns, an_alloc_wpK|]. intros b Hb. eapply wpK_q; [apply scop_wpK, reverse_scop; try assumption; exact I|]. intros; exact I.
  - cbn [obind fst snd] in *. rewrite (satisfied_ok _ (ok_satisfied _ Hs Hsat)). cbn [obind]. rewrite Va, Vb, Vu, Vv. cbn [unwrap_o obind].
    destruct c; rewrite !assert_eq by reflexivity; reflexivity.
Qed.
Lemma num_reversal draw : @test_num_conditional_reversal P draw = Done tt.
Proof. unfold test_num_conditional_reversal. now rewrite !conditional_reversal_ok. Qed.


Definition nonzero_state (n x : P) : T :=
  {| t_objs := [("nonzero assertion constraint", OConstraint 0); ("ephemeral inverse", OVar (Aux 1)); ("num", OVar (Aux 0)); ("ONE", OVar one_var)]; t_ns := [];
     t_cons := [((lc_add_var lc_zero (Aux 0), lc_add_var lc_zero (Aux 1), lc_add_var lc_zero one_var), "nonzero assertion constraint")]; t_inputs := [(1, "ONE")];
     t_aux := [(n, "num"); (x, "ephemeral inverse")] |}.
Lemma nonzero_which n x : which_is_unsatisfied (nonzero_state n x) = Done (if feqb (n * x) 1 then None else Some "nonzero assertion constraint").
Proof.
  unfold which_is_unsatisfied, nonzero_state. cbv -[feqb fmul fadd fzero fone]. replace (0 + n * 1) with n by ring. replace (0 + x * 1) with x by ring. replace (0 + 1 * 1) with (1 : P) by ring.
  destruct (feqb (n * x) 1); reflexivity.
Qed.
Lemma num_nonzero (n w : P) : test_num_nonzero n w = if feqb n 0 then Panicked else if feqb (n * w) 1 then Panicked else Done tt.
Proof.
  assert (Z0 : @feqb P fzero fzero = true) by now apply feqb_eq.
  unfold test_num_nonzero. destruct (feqb n 0) eqn:Z.
  { unfold circuit. cbv -[feqb finv fmul fadd fzero fone]. rewrite Z. reflexivity. }
  pose proof (proj1 (feqb_neq n 0) Z) as Hn.
  assert (E1 : circuit (let* n := an_alloc (Ok n) in an_assert_nonzero n) = Done (tt, nonzero_state n (finv n))).
  { unfold circuit. cbv -[feqb finv fmul fadd fzero fone]. rewrite Z. reflexivity. }
  rewrite E1. cbn [obind]. unfold assert_satisfied, is_satisfied. rewrite nonzero_which.
  replace (n * finv n) with (1 : P) by (field; exact Hn). replace (feqb (1 : P) 1) with true by (symmetry; now apply feqb_eq). cbn [obind assert].
  change (t_set (nonzero_state n (finv n)) "ephemeral inverse" w) with (Done (nonzero_state n w)). cbn [obind]. rewrite nonzero_which.
  destruct (feqb (n * w) 1) eqn:Z1; [reflexivity|]. cbn [obind]. rewrite String.eqb_refl. cbn [assert obind].
  cbv -[feqb finv fmul fadd fzero fone]. rewrite Z0. reflexivity.
Qed.

(** ** Names of the bits of a number *)
Implicit Types M : string -> Var -> Prop.
Definition bit_path (j : nat) : string := "bit " ++ nat_str j ++ "/boolean".
Definition named (M : string -> Var -> Prop) (i : nat) (l : list AllocatedBit) : Prop := forall j a, nth_error l j = Some a -> M (bit_path (i + j)) (ab_var a).
Lemma named_nil M i : named M i []. Proof. intros [|j] a H; discriminate. Qed.
Lemma named_cons M i a l : M (bit_path i) (ab_var a) -> named M (S i) l -> named M i (a :: l).
Proof. intros H Hl [|j] b E; cbn in E; [injection E as <-; now rewrite Nat.add_0_r|]. rewrite Nat.add_succ_r. apply (Hl j b E). Qed.
Lemma named_app M i a l : named M i l -> M (bit_path (i + List.length l)) (ab_var a) -> named M i (l ++ [a]).
Proof.
  intros Hl H j b E. destruct (Nat.lt_ge_cases j (List.length l)); [rewrite nth_error_app1 in E by assumption; now apply Hl|].
  rewrite nth_error_app2 in E by assumption. destruct (j - List.length l)%nat as [|k] eqn:Ej; cbn in E; [|destruct k; discriminate]. injection E as <-.
  replace j with (List.length l) by lia. exact H.
Qed.
Lemma full_bit i : full ([] ++ ["bit " ++ nat_str i]) "boolean" = bit_path i. Proof. reflexivity. Qed.
Lemma at_ab_alloc M st v : at_path M st (@ab_alloc P v) (fun a => M (full st "boolean") (ab_var a)).
Proof. unfold at_path. cbn -[String.concat app]. split; intros; (split; [reflexivity|]); [assumption|exact I]. Qed.
Lemma at_cond M st v c : at_path M st (@ab_alloc_conditionally P v c) (fun a => M (full st "boolean") (ab_var a)).
Proof. unfold at_path. cbn -[String.concat app]. split; intros; (split; [reflexivity|]); [assumption|exact I]. Qed.
Lemma at_ab_and M st a b : at_path M st (@ab_and P a b) (fun _ => True).
Proof. unfold at_path. cbn -[String.concat app]. split; intros; (split; [reflexivity|]); exact I. Qed.
Lemma at_foldq M {S A} st (f : nat -> S -> A -> prog P (res S)) (I : S -> Prop) l : (forall i s x, I s -> at_path M st (f i s x) I) -> forall i s, I s -> at_path M st (foldq f i s l) I.
Proof. intros Hf. induction l as [|x l IH]; intros i s Hs; cbn [foldq]; [now apply at_ret|]. eapply at_bindq'; [now apply Hf|]. intros; now apply IH. Qed.
Lemma at_bits M l : forall i, at_path M [] (mapq (@alloc_bit_at P) i l) (named M i).
Proof.
  induction l as [|x l IH]; intros i; cbn [mapq]; [apply at_ret, named_nil|]. eapply at_bindq'; [apply at_ns, at_ab_alloc|]. intros a Ha.
  eapply at_bindq'; [apply IH|]. intros r Hr. apply at_ret. now apply named_cons.
Qed.
Lemma at_to_bits M a : at_path M [] (@to_bits_le P a) (fun r => exists l, r = map BIs l /\ named M 0 l).
Proof.
  unfold to_bits_le. eapply at_bindq' with (Q1 := named M 0).
  - unfold field_into_allocated_bits_le. destruct (an_value a); [|apply at_bits]. destruct (strip_leading _ _ _); [|exact I]. destruct (Nat.eqb _ _); [apply at_bits|exact I].
  - intros l Hl. apply at_enforce, at_ret. eauto.
Qed.
Lemma at_kary M st l : at_path M st (@kary_and P l) (fun _ => True).
Proof. destruct l; [exact I|]. cbn [kary_and]. apply at_foldq; [|exact I]. intros. apply at_ns, at_ab_and. Qed.
Lemma at_strict M a : at_path M [] (@to_bits_le_strict P a) (fun r => exists l, r = rev (map BIs l) /\ named M 0 l).
Proof.
  unfold to_bits_le_strict. eapply at_bindq' with (Q1 := fun s => List.length (st_result s) = st_i s /\ named M 0 (st_result s)).
  - apply at_foldq; [|split; [reflexivity|apply named_nil]]. intros _ s [b x] [Hl Hn]. unfold strict_step. destruct (negb _).
    + destruct x as [[|]|]; [exact I| |]; apply at_ret; split; assumption.
    + destruct b.
      * eapply at_bindq'; [apply at_ns, at_ab_alloc|]. intros y Hy. apply at_ret. cbn [st_result st_i]. rewrite app_length. cbn [List.length]. split; [lia|].
        apply named_app; [exact Hn|]. rewrite Hl. exact Hy.
      * eapply at_bindq' with (Q1 := fun _ => True).
        { destruct (st_current_run s); [now apply at_ret|]. eapply at_bindq'; [apply at_ns, at_kary|]. intros; now apply at_ret. }
        intros [lr|] _; [|exact I].
        eapply at_bindq'; [apply at_ns, at_cond|]. intros y Hy. apply at_ret. cbn [st_result st_i]. rewrite app_length. cbn [List.length]. split; [lia|].
        apply named_app; [exact Hn|]. rewrite Hl. exact Hy.
  - intros s [_ Hn]. destruct (st_current_run s); [|exact I]. apply at_enforce, at_ret. eauto.
Qed.

(** ** Flipping a bit *)
Lemma pow2_nonzero k : (ofZ (2 ^ Z.of_nat k) : P) <> 0.
Proof.
  induction k as [|k IH]; [rewrite ofZ_pow2_0; apply f_1_neq_0|]. rewrite ofZ_pow2_S. unfold fdouble. intros E.
  assert (X : (1 + 1) * (ofZ (2 ^ Z.of_nat k) : P) = 0) by (rewrite <- E; ring). apply fmul_0 in X. destruct X as [X|X]; [exact (DomainProof.f_2_neq_0 X)|exact (IH X)].
Qed.
Lemma le2z_flip b1 b b2 : le2z (b1 ++ negb b :: b2) = (le2z (b1 ++ b :: b2) + (if b then -1 else 1) * 2 ^ Z.of_nat (List.length b1))%Z.
Proof. rewrite !Prelude.le2z_app. destruct b; cbn [le2z negb Z.b2z]; lia. Qed.
Lemma ofZ_flip b1 b b2 : (ofZ (le2z (b1 ++ negb b :: b2)) : P) <> ofZ (le2z (b1 ++ b :: b2)).
Proof.
  rewrite le2z_flip, ofZ_add. intros E. apply (pow2_nonzero (List.length b1)). set (x := ofZ (2 ^ Z.of_nat (List.length b1))) in *.
  assert (X : (ofZ ((if b then -1 else 1) * 2 ^ Z.of_nat (List.length b1)) : P) = 0).
  { transitivity (ofZ (le2z (b1 ++ b :: b2)) + ofZ ((if b then -1 else 1) * 2 ^ Z.of_nat (List.length b1)) - (ofZ (le2z (b1 ++ b :: b2)) : P)); [ring|rewrite E; ring]. }
  rewrite ofZ_mul in X. fold x in X. destruct b.
  - change (-1)%Z with (- (1))%Z in X. rewrite ofZ_neg, ofZ_1 in X. transitivity (- (- (1) * x)); [ring|rewrite X; ring].
  - rewrite ofZ_1 in X. rewrite <- X. ring.
Qed.
Definition bit_var (rho : Var -> P) (a : AllocatedBit) (b : bool) : Prop := var_bit rho (ab_var a) b.
Lemma bits_agree (r r' : Var -> P) l bs bs' : Forall2 (bit_var r) l bs -> Forall2 (bit_var r') l bs' -> (forall a, In a l -> r (ab_var a) = r' (ab_var a)) -> bs = bs'.
Proof.
  intros H. revert bs'. induction H as [|a b l bs Hab HF IH]; intros bs' H' Hl; inversion H' as [|? b' ? bs1 Hb' HF']; subst; [reflexivity|]. f_equal.
  - apply (fbit_inj (P := P)). unfold bit_var, var_bit in *. rewrite <- Hab, <- Hb'. apply Hl. now left.
  - apply IH; [exact HF'|]. intros; apply Hl. now right.
Qed.
Lemma is_bits (rho : Var -> P) l bs : Forall2 (bit_is rho) (map BIs l) bs <-> Forall2 (bit_var rho) l bs.
Proof.
  split; [revert bs; induction l as [|a l IH]; intros bs H; inversion H; subst; constructor; auto; apply IH; assumption|].
  induction 1; constructor; auto.
Qed.
(** The bits of [x] in [l], and one of them flipped: they are no longer those of [x]. *)
Lemma flipped (r r' : Var -> P) l l1 a l2 bs bs' : l = (l1 ++ a :: l2)%list -> Forall2 (bit_var r) l bs -> Forall2 (bit_var r') l bs' ->
  r' (ab_var a) = 1 - r (ab_var a) -> (forall b, In b l1 \/ In b l2 -> r' (ab_var b) = r (ab_var b)) -> (ofZ (le2z bs') : P) <> ofZ (le2z bs).
Proof.
  intros -> H H' Ha Hl. apply Forall2_app_inv_l in H as (b1 & b2 & H1 & H2 & ->). apply Forall2_app_inv_l in H' as (c1 & c2 & H1' & H2' & ->).
  inversion H2 as [|? b ? b3 Hb H3]; subst. inversion H2' as [|? c ? c3 Hc H3']; subst.
  assert (c1 = b1) by (eapply bits_agree; eauto). assert (c3 = b3) by (eapply bits_agree; eauto). subst.
  assert (c = negb b). { apply (fbit_inj (P := P)). unfold bit_var, var_bit in *. rewrite <- Hc, Ha, Hb. destruct b; cbn; ring. } subst c. apply ofZ_flip.
Qed.

Lemma append_inj_r (c : string) : forall a b : string, a ++ c = b ++ c -> a = b.
Proof.
  assert (X : forall a b : string, list_ascii_of_string (a ++ b) = (list_ascii_of_string a ++ list_ascii_of_string b)%list) by (intros a b; induction a as [|x a IH]; cbn; [reflexivity|now rewrite IH]).
  intros a b H. apply (f_equal list_ascii_of_string) in H. rewrite !X in H. apply app_inv_tail in H.
  rewrite <- (string_of_list_ascii_of_string a), <- (string_of_list_ascii_of_string b). now rewrite H.
Qed.
Lemma shown (rho : Var -> P) : forall l bs, Forall2 (bit_hon rho) (map BIs l) bs -> all_of (combine bs (map BIs l)) check_bit = Done tt.
Proof.
  induction l as [|a l IH]; intros bs H; inversion H as [|? b ? bs' [_ Hv] HF]; subst; [reflexivity|]. cbn [map combine all_of]. unfold check_bit at 1. cbn [fst snd].
  cbn [b_value] in Hv. rewrite Hv. cbn [unwrap_o obind]. rewrite assert_true by apply eqb_reflx. cbn [obind]. now apply IH.
Qed.
(** A state with the values and constraints of [s0]. *)
Record same (s0 s : T) : Prop := { sm_ok : state_ok s; sm_val : forall v, asg (pstate s) v = asg (pstate s0) v; sm_cons : p_cons (pstate s) = p_cons (pstate s0);
  sm_name : forall q w, holds_at s q w <-> holds_at s0 q w }.
Lemma same_refl s : state_ok s -> same s s. Proof. intros H. split; auto. intros; reflexivity. Qed.
Lemma same_satisfied s0 s : sat (asg (pstate s0)) (p_cons (pstate s0)) -> same s0 s -> assert_satisfied s = Done tt.
Proof.
  intros H [H1 H2 H3 H4]. apply satisfied_ok, ok_satisfied; [exact H1|]. rewrite H3. eapply sat_ext; [|exact H]. intros v. symmetry. apply H2.
Qed.
(** A variable is changed and then set back. *)
Lemma set_and_back s0 s path v x : sat (asg (pstate s0)) (p_cons (pstate s0)) -> same s0 s -> holds_at s0 path v -> path <> "ONE" ->
  (forall rho : Var -> P, rho one_var = 1 -> rho v = x -> (forall w, w <> v -> rho w = asg (pstate s0) w) -> ~ sat rho (p_cons (pstate s0))) ->
  exists s1 s2, t_set s path x = Done s1 /\ assert_unsatisfied s1 = Done tt /\ t_set s1 path (asg (pstate s0) v) = Done s2 /\ same s0 s2 /\ assert_satisfied s2 = Done tt.
Proof.
  intros Hsat Hs Hp Hn HR. pose proof (proj2 (sm_name _ _ Hs path v) Hp) as Hp1.
  destruct (ok_set s path v x (sm_ok _ _ Hs) Hp1 (ok_not_one _ _ _ (sm_ok _ _ Hs) Hp1 Hn)) as (s1 & E1 & H1 & V1 & O1 & C1 & N1 & _).
  assert (Hp2 : holds_at s1 path v) by (apply N1, Hp1).
  destruct (ok_set s1 path v (asg (pstate s0) v) H1 Hp2 (ok_not_one _ _ _ H1 Hp2 Hn)) as (s2 & E2 & H2 & V2 & O2 & C2 & N2 & _).
  assert (S2 : same s0 s2).
  { split; [exact H2| | |].
    - intros w. destruct (PrettyProof.var_eq_dec w v) as [->|Hw]; [exact V2|]. rewrite O2, O1 by exact Hw. apply Hs.
    - rewrite C2, C1. apply Hs.
    - intros q w. rewrite (N2 q w), (N1 q w). apply Hs. }
  exists s1, s2. split; [exact E1|]. split; [|split; [exact E2|split; [exact S2|eapply same_satisfied; eauto]]].
  apply unsatisfied_ok, ok_unsatisfied; [exact H1|]. rewrite C1, (sm_cons _ _ Hs). apply HR; [apply H1|exact V1|].
  intros w Hw. rewrite O1 by exact Hw. apply Hs.
Qed.

Lemma into_bits_ok i (r other : P) : repr_bits P = S (num_bits P) -> into_bits_round i r other = if feqb other r then Panicked else Done tt.
Proof.
  intros Hrepr. unfold into_bits_round.
  match goal with |- context [circuit ?q] => set (p := q) end.
  destruct (test_run p (join (oneof ["num"]) n_strict)
    (fun rho a => num_hon rho (fst a) r /\ Forall2 (bit_hon rho) (snd a) (z2le (num_bits P) (toZ r)))) as ([n bits] & s & cs & -> & Hs & [[Vn _] Hb] & Hsat & He & Hc & HM); unfold p.
  - destruct (Nat.even i); struct.
  - apply weak. eapply uses_q with (N2 := n_strict); [apply an_alloc_u| |nn|intros x Hx; exact Hx]. intros a. apply uses_then. destruct (Nat.even i); [|apply strict_u].
    eapply uses_sub; [|apply to_bits_u]. nn.
  - intros H. nn.
  - intros rho H1. eapply wpC_bindq'; [apply an_alloc_complete|]. intros a Ha.
    eapply wpC_bindq' with (Q1 := fun l => Forall2 (bit_hon rho) l (z2le (num_bits P) (toZ r))); [destruct (Nat.even i); [now apply to_bits_le_complete|now apply to_bits_le_strict_complete]|].
    intros b Hb. split; [exact Ha|exact Hb].
  - intros K K1. eapply wpK_q; [apply an_alloc_wpK|]. intros a Ha. eapply wpK_q; [destruct (Nat.even i); [apply scop_wpK, to_bits_scop; assumption|apply scop_wpK, strict_scop; assumption]|]. intros; exact I.
  - cbn [obind fst snd] in *. rewrite (satisfied_ok _ (ok_satisfied _ Hs Hsat)). cbn [obind].
    (* names *)
    assert (HM' : holds_at s "num" (an_var n) /\ exists l l', bits = map BIs l' /\ named (holds_at s) 0 l /\ (l' = l \/ l' = rev l)).
    { apply (HM (fun M x => M "num" (an_var (fst x)) /\ exists l l', snd x = map BIs l' /\ named M 0 l /\ (l' = l \/ l' = rev l))). intros M.
      eapply at_bindq'; [apply at_an_alloc|]. intros a Ha.
      eapply at_bindq' with (Q1 := fun x => exists l l', x = map BIs l' /\ named M 0 l /\ (l' = l \/ l' = rev l)); [|intros x Hx; apply at_ret; split; [exact Ha|exact Hx]].
      destruct (Nat.even i).
      - eapply at_mono; [|apply at_to_bits]. intros x (l & -> & Hl). exists l, l. auto.
      - eapply at_mono; [|apply at_strict]. intros x (l & -> & Hl). exists l, (rev l). rewrite map_rev. auto. }
    destruct HM' as (Mn & l & l' & -> & Hl & Hl').
    assert (HB : Forall2 (bit_var (asg (pstate s))) l' (z2le (num_bits P) (toZ r))).
    { apply is_bits. eapply Forall2_impl; [|exact Hb]. intros a b [H _]. exact H. }
    assert (Ll' : List.length l' = num_bits P) by (rewrite (Forall2_length _ _ _ HB); apply z2le_length).
    assert (Ll : List.length l = num_bits P) by (destruct Hl' as [->| ->]; [exact Ll'|rewrite rev_length in Ll'; exact Ll']).
    (* the bits shown *)
    assert (HC : all_of (combine (skipn 1 (rev (to_le_bits r))) (rev (map BIs l'))) check_bit = Done tt).
    { rewrite <- map_rev. replace (skipn 1 (rev (to_le_bits r))) with (rev (z2le (num_bits P) (toZ r))).
      - apply (shown (asg (pstate s))). rewrite map_rev. now apply Forall2_rev.
      - unfold to_le_bits. rewrite Hrepr. replace (S (num_bits P)) with (num_bits P + 1)%nat by lia. rewrite z2le_app, rev_app_distr. reflexivity. }
    rewrite HC. cbn [obind].
    destruct (feqb other r) eqn:Hother.
    { apply feqb_eq in Hother. destruct (set_right s "num" (an_var n) other Hsat Hs Mn) as (s' & -> & E'); [discriminate|congruence|]. cbn [obind]. rewrite E'. reflexivity. }
    apply feqb_neq in Hother.
    (* what the constraints say *)
    assert (HS : forall rho : Var -> P, rho one_var = 1 -> sat rho (p_cons (pstate s)) -> exists bs, Forall2 (bit_var rho) l' bs /\ ofZ (le2z bs) = rho (an_var n)).
    { intros rho H1 H. rewrite Hc in H.
      assert (W : wpS rho True p (okP (fun x => exists bs, Forall2 (bit_is rho) (snd x) bs /\ ofZ (le2z bs) = rho (an_var (fst x))))).
      { unfold p. eapply wpS_bindq'; [apply an_alloc_sound|]. intros a _.
        eapply wpS_bindq' with (Q1 := fun x => exists bs, Forall2 (bit_is rho) x bs /\ ofZ (le2z bs) = rho (an_var a)); [|intros x Hx; exact Hx].
        destruct (Nat.even i).
        - eapply wpS_okmono; [|apply to_bits_le_sound; exact H1]. intros x (bs & _ & Hx). exists bs. exact Hx.
        - eapply wpS_okmono; [|apply to_bits_le_strict_sound; exact H1]. intros x Hx. eexists. split; [exact Hx|].
          rewrite le2z_z2le_small; [apply ofZ_toZ|]. pose proof (toZ_range P (rho (an_var a))). pose proof (num_bits_hi P). lia. }
      destruct (wpS_emits rho p _ (Ok (n, map BIs l')) cs W He H) as (bs & HF & E). cbn [fst snd] in *. exists bs. split; [now apply is_bits|exact E]. }
    assert (Er : ofZ (le2z (z2le (num_bits P) (toZ r))) = r).
    { rewrite le2z_z2le_small; [apply ofZ_toZ|]. pose proof (toZ_range P r). pose proof (num_bits_hi P). lia. }
    assert (Nn : forall a, In a l -> ab_var a <> an_var n).
    { intros a Ha. apply In_nth_error in Ha as [j Ej]. eapply ok_distinct; [exact Hs|exact (Hl j a Ej)|exact Mn|discriminate]. }
    assert (Nl : forall a, In a l' -> In a l) by (destruct Hl' as [->| ->]; intros a Ha; [exact Ha|now apply in_rev]).
    destruct (set_and_back s s "num" (an_var n) other Hsat (same_refl _ Hs) Mn) as (s1 & s2 & -> & E1 & E2 & S2 & E3); [discriminate| |].
    { intros rho H1 Hv Ho Hq. destruct (HS rho H1 Hq) as (bs & HF & E). assert (bs = z2le (num_bits P) (toZ r)).
      { eapply bits_agree; [exact HF|exact HB|]. intros a Ha. apply Ho. now apply Nn, Nl. }
      subst bs. apply Hother. rewrite <- Hv, <- E. exact Er. }
    cbn [obind]. rewrite E1. cbn [obind]. rewrite Vn in E2. rewrite E2. cbn [obind]. rewrite E3. cbn [obind].
    (* the loop *)
    assert (L : forall m j t, same s t -> (j + m <= num_bits P)%nat -> exists t', flip_bits j m t = Done t').
    { induction m as [|m IH]; intros j t Ht Hj; cbn [flip_bits]; [eauto|].
      destruct (nth_error l j) as [a|] eqn:Ea; [|apply nth_error_None in Ea; lia]. pose proof (Hl j a Ea) as Ha. cbn [Nat.add] in Ha.
      unfold flip_bit. fold (bit_path j). rewrite (ok_get t (bit_path j) (ab_var a) (sm_ok _ _ Ht)) by (apply (sm_name _ _ Ht); exact Ha). cbn [obind]. rewrite (sm_val _ _ Ht).
      destruct (set_and_back s t (bit_path j) (ab_var a) (1 - asg (pstate s) (ab_var a)) Hsat Ht Ha) as (t1 & t2 & -> & F1 & F2 & T2 & F3); [discriminate| |].
      - intros rho H1 Hv Ho Hq. destruct (HS rho H1 Hq) as (bs & HF & E).
        assert (X : exists l1 l2, l' = (l1 ++ a :: l2)%list /\ forall b, In b l1 \/ In b l2 -> ab_var b <> ab_var a).
        { assert (Y : exists l1 l2, l = (l1 ++ a :: l2)%list /\ forall b, In b l1 \/ In b l2 -> ab_var b <> ab_var a).
          { destruct (nth_error_split l j Ea) as (l1 & l2 & El & Elen). exists l1, l2. split; [exact El|]. intros b Hb'.
            assert (Z : exists k, nth_error l k = Some b /\ k <> j).
            { destruct Hb' as [Hb'|Hb']; apply In_nth_error in Hb' as [k Ek].
              - exists k. assert (k < List.length l1)%nat by (apply nth_error_Some; congruence). split; [rewrite El, nth_error_app1 by assumption; exact Ek|lia].
              - exists (S (k + List.length l1)). split; [|lia]. rewrite El, nth_error_app2 by lia. replace (S (k + List.length l1) - List.length l1)%nat with (S k) by lia. exact Ek. }
            destruct Z as (k & Ek & Hk). eapply ok_distinct; [exact Hs|exact (Hl k b Ek)|exact Ha|]. cbn [Nat.add]. unfold bit_path. intros Eq. apply Hk.
            apply append_inj_l, append_inj_r, nat_str_inj in Eq. exact Eq. }
          destruct Y as (l1 & l2 & El & Hd). destruct Hl' as [->| ->]; [exists l1, l2; auto|]. exists (rev l2), (rev l1). split.
          - rewrite El, rev_app_distr. cbn [rev]. now rewrite <- app_assoc.
          - intros b [Hb'|Hb']; apply Hd; apply in_rev in Hb'; auto. }
        destruct X as (l1 & l2 & El & Hd). apply (flipped (asg (pstate s)) rho l' l1 a l2 _ bs El HB HF); [exact Hv|intros b Hb'; apply Ho, Hd, Hb'|].
        rewrite E, Er, Ho, Vn; [reflexivity|]. intros X. symmetry in X. revert X. apply Nn. eapply nth_error_In; eauto.
      - cbn [obind]. rewrite F1. cbn [obind]. rewrite F2. cbn [obind]. rewrite F3. cbn [obind]. apply IH; [exact T2|lia]. }
    destruct (L (num_bits P) 0%nat s2 S2 (le_n _)) as [t' ->]. reflexivity.
Qed.
End NumTests.
