(** The test of [to_bits_le_strict] (num.rs:526-545): the constraint that fails first is the one of the bit that was changed. *)
From Coq Require Import String Ascii.
From Coq Require Import ZArith List Bool Lia Field.
From Verif Require Import Prelude PrimeField Loops BooleanGadget NumGadget MultiEq UInt32 UInt32Proof LookupGadget Multipack Spec TestCS TestCSProof PropTestCS
  Scope ScopeRun PropScope Names NamesGadgets NamesFit UnitTests.
From Verif Require DomainProof PrettyProof.
From Verif Require Mimc.
From Verif Require Import UnitTestsProof.
From Verif Require Import Circuit.
Import ListNotations.
Local Open Scope nat_scope.

Section Strict.
Context {P : PrimeField}.
Local Open Scope F_scope.
Local Open Scope prog_scope.
Local Open Scope string_scope.
Add Field PFstrict : (F_field P).
Notation T := (TState P).

Lemma run_ret_last M {A} (p : prog P (res A)) s : run M (bindq p (fun a => Ret (Ok a))) s = run M p s.
Proof. rewrite Mimc.run_bindq. destruct (run M p s) as [[[a|e] s']|]; reflexivity. Qed.
Lemma run_foldq_last M {B A} (f : nat -> B -> A -> prog P (res B)) l x : forall i a s,
  run M (foldq f i a (l ++ [x])%list) s =
  obind (run M (foldq f i a l) s) (fun r => match fst r with Ok a => run M (f (i + length l)%nat a x) (snd r) | Err e => Done (Err e, snd r) end).
Proof.
  induction l as [|y l IH]; intros i a s; cbn [foldq app length].
  - rewrite run_ret_last, Nat.add_0_r. reflexivity.
  - rewrite !Mimc.run_bindq. destruct (run M (f i a y) s) as [[[b|e] s']|]; cbn [obind fst snd]; [|reflexivity..].
    rewrite IH. now replace (i + S (length l))%nat with (S i + length l)%nat by lia.
Qed.
Lemma cons_grow {A} (p : prog P A) : forall (s : T) r s', run TestCS p s = Done (r, s') -> exists l, t_cons s' = (t_cons s ++ l)%list.
Proof.
  induction p as [a| |n f k IH|n f k IH|n a b c k IH|n l r0 k IH|n k IH|k IH]; intros s r s' H; cbn in H; try discriminate.
  - injection H as _ <-. exists []. now rewrite app_nil_r.
  - destruct (t_alloc s n f) as [[[s1 v] b]|] eqn:E; [|discriminate]. cbn in H. apply IH in H as [l ->].
    apply alloc_inv in E. destruct E as (path & _ & _ & [(e & _ & -> & _)|(x & _ & _ & _ & ->)]); exists l; reflexivity.
  - destruct (t_alloc_input s n f) as [[[s1 v] b]|] eqn:E; [|discriminate]. cbn in H. apply IH in H as [l ->].
    apply alloc_input_inv in E. destruct E as (path & _ & _ & [(e & _ & -> & _)|(x & _ & _ & _ & ->)]); exists l; reflexivity.
  - destruct (t_enforce s n a b c) as [s1|] eqn:E; [|discriminate]. cbn in H. apply IH in H as [l ->].
    apply enforce_inv in E. destruct E as (path & _ & _ & ->). eexists. cbn [t_cons]. rewrite <- app_assoc. reflexivity.
  - destruct (t_push s n) as [s1|] eqn:E; [|discriminate]. cbn in H. apply IH in H as [l ->]. apply push_inv in E. destruct E as (path & _ & _ & ->). exists l. reflexivity.
  - destruct (t_pop s) as [s1|] eqn:E; [|discriminate]. cbn in H. apply IH in H as [l ->]. apply pop_inv in E. destruct E as (_ & ->). exists l. reflexivity.
Qed.

(** What the last bit adds. *)
Lemma cond_run name b l (s : T) a s' : t_ns s = [] -> run TestCS (ns name (ab_alloc_conditionally (Some b) l)) s = Done (Ok a, s') ->
  ab_var a = Aux (length (t_aux s)) /\ exists c, t_cons s' = (t_cons s ++ [(c, (name ++ "/boolean constraint")%string)])%list.
Proof.
  intros Hn H. unfold ns, ab_alloc_conditionally, bindq, cs_alloc, cs_enforce in H. cbn [bind] in H. cbn -[t_push t_alloc t_enforce t_pop fbit] in H. destruct (t_push s name) as [s1|] eqn:E1; [|discriminate]. cbn -[t_push t_alloc t_enforce t_pop fbit] in H. apply push_inv in E1. destruct E1 as (q1 & _ & _ & ->).
  rewrite Hn in H. match type of H with context [t_alloc ?x ?y ?z] => destruct (t_alloc x y z) as [[[s2 v] d]|] eqn:E2 end; [|discriminate]. cbn -[t_push t_alloc t_enforce t_pop fbit] in H.
  apply alloc_inv in E2. destruct E2 as (q2 & _ & -> & [(e & E & _)|(x & _ & _ & -> & ->)]); [discriminate|]. cbn -[t_push t_alloc t_enforce t_pop fbit] in H.
  match type of H with context [t_enforce ?x ?y ?a ?b ?c] => destruct (t_enforce x y a b c) as [s3|] eqn:E3 end; [|discriminate]. cbn -[t_push t_alloc t_enforce t_pop fbit] in H.
  apply enforce_inv in E3. destruct E3 as (q3 & P3 & _ & ->). cbn -[t_push t_alloc t_enforce t_pop fbit] in H. injection H as <- <-. cbn [ab_var t_cons t_aux t_ns] in *. split; [reflexivity|].
  eexists. repeat f_equal. unfold compute_path in P3. cbn in P3. injection P3 as <-.
  clear. induction name as [|x n IH]; cbn; [reflexivity|now rewrite IH].
Qed.
Lemma eval_other (r r' : Var -> P) (K : Var -> Prop) l : lck K l -> (forall v, K v -> r v = r' v) -> eval r l = eval r' l.
Proof. intros H E. unfold eval. induction H as [|t l Ht _ IH]; cbn; [reflexivity|]. now rewrite IH, E. Qed.
Lemma minus1_bits : rev (z2le (num_bits P) (toZ (- fone : P))) = @rbits P.
Proof. unfold rbits. now rewrite toZ_minus1. Qed.

Lemma strict_test : @test_into_bits_strict P = Done tt.
Proof.
  unfold test_into_bits_strict. match goal with |- context [circuit ?q] => set (p := q) end.
  destruct (test_run p (join (oneof ["num"]) n_strict)
    (fun rho a => Forall2 (bit_hon rho) a (z2le (num_bits P) (toZ (- fone : P))))) as (bits & s & cs & Ec & Hs & Hb & Hsat & He & Hc & HM); unfold p.
  - struct.
  - apply weak. eapply uses_q with (N2 := n_strict); [apply an_alloc_u| |unfold n_strict; ns_|intros x Hx; exact Hx]. intros a. apply strict_u.
  - intros H. unfold n_strict in H. ns_.
  - intros rho H1. eapply wpC_bindq'; [apply an_alloc_complete|]. intros a Ha. now apply to_bits_le_strict_complete.
  - intros K K1. eapply wpK_q; [apply an_alloc_wpK|]. intros a Ha. eapply wpK_any. apply scop_wpK, strict_scop; assumption.
  - fold p. rewrite Ec. cbn [obind]. rewrite (satisfied_ok _ (ok_satisfied _ Hs Hsat)). cbn [obind].
    assert (HM' : exists l, bits = rev (map BIs l) /\ named (holds_at s) 0 l).
    { apply (HM (fun M x => exists l, x = rev (map BIs l) /\ named M 0 l)). intros M. eapply at_bindq'; [apply at_an_alloc|]. intros a _. apply at_strict. }
    destruct HM' as (l & Hbl & Hl).
    (* the run *)
    assert (Er : run TestCS p test_new = Done (Ok bits, s)).
    { unfold circuit in Ec. destruct (run TestCS p test_new) as [[[x|e] s']|]; try discriminate. cbn in Ec. injection Ec as -> ->. reflexivity. }
    set (nn := {| an_var := Aux 0; an_value := Some (- fone : P) |}).
    set (sA := mkT [("num", OVar (Aux 0)); ("ONE", OVar one_var)] [] [] [(1, "ONE")] [(- fone : P, "num")]).
    assert (EA : run TestCS (an_alloc (Ok (- fone : P))) test_new = Done (Ok nn, sA)) by reflexivity.
    unfold p in Er. rewrite Mimc.run_bindq, EA in Er. cbn [obind fst snd] in Er.
    unfold to_bits_le_strict in Er. fold (@strict_init) in Er. cbn [an_value nn] in Er. rewrite Mimc.run_bindq, (strict_loop_eq (Some (- fone : P))) in Er.
    destruct (run TestCS (strict_loop (Some (- fone : P))) sA) as [[[st|e] t3]|] eqn:EL; [|discriminate..]. cbn [obind fst snd] in Er.
    assert (Est : l = st_result st /\ exists c, t_cons s = (t_cons t3 ++ c)%list).
    { split.
      - destruct (st_current_run st); [|discriminate]. unfold cs_enforce in Er. cbn [bind] in Er. cbn -[t_enforce] in Er.
        match type of Er with context [t_enforce ?x ?y ?a ?b ?c] => destruct (t_enforce x y a b c) as [s3|]; [|discriminate] end. cbn [obind] in Er.
        assert (E : rev (map BIs (st_result st)) = rev (map BIs l)) by congruence. apply (f_equal (@rev _)) in E. rewrite !rev_involutive in E. revert E. clear. generalize (st_result st). revert l.
        induction l as [|x l IH]; intros [|y m] E; try discriminate; [reflexivity|]. injection E as -> E. f_equal. now apply IH.
      - exact (cons_grow _ _ _ _ Er). }
    destruct Est as (-> & rest & Hrest). clear Er.
    destruct (@rbits_last P) as [t Ht]. assert (Lt : (length t + 1 = num_bits P)%nat) by (rewrite <- (@rbits_length P), Ht, app_length; reflexivity).
    assert (EL' := EL). unfold strict_loop, abits_be in EL'. rewrite minus1_bits, Ht, map_app, combine_app in EL' by (now rewrite map_length). cbn [map combine] in EL'.
    rewrite run_foldq_last in EL'.
    destruct (run TestCS (foldq (fun _ => strict_step) (repr_bits P - num_bits P) strict_init (combine t (map Some t))) sA) as [[[st1|e] t1]|] eqn:EP; [|discriminate..].
    cbn [obind fst snd] in EL'. rename EL' into ES.
    (* subsets of the constraints *)
    assert (Hsub : forall (x : T) l, t_cons s = (t_cons x ++ l)%list -> sat (asg (pstate s)) (p_cons (pstate x))).
    { intros x l E. unfold pstate at 2 in Hsat. cbn [p_cons] in Hsat. rewrite E, map_app in Hsat. apply Forall_app in Hsat. exact (proj1 Hsat). }
    destruct (cons_grow _ _ _ _ ES) as [r3 G3].
    set (rho := asg (pstate s)) in *. pose proof (so_one _ Hs : rho one_var = 1) as R1.
    assert (I1 : strict_inv rho (num_bits P - 1) st1).
    { destruct (C02_records P _ _ _ _ _ EP) as (_ & _ & _ & cs1 & Em & Ecs & _).
      refine (wpS_emits rho _ (okP (strict_inv rho (num_bits P - 1))) (Ok st1) cs1 _ Em _).
      - pose (I := fun k x => strict_inv rho (k - (repr_bits P - num_bits P)) x).
        eapply wpS_okmono; [|apply wpS_foldq with (I := I)].
        + intros x Hx. unfold I in Hx. rewrite combine_length, map_length, Nat.min_id in Hx. replace (repr_bits P - num_bits P + length t - (repr_bits P - num_bits P))%nat with (num_bits P - 1)%nat in Hx by lia. exact Hx.
        + unfold I. rewrite Nat.sub_diag. exists [], [], true. cbn. repeat split; auto; try constructor; try reflexivity; congruence.
        + intros j [b x] y Hnth HI. unfold I in *. replace (repr_bits P - num_bits P + j - (repr_bits P - num_bits P))%nat with j in HI by lia.
          replace (S (repr_bits P - num_bits P + j) - (repr_bits P - num_bits P))%nat with (S j) by lia. apply nth_error_combine in Hnth as [Hb1 _].
          apply strict_step_sound; [exact R1| |exact HI]. rewrite Ht, nth_error_app1; [exact Hb1|]. apply nth_error_Some. congruence.
      - replace cs1 with (p_cons (pstate t1)) by exact Ecs. apply (Hsub t1 (r3 ++ rest)%list). now rewrite app_assoc, <- G3. }
    (* the last bit *)
    assert (Hv1 : t_ns t1 = [] /\ List.length (st_result st1) = st_i st1).
    { refine (wpV_run (foldq (fun _ => strict_step) (repr_bits P - num_bits P) strict_init (combine t (map Some t))) sA (Ok st1) t1
        (fun st' r => st' = [] /\ okP (fun s => List.length (st_result s) = st_i s) r) _ EP _); [exact (R_run _ _ _ _ _ R_new EA)|].
      apply (at_foldq (holds_at t1) [] (fun _ => strict_step) (fun s => List.length (st_result s) = st_i s)); [|reflexivity].
      intros _ y [b x] Hl'. unfold strict_step. destruct (negb _).
      - destruct x as [[|]|]; [exact Logic.I| |]; apply at_ret; assumption.
      - destruct b.
        + eapply at_bindq'; [apply at_ns, at_ab_alloc|]. intros z Hz. apply at_ret. cbn [st_result st_i]. rewrite app_length. cbn [List.length]. lia.
        + eapply at_bindq' with (Q1 := fun _ => True).
          { destruct (st_current_run y); [now apply at_ret|]. eapply at_bindq'; [apply at_ns, at_kary|]. intros; now apply at_ret. }
          intros [lr|] _; [|exact Logic.I].
          eapply at_bindq'; [apply at_ns, at_cond|]. intros z Hz. apply at_ret. cbn [st_result st_i]. rewrite app_length. cbn [List.length]. lia. }
    destruct Hv1 as [Ns1 Hi].
    assert (F1 : t_fit t1 /\ t_ex t1 one_var /\ kst (t_ex t1) st1).
    { destruct (t_scope (foldq (fun _ => strict_step) (repr_bits P - num_bits P) strict_init (combine t (map Some t))) (fun K => okP (kst K)) sA (Ok st1) t1) as (A1 & A3 & A2); [constructor| |exact EP|split; [assumption|split; [|assumption]]].
      - intros K HK. apply scop_wpK. apply scop_foldq; [split; [constructor|split; [discriminate|constructor]]|]. intros. apply strict_step_scop; [|assumption]. apply HK. cbn. lia.
      - apply A3. cbn. lia. }
    destruct F1 as [F1 (K0 & K1 & K2 & K3)].
    destruct I1 as (As & cb & lb & Hf & Hl1 & HA & _). assert (Hi' : st_i st1 = (num_bits P - 1)%nat) by (rewrite <- Hi, <- Hl1; eapply Forall2_length; exact HA).
    unfold strict_step in ES. rewrite Hf in ES. destruct (Nat.eqb_spec (num_bits P - 1) 0) as [E0|E0]; [exfalso; destruct t; [|cbn in Lt; lia]; destruct (@rbits_head P) as [u Hu]; rewrite Hu in Ht; discriminate|]. cbn [negb orb] in ES.
    rewrite Mimc.run_bindq in ES. match type of ES with obind (run TestCS ?q t1) _ = _ => set (X := q) in ES; destruct (run TestCS X t1) as [[[o|e] t2]|] eqn:EX; [|discriminate..] end.
    cbn [obind fst snd] in ES. destruct o as [lr|]; [|discriminate]. rewrite Mimc.run_bindq in ES.
    match type of ES with obind (run TestCS ?q t2) _ = _ => destruct (run TestCS q t2) as [[[a|e] t4]|] eqn:EB; [|discriminate..] end.
    cbn in ES. injection ES as <- <-. rewrite Hi' in EB.
    assert (Ns2 : t_ns t2 = []).
    { apply (ns_run X t1 (Ok (Some lr)) t2 [] []); [now rewrite Ns1| |exact EX]. unfold X. apply @g_ns. clear. gadget. }
    destruct (cond_run _ _ _ _ _ _ Ns2 EB) as [Ev [c E4]].
    assert (F2 : t_fit t2).
    { eapply t_scope with (Q := fun K => okP (fun _ => True)); [exact F1| |exact EX]. intros K HK. apply scop_wpK. change (scop K X (fun _ => True)). unfold X.
      assert (HR : Forall (ka K) (match st_last_run st1 with Some l => (st_current_run st1 ++ [l])%list | None => st_current_run st1 end)).
      { destruct (st_last_run st1) as [l|]; [apply Forall_app; split; [|constructor; [apply HK, K2; reflexivity|constructor]]|]; eapply Forall_impl; try exact K3; intros x Hx; apply HK, Hx. }
      destruct (st_current_run st1) as [|y ys]; [apply scop_ret; exact Logic.I|]. eapply scop_bindq; [apply scop_ns, kary_scop; [apply HK, K0|exact HR]|]. intros k Hk. apply scop_ret. exact Logic.I. }
    set (v := ab_var a) in *.
    assert (Na : holds_at s (bit_path (num_bits P - 1)) v).
    { apply (Hl (num_bits P - 1)%nat a). cbn [st_result]. rewrite nth_error_app2 by lia. replace (num_bits P - 1 - List.length (st_result st1))%nat with 0%nat by lia. reflexivity. }
    destruct (ok_set s (bit_path (num_bits P - 1)) v 1 Hs Na (ok_not_one _ _ _ Hs Na ltac:(discriminate))) as (s' & E' & Hs' & V' & O' & _ & _ & T').
    set (rho' := asg (pstate s')) in *.
    match goal with |- context [t_set s ?q fone] => change q with (bit_path (num_bits P - 1)) end. rewrite E'. cbn [obind].
    assert (S2 : sat rho' (map fst (t_cons t2))).
    { assert (S2 : sat rho (map fst (t_cons t2))) by (apply (Hsub t2 ((c, (("bit " ++ nat_str (num_bits P - 1)) ++ "/boolean constraint")%string) :: rest)); rewrite Hrest, E4, <- app_assoc; reflexivity).
      clear - F2 S2 O' Ev. unfold t_fit in F2. induction F2 as [|x l (A & B & C) _ IH]; [constructor|]. cbn [map] in S2. inversion S2 as [|? ? H1 H2]; subst. constructor; [|now apply IH].
      assert (X : forall w, t_ex t2 w -> rho' w = rho w). { intros w Hw. apply O'. intros ->. rewrite Ev in Hw. cbn in Hw. lia. }
      destruct x as [[[y z] w] q]. cbn [fst snd] in *. cbn [holds] in *. now rewrite !(eval_other rho' rho (t_ex t2)). }
    assert (Ncon : ~ holds rho' c).
    { intros Hcon.
      match type of EL with _ = Done (Ok ?q, _) => assert (I2 : strict_inv rho' (num_bits P) q) end.
      { destruct (C02_records P _ _ _ _ _ EL) as (_ & _ & _ & cs1 & Em & Ecs & _).
        refine (wpS_emits rho' _ (okP (strict_inv rho' (num_bits P))) _ cs1 _ Em _).
        - apply strict_loop_sound. exact (so_one _ Hs').
        - replace cs1 with (map fst (t_cons t4)) by exact Ecs. rewrite E4, map_app. apply Forall_app. split; [exact S2|]. constructor; [exact Hcon|constructor]. }
      destruct I2 as (Bs & cb2 & lb2 & _ & HlB & HB & _ & _ & Hle & _).
      cbn [st_result] in HB. apply Forall2_app_inv_l in HB as (B1 & B2 & HB1 & HB2 & ->). inversion HB2 as [|? xb ? ? Hxb HB3]; subst. inversion HB3; subst.
      assert (Hx : xb = true). { apply (fbit_inj (P := P)). unfold abit_is, var_bit in Hxb. fold v in Hxb. rewrite <- Hxb. exact V'. }
      assert (Hold : forall x, In x (st_result st1) -> rho (ab_var x) = rho' (ab_var x)).
      { intros x Hx1. symmetry. apply O'. apply In_nth_error in Hx1 as [j Hj].
        assert (Hj' : (j < List.length (st_result st1))%nat) by (apply nth_error_Some; congruence).
        eapply ok_distinct; [exact Hs| |exact Na|]; [apply (Hl j x); cbn [st_result]; rewrite nth_error_app1 by exact Hj'; exact Hj|].
        unfold bit_path. intros E. apply append_inj_l, append_inj_r, nat_str_inj in E. lia. }
      assert (HB1' : B1 = As) by (symmetry; exact (bits_agree rho rho' _ _ _ HA HB1 Hold)).
      assert (HAt : As = t).
      { assert (Hrb : Forall2 (bit_var rho) (st_result st1 ++ [a]) (t ++ [false])%list).
        { apply is_bits. rewrite <- Ht, <- minus1_bits. apply Forall2_rev in Hb. rewrite rev_involutive in Hb. eapply Forall2_impl; [|exact Hb]. intros ? ? [Hz _]. exact Hz. }
        apply Forall2_app_inv_l in Hrb as (C1 & C2 & HC1 & HC2 & EC). inversion HC2 as [|? xc ? ? _ HC3]; subst. inversion HC3; subst.
        apply app_inj_tail in EC as [-> _]. exact (bits_agree rho rho _ _ _ HA HC1 (fun _ _ => eq_refl)). }
      subst. rewrite firstn_all2 in Hle by (rewrite rbits_length; lia). rewrite Ht, !bev_snoc in Hle. cbn [Z.b2z] in Hle. lia. }
    rewrite (proj2 (proj2 (proj2 (proj2 (C02_satisfied P s' (fit_in_range _ (so_fit _ Hs'))))) (("bit " ++ nat_str (num_bits P - 1)) ++ "/boolean constraint")%string)).
    { cbn [obind]. now rewrite String.eqb_refl. }
    exists (t_cons t2), c, rest. split; [rewrite T', Hrest, E4, <- app_assoc; reflexivity|]. split; [exact S2|exact Ncon].
Qed.
End Strict.
