(** The unit test of addmany in uint32.rs: auxiliary lemmas. *)
From Coq Require Import String Ascii.
From Coq Require Import ZArith List Bool Lia Field.
From Verif Require Import Prelude PrimeField Loops BooleanGadget NumGadget MultiEq UInt32 UInt32Proof Spec TestCS TestCSProof PropTestCS
  Scope ScopeRun PropScope Names NamesGadgets NamesFit UnitTests UnitTestsProof UnitTestsProof2 UnitTestsProof3 DomainProof Mimc.
From Verif Require Import Circuit.
Import ListNotations.
Local Open Scope nat_scope.

Section Addmany.
Context {P : PrimeField}.
Local Open Scope F_scope.
Local Open Scope prog_scope.
Local Open Scope string_scope.
Add Field PFunit4 : (F_field P).
Notation T := (TState P).
Implicit Types M : string -> Var -> Prop.

(** ** The paths of the variables *)
Lemma at_mapq M {A B} st (f : nat -> A -> prog P (res B)) (Q : B -> Prop) l : (forall j x, at_path M st (f j x) Q) ->
  forall i, at_path M st (mapq f i l) (fun r => Forall Q r /\ length r = length l).
Proof.
  intros Hf. induction l as [|x l IH]; intros i; cbn [mapq]; [apply at_ret; split; [constructor|reflexivity]|]. eapply at_bindq'; [apply Hf|]. intros y Hy.
  eapply at_bindq'; [apply IH|]. intros ys [H1 H2]. apply at_ret. split; [now constructor|]. cbn. now rewrite H2.
Qed.
(** Every bit is a variable the path of which starts with [s]. *)
Definition under M (s : string) (x : Boolean) : Prop := match x with BIs a => exists rest, M (s ++ rest) (ab_var a) | _ => False end.
Lemma at_bit M st v : at_path M st (@ab_alloc P v) (fun a => M (full st "boolean") (ab_var a)).
Proof. unfold at_path. cbn -[String.concat app]. split; intros; (split; [reflexivity|]); [assumption|exact I]. Qed.
Lemma at_u_alloc M n z : at_path M [n] (@u_alloc P (Some z)) (fun w => Forall (under M (n ++ "/")) (u_bits w) /\ length (u_bits w) = 32%nat).
Proof.
  unfold u_alloc. eapply at_bindq'; [apply at_mapq with (Q := under M (n ++ "/"))|].
  - intros j x. eapply at_bindq'; [apply at_ns, at_bit|]. intros a Ha. apply at_ret. cbn [under]. exists (("allocated bit " ++ nat_str j) ++ "/boolean").
    unfold full in Ha. cbn [app String.concat] in Ha. rewrite append_assoc. exact Ha.
  - intros l [H1 H2]. apply at_ret. cbn [u_bits]. split; [exact H1|]. rewrite H2, map_length, low_bits_z2le. apply z2le_length.
Qed.
Definition any {A} (_ : A) : Prop := True.
Lemma at_b_xor M st x y : at_path M st (@b_xor P x y) any.
Proof. destruct x as [a|a|[]], y as [b|b|[]]; unfold at_path; cbn; repeat split. Qed.
Lemma at_u_xor M st a b : at_path M st (@u_xor P a b) any.
Proof. unfold u_xor. eapply at_bindq'; [apply at_mapq; intros; apply at_ns, at_b_xor|]. intros l _. apply at_ret. exact I. Qed.
Lemma at_loop M st rv m : forall i c lc bits, at_path M st (@add_result_loop P rv m i c lc bits) (fun r =>
  exists b rest, fst (fst r) = (bits ++ BIs b :: rest)%list /\ M (full (st ++ ["result bit " ++ nat_str i]) "boolean") (ab_var b) /\ Forall is_is rest).
Proof.
  assert (X : forall m i (c : P) (lc : LC P) bits,
    (forall (c : P) lc bits, at_path M st (@add_result_loop P rv m (S i) c lc bits) (fun r => exists b rest, fst (fst r) = (bits ++ BIs b :: rest)%list /\ M (full (st ++ ["result bit " ++ nat_str (S i)]) "boolean") (ab_var b) /\ Forall is_is rest)) ->
    at_path M st (let* b := ns ("result bit " ++ nat_str i) (ab_alloc (option_map (fun v => (Z.eqb (Z.land (Z.shiftr v (Z.of_nat i)) 1) 1)%Z) rv)) in
      add_result_loop rv m (S i) (fdouble c) (lc_add_term lc c (ab_var b)) (bits ++ [BIs b])%list) (fun r =>
      exists b rest, fst (fst r) = (bits ++ BIs b :: rest)%list /\ M (full (st ++ ["result bit " ++ nat_str i]) "boolean") (ab_var b) /\ Forall is_is rest)).
  { intros m' i c lc bits IH. eapply at_bindq'; [apply at_ns, at_bit|]. intros b Hb. eapply at_mono; [|apply IH]. cbv beta. intros r (b' & rest & E & _ & HF).
    exists b, (BIs b' :: rest). split; [rewrite E, <- app_assoc; reflexivity|]. split; [exact Hb|]. constructor; [exact I|exact HF]. }
  induction m as [m IH|m IH|]; intros i c lc bits; cbn [add_result_loop].
  - apply X. intros. apply IH.
  - apply X. intros. apply IH.
  - eapply at_bindq'; [apply at_ns, at_bit|]. intros b Hb. apply at_ret. exists b, []. cbn [fst]. auto.
Qed.
Lemma at_addmany M st ops : forallb uconst ops = false -> at_path M st (@addmany P ops) (fun r =>
  exists b rest, u_bits r = BIs b :: rest /\ M (full (st ++ ["result bit 0"]) "boolean") (ab_var b) /\ Forall is_is rest).
Proof.
  intros Hc. unfold addmany. destruct (negb (Nat.leb 64 _)); [exact I|]. destruct (negb (Nat.leb 2 _)); [exact I|]. destruct (negb (Nat.leb (length ops) 10)); [exact I|].
  cbv zeta. rewrite add_fold, Hc. cbn [andb]. set (m := Z.to_pos _). set (rv := oadd _ _). set (lc := snd (fst _)).
  assert (G : at_path M st (let* r := add_result_loop rv m 0 1 lc_zero [] in let '(result_bits, result_lc, i) := r in
    cs_enforce_equal i lc result_lc ;;; Ret (Ok {| u_bits := firstn 32 result_bits; u_value := option_map (fun v => (v mod 2 ^ 32)%Z) rv |})) (fun r =>
    exists b rest, u_bits r = BIs b :: rest /\ M (full (st ++ ["result bit 0"]) "boolean") (ab_var b) /\ Forall is_is rest)).
  { eapply at_bindq'; [apply at_loop|]. intros [[rb rl] i] (b & rest & E & Hb & HF). cbn [fst app] in E. subst rb. split; [reflexivity|]. cbn [okP u_bits].
    exists b, (firstn 31 rest). split; [reflexivity|]. split; [exact Hb|]. revert HF; clear; generalize 31%nat; induction rest as [|q l IH]; intros [|n] HF; cbn [firstn]; auto; inversion HF; subst; constructor; auto. }
  destruct (option_map _ rv); exact G.
Qed.
Lemma wpV_multieq M {A} (p : prog P A) Q : forall st s, wpV M st p Q -> wpV M st (multieq p s) (fun st x => Q st (fst x)).
Proof.
  induction p as [a| |n f k IH|n f k IH|n a b c k IH|n l r k IH|n k IH|k IH]; cbn [multieq wpV]; intros st s H; auto; try (destruct H; split; auto).
  apply wpV_bind. unfold me_enforce_equal. apply wpV_bind. destruct (Nat.leb _ _); unfold me_accumulate, cs_enforce; cbn [bind wpV]; (match goal with |- context [if ?b then _ else _] => destruct b end); cbn [wpV]; auto.
Qed.
Lemma at_multieq M {A} st (p : prog P (res A)) Q : at_path M st p Q -> at_path M st (multieq_scope p) Q.
Proof.
  intros H. unfold at_path, multieq_scope. apply wpV_bind. eapply wpV_mono; [|apply wpV_multieq; exact H]. cbn. intros st' [r s] Hr. cbn [fst snd] in *.
  apply wpV_bind. unfold me_drop. destruct (Nat.ltb _ _); cbn; exact Hr.
Qed.

(** ** Bits of a word *)
Lemma bit_fun (rho : Var -> P) x b b' : bit_is rho x b -> bit_is rho x b' -> b = b'.
Proof.
  assert (X : forall c c', fbit (P := P) c = fbit c' -> c = c').
  { pose proof (f_1_neq_0 (P := P)) as H1. intros [] []; cbn; intros E; try reflexivity; [elim H1; exact E|elim H1; symmetry; exact E]. }
  destruct x as [a|a|c]; cbn; unfold var_bit; intros H H'; [| |congruence].
  - apply X. congruence.
  - assert (E : negb b = negb b') by (apply X; congruence). destruct b, b'; auto; discriminate.
Qed.
Lemma bits_fun (rho : Var -> P) l z z' : u32 z -> u32 z' -> Forall2 (bit_is rho) l (z2le 32 z) -> Forall2 (bit_is rho) l (z2le 32 z') -> z = z'.
Proof.
  intros Hz Hz' H H'. assert (E : z2le 32 z = z2le 32 z').
  { revert H'. generalize (z2le 32 z'). induction H as [|x b l m Hx _ IH]; intros m' H'; inversion H'; subst; [reflexivity|]. f_equal; [eapply bit_fun; eauto|auto]. }
  rewrite <- (le2z_z2le_small 32 z), <- (le2z_z2le_small 32 z'), E by assumption. reflexivity.
Qed.
Lemma bits_ext (rho rho' : Var -> P) s M w l m : (forall rest v, M (s ++ rest) v -> v <> w) -> (forall v, v <> w -> rho v = rho' v) ->
  Forall (under M s) l -> Forall2 (bit_is rho) l m -> Forall2 (bit_is rho') l m.
Proof.
  intros Hd He HU H. induction H as [|x b l m Hx _ IH]; [constructor|]. inversion HU as [|? ? H1 H2]; subst. constructor; [|auto].
  destruct x as [a|a|c]; cbn [under] in H1; try contradiction. destruct H1 as [rest Hr]. cbn [bit_is] in *. unfold var_bit in *. rewrite <- He; [exact Hx|]. eapply Hd, Hr.
Qed.
Lemma under_const M s w : Forall (under M s) (u_bits w) -> length (u_bits w) = 32%nat -> uconst w = false.
Proof. unfold uconst. destruct (u_bits w) as [|x l]; [discriminate|]. intros H _. inversion H as [|? ? H1 _]; subst. destruct x; cbn in *; [reflexivity|contradiction|contradiction]. Qed.
Lemma word_weak (rho : Var -> P) (G : Prop) w z : UInt32Proof.word rho True w z -> UInt32Proof.word rho G w z.
Proof. intros (Ht & z' & H1 & H2 & H3). split; [exact Ht|]. exists z'. repeat split; auto; apply H1. Qed.
Lemma word_bits (rho : Var -> P) w z : tracks w -> u32 z -> Forall2 (bit_is rho) (u_bits w) (z2le 32 z) -> UInt32Proof.word rho True w z.
Proof. intros Ht Hz H. split; [exact Ht|]. exists z. auto. Qed.

(** What the constraints say: the sum of what the bits are. *)
Definition add_goal (b c : Z) (rho : Var -> P) (r : UInt32 * UInt32 * UInt32) : Prop :=
  exists za zd, u32 za /\ u32 zd /\ Forall2 (bit_is rho) (u_bits (fst (fst r))) (z2le 32 za) /\ Forall2 (bit_is rho) (u_bits (snd (fst r))) (z2le 32 zd) /\
    Forall2 (bit_is rho) (u_bits (snd r)) (z2le 32 (wrapping_add (wrapping_add (Z.lxor za b) c) zd)).

Definition add_circuit (a b c d : Z) : prog P (res (UInt32 * UInt32 * UInt32)) :=
  let* a_bit := ns "a_bit" (u_alloc (Some a)) in let* d_bit := ns "d_bit" (u_alloc (Some d)) in
  let* r := ns "xor" (u_xor a_bit (u_constant b)) in
  let* s := multieq_scope (ns "addition" (addmany [r; u_constant c; d_bit])) in Ret (Ok (a_bit, d_bit, s)).
Lemma add_circuit_sound a b c d (rho : Var -> P) : u32 a -> u32 b -> u32 c -> u32 d -> rho one_var = 1 -> wpS rho True (add_circuit a b c d) (okP (add_goal b c rho)).
Proof.
  intros Ha Hb Hc Hd H1. unfold add_circuit. eapply wpS_bindq'; [apply wpS_ns, u_alloc_sound; [exact H1|intros z E; injection E as <-; exact Ha]|]. cbv beta. intros x (Tx & za & Hza & Fx).
  eapply wpS_bindq'; [apply wpS_ns, u_alloc_sound; [exact H1|intros z E; injection E as <-; exact Hd]|]. cbv beta. intros y (Ty & zd & Hzd & Fy).
  eapply wpS_bindq'; [apply wpS_ns, u_xor_sound; [apply word_bits; [exact Tx|exact Hza|exact Fx]|apply constant_word with (z := b); auto]|]. cbv beta. intros r Hr.
  eapply wpS_bindq' with (Q1 := fun s => Forall2 (bit_is rho) (u_bits s) (z2le 32 (wrapping_add (wrapping_add (Z.lxor za b) c) zd))).
  - apply wpS_multieq; [exact H1|]. intros G. apply wpS_ns. eapply wpS_mono; [|apply addmany_sound with (zs := [Z.lxor za b; c; zd]); [exact H1|]].
    + intros [s|e] Hs; cbn [okP] in *; [|auto]. destruct Hs as (_ & z' & Hz' & HF & HG). intros g. rewrite wrap_sum. specialize (HG g). cbn [zsum fold_right] in HG. rewrite <- HG. exact HF.
    + constructor; [now apply word_weak|]. constructor; [apply constant_word; auto|]. constructor; [|constructor]. apply word_weak, word_bits; assumption.
  - intros s Hs. cbn. exists za, zd. cbn [fst snd]. auto.
Qed.

Lemma addmany_ok a b c d : (64 <= num_bits P)%nat -> u32 a -> u32 b -> u32 c -> u32 d -> @addmany_round P a b c d = Done tt.
Proof.
  intros H64 Ha Hb Hc Hd. unfold addmany_round. fold (add_circuit a b c d). set (z := wrapping_add (wrapping_add (Z.lxor a b) c) d).
  destruct (test_run (add_circuit a b c d) (join (oneof ["a_bit"; "d_bit"; "xor"; "addition"]) mq)
    (fun rho r => whon rho (fst (fst r)) a /\ whon rho (snd (fst r)) d /\ whon rho (snd r) z)) as ([[x y] r] & s & cs & -> & Hs & (Wx & Wy & Wr) & Hsat & He & Hcs & HM).
  - unfold add_circuit. struct; first [apply u_alloc_noeq|apply u_xor_noeq|apply noeq_scope].
  - unfold add_circuit. eapply uses_q with (N1 := just "a_bit") (N2 := join (oneof ["d_bit"; "xor"; "addition"]) mq); [apply weak; eapply uses_in; [pl|apply u_alloc_u]| |ns_|ns_]. intros x.
    eapply uses_q with (N1 := just "d_bit") (N2 := join (oneof ["xor"; "addition"]) mq); [apply weak; eapply uses_in; [pl|apply u_alloc_u]| |ns_|ns_]. intros y.
    eapply uses_q with (N1 := just "xor") (N2 := join (oneof ["addition"]) mq); [apply weak; eapply uses_in; [pl|apply u_xor_u]| |ns_|ns_]. intros w.
    apply uses_then. eapply uses_weaken; [| | |apply multieq_u; eapply uses_in; [pl|apply addmany_u]]; [ns_|auto|auto].
  - intros H. ns_.
  - intros rho H1. unfold add_circuit. eapply wpC_bindq'; [apply wpC_ns, u_alloc_complete; assumption|]. intros x Hx. eapply wpC_bindq'; [apply wpC_ns, u_alloc_complete; assumption|]. intros y Hy.
    eapply wpC_bindq'; [apply wpC_ns, u_xor_complete; [exact Hx|apply constant_hon; exact Hb]|]. cbv beta. intros w Hw.
    eapply wpC_bindq'; [apply wpC_multieq; [exact H1|]; apply wpC_ns, addmany_complete with (zs := [Z.lxor a b; c; d]); auto|].
    + cbn. lia.
    + constructor; [exact Hw|]. constructor; [apply constant_hon; exact Hc|]. constructor; [exact Hy|constructor].
    + cbv beta. intros r Hr. unfold z. rewrite wrap_sum. cbn [isOk fst snd wpC]. split; [exact Hx|]. split; [exact Hy|exact Hr].
  - intros K K1. unfold add_circuit. eapply wpK_q; [apply wpK_ns, scop_wpK, u_alloc_scop; exact K1|]. intros x Hx. eapply wpK_q; [apply wpK_ns, scop_wpK, u_alloc_scop; exact K1|]. intros y Hy.
    eapply wpK_q; [apply wpK_ns, scop_wpK, u_xor_scop; [exact K1|exact Hx|apply kw_const]|]. intros w Hw.
    eapply wpK_q; [apply scop_wpK, multieq_scop; [exact K1|]; apply scop_ns, addmany_scop; [exact K1|]|intros; exact I]. constructor; [exact Hw|]. constructor; [apply kw_const|]. constructor; [exact Hy|constructor].
  - cbn [obind fst snd] in *. rewrite (satisfied_ok _ (ok_satisfied _ Hs Hsat)). cbn [obind].
    assert (HM' : Forall (under (holds_at s) "a_bit/") (u_bits x) /\ Forall (under (holds_at s) "d_bit/") (u_bits y) /\
      exists b0 rest, u_bits r = BIs b0 :: rest /\ holds_at s "addition/result bit 0/boolean" (ab_var b0) /\ Forall is_is rest).
    { apply (HM (fun M q => Forall (under M "a_bit/") (u_bits (fst (fst q))) /\ Forall (under M "d_bit/") (u_bits (snd (fst q))) /\
        exists b0 rest, u_bits (snd q) = BIs b0 :: rest /\ M "addition/result bit 0/boolean" (ab_var b0) /\ Forall is_is rest)).
      intros M. unfold add_circuit. eapply at_bindq'; [apply at_ns, (at_u_alloc M "a_bit")|]. intros x' [Fx _]. eapply at_bindq'; [apply at_ns, (at_u_alloc M "d_bit")|]. intros y' [Fy Ly].
      eapply at_bindq'; [apply at_ns, at_u_xor|]. intros w _. eapply at_bindq'; [apply at_multieq, at_ns, (at_addmany M ["addition"])|].
      - cbn [forallb]. rewrite (under_const _ _ _ Fy Ly), !andb_false_r. reflexivity.
      - intros q Hq. apply at_ret. split; [exact Fx|]. split; [exact Fy|]. exact Hq. }
    destruct HM' as (Fx & Fy & b0 & rest & Er & Mb & Hi).
    destruct Wr as (Hz & Fr & Vr). rewrite (value_ok _ _ Vr). cbn [obind].
    rewrite expected_vars; [| |rewrite (rel_length _ _ Fr); eapply Forall2_impl; [|exact Fr]; intros ? ? [_ H]; exact H]; [|rewrite Er; constructor; [exact I|exact Hi]].
    cbn [obind]. rewrite (ok_get _ _ _ Hs Mb). cbn [obind].
    eapply (set_wrong (add_circuit a b c d)) with (R := add_goal b c); eauto; [discriminate|intros; apply add_circuit_sound; assumption|].
    intros rho Hv Ho (za & zd & Hza & Hzd & Ba & Bd & Br). cbn [fst snd] in *.
    assert (Ea : za = a). { apply (bits_fun (asg (pstate s)) (u_bits x)); [assumption|assumption| |apply hon_is; apply Wx].
      eapply (bits_ext rho); [|exact Ho|exact Fx|exact Ba]. intros rst v Hv'. eapply ok_distinct; [exact Hs|exact Hv'|exact Mb|]. cbn. discriminate. }
    assert (Ed : zd = d). { apply (bits_fun (asg (pstate s)) (u_bits y)); [assumption|assumption| |apply hon_is; apply Wy].
      eapply (bits_ext rho); [|exact Ho|exact Fy|exact Bd]. intros rst v Hv'. eapply ok_distinct; [exact Hs|exact Hv'|exact Mb|]. cbn. discriminate. }
    subst za zd. fold z in Br. apply hon_is in Fr. rewrite Er in Br, Fr. change 32%nat with (S 31) in Br, Fr. rewrite z2le_cons in Br, Fr.
    inversion Br as [|? ? ? ? B1 _]; subst. inversion Fr as [|? ? ? ? B2 _]; subst. cbn [bit_is] in B1, B2. unfold var_bit in B1, B2. rewrite Hv, B2 in B1.
    pose proof (f_1_neq_0 (P := P)) as H10. destruct (Z.odd z); cbn [fbit] in B1.
    + destruct (feqb 1 0) eqn:E; [apply feqb_eq in E; contradiction|]. apply H10. symmetry. exact B1.
    + destruct (feqb 0 0) eqn:E; [exact (H10 B1)|]. rewrite (proj2 (feqb_eq P 0 0) eq_refl) in E. discriminate E.
Qed.
Lemma addmany_test draw : (64 <= num_bits P)%nat -> (forall i, let '(a, b, c, d) := draw i in u32 a /\ u32 b /\ u32 c /\ u32 d) -> @test_uint32_addmany P draw = Done tt.
Proof. intros H64 H. apply each_ok. intros i. specialize (H i). destruct (draw i) as [[[a b] c] d]. apply addmany_ok; auto; apply H. Qed.

(** ** A narrow field *)
Lemma addmany_narrow_panic ops : (num_bits P < 64)%nat -> @addmany P ops = Panic.
Proof. intros H. unfold addmany. destruct (Nat.leb_spec 64 (num_bits P)); [lia|reflexivity]. Qed.
Lemma addmany_constants_narrow draw : (num_bits P < 64)%nat -> @test_uint32_addmany_constants P draw = Panicked.
Proof.
  intros H. unfold test_uint32_addmany_constants. cbn [each]. destruct (draw 0%nat) as [[a b] c]. unfold addmany_constants_round. rewrite addmany_narrow_panic by exact H.
  replace (@circuit P UInt32 (multieq_scope (ns "addition" Panic))) with (@Panicked (UInt32 * T)) by reflexivity. reflexivity.
Qed.
Lemma addmany_narrow (draw : nat -> Z * Z * Z * Z) : (num_bits P < 64)%nat -> @test_uint32_addmany P draw = Panicked.
Proof.
  intros H. unfold test_uint32_addmany. cbn [each]. destruct (draw 0%nat) as [[[a b] c] d].
  assert (E : @addmany_round P a b c d = Panicked); [|rewrite E; reflexivity].
  unfold addmany_round. fold (add_circuit a b c d).
  assert (E : forall s : T, run TestCS (add_circuit a b c d) s = Panicked \/ exists e s', run TestCS (add_circuit a b c d) s = Done (Err e, s')).
  { intros s. unfold add_circuit. rewrite run_bindq. destruct (run TestCS (ns "a_bit" (u_alloc (Some a))) s) as [[[x|e] s1]|]; cbn [obind fst snd]; [|eauto|eauto].
    rewrite run_bindq. destruct (run TestCS (ns "d_bit" _) s1) as [[[y|e] s2]|]; cbn [obind fst snd]; [|eauto|eauto].
    rewrite run_bindq. destruct (run TestCS (ns "xor" _) s2) as [[[w|e] s3]|]; cbn [obind fst snd]; [|eauto|eauto].
    rewrite run_bindq, addmany_narrow_panic by exact H. left.
    unfold multieq_scope, ns. cbn [multieq bind run]. destruct (m_push TestCS s3 "addition") as [s4|]; reflexivity. }
  unfold circuit. destruct (E test_new) as [->|(e & s' & ->)]; reflexivity.
Qed.
End Addmany.
