(** Unit tests of uint32.rs: auxiliary lemmas. *)
From Coq Require Import String Ascii.
From Coq Require Import ZArith List Bool Lia Field.
From Verif Require Import Prelude PrimeField Loops BooleanGadget NumGadget MultiEq UInt32 UInt32Proof LookupGadget Multipack Spec TestCS TestCSProof PropTestCS
  Scope ScopeRun PropScope Names NamesGadgets NamesFit UnitTests UnitTestsProof UnitTestsProof2.
From Verif Require Import Circuit.
Import ListNotations.
Local Open Scope nat_scope.

(** The lowest bit *)
Lemma low_bit z : Z.eqb (Z.land z 1) 1 = Z.odd z.
Proof. change 1%Z with (Z.ones 1) at 1. rewrite Z.land_ones by lia. change (2 ^ 1)%Z with 2%Z. rewrite Zmod_odd. destruct (Z.odd z); reflexivity. Qed.
Lemma coin_ok x y : Bool.eqb x y = true -> assert (Bool.eqb x y) = Done tt. Proof. now intros ->. Qed.
Definition is_is (x : Boolean) : Prop := match x with BIs _ => True | _ => False end.
Lemma expected_all bits : forall z, Forall2 (fun x b => b_value x = Some b) bits (z2le (length bits) z) -> check_expected true true bits z = Done tt.
Proof.
  induction bits as [|x bits IH]; intros z H; [reflexivity|]. cbn [length] in H. rewrite z2le_cons in H. inversion H as [|? ? ? ? Hx Hr]; subst. cbn [check_expected].
  rewrite low_bit. rewrite IH by (rewrite <- Z.div2_spec; exact Hr).
  destruct x as [a|a|c]; cbn [b_value] in Hx; [rewrite Hx|destruct (ab_value a) as [v|]; [|discriminate]; injection Hx as <-|injection Hx as <-];
    cbn [unwrap_o obind]; rewrite ?eqb_negb2, ?eqb_reflx; [reflexivity| |reflexivity]. destruct v; reflexivity.
Qed.
Lemma expected_vars bits : forall z, Forall is_is bits -> Forall2 (fun x b => b_value x = Some b) bits (z2le (length bits) z) -> check_expected false true bits z = Done tt.
Proof.
  induction bits as [|x bits IH]; intros z Hi H; [reflexivity|]. cbn [length] in H. rewrite z2le_cons in H. inversion H as [|? ? ? ? Hx Hr]; subst. inversion Hi as [|? ? H1 H2]; subst. cbn [check_expected].
  rewrite low_bit. rewrite IH by (try exact H2; rewrite <- Z.div2_spec; exact Hr).
  destruct x as [a|a|c]; [|contradiction|contradiction]. cbn [b_value] in Hx. rewrite Hx. cbn [unwrap_o obind]. rewrite eqb_reflx. reflexivity.
Qed.
Lemma expected_constants bits : forall z, Forall2 (fun x b => x = BConst b) bits (z2le (length bits) z) -> check_expected true false bits z = Done tt.
Proof.
  induction bits as [|x bits IH]; intros z H; [reflexivity|]. cbn [length] in H. rewrite z2le_cons in H. inversion H as [|? ? ? ? Hx Hr]; subst. cbn [check_expected].
  rewrite low_bit. rewrite IH by (rewrite <- Z.div2_spec; exact Hr). rewrite eqb_reflx. reflexivity.
Qed.
Lemma constant_bits v : u32 v -> Forall2 (fun x b => x = BConst b) (u_bits (u_constant v)) (z2le 32 v).
Proof. intros H. apply const_rel; auto. Qed.
Lemma constant_expected v : u32 v -> check_expected true false (u_bits (u_constant v)) v = Done tt.
Proof. intros H. pose proof (constant_bits v H) as HF. apply expected_constants. now rewrite (rel_length _ _ HF). Qed.
Lemma value_ok w v : u_value w = Some v -> assert_value w v = Done tt.
Proof. unfold assert_value. intros ->. now rewrite Z.eqb_refl. Qed.

(** ** Words from bits *)
Lemma check_constants v l : forall k, l = z2le (length l) (Z.shiftr v (Z.of_nat k)) -> all_of (combine (seq k (length l)) (map BConst l)) (check_constant (Some v)) = Done tt.
Proof.
  induction l as [|b l IH]; intros k E; [reflexivity|]. cbn [length] in E. rewrite z2le_cons in E. injection E as Eb El. cbn [length seq map combine all_of].
  unfold check_constant at 1. cbn [fst snd unwrap_o obind]. rewrite low_bit, <- Eb, eqb_reflx. cbn [assert obind]. apply IH.
  rewrite El at 1. f_equal. rewrite Z.div2_spec, Z.shiftr_shiftr by lia. f_equal. lia.
Qed.
Lemma same_ok (l : list bool) : all_of (combine (map BConst l) (map BConst l)) same_constants = Done tt.
Proof. induction l as [|[] l IH]; cbn; auto. Qed.
Lemma from_bits_be_map cs : length cs = 32 -> exists w, from_bits_be (map BConst cs) = Done w /\ u_bits w = map BConst (rev cs) /\ u_value w = Some (be2z cs).
Proof.
  intros Hl. unfold from_bits_be. rewrite map_length, Hl. cbn [Nat.eqb negb]. eexists. split; [reflexivity|]. cbn [u_bits u_value]. rewrite map_rev. split; [reflexivity|].
  apply from_bits_be_known; [rewrite map_length; lia|]. clear. induction cs; constructor; auto.
Qed.
Lemma word_constants cs : length cs = 32 -> all_of (combine (seq 0 (length cs)) (map BConst cs)) (check_constant (Some (le2z cs))) = Done tt.
Proof. intros Hl. apply check_constants. cbn [Z.of_nat]. rewrite Z.shiftr_0_r, z2le_le2z. reflexivity. Qed.
Lemma from_bits_be_test draw : test_uint32_from_bits_be draw = Done tt.
Proof.
  apply each_ok. intros i. unfold from_bits_round. rewrite <- (map_map (fun j => coin (draw i j)) BConst). set (cs := map _ (seq 0 32)).
  assert (Hl : length cs = 32) by (unfold cs; now rewrite map_length, seq_length). clearbody cs.
  destruct (from_bits_be_map cs Hl) as (w & -> & Eb & Ev). cbn [obind]. rewrite Eb, Ev, be2z_le, map_length. rewrite word_constants by (now rewrite rev_length). cbn [obind].
  unfold into_bits_be. rewrite Eb, <- map_rev, rev_involutive. apply same_ok.
Qed.
Lemma from_bits_test draw : test_uint32_from_bits draw = Done tt.
Proof.
  apply each_ok. intros i. unfold from_bits_round. rewrite <- (map_map (fun j => coin (draw i j)) BConst). set (cs := map _ (seq 0 32)).
  assert (Hl : length cs = 32) by (unfold cs; now rewrite map_length, seq_length). clearbody cs.
  rewrite from_bits_rev, <- map_rev. destruct (from_bits_be_map (rev cs)) as (w & -> & Eb & Ev); [now rewrite rev_length|]. cbn [obind].
  rewrite rev_involutive in Eb. rewrite Eb, Ev, be2z_le, rev_involutive, map_length, word_constants by assumption. cbn [obind]. unfold into_bits. rewrite Eb. apply same_ok.
Qed.

(** ** Shifts of constants *)
Lemma rotate_step k z : (k < 32)%nat -> u32 z -> rotate_right_1 (rotr32 k z) = rotr32 (S k) z.
Proof.
  intros Hk Hz. unfold rotate_right_1, rotr32. rewrite Nat2Z.inj_succ, Z.pow_succ_r by lia.
  assert (E : (2 ^ (32 - Z.of_nat k) = 2 * 2 ^ (32 - Z.succ (Z.of_nat k)))%Z) by (rewrite <- Z.pow_succ_r by lia; f_equal; lia).
  assert (E2 : (2 ^ 31 = 2 ^ Z.of_nat k * 2 ^ (32 - Z.succ (Z.of_nat k)))%Z) by (rewrite <- Z.pow_add_r by lia; f_equal; lia).
  rewrite E, E2. set (s := (2 ^ (32 - Z.succ (Z.of_nat k)))%Z). set (m := (2 ^ Z.of_nat k)%Z). assert (Hm : (0 < m)%Z) by (unfold m; apply Z.pow_pos_nonneg; lia).
  set (q := (z / m)%Z). set (r := (z mod m)%Z).
  replace (q + r * (2 * s))%Z with (q + (r * s) * 2)%Z by lia. rewrite Z.div_add, Z.mod_add by lia.
  replace (2 * m)%Z with (m * 2)%Z by lia. rewrite <- (Z.div_div z m 2) by lia. rewrite Z.rem_mul_r by lia. fold q r. lia.
Qed.
Lemma rotr_loop num : u32 num -> forall n i, (i + n <= 32)%nat -> rotr_rounds (u_constant num) i n (rotr32 i num) = Done tt.
Proof.
  intros Hz. induction n as [|n IH]; intros i Hi; [reflexivity|]. cbn [rotr_rounds]. pose proof (constant_bits num Hz) as Hc.
  pose proof (rotr_rel _ (u_constant num) i num Hz Hc) as HF. rewrite Nat.mod_small in HF by lia.
  rewrite (rel_length _ _ Hc), (rel_length _ _ HF), Nat.eqb_refl. cbn [assert obind].
  assert (Ev : u_value (u_rotr (u_constant num) i) = Some (rotr32 i num)).
  { unfold u_rotr. cbn [u_value u_constant option_map]. f_equal. rewrite Nat.mod_small by lia. apply u32_rotate_right_spec; auto; lia. }
  rewrite Ev. cbn [unwrap_o obind]. rewrite Z.eqb_refl. cbn [assert obind].
  rewrite expected_constants by (rewrite (rel_length _ _ HF); exact HF). cbn [obind].
  rewrite rotate_step by (auto; lia). apply IH. lia.
Qed.
Lemma rotr_test num : u32 num -> test_uint32_rotr num = Done tt.
Proof.
  intros H. unfold test_uint32_rotr. replace num with (rotr32 0 num) at 2; [apply rotr_loop; auto|]. unfold rotr32. cbn [Z.of_nat]. rewrite Z.pow_0_r, Z.div_1_r, Z.mod_1_r. lia.
Qed.
Lemma shr_ok num i : u32 num -> shr_round num i = Done tt.
Proof.
  intros Hz. unfold shr_round. pose proof (constant_bits num Hz) as Hc. pose proof (shr_rel _ (fun c => eq_refl) (u_constant num) i num Hz Hc) as HF.
  assert (Ew : wrapping_shr num i = (num / 2 ^ Z.of_nat (i mod 32))%Z) by (unfold wrapping_shr; apply Z.shiftr_div_pow2; lia).
  assert (Ev : u_value (u_shr (u_constant num) i) = Some (wrapping_shr num i)) by reflexivity.
  rewrite Ev. cbn [unwrap_o obind]. rewrite Z.eqb_refl. cbn [assert obind]. rewrite Ew. set (v := (num / 2 ^ Z.of_nat (i mod 32))%Z) in *.
  assert (Hv : u32 v) by (unfold v; apply shr_range; exact Hz). pose proof (constant_bits v Hv) as Hd.
  rewrite (rel_length _ _ HF), (rel_length _ _ Hd), Nat.eqb_refl. cbn [assert obind].
  assert (E : u_bits (u_shr (u_constant num) i) = u_bits (u_constant v)).
  { clear -HF Hd. revert Hd. generalize (u_bits (u_constant v)). induction HF as [|x b l m -> _ IH]; intros l2 H2; inversion H2; subst; f_equal; auto. }
  rewrite E. clear -Hd. induction Hd as [|x b l m -> _ IH]; [reflexivity|]. cbn [combine all_of fst snd b_value unwrap_o obind]. rewrite eqb_reflx. exact IH.
Qed.
Lemma shr_test draw : (forall k i, u32 (draw k i)) -> test_uint32_shr draw = Done tt.
Proof. intros H. apply each_ok. intros k. apply each_ok. intros i. apply shr_ok, H. Qed.

Section Words.
Context {P : PrimeField}.
Local Open Scope F_scope.
Local Open Scope prog_scope.
Local Open Scope string_scope.
Add Field PFunit3 : (F_field P).
Notation T := (TState P).
Implicit Types M : string -> Var -> Prop.

Lemma whon_checks (rho : Var -> P) r z : whon rho r z -> assert_value r z = Done tt /\ check_expected true true (u_bits r) z = Done tt.
Proof.
  intros (Hz & HF & Hv). split; [now apply value_ok|]. apply expected_all. rewrite (rel_length _ _ HF). eapply Forall2_impl; [|exact HF]. intros x b [_ H]. exact H.
Qed.
Lemma u_alloc_noeq v : noeq (@u_alloc P v). Proof. unfold u_alloc. struct. Qed.
Lemma u_xor_noeq a b : noeq (@u_xor P a b). Proof. unfold u_xor. struct. Qed.
Lemma xor_ok a b c : u32 a -> u32 b -> u32 c -> @xor_round P a b c = Done tt.
Proof.
  intros Ha Hb Hc. unfold xor_round.
  match goal with |- context [circuit ?q] => set (p := q) end.
  destruct (test_run p (oneof ["a_bit"; "c_bit"; "first xor"; "second xor"]) (fun rho r => whon rho r (Z.lxor (Z.lxor a b) c))) as (r & s & cs & -> & Hs & Hw & Hsat & _); unfold p.
  - struct; first [apply u_alloc_noeq|apply u_xor_noeq].
  - apply weak. eapply uses_q with (N2 := oneof ["c_bit"; "first xor"; "second xor"]); [eapply uses_in; [pl|apply u_alloc_u]| |ns_|ns_]. intros x.
    eapply uses_q with (N2 := oneof ["first xor"; "second xor"]); [eapply uses_in; [pl|apply u_alloc_u]| |ns_|ns_]. intros y.
    eapply uses_q; [eapply uses_in; [pl|apply u_xor_u]|intros z; eapply uses_in; [pl|apply u_xor_u]|ns_|ns_].
  - intros H. ns_.
  - intros rho H1. eapply wpC_bindq'; [apply wpC_ns, u_alloc_complete; assumption|]. intros x Hx. eapply wpC_bindq'; [apply wpC_ns, u_alloc_complete; assumption|]. intros y Hy.
    eapply wpC_bindq'; [apply wpC_ns, u_xor_complete; [exact Hx|apply constant_hon; exact Hb]|]. intros z Hz. apply wpC_ns. exact (u_xor_complete rho z y _ _ Hz Hy).
  - intros K K1. eapply wpK_q; [apply wpK_ns, scop_wpK, u_alloc_scop; exact K1|]. intros x Hx. eapply wpK_q; [apply wpK_ns, scop_wpK, u_alloc_scop; exact K1|]. intros y Hy.
    eapply wpK_q; [apply wpK_ns, scop_wpK, u_xor_scop; [exact K1|exact Hx|apply kw_const]|]. intros z Hz. eapply wpK_any. apply wpK_ns, scop_wpK, u_xor_scop; assumption.
  - cbn [obind]. rewrite (satisfied_ok _ (ok_satisfied _ Hs Hsat)). cbn [obind]. destruct (whon_checks _ _ _ Hw) as [-> ->]. reflexivity.
Qed.
Lemma xor_test draw : (forall i, u32 (fst (fst (draw i))) /\ u32 (snd (fst (draw i))) /\ u32 (snd (draw i))) -> @test_uint32_xor P draw = Done tt.
Proof. intros H. apply each_ok. intros i. specialize (H i). destruct (draw i) as [[a b] c]. apply xor_ok; apply H. Qed.

Lemma triop_ok (op : UInt32 -> UInt32 -> UInt32 -> prog P (res UInt32)) f N a b c : (forall x y z, noeq (op x y z)) -> (forall x y z, uses plain (op x y z) N (okP (fun _ => True))) -> apart (oneof ["a_bit"; "c_bit"]) N -> ~ N "ONE" ->
  (forall rho : Var -> P, rho one_var = 1 -> forall x y z, whon rho x a -> whon rho y b -> whon rho z c -> wpC rho (op x y z) (isOk (fun r => whon rho r (f a b c)))) ->
  (forall (K : Var -> Prop) x y z, K one_var -> kw K x -> kw K y -> kw K z -> scop K (op x y z) (kw K)) ->
  u32 a -> u32 b -> u32 c -> @triop_round P op f a b c = Done tt.
Proof.
  intros Hn Hu Hd H1 Hc Hk Ua Ub Uc. unfold triop_round.
  match goal with |- context [circuit ?q] => set (p := q) end.
  destruct (test_run p (join (oneof ["a_bit"; "c_bit"]) N) (fun rho r => whon rho r (f a b c))) as (r & s & cs & -> & Hs & Hw & Hsat & _); unfold p.
  - struct; first [apply u_alloc_noeq|apply Hn].
  - apply weak. eapply uses_q with (N2 := join (just "c_bit") N); [eapply uses_in; [pl|apply u_alloc_u]| | | ]. intros x.
    eapply uses_q; [eapply uses_in; [pl|apply u_alloc_u]|intros y; apply Hu| |intros ? H; exact H].
    + intros x' E Hx. apply (Hd x'); [|exact Hx]. unfold just in E. subst. cbn; auto.
    + intros x E [H|H]; [unfold just in E, H; congruence|]. apply (Hd x); [|exact H]. unfold just in E. subst. cbn; auto.
    + intros x [E|[E|E]]; [left|left|right; exact E]; unfold just in E; subst; cbn; auto.
  - intros [E|E]; [|now apply H1]. cbn in E. destruct E as [E|[E|[]]]; discriminate E.
  - intros rho R1. eapply wpC_bindq'; [apply wpC_ns, u_alloc_complete; assumption|]. intros x Hx. eapply wpC_bindq'; [apply wpC_ns, u_alloc_complete; assumption|]. intros y Hy.
    apply Hc; auto. apply constant_hon, Ub.
  - intros K K1. eapply wpK_q; [apply wpK_ns, scop_wpK, u_alloc_scop; exact K1|]. intros x Hx. eapply wpK_q; [apply wpK_ns, scop_wpK, u_alloc_scop; exact K1|]. intros y Hy.
    eapply wpK_any. apply scop_wpK, Hk; auto. apply kw_const.
  - cbn [obind]. rewrite (satisfied_ok _ (ok_satisfied _ Hs Hsat)). cbn [obind]. destruct (whon_checks _ _ _ Hw) as [-> ->]. reflexivity.
Qed.
Lemma maj_test draw : (forall i, u32 (fst (fst (draw i))) /\ u32 (snd (fst (draw i))) /\ u32 (snd (draw i))) -> @test_uint32_sha256_maj P draw = Done tt.
Proof.
  intros H. apply each_ok. intros i. specialize (H i). destruct (draw i) as [[a b] c]. eapply triop_ok with (N := fam "maj "); try apply H.
  - intros. unfold u_maj, triop. struct.
  - intros. apply u_maj_u.
  - ns_.
  - intros [j E]. discriminate E.
  - intros. apply u_maj_complete; assumption.
  - intros. apply u_maj_scop; assumption.
Qed.
Lemma not_sub a : u32 a -> (2 ^ 32 - 1 - a)%Z = u32_not a.
Proof.
  intros H. unfold u32_not, u32 in *. change (2 ^ 32 - 1)%Z with (Z.ones 32). rewrite Z.sub_nocarry_ldiff.
  - apply Z.bits_inj'. intros n Hn. rewrite Z.ldiff_spec, Z.lxor_spec. destruct (Z.ltb_spec n 32).
    + rewrite Z.ones_spec_low by lia. destruct (Z.testbit a n); reflexivity.
    + rewrite Z.ones_spec_high by lia. replace a with (a mod 2 ^ 32)%Z by (apply Z.mod_small; lia). rewrite Z.mod_pow2_bits_high by lia. reflexivity.
  - apply Z.bits_inj'. intros n Hn. rewrite Z.ldiff_spec, Z.bits_0. destruct (Z.ltb_spec n 32).
    + rewrite Z.ones_spec_low by lia. apply andb_false_r.
    + replace a with (a mod 2 ^ 32)%Z by (apply Z.mod_small; lia). rewrite Z.mod_pow2_bits_high by lia. reflexivity.
Qed.
Lemma ch_test draw : (forall i, u32 (fst (fst (draw i))) /\ u32 (snd (fst (draw i))) /\ u32 (snd (draw i))) -> @test_uint32_sha256_ch P draw = Done tt.
Proof.
  intros H. apply each_ok. intros i. specialize (H i). destruct (draw i) as [[a b] c]. cbn [fst snd] in H. eapply triop_ok with (N := fam "ch "); try apply H.
  - intros. unfold u_ch, triop. struct.
  - intros. apply u_ch_u.
  - ns_.
  - intros [j E]. discriminate E.
  - intros. rewrite not_sub by apply H. apply u_ch_complete; assumption.
  - intros. apply u_ch_scop; assumption.
Qed.

(** ** Sums *)
Lemma uconst_constant v : uconst (u_constant v) = true.
Proof. unfold uconst, u_constant. cbn [u_bits]. induction (low_bits 32 v) as [|[] l IH]; auto. Qed.
Lemma wrap_sum a b c : wrapping_add (wrapping_add a b) c = ((a + (b + (c + 0))) mod 2 ^ 32)%Z.
Proof. unfold wrapping_add. rewrite Zplus_mod_idemp_l. f_equal. lia. Qed.
Lemma addmany_constants_ok a b c : (64 <= num_bits P)%nat -> u32 a -> u32 b -> u32 c -> @addmany_constants_round P a b c = Done tt.
Proof.
  intros H64 Ha Hb Hc. unfold addmany_constants_round.
  assert (E : @addmany P [u_constant a; u_constant b; u_constant c] = Ret (Ok (u_constant ((a + (b + (c + 0))) mod 2 ^ 32)%Z))).
  { unfold addmany. destruct (Nat.leb_spec 64 (num_bits P)); [|lia]. cbn [negb length Nat.leb]. rewrite add_fold. cbn [map osum u_value u_constant oadd option_map forallb].
    rewrite !uconst_constant. cbn [andb]. reflexivity. }
  rewrite E. clear E. set (v := ((a + (b + (c + 0))) mod 2 ^ 32)%Z).
  rewrite wrap_sum. fold v. assert (Hv : u32 v) by apply mod32_u32. clearbody v.
  assert (E' : exists s, @circuit P _ (multieq_scope (ns "addition" (Ret (Ok (u_constant v))))) = Done (u_constant v, s)) by (eexists; reflexivity). destruct E' as [s ->]. cbn [obind].
  rewrite value_ok by reflexivity. cbn [obind]. apply constant_expected, Hv.
Qed.
Lemma addmany_constants_test draw : (64 <= num_bits P)%nat -> (forall i, u32 (fst (fst (draw i))) /\ u32 (snd (fst (draw i))) /\ u32 (snd (draw i))) -> @test_uint32_addmany_constants P draw = Done tt.
Proof. intros H64 H. apply each_ok. intros i. specialize (H i). destruct (draw i) as [[a b] c]. apply addmany_constants_ok; auto; apply H. Qed.
End Words.
