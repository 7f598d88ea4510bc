(** Unit tests of lookup.rs, multipack.rs and uint32.rs: auxiliary lemmas. *)
From Coq Require Import String Ascii.
From Coq Require Import ZArith List Bool Lia Field.
From Verif Require Import Prelude PrimeField Loops BooleanGadget NumGadget MultiEq UInt32 UInt32Proof LookupGadget Multipack Spec TestCS TestCSProof PropTestCS
  Scope ScopeRun PropScope Names NamesGadgets NamesFit UnitTests UnitTestsProof Mimc.
From Verif Require Import Circuit.
Import ListNotations.
Local Open Scope nat_scope.

Section Tests2.
Context {P : PrimeField}.
Local Open Scope F_scope.
Local Open Scope prog_scope.
Local Open Scope string_scope.
Add Field PFunit2 : (F_field P).
Notation T := (TState P).
Implicit Types M : string -> Var -> Prop.

Local Ltac nn := unfold n_lookup, n_lookup_neg, n_pack, n_bit in *; ns_.
Lemma each_ok f : (forall i, f i = Done tt) -> forall n i, each i n f = Done tt.
Proof. intros H. induction n as [|n IH]; intros i; cbn [each]; [reflexivity|]. rewrite H. cbn [obind]. apply IH. Qed.
Lemma each_below f m : (forall i, (i < m)%nat -> f i = Done tt) -> forall n i, (i + n <= m)%nat -> each i n f = Done tt.
Proof. intros H. induction n as [|n IH]; intros i Hi; cbn [each]; [reflexivity|]. rewrite H by lia. cbn [obind]. apply IH. lia. Qed.

(** ** lookup.rs *)
Lemma three_u da db dc : uses (P := P) plain (three_bits da db dc) (oneof ["a"; "b"; "c"]) (okP (fun _ => True) : res (list Boolean) -> Prop) .
Proof.
  unfold three_bits. eapply uses_q with (N2 := oneof ["b"; "c"]); [eapply uses_in; [pl|apply ab_alloc_u]| |ns_|ns_]. intros a.
  eapply uses_q with (N2 := oneof ["c"]); [eapply uses_in; [pl|apply ab_alloc_u]| |ns_|ns_]. intros b.
  eapply uses_q with (N2 := none); [eapply uses_in; [pl|apply ab_alloc_u]|intros; apply uses_res|ns_|ns_].
Qed.
Lemma three_complete (rho : Var -> P) da db dc : rho one_var = 1 -> wpC rho (three_bits da db dc)
  (isOk (fun l => exists a b c, l = [BIs a; BIs b; BIs c] /\ abit_hon rho a (coin da) /\ abit_hon rho b (coin db) /\ abit_hon rho c (coin dc))).
Proof.
  intros H1. unfold three_bits. eapply wpC_bindq'; [apply wpC_ns, ab_alloc_complete; exact H1|]. intros a Ha.
  eapply wpC_bindq'; [apply wpC_ns, ab_alloc_complete; exact H1|]. intros b Hb. eapply wpC_bindq'; [apply wpC_ns, ab_alloc_complete; exact H1|]. intros c Hc.
  exists a, b, c. repeat split; try apply Ha; try apply Hb; apply Hc.
Qed.
Lemma three_wpK (K : Var -> Prop) da db dc : K one_var -> wpK K (@three_bits P da db dc) (okP (Forall (kb K))).
Proof.
  intros K1. unfold three_bits. eapply wpK_q; [apply wpK_ns, scop_wpK, Scope.ab_alloc_scop; exact K1|]. intros a Ha. eapply wpK_q; [apply wpK_ns, scop_wpK, Scope.ab_alloc_scop; exact K1|]. intros b Hb.
  eapply wpK_q; [apply wpK_ns, scop_wpK, Scope.ab_alloc_scop; exact K1|]. intros c Hc. cbn. repeat constructor; assumption.
Qed.
Lemma three_noeq da db dc : noeq (@three_bits P da db dc). Proof. unfold three_bits. struct. Qed.
Lemma bit_of (rho : Var -> P) a b : abit_hon rho a b -> bit_hon rho (BIs a) b. Proof. intros [H1 H2]. split; assumption. Qed.

Lemma plus3 a b c : plus_if c (plus_if b (plus_if a 0 1) 2) 4 = idx3 a b c. Proof. destruct a, b, c; reflexivity. Qed.
Lemma plus2 a b : plus_if b (plus_if a 0 1) 2 = idx2 a b. Proof. destruct a, b; reflexivity. Qed.

Lemma lookup3_ok da db dc (points : list (P * P)) : List.length points = 8%nat -> lookup3_round da db dc points = Done tt.
Proof.
  intros Hl. unfold lookup3_round.
  match goal with |- context [circuit ?q] => set (p := q) end.
  destruct (test_run p (join (oneof ["a"; "b"; "c"]) (oneof n_lookup))
    (fun rho r => num_hon rho (fst r) (fst (nth (idx3 (coin da) (coin db) (coin dc)) points (0, 0))) /\
       num_hon rho (snd r) (snd (nth (idx3 (coin da) (coin db) (coin dc)) points (0, 0))))) as ([x y] & s & cs & -> & Hs & [[_ Vx] [_ Vy]] & Hsat & _); unfold p.
  - apply noeq_bindq; [apply three_noeq|]. intros; struct.
  - apply weak. eapply uses_q; [apply three_u|intros; apply lookup_u|nn|intros ? H; exact H].
  - intros H. nn.
  - intros rho H1. eapply wpC_bindq'; [apply three_complete; exact H1|]. intros l (a & b & c & -> & Ha & Hb & Hc).
    eapply lookup3_xy_complete; auto using bit_of.
  - intros K K1. eapply wpK_q; [apply three_wpK; exact K1|]. intros l Hk. eapply wpK_any. apply scop_wpK, lookup3_scop; assumption.
  - cbn [obind fst snd] in *. rewrite (satisfied_ok _ (ok_satisfied _ Hs Hsat)). cbn [obind]. rewrite Vx, Vy, plus3. cbn [unwrap_o obind].
    rewrite (nth_error_nth' points (0, 0)) by (rewrite Hl; destruct (coin da), (coin db), (coin dc); cbn; lia). cbn [unwrap_o obind].
    rewrite !assert_eq by reflexivity. reflexivity.
Qed.
Lemma lookup3_xy_test coins draw : @test_lookup3_xy P coins draw = Done tt.
Proof. apply each_ok. intros i. destruct (coins i) as [[da db] dc]. apply lookup3_ok. now rewrite map_length, seq_length. Qed.

Lemma lookup3_neg_ok da db dc (points : list (P * P)) : List.length points = 4%nat -> lookup3_neg_round da db dc points = Done tt.
Proof.
  intros Hl. unfold lookup3_neg_round.
  match goal with |- context [circuit ?q] => set (p := q) end.
  destruct (test_run p (join (oneof ["a"; "b"; "c"]) (oneof n_lookup_neg))
    (fun rho r => num_value (fst r) = Some (fst (nth (idx2 (coin da) (coin db)) points (0, 0))) /\
       num_value (snd r) = Some (cond_neg (coin dc) (snd (nth (idx2 (coin da) (coin db)) points (0, 0)))))) as ([x y] & s & cs & -> & Hs & [Vx Vy] & Hsat & _); unfold p.
  - apply noeq_bindq; [apply three_noeq|]. intros; struct.
  - apply weak. eapply uses_q; [apply three_u|intros; apply lookup_neg_u|nn|intros ? H; exact H].
  - intros H. nn.
  - intros rho H1. eapply wpC_bindq'; [apply three_complete; exact H1|]. intros l (a & b & c & -> & Ha & Hb & Hc).
    eapply wpC_okmono; [|eapply lookup3_xy_neg_complete; [exact H1|exact Hl|apply bit_of; exact Ha|apply bit_of; exact Hb|apply bit_of; exact Hc]]. intros r [[_ Hx] [_ Hy]]. split; [exact Hx|exact Hy].
  - intros K K1. eapply wpK_q; [apply three_wpK; exact K1|]. intros l Hk. eapply wpK_any. apply scop_wpK, lookup3_neg_scop; assumption.
  - cbn [obind fst snd] in *. rewrite (satisfied_ok _ (ok_satisfied _ Hs Hsat)). cbn [obind]. rewrite Vx, Vy, plus2. cbn [unwrap_o obind].
    rewrite (nth_error_nth' points (0, 0)) by (rewrite Hl; destruct (coin da), (coin db); cbn; lia). cbn [unwrap_o obind].
    rewrite !assert_eq by reflexivity. reflexivity.
Qed.
Lemma lookup3_neg_test coins draw : @test_lookup3_xy_with_conditional_negation P coins draw = Done tt.
Proof. apply each_ok. intros i. destruct (coins i) as [[da db] dc]. apply lookup3_neg_ok. now rewrite map_length, seq_length. Qed.

Lemma synth_test draw : @test_synth P draw = Done tt.
Proof.
  unfold test_synth. set (constants := map draw (seq 0 16)). assert (Hl : List.length constants = 16%nat) by (unfold constants; now rewrite map_length, seq_length).
  apply each_below with (m := 16%nat); [|lia]. intros b Hb.
  rewrite (nth_error_nth' constants 0) by lia. cbn [unwrap_o obind]. apply assert_eq.
  set (a := synth 4 constants). assert (La : List.length a = 16%nat) by apply synth_length.
  rewrite <- (synth_spec 4 constants b) by (rewrite Hl; cbn; lia). fold a. rewrite <- (subsum_stop (fun j => nth j a 0) b 16) by lia. rewrite subsum_fold, La.
  assert (X : forall (l : list P) k (g : nat -> P) acc, (forall i, (i < List.length l)%nat -> g (k + i)%nat = nth i l 0) ->
    fold_left (fun acc ja => if Nat.eqb (Nat.land (fst ja) b) (fst ja) then acc + snd ja else acc) (combine (seq k (List.length l)) l) acc =
    acc + fold_right (fun j acc => if Nat.eqb (Nat.land j b) j then g j + acc else acc) 0 (seq k (List.length l))).
  { induction l as [|x l IH]; intros k g acc Hg; cbn [List.length seq combine fold_left fold_right fst snd]; [ring|].
    rewrite (IH (S k) g) by (intros i Hi; rewrite Nat.add_succ_comm; apply (Hg (S i)); cbn; lia).
    specialize (Hg 0%nat ltac:(cbn; lia)). rewrite Nat.add_0_r in Hg. cbn [nth] in Hg. rewrite Hg. destruct (Nat.eqb _ _); ring. }
  pose proof (X a 0%nat (fun j => nth j a 0) 0 (fun i _ => eq_refl)) as Y. rewrite La in Y. rewrite Y. ring.
Qed.

(** ** multipack.rs *)
Definition pack_bit (i : nat) (b : bool) : prog P (res Boolean) := let* a := ns ("bit " ++ nat_str i) (ab_alloc (Some b)) in Ret (Ok (BIs a)).
Lemma pack_bits_run bits : forall i s, exists l s', run (HonestCS P) (mapq pack_bit i bits) s = Done (Ok l, s') /\ p_inputs s' = p_inputs s /\
  Forall2 (fun b x => b_value b = Some x) l bits.
Proof.
  induction bits as [|b bits IH]; intros i s; cbn [mapq]; [exists [], s; repeat constructor|]. rewrite run_bindq.
  assert (X : exists x t, run (HonestCS P) (pack_bit i b) s = Done (Ok x, t) /\ p_inputs t = p_inputs s /\ b_value x = Some b) by (eexists; eexists; split; [reflexivity|split; reflexivity]).
  destruct X as (x & t & -> & Et & Vx). cbn [obind fst snd]. rewrite run_bindq. destruct (IH (S i) t) as (l & s' & -> & Ei & HF).
  cbn [obind fst snd run]. exists (x :: l), s'. split; [reflexivity|]. split; [congruence|]. constructor; assumption.
Qed.
Lemma multipack_ok bits : @multipack_round P bits = Done tt.
Proof.
  unfold multipack_round.
  change (fun i b => let* a := ns ("bit " ++ nat_str i) (ab_alloc (Some b)) in Ret (Ok (BIs a))) with pack_bit.
  set (p := let* circuit_bits := mapq pack_bit 0 bits in ns "pack" (pack_into_inputs circuit_bits)).
  destruct (test_run p (join (fam "bit ") (just "pack")) (fun _ _ => True)) as ([] & s & cs & Ec & Hs & _ & Hsat & _); unfold p.
  - apply noeq_bindq; [|intros; struct]. unfold pack_bit. struct.
  - apply weak. eapply uses_q; [apply uses_map; intros j x; apply uses_then; eapply uses_in; [pl|apply ab_alloc_u]|intros; eapply uses_in; [pl|apply pack_u]|nn|intros ? H; exact H].
  - intros H. nn.
  - intros rho H1. eapply wpC_bindq' with (Q1 := fun l => Forall2 (fun b x => bit_hon rho x b) bits l).
    + eapply wpC_mapq2 with (I := eq) (m := bits) (Q := fun b x => bit_hon rho x b); [clear; induction bits; constructor; auto|].
      intros j x b <-. unfold pack_bit. eapply wpC_bindq'; [apply wpC_ns, ab_alloc_complete; exact H1|]. intros a Ha. now apply bit_of.
    + intros l Hl. apply wpC_ns. apply pack_complete with (bs := bits); [exact H1|]. clear -Hl. induction Hl; constructor; assumption.
  - intros K K1. eapply wpK_q with (Q1 := Forall (kb K)).
    + clear -K1. generalize 0%nat. induction bits as [|b bits IH]; intros i; cbn [mapq]; [cbn; constructor|]. eapply wpK_q with (Q1 := kb K).
      * unfold pack_bit. eapply wpK_q; [apply wpK_ns, scop_wpK, Scope.ab_alloc_scop; exact K1|]. intros a Ha. exact Ha.
      * intros x Hx. eapply wpK_q; [apply IH|]. intros l Hl. cbn. constructor; assumption.
    + intros l Hl. eapply wpK_any. apply wpK_ns, scop_wpK, pack_scop; assumption.
  - fold p. rewrite Ec. cbn [obind]. rewrite (satisfied_ok _ (ok_satisfied _ Hs Hsat)). cbn [obind].
    unfold circuit in Ec. destruct (run TestCS p test_new) as [[[[]|] s']|] eqn:E; [|discriminate|discriminate]. cbn in Ec. injection Ec as ->.
    destruct (C02_records P _ p test_new (Ok tt) s E) as (Eh & _). unfold p in Eh. rewrite run_bindq in Eh.
    destruct (pack_bits_run bits 0 (pstate test_new)) as (l & s1 & E1 & Ei & HF). rewrite E1 in Eh. cbn [obind fst snd] in Eh. rewrite run_ns in Eh.
    cbn [m_push HonestCS obind] in Eh. unfold pack_into_inputs in Eh.
    destruct (pack_loop_honest _ _ (Forall2_chunks _ (capacity P) _ _ capacity_pos HF) 0 s1) as (s2 & cs2 & E2 & Ei2 & _). rewrite E2 in Eh. cbn in Eh. injection Eh as Eh.
    rewrite <- compute_multipacking_eq, Ei in Ei2.
    rewrite (proj2 (proj1 (C02_verify P s (compute_multipacking bits) (so_reach _ Hs)))); [reflexivity|].
    exists 1. rewrite <- Eh. exact Ei2.
Qed.
Lemma multipack_test draw : @test_multipacking P draw = Done tt.
Proof. apply each_ok. intros i. apply multipack_ok. Qed.
End Tests2.
