(** Property theorem C66: gadgets only use variables that exist. *)
From Coq Require Import String.
From Coq Require Import ZArith List Bool Lia.
From Verif Require Import Prelude PrimeField Fields Circuit Loops BooleanGadget NumGadget LookupGadget Multipack MultiEq UInt32 Sha256 Blake2s
  TestCS Multiexp Assembly AssemblyProof Scope ScopeRun Mimc Spec Blake2sSpec PropGenerator PropGroth16 PropSha256.
Import ListNotations.
Local Open Scope nat_scope.

(** ** Specification *)

(** A variable exists if its number is below the number of variables of its kind. *)
Definition present (ni na : nat) (v : Var) : Prop := match v with Input i => i < ni | Aux i => i < na end.
Definition vars_of {P : PrimeField} (l : LC P) : list Var := map fst l.

(** KeypairAssembly (generator.rs:43-53) has a column for every variable; [vs] exist. *)
Definition keygen_ready {P : PrimeField} (s : KeypairAssembly P) (vs : list Var) : Prop :=
  (forall m, In m [ka_at s; ka_bt s; ka_ct s] -> length (col_inputs m) = num_inputs s /\ length (col_aux m) = num_aux s) /\
  Forall (present (num_inputs s) (num_aux s)) vs.
(** The densities of ProvingAssignment (prover.rs:57-71) have an entry for every variable they are about; [vs] exist. *)
Definition prover_ready {P : PrimeField} (s : ProvingAssignment P) (vs : list Var) : Prop :=
  (length (a_aux_density s) = length (aux_assignment s) /\ length (b_input_density s) = length (input_assignment s) /\
   length (b_aux_density s) = length (aux_assignment s)) /\
  Forall (present (length (input_assignment s)) (length (aux_assignment s))) vs.
(** The constraints of TestConstraintSystem only mention variables that exist; [vs] exist. *)
Definition test_ready {P : PrimeField} (s : TState P) (vs : list Var) : Prop :=
  (forall a b c path, In (a, b, c, path) (t_cons s) -> Forall (present (length (t_inputs s)) (length (t_aux s))) (vars_of a ++ vars_of b ++ vars_of c)) /\
  Forall (present (length (t_inputs s)) (length (t_aux s))) vs.

Definition given {A} (gives : A -> list Var) (r : res A) : list Var := match r with Ok a => gives a | Err _ => [] end.

(** Started where [needs] and the variable for 1 exist, [p] leaves the key generator in order, with what it [gives] existing as well as
    what existed before; it panics only if it does so by itself: there, a constraint system that merely counts variables and keeps a list of the constraints
    panics, too.  The same for the prover and for the test constraint system, which however may also panic because of names. *)
Definition in_scope {P : PrimeField} {A} (needs : list Var) (p : prog P (res A)) (gives : A -> list Var) : Prop :=
  (forall s t others, keygen_ready s (one_var :: needs ++ others) -> k_inputs t = num_inputs s -> k_aux t = num_aux s ->
     match run (KeypairCS P) p s with
     | Panicked => run (ShapeCS P) p t = Panicked
     | Done (r, s') => keygen_ready s' (one_var :: needs ++ others ++ given gives r) /\
         exists t', run (ShapeCS P) p t = Done (r, t') /\ k_inputs t' = num_inputs s' /\ k_aux t' = num_aux s'
     end) /\
  (forall s t others, prover_ready s (one_var :: needs ++ others) -> p_inputs t = input_assignment s -> p_aux t = aux_assignment s ->
     match run (ProvingCS P) p s with
     | Panicked => run (HonestCS P) p t = Panicked
     | Done (r, s') => prover_ready s' (one_var :: needs ++ others ++ given gives r) /\
         exists t', run (HonestCS P) p t = Done (r, t') /\ p_inputs t' = input_assignment s' /\ p_aux t' = aux_assignment s'
     end) /\
  (forall s others r s', test_ready s (one_var :: needs ++ others) -> run TestCS p s = Done (r, s') -> test_ready s' (one_var :: needs ++ others ++ given gives r)).

(** The variables of bits, words and numbers. *)
Definition bit_vars (b : Boolean) : list Var := match b with BIs a | BNot a => [ab_var a] | BConst _ => [] end.
Definition bits_vars (l : list Boolean) : list Var := flat_map bit_vars l.
Definition word_vars (w : UInt32) : list Var := bits_vars (u_bits w).
Definition num_vars {P : PrimeField} (n : Num P) : list Var := vars_of (num_lc_ n).

(** ** Auxiliary *)
Section Aux.
Context {P : PrimeField}.
Lemma present_all ni na : forall v, v_ok ni na v <-> present ni na v. Proof. intros [i|i]; reflexivity. Qed.
Lemma keygen_fit (s : KeypairAssembly P) vs : keygen_ready s vs <-> ka_fit s /\ Forall (ka_ex s) vs.
Proof.
  unfold keygen_ready, ka_fit, cols_len. split; intros [H1 H2]; (split; [|exact H2]).
  - split; [|split]; apply H1; cbn; auto.
  - intros m [<-|[<-|[<-|[]]]]; apply H1.
Qed.
Lemma lck_vars (K : Var -> Prop) (l : LC P) : lck K l <-> Forall K (vars_of l).
Proof. unfold lck, vars_of. now rewrite Forall_map. Qed.
Lemma test_fit (s : TState P) vs : test_ready s vs <-> t_fit s /\ Forall (t_ex s) vs.
Proof.
  unfold test_ready, t_fit. split; intros [H1 H2]; (split; [|exact H2]).
  - apply Forall_forall. intros [[[a b] c] path] Hin. specialize (H1 _ _ _ _ Hin). rewrite !Forall_app in H1. destruct H1 as (A & B & C).
    unfold con_ex. cbn [fst snd]. rewrite !lck_vars. auto.
  - rewrite Forall_forall in H1. intros a b c path Hin. destruct (H1 _ Hin) as (A & B & C). cbn [fst snd] in *.
    rewrite lck_vars in A, B, C. rewrite !Forall_app. auto.
Qed.

Lemma in_scope_of {A} needs (p : prog P (res A)) gives :
  (forall K : Var -> Prop, K one_var -> Forall K needs -> wpK K p (okP (fun r => Forall K (gives r)))) -> in_scope needs p gives.
Proof.
  intros H.
  assert (Post : forall (ex ex' : Var -> Prop) (r : res A) others, (forall v : Var, ex v -> ex' v) -> Forall ex (one_var :: needs ++ others) ->
     okP (fun r => Forall ex' (gives r)) r -> Forall ex' (one_var :: needs ++ others ++ given gives r)).
  { intros ex ex' r others Hm Hn Hr. rewrite app_assoc, app_comm_cons. apply Forall_app. split; [exact (Forall_impl _ Hm Hn)|].
    destruct r; [exact Hr|constructor]. }
  assert (Pre : forall (ex K : Var -> Prop) others, (forall v : Var, ex v -> K v) -> Forall ex (one_var :: needs ++ others) -> wpK K p (okP (fun r => Forall K (gives r)))).
  { intros ex K others HK Hn. apply Forall_impl with (1 := HK) in Hn. inversion_clear Hn as [|? ? H1 H2]. apply Forall_app in H2 as [H2 _]. auto. }
  split; [|split].
  - intros s t others [Hf Hn]%keygen_fit H1 H2.
    assert (X := ka_scope p (fun K r => okP (fun r => Forall K (gives r)) r) s t Hf (conj H1 H2) (fun K HK => Pre _ K others HK Hn)).
    destruct (run (KeypairCS P) p s) as [[r s']|]; [|exact X]. destruct X as (Hf' & Hm & HQ & t' & Ht & S1 & S2).
    split; [|exists t'; auto]. apply keygen_fit. split; [exact Hf'|]. eapply Post; eauto.
  - intros s t others [Hf Hn] H1 H2.
    assert (X := pa_scope p (fun K r => okP (fun r => Forall K (gives r)) r) s t Hf (conj H1 H2) (fun K HK => Pre (pa_ex s) K others HK Hn)).
    destruct (run (ProvingCS P) p s) as [[r s']|]; [|exact X]. destruct X as (Hf' & Hm & HQ & t' & Ht & S1 & S2).
    split; [|exists t'; auto]. split; [exact Hf'|]. exact (Post (pa_ex s) (pa_ex s') r others Hm Hn HQ).
  - intros s others r s' [Hf Hn]%test_fit Hr.
    destruct (t_scope p (fun K r => okP (fun r => Forall K (gives r)) r) s r s' Hf (fun K HK => Pre _ K others HK Hn) Hr) as (Hf' & Hm & HQ).
    apply test_fit. split; [exact Hf'|]. eapply Post; eauto.
Qed.
Lemma in_scope_scop {A} needs (p : prog P (res A)) gives :
  (forall K : Var -> Prop, K one_var -> Forall K needs -> scop K p (fun r => Forall K (gives r))) -> in_scope needs p gives.
Proof. intros H. apply in_scope_of. intros K K1 HN. apply scop_wpK. auto. Qed.

Section K.
Variable K : Var -> Prop.
Lemma kb_vars b : kb K b <-> Forall K (bit_vars b).
Proof. destruct b; cbn; split; intros H; auto; inversion H; auto. Qed.
Lemma kbs_vars l : Forall (kb K) l <-> Forall K (bits_vars l).
Proof.
  unfold bits_vars. induction l as [|b l IH]; cbn [flat_map]; [split; constructor|]. rewrite Forall_app, <- IH, <- kb_vars.
  split; [intros H; inversion H; auto|intros [H1 H2]; constructor; auto].
Qed.
Lemma one_iff v : Forall K [v] <-> K v.
Proof. split; intros H; [inversion H; auto|auto]. Qed.
Lemma map_iff {A} (f : A -> Var) l : Forall (fun x => K (f x)) l <-> Forall K (map f l). Proof. now rewrite Forall_map. Qed.
End K.
End Aux.
Ltac scope_prep := apply in_scope_scop; intros K K1 HN; repeat match type of HN with Forall _ (_ ++ _) => let H := fresh "HN" in apply Forall_app in HN as [H HN] end.

Section C66.
Context {P : PrimeField}.

(** boolean.rs *)
Theorem C66_bits (v : option bool) (w : option Z) (Q : PrimeField) (x : option Q) (a b : AllocatedBit) (p q r : Boolean) :
  in_scope [] (@ab_alloc P v) (fun c => [ab_var c]) /\
  in_scope [ab_var a] (@ab_alloc_conditionally P v a) (fun c => [ab_var c]) /\
  in_scope [ab_var a; ab_var b] (@ab_xor P a b) (fun c => [ab_var c]) /\
  in_scope [ab_var a; ab_var b] (@ab_and P a b) (fun c => [ab_var c]) /\
  in_scope [ab_var a; ab_var b] (@ab_and_not P a b) (fun c => [ab_var c]) /\
  in_scope [ab_var a; ab_var b] (@ab_nor P a b) (fun c => [ab_var c]) /\
  in_scope [] (@u64_into_boolean_vec_le P w) bits_vars /\
  in_scope [] (@field_into_allocated_bits_le P Q x) (map ab_var) /\
  in_scope [] (@field_into_boolean_vec_le P Q x) bits_vars /\
  in_scope (bit_vars p ++ bit_vars q) (@b_enforce_equal P p q) (fun _ => []) /\
  in_scope (bit_vars p ++ bit_vars q) (@b_xor P p q) bit_vars /\
  in_scope (bit_vars p ++ bit_vars q) (@b_and P p q) bit_vars /\
  in_scope (bit_vars p ++ bit_vars q ++ bit_vars r) (@b_ch P p q r) bit_vars /\
  in_scope (bit_vars p ++ bit_vars q ++ bit_vars r) (@b_maj P p q r) bit_vars.
Proof.
  repeat match goal with |- _ /\ _ => split end; scope_prep.
  - eapply scop_mono; [|apply ab_alloc_scop; assumption]. intros. now apply one_iff.
  - apply one_iff in HN. eapply scop_mono; [|apply cond_scop; assumption]. intros. now apply one_iff.
  - inversion_clear HN as [|? ? Ha Hb]. apply one_iff in Hb. eapply scop_mono; [|apply ab_xor_scop; assumption]. intros. now apply one_iff.
  - inversion_clear HN as [|? ? Ha Hb]. apply one_iff in Hb. eapply scop_mono; [|apply ab_and_scop; assumption]. intros. now apply one_iff.
  - inversion_clear HN as [|? ? Ha Hb]. apply one_iff in Hb. eapply scop_mono; [|apply ab_and_not_scop; assumption]. intros. now apply one_iff.
  - inversion_clear HN as [|? ? Ha Hb]. apply one_iff in Hb. eapply scop_mono; [|apply ab_nor_scop; assumption]. intros. now apply one_iff.
  - eapply scop_mono; [|apply u64_scop; assumption]. intros. now apply kbs_vars.
  - eapply scop_mono; [|apply field_bits_scop; assumption]. intros c Hc. apply (map_iff K ab_var). exact Hc.
  - eapply scop_mono; [|apply field_vec_scop; assumption]. intros. now apply kbs_vars.
  - apply kb_vars in HN, HN0. eapply scop_mono; [|apply b_enforce_equal_scop; assumption]. intros. constructor.
  - apply kb_vars in HN, HN0. eapply scop_mono; [|apply b_xor_scop; assumption]. intros. now apply kb_vars.
  - apply kb_vars in HN, HN0. eapply scop_mono; [|apply b_and_scop; assumption]. intros. now apply kb_vars.
  - apply kb_vars in HN, HN0, HN1. eapply scop_mono; [|apply b_ch_scop; assumption]. intros. now apply kb_vars.
  - apply kb_vars in HN, HN0, HN1. eapply scop_mono; [|apply b_maj_scop; assumption]. intros. now apply kb_vars.
Qed.

(** uint32.rs; [addmany] in a [MultiEq] of its own.  Words have 32 bits. *)
Theorem C66_words (v : option Z) (a b c : UInt32) (ops : list UInt32) :
  in_scope [] (@u_alloc P v) word_vars /\
  (Forall (fun w => length (u_bits w) = 32) [a; b; c] ->
     in_scope (word_vars a ++ word_vars b) (@u_xor P a b) word_vars /\
     in_scope (word_vars a ++ word_vars b ++ word_vars c) (@u_ch P a b c) word_vars /\
     in_scope (word_vars a ++ word_vars b ++ word_vars c) (@u_maj P a b c) word_vars) /\
  (Forall (fun w => length (u_bits w) = 32) ops -> in_scope (flat_map word_vars ops) (multieq_scope (@addmany P ops)) word_vars).
Proof.
  split; [|split].
  - scope_prep. eapply scop_mono; [|apply u_alloc_scop; assumption]. intros w [Hw _]. now apply kbs_vars.
  - intros HL. inversion_clear HL as [|? ? La HL']. inversion_clear HL' as [|? ? Lb HL]. inversion_clear HL as [|? ? Lc _].
    split; [|split]; scope_prep; unfold word_vars in *;
      repeat match goal with H : Forall _ (bits_vars _) |- _ => apply kbs_vars in H end.
    + eapply scop_mono; [|apply u_xor_scop; first [assumption|split; assumption]]. intros w [Hw _]. now apply kbs_vars.
    + eapply scop_mono; [|apply u_ch_scop; first [assumption|split; assumption]]. intros w [Hw _]. now apply kbs_vars.
    + eapply scop_mono; [|apply u_maj_scop; first [assumption|split; assumption]]. intros w [Hw _]. now apply kbs_vars.
  - intros HL. scope_prep. apply multieq_scop; [assumption|]. eapply scop_mono; [|apply addmany_scop; [assumption|]].
    + intros w [Hw _]. now apply kbs_vars.
    + clear K1. induction HL as [|w ops Hw _ IH]; [constructor|]. cbn [flat_map] in HN. apply Forall_app in HN as [H1 H2]. constructor; [|auto].
      split; [now apply kbs_vars|exact Hw].
Qed.

(** num.rs, lookup.rs, multipack.rs *)
Theorem C66_numbers (v : res P) (a b : AllocatedNum P) (p : Boolean) (coords : list (P * P)) (bits : list Boolean) :
  in_scope [] (@an_alloc P v) (fun n => [an_var n]) /\
  in_scope [an_var a] (@an_inputize P a) (fun _ => []) /\
  in_scope [an_var a; an_var b] (@an_mul P a b) (fun n => [an_var n]) /\
  in_scope [an_var a] (@an_square P a) (fun n => [an_var n]) /\
  in_scope [an_var a] (@an_assert_nonzero P a) (fun _ => []) /\
  in_scope ([an_var a; an_var b] ++ bit_vars p) (@an_conditionally_reverse P a b p) (fun r => [an_var (fst r); an_var (snd r)]) /\
  in_scope [an_var a] (@to_bits_le P a) bits_vars /\
  in_scope [an_var a] (@to_bits_le_strict P a) bits_vars /\
  in_scope (bits_vars bits) (@lookup3_xy P bits coords) (fun r => [an_var (fst r); an_var (snd r)]) /\
  in_scope (bits_vars bits) (@lookup3_xy_neg P bits coords) (fun r => num_vars (fst r) ++ num_vars (snd r)) /\
  in_scope (bits_vars bits) (@pack_into_inputs P bits) (fun _ => []).
Proof.
  split; [|repeat match goal with |- _ /\ _ => split end; scope_prep].
  - apply in_scope_of. intros K K1 HN. eapply wpK_mono; [|apply an_alloc_wpK]. intros [r|e]; [|auto]. intros H. now apply one_iff.
  - apply one_iff in HN. eapply scop_mono; [|apply inputize_scop; assumption]. intros. constructor.
  - inversion_clear HN as [|? ? Ha Hb]. apply one_iff in Hb. eapply scop_mono; [|apply mul_scop; assumption]. intros. now apply one_iff.
  - apply one_iff in HN. eapply scop_mono; [|apply square_scop; assumption]. intros. now apply one_iff.
  - apply one_iff in HN. eapply scop_mono; [|apply nonzero_scop; assumption]. intros. constructor.
  - apply kb_vars in HN. inversion_clear HN0 as [|? ? Ha Hb]. apply one_iff in Hb. eapply scop_mono; [|apply reverse_scop; assumption].
    intros r [H1 H2]. repeat constructor; assumption.
  - apply one_iff in HN. eapply scop_mono; [|apply to_bits_scop; assumption]. intros. now apply kbs_vars.
  - apply one_iff in HN. eapply scop_mono; [|apply strict_scop; assumption]. intros. now apply kbs_vars.
  - apply kbs_vars in HN. eapply scop_mono; [|apply lookup3_scop; assumption]. intros r [H1 H2]. repeat constructor; assumption.
  - apply kbs_vars in HN. eapply scop_mono; [|apply lookup3_neg_scop; assumption]. intros r [H1 H2]. apply Forall_app. split; now apply lck_vars.
  - apply kbs_vars in HN. eapply scop_mono; [|apply pack_scop; assumption]. intros. constructor.
Qed.

(** sha256.rs, blake2s.rs *)
Theorem C66_hashes (input : list Boolean) (person : list Z) : Forall (fun b => 0 <= b < 256)%Z person ->
  in_scope (bits_vars input) (@sha256 P input) bits_vars /\
  in_scope (bits_vars input) (@sha256_block_no_padding P input) bits_vars /\
  in_scope (bits_vars input) (@blake2s P input person) bits_vars.
Proof.
  intros HB. split; [|split]; scope_prep; apply kbs_vars in HN.
  - eapply scop_mono; [|apply sha256_scop; assumption]. intros. now apply kbs_vars.
  - eapply scop_mono; [|apply sha256_block_scop; assumption]. intros. now apply kbs_vars.
  - eapply scop_mono; [|apply blake2s_scop; assumption]. intros. now apply kbs_vars.
Qed.

(** Circuits are put together from gadgets, allocations and constraints; what is needed later may also come from the outside. *)
Lemma run_ns M {A} n (p : prog P A) s : run M (ns n p) s = obind (m_push M s n) (fun s => obind (run M p s) (fun x => obind (m_pop M (snd x)) (fun s => Done (fst x, s)))).
Proof.
  unfold ns. cbn [run]. destruct (m_push M s n) as [s1|]; [|reflexivity]. cbn [obind]. rewrite run_bind. destruct (run M p s1) as [[a s2]|]; [|reflexivity].
  cbn [obind fst snd run]. destruct (m_pop M s2); reflexivity.
Qed.
Theorem C66_compose {A B} (needs more : list Var) (p : prog P (res A)) (gives : A -> list Var) (g : A -> prog P (res B)) (gives' : B -> list Var)
    (f : res P) (name : string) (a b c : LC P) :
  (in_scope needs p gives -> incl needs more -> in_scope more p gives) /\
  (in_scope needs p gives -> (forall r, in_scope (needs ++ gives r) (g r) gives') -> in_scope needs (bindq p g) gives') /\
  (in_scope needs p gives -> in_scope needs (ns name p) gives) /\
  in_scope needs (@cs_alloc P name f) (fun r => [fst r]) /\
  in_scope needs (@cs_alloc_input P name f) (fun r => [fst r]) /\
  (incl (vars_of a ++ vars_of b ++ vars_of c) (one_var :: needs) -> in_scope needs (bind (cs_enforce name a b c) (fun _ => Ret (Ok tt))) (fun _ => [])).
Proof.
  assert (Sub : forall (ex : Var -> Prop) (l m : list Var), incl l m -> Forall ex m -> Forall ex l).
  { intros ex l m Hi H. rewrite Forall_forall in *. auto. }
  assert (Atom : forall C (q : prog P (res C)) gq, (forall K : Var -> Prop, K one_var -> Forall K needs -> wpK K q (okP (fun r => Forall K (gq r)))) -> in_scope needs q gq)
    by (intros; now apply in_scope_of).
  split; [|split; [|split; [|split; [|split]]]].
  - intros (H1 & H2 & H3) Hi.
    assert (I1 : forall others, incl (one_var :: needs ++ more ++ others) (one_var :: more ++ others)).
    { intros others v [Hv|Hv]; [now left|]. apply in_app_or in Hv as [Hv|Hv]; right; [apply in_or_app; auto|exact Hv]. }
    assert (I2 : forall others x, incl (one_var :: more ++ others ++ x) (one_var :: needs ++ (more ++ others) ++ x)).
    { intros others x v [Hv|Hv]; [now left|]. right. apply in_or_app. right. now rewrite <- app_assoc. }
    split; [|split].
    + intros s t others [Hf Hn] S1 S2. specialize (H1 s t (more ++ others) (conj Hf (Sub _ _ _ (I1 others) Hn)) S1 S2).
      destruct (run (KeypairCS P) p s) as [[r s']|]; [|exact H1]. destruct H1 as [[Hf' Hn'] Ht]. split; [|exact Ht]. split; [exact Hf'|].
      eapply Sub; [apply I2|exact Hn'].
    + intros s t others [Hf Hn] S1 S2. specialize (H2 s t (more ++ others) (conj Hf (Sub _ _ _ (I1 others) Hn)) S1 S2).
      destruct (run (ProvingCS P) p s) as [[r s']|]; [|exact H2]. destruct H2 as [[Hf' Hn'] Ht]. split; [|exact Ht]. split; [exact Hf'|].
      eapply Sub; [apply I2|exact Hn'].
    + intros s others r s' [Hf Hn] Hr. destruct (H3 s (more ++ others) r s' (conj Hf (Sub _ _ _ (I1 others) Hn)) Hr) as [Hf' Hn']. split; [exact Hf'|].
      eapply Sub; [apply I2|exact Hn'].
  - intros (H1 & H2 & H3) Hg.
    assert (I1 : forall r others, incl (one_var :: (needs ++ gives r) ++ others) (one_var :: needs ++ others ++ given gives (Ok r))).
    { intros r others v. cbn [given In]. rewrite !in_app_iff. tauto. }
    assert (I2 : forall r others x, incl (one_var :: needs ++ others ++ x) (one_var :: (needs ++ gives r) ++ others ++ x)).
    { intros r others x v. cbn [In]. rewrite !in_app_iff. tauto. }
    split; [|split].
    + intros s t others Hs S1 S2. specialize (H1 s t others Hs S1 S2). rewrite !run_bindq.
      destruct (run (KeypairCS P) p s) as [[r s']|]; [|rewrite H1; reflexivity]. destruct H1 as ([Hf Hn] & t' & Ht & T1 & T2). rewrite Ht. cbn [obind].
      destruct r as [r|e]; cbn [fst snd].
      * destruct (Hg r) as (G & _). specialize (G s' t' others (conj Hf (Sub _ _ _ (I1 r others) Hn)) T1 T2).
        destruct (run (KeypairCS P) (g r) s') as [[r2 s2]|]; [|exact G]. destruct G as ([Hf' Hn'] & G). split; [|exact G]. split; [exact Hf'|].
        eapply Sub; [apply (I2 r)|exact Hn'].
      * split; [split; [exact Hf|exact Hn]|]. exists t'. auto.
    + intros s t others Hs S1 S2. specialize (H2 s t others Hs S1 S2). rewrite !run_bindq.
      destruct (run (ProvingCS P) p s) as [[r s']|]; [|rewrite H2; reflexivity]. destruct H2 as ([Hf Hn] & t' & Ht & T1 & T2). rewrite Ht. cbn [obind].
      destruct r as [r|e]; cbn [fst snd].
      * destruct (Hg r) as (_ & G & _). specialize (G s' t' others (conj Hf (Sub _ _ _ (I1 r others) Hn)) T1 T2).
        destruct (run (ProvingCS P) (g r) s') as [[r2 s2]|]; [|exact G]. destruct G as ([Hf' Hn'] & G). split; [|exact G]. split; [exact Hf'|].
        eapply Sub; [apply (I2 r)|exact Hn'].
      * split; [split; [exact Hf|exact Hn]|]. exists t'. auto.
    + intros s others r s' Hs. rewrite run_bindq. destruct (run TestCS p s) as [[r1 s1]|] eqn:E1; [|discriminate]. cbn [obind].
      destruct (H3 _ _ _ _ Hs E1) as [Hf Hn]. destruct r1 as [r1|e]; cbn [fst snd].
      * destruct (Hg r1) as (_ & _ & G). intros E2. destruct (G _ others _ _ (conj Hf (Sub _ _ _ (I1 r1 others) Hn)) E2) as [Hf' Hn']. split; [exact Hf'|].
        eapply Sub; [apply (I2 r1)|exact Hn'].
      * intros E2. apply Done_inj in E2. injection E2 as <- <-. split; [exact Hf|exact Hn].
  - intros (H1 & H2 & H3). split; [|split].
    + intros s t others Hs S1 S2. specialize (H1 s t others Hs S1 S2). rewrite !run_ns. cbn [m_push m_pop KeypairCS ShapeCS obind].
      destruct (run (KeypairCS P) p s) as [[r s']|]; [|rewrite H1; reflexivity]. destruct H1 as (Hr & t' & Ht & T1 & T2). rewrite Ht. cbn [obind fst snd].
      split; [exact Hr|]. exists t'. auto.
    + intros s t others Hs S1 S2. specialize (H2 s t others Hs S1 S2). rewrite !run_ns. cbn [m_push m_pop ProvingCS HonestCS obind].
      destruct (run (ProvingCS P) p s) as [[r s']|]; [|rewrite H2; reflexivity]. destruct H2 as (Hr & t' & Ht & T1 & T2). rewrite Ht. cbn [obind fst snd].
      split; [exact Hr|]. exists t'. auto.
    + intros s others r s' Hs. rewrite run_ns. destruct (m_push TestCS s name) as [s1|] eqn:Ep; [|discriminate]. cbn [obind].
      destruct (run TestCS p s1) as [[r1 s2]|] eqn:E1; [|discriminate]. cbn [obind fst snd].
      destruct (m_pop TestCS s2) as [s3|] eqn:Eq; [|discriminate]. cbn [obind]. intros E. apply Done_inj in E. injection E as <- <-.
      apply test_fit in Hs as [Hf Hn]. destruct (t_hpush _ _ _ Hf Ep) as [Hf1 Hm1].
      assert (Hs1 := H3 s1 others r1 s2 (proj2 (test_fit _ _) (conj Hf1 (Forall_impl _ Hm1 Hn))) E1). apply test_fit in Hs1 as [Hf2 Hn2].
      destruct (t_hpop _ _ Hf2 Eq) as [Hf3 Hm3]. apply test_fit. split; [exact Hf3|]. exact (Forall_impl _ Hm3 Hn2).
  - apply Atom. intros K K1 _. split; [intros v x Hv|intros e x; exact I]. cbn. auto.
  - apply Atom. intros K K1 _. split; [intros v x Hv|intros e x; exact I]. cbn. auto.
  - intros Hi. apply Atom. intros K K1 Hn. assert (X : Forall K (vars_of a ++ vars_of b ++ vars_of c)) by (eapply Sub; [exact Hi|constructor; assumption]).
    rewrite !Forall_app in X. destruct X as (Xa & Xb & Xc). cbn [wpK bind cs_enforce]. split; [|split; [|split]]; try (apply lck_vars; assumption). constructor.
Qed.

(** What this means for whole circuits: parameter generation and proving get through synthesis exactly when the circuit by itself does; the
    constraints only mention variables that exist. *)
Definition ka_one : KeypairAssembly P := mkKA 1 0 0 (mkCols [[]] []) (mkCols [[]] []) (mkCols [[]] []).
Definition pa_one : ProvingAssignment P := mkPA [] [false] [] [] [] [] [fone] [].
Definition shape_one : KState P := {| k_inputs := 1; k_aux := 0; k_cons := [] |}.
Definition honest_one : PState P := {| p_inputs := [fone]; p_aux := []; p_cons := [] |}.
Lemma start_k (circuit : prog P (res unit)) : run (KeypairCS P) (bindq (cs_alloc_input "" (Ok fone)) (fun _ => circuit)) ka_new = run (KeypairCS P) circuit ka_one.
Proof. reflexivity. Qed.
Lemma start_p (circuit : prog P (res unit)) : run (ProvingCS P) (bindq (cs_alloc_input "" (Ok fone)) (fun _ => circuit)) pa_new = run (ProvingCS P) circuit pa_one.
Proof. reflexivity. Qed.
Lemma start_s (circuit : prog P (res unit)) : run (ShapeCS P) (bindq (cs_alloc_input "" (Ok fone)) (fun _ => circuit)) {| k_inputs := 0; k_aux := 0; k_cons := [] |} = run (ShapeCS P) circuit shape_one.
Proof. reflexivity. Qed.
Lemma start_h (circuit : prog P (res unit)) : run (HonestCS P) (bindq (cs_alloc_input "" (Ok fone)) (fun _ => circuit)) {| p_inputs := []; p_aux := []; p_cons := [] |} = run (HonestCS P) circuit honest_one.
Proof. reflexivity. Qed.
Theorem C66_circuits (circuit : prog P (res unit)) (gives : unit -> list Var) : in_scope [] circuit gives ->
  match synthesize_keypair circuit with
  | Panicked => synthesize (ShapeCS P) {| k_inputs := 0; k_aux := 0; k_cons := [] |} k_inputs circuit = Panicked
  | Done (Err e) => synthesize (ShapeCS P) {| k_inputs := 0; k_aux := 0; k_cons := [] |} k_inputs circuit = Done (Err e)
  | Done (Ok s) => exists inst, describes circuit inst /\ k_inputs inst = num_inputs s /\ k_aux inst = num_aux s /\
      forall a b c, In (a, b, c) (k_cons inst) -> Forall (present (k_inputs inst) (k_aux inst)) (vars_of a ++ vars_of b ++ vars_of c)
  end /\
  match synthesize_prover circuit with
  | Panicked => synthesize (HonestCS P) {| p_inputs := []; p_aux := []; p_cons := [] |} (fun s => List.length (p_inputs s)) circuit = Panicked
  | Done (Err e) => synthesize (HonestCS P) {| p_inputs := []; p_aux := []; p_cons := [] |} (fun s => List.length (p_inputs s)) circuit = Done (Err e)
  | Done (Ok s) => exists wit, assigns circuit wit /\ p_inputs wit = input_assignment s /\ p_aux wit = aux_assignment s
  end.
Proof.
  intros (H1 & H2 & _). split.
  - unfold describes, synthesize_keypair, synthesize. rewrite start_k, !start_s.
    specialize (H1 ka_one shape_one []). destruct (run (KeypairCS P) circuit ka_one) as [[r s']|] eqn:Er.
    + destruct H1 as (Hr & t' & Ht & T1 & T2); [|reflexivity..|].
      { split; [|repeat constructor]. intros m [<-|[<-|[<-|[]]]]; split; reflexivity. }
      rewrite Ht. cbn [obind]. destruct r as [[]|e]; [|reflexivity]. apply keygen_fit in Hr as [Hf Hn].
      destruct (ka_inputs (seq 0 (num_inputs s')) s' t' Hf (conj T1 T2)) as (s2 & t2 & E1 & E2 & N1 & N2 & [S1 S2]).
      { apply Forall_forall. intros i Hi. apply in_seq in Hi. lia. }
      rewrite T1, E1, E2. cbn [obind]. exists t2. split; [reflexivity|]. split; [exact S1|]. split; [exact S2|].
      assert (Es : synthesize_keypair circuit = Done (Ok s2)).
      { unfold synthesize_keypair, synthesize. rewrite start_k, Er. cbn [obind]. rewrite E1. reflexivity. }
      destruct (synthesize_keypair_spec _ _ Es) as (ks & Ek & KI).
      assert (ks = t2) as ->.
      { unfold synthesize_shape, synthesize, shape_new in Ek. rewrite start_s, Ht in Ek. cbn [obind] in Ek. rewrite T1, E2 in Ek. cbn [obind] in Ek. congruence. }
      intros a b c Hin. pose proof (ki_ok _ _ KI) as Hok. rewrite Forall_forall in Hok. destruct (Hok _ Hin) as (A & B & C).
      rewrite !Forall_app. split; [|split]; apply lck_vars; assumption.
    + rewrite H1; [reflexivity| |reflexivity..]. split; [|repeat constructor]. intros m [<-|[<-|[<-|[]]]]; split; reflexivity.
  - unfold assigns, synthesize_prover, synthesize. rewrite start_p, !start_h.
    specialize (H2 pa_one honest_one []). destruct (run (ProvingCS P) circuit pa_one) as [[r s']|] eqn:Er.
    + destruct H2 as ([Hf Hn] & t' & Ht & T1 & T2); [|reflexivity..|].
      { split; [|repeat constructor]. repeat split; reflexivity. }
      rewrite Ht. cbn [obind]. destruct r as [[]|e]; [|reflexivity].
      destruct (pa_inputs (seq 0 (length (input_assignment s'))) s' t' Hf (conj T1 T2)) as (s2 & t2 & E1 & E2 & N1 & N2 & [S1 S2]).
      { apply Forall_forall. intros i Hi. apply in_seq in Hi. lia. }
      rewrite T1, E1, E2. cbn [obind]. exists t2. split; [reflexivity|]. split; [exact S1|exact S2].
    + rewrite H2; [reflexivity| |reflexivity..]. split; [|repeat constructor]. repeat split; reflexivity.
Qed.

(** ... and for the tests: a test constraint system in this state answers whether it is satisfied. *)
Theorem C66_tests (s : TState P) (vs : list Var) : test_ready s vs -> exists b, is_satisfied s = Done b.
Proof. intros [H _]%test_fit. now apply satisfied_defined. Qed.
End C66.
Print Assumptions C66_bits.
Print Assumptions C66_words.
Print Assumptions C66_numbers.
Print Assumptions C66_hashes.
Print Assumptions C66_compose.
Print Assumptions C66_circuits.
Print Assumptions C66_tests.

(** Examples over Goldilocks.  The majority of two allocated bits and their AND is put together in scope, so all theorems apply to it ... *)
Local Open Scope prog_scope.
Local Open Scope string_scope.
Definition sc_maj : prog Goldilocks (res unit) :=
  let* a := ns "a" (ab_alloc (Some true)) in let* b := ns "b" (ab_alloc (Some false)) in let* c := ns "c" (b_and (BIs a) (BNot b)) in
  let* m := ns "m" (b_maj (BIs a) (BNot b) c) in Ret (Ok tt).
Lemma sc_step {A B} needs (p : prog Goldilocks (res A)) gives (g : A -> prog Goldilocks (res B)) gives' n more :
  in_scope more p gives -> incl more needs -> (forall r, in_scope (needs ++ gives r) (g r) gives') -> in_scope needs (bindq (ns n p) g) gives'.
Proof.
  intros H1 H2 H3. destruct (C66_compose more needs p gives g gives' (Ok fone) n [] [] []) as (W & _).
  destruct (C66_compose needs needs p gives g gives' (Ok fone) n [] [] []) as (_ & _ & N & _).
  destruct (C66_compose needs needs (ns n p) gives g gives' (Ok fone) n [] [] []) as (_ & B' & _). auto.
Qed.
Example C66_ex_compose : in_scope [] sc_maj (fun _ => []).
Proof.
  destruct (C66_bits (P := Goldilocks) (Some true) None Goldilocks None {| ab_var := Aux 0; ab_value := None |} {| ab_var := Aux 0; ab_value := None |} (BConst true) (BConst true) (BConst true)) as [Ht _].
  destruct (C66_bits (P := Goldilocks) (Some false) None Goldilocks None {| ab_var := Aux 0; ab_value := None |} {| ab_var := Aux 0; ab_value := None |} (BConst true) (BConst true) (BConst true)) as [Hf _].
  eapply sc_step; [exact Ht|apply incl_refl|]. intros a. eapply sc_step; [exact Hf|intros v []|]. intros b.
  destruct (C66_bits (P := Goldilocks) None None Goldilocks None a b (BIs a) (BNot b) (BConst true)) as (_ & _ & _ & _ & _ & _ & _ & _ & _ & _ & _ & Ha & _).
  eapply sc_step; [exact Ha|intros v [<-|[<-|[]]]; cbn; auto|]. intros c.
  destruct (C66_bits (P := Goldilocks) None None Goldilocks None a b (BIs a) (BNot b) c) as (_ & _ & _ & _ & _ & _ & _ & _ & _ & _ & _ & _ & _ & Hm).
  eapply sc_step; [exact Hm| |].
  - intros v. cbn [bit_vars app In]. tauto.
  - intros m. apply in_scope_scop. intros K K1 HN. apply scop_ret. constructor.
Qed.
Example C66_ex_circuit :
  (match synthesize_keypair sc_maj with Done (Ok s) => (num_inputs s, num_aux s, Assembly.num_constraints s) = (1, 5, 6) | _ => False end) /\
  (match synthesize_prover sc_maj with Done (Ok s) => map toZ (aux_assignment s) = [1; 0; 1; 1; 1]%Z | _ => False end) /\
  (match run TestCS sc_maj test_new with Done (_, s) => is_satisfied s = Done true | _ => False end).
Proof. vm_compute. repeat split. Qed.
(** ... whereas a circuit that mentions a variable it has not allocated is not in scope: key generation and proving panic on their own. *)
Definition sc_bad : prog Goldilocks (res unit) :=
  let* a := ns "a" (ab_alloc (Some true)) in let* b := ab_and a {| ab_var := Aux 2; ab_value := Some true |} in Ret (Ok tt).
Example C66_ex_bad : ~ in_scope [] sc_bad (fun _ => []).
Proof.
  intros H. destruct (C66_circuits sc_bad _ H) as [X _]. clear H.
  assert (E : match synthesize_keypair sc_bad with Panicked => true | _ => false end = true) by (vm_compute; reflexivity).
  destruct (synthesize_keypair sc_bad) as [?|]; [discriminate E|].
  assert (E' : match synthesize (ShapeCS Goldilocks) {| k_inputs := 0; k_aux := 0; k_cons := [] |} k_inputs sc_bad with Panicked => true | _ => false end = false) by (vm_compute; reflexivity).
  rewrite X in E'. discriminate E'.
Qed.
(** The prover hashes "abc" (the circuit of C22_ex) without panicking. *)
Definition with_values {P : PrimeField} (t : PState P) : ProvingAssignment P :=
  mkPA (repeat false (length (p_aux t))) (repeat false (length (p_inputs t))) (repeat false (length (p_aux t))) [] [] [] (p_inputs t) (p_aux t).
Lemma with_values_run {P : PrimeField} {A} needs (p : prog P (res A)) gives t r t' : in_scope needs p gives ->
  forallb (fun v => match v with Input i => Nat.ltb i (length (p_inputs t)) | Aux i => Nat.ltb i (length (p_aux t)) end) (one_var :: needs) = true ->
  run (HonestCS P) p t = Done (Ok r, t') -> exists s', run (ProvingCS P) p (with_values t) = Done (Ok r, s') /\ prover_ready s' (gives r).
Proof.
  intros (_ & H & _) E HR. specialize (H (with_values t) t []). rewrite HR in H.
  assert (Hr : prover_ready (with_values t) (one_var :: needs ++ [])).
  { split.
    - cbn. rewrite !repeat_length. auto.
    - rewrite app_nil_r, forallb_forall in *. apply Forall_forall. intros v Hv. specialize (E v Hv). destruct v; apply Nat.ltb_lt in E; exact E. }
  specialize (H Hr eq_refl eq_refl). destruct (run (ProvingCS P) p (with_values t)) as [[r1 s1]|]; [|discriminate H].
  destruct H as ([Hf Hn] & t1 & Ht & _). apply Done_inj in Ht. injection Ht as <- <-. exists s1. split; [reflexivity|]. split; [exact Hf|].
  inversion_clear Hn as [|? ? _ Hn']. rewrite Forall_app in Hn'. apply Hn'.
Qed.
Example C66_ex_sha : exists bits s', run (ProvingCS Goldilocks) (@sha256 Goldilocks ex_sha_input) (with_values ex_sha_state) = Done (Ok bits, s') /\
  prover_ready s' (bits_vars bits).
Proof.
  destruct C22_ex as [(r & s' & cs & HR & _) _]. exists r.
  destruct (C66_hashes (P := Goldilocks) ex_sha_input [] (Forall_nil _)) as [H _].
  apply (with_values_run _ _ _ _ _ _ H) with (2 := HR). vm_compute. reflexivity.
Qed.
