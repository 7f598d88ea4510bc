(** Property C84: the unit test [serialization] of groth16/src/lib.rs, exactly when it passes; the texts of the errors of src/lib.rs. *)
From Coq Require Import String.
From Coq Require Import ZArith List Bool Lia Field.
From Coq Require Import Strings.Byte.
From Verif Require Import Prelude PrimeField Fields FModule Circuit Loops Multicore FFTProof DomainProof MultiexpProof PropMultiexp Groth16 Encoding Session PropEncoding PropGroth16 SerializeTest SerializeTestProof.
From Verif Require PropSession.
Import ListNotations.
Local Open Scope nat_scope.

(** ** Specification *)
Section Spec.
Context {P : PrimeField} {E : Engine P}.

(** The generators and the toxic waste with which the test's key is generated, has the expected length and can be read back.
    The last inequality says that the element of the public input is not the identity. *)
Definition sound_waste (g1 : E_G1 E) (g2 : E_G2 E) (alpha beta gamma delta tau : P) : Prop :=
  g1 <> gzero /\ g2 <> gzero /\ alpha <> fzero /\ beta <> fzero /\ gamma <> fzero /\ delta <> fzero /\
  tau <> fzero /\ fpow tau 4 <> fone /\ (beta * (tau - 1))%F <> (tau + 1)%F.

Definition no_identity (proof : Proof_ E) : Prop := proof_a proof <> gzero /\ proof_b proof <> gzero /\ proof_c proof <> gzero.

(** Sizes of the encodings of the curve of the test (BLS12-381). *)
Definition sizes (B1 : GroupBytes (E_G1 E)) (B2 : GroupBytes (E_G2 E)) : Prop :=
  repr_len B1 = 48 /\ repr_len B2 = 96 /\ uncompressed_len B1 = 96 /\ uncompressed_len B2 = 192.

Definition nondegenerate : Prop := forall (x : E_G1 E) (y : E_G2 E), pair x y = gzero -> x = gzero \/ y = gzero.

(** What round [i] draws is good: [a], [b] and then [r], [s] of the prover. *)
Definition sound_round (R : Rng E) (w' : Worker) (ln_ceil : Z -> nat) (params : Parameters E) (rng : rng_state R) (i : nat) : Prop :=
  let a := draws R rng (4 * i) in let b := draws R rng (4 * i + 1) in
  a <> fzero /\ b <> fone /\
  exists proof, create_proof w' ln_ceil (silly (Some a) (Some b)) params (draws R rng (4 * i + 2)) (draws R rng (4 * i + 3)) = Done (Ok proof) /\ no_identity proof.
End Spec.

(** * C84 *)
Section C84.
Context {P : PrimeField} {E : Engine P} (R : Rng E) (B1 : GroupBytes (E_G1 E)) (B2 : GroupBytes (E_G2 E)).
Context (w w' : Worker) (ln_ceil : Z -> nat).
Add Field PFc84 : (F_field P).

Lemma fine_iff (g1 : E_G1 E) (g2 : E_G2 E) alpha beta gamma delta tau : fine g1 g2 alpha beta gamma delta tau <-> sound_waste g1 g2 alpha beta gamma delta tau.
Proof. unfold fine, sound_waste. change 4 with (2 ^ 2). rewrite pow4. tauto. Qed.

(** The half of the test about the key returns, with the generated key, exactly for sound waste; else it panics. *)
Theorem C84_key (g1 : E_G1 E) (g2 : E_G2 E) alpha beta gamma delta tau : 2 < two_adicity P -> wf_worker w -> sizes B1 B2 ->
  let generated := generate_parameters w (silly None None) g1 g2 alpha beta gamma delta tau in
  (sound_waste g1 g2 alpha beta gamma delta tau -> exists params, generated = Done (Ok params) /\ key_part B1 B2 generated = Done params) /\
  (~ sound_waste g1 g2 alpha beta gamma delta tau -> key_part B1 B2 generated = Panicked).
Proof.
  intros H2 Hw (_ & _ & Hu1 & Hu2). cbv zeta. rewrite <- fine_iff. exact (key_iff B1 B2 w g1 g2 alpha beta gamma delta tau H2 Hw Hu1 Hu2).
Qed.

(** With a key of sound waste a proof is always created; the round returns unless the proof has an identity element or [a = a * b]. *)
Theorem C84_round (g1 : E_G1 E) (g2 : E_G2 E) alpha beta gamma delta tau params a b r s :
  2 < two_adicity P -> wf_worker w -> wf_worker w' -> sane_ln_ceil ln_ceil -> sizes B1 B2 -> nondegenerate (E := E) ->
  sound_waste g1 g2 alpha beta gamma delta tau ->
  generate_parameters w (silly None None) g1 g2 alpha beta gamma delta tau = Done (Ok params) ->
  let created := create_proof w' ln_ceil (silly (Some a) (Some b)) params r s in
  exists proof, created = Done (Ok proof) /\
  let result := proof_part B1 B2 (prepare_verifying_key (p_vk params)) a (a * b)%F created in
  (no_identity proof /\ a <> fzero /\ b <> fone -> result = Done tt) /\
  (~ (no_identity proof /\ a <> fzero /\ b <> fone) -> result = Panicked).
Proof.
  intros H2 Hw Hw' Hln (Hr1 & Hr2 & _) Hnd HS Hg. cbv zeta. apply fine_iff in HS.
  destruct (round_iff B1 B2 w w' ln_ceil g1 g2 alpha beta gamma delta tau H2 Hw Hw' Hln Hr1 Hr2 Hnd params a b r s HS Hg) as (proof & Hp & A & B). cbv zeta in A, B.
  exists proof. split; [exact Hp|]. pose proof (differs a b) as D. unfold PropSession.has_identity in A, B. unfold no_identity. split.
  - intros (KI & KA). apply A. rewrite D. split; [|exact KA]. clear - KI. tauto.
  - intros K. apply B. destruct (geqb_spec (proof_a proof) gzero) as [Z|KA]; [left; left; exact Z|]. destruct (geqb_spec (proof_b proof) gzero) as [Z|KB]; [left; right; left; exact Z|].
    destruct (geqb_spec (proof_c proof) gzero) as [Z|KC]; [left; right; right; exact Z|].
    right. destruct (feq_dec a (a * b)%F) as [Z|N]; [exact Z|]. apply D in N. exfalso. exact (K (conj (conj KA (conj KB KC)) N)).
Qed.

(** The whole test with [n] rounds (100 in the code). *)
Theorem C84_test n rng :
  2 < two_adicity P -> wf_worker w -> wf_worker w' -> sane_ln_ceil ln_ceil -> sizes B1 B2 -> nondegenerate (E := E) ->
  let g1 := fst (random_g1 R rng) in let rng1 := snd (random_g1 R rng) in
  let g2 := fst (random_g2 R rng1) in let rng2 := snd (random_g2 R rng1) in
  let d := draws R rng2 in
  let result := serialization R B1 B2 w w' ln_ceil n rng in
  (result = Done tt \/ result = Panicked) /\
  (result = Done tt <->
   sound_waste g1 g2 (d 0) (d 1) (d 2) (d 3) (d 4) /\
   exists params, generate_parameters w (silly None None) g1 g2 (d 0) (d 1) (d 2) (d 3) (d 4) = Done (Ok params) /\
     forall i, i < n -> sound_round R w' ln_ceil params (state_after R rng2 5) i).
Proof.
  intros H2 Hw Hw' Hln (Hr1 & Hr2 & Hu1 & Hu2) Hnd. cbv zeta. rewrite <- fine_iff.
  exact (test_iff R B1 B2 w w' ln_ceil H2 Hw Hw' Hln Hr1 Hr2 Hnd Hu1 Hu2 n rng).
Qed.

(** If nothing else drawn is zero, at most six values of [tau] make the key part fail. *)
Theorem C84_few_bad (g1 : E_G1 E) (g2 : E_G2 E) alpha beta gamma delta (bad : list P) : 2 < two_adicity P ->
  g1 <> gzero -> g2 <> gzero -> alpha <> fzero -> beta <> fzero -> gamma <> fzero -> delta <> fzero ->
  NoDup bad -> (forall tau, In tau bad -> ~ sound_waste g1 g2 alpha beta gamma delta tau) -> List.length bad <= 6.
Proof.
  intros H2 N1 N2 Na Nb Ng Nd Hn Hb. pose proof (w4_sq H2) as W.
  change 6 with (List.length [fzero; fone; (- (1))%F; w4; (- w4)%F; ((beta + 1) * finv (beta - 1))%F]). apply NoDup_incl_length; [exact Hn|]. intros t Ht.
  pose proof (Hb t Ht) as K. unfold sound_waste in K. change 4 with (2 ^ 2) in K. rewrite pow4 in K.
  assert (M : forall x y : P, (x - y)%F = fzero -> x = y) by (intros x y Z; transitivity (x - y + y)%F; [ring|]; rewrite Z; ring).
  destruct (feq_dec t fzero) as [Z|Nt]; [left; auto|]. destruct (feq_dec (t * t * (t * t))%F fone) as [Z|Nt4].
  - assert (Z' : ((t - 1) * ((t - - (1)) * ((t - w4) * (t - - w4))))%F = fzero).
    { set (v := w4) in *. transitivity (t * t * (t * t) - 1)%F; [ring [W]|]. rewrite Z. ring. }
    apply fmul_0 in Z' as [Y|Y]; [right; left; symmetry; apply M, Y|]. apply fmul_0 in Y as [Y|Y]; [do 2 right; left; symmetry; apply M, Y|].
    apply fmul_0 in Y as [Y|Y]; [do 3 right; left; symmetry; apply M, Y|]. do 4 right; left; symmetry; apply M, Y.
  - destruct (feq_dec (beta * (t - 1))%F (t + 1)%F) as [Z|Nq]; [|exfalso; tauto]. do 5 right; left.
    assert (Y : ((beta - 1) * t)%F = (beta + 1)%F) by (transitivity (beta * (t - 1) - (t + 1) + beta + 1)%F; [ring|]; rewrite Z; ring).
    assert (Nb1 : (beta - 1)%F <> fzero).
    { intros Z1. rewrite Z1 in Y. assert (X : beta = fone) by (apply M, Z1). rewrite X in Y. apply (@f_2_neq_0 P). rewrite <- Y. ring. }
    rewrite <- Y. transitivity (finv (beta - 1) * (beta - 1) * t)%F; [ring|]. rewrite finv_l by exact Nb1. ring.
Qed.
End C84.
Print Assumptions C84_key.
Print Assumptions C84_round.
Print Assumptions C84_test.
Print Assumptions C84_few_bad.

(** [==] of proofs, verifying keys and parameters is equality: no field is forgotten. *)
Section Equal.
Context {P : PrimeField} {E : Engine P}.
Lemma geqb_iff {M : FMod P} (x y : M) : geqb x y = true <-> x = y.
Proof. destruct (geqb_spec x y); split; congruence. Qed.
Lemma vec_eq_iff {M : FMod P} (x : list M) : forall y, vec_eq x y = true <-> x = y.
Proof.
  induction x as [|a x IH]; intros [|b y]; cbn [vec_eq]; try (split; [discriminate|congruence]); [tauto|].
  rewrite andb_true_iff, geqb_iff, IH. split; [intros [-> ->]; reflexivity|]. intros H. injection H as -> ->. auto.
Qed.
Theorem C84_equality :
  (forall p q : Proof_ E, proof_eq p q = true <-> p = q) /\ (forall p q : VerifyingKey E, vk_eq p q = true <-> p = q) /\
  (forall p q : Parameters E, params_eq p q = true <-> p = q).
Proof.
  assert (V : forall p q : VerifyingKey E, vk_eq p q = true <-> p = q).
  { intros [x1 x2 x3 x4 x5 x6 x7] [y1 y2 y3 y4 y5 y6 y7]. unfold vk_eq. cbn [alpha_g1 beta_g1 beta_g2 gamma_g2 delta_g1 delta_g2 ic]. rewrite !andb_true_iff, !geqb_iff, vec_eq_iff.
    split; [intros ((((((-> & ->) & ->) & ->) & ->) & ->) & ->); reflexivity|]. intros H. injection H as -> -> -> -> -> -> ->. repeat split. }
  split; [|split; [exact V|]].
  - intros [x1 x2 x3] [y1 y2 y3]. unfold proof_eq. cbn [proof_a proof_b proof_c]. rewrite !andb_true_iff, !geqb_iff.
    split; [intros ((-> & ->) & ->); reflexivity|]. intros H. injection H as -> -> ->. repeat split.
  - intros [x1 x2 x3 x4 x5 x6] [y1 y2 y3 y4 y5 y6]. unfold params_eq. cbn [p_vk p_h p_l p_a p_b_g1 p_b_g2]. rewrite !andb_true_iff, !vec_eq_iff, V.
    split; [intros (((((-> & ->) & ->) & ->) & ->) & ->); reflexivity|]. intros H. injection H as -> -> -> -> -> ->. repeat split.
Qed.
End Equal.
Print Assumptions C84_equality.
Example C84_ex_equality : let p x := mkProof (E := DummyEngine Fr64513) (ofZ 1) (ofZ x) (ofZ 3) in
  proof_eq (p 2%Z) (p 2%Z) = true /\ proof_eq (p 2%Z) (p 64515%Z) = true /\ proof_eq (p 2%Z) (p 3%Z) = false.
Proof. vm_compute. auto. Qed.

(** ** Texts *)
Section Texts.
Local Open Scope string_scope.

Lemma prefix_iff p : forall s, prefix p s = true <-> exists q, s = p ++ q.
Proof.
  induction p as [|a p IH]; intros s; [split; [intros _; exists s; reflexivity|intros _; now destruct s]|]. destruct s as [|b s]; cbn [prefix append].
  - split; [discriminate|]. intros [q X]. discriminate.
  - destruct (Ascii.ascii_dec a b) as [X|N].
    + rewrite IH. subst b. split; intros [q Y]; exists q; congruence.
    + split; [discriminate|]. intros [q Y]. congruence.
Qed.
Lemma contains_iff part s : part <> "" -> contains part s = true <-> exists p q, s = p ++ part ++ q.
Proof.
  intros Hp. unfold contains. induction s as [|b s IH].
  - cbn [index]. destruct part as [|a part]; [contradiction|]. split; [discriminate|]. intros (p & q & X). destruct p; discriminate.
  - cbn [index]. destruct (prefix part (String b s)) eqn:Ep.
    + split; [intros _|reflexivity]. apply prefix_iff in Ep as [q X]. exists "", q. exact X.
    + assert (X : (exists p q, String b s = p ++ part ++ q) <-> exists p q, s = p ++ part ++ q).
      { split; intros (p & q & Y).
        - destruct p as [|c p]; [|exists p, q; cbn in Y; congruence]. exfalso. enough (prefix part (String b s) = true) by congruence. apply prefix_iff. exists q. exact Y.
        - exists (String b p), q. cbn. now rewrite Y. }
      rewrite X, <- IH. destruct (index 0 part s); tauto.
Qed.

(** No error has an empty text; distinct errors have distinct texts (two I/O errors: when theirs are); the text of an I/O error ends with that of the error inside. *)
Theorem C84_texts (shown : io_kind -> string) :
  (forall e, synthesis_text shown e <> "") /\ (forall e, verification_text e <> "") /\
  (forall e e', synthesis_text shown e = synthesis_text shown e' -> e = e' \/ exists k k', e = IoError k /\ e' = IoError k' /\ shown k = shown k') /\
  (forall e e', verification_text e = verification_text e' -> e = e') /\
  (forall k, exists p, synthesis_text shown (IoError k) = p ++ shown k).
Proof.
  split; [|split; [|split; [|split]]].
  - intros []; discriminate.
  - intros []; discriminate.
  - intros [] []; cbn [synthesis_text]; intros H; try (left; reflexivity); try discriminate. right. do 2 eexists. split; [reflexivity|]. split; [reflexivity|].
    cbn [append] in H. congruence.
  - intros [] []; cbn; intros H; try reflexivity; discriminate.
  - intros k. exists "I/O error: ". reflexivity.
Qed.

(** The two tests of texts pass, the second whenever the text of the I/O error contains "other", which is what it was made with. *)
Theorem C84_text_tests (shown : io_kind -> string) p q : shown OtherIo = p ++ "other" ++ q ->
  verification_error_string = Done tt /\ synthesis_error_string shown = Done tt.
Proof.
  intros H. split; [reflexivity|]. unfold synthesis_error_string. cbn [synthesis_text is_empty negb must obind]. unfold must.
  replace (contains "other" ("I/O error: " ++ shown OtherIo)) with true; [reflexivity|]. symmetry. apply contains_iff; [discriminate|].
  exists ("I/O error: " ++ p), q. rewrite H. reflexivity.
Qed.
End Texts.
Print Assumptions C84_texts.
Print Assumptions C84_text_tests.

Example C84_ex_texts : synthesis_error_string (fun _ => "other"%string) = Done tt /\ synthesis_error_string (fun _ => "disk full"%string) = Panicked /\
  synthesis_text (fun _ => "other"%string) (IoError OtherIo) = "I/O error: other"%string.
Proof. vm_compute. auto. Qed.

(** An engine of the test's sizes: the encodings of the small field, padded. *)
Definition padded (m n : nat) : GroupBytes (ScalarMod Fr64513).
Proof.
  refine (@Build_GroupBytes Fr64513 (ScalarMod Fr64513)
    (m + 4) (fun x => repeat x00 m ++ u32_be (toZ (x : Fr64513))) (fun bs => decode_64513 (skipn m bs)) _ _
    (n + 4) (fun x => repeat x00 n ++ u32_be (toZ (x : Fr64513))) (fun bs => decode_64513 (skipn n bs)) (fun bs => decode_64513 (skipn n bs)) _ _ _);
  intros x; try (rewrite app_length, repeat_length; reflexivity).
  all: rewrite skipn_app, repeat_length, Nat.sub_diag, skipn_all2 by (rewrite repeat_length; lia); apply decode_encode.
Defined.
Definition c84_1 := padded 44 92.
Definition c84_2 := padded 92 188.

Example C84_ex_hypotheses : 2 < two_adicity Fr64513 /\ wf_worker (Multicore 2) /\ wf_worker Single /\ sane_ln_ceil (fun _ => 3) /\ sizes (E := DummyEngine Fr64513) c84_1 c84_2 /\ nondegenerate (E := DummyEngine Fr64513).
Proof.
  split; [vm_compute; lia|]. split; [split; [lia|reflexivity]|]. split; [exact I|]. split; [intros n _; lia|]. split; [repeat split; vm_compute; reflexivity|]. intros x y H. apply (@fmul_0 Fr64513). exact H.
Qed.
(** Two rounds pass; all draws zero, and [a = 0] after a good key, fail. *)
Definition c84_late : Rng (DummyEngine Fr64513) :=
  @Build_Rng Fr64513 (DummyEngine Fr64513) nat (fun k => (if (k =? 7)%nat then fzero else ofZ (17 + 11 * Z.of_nat k), S k)) (fun k => (ofZ 2, S k)) (fun k => (ofZ 3, S k)).
Example C84_ex :
  serialization PropSession.c55_rng c84_1 c84_2 (Multicore 2) Single (fun _ => 3) 2 0 = Done tt /\
  serialization PropSession.c55_zero c84_1 c84_2 (Multicore 2) Single (fun _ => 3) 2 0 = Panicked /\
  serialization c84_late c84_1 c84_2 (Multicore 2) Single (fun _ => 3) 1 0 = Panicked /\
  serialization c84_late c84_1 c84_2 (Multicore 2) Single (fun _ => 3) 0 0 = Done tt.
Proof. vm_compute. repeat split. Qed.
