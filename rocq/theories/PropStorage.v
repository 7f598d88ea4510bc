(** Property C63: generated keys and proofs written to files and read back. *)
From Coq Require Import String.
From Coq Require Import ZArith List Bool Lia Field.
From Coq Require Import Strings.Byte.
From Verif Require Import Prelude PrimeField Fields FModule GRing Circuit Multicore Domain FFTProof DomainProof Quotient Multiexp MultiexpProof PropMultiexp Assembly AssemblyProof PropAssembly Groth16 GeneratorProof ProverProof PropGenerator PropGroth16 Roots PropRandom Encoding EncodingProof PropEncoding.
From Verif Require PropDomain.
Import ListNotations.
Local Open Scope nat_scope.

(** ** Specification *)
Section Spec.
Context {P : PrimeField} {E : Engine P} (B1 : GroupBytes (E_G1 E)) (B2 : GroupBytes (E_G2 E)).

(** What [write] leaves in an empty file. *)
Definition key_file (params : Parameters E) : list byte := written (fst (params_write B1 B2 params (mkWriter [] None))).
Definition vk_file (vk : VerifyingKey E) : list byte := written (fst (vk_write B1 B2 vk (mkWriter [] None))).
Definition proof_file (proof : Proof_ E) : list byte := written (fst (proof_write B1 B2 proof (mkWriter [] None))).

(** All lengths of vectors fit in 32 bits. *)
Definition counts_fit (inst : KState P) (e : nat) : Prop := (Z.of_nat (k_inputs inst + k_aux inst) < 2 ^ 32 /\ Z.of_nat (2 ^ e) <= 2 ^ 32)%Z.

(** No element that belongs to a public input or to a power of [tau] is the identity. *)
Definition no_accident (alpha beta tau : P) (inst : KState P) (e : nat) (U V W : Var -> list P) : Prop :=
  (forall i, i < k_inputs inst ->
     (beta * PropDomain.eval (U (Input i)) tau + alpha * PropDomain.eval (V (Input i)) tau + PropDomain.eval (W (Input i)) tau)%F <> fzero) /\
  (1 <= e -> fpow tau (2 ^ e) <> fone) /\ (2 <= e -> tau <> fzero).
End Spec.

(** * C63 *)
Section C63.
Context {P : PrimeField} {E : Engine P} (B1 : GroupBytes (E_G1 E)) (B2 : GroupBytes (E_G2 E)).
Add Field PFc63 : (F_field P).

(** ** Reading what was written *)
Lemma each_own {M : FMod P} (read : reader -> io (M * reader)) (enc : M -> list byte) k :
  (forall x rest, read (mkReader (enc x ++ rest) k) = if is_identity x then Err InvalidData else Ok (x, mkReader rest k)) ->
  forall xs acc rest, read_each read (List.length xs) acc (mkReader (flat_map enc xs ++ rest) k) =
    if existsb is_identity xs then Err InvalidData else Ok (acc ++ xs, mkReader rest k).
Proof.
  intros H. induction xs as [|x xs IH]; intros acc rest; cbn [flat_map List.length read_each existsb].
  - now rewrite app_nil_r.
  - rewrite <- app_assoc, H. destruct (is_identity x); [reflexivity|]. cbn [dbind orb]. rewrite IH, <- app_assoc. reflexivity.
Qed.
Lemma exact_own bs rest k : read_exact (List.length bs) (mkReader (bs ++ rest) k) = Ok (bs, mkReader rest k).
Proof.
  unfold read_exact. cbn [data at_end]. rewrite app_length. destruct (Nat.ltb_spec (List.length bs + List.length rest) (List.length bs)); [lia|].
  now rewrite firstn_app, skipn_app, Nat.sub_diag, firstn_all, skipn_all, firstn_O, app_nil_r.
Qed.
Lemma u32_own n rest k : (Z.of_nat n < 2 ^ 32)%Z -> read_u32 (mkReader (u32_be (Z.of_nat n mod 2 ^ 32) ++ rest) k) = Ok (Z.of_nat n, mkReader rest k).
Proof.
  intros H. unfold read_u32. change 4 with (List.length (u32_be (Z.of_nat n mod 2 ^ 32))). rewrite exact_own. cbn [dbind].
  rewrite Z.mod_small by lia. rewrite be_u32 by lia. reflexivity.
Qed.
Lemma point_own {M : FMod P} (B : GroupBytes M) checked x rest k : read_point B checked (mkReader (to_uncompressed B x ++ rest) k) =
  if is_identity x then Err InvalidData else Ok (x, mkReader rest k).
Proof.
  unfold read_point. rewrite <- (to_uncompressed_length _ B x), exact_own. cbn [dbind].
  destruct checked; [rewrite from_to_uncompressed|rewrite from_to_uncompressed_unchecked]; cbn [decoded non_identity]; destruct (is_identity x); reflexivity.
Qed.
Lemma element_own {M : FMod P} (B : GroupBytes M) x rest k : read_uncompressed B (mkReader (to_uncompressed B x ++ rest) k) = Ok (x, mkReader rest k).
Proof. unfold read_uncompressed. rewrite <- (to_uncompressed_length _ B x), exact_own. cbn [dbind]. rewrite from_to_uncompressed. reflexivity. Qed.
Lemma ic_own x rest k : read_ic B1 (mkReader (to_uncompressed B1 x ++ rest) k) = if is_identity x then Err InvalidData else Ok (x, mkReader rest k).
Proof. unfold read_ic. now rewrite element_own. Qed.
Lemma vec_own {M : FMod P} (B : GroupBytes M) checked xs rest k : (Z.of_nat (List.length xs) < 2 ^ 32)%Z ->
  read_vec B checked (mkReader (vector_encoding B xs ++ rest) k) = if existsb is_identity xs then Err InvalidData else Ok (xs, mkReader rest k).
Proof.
  intros H. unfold read_vec, vector_encoding. rewrite <- app_assoc. rewrite u32_own by auto. cbn [dbind]. rewrite Nat2Z.id.
  exact (each_own (read_point B checked) (to_uncompressed B) k (fun x rest => point_own B checked x rest k) xs [] rest).
Qed.
Lemma vk_own vk rest k : (Z.of_nat (List.length (ic vk)) < 2 ^ 32)%Z ->
  vk_read B1 B2 (mkReader (vk_encoding B1 B2 vk ++ rest) k) = if existsb is_identity (ic vk) then Err InvalidData else Ok (vk, mkReader rest k).
Proof.
  intros H. unfold vk_read, vk_encoding, vector_encoding. rewrite <- !app_assoc.
  rewrite element_own; cbn [dbind]. rewrite element_own; cbn [dbind]. rewrite element_own; cbn [dbind]. rewrite element_own; cbn [dbind]. rewrite element_own; cbn [dbind]. rewrite element_own; cbn [dbind].
  rewrite u32_own by auto. cbn [dbind]. rewrite Nat2Z.id, (each_own (read_ic B1) (to_uncompressed B1) k (fun x rest => ic_own x rest k)).
  destruct (existsb is_identity (ic vk)); [reflexivity|]. cbn [dbind app]. now destruct vk.
Qed.
Lemma params_own p checked rest k : (Z.of_nat (List.length (ic (p_vk p))) < 2 ^ 32)%Z -> (Z.of_nat (List.length (p_h p)) < 2 ^ 32)%Z ->
  (Z.of_nat (List.length (p_l p)) < 2 ^ 32)%Z -> (Z.of_nat (List.length (p_a p)) < 2 ^ 32)%Z -> (Z.of_nat (List.length (p_b_g1 p)) < 2 ^ 32)%Z ->
  (Z.of_nat (List.length (p_b_g2 p)) < 2 ^ 32)%Z ->
  params_read B1 B2 checked (mkReader (params_encoding B1 B2 p ++ rest) k) =
  if existsb is_identity (ic (p_vk p)) || existsb is_identity (p_h p) || existsb is_identity (p_l p) || existsb is_identity (p_a p)
     || existsb is_identity (p_b_g1 p) || existsb is_identity (p_b_g2 p) then Err InvalidData else Ok (p, mkReader rest k).
Proof.
  intros H1 H2 H3 H4 H5 H6. unfold params_read, params_encoding. rewrite <- !app_assoc. rewrite vk_own by auto. destruct (existsb is_identity (ic (p_vk p))); [reflexivity|]. cbn [dbind orb].
  rewrite vec_own by auto. destruct (existsb is_identity (p_h p)); [reflexivity|]. cbn [dbind orb]. rewrite vec_own by auto. destruct (existsb is_identity (p_l p)); [reflexivity|]. cbn [dbind orb].
  rewrite vec_own by auto. destruct (existsb is_identity (p_a p)); [reflexivity|]. cbn [dbind orb]. rewrite vec_own by auto. destruct (existsb is_identity (p_b_g1 p)); [reflexivity|]. cbn [dbind orb].
  rewrite vec_own by auto. destruct (existsb is_identity (p_b_g2 p)); [reflexivity|]. cbn [dbind orb]. now destruct p.
Qed.
Lemma compressed_own {M : FMod P} (B : GroupBytes M) x rest k : read_compressed B (mkReader (to_bytes B x ++ rest) k) =
  if is_identity x then Err InvalidData else Ok (x, mkReader rest k).
Proof. unfold read_compressed. rewrite <- (to_bytes_length _ B x), exact_own. cbn [dbind]. rewrite from_to_bytes. cbn [decoded non_identity]. destruct (is_identity x); reflexivity. Qed.
Lemma proof_own p rest k : proof_read B1 B2 (mkReader (proof_encoding B1 B2 p ++ rest) k) =
  if is_identity (proof_a p) || is_identity (proof_b p) || is_identity (proof_c p) then Err InvalidData else Ok (p, mkReader rest k).
Proof.
  unfold proof_read, proof_encoding. rewrite <- !app_assoc, compressed_own. destruct (is_identity (proof_a p)); [reflexivity|]. cbn [dbind orb].
  rewrite compressed_own. destruct (is_identity (proof_b p)); [reflexivity|]. cbn [dbind orb]. rewrite compressed_own. destruct (is_identity (proof_c p)); [reflexivity|]. cbn [dbind]. now destruct p.
Qed.
Lemma generate_sizes (w : Worker) (circuit : prog P (res unit)) (inst : KState P) e (g1 : E_G1 E) (g2 : E_G2 E) alpha beta gamma delta tau params :
  wf_worker w -> generate_parameters w circuit g1 g2 alpha beta gamma delta tau = Done (Ok params) ->
  describes circuit inst -> PropDomain.domain_exponent (List.length (k_cons inst)) e -> counts_fit inst e ->
  (Z.of_nat (List.length (ic (p_vk params))) < 2 ^ 32)%Z /\ (Z.of_nat (List.length (p_h params)) < 2 ^ 32)%Z /\
  (Z.of_nat (List.length (p_l params)) < 2 ^ 32)%Z /\ (Z.of_nat (List.length (p_a params)) < 2 ^ 32)%Z /\ (Z.of_nat (List.length (p_b_g1 params)) < 2 ^ 32)%Z /\
  (Z.of_nat (List.length (p_b_g2 params)) < 2 ^ 32)%Z.
Proof.
  intros Hw Hgen Hinst He [F1 F2].
  destruct (C35_form g1 g2 alpha beta gamma delta tau w circuit params Hw Hgen) as (inst' & e' & Ek & He' & HS & D).
  unfold describes in Hinst, Ek. rewrite Ek in Hinst. injection Hinst as ->.
  assert (e' = e) by (apply (least_pow_unique (List.length (k_cons inst))); now apply PropDomain.domain_exponent_least). subst e'.
  destruct (polys_exist inst e HS) as (U & V & W & HQ). destruct (D U V W HQ) as [_ _ _ _ _ _ Dic Dl Dh Da Db1 Db2].
  assert (Hm : 0 < 2 ^ e) by (apply Nat.neq_0_lt_0, Nat.pow_nonzero; lia).
  assert (Lq : forall (M : FMod P) f (g : list M), List.length (filter f g) <= List.length g) by (intros M f g; induction g as [|x g IH]; cbn [filter List.length]; [lia|]; destruct (f x); cbn [List.length]; lia).
  assert (Vl : List.length (variables (k_inputs inst) (k_aux inst)) = k_inputs inst + k_aux inst) by (unfold variables; now rewrite app_length, !map_length, !seq_length).
  assert (X : forall (M : FMod P) f (g : Var -> M), (Z.of_nat (List.length (filter f (map g (variables (k_inputs inst) (k_aux inst))))) < 2 ^ 32)%Z).
  { intros M f g. eapply Z.le_lt_trans; [apply inj_le, Lq|]. rewrite map_length, Vl. exact F1. }
  rewrite Da, Db1, Db2, Dic, Dh, Dl, !map_length, !seq_length. repeat split; try apply X; lia.
Qed.

Lemma is_identity_iff {M : FMod P} (x : M) : is_identity x = true <-> x = gzero.
Proof. unfold is_identity. destruct (geqb_spec x gzero); split; congruence. Qed.
Lemma existsb_false {A} (f : A -> bool) l : existsb f l = false <-> forall x, In x l -> f x = false.
Proof.
  induction l as [|a l IH]; cbn; [now split|]. rewrite orb_false_iff, IH. split; [intros [H1 H2] x [<-|H]; auto|auto].
Qed.
Lemma scaled_zero (y z : P) {M : FMod P} (g : M) : g <> gzero -> z <> fzero -> ((y * z)%F *g g = gzero <-> y = fzero).
Proof.
  intros Hg Hz. rewrite gmul_zero_iff by auto. split; [|intros ->; ring]. intros H. apply fmul_0 in H as [H|H]; [auto|contradiction].
Qed.
Lemma finv_nonzero (x : P) : x <> fzero -> finv x <> fzero.
Proof. intros Hx H. apply (@f_1_neq_0 P). rewrite <- (finv_l x Hx), H. ring. Qed.
Lemma fpow_nonzero (x : P) n : x <> fzero -> fpow x n <> fzero.
Proof. intros Hx. induction n as [|n IH]; cbn [fpow]; [apply f_1_neq_0|]. intros H. apply fmul_0 in H as [H|H]; contradiction. Qed.

(** A generated key comes back exactly as it was if no accident happened, and cannot be read otherwise. *)
Theorem C63_key_comes_back (w : Worker) (circuit : prog P (res unit)) (inst : KState P) e U V W (g1 : E_G1 E) (g2 : E_G2 E) alpha beta gamma delta tau params checked rest k :
  wf_worker w -> g1 <> gzero -> g2 <> gzero ->
  generate_parameters w circuit g1 g2 alpha beta gamma delta tau = Done (Ok params) ->
  describes circuit inst -> PropDomain.domain_exponent (List.length (k_cons inst)) e -> qap_polynomials inst e U V W -> counts_fit inst e ->
  (no_accident alpha beta tau inst e U V W -> params_read B1 B2 checked (mkReader (key_file B1 B2 params ++ rest) k) = Ok (params, mkReader rest k)) /\
  (~ no_accident alpha beta tau inst e U V W -> params_read B1 B2 checked (mkReader (key_file B1 B2 params ++ rest) k) = Err InvalidData).
Proof.
  intros Hw H1 H2 Hgen Hinst He HQ [F1 F2].
  destruct (generate_ok_inv g1 g2 alpha beta gamma delta tau w circuit params Hw Hgen) as (s & ks & e' & _ & _ & Ek & He' & Hle & HS & Hg & Hd & Ep & Ex).
  unfold describes in Hinst. rewrite Ek in Hinst. injection Hinst as ->.
  assert (e' = e) by (apply (least_pow_unique (List.length (k_cons inst))); now apply PropDomain.domain_exponent_least). subst e'.
  assert (D : documented g1 g2 alpha beta gamma delta tau inst e U V W params) by (rewrite Ep; apply params_documented; auto).
  destruct D as [_ _ _ _ _ _ Dic Dl Dh Da Db1 Db2].
  unfold key_file. rewrite params_write_eq. cbn [fst write_all room written app].
  destruct (generate_sizes w circuit inst e g1 g2 alpha beta gamma delta tau params Hw Hgen Ek He (conj F1 F2)) as (S1 & S2 & S3 & S4 & S5 & S6).
  rewrite params_own by auto.
  assert (NF : forall (M : FMod P) (l : list M), existsb is_identity (filter (fun x => negb (geqb x gzero)) l) = false).
  { intros M l. apply existsb_false. intros x Hx. apply filter_In in Hx as [_ Hx]. unfold is_identity. now destruct (geqb x gzero). }
  rewrite Da, Db1, Db2, !NF, !orb_false_r.
  assert (El : existsb is_identity (p_l params) = false) by exact Ex. rewrite El, orb_false_r. clear NF El Da Db1 Db2 Dl.
  set (A := existsb is_identity (ic (p_vk params))). set (B := existsb is_identity (p_h params)).
  assert (X : A || B = false <-> no_accident alpha beta tau inst e U V W).
  { rewrite orb_false_iff. unfold A, B. rewrite !existsb_false, Dic, Dh. clear A B. unfold no_accident. split.
    - intros [HA HB]. split; [|split].
      + intros i Hi Z. specialize (HA (((beta * PropDomain.eval (U (Input i)) tau + alpha * PropDomain.eval (V (Input i)) tau + PropDomain.eval (W (Input i)) tau) * finv gamma)%F *g g1)).
        assert (Q : is_identity (((beta * PropDomain.eval (U (Input i)) tau + alpha * PropDomain.eval (V (Input i)) tau + PropDomain.eval (W (Input i)) tau) * finv gamma)%F *g g1) = true).
        { apply is_identity_iff. apply scaled_zero; auto using finv_nonzero. }
        rewrite HA in Q; [discriminate|]. apply in_map_iff. exists i. split; [reflexivity|]. apply in_seq. lia.
      + intros H Z. specialize (HB ((fpow tau 0 * (fpow tau (2 ^ e) - 1) * finv delta)%F *g g1)).
        assert (Q : is_identity ((fpow tau 0 * (fpow tau (2 ^ e) - 1) * finv delta)%F *g g1) = true).
        { apply is_identity_iff. apply scaled_zero; auto using finv_nonzero. rewrite Z. ring. }
        rewrite HB in Q; [discriminate|]. apply in_map_iff. exists 0. split; [reflexivity|]. apply in_seq.
        assert (2 ^ 1 <= 2 ^ e) by (apply Nat.pow_le_mono_r; lia). cbn [Nat.pow] in *. lia.
      + intros H Z. specialize (HB ((fpow tau 1 * (fpow tau (2 ^ e) - 1) * finv delta)%F *g g1)).
        assert (Q : is_identity ((fpow tau 1 * (fpow tau (2 ^ e) - 1) * finv delta)%F *g g1) = true).
        { apply is_identity_iff. apply scaled_zero; auto using finv_nonzero. rewrite Z. cbn [fpow]. ring. }
        rewrite HB in Q; [discriminate|]. apply in_map_iff. exists 1. split; [reflexivity|]. apply in_seq.
        assert (2 ^ 2 <= 2 ^ e) by (apply Nat.pow_le_mono_r; lia). cbn [Nat.pow] in *. lia.
    - intros (HA & HB & HC). split; intros x Hx; apply in_map_iff in Hx as (i & <- & Hi); apply in_seq in Hi; apply not_true_is_false; intros Q; apply is_identity_iff in Q;
        apply scaled_zero in Q; auto using finv_nonzero.
      + apply (HA i); [lia|exact Q].
      + assert (He1 : 1 <= e) by (destruct e; [cbn in Hi; lia|lia]). specialize (HB He1). apply fmul_0 in Q as [Q|Q].
        * destruct (Nat.eq_dec e 1) as [->|]; [|apply (fpow_nonzero tau i); auto; apply HC; lia]. change (2 ^ 1 - 1) with 1 in Hi. assert (i = 0) by lia. subst i. cbn [fpow] in Q. now apply (@f_1_neq_0 P).
        * apply HB. transitivity (fpow tau (2 ^ e) - 1 + 1)%F; [ring|]. rewrite Q. ring. }
  destruct (A || B); split; intros H; auto.
  - apply X in H. discriminate.
  - exfalso. apply H, X. reflexivity.
Qed.

(** Accidents are rare: with [beta] not zero they happen for at most [2^e + 1 + inputs * (2^e - 1)] values of [tau]. *)
Theorem C63_few_accidents (circuit : prog P (res unit)) (inst : KState P) e U V W alpha beta (bad : list P) :
  describes circuit inst -> PropDomain.domain_exponent (List.length (k_cons inst)) e -> qap_polynomials inst e U V W -> beta <> fzero ->
  NoDup bad -> (forall tau, In tau bad -> ~ no_accident alpha beta tau inst e U V W) ->
  List.length bad <= 2 ^ e + 1 + k_inputs inst * (2 ^ e - 1).
Proof.
  intros Hinst He HQ Hb Hn Hbad. pose proof (proj1 He) as Hl. assert (Hm : 0 < 2 ^ e) by (apply Nat.neq_0_lt_0, Nat.pow_nonzero; lia). set (m := 2 ^ e) in *.
  set (ps := [x_poly; minus_one m] ++ map (fun i => lin m beta alpha (U (Input i)) (V (Input i)) (W (Input i))) (seq 0 (k_inputs inst))).
  assert (LQ : forall v, List.length (U v) <= m /\ List.length (V v) <= m /\ List.length (W v) <= m) by (intros v; destruct (HQ v) as ([L1 _] & [L2 _] & [L3 _]); auto).
  assert (ZI : forall i, i < k_inputs inst -> exists x, peval (lin m beta alpha (U (Input i)) (V (Input i)) (W (Input i))) x <> fzero).
  { intros i Hi. assert (Hk : exists j, nth_error (k_cons inst) j = Some (([(Input i, fone)], [], []) : Constraint P)).
    { apply In_nth_error. clear - Hinst Hi. unfold describes, synthesize in Hinst. destruct (run _ _ _) as [[[r|] s0]|]; cbn [obind] in Hinst; try discriminate.
      rewrite shape_enforce_inputs in Hinst. cbn [obind] in Hinst. injection Hinst as <-. cbn [k_cons k_inputs] in *. apply in_or_app. right.
      apply in_map_iff. exists i. split; [reflexivity|]. apply in_seq. lia. }
    destruct Hk as [j Hj]. assert (j < List.length (k_cons inst)) by (apply nth_error_Some; congruence).
    exists (fpow (domain_generator e) j). destruct (LQ (Input i)) as (L1 & L2 & L3). rewrite lin_eval by auto.
    destruct (HQ (Input i)) as ([_ V1] & [_ V2] & [_ V3]). change (@peval P) with (@PropDomain.eval P). rewrite V1, V2, V3 by lia. unfold column_A, column_B, column_C.
    assert (N : forall f : Constraint P -> P, nth j (map f (k_cons inst)) fzero = f ([(Input i, fone)], [], [])) by (intros f; apply nth_error_nth; now rewrite nth_error_map, Hj).
    rewrite !N. cbn [coefficient]. rewrite Nat.eqb_refl. intros Z. apply Hb. rewrite <- Z. ring. }
  assert (Hps : forall p, In p ps -> ~ all_zero p).
  { assert (EZ : forall p, (exists x, peval p x <> (fzero : P)) -> ~ all_zero p) by (intros p [x Hx] F; apply Hx, all_zero_eval, F).
    intros p Hp. unfold ps in Hp. rewrite in_app_iff, in_map_iff in Hp. destruct Hp as [[<-|[<-|[]]]|(i & <- & Hi)].
    - apply EZ. exists fone. rewrite x_eval. apply f_1_neq_0.
    - unfold minus_one, all_zero. rewrite Forall_forall. intros F. apply (@f_1_neq_0 P), F. right. apply in_or_app. right. now left.
    - apply in_seq in Hi. apply EZ, ZI. lia. }
  assert (Len : List.length bad <= list_sum (map (fun p : list P => List.length p - 1) ps)).
  { apply few_bad; auto. intros tau Hin. destruct (existsb (root_of tau) ps) eqn:Ex; auto. exfalso. apply (Hbad tau Hin).
    assert (R : forall p, In p ps -> peval p tau <> fzero).
    { intros p Hp Ez. pose proof (proj1 (existsb_false _ _) Ex p Hp) as Q. unfold root_of in Q. rewrite Ez in Q. destruct (feqb_spec (fzero : P) fzero); congruence. }
    split; [|split].
    - intros i Hi. change (@PropDomain.eval P) with (@peval P). destruct (LQ (Input i)) as (L1 & L2 & L3). rewrite <- (lin_eval m) by auto. apply R. unfold ps. apply in_or_app. right. apply in_map_iff. exists i. split; auto. apply in_seq. lia.
    - intros _ Eq. apply (R (minus_one m)); [right; now left|]. rewrite minus_one_eval by auto. unfold m. rewrite Eq. ring.
    - intros _ Eq. apply (R x_poly); [now left|]. now rewrite x_eval. }
  assert (LS : forall (f : nat -> list P) l, (forall i, List.length (f i) <= m) -> list_sum (map (fun p => List.length p - 1) (map f l)) <= List.length l * (m - 1)).
  { intros f l Hf. induction l as [|i l IH]; [cbn; lia|]. cbn [map List.length].
    change (list_sum (?x :: ?y)) with (x + list_sum y). specialize (Hf i). cbn [Nat.mul]. lia. }
  unfold ps in Len. rewrite map_app, list_sum_app in Len.
  change (list_sum (map (fun p : list P => List.length p - 1) [x_poly; minus_one m])) with (1 + (List.length (minus_one (P := P) m) - 1 + 0)) in Len. rewrite minus_one_length in Len by auto.
  pose proof (LS (fun i => lin m beta alpha (U (Input i)) (V (Input i)) (W (Input i))) (seq 0 (k_inputs inst)) (fun i => Nat.eq_le_incl _ _ (lin_length m beta alpha _ _ _))) as B.
  rewrite seq_length in B. clearbody m. clear - Len B. lia.
Qed.

(** The verifying key can be read from the beginning of a key file, whether or not the rest can. *)
Theorem C63_vk_of_key_file (params : Parameters E) rest k : (Z.of_nat (List.length (ic (p_vk params))) < 2 ^ 32)%Z ->
  exists more, key_file B1 B2 params = vk_file B1 B2 (p_vk params) ++ more /\
    vk_read B1 B2 (mkReader (key_file B1 B2 params ++ rest) k) =
      if existsb (fun x => geqb x gzero) (ic (p_vk params)) then Err InvalidData else Ok (p_vk params, mkReader (more ++ rest) k).
Proof.
  intros H. unfold key_file, vk_file. rewrite params_write_eq, vk_write_eq. cbn [fst write_all room written app]. unfold params_encoding. eexists. split; [reflexivity|].
  rewrite <- app_assoc, vk_own by auto. reflexivity.
Qed.

(** From the generator to the verifier through three files: whatever is read is what was written, the prover works with the key it read,
    and the verifier accepts. *)
Theorem C63_through_files (w w' : Worker) (ln_ceil : Z -> nat) (keygen_circuit prover_circuit : prog P (res unit)) inst wit e
    (g1 : E_G1 E) (g2 : E_G2 E) alpha beta gamma delta tau params r s checked rest1 rest2 rest3 k params' vk' proof proof' x1 x2 x3 :
  wf_worker w -> wf_worker w' -> sane_ln_ceil ln_ceil ->
  describes keygen_circuit inst -> assigns prover_circuit wit -> same_circuit inst wit -> addressable wit -> satisfying wit ->
  PropDomain.domain_exponent (List.length (k_cons inst)) e -> counts_fit inst e ->
  generate_parameters w keygen_circuit g1 g2 alpha beta gamma delta tau = Done (Ok params) ->
  params_read B1 B2 checked (mkReader (key_file B1 B2 params ++ rest1) k) = Ok (params', x1) ->
  create_proof w' ln_ceil prover_circuit params' r s = Done (Ok proof) ->
  vk_read B1 B2 (mkReader (vk_file B1 B2 (p_vk params) ++ rest2) k) = Ok (vk', x2) ->
  proof_read B1 B2 (mkReader (proof_file B1 B2 proof ++ rest3) k) = Ok (proof', x3) ->
  params' = params /\ vk' = p_vk params /\ proof' = proof /\ x1 = mkReader rest1 k /\ x2 = mkReader rest2 k /\ x3 = mkReader rest3 k /\
  verify_proof (prepare_verifying_key vk') proof' (public_inputs wit) = Done (Ok tt).
Proof.
  intros Hw Hw' Hln Hinst Hwit Hsame Haddr Hsat He Hfit Hgen R1 Hc R2 R3.
  assert (E1 : params' = params /\ x1 = mkReader rest1 k).
  { destruct (generate_sizes w keygen_circuit inst e g1 g2 alpha beta gamma delta tau params Hw Hgen Hinst He Hfit) as (S1 & S2 & S3 & S4 & S5 & S6).
    unfold key_file in R1. rewrite params_write_eq in R1. cbn [fst write_all room written app] in R1. rewrite params_own in R1 by auto.
    destruct (_ || _) in R1; [discriminate|]. now injection R1 as <- <-. }
  destruct E1 as [-> ->].
  assert (E2 : vk' = p_vk params /\ x2 = mkReader rest2 k).
  { destruct (generate_sizes w keygen_circuit inst e g1 g2 alpha beta gamma delta tau params Hw Hgen Hinst He Hfit) as (S1 & _).
    unfold vk_file in R2. rewrite vk_write_eq in R2. cbn [fst write_all room written app] in R2. rewrite vk_own in R2 by auto. destruct (existsb _ _) in R2; [discriminate|]. now injection R2 as <- <-. }
  destruct E2 as [-> ->].
  assert (E3 : proof' = proof /\ x3 = mkReader rest3 k).
  { unfold proof_file in R3. rewrite proof_write_eq in R3. cbn [fst write_all room written app] in R3. rewrite proof_own in R3. destruct (_ || _) in R3; [discriminate|]. now injection R3 as <- <-. }
  destruct E3 as [-> ->]. repeat (split; [reflexivity|]).
  exact (C37_proofs_verify g1 g2 alpha beta gamma delta tau w w' ln_ceil _ _ inst wit params r s proof Hw Hw' Hln Hgen Hinst Hwit Hsame Haddr Hsat Hc).
Qed.
End C63.
Print Assumptions C63_key_comes_back.
Print Assumptions C63_few_accidents.
Print Assumptions C63_vk_of_key_file.
Print Assumptions C63_through_files.


(** z = 2xy (see [C06_ex]) on the test engine, with files of bytes.  With beta = 5 and tau = 13 the key comes back from its 134 bytes, a
    proof made with it comes back from its 12 bytes, and it verifies with the verifying key read from the beginning of the key file.
    With beta = 20488 the element for z is the identity, and with tau = 0 two elements of h are: keys are generated, but cannot be read. *)
Definition c63_key (beta tau : Z) : option (list byte) :=
  match generate_parameters (E := DummyEngine Fr64513) (Multicore 3) (circuit_of c06_calls) fone (ofZ 2) (ofZ 3) (ofZ beta) (ofZ 7) (ofZ 11) (ofZ tau) with
  | Done (Ok params) => Some (key_file (E := DummyEngine Fr64513) bytes_64513 bytes_64513 params)
  | _ => None
  end.
Definition c63_read (bs : list byte) : result io_kind nat :=
  match params_read (E := DummyEngine Fr64513) bytes_64513 bytes_64513 true (mkReader bs UnexpectedEof) with Ok (p, r) => Ok (List.length (data r)) | Err k => Err k end.
Definition c63_prove (bs : list byte) : option (list byte) :=
  match params_read (E := DummyEngine Fr64513) bytes_64513 bytes_64513 true (mkReader bs UnexpectedEof) with
  | Ok (p, _) =>
      match create_proof (Multicore 2) (fun _ => 3) (circuit_of c06_calls) p (ofZ 17) (ofZ 19) with
      | Done (Ok proof) => Some (proof_file (E := DummyEngine Fr64513) bytes_64513 bytes_64513 proof)
      | _ => None
      end
  | Err _ => None
  end.
Definition c63_verify (key proof : list byte) (z : Z) : option bool :=
  match vk_read (E := DummyEngine Fr64513) bytes_64513 bytes_64513 (mkReader key UnexpectedEof), proof_read (E := DummyEngine Fr64513) bytes_64513 bytes_64513 (mkReader proof UnexpectedEof) with
  | Ok (vk, _), Ok (p, _) => match verify_proof (prepare_verifying_key vk) p [ofZ z] with Done (Ok _) => Some true | _ => Some false end
  | _, _ => None
  end.
Example C63_ex : exists inst,
  describes (circuit_of c06_calls) inst /\ PropDomain.domain_exponent (List.length (k_cons inst)) 2 /\ counts_fit inst 2 /\
  match c63_key 5 13 with
  | Some key =>
      List.length key = 134 /\ c63_read key = Ok 0 /\
      match c63_prove key with Some proof => List.length proof = 12 /\ c63_verify key proof 30 = Some true /\ c63_verify key proof 31 = Some false | None => False end
  | None => False
  end /\
  match c63_key 20488 13 with Some key => c63_read key = Err InvalidData | None => False end /\
  match c63_key 5 0 with Some key => c63_read key = Err InvalidData | None => False end.
Proof.
  pose proof (shape_synth c06_calls) as SD. unfold synthesize_shape, shape_new in SD. eexists. split; [exact SD|].
  split; [|split; [|split; [|split]]].
  - split; [cbn; lia|]. intros e' He'. assert (e' = 0 \/ e' = 1) as [-> | ->] by lia; cbn; lia.
  - unfold counts_fit. cbn. lia.
  - vm_compute. repeat split.
  - vm_compute. reflexivity.
  - vm_compute. reflexivity.
Qed.
