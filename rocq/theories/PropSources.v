(** Property C75: bases and parameters from sources that the user writes. *)
From Coq Require Import ZArith List Bool Lia.
From Verif Require Import Prelude PrimeField Fields FModule Circuit Multicore Domain DomainProof Quotient Multiexp MultiexpProof PropMultiexp Assembly AssemblyProof PropAssembly Groth16 GeneratorProof ProverProof PropGenerator PropGroth16 Sources SourcesSpec SourcesProof.
From Verif Require Import FFTProof.
From Verif Require PropDomain.
Import ListNotations.
Local Open Scope nat_scope.

(** ** Specification (the rest is in SourcesSpec.v) *)

(** [m] of the first [n] variables of one kind occur in that part of some constraint. *)
Definition counts {P : PrimeField} (mk : nat -> Var) (n : nat) (part : Constraint P -> LC P) (wit : PState P) (m : nat) : Prop :=
  exists l, NoDup l /\ length l = m /\ forall i, In i l <-> i < n /\ occurs part wit (mk i).
(** What the prover asks for. *)
Definition questions {P : PrimeField} (wit : PState P) (e na nbi nba : nat) : list Query :=
  [AskVk (length (p_inputs wit)); AskH (2 ^ e - 1); AskL (length (p_aux wit)); AskA (length (p_inputs wit)) na; AskB1 nbi nba; AskB2 nbi nba].

(** ** Auxiliary *)
Lemma dense_by {A} (xs : list A) : forall dens, dense xs dens = dense_exponents xs (Some dens).
Proof. induction xs as [|x xs IH]; intros [|[|] bits]; cbn; auto; now rewrite IH. Qed.
Lemma multiexp_of_done' {P : PrimeField} {M : FMod P} ln_ceil (bld : SourceBuilder M) d (xs : list P) : (forall n, q_size d = Some n -> n = length xs) ->
  multiexp_of ln_ceil bld d (map exponent_of xs) = Done (multiexp_inner_of bld d (map exponent_of xs) (window_size ln_ceil (length xs))).
Proof. intros H. unfold multiexp_of. rewrite map_length. destruct (q_size d) as [n|]; [|reflexivity]. rewrite (H n eq_refl), Nat.eqb_refl. reflexivity. Qed.
Lemma tracks_counts {P : PrimeField} mk n part (wit : PState P) d : tracks mk n part (p_cons wit) d -> counts mk n part wit (dt_get_total_density d).
Proof.
  intros [L H]. exists (filter (fun i => nth i d false) (seq 0 n)). split; [apply NoDup_filter, seq_NoDup|]. split.
  - unfold dt_get_total_density. subst n. clear H. induction d as [|b d IH] using rev_ind; [reflexivity|].
    rewrite app_length, count_occ_app. cbn [length]. rewrite Nat.add_1_r, seq_S, filter_app, app_length. cbn [filter Nat.add].
    rewrite app_nth2, Nat.sub_diag by lia. cbn [nth]. rewrite <- IH. f_equal; [|destruct b; reflexivity].
    f_equal. apply filter_ext_in. intros i Hi. apply in_seq in Hi. now rewrite app_nth1 by lia.
  - intros i. rewrite filter_In, in_seq, H, mentions_occurs. intuition lia.
Qed.

(** * C75 *)
Section C75.
Context {P : PrimeField}.
Section Multiexp.
Context {M : FMod P} (ln_ceil : Z -> nat) (bld : SourceBuilder M) (d : QueryDensity) (xs : list P).
Hypothesis Hln : sane_ln_ceil ln_ceil.
Hypothesis Hn : (Z.of_nat (length xs) < 2 ^ 32)%Z.
Hypothesis Hd : forall n, q_size d = Some n -> n = length xs.
Let ys := dense_exponents xs (Some (q_iter d (length xs))).
Let call := multiexp_of ln_ceil bld d (map exponent_of xs).

(** Sources that supply enough elements: the sum, whatever the elements are (the vectors of the crate refuse the identity). *)
Theorem C75_value bases : builds bld bases -> length ys <= length bases -> call = Done (Done (Ok (naive_sum bases 0 ys))).
Proof.
  intros Hb Hl. unfold call, ys in *. rewrite multiexp_of_done' by exact Hd. rewrite <- dense_by in *.
  rewrite (inner_supplied bld bases d xs _ (window_ok _ _ Hln Hn) Hb Hl). reflexivity.
Qed.
(** Sources that end too early, with an error of their own: that error. *)
Theorem C75_runs_out bases e : (forall j, supplies_only (b_source bld) bases e (b_build bld j)) -> length bases < length ys -> call = Done (Done (Err e)).
Proof.
  intros Hb Hl. unfold call, ys in *. rewrite multiexp_of_done' by exact Hd. rewrite <- dense_by in *. now rewrite (inner_short bld bases e d xs _ (window_ok _ _ Hln Hn) Hb Hl).
Qed.
(** Any sources: an error is one of theirs, and so is a panic. *)
Theorem C75_blame : exists result, call = Done result /\
  match result with
  | Done (Ok _) => True
  | Done (Err e) => exists j, complains (b_source bld) (b_build bld j) e
  | Panicked => exists j, ~ never_panics (b_source bld) (b_build bld j)
  end.
Proof.
  unfold call. rewrite multiexp_of_done' by exact Hd. eexists. split; [reflexivity|]. pose proof (inner_any bld d xs _ (window_ok _ _ Hln Hn)) as X.
  destruct (multiexp_inner_of bld d _ _) as [[r|e]|]; [exact I| |]; destruct X as (j & _ & X); eauto.
Qed.
End Multiexp.

(** Only what [next] and [skip(1)] do matters. *)
Theorem C75_same {M : FMod P} ln_ceil (bld bld' : SourceBuilder M) d exps : same_builder bld bld' -> multiexp_of ln_ceil bld d exps = multiexp_of ln_ceil bld' d exps.
Proof. intros H. unfold multiexp_of. rewrite !(multiexp_inner_same bld bld' d exps _ H). reflexivity. Qed.
(** The vectors and densities of the crate are instances. *)
Theorem C75_vectors {M : FMod P} ln_ceil (bases : list M) start d exps : multiexp_of ln_ceil (vec_builder bases start) (density_of d) exps = multiexp_start ln_ceil bases start d exps.
Proof. apply multiexp_vec. Qed.

Context {E : Engine P}.
Theorem C75_parameters (wk : Worker) ln_ceil (circuit : prog P (res unit)) (params : Parameters E) r s :
  create_proof_from (from_parameters params) wk ln_ceil circuit r s tt = (create_proof wk ln_ceil circuit params r s, tt).
Proof. apply create_parameters. Qed.

(** A source that serves, of each list of [params], no more than it is asked for, gives the proof that [params] give. *)
Theorem C75_serves (ps : ParameterSource E) (wk : Worker) ln_ceil (circuit : prog P (res unit)) (params : Parameters E) I r s proof st :
  serves ps params I -> I st -> create_proof wk ln_ceil circuit params r s = Done (Ok proof) ->
  exists st', create_proof_from ps wk ln_ceil circuit r s st = (Done (Ok proof), st') /\ I st'.
Proof. apply create_serves. Qed.

(** What a source is asked: in this order, nothing after a failure, and its failure is the result. *)
Theorem C75_calls (ps : ParameterSource E) (wk : Worker) ln_ceil (circuit : prog P (res unit)) wit t e :
  wf_worker wk -> synthesize_prover circuit = Done (Ok t) -> assigns circuit wit -> PropDomain.domain_exponent (length (p_cons wit)) e -> e < two_adicity P ->
  exists na nbi nba,
    counts Aux (length (p_aux wit)) part_A wit na /\ counts Input (length (p_inputs wit)) part_B wit nbi /\ counts Aux (length (p_aux wit)) part_B wit nba /\
    forall r s st result st' log, create_proof_from (noting ps) wk ln_ceil circuit r s (st, []) = (result, (st', log)) ->
      create_proof_from ps wk ln_ceil circuit r s st = (result, st') /\ noted (questions wit e na nbi nba) result log.
Proof.
  intros Hw Et Hwit He HS. destruct (prover_lengths _ _ _ Et Hwit) as (PI & La & Lb & Lc).
  apply PropDomain.domain_exponent_least in He. rewrite <- La in He. pose proof (prover_h_total wk (pa_a t) (pa_b t) (pa_c t) e Hw He Lb Lc) as H.
  destruct (Nat.ltb_spec e (two_adicity P)); [|lia]. destruct H as (h & Eh & Lh).
  exists (dt_get_total_density (a_aux_density t)), (dt_get_total_density (b_input_density t)), (dt_get_total_density (b_aux_density t)).
  split; [exact (tracks_counts _ _ _ _ _ (pi_da _ _ PI))|]. split; [exact (tracks_counts _ _ _ _ _ (pi_dbi _ _ PI))|]. split; [exact (tracks_counts _ _ _ _ _ (pi_dba _ _ PI))|].
  intros r s st result st' log Q. pose proof (pi_da _ _ PI) as [D1 _]. pose proof (pi_dbi _ _ PI) as [D2 _]. pose proof (pi_dba _ _ PI) as [D3 _].
  rewrite <- (pi_inputs _ _ PI) in D2. rewrite <- (pi_aux _ _ PI) in D1, D3.
  destruct (create_noted ps wk ln_ceil circuit t h Et Eh D1 D2 D3 r s st result st' log Q) as [A B]. split; [exact A|].
  unfold asked in B. rewrite (pi_inputs _ _ PI), (pi_aux _ _ PI), Lh in B. exact B.
Qed.

Theorem C75_never_panics (ps : ParameterSource E) (I : ps_state ps -> Prop) (wk : Worker) ln_ceil (circuit : prog P (res unit)) wit t r s st :
  wf_worker wk -> sane_ln_ceil ln_ceil -> synthesize_prover circuit = Done (Ok t) -> assigns circuit wit -> addressable wit -> calm_parameters ps I -> I st ->
  exists result st', create_proof_from ps wk ln_ceil circuit r s st = (Done result, st').
Proof.
  intros Hw Hln Et Hwit (A1 & A2 & A3) HC HI. destruct (prover_lengths _ _ _ Et Hwit) as (PI & La & Lb & Lc).
  destruct (least_pow_ex (length (p_cons wit))) as [e He]. pose proof He as He'. rewrite <- La in He'.
  pose proof (prover_h_total wk (pa_a t) (pa_b t) (pa_c t) e Hw He' Lb Lc) as H. pose proof (pi_da _ _ PI) as [D1 _]. pose proof (pi_dbi _ _ PI) as [D2 _]. pose proof (pi_dba _ _ PI) as [D3 _].
  rewrite <- (pi_inputs _ _ PI) in D2, A1. rewrite <- (pi_aux _ _ PI) in D1, D3, A2.
  destruct (Nat.ltb_spec e (two_adicity P)).
  - destruct H as (h & Eh & Lh). assert (Hlh : (Z.of_nat (length h) < 2 ^ 32)%Z) by (pose proof (pow2_cap _ _ He A3); pose proof (pow2_gt0 e); lia).
    destruct (create_calm ps wk ln_ceil circuit t h Et Eh D1 D2 D3 I r s st HC HI (window_ok _ _ Hln A1) (window_ok _ _ Hln A2) (window_ok _ _ Hln Hlh)) as (x & st' & X & _). eauto.
  - unfold create_proof_from, ask, pure, sure. rewrite Et, H. destruct (HC (length (input_assignment t)) 0) as (C & _). destruct (C st HI) as (r1 & st1 & -> & _). destruct r1; eauto.
Qed.

(** With a generated key: the proof verifies, and the numbers asked for are those of the elements in the key. *)
Theorem C75_keys (g1 : E_G1 E) (g2 : E_G2 E) alpha beta gamma delta tau (wk wk' : Worker) ln_ceil (keygen_circuit prover_circuit : prog P (res unit)) inst wit params r s proof
  (ps : ParameterSource E) I st :
  wf_worker wk -> wf_worker wk' -> sane_ln_ceil ln_ceil ->
  generate_parameters wk keygen_circuit g1 g2 alpha beta gamma delta tau = Done (Ok params) ->
  describes keygen_circuit inst -> assigns prover_circuit wit -> same_circuit inst wit -> addressable wit -> satisfying wit ->
  serves ps params I -> I st -> create_proof wk' ln_ceil prover_circuit params r s = Done (Ok proof) ->
  (exists st', create_proof_from ps wk' ln_ceil prover_circuit r s st = (Done (Ok proof), st')) /\
  verify_proof (prepare_verifying_key (p_vk params)) proof (public_inputs wit) = Done (Ok tt) /\
  exists e na nbi nba, PropDomain.domain_exponent (length (p_cons wit)) e /\
    counts Aux (length (p_aux wit)) part_A wit na /\ counts Input (length (p_inputs wit)) part_B wit nbi /\ counts Aux (length (p_aux wit)) part_B wit nba /\
    length (p_h params) = 2 ^ e - 1 /\ length (p_l params) = length (p_aux wit) /\ length (p_a params) = length (p_inputs wit) + na /\
    length (p_b_g1 params) = nbi + nba /\ length (p_b_g2 params) = nbi + nba.
Proof.
  intros Hw Hw' Hln Hgen Hinst Hwit Hsame Haddr Hsat HS HI Ec.
  split; [destruct (create_serves ps _ _ _ _ I r s proof st HS HI Ec) as (st' & X & _); eauto|].
  split; [exact (C37_proofs_verify g1 g2 alpha beta gamma delta tau wk wk' ln_ceil keygen_circuit prover_circuit inst wit params r s proof Hw Hw' Hln Hgen Hinst Hwit Hsame Haddr Hsat Ec)|].
  destruct (create_ok_inv g1 g2 alpha beta gamma delta tau wk wk' ln_ceil keygen_circuit prover_circuit inst wit params Hw Hw' Hln Hgen Hinst Hwit Hsame Haddr r s proof Ec)
    as (t & e & h & Et & PI & Hok & HSe & Hle & He & Hg & Hd & Ep & Eh & Lh & (A1 & A2 & A3) & _).
  exists e, (dt_get_total_density (a_aux_density t)), (dt_get_total_density (b_input_density t)), (dt_get_total_density (b_aux_density t)).
  rewrite (proj2 (proj2 Hsame)) in He. split; [exact He|].
  split; [exact (tracks_counts _ _ _ _ _ (pi_da _ _ PI))|]. split; [exact (tracks_counts _ _ _ _ _ (pi_dbi _ _ PI))|]. split; [exact (tracks_counts _ _ _ _ _ (pi_dba _ _ PI))|].
  rewrite <- Ep in A1, A2, A3. repeat split; auto.
  - rewrite Ep. unfold params_of, p_h, h_of. now rewrite map_length, seq_length.
  - rewrite Ep. unfold params_of, p_l. now rewrite map_length, seq_length.
Qed.
End C75.
Print Assumptions C75_value.
Print Assumptions C75_runs_out.
Print Assumptions C75_blame.
Print Assumptions C75_same.
Print Assumptions C75_vectors.
Print Assumptions C75_parameters.
Print Assumptions C75_serves.
Print Assumptions C75_calls.
Print Assumptions C75_never_panics.
Print Assumptions C75_keys.

(** A source over a list, that fails with [Unsatisfiable] at its end, and parameters that count the calls and hand out no more than was asked for. *)
Definition list_source (G : Type) : Source G :=
  {| s_state := list G;
     s_next := fun l => match l with [] => Done (Err Unsatisfiable) | b :: t => Done (Ok (b, t)) end;
     s_skip := fun l n => if length l <? n then Done (Err Unsatisfiable) else Done (Ok (skipn n l)) |}.
Definition list_builder {G : Type} (l : list G) : SourceBuilder G := {| b_source := list_source G; b_build := fun _ => l |}.
Definition slices {P : PrimeField} {E : Engine P} (params : Parameters E) : ParameterSource E :=
  {| ps_state := nat;
     get_vk := fun _ k => (Done (Ok (p_vk params)), S k);
     get_h := fun n k => (Done (Ok (list_builder (firstn n (p_h params)))), S k);
     get_l := fun n k => (Done (Ok (list_builder (firstn n (p_l params)))), S k);
     get_a := fun n m k => (Done (Ok (list_builder (firstn n (p_a params)), list_builder (firstn m (skipn n (p_a params))))), S k);
     get_b_g1 := fun n m k => (Done (Ok (list_builder (firstn n (p_b_g1 params)), list_builder (firstn m (skipn n (p_b_g1 params))))), S k);
     get_b_g2 := fun n m k => (Done (Ok (list_builder (firstn n (p_b_g2 params)), list_builder (firstn m (skipn n (p_b_g2 params))))), S k) |}.
(** The same with a [get_b_g1] that fails. *)
Definition broken {P : PrimeField} {E : Engine P} (params : Parameters E) : ParameterSource E :=
  {| ps_state := nat; get_vk := get_vk (slices params); get_h := get_h (slices params); get_l := get_l (slices params); get_a := get_a (slices params);
     get_b_g1 := fun _ _ k => (Done (Err AssignmentMissing), S k); get_b_g2 := get_b_g2 (slices params) |}.
Lemma list_supplies {G} (l : list G) : supplies (list_source G) l l /\ supplies_only (list_source G) l Unsatisfiable l.
Proof. induction l as [|b l [IH1 IH2]]; cbn; repeat split; try (eexists; split; [reflexivity|assumption]); exact I. Qed.
Lemma slices_serve {P : PrimeField} {E : Engine P} (params : Parameters E) : serves (slices params) params (fun _ => True).
Proof. split; intros; cbn; repeat eexists; intros j; apply list_supplies. Qed.

Example C75_ex_multiexp :
  let call bases := multiexp_of (M := ScalarMod Fr64513) (fun _ => 3) (list_builder (map ofZ bases)) {| q_iter := fun _ => [true; false; true; true]; q_size := Some 4 |} (map (fun z => exponent_of (ofZ z : Fr64513)) [3; 9; 1; 100]%Z) in
  let toz r := match r with Done (Done (Ok v)) => Some (inl (toZ (v : Fr64513))) | Done (Done (Err e)) => Some (inr e) | _ => None end in
  toz (call [5; 0; 7]%Z) = Some (inl 715%Z) /\ toz (call [5; 0]%Z) = Some (inr Unsatisfiable) /\
  toz (multiexp_start (M := ScalarMod Fr64513) (fun _ => 3) (map ofZ [5; 0; 7]%Z) 0 (Tracked [true; false; true; true]) (map (fun z => exponent_of (ofZ z : Fr64513)) [3; 9; 1; 100]%Z)) = Some (inr UnexpectedIdentity).
Proof. vm_compute. repeat split; reflexivity. Qed.
Example C75_ex_prover :
  match c37_params with
  | Done (Ok params) =>
      match create_proof_from (noting (slices params)) (Multicore 2) (fun _ => 3) (circuit_of c06_calls) (ofZ 17) (ofZ 19) (0, []),
            create_proof (Multicore 2) (fun _ => 3) (circuit_of c06_calls) params (ofZ 17) (ofZ 19),
            create_proof_from (noting (broken params)) (Multicore 2) (fun _ => 3) (circuit_of c06_calls) (ofZ 17) (ofZ 19) (0, []) with
      | (Done (Ok proof), (calls, log)), Done (Ok proof'), (Done (Err e), (calls', log')) =>
          (toZ (proof_a proof : Fr64513), toZ (proof_b proof : Fr64513), toZ (proof_c proof : Fr64513)) = (toZ (proof_a proof' : Fr64513), toZ (proof_b proof' : Fr64513), toZ (proof_c proof' : Fr64513)) /\
          calls = 6 /\ map fst log = [AskVk 2; AskH 3; AskL 3; AskA 2 2; AskB1 1 1; AskB2 1 1] /\ e = AssignmentMissing /\ calls' = 5
      | _, _, _ => False
      end
  | _ => False
  end.
Proof. vm_compute. repeat split; reflexivity. Qed.
