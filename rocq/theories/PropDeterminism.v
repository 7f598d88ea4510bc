(** Property C59: creating a proof (and generating parameters) does not depend on the number of threads, nor a proof on the size of the
    windows of the multiexponentiations. *)
From Coq Require Import String.
From Coq Require Import ZArith List Bool Lia Field.
From Verif Require Import Prelude PrimeField Fields FModule Circuit Multicore Domain FFTProof DomainProof Quotient Multiexp MultiexpProof PropMultiexp Assembly AssemblyProof PropAssembly Groth16 GeneratorProof ProverProof PropGenerator PropGroth16.
From Verif Require PropDomain.
Import ListNotations.
Local Open Scope nat_scope.

(** * C59 *)
Section C59.
Context {P : PrimeField} {E : Engine P}.
Add Field PFfield_c59 : (F_field P).
Notation SM := (ScalarMod P).

Lemma obind_ext {A B} (x x' : outcome A) (f f' : A -> outcome B) : x = x' -> (forall a, x = Done a -> f a = f' a) -> obind x f = obind x' f'.
Proof. intros <- H. destruct x; cbn; auto. Qed.

Lemma ifft_workers (w w' : Worker) (d : EvalDomain SM) : wf_worker w -> wf_worker w' -> ok_domain d ->
  ifft w d = ifft w' d /\ forall d', ifft w d = Done d' -> ok_domain d' /\ d_exp d' = d_exp d.
Proof.
  intros Hw Hw' O. rewrite !ifft_eq by auto. split; auto. intros d' [= <-]. split; [|reflexivity].
  apply ok_with; auto. rewrite map_length. apply dftl_length.
Qed.
Lemma coset_workers (w w' : Worker) (d : EvalDomain SM) : wf_worker w -> wf_worker w' -> ok_domain d ->
  coset_fft w d = coset_fft w' d /\ forall d', coset_fft w d = Done d' -> ok_domain d' /\ d_exp d' = d_exp d.
Proof.
  intros Hw Hw' O. rewrite !coset_fft_eq by auto. split; auto. intros d' [= <-]. split; [|reflexivity].
  apply ok_with; auto. apply dftl_length.
Qed.
Lemma icoset_workers (w w' : Worker) (d : EvalDomain SM) : wf_worker w -> wf_worker w' -> ok_domain d -> icoset_fft w d = icoset_fft w' d.
Proof.
  intros Hw Hw' O. unfold icoset_fft. destruct (ifft_workers w w' d Hw Hw' O) as [A B]. apply obind_ext; auto.
  intros a Ha. destruct (B a Ha) as [O' _]. rewrite !distribute_eq; auto; now apply ok_nonempty.
Qed.
Lemma len_pos (d : EvalDomain SM) : ok_domain d -> 0 < length (coeffs d).
Proof. intros O. rewrite (ok_len _ O). apply pow2_gt0. Qed.
Lemma zip_workers {A B} (w w' : Worker) n (f : A -> B -> A) a b (db : B) : wf_worker w -> wf_worker w' -> 0 < n -> length a = length b ->
  par_zip w n f a b = par_zip w' n f a b /\ forall c, par_zip w n f a b = Done c -> length c = length a.
Proof.
  intros Hw Hw' Hn Hl. rewrite !(par_zip_spec _ n f a b db) by (try lia; now apply scope_chunk_pos). split; auto.
  intros c [= <-]. apply mapi_length.
Qed.
Lemma mul_workers (w w' : Worker) (a b : EvalDomain SM) : wf_worker w -> wf_worker w' -> ok_domain a ->
  mul_assign w a b = mul_assign w' a b /\ forall d', mul_assign w a b = Done d' -> ok_domain d' /\ d_exp d' = d_exp a.
Proof.
  intros Hw Hw' O. unfold mul_assign. destruct (Nat.eqb_spec (length (coeffs a)) (length (coeffs b))) as [L|]; [|split; [auto|discriminate]].
  destruct (zip_workers w w' (length (coeffs a)) (fun x y => (y : P) *g x) (coeffs a) (coeffs b) fzero Hw Hw' (len_pos a O) L) as [Z1 Z2].
  unfold set_coeffs. split; [now apply obind_ext|]. intros d'. destruct (par_zip w _ _ _ _) as [c|] eqn:Ec; cbn; [|discriminate].
  intros [= <-]. split; [|reflexivity]. apply ok_with; auto. rewrite (Z2 c eq_refl). apply O.
Qed.
Lemma sub_workers (w w' : Worker) (a b : EvalDomain SM) : wf_worker w -> wf_worker w' -> ok_domain a ->
  sub_assign w a b = sub_assign w' a b /\ forall d', sub_assign w a b = Done d' -> ok_domain d' /\ d_exp d' = d_exp a.
Proof.
  intros Hw Hw' O. unfold sub_assign. destruct (Nat.eqb_spec (length (coeffs a)) (length (coeffs b))) as [L|]; [|split; [auto|discriminate]].
  destruct (zip_workers w w' (length (coeffs a)) (fun x y : SM => x -g y) (coeffs a) (coeffs b) gzero Hw Hw' (len_pos a O) L) as [Z1 Z2].
  unfold set_coeffs. split; [now apply obind_ext|]. intros d'. destruct (par_zip w _ _ _ _) as [c|] eqn:Ec; cbn; [|discriminate].
  intros [= <-]. split; [|reflexivity]. apply ok_with; auto. rewrite (Z2 c eq_refl). apply O.
Qed.
Lemma divide_workers (w w' : Worker) (a : EvalDomain SM) : wf_worker w -> wf_worker w' -> ok_domain a ->
  divide_by_z_on_coset w a = divide_by_z_on_coset w' a /\ forall d', divide_by_z_on_coset w a = Done d' -> ok_domain d'.
Proof.
  intros Hw Hw' O. unfold divide_by_z_on_coset. destruct (invert_unwrap _) as [i|]; cbn [obind]; [|split; [auto|discriminate]].
  rewrite !par_map_spec by (apply scope_chunk_pos; auto; now apply len_pos). split; auto. cbn. intros d' [= <-].
  apply ok_with; auto. rewrite map_length. apply O.
Qed.

Lemma from_coeffs_ok (l : list SM) d : from_coeffs l = Done (Ok d) -> ok_domain d.
Proof.
  destruct (least_pow_ex (length l)) as [e He]. pose proof (from_coeffs_spec l e He) as F. destruct (_ <? _).
  - destruct F as (d' & E1 & O & _). rewrite E1. now intros [= <-].
  - rewrite F. discriminate.
Qed.

Lemma prover_h_workers (w w' : Worker) (pa pb pc : list P) : wf_worker w -> wf_worker w' -> prover_h w pa pb pc = prover_h w' pa pb pc.
Proof.
  intros Hw Hw'. unfold prover_h.
  unfold obindr at 1 4. apply obind_ext; auto. intros [a|] Ea; auto. apply from_coeffs_ok in Ea.
  unfold obindr at 1 3. apply obind_ext; auto. intros [b|] Eb; auto. apply from_coeffs_ok in Eb.
  unfold obindr. apply obind_ext; auto. intros [c|] Ec; auto. apply from_coeffs_ok in Ec.
  destruct (ifft_workers w w' a Hw Hw' Ea) as [X Y]. apply obind_ext; auto. intros a1 Ha. destruct (Y _ Ha) as [Oa _]. clear X Y Ha Ea a.
  destruct (coset_workers w w' a1 Hw Hw' Oa) as [X Y]. apply obind_ext; auto. intros a2 Ha. destruct (Y _ Ha) as [Oa2 _]. clear X Y Ha Oa a1.
  destruct (ifft_workers w w' b Hw Hw' Eb) as [X Y]. apply obind_ext; auto. intros b1 Ha. destruct (Y _ Ha) as [Ob _]. clear X Y Ha Eb b.
  destruct (coset_workers w w' b1 Hw Hw' Ob) as [X Y]. apply obind_ext; auto. intros b2 Ha. destruct (Y _ Ha) as [Ob2 _]. clear X Y Ha Ob b1.
  destruct (ifft_workers w w' c Hw Hw' Ec) as [X Y]. apply obind_ext; auto. intros c1 Ha. destruct (Y _ Ha) as [Oc _]. clear X Y Ha Ec c.
  destruct (coset_workers w w' c1 Hw Hw' Oc) as [X Y]. apply obind_ext; auto. intros c2 Ha. destruct (Y _ Ha) as [Oc2 _]. clear X Y Ha Oc c1.
  destruct (mul_workers w w' a2 b2 Hw Hw' Oa2) as [X Y]. apply obind_ext; auto. intros a3 Ha. destruct (Y _ Ha) as [Oa3 _]. clear X Y Ha.
  destruct (sub_workers w w' a3 c2 Hw Hw' Oa3) as [X Y]. apply obind_ext; auto. intros a4 Ha. destruct (Y _ Ha) as [Oa4 _]. clear X Y Ha.
  destruct (divide_workers w w' a4 Hw Hw' Oa4) as [X Y]. apply obind_ext; auto. intros a5 Ha. pose proof (Y _ Ha) as Oa5. clear X Y Ha.
  apply obind_ext; auto. now apply icoset_workers.
Qed.

(** The same proof, the same error or the same panic with any number of threads, or with the single-threaded build: whatever the circuit
    (it need not be satisfied), the parameters (they need not be for this circuit) and the randomness. *)
Theorem C59_threads (w w' : Worker) (ln_ceil : Z -> nat) (circuit : prog P (res unit)) (params : Parameters E) r s :
  wf_worker w -> wf_worker w' -> create_proof w ln_ceil circuit params r s = create_proof w' ln_ceil circuit params r s.
Proof.
  intros Hw Hw'. unfold create_proof. unfold obindr at 1 9. apply obind_ext; auto. intros [t|e] _; auto.
  now rewrite (prover_h_workers w w').
Qed.

(** Two results of multiexponentiations, or two proofs: equal if one of them is a success. *)
Definition both_or_neither {A} (x y : outcome (res A)) : Prop :=
  (exists a, x = Done (Ok a) /\ y = Done (Ok a)) \/ (exists e e', x = Done (Err e) /\ y = Done (Err e')).

Lemma bon_refl {A} r : both_or_neither (A := A) (Done r) (Done r).
Proof. destruct r; [left|right]; eauto. Qed.
Lemma bon_bind {A B} (x x' : outcome (res A)) (f f' : A -> outcome (res B)) :
  both_or_neither x x' -> (forall a, both_or_neither (f a) (f' a)) -> both_or_neither (obindr x f) (obindr x' f').
Proof. intros [(a & -> & ->)|(e & e' & -> & ->)] H; cbn; auto. right. eauto. Qed.
Lemma bon_inner {M : FMod P} (bases : list M) start d (xs : list P) c c' : 0 < c < 64 -> 0 < c' < 64 ->
  both_or_neither (multiexp_inner bases start d (map exponent_of xs) c) (multiexp_inner bases start d (map exponent_of xs) c').
Proof.
  intros Hc Hc'. pose proof (multiexp_inner_errs bases start d xs c Hc) as X. pose proof (multiexp_inner_errs bases start d xs c' Hc') as Y. cbv zeta in X, Y.
  destruct X as [(e & -> & X)|(-> & X1 & X2)], Y as [(e' & -> & Y)|(-> & Y1 & Y2)].
  - right. eauto.
  - exfalso. tauto.
  - exfalso. tauto.
  - left. eauto.
Qed.

(** The logarithm that decides the size of the windows has no influence on the proof, or on whether there is one ... *)
Theorem C59_windows (w w' : Worker) (ln_ceil ln_ceil' : Z -> nat) (circuit : prog P (res unit)) (params : Parameters E) r s wit :
  wf_worker w -> wf_worker w' -> sane_ln_ceil ln_ceil -> sane_ln_ceil ln_ceil' -> assigns circuit wit -> addressable wit ->
  forall proof, create_proof w ln_ceil circuit params r s = Done (Ok proof) <-> create_proof w' ln_ceil' circuit params r s = Done (Ok proof).
Proof.
  intros Hw Hw' Hln Hln' Hwit (A1 & A2 & A3) proof. rewrite (C59_threads w' w) by auto.
  destruct (synthesize_prover circuit) as [[t|e]|] eqn:Et; [|unfold create_proof; rewrite Et; cbn; tauto..].
  destruct (prover_lengths _ _ _ Et Hwit) as (PI & La & Lb & Lc).
  destruct (least_pow_ex (List.length (p_cons wit))) as [e He]. pose proof He as He'. rewrite <- La in He'.
  pose proof (prover_h_total w (pa_a t) (pa_b t) (pa_c t) e Hw He' Lb Lc) as H.
  unfold create_proof. rewrite Et. cbn [obindr obind].
  destruct (Nat.ltb_spec e (two_adicity P)); [|rewrite H; cbn; tauto]. destruct H as (h & Eh & Lh). rewrite Eh. cbn [obindr obind].
  assert (Hlh : (Z.of_nat (List.length h) < 2 ^ 32)%Z).
  { pose proof (pow2_cap _ _ He A3). pose proof (pow2_gt0 e). lia. }
  rewrite (pi_inputs _ _ PI), (pi_aux _ _ PI). pose proof (pi_da _ _ PI) as [D1 _]. pose proof (pi_dbi _ _ PI) as [D2 _]. pose proof (pi_dba _ _ PI) as [D3 _].
  rewrite !start_ok by (intros ? Q; first [discriminate Q | injection Q as <-; assumption]). cbn [obind].
  destruct (_ || _)%bool; [tauto|].
  assert (Wi := window_ok _ _ Hln A1). assert (Wa := window_ok _ _ Hln A2). assert (Wh := window_ok _ _ Hln Hlh).
  assert (Wi' := window_ok _ _ Hln' A1). assert (Wa' := window_ok _ _ Hln' A2). assert (Wh' := window_ok _ _ Hln' Hlh).
  match goal with |- ?x = _ <-> ?y = _ => cut (both_or_neither x y) end.
  { intros [(a & -> & ->)|(e1 & e2 & -> & ->)]; [tauto|split; discriminate]. }
  repeat (apply bon_bind; [apply bon_inner; assumption|intros ?]). apply bon_refl.
Qed.

(** Generating parameters, too, gives the same with any number of threads (the single-threaded build: see C48). *)
Theorem C59_generator (n m : nat) circuit (g1 : E_G1 E) (g2 : E_G2 E) (alpha beta gamma delta tau : P) :
  wf_worker (Multicore n) -> wf_worker (Multicore m) ->
  generate_parameters (E := E) (Multicore n) circuit g1 g2 alpha beta gamma delta tau = generate_parameters (Multicore m) circuit g1 g2 alpha beta gamma delta tau.
Proof.
  intros Hn Hm. destruct (synthesize_keypair circuit) as [[s|err]|] eqn:Es; [|unfold generate_parameters; now rewrite Es..].
  destruct (generate_cases g1 g2 alpha beta gamma delta tau (Multicore n) circuit s Hn Es) as (ks & e & Ek & He & _ & _ & G & _).
  destruct (generate_cases g1 g2 alpha beta gamma delta tau (Multicore m) circuit s Hm Es) as (ks' & e' & Ek' & He' & _ & _ & G' & _).
  rewrite G, G' by discriminate. unfold describes in *. rewrite Ek in Ek'. injection Ek' as <-.
  assert (e' = e) by (apply (least_pow_unique (List.length (k_cons ks))); now apply PropDomain.domain_exponent_least). now subst e'.
Qed.
End C59.
Print Assumptions C59_threads.
Print Assumptions C59_windows.
Print Assumptions C59_generator.

(** ... though which error is reported can depend on the windows: 32 exponents, of which the first is 4096 and meets the identity; and there is
    no base for the second.  With windows of two bits the highest digit of 4096 is zero, and the end of the bases is reported; with windows of
    four bits it is not, and the identity is reported. *)
Definition c59_error {A} (x : outcome (res A)) : option SynthesisError := match x with Done (Err e) => Some e | _ => None end.
Theorem C59_error_kind_varies : exists ln_ceil ln_ceil' (bases : list (ScalarMod Fr64513)) (xs : list Fr64513),
  sane_ln_ceil ln_ceil /\ sane_ln_ceil ln_ceil' /\ length xs = 32 /\
  c59_error (multiexp ln_ceil bases 0 FullDensity (map exponent_of xs)) = Some (IoError UnexpectedEof) /\
  c59_error (multiexp ln_ceil' bases 0 FullDensity (map exponent_of xs)) = Some UnexpectedIdentity.
Proof.
  exists (fun _ => 2), (fun _ => 4), [fzero], (map (ofZ (p := Fr64513)) (4096 :: repeat 0 31)%Z).
  split; [intros n _; lia|]. split; [intros n _; lia|]. split; [reflexivity|]. split; vm_compute; reflexivity.
Qed.
Print Assumptions C59_error_kind_varies.

(** The circuit of [C37_ex]: its hypotheses hold, one, two and five threads and the single-threaded build all make a proof, with other logarithms. *)
Example C59_ex :
  assigns (circuit_of c06_calls) {| p_inputs := the_inputs c06_calls; p_aux := the_aux c06_calls; p_cons := all_constraints c06_calls |} /\
  match c37_params with
  | Done (Ok params) =>
      forallb (fun wl => match create_proof (fst wl) (fun _ => snd wl) (circuit_of c06_calls) params (ofZ 17) (ofZ 19) with
        | Done (Ok proof) => match verify_proof (prepare_verifying_key (p_vk params)) proof [ofZ 30] with Done (Ok _) => true | _ => false end
        | _ => false end)
        [(Multicore 1, 3); (Multicore 2, 7); (Multicore 5, 1); (Single, 63)] = true
  | _ => False
  end.
Proof.
  split; [apply (honest_synth c06_calls)|vm_compute; reflexivity].
Qed.
