(** Property theorem C68: corner cases in which the library panics or does not come back. *)
From Coq Require Import String.
From Coq Require Import ZArith List Bool Lia Field.
From Verif Require Import Prelude PrimeField Fields FModule Circuit Multicore Multiexp MultiexpProof PropMultiexp Assembly AssemblyProof PropAssembly Groth16 Batch BatchProof PropVerifier.
Import ListNotations.
Local Open Scope nat_scope.

(** ** Specification *)
(** Every constraint only mentions variables allocated before it, except perhaps with coefficient 0. *)
Definition scoped_nonzero {P : PrimeField} (calls : list (call P)) : Prop :=
  forall before a b c after v k, calls = before ++ CallEnforce a b c :: after -> In (v, k) (a ++ b ++ c) -> k <> fzero ->
    match v with Input i => i < List.length (the_inputs before) | Aux i => i < List.length (the_aux before) end.

(** [f64::from(n).ln().ceil() as u32]: -oo for 0 and 0 for 1, both converted to 0, and between 1 and 23 for the other 32-bit numbers. *)
Definition ceil_ln (f : Z -> nat) : Prop := f 0%Z = 0 /\ f 1%Z = 0 /\ forall n, (2 <= n < 2 ^ 32)%Z -> 1 <= f n <= 23.

(** The non-zero ones among the first [n] values of a source of random field elements. *)
Definition nonzeros {P : PrimeField} (rng : nat -> P) (n : nat) : list P := filter (fun x => negb (feqb x fzero)) (map rng (seq 0 n)).

(** ** Auxiliary *)
Section Aux.
Context {P : PrimeField}.

Lemma pa_enforce_nz t ps a b c : PInv (P := P) t ps -> con_nz_ok (List.length (p_inputs ps)) (List.length (p_aux ps)) (a, b, c) ->
  exists t', m_enforce (ProvingCS P) t "" a b c = Done t'.
Proof.
  intros [I1 I2 I3 _ _ _ [L7 _] [L8 _] [L9 _]] (Oa & Ob & Oc). cbn [m_enforce ProvingCS sel_a sel_b sel_c fst snd] in *. rewrite I1, I2.
  destruct (pa_eval_total (p_inputs ps) (p_aux ps) a None (Some (a_aux_density t)) fzero) as ([[x1 x2] x3] & ->); cbn; auto.
  destruct (pa_eval_total (p_inputs ps) (p_aux ps) b (Some (b_input_density t)) (Some (b_aux_density t)) fzero) as ([[y1 y2] y3] & ->); cbn; auto.
  destruct (pa_eval_total (p_inputs ps) (p_aux ps) c None None fzero) as ([[z1 z2] z3] & ->); cbn; auto. eauto.
Qed.

Lemma nz_inv (calls : list (call P)) x : scoped_nonzero (calls ++ [x]) -> scoped_nonzero calls /\
  (forall a b c, x = CallEnforce a b c -> con_nz_ok (List.length (the_inputs calls)) (List.length (the_aux calls)) (a, b, c)).
Proof.
  intros H. split.
  - intros before a b c after v k -> Hv. apply (H before a b c (after ++ [x]) v k); auto. rewrite <- app_assoc. reflexivity.
  - intros a b c ->. assert (X : forall v k, In (v, k) (a ++ b ++ c) -> k <> fzero -> v_ok (List.length (the_inputs calls)) (List.length (the_aux calls)) v).
    { intros v k Hv Hk. specialize (H calls a b c [] v k eq_refl Hv Hk). destruct v; exact H. }
    repeat split; apply Forall_forall; intros [v k] Ht Hk; cbn [fst snd sel_a sel_b sel_c] in *; apply (X v k); auto; rewrite !in_app_iff; auto.
Qed.
Lemma nz_snoc (calls : list (call P)) x : scoped_nonzero calls ->
  (forall a b c, x = CallEnforce a b c -> con_nz_ok (List.length (the_inputs calls)) (List.length (the_aux calls)) (a, b, c)) -> scoped_nonzero (calls ++ [x]).
Proof.
  intros H Hx before a b c after v k E Hv Hk. destruct after as [|y after] using rev_ind.
  - apply app_inj_tail in E as [E1 E2]; subst before x. destruct (Hx _ _ _ eq_refl) as (Oa & Ob & Oc). unfold lc_nz_ok in *. rewrite Forall_forall in Oa, Ob, Oc.
    rewrite !in_app_iff in Hv. specialize (Oa (v, k)). specialize (Ob (v, k)). specialize (Oc (v, k)).
    cbn [sel_a sel_b sel_c fst snd] in *. assert (V : v_ok (List.length (the_inputs calls)) (List.length (the_aux calls)) v) by tauto.
    destruct v; exact V.
  - clear IHafter. change (CallEnforce a b c :: after ++ [y]) with ((CallEnforce a b c :: after) ++ [y]) in E. rewrite app_assoc in E.
    apply app_inj_tail in E as [-> _]. eapply H; eauto.
Qed.

Definition state_at (calls : list (call P)) : PState P := {| p_inputs := the_inputs calls; p_aux := the_aux calls; p_cons := the_constraints calls |}.
Definition step_pa (x : call P) (s : ProvingAssignment P) : outcome (ProvingAssignment P) :=
  match x with
  | CallAlloc v => obind (m_alloc (ProvingCS P) s "" (Ok v)) (fun r => Done (fst (fst r)))
  | CallAllocInput v => obind (m_alloc_input (ProvingCS P) s "" (Ok v)) (fun r => Done (fst (fst r)))
  | CallEnforce a b c => m_enforce (ProvingCS P) s "" a b c
  end.
Fixpoint steps_pa (calls : list (call P)) (s : ProvingAssignment P) : outcome (ProvingAssignment P) :=
  match calls with [] => Done s | x :: t => obind (step_pa x s) (steps_pa t) end.
Lemma run_steps_pa calls : forall s, run (ProvingCS P) (circuit_of calls) s = obind (steps_pa calls s) (fun s => Done (Ok tt, s)).
Proof.
  induction calls as [|[x|x|a b c] calls IH]; intros s; cbn [circuit_of run steps_pa step_pa]; auto.
  - cbn [m_alloc ProvingCS obind fst snd]. apply IH.
  - cbn [m_alloc_input ProvingCS obind fst snd]. apply IH.
  - destruct (m_enforce (ProvingCS P) s "" a b c) as [s'|]; cbn [obind]; auto.
Qed.
Lemma steps_pa_app c1 : forall c2 s, steps_pa (c1 ++ c2) s = obind (steps_pa c1 s) (steps_pa c2).
Proof. induction c1 as [|x c1 IH]; intros c2 s; cbn [app steps_pa obind]; auto. destruct (step_pa x s); cbn [obind]; auto. Qed.
Definition pa_start : ProvingAssignment P := match m_alloc_input (ProvingCS P) pa_new "" (Ok fone) with Done r => fst (fst r) | Panicked => pa_new end.

Lemma steps_pa_spec calls :
  match steps_pa calls pa_start with
  | Done s => scoped_nonzero calls /\ PInv s (state_at calls)
  | Panicked => ~ scoped_nonzero calls
  end.
Proof.
  induction calls as [|x calls IH] using rev_ind.
  - cbn [steps_pa]. split.
    + intros before a b c after v k E. destruct before; discriminate.
    + destruct (PInv_alloc_input (P := P) pa_new honest_new "" (Ok fone) _ _ _ PInv_new eq_refl) as (ps1 & Ep & PI1). injection Ep as <-. exact PI1.
  - rewrite steps_pa_app. destruct (steps_pa calls pa_start) as [s|] eqn:Es; cbn [obind].
    + destruct IH as [Sc I]. cbn [steps_pa obind].
      assert (F : state_at (calls ++ [x]) = {| p_inputs := the_inputs calls ++ match x with CallAllocInput v => [v] | _ => [] end;
         p_aux := the_aux calls ++ match x with CallAlloc v => [v] | _ => [] end;
         p_cons := the_constraints calls ++ match x with CallEnforce a b c => [(a, b, c)] | _ => [] end |}).
      { unfold state_at, the_inputs, the_aux, the_constraints. rewrite !flat_map_app. cbn [flat_map]. rewrite !app_nil_r. destruct x; reflexivity. }
      destruct x as [v|v|a b c]; cbn [step_pa].
      * destruct (PInv_alloc s (state_at calls) "" (Ok v) _ _ _ I eq_refl) as (s2 & E2 & I2). cbn [m_alloc ProvingCS obind fst] in *.
        split; [apply nz_snoc; auto; discriminate|]. rewrite F, !app_nil_r. injection E2 as <- _. exact I2.
      * destruct (PInv_alloc_input s (state_at calls) "" (Ok v) _ _ _ I eq_refl) as (s2 & E2 & I2). cbn [m_alloc_input ProvingCS obind fst] in *.
        split; [apply nz_snoc; auto; discriminate|]. rewrite F, !app_nil_r. injection E2 as <- _. exact I2.
      * destruct (m_enforce (ProvingCS P) s "" a b c) as [s'|] eqn:E; cbn [obind].
        -- destruct (PInv_enforce _ _ _ _ _ _ _ I E) as (s2 & E2 & I2). injection E2 as <-. rewrite F, !app_nil_r. split; [|exact I2].
           apply nz_snoc; auto. intros a' b' c' [= <- <- <-]. pose proof (pi_ok _ _ I2) as K. cbn [p_cons p_inputs p_aux] in K.
           apply Forall_app in K as [_ K]. now inversion K.
        -- intros Hs. apply nz_inv in Hs as [_ Hs]. destruct (pa_enforce_nz s _ a b c I (Hs a b c eq_refl)) as (s' & E'). congruence.
    + intros Hs. apply IH. now apply nz_inv in Hs.
Qed.
Lemma prover_unfold (calls : list (call P)) : synthesize_prover (circuit_of calls) = obind (steps_pa calls pa_start) (fun s =>
     obind (enforce_inputs (ProvingCS P) (seq 0 (List.length (input_assignment s))) s) (fun s => Done (Ok s))).
Proof.
  unfold synthesize_prover, synthesize, bindq, cs_alloc_input. cbn [bind run m_alloc_input ProvingCS obind fst snd].
  rewrite run_steps_pa. unfold pa_start. cbn [m_alloc_input ProvingCS fst]. destruct (steps_pa calls _); reflexivity.
Qed.
End Aux.

(** * C68 *)
(** The prover accepts a sequence of calls exactly when variables are allocated before they occur with a coefficient other than 0, and panics
    otherwise; the key generator also panics if they occur with coefficient 0 ([C06_keygen_defined]). *)
Theorem C68_prover_defined {P : PrimeField} (calls : list (call P)) :
  (scoped_nonzero calls -> exists t, synthesize_prover (circuit_of calls) = Done (Ok t)) /\
  (~ scoped_nonzero calls -> synthesize_prover (circuit_of calls) = Panicked) /\
  (scoped calls -> scoped_nonzero calls).
Proof.
  rewrite prover_unfold. pose proof (steps_pa_spec calls) as X. split; [|split].
  - intros Hs. destruct (steps_pa calls pa_start) as [s|]; [|contradiction]. destruct X as [_ I]. cbn [obind].
    destruct (pa_enforce_inputs_total (seq 0 (List.length (input_assignment s))) s _ I) as (s' & ->); [|cbn; eauto].
    intros i Hi. apply in_seq in Hi. rewrite (pi_inputs _ _ I) in Hi. lia.
  - intros Hs. destruct (steps_pa calls pa_start) as [s|]; [tauto|reflexivity].
  - intros H before a b c after v k E Hv _. apply (H before a b c after v E). apply in_map_iff. exists (v, k). auto.
Qed.
Print Assumptions C68_prover_defined.

(** [multiexp] with any number of exponents: it panics exactly if the density has another length or the number of exponents is at least 32 and
    0 or 1 modulo 2^32; otherwise, with sufficient bases, none of them that is used the identity, the result is the sum. *)
Theorem C68_multiexp {P : PrimeField} {M : FMod P} ln_ceil (bases : list M) (start : nat) (density : option (list bool)) (xs : list P) : ceil_ln ln_ceil ->
  let call := multiexp ln_ceil bases start (as_density density) (map exponent_of xs) in
  let fits := forall bits, density = Some bits -> length bits = length xs in
  let too_many := 32 <= length xs /\ (Z.of_nat (length xs) mod 2 ^ 32 = 0 \/ Z.of_nat (length xs) mod 2 ^ 32 = 1)%Z in
  let ys := dense_exponents xs density in
  (call = Panicked <-> ~ fits \/ too_many) /\
  (fits -> ~ too_many -> start + length ys <= length bases ->
     (forall i, i < length ys -> nth i ys fzero <> fzero -> nth (start + i) bases gzero <> gzero) -> call = Done (Ok (naive_sum bases start ys))).
Proof.
  intros (L0 & L1 & L2). cbv zeta.
  set (too_many := 32 <= length xs /\ _).
  assert (HW : (too_many /\ window_size ln_ceil (length xs) = 0) \/ (~ too_many /\ 1 <= window_size ln_ceil (length xs) <= 63)).
  { unfold window_size. pose proof (Z.mod_pos_bound (Z.of_nat (length xs)) (2 ^ 32) ltac:(lia)) as Hm.
    destruct (Nat.ltb_spec (length xs) 32); [right; split; [intros [H1 _]; lia|lia]|].
    destruct (Z.eq_dec (Z.of_nat (length xs) mod 2 ^ 32) 0) as [E|N0]; [left; rewrite E; split; [split; auto|exact L0]|].
    destruct (Z.eq_dec (Z.of_nat (length xs) mod 2 ^ 32) 1) as [E|N1]; [left; rewrite E; split; [split; auto|exact L1]|].
    right. split; [intros [_ [?|?]]; contradiction|]. specialize (L2 (Z.of_nat (length xs) mod 2 ^ 32)%Z ltac:(lia)). lia. }
  assert (D : (forall bits, density = Some bits -> length bits = length xs) \/ exists bits, density = Some bits /\ length bits <> length xs).
  { destruct density as [bits|]; [|left; discriminate]. destruct (Nat.eq_dec (length bits) (length xs)); [left; intros ? [= <-]; auto|right; eauto]. }
  destruct D as [D|(bits & -> & D)].
  - rewrite multiexp_unfold by exact D. destruct HW as [[Ht W]|[Ht W]].
    + split; [|contradiction]. rewrite W. cbn. split; auto.
    + split.
      * split; [|intros [X|X]; [destruct (X D)|contradiction]]. intros E.
        destruct (multiexp_inner_errs bases start (as_density density) xs (window_size ln_ceil (length xs)) ltac:(lia)) as [(e & E' & _)|(E' & _)]; rewrite E' in E; discriminate.
      * intros _ _ Hs Hb. now apply C32_every_window.
  - split.
    + split; [intros _; left; intros X; exact (D (X bits eq_refl))|]. intros _. unfold multiexp. cbn [as_density get_query_size]. rewrite map_length.
      destruct (Nat.eqb_spec (length bits) (length xs)); [contradiction|reflexivity].
    + intros X. destruct (D (X bits eq_refl)).
Qed.
Print Assumptions C68_multiexp.

(** Batch verification of items with the right number of inputs comes back exactly if the source yields, sooner or later, as many non-zero values
    as there are items; with a source of zeros only it never does. *)
Section Batch68.
Context {P : PrimeField} {E : Engine P} (M : Miller E).
Definition nz_from (rng : nat -> P) (pos n : nat) : list P := filter (fun x => negb (feqb x fzero)) (map rng (seq pos n)).
Lemma nz_split (rng : nat -> P) pos a b : nz_from rng pos (a + b) = nz_from rng pos a ++ nz_from rng (pos + a) b.
Proof. unfold nz_from. now rewrite seq_app, map_app, filter_app. Qed.

Lemma step_total (acc : Acc E) (item : Item E) zc : gammas acc <> [] -> exists acc', step acc item zc = Done acc' /\ gammas acc' <> [].
Proof.
  intros H. unfold step, acc_gammas. destruct (gammas acc) as [|g gs]; [contradiction|]. cbn [obind]. eexists. split; [reflexivity|]. cbn. discriminate.
Qed.
Lemma loop_needs fuel rng (items : list (Item E)) : forall pos acc, gammas acc <> [] -> verify_loop fuel rng pos acc items <> None ->
  exists n, length items <= length (nz_from rng pos n).
Proof.
  induction items as [|item items IH]; intros pos acc Hg H; [exists 0; cbn; lia|]. cbn [verify_loop] in H.
  destruct (draw fuel rng pos) as [[zc pos']|] eqn:Ed; [|congruence]. destruct (step_total acc item zc Hg) as (acc' & Es & Hg'). rewrite Es in H.
  destruct (IH pos' acc' Hg' H) as (n & Hn). destruct (draw_spec _ _ _ _ _ Ed) as (Hp & _ & Hf). exists (pos' - pos + n). rewrite nz_split, app_length.
  replace (pos + (pos' - pos)) with pos' by lia. unfold nz_from at 1. rewrite Hf. cbn [length]. lia.
Qed.
Lemma loop_suffices rng (items : list (Item E)) : forall pos acc n, gammas acc <> [] -> length items <= length (nz_from rng pos n) ->
  exists fuel0, forall fuel, fuel0 <= fuel -> verify_loop fuel rng pos acc items <> None.
Proof.
  induction items as [|item items IH]; intros pos acc n Hg H; [exists 0; intros; cbn; discriminate|]. cbn [length] in H.
  assert (Hk : exists k, pos <= k < pos + n /\ rng k <> fzero).
  { destruct (nz_from rng pos n) as [|x l] eqn:En; [cbn in H; lia|]. assert (Hx : In x (nz_from rng pos n)) by (rewrite En; now left).
    unfold nz_from in Hx. apply filter_In in Hx as [Hx Hz]. apply in_map_iff in Hx as (k & <- & Hk). apply in_seq in Hk. exists k. split; [lia|].
    intros Hc. rewrite Hc in Hz. destruct (feqb_spec (fzero : P) fzero); [discriminate|congruence]. }
  destruct Hk as (k & Hk & Hz). destruct (draw_exists rng k pos ltac:(lia) Hz) as (zc & pos' & Lp & Hd).
  assert (Ed : draw (S k) rng pos = Some (zc, pos')) by (apply Hd; lia). destruct (draw_spec _ _ _ _ _ Ed) as (Hp & _ & Hf).
  destruct (step_total acc item zc Hg) as (acc' & Es & Hg').
  destruct (IH pos' acc' (n - (pos' - pos)) Hg') as (f0 & H0).
  { replace n with (pos' - pos + (n - (pos' - pos))) in H by lia. rewrite nz_split, app_length in H. replace (pos + (pos' - pos)) with pos' in H by lia.
    unfold nz_from at 1 in H. rewrite Hf in H. cbn [length] in H. lia. }
  exists (Nat.max f0 (S k)). intros fuel Hf'. cbn [verify_loop]. rewrite Hd by lia. rewrite Es. apply H0. lia.
Qed.

Theorem C68_batch (vk : VerifyingKey E) (items : list (Item E)) (rng : nat -> P) :
  Forall (fun item => length (item_inputs item) + 1 = length (ic vk)) items ->
  ((exists fuel, verify M fuel rng items vk <> None) <-> exists n, length items <= length (nonzeros rng n)).
Proof.
  intros Hi. assert (Hw : existsb (wrong_inputs vk) items = false).
  { induction Hi as [|item items H _ IH]; [reflexivity|]. cbn [existsb]. unfold wrong_inputs at 1. now rewrite H, Nat.eqb_refl, IH. }
  set (acc0 := mkAcc (E := E) [] (repeat fzero (length (ic vk))) gzero fzero).
  destruct items as [|item items]; [split; [exists 0; cbn; lia|]; intros _; exists 0; unfold verify; rewrite Hw; cbn; discriminate|].
  assert (Hg : gammas acc0 <> []).
  { inversion_clear Hi as [|? ? H _]. cbn [acc0 gammas]. rewrite <- H, Nat.add_1_r. discriminate. }
  assert (HV : forall fuel, verify M fuel rng (item :: items) vk <> None <-> verify_loop fuel rng 0 acc0 (item :: items) <> None).
  { intros fuel. unfold verify. rewrite Hw. fold acc0. destruct (verify_loop fuel rng 0 acc0 (item :: items)) as [[acc|]|]; split; congruence. }
  split.
  - intros (fuel & H). apply HV in H. exact (loop_needs fuel rng _ 0 acc0 Hg H).
  - intros (n & H). destruct (loop_suffices rng _ 0 acc0 n Hg H) as (f0 & H0). exists f0. apply HV, H0. lia.
Qed.
End Batch68.
Print Assumptions C68_batch.

(** ** Examples *)
Definition panics {A} (o : outcome A) : bool := match o with Panicked => true | Done _ => false end.
Lemma panics_eq {A} (o : outcome A) : panics o = true -> o = Panicked.
Proof. destruct o; [discriminate|reflexivity]. Qed.
(** An unallocated variable with coefficient 0: the prover accepts, the key generator panics; with coefficient 1 both panic. *)
Definition c68_calls (k : Z) : list (call Fr64513) := [CallAlloc (ofZ 3); CallEnforce [(Aux 0, fone); (Aux 5, ofZ k)] [(Input 0, fone)] [(Aux 0, fone)]].
Example C68_prover_ex :
  match synthesize_prover (circuit_of (c68_calls 0)) with Done (Ok t) => map toZ (pa_a t) = [3; 1]%Z | _ => False end /\
  synthesize_keypair (circuit_of (c68_calls 0)) = Panicked /\
  synthesize_prover (circuit_of (c68_calls 1)) = Panicked /\
  scoped_nonzero (c68_calls 0) /\ ~ scoped (c68_calls 0) /\ ~ scoped_nonzero (c68_calls 1).
Proof.
  assert (E1 : synthesize_keypair (circuit_of (c68_calls 0)) = Panicked) by (apply panics_eq; vm_compute; reflexivity).
  assert (E2 : synthesize_prover (circuit_of (c68_calls 1)) = Panicked) by (apply panics_eq; vm_compute; reflexivity).
  split; [vm_compute; reflexivity|]. split; [exact E1|]. split; [exact E2|]. split; [|split].
  - apply (nz_snoc [CallAlloc (ofZ 3)]).
    + intros before a b c after v k E. destruct before as [|x [|y before]]; discriminate.
    + intros a b c [= <- <- <-].
      unfold con_nz_ok, lc_nz_ok. cbn [fst snd sel_a sel_b sel_c]. split; [|split]; repeat (apply Forall_cons; [intros Hk; cbn [fst snd] in Hk |- *|]); try apply Forall_nil.
      * cbn. lia.
      * destruct Hk. apply toZ_inj. vm_compute. reflexivity.
      * cbn. lia.
      * cbn. lia.
  - intros H. destruct (proj1 (C06_keygen_defined _) H) as (s & Es). congruence.
  - intros H. destruct (C68_prover_defined (c68_calls 1)) as [D _]. destruct (D H) as (s & Es). congruence.
Qed.

(** A function with the values required of [ln] and [ceil], and 2^32 exponents. *)
Definition c68_ln (n : Z) : nat := Z.to_nat (if (n <? 2)%Z then 0 else (Z.log2_up n * 7 + 6) / 10).
Example C68_multiexp_ex : ceil_ln c68_ln /\
  (exists xs : list Fr64513, Z.of_nat (length xs) = (2 ^ 32)%Z /\
     multiexp (M := ScalarMod Fr64513) c68_ln [] 0 (as_density None) (map exponent_of xs) = Panicked) /\
  match multiexp (M := ScalarMod Fr64513) c68_ln (map (ofZ (p := Fr64513)) [2; 3]%Z) 0 FullDensity (map exponent_of (map (ofZ (p := Fr64513)) [5; 7]%Z)) with
  | Done (Ok r) => toZ (r : Fr64513) = 31%Z | _ => False end.
Proof.
  assert (L : ceil_ln c68_ln).
  { split; [reflexivity|]. split; [reflexivity|]. intros n Hn. unfold c68_ln. destruct (Z.ltb_spec n 2); [lia|].
    assert (1 <= Z.log2_up n <= 32)%Z.
    { split; [change 1%Z with (Z.log2_up 2); apply Z.log2_up_le_mono; lia|]. apply Z.log2_up_le_pow2; lia. }
    pose proof (Z.div_le_lower_bound (Z.log2_up n * 7 + 6) 10 1 ltac:(lia) ltac:(lia)).
    pose proof (Z.div_le_upper_bound (Z.log2_up n * 7 + 6) 10 23 ltac:(lia) ltac:(lia)). lia. }
  split; [exact L|]. split; [|vm_compute; reflexivity].
  destruct (Z_of_nat_complete (2 ^ 32)) as (m & Hm); [lia|].
  assert (Hl : Z.of_nat (length (repeat (fone : Fr64513) m)) = (2 ^ 32)%Z) by (rewrite repeat_length; symmetry; exact Hm).
  clear Hm. generalize dependent (repeat (fone : Fr64513) m). intros xs Hl. exists xs. split; [exact Hl|].
  destruct (C68_multiexp (M := ScalarMod Fr64513) c68_ln [] 0 None xs L) as [H _]. apply H. right. split; [lia|]. left. rewrite Hl. reflexivity.
Qed.

Lemma one_nonzero {P : PrimeField} (rng : nat -> P) (j : nat) : (forall k, k <> j -> rng k = fzero) -> forall n, length (nonzeros rng n) <= 1.
Proof.
  intros H n. assert (Z0 : negb (feqb (fzero : P) fzero) = false) by (destruct (feqb_spec (fzero : P) fzero); [reflexivity|congruence]).
  assert (K : forall m k, length (nz_from rng k m) <= 1 /\ (j < k -> length (nz_from rng k m) = 0)).
  { induction m as [|m IH]; intros k; unfold nz_from in *; cbn [seq map filter length]; [split; lia|]. destruct (IH (S k)) as [A B].
    destruct (Nat.eq_dec k j) as [->|Hk].
    - specialize (B ltac:(lia)). destruct (negb (feqb (rng j) fzero)); cbn [length]; split; lia.
    - rewrite (H k Hk), Z0. split; [exact A|]. intros L. apply B. lia. }
  exact (proj1 (K n 0)).
Qed.
(** Two items: a source with two non-zero values comes back, one with a single one does not, nor does a source of zeros. *)
Example C68_batch_ex :
  let items := [c38_item 25 4; c38_item 25 4] in
  let rng (l : list nat) n := if existsb (Nat.eqb n) l then ofZ (p := Fr64513) 9 else fzero in
  Forall (fun item => length (item_inputs item) + 1 = length (ic c38_vk)) items /\
  verify (DummyMiller Fr64513) 10 (rng [3; 7]) items c38_vk = Some (Done (Ok tt)) /\
  (forall fuel, verify (DummyMiller Fr64513) fuel (rng [3]) items c38_vk = None) /\
  (forall fuel, verify (DummyMiller Fr64513) fuel (fun _ => fzero) items c38_vk = None).
Proof.
  cbv zeta. assert (F : Forall (fun item => length (item_inputs item) + 1 = length (ic c38_vk)) [c38_item 25 4; c38_item 25 4]) by (repeat constructor).
  assert (K : forall rng : nat -> Fr64513, (forall n, length (nonzeros rng n) <= 1) -> forall fuel, verify (DummyMiller Fr64513) fuel rng [c38_item 25 4; c38_item 25 4] c38_vk = None).
  { intros rng Hr fuel. destruct (verify (DummyMiller Fr64513) fuel rng [c38_item 25 4; c38_item 25 4] c38_vk) eqn:Ev; [exfalso|reflexivity].
    destruct (proj1 (C68_batch (DummyMiller Fr64513) c38_vk _ rng F)) as (n & Hn); [exists fuel; congruence|]. specialize (Hr n). cbn [length] in Hn. lia. }
  split; [exact F|]. split; [vm_compute; reflexivity|].
  assert (Z0 : negb (feqb (fzero : Fr64513) fzero) = false) by (destruct (feqb_spec (fzero : Fr64513) fzero); [reflexivity|congruence]).
  split; apply K; intros n; unfold nonzeros.
  - apply (one_nonzero _ 3). intros k Hk. cbn [existsb]. destruct (Nat.eqb_spec k 3); [contradiction|reflexivity].
  - assert (H : forall l, filter (fun x : Fr64513 => negb (feqb x fzero)) (map (fun _ : nat => fzero) l) = []) by (induction l; cbn [map filter]; [reflexivity|rewrite Z0; auto]).
    rewrite H. cbn. lia.
Qed.
