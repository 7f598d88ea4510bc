(** Model of src/gadgets/multipack.rs. *)
From Coq Require Import String.
From Coq Require Import ZArith List Bool Lia Field.
From Verif Require Import Prelude PrimeField Circuit Loops BooleanGadget NumGadget Spec.
Import ListNotations.

Section Model.
Context {P : PrimeField}.
Local Open Scope F_scope.
Local Open Scope lc_scope.
Local Open Scope prog_scope.
Local Open Scope string_scope.

(** multipack.rs:17-22: the sum of the bits of one chunk, [(num, coeff)]. *)
Definition pack_step (acc : Num P * P) (bit : Boolean) : Num P * P :=
  let '(num, coeff) := acc in (num_add_bool num one_var bit coeff, fdouble coeff).
Definition pack_num (bits : list Boolean) : Num P := fst (fold_left pack_step bits (num_zero, 1)).

(** multipack.rs:16-34: the body of the outer loop. *)
Definition pack_chunk (i : nat) (_ : unit) (bits : list Boolean) : prog P (res unit) :=
  let num := pack_num bits in
  let* (input, _) := cs_alloc_input ("input " ++ nat_str i) (get (num_value num)) in
  cs_enforce ("packing constraint " ++ nat_str i) (num_lc num 1) (lc_zero +v one_var) (lc_zero +v input) ;;;
  Ret (Ok tt).

(** multipack.rs:11-37 [pack_into_inputs] *)
Definition pack_into_inputs (bits : list Boolean) : prog P (res unit) :=
  foldq pack_chunk 0 tt (chunks (capacity P) bits).

(** multipack.rs:39-44, 46-51; a byte is an integer in [0, 256). *)
Definition byte_bit (v : Z) (i : nat) : bool := Z.eqb (Z.land (Z.shiftr v (Z.of_nat i)) 1) 1.
Definition bytes_to_bits (bytes : list Z) : list bool :=
  flat_map (fun v => map (byte_bit v) (rev (seq 0 8))) bytes.
Definition bytes_to_bits_le (bytes : list Z) : list bool :=
  flat_map (fun v => map (byte_bit v) (seq 0 8)) bytes.

(** multipack.rs:57-65 *)
Definition multipack_step (acc : P * P) (bit : bool) : P * P :=
  let '(cur, coeff) := acc in ((if bit then cur + coeff else cur), fdouble coeff).
(** multipack.rs:53-72 [compute_multipacking] *)
Definition compute_multipacking (bits : list bool) : list P :=
  map (fun bits => fst (fold_left multipack_step bits (0, 1))) (chunks (capacity P) bits).

End Model.

Section Proofs.
Context {P : PrimeField}.
Local Open Scope F_scope.
Add Field PFfield_mp : (F_field P).

Lemma capacity_pos : (0 < capacity P)%nat.
Proof.
  unfold capacity. pose proof (num_bits_hi P) as H. pose proof (modulus_pos (P := P)).
  destruct (num_bits P) as [|[|n]]; [| |lia]; cbn in H; lia.
Qed.

Lemma multipack_fold bs : forall (cur coeff : P),
  fold_left multipack_step bs (cur, coeff) =
  (cur + coeff * ofZ (le2z bs), coeff * ofZ (2 ^ Z.of_nat (length bs))).
Proof.
  induction bs as [|b bs IH]; intros cur coeff; cbn [fold_left multipack_step length].
  - rewrite ofZ_pow2_0. cbn [le2z]. rewrite ofZ_0. f_equal; ring.
  - rewrite IH, ofZ_pow2_S. cbn [le2z]. rewrite ofZ_add, ofZ_mul, ofZ_2, ofZ_b2z.
    unfold fdouble. destruct b; cbn [fbit]; f_equal; ring.
Qed.

Lemma multipack_chunk bs : fst (fold_left multipack_step bs (0, 1)) = (ofZ (le2z bs) : P).
Proof. rewrite multipack_fold. cbn. ring. Qed.

Lemma compute_multipacking_eq bs :
  compute_multipacking bs = map (fun c => ofZ (le2z c) : P) (chunks (capacity P) bs).
Proof. apply map_ext. apply multipack_chunk. Qed.

(** Number and contents of the chunks. *)
Lemma chunks_length {A} n (l : list A) : (0 < n)%nat -> length (chunks n l) = Nat.div (length l + (n - 1)) n.
Proof.
  intros Hn. induction l as [|l Hl IH] using (chunks_ind n Hn).
  - cbn. symmetry. apply Nat.div_small. lia.
  - rewrite chunks_cons by auto. cbn [length]. rewrite IH, skipn_length.
    destruct (le_lt_dec n (length l)).
    + replace (length l + (n - 1))%nat with ((length l - n + (n - 1)) + 1 * n)%nat by lia.
      rewrite Nat.div_add by lia. lia.
    + replace (length l - n)%nat with 0%nat by lia. cbn [Nat.add]. rewrite (Nat.div_small (n - 1)) by lia.
      destruct l; [congruence|]. cbn [length] in *.
      replace (S (length l) + (n - 1))%nat with (length l + 1 * n)%nat by lia.
      rewrite Nat.div_add by lia. rewrite Nat.div_small by lia. lia.
Qed.

Lemma nth_chunks {A} n (l : list A) i : (0 < n)%nat ->
  nth i (chunks n l) [] = firstn n (skipn (i * n) l).
Proof.
  intros Hn. revert i. induction l as [|l Hl IH] using (chunks_ind n Hn); intros i.
  - rewrite chunks_nil, skipn_nil, firstn_nil. now destruct i.
  - rewrite chunks_cons by auto. destruct i as [|i]; [reflexivity|].
    cbn [nth]. rewrite IH. f_equal. rewrite <- (firstn_skipn n l) at 2.
    rewrite skipn_app. cbn [Nat.mul].
    destruct (le_lt_dec n (length l)) as [H|H].
    + rewrite (skipn_all2 (firstn n l)) by (rewrite firstn_length; lia). cbn [app]. f_equal. rewrite firstn_length. lia.
    + rewrite (skipn_all2 l) by lia. now rewrite !skipn_nil, (skipn_all2 (firstn n l)) by (rewrite firstn_length; lia).
Qed.

Lemma compute_multipacking_spec bs :
  compute_multipacking bs =
    map (fun i => ofZ (le_value (firstn (capacity P) (skipn (i * capacity P) bs))) : P)
        (seq 0 (Nat.div (length bs + (capacity P - 1)) (capacity P))).
Proof.
  pose proof capacity_pos as Hc. rewrite compute_multipacking_eq.
  apply nth_ext with (d := ofZ (le2z []) : P) (d' := ofZ (le2z []) : P).
  - rewrite !map_length, seq_length. now apply chunks_length.
  - intros i Hi. rewrite map_length, chunks_length in Hi by auto.
    rewrite nth_map_seq by auto. cbn [Nat.add]. rewrite (le_value_le2z (firstn _ _)), <- (nth_chunks (capacity P) bs i Hc).
    apply (map_nth (fun c => ofZ (le2z c) : P)).
Qed.

Lemma chunk_small bs c : In c (chunks (capacity P) bs) -> (0 <= le2z c < modulus P)%Z.
Proof.
  intros H. pose proof (pow2_capacity (P := P)). split; [apply le2z_nonneg|].
  assert (L : (length c <= capacity P)%nat).
  { revert H. pose proof capacity_pos as Hc.
    induction bs as [|l Hl IH] using (chunks_ind (capacity P) Hc); [intros []|].
    rewrite chunks_cons by auto. intros [<-|H]; [rewrite firstn_length; lia|auto]. }
  pose proof (le2z_bound c).
  assert (2 ^ Z.of_nat (length c) <= 2 ^ Z.of_nat (capacity P))%Z by (apply Z.pow_le_mono_r; lia). lia.
Qed.

Lemma compute_multipacking_inj bs bs' : length bs = length bs' ->
  compute_multipacking bs = (compute_multipacking bs' : list P) -> bs = bs'.
Proof.
  pose proof capacity_pos as Hc. revert bs'.
  induction bs as [|l Hl IH] using (chunks_ind (capacity P) Hc); intros bs' HL.
  - destruct bs'; [reflexivity|discriminate].
  - assert (bs' <> []) by (destruct bs', l; try discriminate; congruence).
    rewrite !compute_multipacking_eq. rewrite (chunks_cons _ l), (chunks_cons _ bs') by auto. cbn [map]. intros E. pose proof (f_equal (hd 0) E) as E1. pose proof (f_equal (@tl _) E) as E2. cbn [hd tl] in E1, E2.
    rewrite <- !compute_multipacking_eq in E2.
    apply ofZ_inj_small in E1;
      [|apply (chunk_small l); rewrite chunks_cons by auto; left; reflexivity
       |apply (chunk_small bs'); rewrite chunks_cons by auto; left; reflexivity].
    apply le2z_inj in E1; [|rewrite !firstn_length; lia].
    apply IH in E2; [|rewrite !skipn_length; lia].
    rewrite <- (firstn_skipn (capacity P) l), <- (firstn_skipn (capacity P) bs'). congruence.
Qed.

(** The [Num] of a chunk. *)
Lemma pack_fold_eval (rho : Var -> P) : rho one_var = 1 -> forall bits bs, Forall2 (bit_is rho) bits bs ->
  forall n coeff, eval rho (num_lc_ (fst (fold_left pack_step bits (n, coeff)))) = eval rho (num_lc_ n) + coeff * ofZ (le2z bs).
Proof.
  intros H1. induction 1 as [|a b bits bs Ha HF IH]; intros n coeff; cbn [fold_left pack_step fst].
  - cbn [le2z]. rewrite ofZ_0. ring.
  - rewrite IH, (num_add_bool_eval rho H1 _ _ _ _ Ha). cbn [le2z]. rewrite ofZ_add, ofZ_mul, ofZ_2, ofZ_b2z.
    unfold fdouble. ring.
Qed.

Lemma pack_num_eval (rho : Var -> P) bits bs : rho one_var = 1 -> Forall2 (bit_is rho) bits bs ->
  eval rho (num_lc_ (pack_num bits)) = ofZ (le2z bs).
Proof.
  intros H1 HF. unfold pack_num. rewrite (pack_fold_eval rho H1 _ _ HF). cbn [num_zero num_lc_].
  rewrite eval_zero. ring.
Qed.

Lemma pack_num_value bits bs : Forall2 (fun b x => b_value b = Some x) bits bs ->
  num_value (@pack_num P bits) = Some (ofZ (le2z bs)).
Proof.
  intros HF. unfold pack_num.
  assert (H : forall n (x coeff : P), num_value n = Some x ->
    num_value (fst (fold_left pack_step bits (n, coeff))) = Some (x + coeff * ofZ (le2z bs))).
  { induction HF as [|a b bits bs Ha HF IH]; intros n x coeff Hn; cbn [fold_left pack_step fst].
    - rewrite Hn. cbn [le2z]. rewrite ofZ_0. f_equal. ring.
    - rewrite (IH _ (if b then x + coeff else x)).
      + cbn [le2z]. rewrite ofZ_add, ofZ_mul, ofZ_2, ofZ_b2z. unfold fdouble. destruct b; cbn [fbit]; f_equal; ring.
      + cbn. rewrite Hn, Ha. destruct b; reflexivity. }
  rewrite (H _ 0 1); [f_equal; ring|reflexivity].
Qed.

(** Key generation. *)
Lemma pack_loop_shape cks : forall i (k : KState P),
  exists k' cs, run (ShapeCS P) (foldq pack_chunk i tt cks) k = Done (Ok tt, k') /\
    k_inputs k' = (k_inputs k + length cks)%nat /\ k_aux k' = k_aux k /\ k_cons k' = k_cons k ++ cs /\
    forall (rho : Var -> P) bcs, rho one_var = 1 -> Forall2 (Forall2 (bit_is rho)) cks bcs ->
      (sat rho cs <-> forall j, (j < length cks)%nat -> rho (Input (k_inputs k + j)) = ofZ (le2z (nth j bcs []))).
Proof.
  induction cks as [|c cks IH]; intros i k; cbn [foldq].
  - exists k, []. cbn. rewrite app_nil_r, Nat.add_0_r. repeat split; auto; try (intros; lia). constructor.
  - unfold bindq, pack_chunk at 1, cs_alloc_input, cs_enforce. cbn [bind].
    set (k1 := {| k_inputs := S (k_inputs k); k_aux := k_aux k;
       k_cons := k_cons k ++ [(num_lc (pack_num c) 1, lc_add_var lc_zero one_var, lc_add_var lc_zero (Input (k_inputs k)))] |}).
    destruct (IH (S i) k1) as (k' & cs & Hr & Hi & Ha & Hc & Hs).
    exists k'. eexists (_ :: cs). split; [exact Hr|]. cbn [length] in *. subst k1. cbn [k_inputs k_aux k_cons] in *.
    repeat split; [lia|auto|rewrite Hc, <- app_assoc; reflexivity|..].
    + intros Hsat j Hj. inversion H0 as [|? bs ? bcs' Hb HF]; subst. inversion Hsat as [|? ? Hh Ht]; subst.
      destruct j as [|j].
      * cbn [nth]. rewrite Nat.add_0_r. cbn in Hh. revert Hh. lcev. rewrite H, num_lc_eval, (pack_num_eval rho c bs H Hb).
        intros E. etransitivity; [|etransitivity; [symmetry; exact E|]]; ring.
      * cbn [nth]. rewrite <- (proj1 (Hs rho bcs' H HF) Ht j) by lia. f_equal. f_equal. lia.
    + intros Hj. inversion H0 as [|? bs ? bcs' Hb HF]; subst. constructor.
      * cbn. lcev. rewrite H, num_lc_eval, (pack_num_eval rho c bs H Hb).
        specialize (Hj 0%nat ltac:(lia)). rewrite Nat.add_0_r in Hj. cbn [nth] in Hj. rewrite Hj. ring.
      * apply (Hs rho bcs' H HF). intros j Hj'. specialize (Hj (S j) ltac:(lia)). cbn [nth] in Hj. rewrite <- Hj.
        f_equal. f_equal. lia.
Qed.

Lemma Forall2_firstn {A B} (R : A -> B -> Prop) n l m : Forall2 R l m -> Forall2 R (firstn n l) (firstn n m).
Proof. intros H. revert n. induction H; intros [|n]; cbn; constructor; auto. Qed.
Lemma Forall2_skipn {A B} (R : A -> B -> Prop) n l m : Forall2 R l m -> Forall2 R (skipn n l) (skipn n m).
Proof. intros H. revert n. induction H; intros [|n]; cbn; try constructor; auto. Qed.
Lemma Forall2_chunks {A B} (R : A -> B -> Prop) n l m : (0 < n)%nat -> Forall2 R l m ->
  Forall2 (Forall2 R) (chunks n l) (chunks n m).
Proof.
  intros Hn. revert m. induction l as [|l Hl IH] using (chunks_ind n Hn); intros m HF.
  - inversion HF. constructor.
  - assert (m <> []) by (inversion HF; congruence). rewrite (chunks_cons _ l), (chunks_cons _ m) by auto.
    constructor; [now apply Forall2_firstn|]. now apply IH, Forall2_skipn.
Qed.

Lemma pack_shape bits (k : KState P) :
  exists k' cs, run (ShapeCS P) (pack_into_inputs bits) k = Done (Ok tt, k') /\
    k_inputs k' = (k_inputs k + Nat.div (length bits + (capacity P - 1)) (capacity P))%nat /\
    k_aux k' = k_aux k /\ k_cons k' = k_cons k ++ cs /\
    forall (rho : Var -> P) bs, rho one_var = 1 -> Forall2 (den rho) bits bs ->
      (sat rho cs <-> map (fun j => rho (Input (k_inputs k + j))) (seq 0 (length (@compute_multipacking P bs))) =
                      compute_multipacking bs).
Proof.
  pose proof capacity_pos as Hc.
  destruct (pack_loop_shape (chunks (capacity P) bits) 0 k) as (k' & cs & Hr & Hi & Ha & Hk & Hs).
  exists k', cs. rewrite chunks_length in Hi by auto. repeat split; auto; intros H1.
  - apply nth_ext with (d := rho (Input (k_inputs k + 0))) (d' := ofZ (le2z []) : P); [now rewrite map_length, seq_length|].
    intros j Hj. rewrite map_length, seq_length in Hj. rewrite nth_map_seq by auto. cbn [Nat.add].
    assert (HF : Forall2 (bit_is rho) bits bs) by (eapply Forall2_impl; [|exact H0]; intros; now apply den_bit_is).
    pose proof (proj1 (Hs rho _ H (Forall2_chunks _ _ _ _ Hc HF)) H1) as E.
    rewrite compute_multipacking_eq in *. rewrite map_length in Hj. rewrite E.
    + symmetry. apply (map_nth (fun c => ofZ (le2z c) : P)).
    + rewrite chunks_length by auto. rewrite chunks_length in Hj by auto. rewrite (Forall2_length _ _ _ HF). exact Hj.
  - assert (HF : Forall2 (bit_is rho) bits bs) by (eapply Forall2_impl; [|exact H0]; intros; now apply den_bit_is).
    apply (Hs rho _ H (Forall2_chunks _ _ _ _ Hc HF)). intros j Hj.
    assert (Hj' : (j < length (@compute_multipacking P bs))%nat).
    { rewrite compute_multipacking_eq, map_length, chunks_length by auto. rewrite chunks_length in Hj by auto. now rewrite <- (Forall2_length _ _ _ HF). }
    pose proof (f_equal (fun l => nth j l (ofZ (le2z []) : P)) H1) as E. cbn beta in E.
    rewrite nth_map_seq in E by auto. cbn [Nat.add] in E. rewrite E, compute_multipacking_eq.
    apply (map_nth (fun c => ofZ (le2z c) : P)).
Qed.

(** Proving. *)
Lemma pack_loop_honest cks bcs : Forall2 (Forall2 (fun b x => b_value b = Some x)) cks bcs -> forall i (s : PState P),
  exists s' cs, run (HonestCS P) (foldq pack_chunk i tt cks) s = Done (Ok tt, s') /\
    p_inputs s' = p_inputs s ++ map (fun c => ofZ (le2z c)) bcs /\ p_aux s' = p_aux s /\ p_cons s' = p_cons s ++ cs.
Proof.
  induction 1 as [|c bc cks bcs Hc HF IH]; intros i s; cbn [foldq map].
  - exists s, []. now rewrite !app_nil_r.
  - unfold bindq, pack_chunk at 1, cs_alloc_input, cs_enforce. rewrite (pack_num_value _ _ Hc). cbn [bind get].
    set (s1 := {| p_inputs := p_inputs s ++ [ofZ (le2z bc)]; p_aux := p_aux s;
       p_cons := p_cons s ++ [(num_lc (pack_num c) 1, lc_add_var lc_zero one_var, lc_add_var lc_zero (Input (length (p_inputs s))))] |}).
    destruct (IH (S i) s1) as (s' & cs & Hr & Hi & Ha & Hk). subst s1.
    cbn [p_inputs p_aux p_cons] in *.
    exists s'. eexists. split; [exact Hr|]. rewrite Hi, Ha, Hk, <- !app_assoc. repeat split; reflexivity.
Qed.

Lemma pack_chunk_complete (rho : Var -> P) : rho one_var = 1 -> forall i c bc, Forall2 (bit_hon rho) c bc ->
  wpC rho (pack_chunk i tt c) (isOk (fun _ => True)).
Proof.
  intros H1 i c bc HF. unfold pack_chunk.
  assert (HV : Forall2 (fun b x => b_value b = Some x) c bc) by (eapply Forall2_impl; [|exact HF]; intros ? ? [_ H]; exact H).
  assert (HB : Forall2 (bit_is rho) c bc) by (eapply Forall2_impl; [|exact HF]; intros ? ? [H _]; exact H).
  rewrite (pack_num_value _ _ HV). eapply (wpC_alloc_input_q rho _ _ (ofZ (le2z bc))); [reflexivity|]. intros v Hv.
  apply wpC_enforce; [|exact I]. rewrite num_lc_eval, (pack_num_eval rho c bc H1 HB). lcev. rewrite H1, Hv. ring.
Qed.

Lemma pack_complete (rho : Var -> P) bits bs : rho one_var = 1 -> Forall2 (bit_hon rho) bits bs ->
  wpC rho (pack_into_inputs bits) (isOk (fun _ => True)).
Proof.
  intros H1 HF. unfold pack_into_inputs. pose proof (Forall2_chunks _ (capacity P) _ _ capacity_pos HF) as HC.
  clear HF. revert HC. generalize 0%nat as i. generalize (chunks (capacity P) bits) (chunks (capacity P) bs). intros cks bcs i HC. revert i.
  induction HC as [|c bc cks bcs Hc HC IH]; intros i; cbn [foldq]; [exact I|].
  eapply wpC_bindq'; [eapply pack_chunk_complete; eauto|]. intros [] _. apply IH.
Qed.

Lemma pack_chunk_gadget i u c : Gadget (@pack_chunk P i u c).
Proof. unfold pack_chunk. gadget. Qed.
Hint Resolve pack_chunk_gadget : struct_db.
Lemma pack_into_inputs_gadget bits : Gadget (@pack_into_inputs P bits).
Proof. unfold pack_into_inputs. gadget. Qed.
Hint Resolve pack_into_inputs_gadget : struct_db.

Lemma pack_num_sim bits bits' : Forall2 bsim bits bits' -> num_lc_ (@pack_num P bits) = num_lc_ (pack_num bits').
Proof.
  intros HF. unfold pack_num.
  assert (H : forall n n' (c : P), num_lc_ n = num_lc_ n' ->
    num_lc_ (fst (fold_left pack_step bits (n, c))) = num_lc_ (fst (fold_left pack_step bits' (n', c)))).
  { induction HF as [|a a' bits bits' Ha HF IH]; intros n n' c Hn; cbn [fold_left pack_step fst]; auto.
    apply IH. cbn. now rewrite Hn, (bsim_lc _ _ _ _ Ha). }
  now apply H.
Qed.

Lemma pack_into_inputs_sim bits bits' : Forall2 bsim bits bits' ->
  sim (@pack_into_inputs P bits) (pack_into_inputs bits') (resR (fun _ _ => True)).
Proof.
  intros HF. apply sim_foldq with (I := Forall2 bsim); [apply Forall2_chunks; auto using capacity_pos|exact I|].
  intros j [] [] c c' _ Hc. unfold pack_chunk. apply sim_alloc_input. intros v x _.
  apply sim_enforce; auto; [|exact I]. unfold num_lc. now rewrite (pack_num_sim _ _ Hc).
Qed.

Lemma pack_honest (s : PState P) bits bs : wf_state s -> Forall2 (den_known s) bits bs ->
  exists s' cs, run (HonestCS P) (pack_into_inputs bits) s = Done (Ok tt, s') /\
    p_inputs s' = p_inputs s ++ compute_multipacking bs /\ p_aux s' = p_aux s /\ p_cons s' = p_cons s ++ cs /\ sat (asg s') cs.
Proof.
  intros Hw HF.
  assert (HV : Forall2 (fun b x => b_value b = Some x) bits bs) by (eapply Forall2_impl; [|exact HF]; intros ? ? (_ & _ & H); exact H).
  destruct (pack_loop_honest _ _ (Forall2_chunks _ (capacity P) _ _ capacity_pos HV) 0 s) as (s' & cs & Hr & Hi & Ha & Hc).
  exists s', cs. rewrite compute_multipacking_eq. repeat split; auto.
  destruct (Complete_of (pack_into_inputs bits) s (fun _ _ => True) Hw (g_noeq (Gadget := pack_into_inputs_gadget bits))) as (r & s2 & cs2 & Hr2 & _ & Hc2 & Hs2 & _).
  - intros rho Hag H1. eapply pack_complete; eauto. eapply Forall2_impl; [|exact HF]. intros. eapply den_known_hon; eauto.
  - unfold pack_into_inputs in Hr2. rewrite Hr in Hr2. inversion Hr2; subst. rewrite Hc in Hc2. apply app_inv_head in Hc2. now subst.
Qed.

(** Bytes *)
Lemma byte_bit_testbit v i : byte_bit v i = Z.testbit v (Z.of_nat i).
Proof.
  unfold byte_bit. change 1%Z with (Z.ones 1) at 1. rewrite Z.land_ones by lia. change (2 ^ 1)%Z with 2%Z.
  rewrite <- Z.bit0_mod, Z.shiftr_spec by lia. cbn [Z.add]. destruct (Z.testbit v (Z.of_nat i)); reflexivity.
Qed.

Lemma nth_flat8 {A B} (f : A -> list B) (l : list A) d e : (forall a, length (f a) = 8%nat) -> forall i j, (i < length l)%nat -> (j < 8)%nat ->
  nth (8 * i + j) (flat_map f l) d = nth j (f (nth i l e)) d.
Proof.
  intros Hf. induction l as [|a l IH]; intros i j Hi Hj; [cbn in Hi; lia|]. cbn [flat_map].
  destruct i as [|i].
  - rewrite Nat.mul_0_r. cbn [Nat.add nth]. apply app_nth1. rewrite Hf; auto.
  - rewrite app_nth2 by (rewrite Hf; lia). rewrite Hf. replace (8 * S i + j - 8)%nat with (8 * i + j)%nat by lia.
    cbn [nth length] in *. apply IH; lia.
Qed.

Lemma bytes_to_bits_spec bytes i j : (i < length bytes)%nat -> (j < 8)%nat ->
  nth (8 * i + j) (bytes_to_bits bytes) false = Z.testbit (nth i bytes 0%Z) (Z.of_nat (7 - j)).
Proof.
  intros Hi Hj. unfold bytes_to_bits. rewrite (nth_flat8 _ _ _ 0%Z) by auto.
  cbn [seq rev app map]. do 8 (destruct j as [|j]; [cbn [nth]; apply byte_bit_testbit|]). lia.
Qed.
Lemma bytes_to_bits_le_spec bytes i j : (i < length bytes)%nat -> (j < 8)%nat ->
  nth (8 * i + j) (bytes_to_bits_le bytes) false = Z.testbit (nth i bytes 0%Z) (Z.of_nat j).
Proof.
  intros Hi Hj. unfold bytes_to_bits_le. rewrite (nth_flat8 _ _ _ 0%Z) by auto.
  cbn [seq rev app map]. do 8 (destruct j as [|j]; [cbn [nth]; apply byte_bit_testbit|]). lia.
Qed.
Lemma bytes_to_bits_length bytes : length (bytes_to_bits bytes) = (8 * length bytes)%nat.
Proof. induction bytes; cbn [bytes_to_bits flat_map length] in *; [reflexivity|]. rewrite app_length. unfold bytes_to_bits in IHbytes. rewrite IHbytes. cbn [length map rev seq app]. lia. Qed.
Lemma bytes_to_bits_le_length bytes : length (bytes_to_bits_le bytes) = (8 * length bytes)%nat.
Proof. induction bytes; cbn [bytes_to_bits_le flat_map length] in *; [reflexivity|]. rewrite app_length. unfold bytes_to_bits_le in IHbytes. rewrite IHbytes. cbn [length map rev seq app]. lia. Qed.

End Proofs.
#[export] Hint Resolve pack_into_inputs_gadget : struct_db.
