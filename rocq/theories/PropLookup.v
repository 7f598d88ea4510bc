(** Property theorems C16-C18: table lookups and input packing (src/gadgets/lookup.rs, multipack.rs). *)
From Coq Require Import String.
From Coq Require Import ZArith List Bool Lia Field.
From Verif Require Import Prelude PrimeField Zp Fields Circuit Loops BooleanGadget NumGadget Spec LookupGadget Multipack.
Import ListNotations.
Local Open Scope F_scope.

(** The index denoted by bits, least significant first. *)
Definition table_index (bs : list bool) : nat := Z.to_nat (le_value bs).

(** * C16 *)

Theorem C16_lookup_sound (P : PrimeField) (bits : list Boolean) (coords : list (P * P)) :
  Sound (lookup3_xy bits coords) (fun rho r => forall bs, Forall2 (den rho) bits bs ->
    nth_error coords (table_index bs) = Some (rho (an_var (fst r)), rho (an_var (snd r)))).
Proof.
  intros rho r cs He H1 Hs bs HF.
  destruct HF as [|b0 x ? ? H0 HF]; [inversion He|].
  destruct HF as [|b1 y ? ? Hy HF]; [inversion He|].
  destruct HF as [|b2 z ? ? Hz HF]; [inversion He|].
  destruct HF as [|b3 t ? ? Ht HF]; [|inversion He].
  assert (HL : length coords = 8%nat).
  { unfold lookup3_xy in He. destruct (Nat.eqb_spec (length coords) 8); [auto|inversion He]. }
  pose proof (wpS_emits rho _ _ _ _ (lookup3_xy_sound rho H1 True b0 b1 b2 coords x y z
    (proj1 (den_bit_is _ _ _) H0) (proj1 (den_bit_is _ _ _) Hy) (proj1 (den_bit_is _ _ _) Hz)) He Hs) as E.
  cbn in E. rewrite E. replace (table_index [x; y; z]) with (idx3 x y z) by (destruct x, y, z; reflexivity).
  apply nth_error_nth'. rewrite HL. apply idx3_lt.
Qed.
Print Assumptions C16_lookup_sound.

Theorem C16_lookup_complete (P : PrimeField) (s : PState P) (bits : list Boolean) (bs : list bool) (coords : list (P * P)) (x y : P) :
  wf_state s -> length bits = 3%nat -> length coords = 8%nat -> Forall2 (den_known s) bits bs ->
  nth_error coords (table_index bs) = Some (x, y) ->
  Complete (lookup3_xy bits coords) s (fun rho r =>
    rho (an_var (fst r)) = x /\ an_value (fst r) = Some x /\ rho (an_var (snd r)) = y /\ an_value (snd r) = Some y).
Proof.
  intros Hw HL HC HF Hn. apply Complete_of; [auto|auto with struct_db|]. intros rho Ha H1.
  destruct HF as [|b0 u ? ? H0 HF]; [discriminate|].
  destruct HF as [|b1 v ? ? Hy HF]; [discriminate|].
  destruct HF as [|b2 w ? ? Hz HF]; [discriminate|].
  destruct HF as [|b3 t ? ? Ht HF]; [|discriminate].
  eapply wpC_okmono; [|apply (lookup3_xy_complete rho H1 b0 b1 b2 coords u v w HC); eauto using den_known_hon].
  replace (table_index [u; v; w]) with (idx3 u v w) in Hn by (destruct u, v, w; reflexivity).
  rewrite (nth_error_nth _ _ (0, 0) Hn). intros r [[? ?] [? ?]]. auto.
Qed.
Print Assumptions C16_lookup_complete.

(** A table of eight distinct points, index 6 = 110b, one bit negated and one constant. *)
Definition ex_table (n : nat) : list (Fr64513 * Fr64513) :=
  map (fun i => (ofZ (Z.of_nat (100 + 7 * i * i)), ofZ (Z.of_nat (3000 + i)))) (seq 0 n).
Example C16_ex :
  let bits := [BIs (ex_bit 0 false); BNot (ex_bit 0 false); BConst true] in
  Forall2 (den_known (ex_state [0%Z])) bits [false; true; true] /\
  ex_run (lookup3_xy bits (ex_table 8)) (ex_state [0%Z])
    (fun s r => an_out s (fst r) ++ an_out s (snd r)) = Some ([352; 3006]%Z, 2%nat, true).
Proof.
  split; [repeat constructor; cbn; unfold known; cbn; try lia; try reflexivity|vm_compute; reflexivity].
Qed.

(** * C17 *)

Theorem C17_lookup_negate_sound (P : PrimeField) (bits : list Boolean) (coords : list (P * P)) :
  Sound (lookup3_xy_neg bits coords) (fun rho r => forall b0 b1 sign, Forall2 (den rho) bits [b0; b1; sign] ->
    exists x y, nth_error coords (table_index [b0; b1]) = Some (x, y) /\
      eval rho (num_lc (fst r) 1) = x /\ eval rho (num_lc (snd r) 1) = (if sign then - y else y)).
Proof.
  intros rho r cs He H1 Hs x y z HF.
  inversion HF as [|c0 ? ? ? H0 HF']; subst. inversion HF' as [|c1 ? ? ? Hy HF'']; subst.
  inversion HF'' as [|c2 ? ? ? Hz HF3]; subst. inversion HF3; subst.
  assert (HL : length coords = 4%nat).
  { unfold lookup3_xy_neg in He. destruct (Nat.eqb_spec (length coords) 4); [auto|inversion He]. }
  destruct (wpS_emits rho _ _ _ _ (lookup3_xy_neg_sound rho H1 True c0 c1 c2 coords x y z
    (proj1 (den_bit_is _ _ _) H0) (proj1 (den_bit_is _ _ _) Hy) (proj1 (den_bit_is _ _ _) Hz)) He Hs) as [Ex Ey].
  exists (fst (nth (idx2 x y) coords (0, 0))), (snd (nth (idx2 x y) coords (0, 0))).
  rewrite !num_lc_eval, Ex, Ey. refine (conj _ (conj _ _)).
  - rewrite <- surjective_pairing. replace (table_index [x; y]) with (idx2 x y) by (destruct x, y; reflexivity).
    apply nth_error_nth'. rewrite HL. apply idx2_lt.
  - apply one_mul.
  - rewrite one_mul. reflexivity.
Qed.
Print Assumptions C17_lookup_negate_sound.

Theorem C17_lookup_negate_complete (P : PrimeField) (s : PState P) (bits : list Boolean) (b0 b1 sign : bool) (coords : list (P * P)) (x y : P) :
  wf_state s -> length coords = 4%nat -> Forall2 (den_known s) bits [b0; b1; sign] ->
  nth_error coords (table_index [b0; b1]) = Some (x, y) ->
  Complete (lookup3_xy_neg bits coords) s (fun rho r =>
    eval rho (num_lc (fst r) 1) = x /\ num_value (fst r) = Some x /\
    eval rho (num_lc (snd r) 1) = (if sign then - y else y) /\ num_value (snd r) = Some (if sign then - y else y)).
Proof.
  intros Hw HC HF Hn. apply Complete_of; [auto|auto with struct_db|]. intros rho Ha H1.
  inversion HF as [|c0 ? ? ? H0 HF']; subst. inversion HF' as [|c1 ? ? ? Hy HF'']; subst.
  inversion HF'' as [|c2 ? ? ? Hz HF3]; subst. inversion HF3; subst.
  eapply wpC_okmono; [|apply (lookup3_xy_neg_complete rho H1 c0 c1 c2 coords b0 b1 sign HC); eauto using den_known_hon].
  replace (table_index [b0; b1]) with (idx2 b0 b1) in Hn by (destruct b0, b1; reflexivity).
  rewrite (nth_error_nth _ _ (0, 0) Hn). intros r [[? ?] [? ?]]. rewrite !num_lc_eval, !one_mul. auto.
Qed.
Print Assumptions C17_lookup_negate_complete.

Example C17_ex :
  let bits := [BConst true; BNot (ex_bit 0 false); BIs (ex_bit 1 true)] in
  Forall2 (den_known (ex_state [0; 1]%Z)) bits [true; true; true] /\
  ex_run (lookup3_xy_neg bits (ex_table 4)) (ex_state [0; 1]%Z)
    (fun s r => [toZ (eval (asg s) (num_lc (fst r) 1)); toZ (eval (asg s) (num_lc (snd r) 1))])
  = Some ([163; 64513 - 3003]%Z, 1%nat, true).
Proof.
  split; [repeat constructor; cbn; unfold known; cbn; try lia; try reflexivity|vm_compute; reflexivity].
Qed.

(** The precomputation behind both lookups: for every window size, [synth] produces coefficients
    whose sum over the submasks of an index is the table entry. *)
Definition submask_sum {P : PrimeField} (l : list P) (b : nat) : P :=
  fold_right (fun j acc => if Nat.eqb (Nat.land j b) j then nth j l 0 + acc else acc) 0 (seq 0 (length l)).

Theorem C49_synth_interpolates (P : PrimeField) (w : nat) (constants : list P) (b : nat) (c : P) :
  (length constants <= 2 ^ w)%nat -> nth_error constants b = Some c ->
  length (synth w constants) = (2 ^ w)%nat /\ submask_sum (synth w constants) b = c.
Proof.
  intros Hl Hn. split; [apply synth_length|].
  assert (Hb : (b < length constants)%nat) by (apply nth_error_Some; congruence).
  rewrite <- (nth_error_nth _ _ 0 Hn), <- (synth_spec w constants b Hl Hb).
  unfold submask_sum. rewrite synth_length. rewrite <- (subsum_stop _ b (2 ^ w)) by lia. symmetry. apply subsum_fold.
Qed.
Print Assumptions C49_synth_interpolates.

Example C49_ex : map toZ (synth (P := Fr64513) 2 [ofZ 5; ofZ 9; ofZ 11; ofZ 100]) = [5; 4; 6; 85]%Z.
Proof. vm_compute. reflexivity. Qed.

(** * C18 *)

(** Number [i] packs the bits from position [i * CAPACITY] on, little-endian. *)
Theorem C18_multipacking (P : PrimeField) (bs : list bool) :
  compute_multipacking bs =
    map (fun i => ofZ (le_value (firstn (capacity P) (skipn (i * capacity P) bs))) : P)
        (seq 0 (Nat.div (length bs + (capacity P - 1)) (capacity P))).
Proof. exact (compute_multipacking_spec bs). Qed.
Print Assumptions C18_multipacking.

Theorem C18_injective (P : PrimeField) (bs bs' : list bool) : length bs = length bs' ->
  compute_multipacking bs = (compute_multipacking bs' : list P) -> bs = bs'.
Proof. exact (compute_multipacking_inj bs bs'). Qed.
Print Assumptions C18_injective.

(** The constraints hold exactly when the new public inputs are the multipacking of the bits. *)
Theorem C18_pack_sound (P : PrimeField) (bits : list Boolean) (k : KState P) :
  exists k' cs, run (ShapeCS P) (pack_into_inputs bits) k = Done (Ok tt, k') /\
    k_inputs k' = (k_inputs k + Nat.div (length bits + (capacity P - 1)) (capacity P))%nat /\
    k_aux k' = k_aux k /\ k_cons k' = k_cons k ++ cs /\
    forall (rho : Var -> P) bs, rho one_var = 1 -> Forall2 (den rho) bits bs ->
      (sat rho cs <-> map (fun j => rho (Input (k_inputs k + j))) (seq 0 (length (@compute_multipacking P bs))) =
                      compute_multipacking bs).
Proof. exact (pack_shape bits k). Qed.
Print Assumptions C18_pack_sound.

Theorem C18_pack_complete (P : PrimeField) (s : PState P) (bits : list Boolean) (bs : list bool) : wf_state s ->
  Forall2 (den_known s) bits bs ->
  exists s' cs, run (HonestCS P) (pack_into_inputs bits) s = Done (Ok tt, s') /\
    p_inputs s' = p_inputs s ++ compute_multipacking bs /\ p_aux s' = p_aux s /\
    p_cons s' = p_cons s ++ cs /\ sat (asg s') cs.
Proof. exact (pack_honest s bits bs). Qed.
Print Assumptions C18_pack_complete.

Theorem C18_bytes (bytes : list Z) :
  length (bytes_to_bits bytes) = (8 * length bytes)%nat /\ length (bytes_to_bits_le bytes) = (8 * length bytes)%nat /\
  forall i j, (i < length bytes)%nat -> (j < 8)%nat ->
    nth (8 * i + j) (bytes_to_bits bytes) false = bit_of (nth i bytes 0%Z) (7 - j) /\
    nth (8 * i + j) (bytes_to_bits_le bytes) false = bit_of (nth i bytes 0%Z) j.
Proof.
  refine (conj (bytes_to_bits_length _) (conj (bytes_to_bits_le_length _) _)). intros i j Hi Hj.
  now rewrite !bit_of_testbit, bytes_to_bits_spec, bytes_to_bits_le_spec.
Qed.
Print Assumptions C18_bytes.

(** 18 bits in a field of capacity 15: two inputs. *)
Example C18_ex :
  let bs := [true; false; true; true; false; false; false; false; false; false; false; false; false; false; true; true; false; true] in
  map toZ (@compute_multipacking Fr64513 bs) = [1 + 4 + 8 + 16384; 5]%Z /\
  ex_run (pack_into_inputs (map BConst bs)) (ex_state []) (fun s _ => map toZ (p_inputs s)) =
    Some ([1; 16397; 5]%Z, 2%nat, true).
Proof. split; vm_compute; reflexivity. Qed.
Example C18_ex_bytes : bytes_to_bits [163; 1]%Z =
  [true; false; true; false; false; false; true; true; false; false; false; false; false; false; false; true].
Proof. vm_compute. reflexivity. Qed.
