(** Property theorem C65: what every gadget costs, in the counts kept by the key generator, the prover and the test constraint system. *)
From Coq Require Import String.
From Coq Require Import ZArith List Bool Lia.
From Verif Require Import Prelude PrimeField Fields Circuit Loops BooleanGadget NumGadget LookupGadget Multipack MultiEq UInt32 Sha256 Blake2s
  Assembly TestCS CostSpec Cost CostProof CostRun Spec Blake2sSpec PropSha256 PropBlake2s.
Import ListNotations.
Local Open Scope nat_scope.

(** Every run of [p] that succeeds, from any state, allocates [v] variables and [i] inputs and enforces [c] constraints: as counted
    by KeypairAssembly, by ProvingAssignment and by TestConstraintSystem, and in the lists kept by the specification's prover (for which
    C22, C23 and others show that the gadgets do succeed). *)
Definition counted {S} (nv ni nc : S -> nat) (s s' : S) (v i c : Z) : Prop :=
  Z.of_nat (nv s') = (Z.of_nat (nv s) + v)%Z /\ Z.of_nat (ni s') = (Z.of_nat (ni s) + i)%Z /\ Z.of_nat (nc s') = (Z.of_nat (nc s) + c)%Z.
Definition uses {P : PrimeField} {A} (p : prog P (res A)) (v i c : Z) : Prop :=
  (forall s r s', run (KeypairCS P) p s = Done (Ok r, s') ->
     counted num_aux Assembly.num_inputs Assembly.num_constraints s s' v i c) /\
  (forall s r s', run (ProvingCS P) p s = Done (Ok r, s') ->
     counted (fun s => length (aux_assignment s)) (fun s => length (input_assignment s)) (fun s => length (pa_a s)) s s' v i c) /\
  (forall s r s', run TestCS p s = Done (Ok r, s') ->
     counted (fun s => length (t_aux s)) TestCS.num_inputs TestCS.num_constraints s s' v i c) /\
  (forall s r s', run (HonestCS P) p s = Done (Ok r, s') ->
     counted (fun s => length (p_aux s)) (fun s => length (p_inputs s)) (fun s => length (Circuit.p_cons s)) s s' v i c).

Lemma uses_of {P : PrimeField} {A} (p : prog P (res A)) v i c Q : costs p (mkBill c v i []) Q -> uses p v i c.
Proof.
  intros H. split; [|split; [|split]]; intros s r s' E.
  - exact (keypair_counts p _ Q H s r s' E).
  - exact (proving_counts p _ Q H s r s' E).
  - exact (test_counts p _ Q H s r s' E).
  - exact (honest_counts p _ Q H s r s' E).
Qed.

(** A bit is a variable unless it is a constant. *)
Definition variable (b : Boolean) : bool := match b with BConst _ => false | _ => true end.
Definition count (l : list bool) : Z := Z.of_nat (length (filter (fun b => b) l)).
Definition gate (b : bool) : Z := if b then 1%Z else 0%Z.
Definition add_up (l : list Z) : Z := fold_right Z.add 0%Z l.
Lemma variable_isvar b : isvar b = variable b. Proof. destruct b; reflexivity. Qed.
Lemma map_variable l : map isvar l = map variable l. Proof. apply map_ext, variable_isvar. Qed.

Section C65.
Context {P : PrimeField}.

(** boolean.rs.  Gates of two inputs cost one variable and one constraint if both inputs are variables, and nothing otherwise;
    [sha256_ch] the same as soon as two of three inputs are variables, except that it is free if the first is the constant 0;
    [sha256_maj] one less than it has variable inputs. *)
Theorem C65_bits (v : option bool) (w : option Z) (Q : PrimeField) (x : option Q) (a b : AllocatedBit) (p q r : Boolean) :
  uses (@ab_alloc P v) 1 0 1 /\ uses (@ab_alloc_conditionally P v a) 1 0 1 /\
  uses (@ab_xor P a b) 1 0 1 /\ uses (@ab_and P a b) 1 0 1 /\ uses (@ab_and_not P a b) 1 0 1 /\ uses (@ab_nor P a b) 1 0 1 /\
  uses (@u64_into_boolean_vec_le P w) 64 0 64 /\
  uses (@field_into_allocated_bits_le P Q x) (Z.of_nat (num_bits Q)) 0 (Z.of_nat (num_bits Q)) /\
  uses (@field_into_boolean_vec_le P Q x) (Z.of_nat (num_bits Q)) 0 (Z.of_nat (num_bits Q)) /\
  uses (@b_enforce_equal P p q) 0 0 (gate (variable p || variable q)) /\
  (let n := gate (variable p && variable q) in uses (@b_xor P p q) n 0 n /\ uses (@b_and P p q) n 0 n) /\
  (let n := match p with BConst false => 0%Z | _ => gate (Z.leb 2 (count [variable p; variable q; variable r])) end in uses (@b_ch P p q r) n 0 n) /\
  (let n := Z.max 0 (count [variable p; variable q; variable r] - 1) in uses (@b_maj P p q r) n 0 n).
Proof.
  split; [exact (uses_of _ _ _ _ _ (ab_alloc_costs v))|]. split; [exact (uses_of _ _ _ _ _ (cond_costs v a))|].
  split; [exact (uses_of _ _ _ _ _ (ab_xor_costs a b))|]. split; [exact (uses_of _ _ _ _ _ (ab_and_costs a b))|].
  split; [exact (uses_of _ _ _ _ _ (ab_and_not_costs a b))|]. split; [exact (uses_of _ _ _ _ _ (ab_nor_costs a b))|].
  split; [exact (uses_of _ _ _ _ _ (u64_costs w))|]. split; [exact (uses_of _ _ _ _ _ (field_bits_costs Q x))|].
  split; [exact (uses_of _ _ _ _ _ (field_vec_costs Q x))|].
  split; [rewrite <- !variable_isvar; exact (uses_of _ _ _ _ _ (enforce_equal_costs p q))|].
  split; [|split]; cbv zeta.
  - rewrite <- !variable_isvar. split; [|exact (uses_of _ _ _ _ _ (b_and_any' p q))].
    pose proof (b_xor_costs (P := P) p q) as H. unfold costf, gate_fee, one_gate, free, fbill in H. unfold gate. destruct (isvar p && isvar q); exact (uses_of _ _ _ _ _ H).
  - assert (E : ch_cost p q r = match p with BConst false => 0%Z | _ => gate (Z.leb 2 (count [variable p; variable q; variable r])) end).
    { destruct p as [?|?|[|]], q as [?|?|[|]], r as [?|?|[|]]; reflexivity. }
    rewrite <- E. exact (uses_of _ _ _ _ _ (b_ch_any p q r)).
  - assert (E : maj_cost p q r = Z.max 0 (count [variable p; variable q; variable r] - 1)).
    { destruct p as [?|?|[|]], q as [?|?|[|]], r as [?|?|[|]]; reflexivity. }
    rewrite <- E. exact (uses_of _ _ _ _ _ (b_maj_any p q r)).
Qed.

(** uint32.rs.  [addmany] in a [MultiEq] of its own: as many variables as the largest possible sum has bits, and one constraint more;
    nothing if all bits are constants and all values known. *)
Definition pairs (a b : UInt32) : list (Boolean * Boolean) := combine (u_bits a) (u_bits b).
Definition triples (a b c : UInt32) : list (Boolean * Boolean * Boolean) := combine (pairs a b) (u_bits c).
Definition bit_length (z : Z) : Z := Z.log2 z + 1.
Theorem C65_words (v : option Z) (a b c : UInt32) (ops : list UInt32) :
  uses (@u_alloc P v) 32 0 32 /\
  (let n := count (map (fun x => variable (fst x) && variable (snd x)) (pairs a b)) in uses (@u_xor P a b) n 0 n) /\
  (let n := add_up (map (fun '(p, q, r) => match p with BConst false => 0%Z | _ => gate (Z.leb 2 (count [variable p; variable q; variable r])) end) (triples a b c)) in
   uses (@u_ch P a b c) n 0 n) /\
  (let n := add_up (map (fun '(p, q, r) => Z.max 0 (count [variable p; variable q; variable r] - 1)) (triples a b c)) in
   uses (@u_maj P a b c) n 0 n) /\
  (let n := bit_length (Z.of_nat (length ops) * (2 ^ 32 - 1)) in
   Exists (fun w => Exists (fun p => variable p = true) (u_bits w) \/ u_value w = None) ops -> uses (multieq_scope (@addmany P ops)) n 0 (n + 1)) /\
  (Forall (fun w => Forall (fun p => variable p = false) (u_bits w) /\ u_value w <> None) ops -> uses (multieq_scope (@addmany P ops)) 0 0 0).
Proof.
  split; [exact (uses_of _ _ _ _ _ (u_alloc_costs v))|]. split; [|split; [|split; [|split]]]; cbv zeta.
  - assert (E : both (map isvar (u_bits a)) (map isvar (u_bits b)) = count (map (fun x => variable (fst x) && variable (snd x)) (pairs a b))).
    { unfold pairs, count, both, bits2. f_equal. generalize (u_bits a), (u_bits b). intros l. induction l as [|x l IH]; intros [|y m]; try reflexivity.
      cbn [map combine fst snd count_occ filter]. rewrite !variable_isvar, IH. destruct (variable x && variable y); cbn [length];
      destruct (bool_dec _ _); congruence. }
    rewrite <- E. exact (uses_of _ _ _ _ _ (u_xor_any a b)).
  - assert (E : word_cost ch_cost a b c = add_up (map (fun '(p, q, r) => match p with BConst false => 0%Z | _ => gate (Z.leb 2 (count [variable p; variable q; variable r])) end) (triples a b c))).
    { unfold word_cost, triples, pairs, add_up, sumz. f_equal. apply map_ext. intros [[p q] r]. cbn [fst snd].
      destruct p as [?|?|[|]], q as [?|?|[|]], r as [?|?|[|]]; reflexivity. }
    rewrite <- E. exact (uses_of _ _ _ _ _ (u_ch_any a b c)).
  - assert (E : word_cost maj_cost a b c = add_up (map (fun '(p, q, r) => Z.max 0 (count [variable p; variable q; variable r] - 1)) (triples a b c))).
    { unfold word_cost, triples, pairs, add_up, sumz. f_equal. apply map_ext. intros [[p q] r]. cbn [fst snd].
      destruct p as [?|?|[|]], q as [?|?|[|]], r as [?|?|[|]]; reflexivity. }
    rewrite <- E. exact (uses_of _ _ _ _ _ (u_maj_any a b c)).
  - intros HE. pose proof (addmany_scope_costs (P := P) ops) as H.
    assert (Es : forallb settled ops = false).
    { apply Exists_exists in HE as (w & Hw & HE). destruct (forallb settled ops) eqn:Ef; [|reflexivity]. rewrite forallb_forall in Ef. specialize (Ef w Hw).
      unfold settled in Ef. apply andb_true_iff in Ef as [E1 E2]. destruct HE as [HE|HE]; [|rewrite HE in E2; discriminate E2].
      apply Exists_exists in HE as (p & Hp & HE). unfold UInt32Proof.uconst in E1. rewrite forallb_forall in E1. specialize (E1 p Hp). destruct p; discriminate. }
    rewrite Es in H. destruct (Nat.leb_spec 2 (length ops)) as [H2|H2]; [destruct (Nat.leb_spec (length ops) 10) as [H10|H10]|].
    + assert (Ew : Z.of_nat (add_width (length ops)) = bit_length (Z.of_nat (length ops) * (2 ^ 32 - 1))).
      { clear - H2 H10. generalize dependent (length ops). intros n. do 11 (destruct n as [|n]; [intros; try lia; reflexivity|]). lia. }
      rewrite Ew in H. exact (uses_of _ _ _ _ _ H).
    + eapply uses_of with (Q := fun _ => False). intros r y S. apply scope_spends in S as (z & S & _). unfold addmany in S.
      destruct (negb (Nat.leb 64 (num_bits P))); [inversion S|]. destruct (negb (Nat.leb 2 (length ops))); [inversion S|].
      rewrite (proj2 (Nat.leb_gt _ _) H10) in S. cbn [negb] in S. inversion S.
    + eapply uses_of with (Q := fun _ => False). intros r y S. apply scope_spends in S as (z & S & _). unfold addmany in S.
      destruct (negb (Nat.leb 64 (num_bits P))); [inversion S|]. rewrite (proj2 (Nat.leb_gt _ _) H2) in S. cbn [negb] in S. inversion S.
  - intros HF. pose proof (addmany_scope_costs (P := P) ops) as H.
    assert (Es : forallb settled ops = true).
    { apply forallb_forall. intros w Hw. rewrite Forall_forall in HF. destruct (HF w Hw) as [H1 H2]. unfold settled. apply andb_true_iff. split.
      - unfold UInt32Proof.uconst. apply forallb_forall. intros p Hp. rewrite Forall_forall in H1. specialize (H1 p Hp). destruct p; [discriminate..|reflexivity].
      - destruct (u_value w); [reflexivity|congruence]. }
    rewrite Es in H. exact (uses_of _ _ _ _ _ H).
Qed.

(** num.rs, lookup.rs, multipack.rs.  [to_bits_le_strict] costs one variable for every bit of the field and one for every bit set in
    r - 1 but the first; both decompositions add one constraint.  [pack_into_inputs] makes one input and one constraint of every
    [capacity] bits. *)
Definition bits_set (z : Z) : Z := count (map (fun i => Z.testbit z (Z.of_nat i)) (seq 0 (Z.to_nat (bit_length z)))).
Lemma bits_set_ones : (1 <= modulus P - 1)%Z -> ones_below (num_bits P) (modulus P - 1) = bits_set (modulus P - 1).
Proof.
  intros Hm. pose proof (num_bits_hi P) as Hh. pose proof (num_bits_lo P) as Hl. unfold ones_below, bits_set, count. rewrite filter_map_len. do 2 f_equal.
  unfold bit_length. set (z := (modulus P - 1)%Z) in *. assert (L := Z.log2_nonneg z).
  assert (Hn : Z.to_nat (Z.log2 z + 1) <= num_bits P).
  { apply Nat2Z.inj_le. rewrite Z2Nat.id by lia. assert (Z.log2 z < Z.of_nat (num_bits P))%Z; [|lia]. apply Z.log2_lt_pow2; lia. }
  replace (num_bits P) with (Z.to_nat (Z.log2 z + 1) + (num_bits P - Z.to_nat (Z.log2 z + 1))) by lia. rewrite seq_app, filter_app. cbn [Nat.add].
  rewrite <- app_nil_r. f_equal. assert (HN : forall i, In i (seq (Z.to_nat (Z.log2 z + 1)) (num_bits P - Z.to_nat (Z.log2 z + 1))) -> Z.testbit z (Z.of_nat i) = false).
  { intros i Hi. apply in_seq in Hi. apply Z.bits_above_log2; lia. }
  revert HN. generalize (seq (Z.to_nat (Z.log2 z + 1)) (num_bits P - Z.to_nat (Z.log2 z + 1))). intros l HN. induction l as [|i l IH]; [reflexivity|].
  cbn [filter]. rewrite (HN i) by now left. apply IH. intros j Hj. apply HN. now right.
Qed.
Theorem C65_numbers (v : res P) (a b : AllocatedNum P) (p q r : Boolean) (coords : list (P * P)) (bits : list Boolean) :
  uses (@an_alloc P v) 1 0 0 /\ uses (@an_inputize P a) 0 1 1 /\ uses (@an_mul P a b) 1 0 1 /\ uses (@an_square P a) 1 0 1 /\
  uses (@an_assert_nonzero P a) 1 0 1 /\ uses (@an_conditionally_reverse P a b p) 2 0 2 /\
  uses (@to_bits_le P a) (Z.of_nat (num_bits P)) 0 (Z.of_nat (num_bits P) + 1) /\
  (let n := (Z.of_nat (num_bits P) + bits_set (modulus P - 1) - 1)%Z in uses (@to_bits_le_strict P a) n 0 (n + 1)) /\
  (let n := (2 + gate (variable q && variable r))%Z in uses (@lookup3_xy P [p; q; r] coords) n 0 n) /\
  (let n := (1 + gate (variable p && variable q))%Z in uses (@lookup3_xy_neg P [p; q; r] coords) n 0 n) /\
  (let n := ((Z.of_nat (length bits) + Z.of_nat (capacity P) - 1) / Z.of_nat (capacity P))%Z in uses (@pack_into_inputs P bits) 0 n n).
Proof.
  split; [exact (uses_of _ _ _ _ _ (an_alloc_costs v))|]. split; [exact (uses_of _ _ _ _ _ (inputize_costs a))|].
  split; [exact (uses_of _ _ _ _ _ (mul_costs a b))|]. split; [exact (uses_of _ _ _ _ _ (square_costs a))|].
  split; [exact (uses_of _ _ _ _ _ (nonzero_costs a))|]. split; [exact (uses_of _ _ _ _ _ (reverse_costs a b p))|].
  split; [exact (uses_of _ _ _ _ _ (to_bits_costs a))|]. split; [|split; [|split]]; cbv zeta.
  - rewrite <- bits_set_ones by (pose proof (@modulus_gt P); pose proof (num_bits_pos P); pose proof (@pow2_pos (num_bits P - 1)); lia).
    exact (uses_of _ _ _ _ _ (strict_costs a)).
  - rewrite <- !variable_isvar. exact (uses_of _ _ _ _ _ (lookup_costs p q r coords)).
  - rewrite <- !variable_isvar. exact (uses_of _ _ _ _ _ (lookup_neg_costs p q r coords)).
  - pose proof (capacity_pos (P := P)) as Hc. pose proof (pack_costs (P := P) bits) as H. cbv zeta in H. rewrite Multipack.chunks_length, Nat2Z.inj_div in H by lia.
    replace (Z.of_nat (length bits + (capacity P - 1))) with (Z.of_nat (length bits) + Z.of_nat (capacity P) - 1)%Z in H by lia.
    exact (uses_of _ _ _ _ _ H).
Qed.

(** sha256.rs, blake2s.rs: what [CostSpec] says, which only looks at which bits of the input are constants. *)
Theorem C65_hashes (input : list Boolean) (person : list Z) :
  (let x := sha256_price (capacity P) (map variable input) in uses (@sha256 P input) (p_vars x) 0 (p_cons x)) /\
  (let x := sha256_block_price (capacity P) (map variable input) in uses (@sha256_block_no_padding P input) (p_vars x) 0 (p_cons x)) /\
  (let x := blake2s_price (capacity P) (map variable input) in uses (@blake2s P input person) (p_vars x) 0 (p_cons x)).
Proof.
  rewrite <- map_variable. split; [|split]; cbv zeta.
  - exact (uses_of _ _ _ _ _ (sha256_costs input)).
  - exact (uses_of _ _ _ _ _ (block_costs input)).
  - exact (uses_of _ _ _ _ _ (blake2s_costs input person)).
Qed.

(** In particular, hashing constants is free; and for a field of 255 bits (capacity 254, as for BLS12-381), with [k >= 1] blocks of
    512 variable bits: *)
Lemma all_repeat {A} (f : A -> bool) b l : Forall (fun x => f x = b) l -> map f l = repeat b (length l).
Proof. induction 1 as [|x l H _ IH]; [reflexivity|]. cbn [map length repeat]. now rewrite H, IH. Qed.
Lemma firstn_app_len {A} (x y : list A) n : length x = n -> firstn n (x ++ y) = x /\ skipn n (x ++ y) = y.
Proof. intros <-. rewrite firstn_app, skipn_app, Nat.sub_diag, firstn_all, skipn_all. cbn [firstn skipn]. now rewrite app_nil_r. Qed.
Lemma chunks_blocks (b : bool) t k : chunks 512 (repeat b (k * 512) ++ t) = repeat (repeat b 512) k ++ chunks 512 t.
Proof.
  induction k as [|k IH]; [reflexivity|]. replace (S k * 512) with (512 + k * 512) by lia. rewrite repeat_app, <- app_assoc.
  assert (Hn : repeat b 512 ++ repeat b (k * 512) ++ t <> []) by discriminate.
  rewrite (chunks_cons 512) by (first [exact Hn|lia]). destruct (firstn_app_len (repeat b 512) (repeat b (k * 512) ++ t) 512 (repeat_length _ _)) as [-> ->].
  rewrite IH. reflexivity.
Qed.
Lemma pad_blocks k b : sha_pad_flags (repeat b (k * 512)) = repeat b (k * 512) ++ repeat false 512.
Proof.
  unfold sha_pad_flags. f_equal. f_equal. rewrite repeat_length.
  replace ((448 - (Z.of_nat (k * 512) + 1)) mod 512)%Z with 447%Z; [reflexivity|].
  apply (Z.mod_unique _ _ (- Z.of_nat k)); lia.
Qed.
Lemma sha_step cap st b t : sha_blocks cap st (b :: t) = price_add (total cap (sha_block_fee st (sha_words b))) (sha_blocks cap (st || any b) t).
Proof. reflexivity. Qed.
Lemma repeat_S {A} (x : A) k : repeat x (S k) = x :: repeat x k. Proof. reflexivity. Qed.
Lemma sha_idle cap k : sha_blocks cap false (repeat (repeat false 512) k) = price0.
Proof.
  assert (E : sha_block_fee false (sha_words (repeat false 512)) = free) by (vm_compute; reflexivity).
  assert (E' : any (repeat false 512) = false) by (vm_compute; reflexivity). revert E E'. generalize (repeat false 512). intros b E E'.
  induction k as [|k IH]; [reflexivity|]. rewrite repeat_S, sha_step, E, E'. cbn [orb]. rewrite IH. reflexivity.
Qed.
Lemma sha_free cap n : sha256_price cap (repeat false n) = price0.
Proof.
  unfold sha256_price, sha_pad_flags. rewrite repeat_length, <- repeat_app.
  set (m := n + _). assert (Hm : exists k, m = k * 512).
  { subst m. assert (H : ((Z.of_nat n + 1 + (448 - (Z.of_nat n + 1)) mod 512 + 64) mod 512 = 0)%Z).
    { rewrite <- Z.add_mod_idemp_l by lia. rewrite Z.add_mod_idemp_r by lia. replace (Z.of_nat n + 1 + (448 - (Z.of_nat n + 1)))%Z with 448%Z by lia. reflexivity. }
    pose proof (Z.mod_pos_bound (448 - (Z.of_nat n + 1)) 512 ltac:(lia)). apply Z.mod_divide in H as [q Hq]; [|lia].
    exists (Z.to_nat q). apply Nat2Z.inj. lia. }
  destruct Hm as [k ->]. rewrite <- (app_nil_r (repeat false (k * 512))), chunks_blocks. rewrite chunks_nil, app_nil_r. apply sha_idle.
Qed.
Lemma words_false n : exists j, blake_words (repeat false n) = repeat false j.
Proof.
  unfold blake_words. assert (H : forall l, Forall (fun x => Forall (fun b => b = false) x) l -> map any l = repeat false (length l)).
  { induction 1 as [|x l Hx _ IH]; [reflexivity|]. cbn [map length repeat]. rewrite IH. f_equal. unfold any. induction Hx as [|b x Hb _ IHx]; [reflexivity|]. cbn [existsb]. now rewrite Hb. }
  rewrite H; [rewrite <- repeat_app; eauto|]. assert (HF : Forall (fun b : bool => b = false) (repeat false n)) by (apply Forall_forall; intros b Hb; exact (repeat_spec _ _ _ Hb)).
  rewrite <- (chunks_concat 32 (repeat false n) ltac:(lia)) in HF. revert HF. generalize (chunks 32 (repeat false n)). intros l. induction l as [|x l IH]; intros HF; [constructor|].
  cbn [concat] in HF. apply Forall_app in HF as [H1 H2]. constructor; [exact H1|auto].
Qed.
Lemma round_flags m m' st i : (forall j, flag m j = flag m' j) -> blake_round m st i = blake_round m' st i.
Proof. intros H. unfold blake_round. cbv zeta. now rewrite !H. Qed.
Lemma flag_false n i : flag (repeat false n) i = flag [] i.
Proof. unfold flag. revert i. induction n as [|n IH]; intros [|i]; try reflexivity. cbn [repeat nth]. rewrite IH. destruct i; reflexivity. Qed.
Lemma F_flags cap h m m' : (forall j, flag m j = flag m' j) -> blake_F cap h m = blake_F cap h m'.
Proof.
  intros H. unfold blake_F, blake_rounds. assert (E : forall l st, fold_left (blake_round m) l st = fold_left (blake_round m') l st).
  { induction l as [|i l IH]; intros st; [reflexivity|]. cbn [fold_left]. now rewrite (round_flags m m' st i H), IH. }
  now rewrite E.
Qed.
Lemma F_idle cap j : blake_F cap (repeat false 8) (repeat false j) = (repeat false 8, price0).
Proof. rewrite (F_flags cap _ _ [] (flag_false j)). vm_compute. reflexivity. Qed.
Lemma chain_step cap h x m h' y : blake_F cap h m = (h', y) -> blake_chain cap (h, x) m = (h', price_add x y).
Proof. intros E. unfold blake_chain. cbn [fst snd]. now rewrite E. Qed.
Lemma fold_cons {A B} (f : A -> B -> A) x l a : fold_left f (x :: l) a = fold_left f l (f a x). Proof. reflexivity. Qed.
Lemma chain_idle cap bs : Forall (fun m => exists j, m = repeat false j) bs ->
  fold_left (blake_chain cap) bs (repeat false 8, price0) = (repeat false 8, price0).
Proof.
  induction 1 as [|m bs Hm _ IH]; [reflexivity|]. destruct Hm as [j Hj]. rewrite fold_cons, Hj, (chain_step _ _ _ _ _ _ (F_idle cap j)).
  change (price_add price0 price0) with price0. exact IH.
Qed.
Lemma all_false_blocks (l : list (list bool)) : Forall (fun b : bool => b = false) (concat l) -> Forall (fun m => exists j, m = repeat false j) (map blake_words l).
Proof.
  induction l as [|x l IH]; intros HF; [constructor|]. cbn [concat] in HF. apply Forall_app in HF as [H1 H2]. cbn [map]. constructor; [|auto].
  assert (Ex : x = repeat false (length x)) by (rewrite <- (all_repeat (fun b => b) false x H1); symmetry; apply map_id).
  rewrite Ex. apply words_false.
Qed.
Lemma blake_free cap n : blake2s_price cap (repeat false n) = price0.
Proof.
  assert (HF : Forall (fun b : bool => b = false) (concat (chunks 512 (repeat false n)))).
  { rewrite chunks_concat by lia. apply Forall_forall. intros b Hb. exact (repeat_spec _ _ _ Hb). }
  apply all_false_blocks in HF. unfold blake2s_price. revert HF. generalize (chunks 512 (repeat false n)). intros l HF.
  destruct l as [|x l].
  - now rewrite chain_idle by (constructor; [exists 16; reflexivity|constructor]).
  - now rewrite chain_idle by exact HF.
Qed.
Theorem C65_constants (input : list Boolean) (person : list Z) : Forall (fun b => variable b = false) input ->
  uses (@sha256 P input) 0 0 0 /\ uses (@sha256_block_no_padding P input) 0 0 0 /\ uses (@blake2s P input person) 0 0 0.
Proof.
  intros H. destruct (C65_hashes input person) as (H1 & H2 & H3). cbv zeta in *. rewrite (all_repeat variable false input H) in *.
  rewrite sha_free in H1. rewrite blake_free in H3. split; [exact H1|]. split; [|exact H3].
  destruct (Nat.eq_dec (length input) 512) as [E|E].
  - rewrite E in H2. assert (E0 : sha_block_fee false (sha_words (repeat false 512)) = free) by (vm_compute; reflexivity).
    unfold sha256_block_price in H2. rewrite E0 in H2. exact H2.
  - apply uses_of with (Q := fun _ => False). intros r y S. unfold sha256_block_no_padding in S. rewrite (proj2 (Nat.eqb_neq _ _) E) in S. inversion S.
Qed.

(** Leading blocks of constants add nothing (blake2s.rs:430-451 tests this for one block). *)
Lemma chunks_lead {A} (pre : list A) k t : length pre = k * 512 -> chunks 512 (pre ++ t) = chunks 512 pre ++ chunks 512 t.
Proof.
  revert pre. induction k as [|k IH]; intros pre H.
  - destruct pre; [|discriminate H]. rewrite chunks_nil. reflexivity.
  - replace (S k * 512) with (512 + k * 512) in H by lia.
    assert (L1 : length (firstn 512 pre) = 512) by (rewrite firstn_length_le; lia).
    assert (L2 : length (skipn 512 pre) = k * 512) by (rewrite skipn_length; lia).
    rewrite <- (firstn_skipn 512 pre). generalize dependent (skipn 512 pre). generalize dependent (firstn 512 pre). intros x L1 y L2.
    assert (Hn : forall u, x ++ u <> []) by (intros u E; apply app_eq_nil in E as [-> _]; discriminate L1).
    rewrite <- app_assoc, (chunks_cons 512 (x ++ y ++ t)), (chunks_cons 512 (x ++ y)) by (first [apply Hn|lia]).
    destruct (firstn_app_len x (y ++ t) 512 L1) as [-> ->]. destruct (firstn_app_len x y 512 L1) as [-> ->]. rewrite (IH y L2). reflexivity.
Qed.
Lemma sha_lead cap b k t : sha_block_fee false (sha_words b) = free -> any b = false ->
  sha_blocks cap false (repeat b k ++ t) = sha_blocks cap false t.
Proof.
  intros E E'. induction k as [|k IH]; [reflexivity|]. rewrite repeat_S. cbn [app]. rewrite sha_step, E, E'. cbn [orb]. rewrite IH.
  generalize (sha_blocks cap false t). intros [v c]. reflexivity.
Qed.
Lemma sha_pre cap k l : sha256_price cap (repeat false (k * 512) ++ l) = sha256_price cap l.
Proof.
  unfold sha256_price, sha_pad_flags. rewrite <- app_assoc, chunks_blocks, app_length, repeat_length.
  rewrite sha_lead by (vm_compute; reflexivity). do 5 f_equal.
  replace (448 - (Z.of_nat (k * 512 + length l) + 1))%Z with (448 - (Z.of_nat (length l) + 1) + (- Z.of_nat k) * 512)%Z by lia.
  now rewrite Z.mod_add by lia.
Qed.
Lemma blake_pre cap k l : l <> [] -> blake2s_price cap (repeat false (k * 512) ++ l) = blake2s_price cap l.
Proof.
  intros Hl. unfold blake2s_price. rewrite (chunks_lead _ k l) by apply repeat_length.
  assert (HF : Forall (fun b : bool => b = false) (concat (chunks 512 (repeat false (k * 512))))).
  { rewrite chunks_concat by lia. apply Forall_forall. intros b Hb. exact (repeat_spec _ _ _ Hb). }
  apply all_false_blocks in HF. revert HF. generalize (chunks 512 (repeat false (k * 512))). intros pre HF.
  assert (Hc : chunks 512 l <> []) by (rewrite (chunks_cons 512) by (first [exact Hl|lia]); discriminate).
  revert Hc. generalize (chunks 512 l). intros [|x m] Hc; [congruence|]. destruct (pre ++ x :: m) as [|z zs] eqn:Ez; [destruct pre; discriminate Ez|]. rewrite <- Ez.
  now rewrite map_app, fold_left_app, (chain_idle cap _ HF).
Qed.
Theorem C65_precomputed (pre rest : list Boolean) (person : list Z) (k : nat) :
  Forall (fun b => variable b = false) pre -> length pre = k * 512 ->
  (let x := sha256_price (capacity P) (map variable rest) in uses (@sha256 P (pre ++ rest)) (p_vars x) 0 (p_cons x)) /\
  (rest <> [] -> let x := blake2s_price (capacity P) (map variable rest) in uses (@blake2s P (pre ++ rest) person) (p_vars x) 0 (p_cons x)).
Proof.
  intros HV HL. destruct (C65_hashes (pre ++ rest) person) as (H1 & _ & H3). cbv zeta in *.
  rewrite map_app, (all_repeat variable false pre HV), HL in H1, H3. rewrite sha_pre in H1. split; [exact H1|].
  intros Hr. rewrite blake_pre in H3 by (destruct rest; [congruence|discriminate]). exact H3.
Qed.

Lemma sha_busy b k t : total 254 (sha_block_fee true (sha_words b)) = mkPrice 26166 26192 -> forall cap, cap = 254 ->
  sha_blocks cap true (repeat b k ++ [t]) = price_add (mkPrice (26166 * Z.of_nat k) (26192 * Z.of_nat k)) (sha_blocks cap true [t]).
Proof.
  intros E cap ->. induction k as [|k IH].
  - cbn [repeat app]. generalize (sha_blocks 254 true [t]). intros [v c]. reflexivity.
  - rewrite repeat_S. cbn [app]. rewrite sha_step, E. cbn [orb]. rewrite IH. generalize (sha_blocks 254 true [t]). intros [v c].
    unfold price_add. cbn [p_vars p_cons]. f_equal; lia.
Qed.
Lemma chain_busy m k : blake_F 254 (repeat true 8) m = (repeat true 8, mkPrice 21344 21390) -> forall v c cap, cap = 254 ->
  fold_left (blake_chain cap) (repeat m k) (repeat true 8, mkPrice v c) = (repeat true 8, mkPrice (v + 21344 * Z.of_nat k) (c + 21390 * Z.of_nat k)).
Proof.
  intros E v c cap ->. revert v c. induction k as [|k IH]; intros v c.
  - cbn [repeat fold_left]. f_equal. f_equal; lia.
  - rewrite repeat_S, fold_cons. rewrite (chain_step _ _ _ _ _ _ E). unfold price_add. cbn [p_vars p_cons]. rewrite IH. f_equal. f_equal; lia.
Qed.
Theorem C65_blocks (input : list Boolean) (person : list Z) (k : nat) :
  capacity P = 254 -> Forall (fun b => variable b = true) input -> length input = (k + 1) * 512 ->
  uses (@sha256 P input) (44828 + 26166 * Z.of_nat k) 0 (44874 + 26192 * Z.of_nat k) /\
  (k = 0 -> uses (@sha256_block_no_padding P input) 25814 0 25840) /\
  uses (@blake2s P input person) (20960 + 21344 * Z.of_nat k) 0 (21006 + 21390 * Z.of_nat k).
Proof.
  intros HC HV HL. destruct (C65_hashes input person) as (H1 & H2 & H3). cbv zeta in *. rewrite (all_repeat variable true input HV), HL in *.
  rewrite HC in *. split; [|split].
  - assert (E : sha256_price 254 (repeat true ((k + 1) * 512)) = mkPrice (44828 + 26166 * Z.of_nat k) (44874 + 26192 * Z.of_nat k)).
    { unfold sha256_price. rewrite pad_blocks, chunks_blocks.
      assert (Et : chunks 512 (repeat false 512) = [repeat false 512]) by (vm_compute; reflexivity). rewrite Et.
      replace (k + 1) with (S k) by lia. rewrite repeat_S. cbn [app]. rewrite sha_step.
      assert (E1 : total 254 (sha_block_fee false (sha_words (repeat true 512))) = mkPrice 25814 25840) by (vm_compute; reflexivity).
      assert (E2 : total 254 (sha_block_fee true (sha_words (repeat true 512))) = mkPrice 26166 26192) by (vm_compute; reflexivity).
      assert (E3 : sha_blocks 254 true [repeat false 512] = mkPrice 19014 19034) by (vm_compute; reflexivity).
      assert (E4 : any (repeat true 512) = true) by (vm_compute; reflexivity). rewrite E1, E4. cbn [orb].
      rewrite (sha_busy (repeat true 512) k (repeat false 512) E2 254 eq_refl), E3. unfold price_add. cbn [p_vars p_cons]. f_equal; lia. }
    rewrite E in H1. exact H1.
  - intros ->. cbn [Nat.add Nat.mul] in H2.
    assert (E : sha256_block_price 254 (repeat true 512) = mkPrice 25814 25840) by (vm_compute; reflexivity). change (1 * 512) with 512 in H2. rewrite E in H2. exact H2.
  - assert (E : blake2s_price 254 (repeat true ((k + 1) * 512)) = mkPrice (20960 + 21344 * Z.of_nat k) (21006 + 21390 * Z.of_nat k)).
    { unfold blake2s_price. rewrite <- (app_nil_r (repeat true ((k + 1) * 512))), chunks_blocks, chunks_nil, app_nil_r.
      replace (k + 1) with (S k) by lia. rewrite repeat_S. cbn [map].
      assert (Ew : blake_words (repeat true 512) = repeat true 16) by (vm_compute; reflexivity).
      rewrite (map_repeat' blake_words), Ew, fold_cons.
      assert (E1 : blake_F 254 (repeat false 8) (repeat true 16) = (repeat true 8, mkPrice 20960 21006)) by (vm_compute; reflexivity).
      assert (E2 : blake_F 254 (repeat true 8) (repeat true 16) = (repeat true 8, mkPrice 21344 21390)) by (vm_compute; reflexivity).
      rewrite (chain_step _ _ _ _ _ _ E1). unfold price_add, price0. cbn [p_vars p_cons Z.add]. now rewrite (chain_busy (repeat true 16) k E2 20960 21006 254 eq_refl). }
    rewrite E in H3. exact H3.
Qed.
End C65.
Print Assumptions C65_bits.
Print Assumptions C65_words.
Print Assumptions C65_numbers.
Print Assumptions C65_hashes.
Print Assumptions C65_constants.
Print Assumptions C65_precomputed.
Print Assumptions C65_blocks.

(** Examples over Goldilocks (64 bits, capacity 63).  Hashing "abc", some of its bits constants: the circuits of C22_ex and C23_ex. *)
Example C65_ex_hashes :
  (exists r s', run (HonestCS Goldilocks) (@sha256 Goldilocks ex_sha_input) ex_sha_state = Done (Ok r, s') /\
     Z.of_nat (length (p_aux s')) = (24 + 24344)%Z /\ Z.of_nat (length (Circuit.p_cons s')) = 24523%Z) /\
  (exists r s', run (HonestCS Goldilocks) (@blake2s Goldilocks ex_b2_input ex_person) ex_b2_state = Done (Ok r, s') /\
     Z.of_nat (length (p_aux s')) = (24 + 20042)%Z /\ Z.of_nat (length (Circuit.p_cons s')) = 20348%Z).
Proof.
  split.
  - destruct C22_ex as [(r & s' & cs & HR & _) _]. exists r, s'. split; [exact HR|].
    destruct (C65_hashes (P := Goldilocks) ex_sha_input ex_person) as [H _]. cbv zeta in H.
    assert (E : sha256_price (capacity Goldilocks) (map variable ex_sha_input) = mkPrice 24344 24523) by (vm_compute; reflexivity).
    rewrite E in H. destruct H as (_ & _ & _ & H). destruct (H _ _ _ HR) as (H1 & _ & H3).
    split; [rewrite H1; reflexivity|rewrite H3; reflexivity].
  - destruct C23_ex as [(r & s' & cs & HR & _) _]. exists r, s'. split; [exact HR|].
    destruct (C65_hashes (P := Goldilocks) ex_b2_input ex_person) as (_ & _ & H). cbv zeta in H.
    assert (E : blake2s_price (capacity Goldilocks) (map variable ex_b2_input) = mkPrice 20042 20348) by (vm_compute; reflexivity).
    rewrite E in H. destruct H as (_ & _ & _ & H). destruct (H _ _ _ HR) as (H1 & _ & H3).
    split; [rewrite H1; reflexivity|rewrite H3; reflexivity].
Qed.
(** The numbers asserted by the tests of the repository, for BLS12-381 (capacity 254): sha256.rs:331; blake2s.rs:427 and 450, where
    512 of the 21518 constraints are those of the input bits. *)
Example C65_ex_prices :
  p_cons (sha256_block_price 254 (repeat true 512)) = 25840%Z /\ p_cons (blake2s_price 254 (repeat true 512)) = (21518 - 512)%Z /\
  p_cons (blake2s_price 254 (repeat false 512 ++ repeat true 512)) = (21518 - 512)%Z /\ sha256_price 254 [] = price0.
Proof. vm_compute. repeat split. Qed.
(** Small circuits on each of the three constraint systems, which start with the input for 1: the majority of two allocated bits and their AND; the strict bits of 5
    (r - 1 = 2^64 - 2^32 has 32 bits set); four bits allocated and packed. *)
Local Open Scope prog_scope.
Local Open Scope string_scope.
Definition ex_maj : prog Goldilocks (res unit) :=
  let* a := ns "a" (ab_alloc (Some true)) in let* b := ns "b" (ab_alloc (Some false)) in let* c := ns "c" (b_and (BIs a) (BNot b)) in
  let* m := ns "m" (b_maj (BIs a) (BNot b) c) in Ret (Ok tt).
Definition ex_strict : prog Goldilocks (res unit) :=
  let* a := ns "a" (an_alloc (Ok (ofZ 5))) in let* bits := ns "bits" (to_bits_le_strict a) in Ret (Ok tt).
Definition ex_pack : prog Goldilocks (res unit) :=
  let* a := ns "a" (ab_alloc (Some true)) in let* x := ns "x" (pack_into_inputs [BIs a; BNot a; BIs a; BConst true]) in Ret (Ok tt).
Definition with_one (M : Machine Goldilocks) (s : St M) : St M := match m_alloc_input M s "" (Ok fone) with Done (s', _, _) => s' | Panicked => s end.
Definition all_counts (p : prog Goldilocks (res unit)) : list (option (nat * nat * nat)) :=
  [match run (KeypairCS Goldilocks) p (with_one (KeypairCS Goldilocks) ka_new) with Done (Ok _, s) => Some (num_aux s, Assembly.num_inputs s, Assembly.num_constraints s) | _ => None end;
   match run (ProvingCS Goldilocks) p (with_one (ProvingCS Goldilocks) pa_new) with Done (Ok _, s) => Some (length (aux_assignment s), length (input_assignment s), length (pa_a s)) | _ => None end;
   match run TestCS p test_new with Done (Ok _, s) => Some (length (t_aux s), TestCS.num_inputs s, TestCS.num_constraints s) | _ => None end].
Example C65_ex_small :
  all_counts ex_maj = repeat (Some (5, 1, 5)) 3 /\
  all_counts ex_strict = repeat (Some (96, 1, 96)) 3 /\
  all_counts ex_pack = repeat (Some (1, 2, 2)) 3.
Proof. vm_compute. repeat split. Qed.
