(** Model of src/gadgets/num.rs. *)
From Coq Require Import String.
From Coq Require Import ZArith List Bool Lia Field.
From Verif Require Import Prelude PrimeField Circuit Loops BooleanGadget.
Import ListNotations.

Section Model.
Context {P : PrimeField}.
Local Open Scope F_scope.
Local Open Scope lc_scope.
Local Open Scope prog_scope.
Local Open Scope string_scope.

(** num.rs:11-14 *)
Record AllocatedNum := { an_value : option P; an_var : Var }.

(** num.rs:26-47 [AllocatedNum::alloc]; [value] is the result of the caller's closure. *)
Definition an_alloc (value : res P) : prog P (res AllocatedNum) :=
  let* (var, inv) := cs_alloc "num" value in
  Ret (Ok {| an_value := recorded inv value; an_var := var |}).

(** num.rs:49-63 [inputize] *)
Definition an_inputize (a : AllocatedNum) : prog P (res unit) :=
  let* (input, _) := cs_alloc_input "input variable" (get (an_value a)) in
  cs_enforce "enforce input is correct"
    (lc_zero +v input) (lc_zero +v one_var) (lc_zero +v an_var a) ;;;
  Ret (Ok tt).

(** num.rs:75-102 [kary_and]; the first iteration only stores [v[0]]. *)
Definition kary_and (v : list AllocatedBit) : prog P (res AllocatedBit) :=
  match v with
  | [] => Panic
  | x :: t => foldq (fun i cur b => ns ("and " ++ nat_str i) (ab_and cur b)) 1 x t
  end.

(** Local variables of the loop of num.rs:104-163. *)
Record StrictSt := {
  st_result : list AllocatedBit;
  st_last_run : option AllocatedBit;
  st_current_run : list AllocatedBit;
  st_found_one : bool;
  st_i : nat
}.

(** num.rs:118-163, one iteration; [b] is the bit of r - 1, [a_bit] the bit of the value. *)
Definition strict_step (s : StrictSt) (x : bool * option bool) : prog P (res StrictSt) :=
  let '(b, a_bit) := x in
  let found_one := orb (st_found_one s) b in
  let bit_name := "bit " ++ nat_str (st_i s) in
  if negb found_one then
    match a_bit with
    | Some true => Panic
    | _ => Ret (Ok {| st_result := st_result s; st_last_run := st_last_run s;
                      st_current_run := st_current_run s; st_found_one := found_one; st_i := st_i s |})
    end
  else if b then
    let* a := ns bit_name (ab_alloc a_bit) in
    Ret (Ok {| st_result := (st_result s ++ [a])%list; st_last_run := st_last_run s;
               st_current_run := (st_current_run s ++ [a])%list; st_found_one := found_one; st_i := S (st_i s) |})
  else
    let* last_run :=
      match st_current_run s with
      | [] => Ret (Ok (st_last_run s))
      | _ =>
          let run := match st_last_run s with
                     | Some l => (st_current_run s ++ [l])%list
                     | None => st_current_run s
                     end in
          let* k := ns ("run ending at " ++ nat_str (st_i s)) (kary_and run) in
          Ret (Ok (Some k))
      end in
    match last_run with
    | None => Panic
    | Some l =>
        let* a := ns bit_name (ab_alloc_conditionally a_bit l) in
        Ret (Ok {| st_result := (st_result s ++ [a])%list; st_last_run := last_run;
                   st_current_run := []; st_found_one := found_one; st_i := S (st_i s) |})
    end.

(** num.rs:172-180 and 205-212: sum of [2^i * var_i], [coeff] doubling. *)
Definition unpack_step (acc : LC P * P) (v : Var) : LC P * P :=
  (fst acc +t (snd acc, v), fdouble (snd acc)).
Definition unpack_lc (vars : list Var) : LC P := fst (fold_left unpack_step vars (lc_zero, 1)).

(** num.rs:104-193 [to_bits_le_strict]. Both bit iterators have the length of the representation,
    so [e.next().unwrap()] cannot fail. *)
Definition to_bits_le_strict (a : AllocatedNum) : prog P (res (list Boolean)) :=
  let b := rev (to_le_bits (- (1) : P)) in
  let a_bits := match an_value a with
                | Some x => map Some (rev (to_le_bits x))
                | None => repeat None (repr_bits P)
                end in
  let* s := foldq (fun _ => strict_step) 0
    {| st_result := []; st_last_run := None; st_current_run := []; st_found_one := false; st_i := 0 |}
    (combine b a_bits) in
  match st_current_run s with
  | [] =>
      cs_enforce "unpacking constraint" lc_zero lc_zero
        (unpack_lc (map ab_var (rev (st_result s))) -v an_var a) ;;;
      Ret (Ok (rev (map BIs (st_result s))))
  | _ => Panic
  end.

(** num.rs:198-219 [to_bits_le] *)
Definition to_bits_le (a : AllocatedNum) : prog P (res (list Boolean)) :=
  let* bits := field_into_allocated_bits_le P (an_value a) in
  cs_enforce "unpacking constraint" lc_zero lc_zero
    (unpack_lc (map ab_var bits) -v an_var a) ;;;
  Ret (Ok (map BIs bits)).

(** num.rs:221-251 [mul] *)
Definition an_mul (a other : AllocatedNum) : prog P (res AllocatedNum) :=
  let f := rbind (get (an_value a)) (fun x => rmap (fmul x) (get (an_value other))) in
  let* (var, inv) := cs_alloc "product num" f in
  cs_enforce "multiplication constraint"
    (lc_zero +v an_var a) (lc_zero +v an_var other) (lc_zero +v var) ;;;
  Ret (Ok {| an_value := recorded inv f; an_var := var |}).

(** num.rs:253-282 [square] *)
Definition an_square (a : AllocatedNum) : prog P (res AllocatedNum) :=
  let f := rmap (fun x : P => x * x) (get (an_value a)) in
  let* (var, inv) := cs_alloc "squared num" f in
  cs_enforce "squaring constraint"
    (lc_zero +v an_var a) (lc_zero +v an_var a) (lc_zero +v var) ;;;
  Ret (Ok {| an_value := recorded inv f; an_var := var |}).

(** num.rs:284-312 [assert_nonzero] *)
Definition an_assert_nonzero (a : AllocatedNum) : prog P (res unit) :=
  let f := rbind (get (an_value a)) (fun x => if feqb x 0 then Err DivisionByZero else Ok (finv x)) in
  let* (inv, _) := cs_alloc "ephemeral inverse" f in
  cs_enforce "nonzero assertion constraint"
    (lc_zero +v an_var a) (lc_zero +v inv) (lc_zero +v one_var) ;;;
  Ret (Ok tt).

(** num.rs:317-357 [conditionally_reverse] *)
Definition an_conditionally_reverse (a b : AllocatedNum) (condition : Boolean)
  : prog P (res (AllocatedNum * AllocatedNum)) :=
  let* c := ns "conditional reversal result 1" (an_alloc
    (rbind (get (b_value condition)) (fun t : bool => if t then get (an_value b) else get (an_value a)))) in
  cs_enforce "first conditional reversal"
    (lc_zero +v an_var a -v an_var b) (b_lc condition one_var 1) (lc_zero +v an_var a -v an_var c) ;;;
  let* d := ns "conditional reversal result 2" (an_alloc
    (rbind (get (b_value condition)) (fun t : bool => if t then get (an_value a) else get (an_value b)))) in
  cs_enforce "second conditional reversal"
    (lc_zero +v an_var b -v an_var a) (b_lc condition one_var 1) (lc_zero +v an_var b -v an_var d) ;;;
  Ret (Ok (c, d)).

(** num.rs:368-371 *)
Record Num := { num_value : option P; num_lc_ : LC P }.

(** num.rs:373-380 *)
Definition num_of_allocated (a : AllocatedNum) : Num :=
  {| num_value := an_value a; num_lc_ := lc_zero +v an_var a |}.
(** num.rs:383-388 *)
Definition num_zero : Num := {| num_value := Some 0; num_lc_ := lc_zero |}.
(** num.rs:394-396 *)
Definition num_lc (n : Num) (coeff : P) : LC P := lc_zero +s (coeff, num_lc_ n).
(** num.rs:398-415 [add_bool_with_coeff] *)
Definition num_add_bool (n : Num) (one : Var) (bit : Boolean) (coeff : P) : Num :=
  {| num_value := match num_value n, b_value bit with
                  | Some cur, Some b => Some (if b then cur + coeff else cur)
                  | _, _ => None
                  end;
     num_lc_ := num_lc_ n +l b_lc bit one coeff |}.

End Model.
Arguments AllocatedNum P : clear implicits.
Arguments Num P : clear implicits.

Section Proofs.
Context {P : PrimeField}.
Local Open Scope F_scope.
Add Field PFfield_num : (F_field P).

(** The gadget's idea of the value is the assigned one. *)
Definition num_hon (rho : Var -> P) (a : AllocatedNum P) (x : P) : Prop :=
  rho (an_var a) = x /\ an_value a = Some x.

Definition ansim (a b : AllocatedNum P) : Prop := an_var a = an_var b.

(** Big-endian value of a bit string. *)
Definition bev (l : list bool) : Z := le2z (rev l).

Lemma bev_snoc l b : bev (l ++ [b]) = (Z.b2z b + 2 * bev l)%Z.
Proof. unfold bev. now rewrite rev_app_distr. Qed.

Lemma repr_be (z : Z) : (0 <= z < 2 ^ Z.of_nat (num_bits P))%Z ->
  rev (z2le (repr_bits P) z) = repeat false (repr_bits P - num_bits P) ++ rev (z2le (num_bits P) z).
Proof.
  intros Hz. pose proof (repr_bits_ge P).
  replace (repr_bits P) with (num_bits P + (repr_bits P - num_bits P))%nat at 1 by lia.
  rewrite z2le_app, rev_app_distr. f_equal.
  rewrite Z.div_small by lia. generalize (repr_bits P - num_bits P)%nat. intros n.
  assert (E : z2le n 0 = repeat false n) by (induction n; cbn; [auto|now f_equal]).
  rewrite E. apply rev_repeat.
Qed.

Lemma modulus_gt : (2 ^ Z.of_nat (num_bits P - 1) < modulus P)%Z.
Proof.
  pose proof (num_bits_lo P) as Hlo. pose proof (num_bits_pos P). pose proof (modulus_odd (P := P)) as Ho.
  pose proof (modulus_pos (P := P)).
  replace (Z.of_nat (num_bits P) - 1)%Z with (Z.of_nat (num_bits P - 1)) in Hlo by lia.
  assert (modulus P <> 2 ^ Z.of_nat (num_bits P - 1))%Z; [|lia].
  intros E. destruct (num_bits P - 1)%nat as [|n] eqn:En.
  - cbn in E. lia.
  - rewrite pow2_S in E. rewrite E, Z.odd_mul in Ho. cbn in Ho. discriminate.
Qed.

Lemma toZ_minus1 : toZ (- (1) : P) = (modulus P - 1)%Z.
Proof.
  pose proof (modulus_pos (P := P)).
  assert (E : - (1) = (ofZ (modulus P - 1) : P)).
  { transitivity (ofZ (-1) : P).
    - rewrite (ofZ_neg 1), ofZ_1. reflexivity.
    - apply ofZ_congr. replace (modulus P - 1)%Z with (-1 + 1 * modulus P)%Z by lia.
      rewrite Z.mod_add; lia. }
  rewrite E, toZ_ofZ_small; lia.
Qed.

Definition rbits : list bool := rev (z2le (num_bits P) (modulus P - 1)).

Lemma toZ_bound (x : P) : (0 <= toZ x < 2 ^ Z.of_nat (num_bits P))%Z.
Proof. pose proof (toZ_range P x). pose proof (num_bits_hi P). lia. Qed.

Lemma rbits_head : exists t, rbits = true :: t.
Proof.
  unfold rbits. pose proof (num_bits_pos P). pose proof modulus_gt as Hg. pose proof (num_bits_hi P) as Hhi.
  replace (z2le (num_bits P)) with (z2le ((num_bits P - 1) + 1)) by (f_equal; lia).
  rewrite z2le_app, rev_app_distr.
  replace ((modulus P - 1) / 2 ^ Z.of_nat (num_bits P - 1))%Z with 1%Z; [cbn; eauto|].
  pose proof (pow2_pos (num_bits P - 1)).
  assert (E : (2 ^ Z.of_nat (num_bits P) = 2 * 2 ^ Z.of_nat (num_bits P - 1))%Z)
    by (rewrite <- pow2_S; do 2 f_equal; lia).
  apply Z.div_unique with (r := (modulus P - 1 - 2 ^ Z.of_nat (num_bits P - 1))%Z); lia.
Qed.

Lemma bev_rbits : bev rbits = (modulus P - 1)%Z.
Proof.
  unfold bev, rbits. rewrite rev_involutive. apply le2z_z2le_small.
  pose proof (modulus_pos (P := P)). pose proof (num_bits_hi P). lia.
Qed.

Lemma rbits_length : length rbits = num_bits P.
Proof. unfold rbits. now rewrite rev_length, z2le_length. Qed.

(** The last (least significant) bit of r - 1 is 0. *)
Lemma rbits_last : exists t, rbits = t ++ [false].
Proof.
  unfold rbits. pose proof (num_bits_pos P).
  replace (num_bits P) with (S (num_bits P - 1)) by lia. cbn [z2le rev].
  rewrite Z.odd_sub, modulus_odd. cbn. eauto.
Qed.

Definition abits_be (v : option P) : list (option bool) :=
  match v with
  | Some x => map Some (rev (z2le (num_bits P) (toZ x)))
  | None => repeat None (num_bits P)
  end.

Lemma abits_be_length v : length (abits_be v) = num_bits P.
Proof. destruct v; cbn; now rewrite ?map_length, ?rev_length, ?z2le_length, ?repeat_length. Qed.

(** Skipping the leading zeros. *)
Lemma strict_skip k s : st_found_one s = false -> forall (l : list (option bool)) i rest,
  length l = k -> (forall x, In x l -> x <> Some true) ->
  foldq (fun _ => @strict_step P) i s (combine (repeat false k) l ++ rest) =
  foldq (fun _ => strict_step) (i + k) s rest.
Proof.
  intros Hs. induction k as [|k IH]; intros [|x l] i rest Hl Hx; try discriminate.
  - cbn. now rewrite Nat.add_0_r.
  - cbn [repeat combine app foldq]. unfold strict_step at 1. rewrite Hs. cbn [orb negb].
    assert (Hx0 : x <> Some true) by (apply Hx; now left).
    replace (i + S k)%nat with (S i + k)%nat by lia.
    rewrite <- IH with (l := l); [|now inversion Hl|intros; apply Hx; now right].
    assert (E : {| st_result := st_result s; st_last_run := st_last_run s; st_current_run := st_current_run s;
                   st_found_one := false; st_i := st_i s |} = s) by (destruct s; cbn in *; now subst).
    rewrite E. destruct x as [[]|]; [congruence| |]; reflexivity.
Qed.

Definition strict_init : StrictSt :=
  {| st_result := []; st_last_run := None; st_current_run := []; st_found_one := false; st_i := 0 |}.

Definition strict_loop (v : option P) : prog P (res StrictSt) :=
  foldq (fun _ => strict_step) (repr_bits P - num_bits P) strict_init (combine rbits (abits_be v)).

Lemma strict_loop_eq (v : option P) :
  foldq (fun _ => @strict_step P) 0 strict_init
    (combine (rev (to_le_bits (- (1) : P)))
       (match v with Some x => map Some (rev (to_le_bits x)) | None => repeat None (repr_bits P) end))
  = strict_loop v.
Proof.
  pose proof (modulus_pos (P := P)). pose proof (num_bits_hi P). pose proof (repr_bits_ge P).
  unfold to_le_bits at 1. rewrite toZ_minus1, repr_be by lia. fold rbits.
  assert (E : (match v with Some x => map Some (rev (to_le_bits x)) | None => repeat None (repr_bits P) end) =
     (match v with Some _ => repeat (Some false) | None => repeat None end) (repr_bits P - num_bits P)%nat ++ abits_be v).
  { destruct v as [x|]; cbn.
    - unfold to_le_bits. rewrite repr_be by apply toZ_bound. rewrite map_app. f_equal.
      generalize (repr_bits P - num_bits P)%nat. clear. intros n; induction n; cbn; [|f_equal]; auto.
    - rewrite <- repeat_app. f_equal. lia. }
  rewrite E.
  rewrite combine_app by (destruct v; now rewrite ?repeat_length).
  rewrite strict_skip; [reflexivity|reflexivity|destruct v; now rewrite repeat_length|].
  intros x Hx. destruct v; apply repeat_spec in Hx; congruence.
Qed.

Section Rho.
Variable rho : Var -> P.
Hypothesis Hone : rho one_var = 1.

Definition abit_is (a : AllocatedBit) (b : bool) : Prop := var_bit rho (ab_var a) b.

(** Value of the unpacking combination. *)
Lemma eval_unpack_gen bits bs : Forall2 abit_is bits bs -> forall lc c,
  eval rho (fst (fold_left unpack_step (map ab_var bits) (lc, c))) = eval rho lc + c * ofZ (le2z bs).
Proof.
  induction 1 as [|a b bits bs Ha HF IH]; intros lc c; cbn [map fold_left].
  - cbn [fst le2z]. rewrite ofZ_0. ring.
  - unfold unpack_step at 2. cbn [fst snd]. rewrite IH. lcev. rewrite Ha.
    cbn [le2z]. rewrite ofZ_add, ofZ_mul, ofZ_b2z, ofZ_2. unfold fdouble. ring.
Qed.

Lemma eval_unpack bits bs : Forall2 abit_is bits bs ->
  eval rho (unpack_lc (map ab_var bits)) = ofZ (le2z bs).
Proof.
  intros H. unfold unpack_lc. rewrite (eval_unpack_gen _ _ H), eval_zero. ring.
Qed.

(** ** Soundness *)
Section Sound.
Variable G : Prop.

Ltac ev := lcev; rewrite ?Hone in *.

Lemma an_alloc_sound v : wpS rho G (an_alloc v) (okP (fun _ => True)).
Proof. apply wpS_alloc_q. intros; exact I. Qed.

Lemma an_inputize_sound a :
  wpS rho G (an_inputize a) (okP (fun _ => True)).
Proof. apply wpS_alloc_input_q. intros v b. apply wpS_enforce. cbn. auto. Qed.

Lemma an_mul_sound a b :
  wpS rho G (an_mul a b) (okP (fun r => rho (an_var r) = rho (an_var a) * rho (an_var b))).
Proof.
  apply wpS_alloc_q. intros v i. apply wpS_enforce. ev. intros H. cbn.
  transitivity (0 + rho v); [ring|]. rewrite <- H. ring.
Qed.

Lemma an_square_sound a :
  wpS rho G (an_square a) (okP (fun r => rho (an_var r) = rho (an_var a) * rho (an_var a))).
Proof.
  apply wpS_alloc_q. intros v i. apply wpS_enforce. ev. intros H. cbn.
  transitivity (0 + rho v); [ring|]. rewrite <- H. ring.
Qed.

Lemma an_assert_nonzero_sound a :
  wpS rho G (an_assert_nonzero a) (okP (fun _ => rho (an_var a) <> 0)).
Proof.
  apply wpS_alloc_q. intros v i. apply wpS_enforce. ev. intros H. cbn.
  intros E. rewrite E in H. apply (f_1_neq_0 (P := P)). transitivity (0 + 1 : P); [ring|]. rewrite <- H. ring.
Qed.

Lemma an_conditionally_reverse_sound a b c t : bit_is rho c t ->
  wpS rho G (an_conditionally_reverse a b c)
    (okP (fun r => rho (an_var (fst r)) = (if t then rho (an_var b) else rho (an_var a)) /\
                   rho (an_var (snd r)) = (if t then rho (an_var a) else rho (an_var b)))).
Proof.
  intros Hc. unfold an_conditionally_reverse.
  eapply wpS_bindq'; [apply wpS_ns, an_alloc_sound|]. intros x _.
  apply wpS_enforce. ev. rewrite (eval_b_lc rho Hone _ _ 1 Hc). intros H1.
  eapply wpS_bindq'; [apply wpS_ns, an_alloc_sound|]. intros y _.
  apply wpS_enforce. ev. rewrite (eval_b_lc rho Hone _ _ 1 Hc). intros H2. cbn.
  split.
  - transitivity (rho (an_var a) - (0 + rho (an_var a) - rho (an_var x))); [ring|]. rewrite <- H1.
    destruct t; cbn; ring.
  - transitivity (rho (an_var b) - (0 + rho (an_var b) - rho (an_var y))); [ring|]. rewrite <- H2.
    destruct t; cbn; ring.
Qed.

Lemma to_bits_le_sound a :
  wpS rho G (to_bits_le a) (okP (fun r => exists bs, length bs = num_bits P /\
    Forall2 (bit_is rho) r bs /\ ofZ (le2z bs) = rho (an_var a))).
Proof.
  unfold to_bits_le.
  eapply wpS_bindq'; [apply (field_into_allocated_bits_le_sound rho Hone P)|]. cbv beta.
  intros r (Hl & bs & Hr). apply wpS_enforce. ev. rewrite (eval_unpack _ _ Hr). intros H. cbn.
  exists bs. split; [|split].
  - rewrite <- Hl. symmetry. eapply Forall2_length; eauto.
  - clear -Hr. induction Hr; cbn; constructor; auto.
  - apply fsub_0_eq. rewrite <- H. ring.
Qed.

Lemma kary_fold_sound v bs : Forall2 abit_is v bs -> forall i cur c, abit_is cur c ->
  wpS rho G (foldq (fun i cur b => ns ("and " ++ nat_str i)%string (ab_and cur b)) i cur v)
    (okP (fun r => abit_is r (andb c (forallb id bs)))).
Proof.
  induction 1 as [|a b v bs Ha HF IH]; intros i cur c Hc; cbn [foldq forallb].
  - cbn. now rewrite andb_true_r.
  - eapply wpS_bindq'; [apply wpS_ns, ab_and_sound; [exact Hc|exact Ha]|]. cbv beta. intros r Hr.
    unfold id at 1. rewrite andb_assoc. now apply IH.
Qed.

Lemma kary_and_sound v bs : Forall2 abit_is v bs ->
  wpS rho G (kary_and v) (okP (fun r => abit_is r (forallb id bs))).
Proof.
  intros H. destruct H as [|a b v bs Ha HF]; [exact I|]. cbn [kary_and forallb].
  now apply kary_fold_sound.
Qed.

(** Invariant of the strict loop after [j] bits. *)
Definition strict_inv (j : nat) (s : StrictSt) : Prop :=
  exists As cb lb,
    st_found_one s = negb (Nat.eqb j 0) /\
    length As = j /\ Forall2 abit_is (st_result s) As /\
    Forall2 abit_is (st_current_run s) cb /\
    match st_last_run s with Some l => abit_is l lb | None => lb = true end /\
    (bev As <= bev (firstn j rbits))%Z /\
    (bev As = bev (firstn j rbits) <-> lb = true /\ forallb id cb = true) /\
    (j <> 0%nat -> last (firstn j rbits) true = false -> st_current_run s = []).

Lemma strict_step_sound j s b a : nth_error rbits j = Some b -> strict_inv j s ->
  wpS rho G (strict_step s (b, a)) (okP (strict_inv (S j))).
Proof.
  intros Hb (As & cb & lb & Hf & Hl & HA & Hc & Hlr & Hle & Heq & Hrun).
  unfold strict_step. cbv beta iota zeta.
  assert (Hfound : (st_found_one s || b)%bool = true).
  { destruct j as [|j]; [|rewrite Hf; reflexivity].
    destruct rbits_head as [t Ht]. rewrite Ht in Hb. cbn in Hb. inversion Hb. apply orb_true_r. }
  rewrite Hfound. cbn [negb].
  pose proof (firstn_snoc _ _ _ Hb) as Hfs.
  destruct b.
  - eapply wpS_bindq'; [apply wpS_ns, ab_alloc_sound; assumption|]. cbv beta. intros x [xb Hx].
    cbn. exists (As ++ [xb]), (cb ++ [xb]), lb. cbn [st_found_one st_result st_current_run st_last_run].
    rewrite Hfs, !bev_snoc, forallb_app. cbn [forallb id].
    refine (conj _ (conj _ (conj _ (conj _ (conj _ (conj _ (conj (conj _ _) _))))))).
    + reflexivity.
    + rewrite app_length. cbn. lia.
    + apply Forall2_app; auto.
    + apply Forall2_app; auto.
    + assumption.
    + destruct xb; cbn [Z.b2z]; lia.
    + unfold id. intros E. destruct xb; cbn [Z.b2z] in *; [|lia].
      destruct Heq as [Heq _]. destruct Heq as [Hlb Hcb]; [lia|]. unfold id in Hcb. rewrite Hcb. auto.
    + intros [H1 H2]. apply andb_true_iff in H2 as [H2 H3]. rewrite andb_true_r in H3.
      unfold id in H3. subst xb. destruct Heq as [_ Heq]. rewrite Heq by auto. reflexivity.
    + intros _ E. exfalso. rewrite last_last in E. discriminate.
  - apply wpS_bindq' with (Q1 := fun l => match l with Some l => exists b, abit_is l b /\ (bev As = bev (firstn j rbits) <-> b = true) | None => True end).
    + destruct (st_current_run s) as [|c0 cr] eqn:Ecr.
      * inversion Hc; subst cb. cbn. destruct (st_last_run s); [|exact I]. exists lb. split; auto.
        rewrite Heq. cbn. tauto.
      * eapply wpS_bindq' with (Q1 := fun l => exists b, abit_is l b /\ (bev As = bev (firstn j rbits) <-> b = true)).
        -- apply wpS_ns. destruct (st_last_run s) as [l|].
           ++ eapply wpS_okmono; [|apply kary_and_sound with (bs := cb ++ [lb])].
              ** intros r Hr. eexists; split; [exact Hr|]. rewrite Heq, forallb_app, andb_true_iff. 
                 replace (forallb id [lb]) with lb by (destruct lb; reflexivity). tauto.
              ** apply Forall2_app; auto.
           ++ eapply wpS_okmono; [|apply kary_and_sound; exact Hc].
              intros r Hr. eexists; split; [exact Hr|]. rewrite Heq. tauto.
        -- intros k Hk. exact Hk.
    + intros [l|] Hl'; [|exact I]. destruct Hl' as (lb' & Hlb & Heq').
      eapply wpS_bindq'; [apply wpS_ns, ab_alloc_conditionally_sound; [assumption|exact Hlb]|]. cbv beta.
      intros x (xb & Hx & Hxl). cbn. exists (As ++ [xb]), [], lb'.
      cbn [st_found_one st_result st_current_run st_last_run].
      rewrite Hfs, !bev_snoc. cbn [forallb Z.b2z].
      refine (conj _ (conj _ (conj _ (conj _ (conj _ (conj _ (conj (conj _ _) _))))))); auto.
      * rewrite app_length. cbn. lia.
      * apply Forall2_app; auto.
      * destruct lb'; [rewrite Hxl by auto; cbn [Z.b2z]; lia|].
        assert (bev As <> bev (firstn j rbits)) by (intros E; apply Heq' in E; discriminate).
        destruct xb; cbn [Z.b2z]; lia.
      * destruct lb'; auto. assert (bev As <> bev (firstn j rbits)) by (intros E; apply Heq' in E; discriminate).
        intros. destruct xb; cbn [Z.b2z] in *; lia.
      * intros [-> _]. rewrite Hxl by auto. rewrite (proj2 Heq') by auto. reflexivity.
Qed.

Lemma strict_loop_sound v :
  wpS rho G (strict_loop v) (okP (strict_inv (num_bits P))).
Proof.
  unfold strict_loop.
  assert (Hlen : length (combine rbits (abits_be v)) = num_bits P).
  { rewrite combine_length, rbits_length, abits_be_length. lia. }
  rewrite <- Hlen at 2.
  set (i0 := (repr_bits P - num_bits P)%nat).
  pose (I := fun k s => strict_inv (k - i0) s).
  eapply wpS_okmono; [|apply wpS_foldq with (I := I)].
  - intros s Hs. unfold I in Hs. replace (i0 + length (combine rbits (abits_be v)) - i0)%nat with (length (combine rbits (abits_be v))) in Hs by lia. exact Hs.
  - unfold I. rewrite Nat.sub_diag. exists [], [], true. cbn. repeat split; auto; try constructor; try reflexivity.
  - intros j [b a] s Hnth HI. unfold I in *.
    replace (i0 + j - i0)%nat with j in HI by lia. replace (S (i0 + j) - i0)%nat with (S j) by lia.
    apply strict_step_sound; auto.
    now apply nth_error_combine in Hnth.
Qed.

Lemma to_bits_le_strict_sound a :
  wpS rho G (to_bits_le_strict a)
    (okP (fun r => Forall2 (bit_is rho) r (z2le (num_bits P) (toZ (rho (an_var a)))))).
Proof.
  unfold to_bits_le_strict. fold strict_init.
  eapply wpS_bindq'.
  - rewrite strict_loop_eq. apply strict_loop_sound.
  - cbv beta. intros s (As & cb & lb & Hf & Hl & HA & Hc & Hlr & Hle & Heq & Hrun).
    assert (firstn (num_bits P) rbits = rbits) as Hfn by (rewrite <- rbits_length; apply firstn_all).
    rewrite Hfn, bev_rbits in Hle.
    assert (Hcr : st_current_run s = []).
    { apply Hrun; [pose proof (num_bits_pos P); lia|]. rewrite Hfn.
      destruct rbits_last as [t ->]. apply last_last. }
    rewrite Hcr. apply wpS_enforce. ev.
    rewrite (eval_unpack (rev (st_result s)) (rev As)).
    2:{ clear -HA. induction HA; cbn; [constructor|]. apply Forall2_app; auto. }
    intros H. cbn.
    assert (E : ofZ (bev As) = rho (an_var a)).
    { apply fsub_0_eq. unfold bev. rewrite <- H. ring. }
    pose proof (le2z_nonneg (rev As)) as H0. fold (bev As) in H0.
    assert (E2 : toZ (rho (an_var a)) = bev As).
    { rewrite <- E. apply toZ_ofZ_small. lia. }
    rewrite E2. unfold bev. rewrite <- Hl at 1. rewrite <- (rev_length As). rewrite z2le_le2z.
    rewrite <- map_rev.
    assert (HA' : Forall2 abit_is (rev (st_result s)) (rev As)).
    { clear -HA. induction HA; cbn; [constructor|]. apply Forall2_app; auto. }
    clear -HA'. induction HA'; cbn; constructor; auto.
Qed.

End Sound.

(** ** Completeness *)
Lemma wpC_enforce' {A} n a b c (k : unit -> prog P A) Q :
  eval rho a * eval rho b = eval rho c /\ wpC rho (k tt) Q -> wpC rho (bind (cs_enforce n a b c) k) Q.
Proof. intros [H1 H2]. now apply wpC_enforce. Qed.

Ltac evc := lcev; rewrite ?Hone in *.

Lemma an_alloc_complete x : wpC rho (an_alloc (Ok x)) (isOk (fun a => num_hon rho a x)).
Proof. eapply (wpC_alloc_q rho _ _ x); [reflexivity|]. intros v Hv. cbn. split; auto. Qed.

Lemma an_inputize_complete a x : num_hon rho a x -> wpC rho (an_inputize a) (isOk (fun _ => True)).
Proof.
  intros [Hx Hv]. unfold an_inputize. rewrite Hv.
  eapply (wpC_alloc_input_q rho _ _ x); [reflexivity|]. intros v Hv'. apply wpC_enforce'. evc.
  split; [rewrite Hv', Hx; ring|exact I].
Qed.

Lemma an_mul_complete a b x y : num_hon rho a x -> num_hon rho b y ->
  wpC rho (an_mul a b) (isOk (fun r => num_hon rho r (x * y))).
Proof.
  intros [Hx Hv] [Hy Hw]. unfold an_mul. rewrite Hv, Hw.
  eapply (wpC_alloc_q rho _ _ (x * y)); [reflexivity|]. intros v Hv'. apply wpC_enforce'. evc.
  split; [rewrite Hv', Hx, Hy; ring|]. cbn. split; auto.
Qed.

Lemma an_square_complete a x : num_hon rho a x ->
  wpC rho (an_square a) (isOk (fun r => num_hon rho r (x * x))).
Proof.
  intros [Hx Hv]. unfold an_square. rewrite Hv.
  eapply (wpC_alloc_q rho _ _ (x * x)); [reflexivity|]. intros v Hv'. apply wpC_enforce'. evc.
  split; [rewrite Hv', Hx; ring|]. cbn. split; auto.
Qed.

Lemma an_assert_nonzero_complete a x : num_hon rho a x -> x <> 0 ->
  wpC rho (an_assert_nonzero a) (isOk (fun _ => True)).
Proof.
  intros [Hx Hv] H0. unfold an_assert_nonzero. rewrite Hv.
  eapply (wpC_alloc_q rho _ _ (finv x)).
  - cbn. destruct (feqb x 0) eqn:E; [apply feqb_eq in E; contradiction|reflexivity].
  - intros v Hv'. apply wpC_enforce'. evc. split; [|exact I]. rewrite Hv', Hx. field. exact H0.
Qed.

Lemma an_conditionally_reverse_complete a b c x y t : num_hon rho a x -> num_hon rho b y -> bit_hon rho c t ->
  wpC rho (an_conditionally_reverse a b c)
    (isOk (fun r => num_hon rho (fst r) (if t then y else x) /\ num_hon rho (snd r) (if t then x else y))).
Proof.
  intros [Hx Hxv] [Hy Hyv] [Hc Hcv]. unfold an_conditionally_reverse. rewrite Hxv, Hyv, Hcv. cbn [get rbind].
  eapply wpC_bindq'.
  - apply wpC_ns. replace (if t then Ok y else Ok x) with (@Ok SynthesisError P (if t then y else x)) by now destruct t.
    apply an_alloc_complete.
  - cbv beta. intros p [Hp Hpv]. apply wpC_enforce'. evc. rewrite (eval_b_lc rho Hone _ _ 1 Hc). split.
    { rewrite Hx, Hy, Hp. destruct t; cbn; ring. }
    eapply wpC_bindq'.
    + apply wpC_ns. replace (if t then Ok x else Ok y) with (@Ok SynthesisError P (if t then x else y)) by now destruct t.
      apply an_alloc_complete.
    + cbv beta. intros q [Hq Hqv]. apply wpC_enforce'. evc. rewrite (eval_b_lc rho Hone _ _ 1 Hc). split.
      { rewrite Hx, Hy, Hq. destruct t; cbn; ring. }
      cbn. repeat split; auto.
Qed.

Lemma abit_hon_is l bs : Forall2 (abit_hon rho) l bs -> Forall2 abit_is l bs.
Proof. induction 1 as [|? ? ? ? [? ?]]; constructor; auto. Qed.

Lemma to_bits_le_complete a x : num_hon rho a x ->
  wpC rho (to_bits_le a) (isOk (fun r => Forall2 (bit_hon rho) r (z2le (num_bits P) (toZ x)))).
Proof.
  intros [Hx Hv]. unfold to_bits_le. rewrite Hv.
  eapply wpC_bindq'; [apply (field_into_allocated_bits_le_complete rho Hone)|]. cbv beta. intros r Hr.
  apply wpC_enforce'. evc. rewrite (eval_unpack _ _ (abit_hon_is _ _ Hr)).
  rewrite le2z_z2le_small by apply toZ_bound. rewrite ofZ_toZ, Hx. split; [ring|].
  cbn. apply Forall2_map_l. eapply Forall2_impl; [|exact Hr]. intros ab b [H1 H2]. split; auto.
Qed.

Lemma kary_and_complete v bs : v <> [] -> Forall2 (abit_hon rho) v bs ->
  wpC rho (kary_and v) (isOk (fun r => abit_hon rho r (forallb id bs))).
Proof.
  intros Hne H. destruct H as [|a b v bs Ha HF]; [contradiction|]. cbn [kary_and forallb]. clear Hne.
  unfold id at 1. revert a b Ha. generalize 1%nat.
  induction HF as [|a b v bs Ha HF IH]; intros i cur c Hc; cbn [foldq forallb].
  - cbn. now rewrite andb_true_r.
  - eapply wpC_bindq'; [apply wpC_ns, ab_and_complete; [exact Hc|exact Ha]|]. cbv beta. intros r Hr.
    unfold id at 1. rewrite andb_assoc. now apply IH.
Qed.

Lemma bev_firstn (n j : nat) (z : Z) : (0 <= z < 2 ^ Z.of_nat n)%Z -> (j <= n)%nat ->
  bev (firstn j (rev (z2le n z))) = (z / 2 ^ Z.of_nat (n - j))%Z.
Proof.
  intros Hz Hj. replace n with ((n - j) + j)%nat at 1 by lia.
  rewrite z2le_app, rev_app_distr.
  rewrite firstn_app, rev_length, z2le_length, Nat.sub_diag. cbn [firstn]. rewrite app_nil_r.
  rewrite firstn_all2 by (rewrite rev_length, z2le_length; lia).
  unfold bev. rewrite rev_involutive. apply le2z_z2le_small.
  pose proof (pow2_pos (n - j)). split; [apply Z.div_pos; lia|].
  apply Z.div_lt_upper_bound; [lia|]. rewrite <- Z.pow_add_r by lia.
  replace (Z.of_nat (n - j) + Z.of_nat j)%Z with (Z.of_nat n) by lia. lia.
Qed.

Lemma prefix_le (x : P) j : (j <= num_bits P)%nat ->
  (bev (firstn j (rev (z2le (num_bits P) (toZ x)))) <= bev (firstn j rbits))%Z.
Proof.
  intros Hj. pose proof (modulus_pos (P := P)). pose proof (num_bits_hi P). pose proof (toZ_range P x).
  unfold rbits. rewrite !bev_firstn by lia.
  apply Z.div_le_mono; [apply pow2_pos|lia].
Qed.

Definition strict_hon (x : P) (j : nat) (s : StrictSt) : Prop :=
  exists cb lb,
    st_found_one s = negb (Nat.eqb j 0) /\
    Forall2 (abit_hon rho) (st_result s) (firstn j (rev (z2le (num_bits P) (toZ x)))) /\
    Forall2 (abit_hon rho) (st_current_run s) cb /\
    match st_last_run s with Some l => abit_hon rho l lb | None => lb = true end /\
    (bev (firstn j (rev (z2le (num_bits P) (toZ x)))) = bev (firstn j rbits) <-> lb = true /\ forallb id cb = true) /\
    (j <> 0%nat -> last (firstn j rbits) true = false -> st_current_run s = []) /\
    (j <> 0%nat -> st_current_run s = [] -> st_last_run s <> None).

Lemma strict_step_complete x j s b a : nth_error rbits j = Some b ->
  nth_error (rev (z2le (num_bits P) (toZ x))) j = Some a -> strict_hon x j s ->
  wpC rho (strict_step s (b, Some a)) (isOk (strict_hon x (S j))).
Proof.
  intros Hb Ha (cb & lb & Hf & HA & Hc & Hlr & Heq & Hrun & Hne).
  unfold strict_step. cbv beta iota zeta.
  assert (Hj : (S j <= num_bits P)%nat).
  { rewrite <- rbits_length. apply nth_error_Some. rewrite Hb. discriminate. }
  assert (Hfound : (st_found_one s || b)%bool = true).
  { destruct j as [|j]; [|rewrite Hf; reflexivity].
    destruct rbits_head as [t Ht]. rewrite Ht in Hb. cbn in Hb. inversion Hb. apply orb_true_r. }
  rewrite Hfound. cbn [negb].
  pose proof (firstn_snoc _ _ _ Hb) as Hfs. pose proof (firstn_snoc _ _ _ Ha) as Hfa.
  pose proof (prefix_le x j ltac:(lia)) as Hle. pose proof (prefix_le x (S j) Hj) as Hle'.
  rewrite Hfs, Hfa, !bev_snoc in Hle'.
  set (As := firstn j (rev (z2le (num_bits P) (toZ x)))) in *.
  destruct b.
  - eapply wpC_bindq'; [apply wpC_ns, ab_alloc_complete; assumption|]. cbv beta. intros y Hy.
    cbn. exists (cb ++ [a]), lb. cbn [st_found_one st_result st_current_run st_last_run].
    rewrite Hfs, Hfa. fold As. rewrite !bev_snoc, forallb_app.
    refine (conj _ (conj _ (conj _ (conj _ (conj (conj _ _) (conj _ _)))))).
    + reflexivity.
    + apply Forall2_app; auto.
    + apply Forall2_app; auto.
    + assumption.
    + cbn [forallb]. unfold id. intros E. destruct a; cbn [Z.b2z] in *; [|lia].
      destruct Heq as [Heq _]. destruct Heq as [Hlb Hcb]; [lia|]. unfold id in Hcb. rewrite Hcb. auto.
    + cbn [forallb]. intros [H1 H2]. apply andb_true_iff in H2 as [H2 H3]. rewrite andb_true_r in H3.
      unfold id in H3. subst a. destruct Heq as [_ Heq]. rewrite Heq by auto. reflexivity.
    + intros _ E. exfalso. rewrite last_last in E. discriminate.
    + intros _ E. destruct (st_current_run s); discriminate.
  - apply wpC_bindq' with (Q1 := fun l => match l with
       | Some l => exists b, abit_hon rho l b /\ (bev As = bev (firstn j rbits) <-> b = true) | None => False end).
    + destruct (st_current_run s) as [|c0 cr] eqn:Ecr.
      * inversion Hc; subst cb.
        assert (Hj0 : j <> 0%nat).
        { intros ->. destruct rbits_head as [t Ht]. rewrite Ht in Hb. discriminate. }
        specialize (Hne Hj0 eq_refl). cbn. destruct (st_last_run s); [|contradiction]. exists lb. split; auto.
        rewrite Heq. cbn. tauto.
      * eapply wpC_bindq' with (Q1 := fun l => exists b, abit_hon rho l b /\ (bev As = bev (firstn j rbits) <-> b = true)).
        -- apply wpC_ns. destruct (st_last_run s) as [l|].
           ++ eapply wpC_okmono; [|apply kary_and_complete with (bs := cb ++ [lb])].
              ** intros r Hr. eexists; split; [exact Hr|]. rewrite Heq, forallb_app, andb_true_iff.
                 replace (forallb id [lb]) with lb by (destruct lb; reflexivity). tauto.
              ** discriminate.
              ** apply Forall2_app; auto.
           ++ eapply wpC_okmono; [|apply kary_and_complete; [discriminate|exact Hc]].
              intros r Hr. eexists; split; [exact Hr|]. rewrite Heq. tauto.
        -- intros k Hk. exact Hk.
    + intros [l|] Hl'; [|contradiction]. destruct Hl' as (lb' & Hlb & Heq').
      assert (Hal : lb' = true -> a = false).
      { intros E. apply Heq' in E. destruct a; auto. cbn [Z.b2z] in Hle'. lia. }
      eapply wpC_bindq'; [apply wpC_ns; eapply ab_alloc_conditionally_complete; [assumption|apply Hlb|exact Hal]|]. cbv beta.
      intros y Hy. cbn. exists [], lb'.
      cbn [st_found_one st_result st_current_run st_last_run].
      rewrite Hfs, Hfa. fold As. rewrite !bev_snoc.
      refine (conj _ (conj _ (conj _ (conj _ (conj (conj _ _) (conj _ _)))))); auto.
      * apply Forall2_app; auto.
      * intros E. split; [|reflexivity]. apply Heq'. destruct a; cbn [Z.b2z] in *; lia.
      * intros [E _]. rewrite (Hal E). rewrite (proj2 Heq') by auto. reflexivity.
      * intros _ _. discriminate.
Qed.

Lemma strict_loop_complete x :
  wpC rho (strict_loop (Some x)) (isOk (strict_hon x (num_bits P))).
Proof.
  unfold strict_loop.
  assert (Hlen : length (combine rbits (abits_be (Some x))) = num_bits P).
  { rewrite combine_length, rbits_length, abits_be_length. lia. }
  set (i0 := (repr_bits P - num_bits P)%nat).
  pose (I := fun k s => strict_hon x (k - i0) s).
  eapply wpC_okmono; [|apply wpC_foldq with (I := I)].
  - intros s Hs. unfold I in Hs. rewrite Hlen in Hs. replace (i0 + num_bits P - i0)%nat with (num_bits P) in Hs by lia. exact Hs.
  - unfold I. rewrite Nat.sub_diag. exists [], true. cbn. repeat split; auto; try constructor; try congruence.
  - intros j [b a] s Hnth HI. unfold I in *.
    replace (i0 + j - i0)%nat with j in HI by lia. replace (S (i0 + j) - i0)%nat with (S j) by lia.
    apply nth_error_combine in Hnth as [Hb Ha]. cbn in Ha. rewrite nth_error_map in Ha.
    destruct (nth_error (rev (z2le (num_bits P) (toZ x))) j) eqn:E; [|discriminate]. inversion Ha; subst.
    apply strict_step_complete; auto.
Qed.

Lemma to_bits_le_strict_complete a x : num_hon rho a x ->
  wpC rho (to_bits_le_strict a) (isOk (fun r => Forall2 (bit_hon rho) r (z2le (num_bits P) (toZ x)))).
Proof.
  intros [Hx Hv]. unfold to_bits_le_strict. fold strict_init. rewrite Hv.
  eapply wpC_bindq'.
  - rewrite (strict_loop_eq (Some x)). apply strict_loop_complete.
  - cbv beta. intros s (cb & lb & Hf & HA & Hc & Hlr & Heq & Hrun & Hne).
    assert (firstn (num_bits P) rbits = rbits) as Hfn by (rewrite <- rbits_length; apply firstn_all).
    assert (Hcr : st_current_run s = []).
    { apply Hrun; [pose proof (num_bits_pos P); lia|]. rewrite Hfn.
      destruct rbits_last as [t ->]. apply last_last. }
    rewrite firstn_all2 in HA by (rewrite rev_length, z2le_length; lia).
    apply Forall2_rev in HA. rewrite rev_involutive in HA.
    rewrite Hcr. apply wpC_enforce'. evc.
    rewrite (eval_unpack (rev (st_result s)) _ (abit_hon_is _ _ HA)).
    rewrite le2z_z2le_small by apply toZ_bound. rewrite ofZ_toZ, Hx. split; [ring|].
    cbn. rewrite <- map_rev. apply Forall2_map_l. eapply Forall2_impl; [|exact HA]. intros ab b [H1 H2]. split; auto.
Qed.

(** ** [Num] *)
Lemma num_lc_eval n c : eval rho (num_lc n c) = c * eval rho (num_lc_ n).
Proof. unfold num_lc. evc. ring. Qed.

Lemma num_of_allocated_eval a : eval rho (num_lc_ (num_of_allocated a)) = rho (an_var a).
Proof. cbn. evc. ring. Qed.

Lemma num_add_bool_eval n b t c : bit_is rho b t ->
  eval rho (num_lc_ (num_add_bool n one_var b c)) = eval rho (num_lc_ n) + c * fbit t.
Proof. intros H. cbn. evc. now rewrite (eval_b_lc rho Hone _ _ c H). Qed.

(** A [Num] whose recorded value is the value of its combination. *)
Definition numc_hon (n : Num P) (x : P) : Prop := eval rho (num_lc_ n) = x /\ num_value n = Some x.

Lemma num_zero_hon : numc_hon num_zero 0.
Proof. split; [apply eval_zero|reflexivity]. Qed.

Lemma num_of_allocated_hon a x : num_hon rho a x -> numc_hon (num_of_allocated a) x.
Proof. intros [H1 H2]. split; [rewrite num_of_allocated_eval|]; auto. Qed.

Lemma num_add_bool_hon n x b t c : numc_hon n x -> bit_hon rho b t ->
  numc_hon (num_add_bool n one_var b c) (x + c * fbit t).
Proof.
  intros [H1 H2] [H3 H4]. split; [rewrite (num_add_bool_eval _ _ _ _ H3), H1; reflexivity|].
  cbn. rewrite H2, H4. destruct t; cbn; f_equal; ring.
Qed.

End Rho.

(** ** Structure *)
Lemma an_alloc_sim v v' : sim (@an_alloc P v) (an_alloc v') (resR ansim).
Proof. apply sim_alloc. intros var z _. reflexivity. Qed.

Lemma an_inputize_sim a a' : ansim a a' -> sim (an_inputize a) (an_inputize a') (resR (fun _ _ => True)).
Proof.
  intros H. apply sim_alloc_input. intros var z _. apply sim_enforce; [reflexivity|reflexivity|reflexivity|now rewrite H|].
  exact I.
Qed.

Lemma an_mul_sim a a' b b' : ansim a a' -> ansim b b' -> sim (an_mul a b) (an_mul a' b') (resR ansim).
Proof.
  intros Ha Hb. apply sim_alloc. intros var z _. apply sim_enforce; rewrite ?Ha, ?Hb; reflexivity.
Qed.

Lemma an_square_sim a a' : ansim a a' -> sim (an_square a) (an_square a') (resR ansim).
Proof.
  intros Ha. apply sim_alloc. intros var z _. apply sim_enforce; rewrite ?Ha; reflexivity.
Qed.

Lemma an_assert_nonzero_sim a a' : ansim a a' ->
  sim (an_assert_nonzero a) (an_assert_nonzero a') (resR (fun _ _ => True)).
Proof.
  intros Ha. apply sim_alloc. intros var z _. apply sim_enforce; rewrite ?Ha; try reflexivity; exact I.
Qed.

Lemma an_conditionally_reverse_sim a a' b b' c c' : ansim a a' -> ansim b b' -> bsim c c' ->
  sim (an_conditionally_reverse a b c) (an_conditionally_reverse a' b' c')
    (resR (fun x y => ansim (fst x) (fst y) /\ ansim (snd x) (snd y))).
Proof.
  intros Ha Hb Hc. unfold an_conditionally_reverse.
  eapply sim_bindq; [apply sim_ns, an_alloc_sim|]. intros p p' Hp.
  apply sim_enforce; rewrite ?Ha, ?Hb, ?Hp, ?(bsim_lc _ _ _ _ Hc); try reflexivity.
  eapply sim_bindq; [apply sim_ns, an_alloc_sim|]. intros q q' Hq.
  apply sim_enforce; rewrite ?Ha, ?Hb, ?Hq, ?(bsim_lc _ _ _ _ Hc); try reflexivity.
  cbn. auto.
Qed.

Lemma absim_vars l l' : Forall2 absim l l' -> map ab_var l = map ab_var l'.
Proof. induction 1; cbn; [reflexivity|]. now rewrite H, IHForall2. Qed.

Lemma absim_is l l' : Forall2 absim l l' -> Forall2 bsim (map BIs l) (map BIs l').
Proof. induction 1; cbn; constructor; auto. Qed.

Lemma to_bits_le_sim a a' : ansim a a' -> sim (to_bits_le a) (to_bits_le a') (resR (Forall2 bsim)).
Proof.
  intros Ha. unfold to_bits_le.
  eapply sim_bindq; [apply field_into_allocated_bits_le_sim|]. intros l l' Hl.
  apply sim_enforce; try reflexivity.
  - rewrite Ha, (absim_vars _ _ Hl). reflexivity.
  - cbn. now apply absim_is.
Qed.

Lemma kary_and_sim v v' : Forall2 absim v v' -> sim (@kary_and P v) (kary_and v') (resR absim).
Proof.
  intros H. destruct H as [|a a' v v' Ha HF]; [exact I|]. cbn [kary_and].
  apply sim_foldq with (I := absim); auto.
  intros i s s' x x' Hs Hx. apply sim_ns, ab_and_sim; auto.
Qed.

Definition osim (a b : option AllocatedBit) : Prop :=
  match a, b with Some x, Some y => absim x y | None, None => True | _, _ => False end.

Definition ssim (s s' : StrictSt) : Prop :=
  Forall2 absim (st_result s) (st_result s') /\ osim (st_last_run s) (st_last_run s') /\
  Forall2 absim (st_current_run s) (st_current_run s') /\
  st_found_one s = true /\ st_found_one s' = true /\ st_i s = st_i s'.

Lemma strict_step_sim s s' x x' : ssim s s' \/ (s = s' /\ fst x = true) -> fst x = fst x' ->
  sim (@strict_step P s x) (strict_step s' x') (resR ssim).
Proof.
  intros HS Hx. destruct x as [b a], x' as [b' a']. cbn in Hx. subst b'.
  assert (Hgen : Forall2 absim (st_result s) (st_result s') /\ osim (st_last_run s) (st_last_run s') /\
    Forall2 absim (st_current_run s) (st_current_run s') /\ st_i s = st_i s' /\
    orb (st_found_one s) b = true /\ orb (st_found_one s') b = true).
  { destruct HS as [(H1 & H2 & H3 & H4 & H5 & H6)|[-> Hb]].
    - rewrite H4, H5. auto 10.
    - cbn in Hb. subst b. rewrite orb_true_r.
      assert (HR : forall l, Forall2 absim l l) by (induction l; constructor; auto; reflexivity).
      repeat split; auto. destruct (st_last_run s'); cbn; auto. reflexivity. }
  destruct Hgen as (H1 & H2 & H3 & H4 & H5 & H6).
  unfold strict_step. rewrite H5, H6, H4. cbn [negb]. destruct b.
  - eapply sim_bindq; [apply sim_ns, ab_alloc_sim|]. intros y y' Hy. cbn. unfold ssim. cbn.
    repeat split; auto; apply Forall2_app; auto.
  - eapply sim_bindq with (R := osim).
    + destruct H3 as [|c0 c0' cr cr' Hc0 Hcr]; [exact H2|].
      eapply sim_bindq.
      * apply sim_ns, kary_and_sim. destruct (st_last_run s), (st_last_run s'); try contradiction.
        -- apply Forall2_app; auto.
        -- auto.
      * intros k k' Hk. exact Hk.
    + intros l l' Hl. destruct l as [l|], l' as [l'|]; try contradiction; [|exact I].
      eapply sim_bindq; [apply sim_ns, ab_alloc_conditionally_sim; exact Hl|]. intros y y' Hy. cbn. unfold ssim. cbn.
      repeat split; auto; apply Forall2_app; auto.
Qed.

Lemma to_bits_le_strict_sim a a' : ansim a a' ->
  sim (to_bits_le_strict a) (to_bits_le_strict a') (resR (Forall2 bsim)).
Proof.
  intros Ha. unfold to_bits_le_strict. fold strict_init.
  eapply sim_bindq with (R := ssim).
  - rewrite !strict_loop_eq. unfold strict_loop.
    destruct rbits_head as [t Ht]. rewrite Ht.
    pose proof (rbits_length) as HL. rewrite Ht in HL.
    pose proof (abits_be_length (an_value a)) as L1. pose proof (abits_be_length (an_value a')) as L2.
    destruct (abits_be (an_value a)) as [|x l]; [cbn in *; lia|].
    destruct (abits_be (an_value a')) as [|x' l']; [cbn in *; lia|].
    cbn [combine foldq]. eapply sim_bindq.
    + apply strict_step_sim; [right; split; reflexivity|reflexivity].
    + intros s s' Hs. apply sim_foldq with (I := fun y y' => fst y = fst y'); auto.
      * assert (LL : length l = length l') by (cbn in *; lia). assert (LL' : length t = length l) by (cbn in *; lia).
        clear -LL LL'. revert l l' LL LL'. induction t as [|b t IH]; intros [|u l] [|u' l'] H H'; try discriminate; constructor; auto.
      * intros i p p' y y' Hp Hy. apply strict_step_sim; auto.
  - intros s s' (H1 & H2 & H3 & H4 & H5 & H6).
    destruct H3; [|exact I].
    apply sim_enforce; try reflexivity.
    + rewrite Ha, (absim_vars _ _ (Forall2_rev _ _ _ H1)). reflexivity.
    + cbn. apply Forall2_rev, absim_is, H1.
Qed.

Lemma an_alloc_gadget v : Gadget (@an_alloc P v). Proof. unfold an_alloc. gadget. Qed.
Lemma an_inputize_gadget a : Gadget (@an_inputize P a). Proof. unfold an_inputize. gadget. Qed.
Lemma an_mul_gadget a b : Gadget (@an_mul P a b). Proof. unfold an_mul. gadget. Qed.
Lemma an_square_gadget a : Gadget (@an_square P a). Proof. unfold an_square. gadget. Qed.
Lemma an_assert_nonzero_gadget a : Gadget (@an_assert_nonzero P a). Proof. unfold an_assert_nonzero. gadget. Qed.
Hint Resolve an_alloc_gadget an_inputize_gadget an_mul_gadget an_square_gadget an_assert_nonzero_gadget : struct_db.
Lemma an_conditionally_reverse_gadget a b c : Gadget (@an_conditionally_reverse P a b c).
Proof. unfold an_conditionally_reverse. gadget. Qed.
Lemma kary_and_gadget v : Gadget (@kary_and P v).
Proof. unfold kary_and. destruct v; gadget. Qed.
Hint Resolve an_conditionally_reverse_gadget kary_and_gadget : struct_db.
Lemma strict_step_gadget s x : Gadget (@strict_step P s x).
Proof. destruct x as [b a]. unfold strict_step. gadget. Qed.
Hint Resolve strict_step_gadget : struct_db.
Lemma to_bits_le_strict_gadget a : Gadget (@to_bits_le_strict P a).
Proof. unfold to_bits_le_strict. gadget. Qed.
Lemma to_bits_le_gadget a : Gadget (@to_bits_le P a).
Proof. unfold to_bits_le. gadget. Qed.

End Proofs.
#[export] Hint Resolve an_alloc_gadget an_inputize_gadget an_mul_gadget an_square_gadget an_assert_nonzero_gadget
  an_conditionally_reverse_gadget kary_and_gadget strict_step_gadget to_bits_le_strict_gadget to_bits_le_gadget : struct_db.
