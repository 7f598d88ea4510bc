(** 32-bit words in the circuit: src/gadgets/uint32.rs. *)
From Coq Require Import String.
From Coq Require Import ZArith List Bool Lia Field.
From Verif Require Import Prelude PrimeField Circuit Loops BooleanGadget NumGadget MultiEq.
Import ListNotations.

(** ** Rust's u32 operations on integers in [0, 2^32). *)
Definition u32_not (a : Z) : Z := Z.lxor a (Z.ones 32).
Definition u32_shl1 (a : Z) : Z := (Z.shiftl a 1 mod 2 ^ 32)%Z.
Definition u32_rotate_right (v : Z) (by' : nat) : Z :=
  Z.lor (Z.shiftr v (Z.of_nat by')) (Z.shiftl v (32 - Z.of_nat by') mod 2 ^ 32)%Z.

(** uint32.rs:15-19, bits least significant first *)
Record UInt32 := { u_bits : list Boolean; u_value : option Z }.

(** uint32.rs:28-38, 53-59: [for _ in 0..32 { .. val & 1 == 1 ..; val >>= 1 }] *)
Fixpoint low_bits (n : nat) (tmp : Z) : list bool :=
  match n with
  | O => []
  | S n' => (Z.eqb (Z.land tmp 1) 1)%Z :: low_bits n' (Z.shiftr tmp 1)
  end.

(** uint32.rs:25-44 [UInt32::constant] *)
Definition u_constant (value : Z) : UInt32 :=
  {| u_bits := map (fun b : bool => if b then BConst true else BConst false) (low_bits 32 value); u_value := Some value |}.

(** uint32.rs:79-83 [into_bits_be] *)
Definition into_bits_be (w : UInt32) : list Boolean := rev (u_bits w).

(** uint32.rs:88-105, the loop body *)
Definition from_bits_be_step (value : option Z) (b : Boolean) : option Z :=
  let value := option_map u32_shl1 value in
  match b_value b with
  | Some true => option_map (fun v => Z.lor v 1%Z) value
  | Some false => value
  | None => None
  end.

(** uint32.rs:85-111 [from_bits_be] *)
Definition from_bits_be (bits : list Boolean) : outcome UInt32 :=
  if Nat.eqb (length bits) 32
  then Done {| u_value := fold_left from_bits_be_step bits (Some 0%Z); u_bits := rev bits |}
  else Panicked.

(** uint32.rs:114-116 [into_bits] *)
Definition into_bits (w : UInt32) : list Boolean := u_bits w.

(** uint32.rs:126-157, the loop body *)
Definition from_bits_step (value : option Z) (b : Boolean) : option Z :=
  let value := option_map u32_shl1 value in
  match b with
  | BConst b => if b then option_map (fun v => Z.lor v 1%Z) value else value
  | BIs b =>
      match ab_value b with
      | Some true => option_map (fun v => Z.lor v 1%Z) value
      | Some false => value
      | None => None
      end
  | BNot b =>
      match ab_value b with
      | Some false => option_map (fun v => Z.lor v 1%Z) value
      | Some true => value
      | None => None
      end
  end.

(** uint32.rs:120-164 [from_bits] *)
Definition from_bits (bits : list Boolean) : outcome UInt32 :=
  if Nat.eqb (length bits) 32
  then Done {| u_value := fold_left from_bits_step (rev bits) (Some 0%Z); u_bits := bits |}
  else Panicked.

(** uint32.rs:166-182 [rotr] *)
Definition u_rotr (w : UInt32) (by' : nat) : UInt32 :=
  let by' := Nat.modulo by' 32 in
  {| u_bits := firstn 32 (skipn by' (u_bits w) ++ u_bits w);
     u_value := option_map (fun v => u32_rotate_right v by') (u_value w) |}.

(** uint32.rs:184-202 [shr]; only 32 elements of the infinite [cycle] can be taken *)
Definition u_shr (w : UInt32) (by' : nat) : UInt32 :=
  let by' := Nat.modulo by' 32 in
  {| u_bits := firstn 32 (skipn by' (u_bits w) ++ repeat (BConst false) 32);
     u_value := option_map (fun v => Z.shiftr v (Z.of_nat by')) (u_value w) |}.

Definition maj_fn (a b c : Z) : Z := Z.lxor (Z.lxor (Z.land a b) (Z.land a c)) (Z.land b c).
Definition ch_fn (a b c : Z) : Z := Z.lxor (Z.land a b) (Z.land (u32_not a) c).

(** A Rust panic inside a gadget. *)
Definition lift {P : PrimeField} {A B} (o : outcome A) (k : A -> prog P B) : prog P B :=
  match o with Done a => k a | Panicked => Panic end.

Section Model.
Context {P : PrimeField}.
Local Open Scope F_scope.
Local Open Scope lc_scope.
Local Open Scope prog_scope.
Local Open Scope string_scope.

(** uint32.rs:46-77 [UInt32::alloc] *)
Definition u_alloc (value : option Z) : prog P (res UInt32) :=
  let values := match value with Some val => map Some (low_bits 32 val) | None => repeat None 32 end in
  let* bits := mapq (fun i v => let* b := ns ("allocated bit " ++ nat_str i) (ab_alloc v) in Ret (Ok (BIs b))) 0 values in
  Ret (Ok {| u_bits := bits; u_value := value |}).

(** uint32.rs:204-236 [triop] *)
Definition triop (a b c : UInt32) (tri_fn : Z -> Z -> Z -> Z)
    (circuit_fn : nat -> Boolean -> Boolean -> Boolean -> prog P (res Boolean)) : prog P (res UInt32) :=
  let new_value := match u_value a, u_value b, u_value c with
                   | Some a, Some b, Some c => Some (tri_fn a b c)
                   | _, _, _ => None
                   end in
  let* bits := mapq (fun i x => circuit_fn i (fst (fst x)) (snd (fst x)) (snd x)) 0
                 (combine (combine (u_bits a) (u_bits b)) (u_bits c)) in
  Ret (Ok {| u_bits := bits; u_value := new_value |}).

(** uint32.rs:240-258 [sha256_maj] *)
Definition u_maj (a b c : UInt32) : prog P (res UInt32) :=
  triop a b c maj_fn (fun i a b c => ns ("maj " ++ nat_str i) (b_maj a b c)).

(** uint32.rs:262-280 [sha256_ch] *)
Definition u_ch (a b c : UInt32) : prog P (res UInt32) :=
  triop a b c ch_fn (fun i a b c => ns ("ch " ++ nat_str i) (b_ch a b c)).

(** uint32.rs:283-305 [xor] *)
Definition u_xor (a b : UInt32) : prog P (res UInt32) :=
  let new_value := match u_value a, u_value b with Some a, Some b => Some (Z.lxor a b) | _, _ => None end in
  let* bits := mapq (fun i x => ns ("xor of bit " ++ nat_str i) (b_xor (fst x) (snd x))) 0 (combine (u_bits a) (u_bits b)) in
  Ret (Ok {| u_bits := bits; u_value := new_value |}).

(** uint32.rs:351-358, over the bits of one operand *)
Definition add_bit_step (st : LC P * P) (bit : Boolean) : LC P * P :=
  (fst st +l b_lc bit one_var (snd st), fdouble (snd st)).

(** uint32.rs:335-359, the loop over the operands: result_value, lc, all_constants *)
Definition add_op_step (st : option Z * LC P * bool) (op : UInt32) : option Z * LC P * bool :=
  let '(result_value, lc, all_constants) := st in
  (match u_value op with
   | Some val => option_map (fun v => (v + val)%Z) result_value
   | None => None
   end,
   fst (fold_left add_bit_step (u_bits op) (lc, 1)),
   fold_left (fun acc bit => andb acc (is_constant bit)) (u_bits op) all_constants).

(** uint32.rs:379-397: [while max_value != 0 { ..; max_value >>= 1; i += 1; .. }], [max_value <> 0];
    returns the bits, the linear combination and the final [i]. *)
Fixpoint add_result_loop (result_value : option Z) (max_value : positive) (i : nat) (coeff : P)
    (result_lc : LC P) (result_bits : list Boolean) : prog P (res (list Boolean * LC P * nat)) :=
  let* b := ns ("result bit " ++ nat_str i)
              (ab_alloc (option_map (fun v => (Z.eqb (Z.land (Z.shiftr v (Z.of_nat i)) 1) 1)%Z) result_value)) in
  let result_lc := result_lc +t (coeff, ab_var b) in
  let result_bits := (result_bits ++ [BIs b])%list in
  match max_value with
  | xH => Ret (Ok (result_bits, result_lc, S i))
  | xO m | xI m => add_result_loop result_value m (S i) (fdouble coeff) result_lc result_bits
  end.

(** uint32.rs:308-408 [addmany]; [cs.get_root()] is the surrounding MultiEq. *)
Definition addmany (operands : list UInt32) : prog P (res UInt32) :=
  if negb (Nat.leb 64 (num_bits P)) then Panic
  else if negb (Nat.leb 2 (length operands)) then Panic
  else if negb (Nat.leb (length operands) 10) then Panic
  else
    let max_value := (Z.of_nat (length operands) * (2 ^ 32 - 1))%Z in
    let '(result_value, lc, all_constants) := fold_left add_op_step operands (Some 0%Z, lc_zero, true) in
    let modular_value := option_map (fun v => (v mod 2 ^ 32)%Z) result_value in
    match all_constants, modular_value with
    | true, Some result => Ret (Ok (u_constant result))
    | _, _ =>
        let* r := add_result_loop result_value (Z.to_pos max_value) 0 1 lc_zero [] in
        let '(result_bits, result_lc, i) := r in
        cs_enforce_equal i lc result_lc ;;;
        Ret (Ok {| u_bits := firstn 32 result_bits; u_value := modular_value |})
    end.

End Model.

(** ** Bits of integers *)
Local Open Scope Z_scope.

Lemma low_bits_z2le n z : low_bits n z = z2le n z.
Proof.
  revert z; induction n as [|n IH]; intros z; [reflexivity|]. cbn [low_bits z2le]. rewrite IH.
  f_equal.
  change 1 with (Z.ones 1) at 1. rewrite Z.land_ones, Z.pow_1_r by lia. rewrite Zmod_odd.
  destruct (Z.odd z); reflexivity.
Qed.

Lemma z2le_testbit n z : z2le n z = map (fun i => Z.testbit z (Z.of_nat i)) (seq 0 n).
Proof.
  apply nth_ext with (d := false) (d' := false).
  - now rewrite z2le_length, map_length, seq_length.
  - intros i Hi. rewrite z2le_length in Hi. rewrite nth_z2le, nth_map_seq by auto. reflexivity.
Qed.

Lemma z2le_mod n z : z2le n (z mod 2 ^ Z.of_nat n) = z2le n z.
Proof.
  apply le2z_inj; [now rewrite !z2le_length|]. rewrite !le2z_z2le. apply Zmod_mod.
Qed.

Lemma z2le_congr n a b : a mod 2 ^ Z.of_nat n = b mod 2 ^ Z.of_nat n -> z2le n a = z2le n b.
Proof. intros H. now rewrite <- (z2le_mod n a), H, z2le_mod. Qed.

Lemma combine_map2 {A B C} (f : A -> B) (g : A -> C) l : combine (map f l) (map g l) = map (fun x => (f x, g x)) l.
Proof. induction l; cbn; congruence. Qed.

Lemma z2le_skipn n k z : (k <= n)%nat -> skipn k (z2le n z) = z2le (n - k) (z / 2 ^ Z.of_nat k).
Proof.
  intros H. replace n with (k + (n - k))%nat at 1 by lia. rewrite z2le_app, skipn_app, skipn_all2, z2le_length, Nat.sub_diag.
  - reflexivity.
  - rewrite z2le_length. lia.
Qed.
Lemma z2le_firstn n k z : (k <= n)%nat -> firstn k (z2le n z) = z2le k z.
Proof.
  intros H. replace n with (k + (n - k))%nat by lia. rewrite z2le_app, firstn_app, z2le_length, Nat.sub_diag.
  rewrite firstn_all2 by now rewrite z2le_length. cbn. apply app_nil_r.
Qed.

(** Rotation and shift as arithmetic. *)
Definition rotr32 (k : nat) (z : Z) : Z := z / 2 ^ Z.of_nat k + (z mod 2 ^ Z.of_nat k) * 2 ^ (32 - Z.of_nat k).

Lemma rotr32_range k z : (k <= 32)%nat -> 0 <= z < 2 ^ 32 -> 0 <= rotr32 k z < 2 ^ 32.
Proof.
  intros Hk Hz. unfold rotr32. pose proof (pow2_pos k).
  assert (E : 2 ^ 32 = 2 ^ Z.of_nat k * 2 ^ (32 - Z.of_nat k)) by (rewrite <- Z.pow_add_r by lia; f_equal; lia).
  assert (0 < 2 ^ (32 - Z.of_nat k)) by (apply Z.pow_pos_nonneg; lia).
  pose proof (Z.mod_pos_bound z _ H). assert (0 <= z / 2 ^ Z.of_nat k) by (apply Z.div_pos; lia).
  assert (z / 2 ^ Z.of_nat k < 2 ^ (32 - Z.of_nat k)) by (apply Z.div_lt_upper_bound; lia).
  nia.
Qed.

Lemma rotr32_bits k z : (k <= 32)%nat -> 0 <= z < 2 ^ 32 ->
  firstn 32 (skipn k (z2le 32 z) ++ z2le 32 z) = z2le 32 (rotr32 k z).
Proof.
  intros Hk Hz. rewrite z2le_skipn by lia. rewrite firstn_app, z2le_length, firstn_all2 by (rewrite z2le_length; lia).
  replace (32 - (32 - k))%nat with k by lia. rewrite z2le_firstn by lia.
  replace 32%nat with ((32 - k) + k)%nat at 2 by lia. rewrite z2le_app. unfold rotr32.
  assert (E : 2 ^ (32 - Z.of_nat k) = 2 ^ Z.of_nat (32 - k)) by (f_equal; lia).
  rewrite E. pose proof (pow2_pos (32 - k)) as Hp. pose proof (pow2_pos k) as Hk2.
  f_equal.
  - apply z2le_congr. rewrite Z.mod_add by lia. reflexivity.
  - rewrite Z.div_add by lia. rewrite (Z.div_small (z / 2 ^ Z.of_nat k)), Z.add_0_l.
    2:{ split; [apply Z.div_pos; lia|]. apply Z.div_lt_upper_bound; [lia|]. rewrite <- Z.pow_add_r by lia.
        replace (Z.of_nat k + Z.of_nat (32 - k)) with 32 by lia. lia. }
    symmetry. apply z2le_mod.
Qed.

Lemma u32_rotate_right_spec k z : (k <= 32)%nat -> 0 <= z < 2 ^ 32 -> u32_rotate_right z k = rotr32 k z.
Proof.
  intros Hk Hz. unfold u32_rotate_right, rotr32.
  assert (E : 2 ^ 32 = 2 ^ Z.of_nat k * 2 ^ (32 - Z.of_nat k)) by (rewrite <- Z.pow_add_r by lia; f_equal; lia).
  rewrite Z.shiftl_mul_pow2, Z.shiftr_div_pow2 by lia.
  rewrite E, Z.mul_mod_distr_r by (try (apply Z.pow_nonzero; lia)).
  set (q := z / 2 ^ Z.of_nat k). set (m := z mod 2 ^ Z.of_nat k).
  assert (Hq : 0 <= q < 2 ^ (32 - Z.of_nat k)).
  { subst q. pose proof (pow2_pos k). split; [apply Z.div_pos; lia|]. apply Z.div_lt_upper_bound; lia. }
  symmetry. rewrite <- Z.lxor_lor, <- Z.add_nocarry_lxor; [reflexivity| |];
  (apply Z.bits_inj'; intros i Hi; rewrite Z.land_spec, Z.bits_0; destruct (Z.ltb_spec i (32 - Z.of_nat k)) as [H|H];
   [rewrite Z.mul_pow2_bits_low by lia; apply andb_false_r|
    rewrite <- (Z.mod_small q (2 ^ (32 - Z.of_nat k))) by lia; rewrite Z.mod_pow2_bits_high by lia; reflexivity]).
Qed.

Lemma firstn_repeat {A} (x : A) n m : firstn n (repeat x m) = repeat x (Nat.min n m).
Proof. revert m; induction n as [|n IH]; intros [|m]; cbn; auto. now rewrite IH. Qed.

Lemma z2le_0 n : z2le n 0 = repeat false n.
Proof. induction n; cbn; congruence. Qed.

Lemma shr_bits k z : (k <= 32)%nat ->  0 <= z < 2 ^ 32 ->
  firstn 32 (skipn k (z2le 32 z) ++ repeat false 32) = z2le 32 (z / 2 ^ Z.of_nat k).
Proof.
  intros Hk Hz. rewrite z2le_skipn by lia. rewrite firstn_app, z2le_length, firstn_all2 by (rewrite z2le_length; lia).
  replace (32 - (32 - k))%nat with k by lia.
  rewrite firstn_repeat, Nat.min_l by lia.
  replace (z2le 32 (z / 2 ^ Z.of_nat k)) with (z2le ((32 - k) + k) (z / 2 ^ Z.of_nat k)) by (f_equal; lia).
  rewrite z2le_app. f_equal.
  rewrite Z.div_small.
  - symmetry. apply z2le_0.
  - pose proof (pow2_pos k). split; [apply Z.div_pos; lia|]. apply Z.div_lt_upper_bound; [lia|].
    rewrite <- Z.pow_add_r by lia. replace (Z.of_nat k + Z.of_nat (32 - k)) with 32 by lia. lia.
Qed.

(** ** Tracked values: if a Boolean knows its value, that value is [v]. *)
Definition vle (x : Boolean) (v : bool) : Prop := forall b, b_value x = Some b -> b = v.

Lemma vle_not x v : vle x v -> vle (b_not x) (negb v).
Proof.
  unfold vle. destruct x as [a|a|c]; cbn; intros H b E.
  - destruct (ab_value a); cbn in E; inversion E; f_equal; auto.
  - rewrite E in H. specialize (H _ eq_refl). rewrite <- H. symmetry. apply negb_involutive.
  - inversion E; subst. f_equal. auto.
Qed.

Lemma vle_const c v : vle (BConst c) v <-> c = v.
Proof. unfold vle; cbn; split; [auto|]. intros H b E. congruence. Qed.

Section Tracked.
Context {P : PrimeField}.

Lemma only_bindq {A B} (p : prog P (res A)) (g : A -> prog P (res B)) (Q1 : A -> Prop) (Q : B -> Prop) :
  only (okP Q1) p -> (forall a, Q1 a -> only (okP Q) (g a)) -> only (okP Q) (bindq p g).
Proof.
  intros H Hg. unfold bindq. eapply only_bind; [exact H|]. intros [a|e]; cbn; auto.
Qed.
Lemma only_ns {A} n (p : prog P (res A)) (Q : A -> Prop) : only (okP Q) p -> only (okP Q) (ns n p).
Proof. intros H. unfold ns. cbn. eapply only_bind; [exact H|]. cbn. auto. Qed.
Lemma only_mono {A} (p : prog P A) (Q Q' : A -> Prop) : (forall a, Q a -> Q' a) -> only Q p -> only Q' p.
Proof. intros HQ. induction p; cbn; auto. Qed.
Lemma only_okmono {A} (p : prog P (res A)) (Q Q' : A -> Prop) : (forall a, Q a -> Q' a) -> only (okP Q) p -> only (okP Q') p.
Proof. intros HQ. apply only_mono. intros [a|e]; cbn; auto. Qed.
Lemma only_true {A} (p : prog P A) (Q : A -> Prop) : (forall a, Q a) -> only Q p.
Proof. intros HQ. induction p; cbn; auto. Qed.
Lemma only_alloc_q {A} n f (k : Var * bool -> prog P (res A)) (Q : A -> Prop) :
  (forall v b, only (okP Q) (k (v, b))) -> only (okP Q) (bindq (cs_alloc n f) k).
Proof. intros H. unfold bindq, cs_alloc; cbn. intros [v|e] b; cbn; auto. Qed.
Lemma only_enforce {A} n a b c (k : unit -> prog P A) (Q : A -> Prop) :
  only Q (k tt) -> only Q (bind (cs_enforce n a b c) k).
Proof. intros H. exact H. Qed.
Lemma only_enforce_equal {A} n a b (k : unit -> prog P A) (Q : A -> Prop) :
  only Q (k tt) -> only Q (bind (cs_enforce_equal n a b) k).
Proof. intros H. exact H. Qed.
Lemma only_mapq {A B C} (f : nat -> A -> prog P (res B)) (Q : C -> B -> Prop) (I : A -> C -> Prop) l m : forall i,
  Forall2 I l m -> (forall j x c, I x c -> only (okP (Q c)) (f j x)) ->
  only (okP (fun ys => Forall2 Q m ys)) (mapq f i l).
Proof.
  intros i HF H. revert i. induction HF as [|x c l m Hx HF IH]; intros i; cbn [mapq].
  - cbn. constructor.
  - eapply only_bindq; [apply H; exact Hx|]. intros y Hy. eapply only_bindq; [apply IH|]. intros ys Hys. cbn. auto.
Qed.

Lemma wpS_only rho (G : Prop) {A} (p : prog P A) (Q : A -> Prop) : noeq p -> only Q p -> wpS rho G p Q.
Proof. induction p; cbn; auto; tauto. Qed.
Lemma wpS_and rho (G : Prop) {A} (p : prog P A) (Q1 Q2 : A -> Prop) :
  wpS rho G p Q1 -> wpS rho G p Q2 -> wpS rho G p (fun a => Q1 a /\ Q2 a).
Proof.
  induction p as [a| |n f k IH|n f k IH|n a b c k IH|n l r k IH|n k IH|k IH]; cbn; auto.
  intros (H1 & H2 & H3) (_ & _ & H4). auto.
Qed.
Lemma wpS_ok_and rho (G : Prop) {A} (p : prog P (res A)) (Q1 Q2 : A -> Prop) :
  wpS rho G p (okP Q1) -> wpS rho G p (okP Q2) -> wpS rho G p (okP (fun a => Q1 a /\ Q2 a)).
Proof.
  intros H1 H2. eapply wpS_mono; [|exact (wpS_and _ _ _ _ _ H1 H2)]. intros [a|e]; cbn; auto.
Qed.
Lemma sim_only {A B} (p : prog P A) (q : prog P B) (R : A -> B -> Prop) (Q1 : A -> Prop) (Q2 : B -> Prop) :
  sim p q R -> only Q1 p -> only Q2 q -> sim p q (fun a b => R a b /\ Q1 a /\ Q2 b).
Proof.
  revert q. induction p as [a| |n f k IH|n f k IH|n a b c k IH|n l r k IH|n k IH|k IH]; intros q H; destruct q; cbn in *; try tauto.
  - destruct H as [-> H]. intros H1 H2. split; auto. intros v. specialize (H v). destruct f0; auto.
  - destruct H as [-> H]. intros H1 H2. split; auto. intros v. specialize (H v). destruct f0; auto.
  - destruct H as (-> & -> & -> & -> & H). intros; repeat split; auto.
  - destruct H as (-> & -> & -> & H). intros; repeat split; auto.
  - destruct H as [-> H]. intros; split; auto.
  - auto.
Qed.

Definition vrel2 (f : bool -> bool -> bool) (a b r : Boolean) : Prop :=
  forall va vb, vle a va -> vle b vb -> vle r (f va vb).
Definition vrel3 (f : bool -> bool -> bool -> bool) (a b c r : Boolean) : Prop :=
  forall va vb vc, vle a va -> vle b vb -> vle c vc -> vle r (f va vb vc).

Lemma bit2_vle op a b inv v : vrel2 op (BIs a) (BIs b) (BIs {| ab_var := v; ab_value := recorded inv (bit2 op a b) |}).
Proof.
  intros va vb Ha Hb r E. cbn in *. unfold recorded, bit2 in E. destruct inv; [|discriminate].
  unfold vle in *; cbn in *.
  destruct (ab_value a) as [xa|]; cbn in E; [|discriminate]. destruct (ab_value b) as [xb|]; cbn in E; [|discriminate].
  inversion E; subst. rewrite (Ha _ eq_refl), (Hb _ eq_refl). reflexivity.
Qed.

Ltac vgate := apply only_alloc_q; intros v inv; apply only_enforce; cbn [only okP]; apply bit2_vle.
Lemma ab_xor_vle a b : only (okP (fun r => vrel2 xorb (BIs a) (BIs b) (BIs r))) (@ab_xor P a b).
Proof. vgate. Qed.
Lemma ab_and_vle a b : only (okP (fun r => vrel2 andb (BIs a) (BIs b) (BIs r))) (@ab_and P a b).
Proof. vgate. Qed.
Lemma ab_and_not_vle a b : only (okP (fun r => vrel2 (fun x y => andb x (negb y)) (BIs a) (BIs b) (BIs r))) (@ab_and_not P a b).
Proof. vgate. Qed.
Lemma ab_nor_vle a b : only (okP (fun r => vrel2 (fun x y => andb (negb x) (negb y)) (BIs a) (BIs b) (BIs r))) (@ab_nor P a b).
Proof. vgate. Qed.

Lemma vle_unnot a v : vle (BNot a) v -> vle (BIs a) (negb v).
Proof. intros H. apply (vle_not (BNot a) v H). Qed.

Ltac vl := repeat match goal with
  | H : vle (BConst _) _ |- _ => apply vle_const in H; subst
  | H : vle (BNot _) _ |- _ => apply vle_unnot in H
  end.
Ltac fin f := eapply only_bindq; [apply f|]; cbv beta; intros r Hr; cbn [only okP].
Ltac vdone Hr := intros va vb Hva Hvb; vl;
  match goal with |- vle (b_not ?r) ?v => replace v with (negb (negb v)) by apply negb_involutive; apply vle_not | _ => idtac end;
  match goal with |- vle ?r ?v => first [ eapply (eq_ind _ (vle r)); [eapply Hr; eassumption|]; allbools; reflexivity ] end.

Lemma vle_eq x u v : u = v -> vle x u -> vle x v.
Proof. intros ->. auto. Qed.
Ltac tidy := repeat match goal with H : vle (BConst _) _ |- _ => apply vle_const in H; subst end.
Ltac vconst := tidy; first
  [ apply vle_const; allbools; reflexivity
  | eapply vle_eq; [|eassumption]; allbools; reflexivity
  | eapply vle_eq; [|apply vle_not; eassumption]; allbools; reflexivity ].

Lemma b_xor_vle a b : only (okP (vrel2 xorb a b)) (@b_xor P a b).
Proof.
  destruct a as [a|a|[]], b as [b|b|[]]; cbn [b_xor]; unfold b_xor_is;
  try (cbn [only okP]; intros va vb Ha Hb; vconst; fail).
  - fin ab_xor_vle. vdone Hr.
  - eapply only_bindq; [fin ab_xor_vle; exact Hr|]. intros r Hr. cbn [only okP]. cbv beta in Hr.
    intros va vb Ha Hb. vl. replace (xorb va vb) with (negb (xorb va (negb vb))) by (destruct va, vb; reflexivity).
    apply vle_not. auto.
  - eapply only_bindq; [fin ab_xor_vle; exact Hr|]. intros r Hr. cbn [only okP]. cbv beta in Hr.
    intros va vb Ha Hb. vl. replace (xorb va vb) with (negb (xorb vb (negb va))) by (destruct va, vb; reflexivity).
    apply vle_not. auto.
  - fin ab_xor_vle. intros va vb Ha Hb. vl. replace (xorb va vb) with (xorb (negb va) (negb vb)) by (destruct va, vb; reflexivity). auto.
Qed.

Lemma b_and_vle a b : only (okP (vrel2 andb a b)) (@b_and P a b).
Proof.
  destruct a as [a|a|[]], b as [b|b|[]]; cbn [b_and];
  try (cbn [only okP]; intros va vb Ha Hb; vconst; fail).
  - fin ab_and_vle. vdone Hr.
  - fin ab_and_not_vle. intros va vb Ha Hb. vl. replace (andb va vb) with (andb va (negb (negb vb))) by (destruct va, vb; reflexivity).
    apply (Hr va (negb vb)); auto.
  - fin ab_and_not_vle. intros va vb Ha Hb. vl. replace (andb va vb) with (andb vb (negb (negb va))) by (destruct va, vb; reflexivity).
    apply (Hr vb (negb va)); auto.
  - fin ab_nor_vle. intros va vb Ha Hb. vl. replace (andb va vb) with (andb (negb (negb va)) (negb (negb vb))) by (destruct va, vb; reflexivity).
    apply (Hr (negb va) (negb vb)); auto.
Qed.

Lemma tri_vle f a b c var : vrel3 f a b c (BIs {| ab_var := var; ab_value := tri_value f a b c |}).
Proof.
  intros va vb vc Ha Hb Hc r E. cbn in E. unfold tri_value in E. unfold vle in *.
  destruct (b_value a); [|discriminate]. destruct (b_value b); [|discriminate]. destruct (b_value c); [|discriminate].
  inversion E. rewrite (Ha _ eq_refl), (Hb _ eq_refl), (Hc _ eq_refl). reflexivity.
Qed.

Lemma ch_general_vle a b c : only (okP (vrel3 ch_bit a b c)) (@ch_general P a b c).
Proof. apply only_alloc_q. intros v inv. apply only_enforce. cbn [only okP]. apply tri_vle. Qed.
Lemma maj_general_vle a b c : only (okP (vrel3 maj_bit a b c)) (@maj_general P a b c).
Proof.
  apply only_alloc_q. intros v inv. eapply only_bindq; [apply only_ns, only_true; intros [x|e]; exact I|]. intros bc _.
  apply only_enforce. cbn [only okP]. apply tri_vle.
Qed.

(** [b_and] of possibly negated operands, possibly negating the result *)
Ltac arm2 := eapply only_okmono; [|apply b_and_vle]; intros r Hr va vb vc Ha Hb Hc.
Ltac arm2n := eapply only_bindq; [apply b_and_vle|]; intros r Hr; cbn [only okP]; intros va vb vc Ha Hb Hc.
Ltac solve3 Hr :=
  match goal with
  | |- vle (b_not _) _ => eapply vle_eq; [|apply vle_not; eapply Hr; try eapply vle_not; eassumption]
  | |- vle _ _ => eapply vle_eq; [|eapply Hr; try eapply vle_not; eassumption]
  end; tidy; allbools; reflexivity.

Lemma b_ch_vle a b c : only (okP (vrel3 ch_bit a b c)) (@b_ch P a b c).
Proof.
  destruct a as [a|a|[]], b as [b|b|[]], c as [c|c|[]]; cbn [b_ch];
  first
  [ apply ch_general_vle
  | cbn [tri_value b_value only okP]; intros va vb vc Ha Hb Hc; tidy; first [apply vle_const; allbools; reflexivity | eapply vle_eq; [|eassumption]; allbools; reflexivity]
  | arm2; solve3 Hr
  | arm2n; solve3 Hr ].
Qed.

Lemma b_maj_vle a b c : only (okP (vrel3 maj_bit a b c)) (@b_maj P a b c).
Proof.
  destruct a as [a|a|[]], b as [b|b|[]], c as [c|c|[]]; cbn [b_maj];
  first
  [ apply maj_general_vle
  | cbn [tri_value b_value only okP]; intros va vb vc Ha Hb Hc; tidy; first [apply vle_const; allbools; reflexivity | eapply vle_eq; [|eassumption]; allbools; reflexivity]
  | arm2; solve3 Hr
  | arm2n; solve3 Hr ].
Qed.
End Tracked.
