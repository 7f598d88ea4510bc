(** Facts about straight-line programs of gadgets (Straight.v). *)
From Coq Require Import String.
From Coq Require Import ZArith List Bool Lia Field.
From Verif Require Import Prelude PrimeField Circuit Loops BooleanGadget NumGadget LookupGadget Multipack MultiEq Spec UInt32 UInt32Proof WordLogic Sha256Spec Sha256 Sha256Proof
  Blake2sSpec Blake2s Blake2sProof Assembly PropAssembly Mimc Cost CostSpec CostProof CostRun Scope Sha256d Sha256dProof Straight.
Import Circuit Spec.
Import ListNotations.
Local Open Scope nat_scope.

(** ** Picking from related lists *)
Definition orel {A B} (R : A -> B -> Prop) (x : option A) (y : option B) : Prop :=
  match x, y with Some a, Some b => R a b | None, None => True | _, _ => False end.
Section Pick.
Context {A A' B B'} (R : A -> A' -> Prop) (S : B -> B' -> Prop) (pa : A -> option B) (pb : A' -> option B').
Hypothesis HRS : forall a b, R a b -> orel S (pa a) (pb b).
Lemma pick_rel l m i : Forall2 R l m -> orel S (pick pa l i) (pick pb m i).
Proof.
  intros H. unfold pick. revert i. induction H as [|a b l m Hab _ IH]; intros [|i]; cbn [nth_error orel]; auto.
Qed.
Lemma picks_rel l m is : Forall2 R l m -> orel (Forall2 S) (picks pa l is) (picks pb m is).
Proof.
  intros H. induction is as [|i is IH]; cbn [picks]; [constructor|]. pose proof (pick_rel l m i H) as Hp.
  destruct (pick pa l i), (pick pb m i); cbn [orel] in *; try contradiction; [|exact I].
  destruct (picks pa l is), (picks pb m is); cbn [orel] in *; try contradiction; auto.
Qed.
End Pick.
Lemma all_some_rel {A B} (R : A -> B -> Prop) l m : Forall2 (orel R) l m -> orel (Forall2 R) (all_some l) (all_some m).
Proof.
  induction 1 as [|x y l m H _ IH]; cbn [all_some]; [constructor|]. destruct x, y; cbn [orel] in *; try contradiction; [|exact I].
  destruct (all_some l), (all_some m); cbn [orel] in *; try contradiction; auto.
Qed.
Lemma all_some_map {A B} (f : A -> option B) l r : all_some (map f l) = Some r -> Forall2 (fun a b => f a = Some b) l r.
Proof.
  revert r. induction l as [|a l IH]; intros r H; cbn [map all_some] in H; [injection H as <-; constructor|].
  destruct (f a) eqn:E; [|discriminate]. destruct (all_some (map f l)); [|discriminate]. injection H as <-. constructor; auto.
Qed.
Lemma nth_rel {A B} (R : A -> B -> Prop) l m i : Forall2 R l m -> orel R (nth_error l i) (nth_error m i).
Proof. intros H. revert i. induction H as [|a b l m Hab _ IH]; intros [|i]; cbn [nth_error orel]; auto. Qed.

Lemma Some_eq {A} (a b : A) : Some a = Some b -> b = a. Proof. congruence. Qed.

(** ** The meanings of the parts *)
Lemma maj_two x y z : maj_bit x y z = at_least_two x y z. Proof. now destruct x, y, z. Qed.
Lemma ch_if x y z : ch_bit x y z = if x then y else z. Proof. now destruct x, y, z. Qed.
Lemma xor_neq x y : xorb x y = negb (eqb x y). Proof. now destruct x, y. Qed.
Lemma idx_le x y z : Z.to_nat (le_value [x; y; z]) = idx3 x y z. Proof. now destruct x, y, z. Qed.
Lemma is_byte_spec l : forallb is_byte l = true <-> Forall byte l.
Proof.
  rewrite forallb_forall, Forall_forall. unfold is_byte, byte. split; intros H x Hx; specialize (H x Hx); rewrite ?andb_true_iff, ?Z.leb_le, ?Z.ltb_lt in *; lia.
Qed.
Lemma byte_le c : byte_of_bits c = le_value c.
Proof. unfold byte_of_bits. induction c as [|b c IH]; [reflexivity|]. cbn [fold_right le_value]. rewrite IH. now destruct b. Qed.
Lemma byte_bits8 b : map (fun i => Z.odd (b / 2 ^ Z.of_nat i)) (seq 0 8) = bits_of 8 b.
Proof. reflexivity. Qed.
Lemma bytes_round m : length m mod 8 = 0 -> bits_of_bytes (bytes_of_bits m) = m /\ Forall byte (bytes_of_bits m).
Proof.
  intros H. apply Nat.mod_divides in H as [k Hk]; [|lia]. rewrite Nat.mul_comm in Hk.
  destruct (WordLogic.chunks_length 8 k ltac:(lia) m Hk) as [_ HF]. unfold bits_of_bytes, bytes_of_bits. split.
  - rewrite <- (chunks_concat 8 m ltac:(lia)) at 2. induction HF as [|c l Hc _ IH]; [reflexivity|]. cbn [map concat]. rewrite IH. f_equal.
    rewrite byte_bits8, byte_le, bits_of_z2le, le_value_le2z, <- Hc. apply z2le_le2z.
  - apply Forall_map. eapply Forall_impl; [|exact HF]. cbv beta. intros c Hc. rewrite byte_le, le_value_le2z. unfold byte.
    pose proof (le2z_bound c) as X. rewrite Hc in X. change (2 ^ Z.of_nat 8)%Z with 256%Z in X. pose proof (le2z_nonneg c). lia.
Qed.
Lemma sum_le ws : fold_right (fun w s => le_value w + s)%Z 0%Z ws = zsum (map le2z ws).
Proof. induction ws as [|w ws IH]; [reflexivity|]. cbn [fold_right map]. rewrite IH, le_value_le2z. reflexivity. Qed.
Lemma Forall2_map_l {A A' B} (R : A' -> B -> Prop) (f : A -> A') l m : Forall2 (fun a b => R (f a) b) l m -> Forall2 R (map f l) m.
Proof. induction 1; constructor; auto. Qed.
Lemma Forall2_map_lr {A A' B B'} (R : A' -> B' -> Prop) (f : A -> A') (g : B -> B') l m : Forall2 (fun a b => R (f a) (g b)) l m -> Forall2 R (map f l) (map g m).
Proof. induction 1; constructor; auto. Qed.

Lemma u32_fits z : u32 z -> fits_in 32 z = true.
Proof. unfold u32, fits_in. intros H. rewrite andb_true_iff, Z.leb_le, Z.ltb_lt. exact H. Qed.
Lemma fits_u32 z : fits_in 32 z = true -> u32 z.
Proof. unfold u32, fits_in. rewrite andb_true_iff, Z.leb_le, Z.ltb_lt. auto. Qed.
Lemma le2z_fits n bs : length bs = n -> fits_in n (le2z bs) = true.
Proof. intros <-. unfold fits_in. rewrite andb_true_iff, Z.leb_le, Z.ltb_lt. split; [apply le2z_nonneg|apply le2z_bound]. Qed.
Lemma given_u32 {P : PrimeField} (w : option (val P)) z : given_int 32 w = Some z -> u32 z.
Proof. unfold given_int. destruct w as [[b|b|x|x|y]|]; try discriminate. destruct (fits_in 32 y) eqn:E; [|discriminate]. intros [= <-]. now apply fits_u32. Qed.
Lemma xor_list x y : length x = 32 -> length y = 32 -> z2le 32 (Z.lxor (le2z x) (le2z y)) = map (fun c => negb (eqb (fst c) (snd c))) (combine x y).
Proof. intros Lx Ly. rewrite lxor_bits, !z2le_le2z32 by assumption. apply map_ext. intros c. apply xor_neq. Qed.
Lemma ch_list x y z : length x = 32 -> length y = 32 -> length z = 32 -> z2le 32 (ch_fn (le2z x) (le2z y) (le2z z)) = zip3 (fun s t e => if s : bool then t else e) x y z.
Proof. intros Lx Ly Lz. rewrite ch_bits, !z2le_le2z32 by assumption. apply map_ext. intros c. apply ch_if. Qed.
Lemma maj_list x y z : length x = 32 -> length y = 32 -> length z = 32 -> z2le 32 (maj_fn (le2z x) (le2z y) (le2z z)) = zip3 at_least_two x y z.
Proof. intros Lx Ly Lz. rewrite maj_bits, !z2le_le2z32 by assumption. apply map_ext. intros c. apply maj_two. Qed.
Lemma rotr_list {B} (R : Boolean -> B -> Prop) w v n : length v = 32 -> Forall2 R (u_bits w) v -> Forall2 R (u_bits (u_rotr w n)) (skipn (n mod 32) v ++ firstn (n mod 32) v).
Proof.
  intros L H. pose proof (Forall2_length _ _ _ H) as Lw. rewrite L in Lw. pose proof (Nat.mod_upper_bound n 32 ltac:(discriminate)) as Hn. unfold u_rotr. cbn [u_bits]. set (k := n mod 32) in *.
  rewrite firstn_app, skipn_length, Lw, (firstn_all2 (skipn k (u_bits w))) by (rewrite skipn_length; lia). replace (32 - (32 - k)) with k by lia.
  apply Forall2_app; [now apply Forall2_skipn'|now apply Forall2_firstn'].
Qed.
Lemma shr_list {B} (R : Boolean -> B -> Prop) w v n d : R (BConst false) d -> length v = 32 -> Forall2 R (u_bits w) v -> Forall2 R (u_bits (u_shr w n)) (skipn (n mod 32) v ++ repeat d (n mod 32)).
Proof.
  intros HR L H. pose proof (Forall2_length _ _ _ H) as Lw. rewrite L in Lw. pose proof (Nat.mod_upper_bound n 32 ltac:(discriminate)) as Hn. unfold u_shr. cbn [u_bits]. set (k := n mod 32) in *.
  rewrite firstn_app, skipn_length, Lw, (firstn_all2 (skipn k (u_bits w))) by (rewrite skipn_length; lia). replace (32 - (32 - k)) with k by lia.
  apply Forall2_app; [now apply Forall2_skipn'|]. assert (Ek : firstn k (repeat (BConst false) 32) = repeat (BConst false) k).
  { replace 32 with (k + (32 - k)) by lia. rewrite repeat_app, firstn_app, repeat_length, Nat.sub_diag, firstn_O, app_nil_r. apply firstn_all2. rewrite repeat_length. lia. }
  rewrite Ek. now apply Forall2_repeat.
Qed.
Lemma idx2_le x y : Z.to_nat (le_value [x; y]) = idx2 x y. Proof. now destruct x, y. Qed.

Section P.
Context {P : PrimeField}.
Add Field PFstraight : (F_field P).
Local Open Scope prog_scope.

(** ** A logic for both sides *)
(** [HL] (WordLogic.v) for bits and words; numbers are added here. *)
Definition rel_reg (B : Boolean -> bool -> Prop) (A : AllocatedBit -> bool -> Prop) (N : AllocatedNum P -> P -> Prop) (L : Num P -> P -> Prop) (r : reg P) (v : val P) : Prop :=
  match r, v with RBit b, VBit x => B b x | RABit a, VABit x => A a x | RNum a, VNum x => N a x | RLin n, VLin x => L n x | _, _ => False end.
Lemma rel_bit B A N L r v : rel_reg B A N L r v -> orel B (r_bit r) (v_bit v).
Proof. destruct r, v; cbn; tauto. Qed.
Lemma rel_num B A N L r v : rel_reg B A N L r v -> orel N (r_num r) (v_num v).
Proof. destruct r, v; cbn; tauto. Qed.
Lemma rel_lin B A N L r v : rel_reg B A N L r v -> orel L (r_lin r) (v_lin v).
Proof. destruct r, v; cbn; tauto. Qed.
Lemma rel_abit B A N L r v : rel_reg B A N L r v -> orel A (r_abit r) (v_abit v).
Proof. destruct r, v; cbn; tauto. Qed.
Lemma rel_bits B A N L l m : Forall2 B l m -> Forall2 (rel_reg B A N L) (map RBit l) (map VBit m).
Proof. induction 1; constructor; auto. Qed.

Definition is_num (rho : Var -> P) (a : AllocatedNum P) (x : P) : Prop := rho (an_var a) = x.
Definition is_abit (rho : Var -> P) (a : AllocatedBit) (b : bool) : Prop := var_bit rho (ab_var a) b.
Definition is_lin (rho : Var -> P) (n : Num P) (x : P) : Prop := eval rho (num_lc_ n) = x.
Definition reg_is (rho : Var -> P) := rel_reg (bit_is rho) (is_abit rho) (is_num rho) (is_lin rho).
Definition reg_hon (rho : Var -> P) := rel_reg (bit_hon rho) (abit_hon rho) (num_hon rho) (numc_hon rho).

(** Linear combinations. *)
Lemma lin_lc_eval (rho : Var -> P) regs vals l : rho one_var = fone -> Forall2 (reg_is rho) regs vals -> forall acc,
  orel (fun lc x => eval rho lc = (eval rho acc + x)%F) (lin_lc regs l acc) (lin_terms vals l).
Proof.
  intros H1 HF. induction l as [|[c i] l IH]; intros acc; cbn [lin_lc lin_terms orel]; [ring|].
  pose proof (nth_rel _ _ _ i HF) as Hn. destruct (nth_error regs i) as [r|], (nth_error vals i) as [v|]; cbn [orel] in Hn; try contradiction; [|exact I].
  destruct r as [b|a|a|n], v as [x|x|x|x|x]; cbn [reg_is rel_reg] in Hn; try contradiction.
  - specialize (IH (lc_add_lc acc (b_lc b one_var c))). destruct (lin_lc regs l _), (lin_terms vals l); cbn [orel] in *; try contradiction; [|exact I].
    rewrite IH. rewrite eval_add_lc, (eval_b_lc rho H1 b x c Hn). cbn [as_number]. destruct x; cbn [fbit]; ring.
  - specialize (IH (lc_add_term acc c (ab_var a))). destruct (lin_lc regs l _), (lin_terms vals l); cbn [orel] in *; try contradiction; [|exact I].
    rewrite IH. rewrite eval_add_term. unfold is_abit, var_bit in Hn. rewrite Hn. cbn [as_number]. destruct x; cbn [fbit]; ring.
  - specialize (IH (lc_add_term acc c (an_var a))). destruct (lin_lc regs l _), (lin_terms vals l); cbn [orel] in *; try contradiction; [|exact I].
    rewrite IH. rewrite eval_add_term. unfold is_num in Hn. rewrite Hn. cbn [as_number]. ring.
  - specialize (IH (lc_add_lc acc (num_lc n c))). destruct (lin_lc regs l _), (lin_terms vals l); cbn [orel] in *; try contradiction; [|exact I].
    rewrite IH. rewrite eval_add_lc, num_lc_eval. unfold is_lin in Hn. rewrite Hn. cbn [as_number]. ring.
Qed.

Lemma lin_eval (rho : Var -> P) regs vals l : rho one_var = fone -> Forall2 (reg_is rho) regs vals ->
  orel (fun lc x => eval rho lc = x) (lin_of regs l) (lin_value vals l).
Proof.
  intros H1 HF. unfold lin_of, lin_value. pose proof (lin_lc_eval rho regs vals (snd l) H1 HF (lc_add_term lc_zero (fst l) one_var)) as H.
  destruct (lin_lc _ _ _), (lin_terms _ _); cbn [orel option_map] in *; try contradiction; [|exact I].
  rewrite H, eval_add_term, H1. unfold lc_zero. rewrite eval_nil. ring.
Qed.
Lemma hon_is rho r v : reg_hon rho r v -> reg_is rho r v.
Proof. destruct r, v; cbn; try tauto; intros [H _]; exact H. Qed.
Lemma hon_is_all rho regs vals : Forall2 (reg_hon rho) regs vals -> Forall2 (reg_is rho) regs vals.
Proof. apply Forall2_impl. apply hon_is. Qed.

Ltac one_case H := match type of H with orel _ ?a ?b => destruct a eqn:?, b eqn:?; cbn [orel] in H; try contradiction end.

Lemma words_hl (L : HL P) ws vs ops : Forall2 (Forall2 (hb L)) ws vs -> all_some (map (fun w => done (from_bits w)) ws) = Some ops ->
  Forall (fun v => length v = 32) vs /\ Forall2 (hw L) ops (map le2z vs).
Proof.
  intros HF HE. apply all_some_map in HE. revert ops HE. induction HF as [|w v ws vs Hw _ IH]; intros ops HE; inversion_clear HE as [|? op ? ops' E1 E2]; [split; constructor|].
  destruct (IH _ E2) as [I1 I2]. assert (Hl : length w = 32).
  { unfold from_bits in E1. destruct (Nat.eqb_spec (length w) 32); [assumption|discriminate E1]. }
  destruct (hw_from L w v Hl Hw) as (op' & E & Ho). rewrite E in E1. injection E1 as <-. rewrite (Forall2_length _ _ _ Hw) in Hl. split; constructor; auto.
Qed.
Lemma addmany_range (ops : list UInt32) : (forall n, n = length ops -> (2 <=? n) && (n <=? 10) = true) \/ @addmany P ops = Panic.
Proof.
  unfold addmany. destruct (negb (Nat.leb 64 _)); [now right|]. destruct (Nat.leb 2 (length ops)) eqn:E2; cbn [negb]; [|now right].
  destruct (Nat.leb (length ops) 10) eqn:E3; cbn [negb]; [|now right]. left. intros n ->. now rewrite E2, E3.
Qed.
(** ** Soundness of one statement *)
Section Sound.
Variable rho : Var -> P.
Hypothesis H1 : rho one_var = fone.
Notation is_bit := (bit_is rho).
Definition follows (vals : list (val P)) (st : stmt P) (new : list (reg P)) : Prop :=
  exists v nv, step v vals st = Some (nv, []) /\ Forall2 (reg_is rho) new nv.


Lemma s_bits p bs (Q : list (reg P) -> Prop) : wpS rho True p (okP (fun r => Forall2 is_bit r bs)) -> (forall r, Forall2 is_bit r bs -> Q (map RBit r)) -> wpS rho True (new_bits p) (okP Q).
Proof. intros Hp HQ. unfold new_bits. eapply wpS_bindq'; [exact Hp|]. cbv beta. intros r Hr. cbn. auto. Qed.
Lemma s_bit p b (Q : list (reg P) -> Prop) : wpS rho True p (okP (fun r => is_bit r b)) -> (forall r, is_bit r b -> Q [RBit r]) -> wpS rho True (new_bit p) (okP Q).
Proof. intros Hp HQ. unfold new_bit. eapply wpS_bindq'; [exact Hp|]. cbv beta. intros r Hr. cbn. auto. Qed.
Lemma s_num p x (Q : list (reg P) -> Prop) : wpS rho True p (okP (fun r => rho (an_var r) = x)) -> (forall r, rho (an_var r) = x -> Q [RNum r]) -> wpS rho True (new_num p) (okP Q).
Proof. intros Hp HQ. unfold new_num. eapply wpS_bindq'; [exact Hp|]. cbv beta. intros r Hr. cbn. auto. Qed.
Lemma s_word p z (Q : list (reg P) -> Prop) : wpS rho True p (okP (fun r => word rho True r z)) -> (forall r, Forall2 is_bit (u_bits r) (z2le 32 z) -> Q (map RBit (u_bits r))) -> wpS rho True (new_word p) (okP Q).
Proof. intros Hp HQ. unfold new_word. eapply wpS_bindq'; [exact Hp|]. cbv beta. intros r (_ & z' & _ & HB & E). cbn. apply HQ. rewrite <- (E I). exact HB. Qed.

Lemma add_sound ops zs : Forall2 (hw (SoundHL rho H1)) ops zs ->
  wpS rho True (let* r := multieq_scope (addmany ops) in Ret (Ok (into_bits r)))
    (okP (fun r => ((2 <=? length ops) && (length ops <=? 10) = true) /\ Forall2 is_bit r (z2le 32 (zsum zs mod 2 ^ 32)%Z))).
Proof.
  intros HF. destruct (addmany_range ops) as [Hr|Hr]; [specialize (Hr _ eq_refl)|rewrite Hr; exact I].
  eapply wpS_bindq' with (Q1 := fun r => Forall2 is_bit (u_bits r) (z2le 32 (zsum zs mod 2 ^ 32)%Z)).
  - apply wpS_multieq; [exact H1|]. intros G'. assert (HW : Forall2 (Wd (SoundWL rho H1 G')) ops zs).
    { eapply Forall2_impl; [|exact HF]. intros w z Hw. exact (conj (word_any rho True G' w z I (proj1 Hw)) (proj2 Hw)). }
    apply andb_true_iff in Hr as [R1 R2]. apply Nat.leb_le in R1, R2.
    eapply wpS_mono; [|exact (wp_add (SoundWL rho H1 G') ops zs (conj R1 R2) HW)]. intros [r|e] X; cbn in *; [|auto].
    intros g. destruct X as [(_ & z' & Hz & HB & E) _]. rewrite <- (E g). exact HB.
  - intros r Hb. cbn. auto.
Qed.
Lemma is_bit_of i regs vals : Forall2 (reg_is rho) regs vals -> orel is_bit (pick r_bit regs i) (pick v_bit vals i).
Proof. apply pick_rel. intros a b. apply rel_bit. Qed.
Lemma is_num_of i regs vals : Forall2 (reg_is rho) regs vals -> orel (is_num rho) (pick r_num regs i) (pick v_num vals i).
Proof. apply pick_rel. intros a b. apply rel_num. Qed.
Lemma is_abit_of i regs vals : Forall2 (reg_is rho) regs vals -> orel (is_abit rho) (pick r_abit regs i) (pick v_abit vals i).
Proof. apply pick_rel. intros a b. apply rel_abit. Qed.
Lemma gate_sound g a b x y : is_abit rho a x -> is_abit rho b y -> wpS rho True (ab_gate g a b) (okP (fun r => is_abit rho r (gate_bit g x y))).
Proof.
  intros Ha Hb. unfold is_abit in *. destruct g; cbn [ab_gate gate_bit].
  - rewrite <- xor_neq. now apply (ab_xor_sound rho True).
  - now apply (ab_and_sound rho True).
  - now apply (ab_and_not_sound rho H1 True).
  - rewrite negb_orb. now apply (ab_nor_sound rho H1 True).
Qed.
Lemma is_lin_of i regs vals : Forall2 (reg_is rho) regs vals -> orel (is_lin rho) (pick r_lin regs i) (pick v_lin vals i).
Proof. apply pick_rel. intros a b. apply rel_lin. Qed.
Lemma is_bits_of is regs vals : Forall2 (reg_is rho) regs vals -> orel (Forall2 is_bit) (picks r_bit regs is) (picks v_bit vals is).
Proof. apply picks_rel. intros a b. apply rel_bit. Qed.
Lemma is_words_of ws regs vals : Forall2 (reg_is rho) regs vals -> orel (Forall2 (Forall2 is_bit)) (all_some (map (picks r_bit regs) ws)) (all_some (map (picks v_bit vals) ws)).
Proof. intros HF. apply all_some_rel. induction ws; constructor; auto. now apply is_bits_of. Qed.

Definition is_word (w : UInt32) (v : list bool) : Prop := length v = 32 /\ Forall2 is_bit (u_bits w) v /\ word rho True w (le2z v).
Lemma is_word_of is regs vals : Forall2 (reg_is rho) regs vals ->
  orel is_word (opt (picks r_bit regs is) (fun l => done (from_bits l))) (opt (picks v_bit vals is) (fun l => guard (Nat.eqb (length l) 32) (Some l))).
Proof.
  intros HF. pose proof (is_bits_of is regs vals HF) as H. destruct (picks r_bit regs is) as [l|], (picks v_bit vals is) as [m|]; cbn [orel opt] in *; try contradiction; [|exact I].
  rewrite <- (Forall2_length _ _ _ H). destruct (from_bits l) as [w|] eqn:E; pose proof E as E'; unfold from_bits in E'; destruct (Nat.eqb_spec (length l) 32) as [L|L]; try discriminate E'; cbn [done guard orel]; [|exact I].
  rewrite (Forall2_length _ _ _ H) in L. injection E' as <-. split; [exact L|]. split; [exact H|]. exact (from_bits_word rho True _ _ _ E H).
Qed.

Definition outputs (st : stmt P) : bool := match st with SInput _ | SPack _ => true | _ => false end.

Ltac bit_at HF i x H := pose proof (is_bit_of i _ _ HF) as H; destruct (pick r_bit _ i) as [?|] eqn:?, (pick v_bit _ i) as [x|] eqn:?; cbn [orel] in H; try contradiction; cbn [have]; [|exact I].
Ltac num_at HF i x H := pose proof (is_num_of i _ _ HF) as H; destruct (pick r_num _ i) as [?|] eqn:?, (pick v_num _ i) as [x|] eqn:?; cbn [orel] in H; try contradiction; cbn [have]; [|exact I].
Ltac abit_at HF i x H := pose proof (is_abit_of i _ _ HF) as H; destruct (pick r_abit _ i) as [?|] eqn:?, (pick v_abit _ i) as [x|] eqn:?; cbn [orel] in H; try contradiction; cbn [have]; [|exact I].
Ltac lin_at HF i x H := pose proof (is_lin_of i _ _ HF) as H; destruct (pick r_lin _ i) as [?|] eqn:?, (pick v_lin _ i) as [x|] eqn:?; cbn [orel] in H; try contradiction; cbn [have]; [|exact I].
Ltac word_at HF i x H L := pose proof (is_word_of i _ _ HF) as H; destruct (opt (picks r_bit _ i) _) as [?|], (opt (picks v_bit _ i) _) as [x|]; cbn [orel] in H; try contradiction; cbn [have]; [destruct H as (L & H)|exact I].
Ltac bits_at HF i x H := pose proof (is_bits_of i _ _ HF) as H; destruct (picks r_bit _ i) as [?|] eqn:?, (picks v_bit _ i) as [x|] eqn:?; cbn [orel] in H; try contradiction; cbn [have]; [|exact I].
Ltac rewrites := repeat match goal with E : _ = Some _ |- _ => rewrite E; cbn [opt] end.

Lemma statement_sound w regs vals st : outputs st = false -> Forall2 (reg_is rho) regs vals ->
  wpS rho True (statement w regs st) (okP (follows vals st)).
Proof.
  intros Ho HF. unfold follows. destruct st; cbn [outputs] in Ho; try discriminate Ho; cbn [statement step].
  - eapply wpS_bindq' with (Q1 := fun r => exists b, is_bit r b); [eapply wpS_bindq'; [apply (ab_alloc_sound rho H1 True)|]|].
    + cbv beta. intros a [b Hb]. cbn [wpS okP]. exists b; exact Hb.
    + cbv beta. intros a [b Hb]. cbn. exists (Some (VBit b)). eexists. split; [reflexivity|]. repeat constructor. exact Hb.
  - eapply wpS_bindq'; [apply (an_alloc_sound rho True)|]. cbv beta. intros a _. cbn. exists (Some (VNum (rho (an_var a)))). eexists. split; [reflexivity|]. repeat constructor.
  - eapply wpS_bindq'; [apply (ab_alloc_sound rho H1 True)|]. cbv beta. intros a [b Hb]. cbn. exists (Some (VBit b)). eexists. split; [reflexivity|]. repeat constructor. exact Hb.
  - abit_at HF i x Hx. eapply wpS_bindq'; [apply (ab_alloc_conditionally_sound rho H1 True _ _ x Hx)|]. cbv beta. intros r (b & Hb & Hc). cbn [wpS okP]. exists (Some (VBit b)). cbn [opt v_bit].
    assert (G : negb (x && b) = true) by (destruct x; [rewrite Hc by reflexivity; reflexivity|reflexivity]). rewrite G. cbn [guard]. eexists. split; [reflexivity|]. repeat constructor. exact Hb.
  - abit_at HF i x Hx. abit_at HF j y Hy. eapply wpS_bindq'; [apply (gate_sound g _ _ x y Hx Hy)|]. cbv beta. intros r Hr. exists None. eexists. split; [reflexivity|]. repeat constructor. exact Hr.
  - abit_at HF i x Hx. cbn. exists None. eexists. split; [reflexivity|]. repeat constructor. exact Hx.
  - cbn. exists None. eexists. split; [reflexivity|]. repeat constructor.
  - bit_at HF i x Hx. cbn. exists None. eexists. split; [reflexivity|]. repeat constructor. cbn. now apply bit_is_not.
  - bit_at HF i x Hx. bit_at HF j y Hy. eapply s_bit; [apply (b_and_sound rho H1 True); eauto|]. intros r Hr. exists None. eexists. split; [reflexivity|]. repeat constructor. exact Hr.
  - bit_at HF i x Hx. bit_at HF j y Hy. eapply s_bit; [apply (b_xor_sound rho True); eauto|]. intros r Hr. exists None. rewrite xor_neq in Hr. eexists. split; [reflexivity|]. repeat constructor. exact Hr.
  - bit_at HF i x Hx. bit_at HF j y Hy. bit_at HF k z Hz. eapply s_bit; [apply (b_ch_sound rho H1 True); eauto|]. intros r Hr. exists None. rewrite ch_if in Hr. eexists. split; [reflexivity|]. repeat constructor. exact Hr.
  - bit_at HF i x Hx. bit_at HF j y Hy. bit_at HF k z Hz. eapply s_bit; [apply (b_maj_sound rho H1 True); eauto|]. intros r Hr. exists None. rewrite maj_two in Hr. eexists. split; [reflexivity|]. repeat constructor. exact Hr.
  - pose proof (is_words_of words _ _ HF) as Hw. destruct (all_some (map (picks r_bit regs) words)) as [ws|], (all_some (map (picks v_bit vals) words)) as [vs|]; cbn [orel] in Hw; try contradiction; cbn [have opt]; [|exact I].
    destruct (all_some (map (fun w => done (from_bits w)) ws)) as [ops|] eqn:E; cbn [have]; [|exact I].
    destruct (words_hl (SoundHL rho H1) ws vs ops Hw E) as [Hl Ho']. eapply wpS_bindq'; [apply (add_sound ops _ Ho')|]. cbv beta. intros r [Hr Hb]. cbn [wpS okP].
    exists None. apply all_some_map in E. rewrite <- (Forall2_length _ _ _ E), (Forall2_length _ _ _ Hw) in Hr.
    apply andb_true_iff in Hr as [R1 R2]. rewrite R1, R2, !andb_true_r.
    assert (FB : forallb (fun w => Nat.eqb (length w) 32) vs = true) by (apply forallb_forall; rewrite Forall_forall in Hl; intros v Hv; apply Nat.eqb_eq; auto).
    rewrite FB. cbn [guard]. eexists. split; [reflexivity|]. apply rel_bits. rewrite sum_le, bits_of_z2le. exact Hb.
  - unfold new_word. eapply wpS_bindq'; [apply (u_alloc_sound rho H1 True); apply given_u32|]. cbv beta. intros r (_ & z & Hz & Hb). cbn [wpS okP].
    exists (Some (VInt z)). cbn [opt v_int]. rewrite (u32_fits z Hz). cbn [guard]. eexists. split; [reflexivity|]. apply rel_bits. rewrite bits_of_z2le. exact Hb.
  - unfold new_bits. eapply wpS_bindq'; [apply (u64_into_boolean_vec_le_sound rho H1 True)|]. cbv beta. intros r (bs & Hl & Hb). cbn [wpS okP].
    exists (Some (VInt (le2z bs))). cbn [opt v_int]. rewrite (le2z_fits 64 bs Hl). cbn [guard]. eexists. split; [reflexivity|]. apply rel_bits. rewrite bits_of_z2le, <- Hl, z2le_le2z. exact Hb.
  - word_at HF a x Hx Lx. word_at HF b y Hy Ly. eapply s_word; [apply (u_xor_sound rho True); [apply Hx|apply Hy]|]. intros r Hr. exists None. eexists. split; [reflexivity|]. apply rel_bits.
    rewrite <- (xor_list x y Lx Ly). exact Hr.
  - word_at HF a x Hx Lx. word_at HF b y Hy Ly. word_at HF c z Hz Lz. eapply s_word; [apply (u_ch_sound rho H1 True); [apply Hx|apply Hy|apply Hz]|]. intros r Hr. exists None. eexists. split; [reflexivity|]. apply rel_bits.
    rewrite <- (ch_list x y z Lx Ly Lz). exact Hr.
  - word_at HF a x Hx Lx. word_at HF b y Hy Ly. word_at HF c z Hz Lz. eapply s_word; [apply (u_maj_sound rho H1 True); [apply Hx|apply Hy|apply Hz]|]. intros r Hr. exists None. eexists. split; [reflexivity|]. apply rel_bits.
    rewrite <- (maj_list x y z Lx Ly Lz). exact Hr.
  - word_at HF a x Hx Lx. cbn [wpS okP]. exists None. eexists. split; [reflexivity|]. apply rel_bits, rotr_list; [exact Lx|apply Hx].
  - word_at HF a x Hx Lx. cbn [wpS okP]. exists None. eexists. split; [reflexivity|]. apply rel_bits, shr_list; [reflexivity|exact Lx|apply Hx].
  - bits_at HF bits m Hm. destruct (Nat.eq_dec (length m) 512) as [E8|E8].
    + eapply s_bits; [apply (block_hwp (SoundHL rho H1) _ m)|]; [rewrite (Forall2_length _ _ _ Hm); exact E8|exact Hm|].
      intros r Hr. exists None. cbn [opt]. rewrite (proj2 (Nat.eqb_eq _ _) E8). cbn [guard]. eexists. split; [reflexivity|]. apply rel_bits. exact Hr.
    + unfold sha256_block_no_padding. rewrite (Forall2_length _ _ _ Hm). apply Nat.eqb_neq in E8. rewrite E8. exact I.
  - bits_at HF bits m Hm. destruct (Nat.eq_dec (length m mod 8) 0) as [E8|E8].
    + eapply s_bits; [apply (sha256_hwp (SoundHL rho H1) _ m)|]; [rewrite (Forall2_length _ _ _ Hm); exact E8|exact Hm|].
      intros r Hr. exists None. cbn [opt]. rewrite E8. cbn [Nat.eqb guard]. eexists. split; [reflexivity|]. apply rel_bits. exact Hr.
    + unfold sha256. rewrite (Forall2_length _ _ _ Hm). apply Nat.eqb_neq in E8. rewrite E8. exact I.
  - bits_at HF bits m Hm. destruct (forallb is_byte personalization) eqn:Eb; [|exact I]. pose proof (proj1 (is_byte_spec _) Eb) as HB.
    destruct (Nat.eqb (length m mod 8) 0 && Nat.eqb (length personalization) 8) eqn:E.
    + rewrite andb_true_iff, !Nat.eqb_eq in E. destruct E as [E8 Ep]. destruct (bytes_round m E8) as [R1 R2].
      eapply s_bits; [apply (blake2s_hwp (SoundHL rho H1) _ (bytes_of_bits m)); [exact Ep|exact HB|exact R2|]|].
      * rewrite R1. exact Hm.
      * intros r Hr. exists None. cbn [opt]. rewrite E8, Ep. cbn [Nat.eqb andb guard]. eexists. split; [reflexivity|]. apply rel_bits. exact Hr.
    + unfold blake2s. rewrite (Forall2_length _ _ _ Hm). destruct (Nat.eqb (length personalization) 8); cbn [negb]; [|exact I].
      rewrite andb_true_r in E. rewrite E. exact I.
  - num_at HF i x Hx. num_at HF j y Hy. eapply s_num; [apply (an_mul_sound rho True)|]. intros r Hr. exists None. eexists. split; [reflexivity|]. unfold is_num in *. subst. repeat constructor. exact Hr.
  - num_at HF i x Hx. eapply s_num; [apply (an_square_sound rho True)|]. intros r Hr. exists None. eexists. split; [reflexivity|]. unfold is_num in *. subst. repeat constructor. exact Hr.
  - num_at HF i x Hx. num_at HF j y Hy. bit_at HF c t Hb. eapply wpS_bindq'; [apply (an_conditionally_reverse_sound rho H1 True _ _ _ t Hb)|]. cbv beta. intros r [R1 R2].
    unfold is_num in *. subst. exists None. eexists. split; [reflexivity|]. destruct t; repeat constructor; assumption.
  - bit_at HF i x Hx. bit_at HF j y Hy. bit_at HF k z Hz. destruct (Nat.eq_dec (length table) 8) as [E8|E8].
    + eapply wpS_bindq'; [apply (lookup3_xy_sound rho H1 True _ _ _ table x y z); eauto|]. cbv beta. intros r Hr. exists None. cbn [opt].
      rewrite E8, idx_le. cbn [Nat.eqb guard]. assert (Hi : idx3 x y z < length table) by (rewrite E8; destruct x, y, z; cbn; lia).
      rewrite (nth_error_nth' table (fzero, fzero) Hi). cbn [opt]. eexists. split; [reflexivity|]. rewrite <- Hr. repeat constructor.
    + unfold lookup3_xy. apply Nat.eqb_neq in E8. rewrite E8. exact I.
  - bit_at HF i x Hx. bit_at HF j y Hy. bit_at HF k z Hz. destruct (Nat.eq_dec (length table) 4) as [E8|E8].
    + eapply wpS_bindq'; [apply (lookup3_xy_neg_sound rho H1 True _ _ _ table x y z); eauto|]. cbv beta. intros r [R1 R2]. exists None. cbn [opt].
      rewrite E8, idx2_le. cbn [Nat.eqb guard]. assert (Hi : idx2 x y < length table) by (rewrite E8; destruct x, y; cbn; lia).
      rewrite (nth_error_nth' table (fzero, fzero) Hi). cbn [opt]. eexists. split; [reflexivity|]. repeat constructor; [exact R1|exact R2].
    + unfold lookup3_xy_neg. apply Nat.eqb_neq in E8. rewrite E8. exact I.
  - cbn [wpS okP]. exists None. eexists. split; [reflexivity|]. repeat constructor.
  - num_at HF i x Hx. cbn [wpS okP]. exists None. eexists. split; [reflexivity|]. repeat constructor. cbn [reg_is rel_reg]. unfold is_lin. rewrite num_of_allocated_eval. exact Hx.
  - lin_at HF i x Hx. bit_at HF j y Hy. cbn [wpS okP]. exists None. eexists. split; [reflexivity|]. repeat constructor. cbn [reg_is rel_reg]. unfold is_lin in *.
    rewrite (num_add_bool_eval rho H1 _ _ _ _ Hy), Hx. destruct y; cbn [fbit]; ring.
  - num_at HF i x Hx. eapply s_bits; [apply (to_bits_le_strict_sound rho H1 True)|]. intros r Hr. exists None. eexists. split; [reflexivity|]. apply rel_bits.
    unfold is_num in Hx. subst x. rewrite bits_of_z2le. exact Hr.
  - pose proof (lin_eval rho _ _ a H1 HF) as Ha. destruct (lin_of regs a), (lin_value vals a) as [x|]; cbn [orel] in Ha; try contradiction; cbn [have]; [|exact I].
    pose proof (lin_eval rho _ _ b H1 HF) as Hb. destruct (lin_of regs b), (lin_value vals b) as [y|]; cbn [orel] in Hb; try contradiction; cbn [have]; [|exact I].
    pose proof (lin_eval rho _ _ c H1 HF) as Hc. destruct (lin_of regs c), (lin_value vals c) as [z|]; cbn [orel] in Hc; try contradiction; cbn [have]; [|exact I].
    unfold cs_enforce. cbn [bind wpS okP]. rewrite Ha, Hb, Hc. intros E. exists None. cbn [opt]. apply feqb_eq in E. rewrite E. cbn [guard]. eexists. split; [reflexivity|]. constructor.
  - num_at HF i x Hx. eapply wpS_bindq'; [apply (an_assert_nonzero_sound rho H1 True)|]. cbv beta. intros _ Hn. exists None. cbn [opt].
    unfold is_num in Hx. subst x. rewrite <- (feqb_eq P) in Hn. apply not_true_is_false in Hn. rewrite Hn. cbn [negb guard]. eexists. split; [reflexivity|]. constructor.
  - bit_at HF i x Hx. bit_at HF j y Hy. eapply wpS_bindq'; [apply (b_enforce_equal_sound rho H1 True _ _ x y); assumption|]. cbv beta. intros _ ->. exists None. cbn [opt].
    rewrite eqb_reflx. cbn [guard]. eexists. split; [reflexivity|]. constructor.
Qed.
End Sound.

(** ** Completeness of one statement *)
Section Complete.
Variable rho : Var -> P.
Hypothesis H1 : rho one_var = fone.
Hypothesis H64 : 64 <= num_bits P.
Notation hon_bit := (bit_hon rho).

Lemma c_bits p bs (Q : list (reg P) -> Prop) : wpC rho p (isOk (fun r => Forall2 hon_bit r bs)) -> (forall r, Forall2 hon_bit r bs -> Q (map RBit r)) -> wpC rho (new_bits p) (isOk Q).
Proof. intros Hp HQ. unfold new_bits. eapply wpC_bindq'; [exact Hp|]. cbv beta. intros r Hr. cbn. auto. Qed.
Lemma c_bit p b (Q : list (reg P) -> Prop) : wpC rho p (isOk (fun r => hon_bit r b)) -> (forall r, hon_bit r b -> Q [RBit r]) -> wpC rho (new_bit p) (isOk Q).
Proof. intros Hp HQ. unfold new_bit. eapply wpC_bindq'; [exact Hp|]. cbv beta. intros r Hr. cbn. auto. Qed.
Lemma c_num p x (Q : list (reg P) -> Prop) : wpC rho p (isOk (fun r => num_hon rho r x)) -> (forall r, num_hon rho r x -> Q [RNum r]) -> wpC rho (new_num p) (isOk Q).
Proof. intros Hp HQ. unfold new_num. eapply wpC_bindq'; [exact Hp|]. cbv beta. intros r Hr. cbn. auto. Qed.
Lemma c_word p z (Q : list (reg P) -> Prop) : wpC rho p (isOk (fun r => whon rho r z)) -> (forall r, Forall2 hon_bit (u_bits r) (z2le 32 z) -> Q (map RBit (u_bits r))) -> wpC rho (new_word p) (isOk Q).
Proof. intros Hp HQ. unfold new_word. eapply wpC_bindq'; [exact Hp|]. cbv beta. intros r (_ & HB & _). cbn. auto. Qed.
Lemma c_none p Q0 (Q : list (reg P) -> Prop) : wpC rho p (isOk Q0) -> Q [] -> wpC rho (no_result p) (isOk Q).
Proof. intros Hp HQ. unfold no_result. eapply wpC_bindq'; [exact Hp|]. cbv beta. intros r Hr. cbn. auto. Qed.

Lemma add_complete ops zs : 2 <= length ops <= 10 -> Forall2 (whon rho) ops zs ->
  wpC rho (let* r := multieq_scope (addmany ops) in Ret (Ok (into_bits r))) (isOk (fun r => Forall2 hon_bit r (z2le 32 (zsum zs mod 2 ^ 32)%Z))).
Proof.
  intros Hr HF. eapply wpC_bindq' with (Q1 := fun r => Forall2 hon_bit (u_bits r) (z2le 32 (zsum zs mod 2 ^ 32)%Z)); [|intros r Hb; exact Hb].
  apply wpC_multieq; [exact H1|]. eapply wpC_okmono; [|exact (wp_add (CompleteWL rho H1 H64) ops zs Hr HF)]. cbv beta. intros r (_ & HB & _). exact HB.
Qed.
Lemma words_hon ws vs : Forall2 (Forall2 hon_bit) ws vs -> Forall (fun v => length v = 32) vs ->
  exists ops, all_some (map (fun w => done (from_bits w)) ws) = Some ops /\ Forall2 (whon rho) ops (map le2z vs).
Proof.
  induction 1 as [|w v ws vs Hw _ IH]; intros Hl; [exists []; split; [reflexivity|constructor]|]. inversion_clear Hl as [|? ? Hv Hl'].
  destruct (IH Hl') as (ops & E & Ho). destruct (hw_from (CompleteHL rho H1 H64) w v) as (op & E1 & Hop); [rewrite (Forall2_length _ _ _ Hw); exact Hv|exact Hw|].
  exists (op :: ops). cbn [map all_some]. rewrite E1, E. cbn [done]. split; [reflexivity|]. constructor; auto.
Qed.
Lemma hon_bit_of i regs vals x : Forall2 (reg_hon rho) regs vals -> pick v_bit vals i = Some x -> exists b, pick r_bit regs i = Some b /\ hon_bit b x.
Proof.
  intros HF E. pose proof (pick_rel (reg_hon rho) hon_bit r_bit v_bit (fun a b => rel_bit _ _ _ _ a b) regs vals i HF) as H. rewrite E in H.
  destruct (pick r_bit regs i) as [b|]; [|contradiction]. exists b. auto.
Qed.
Lemma hon_num_of i regs vals x : Forall2 (reg_hon rho) regs vals -> pick v_num vals i = Some x -> exists a, pick r_num regs i = Some a /\ num_hon rho a x.
Proof.
  intros HF E. pose proof (pick_rel (reg_hon rho) (num_hon rho) r_num v_num (fun a b => rel_num _ _ _ _ a b) regs vals i HF) as H. rewrite E in H.
  destruct (pick r_num regs i) as [b|]; [|contradiction]. exists b. auto.
Qed.
Lemma hon_bits_of is regs vals x : Forall2 (reg_hon rho) regs vals -> picks v_bit vals is = Some x -> exists b, picks r_bit regs is = Some b /\ Forall2 hon_bit b x.
Proof.
  intros HF E. pose proof (picks_rel (reg_hon rho) hon_bit r_bit v_bit (fun a b => rel_bit _ _ _ _ a b) regs vals is HF) as H. rewrite E in H.
  destruct (picks r_bit regs is) as [b|]; [|contradiction]. exists b. auto.
Qed.
Lemma hon_abit_of i regs vals x : Forall2 (reg_hon rho) regs vals -> pick v_abit vals i = Some x -> exists a, pick r_abit regs i = Some a /\ abit_hon rho a x.
Proof.
  intros HF E. pose proof (pick_rel (reg_hon rho) (abit_hon rho) r_abit v_abit (fun a b => rel_abit _ _ _ _ a b) regs vals i HF) as H. rewrite E in H.
  destruct (pick r_abit regs i) as [b|]; [|contradiction]. exists b. auto.
Qed.
Lemma gate_complete g a b x y : abit_hon rho a x -> abit_hon rho b y -> wpC rho (ab_gate g a b) (isOk (fun r => abit_hon rho r (gate_bit g x y))).
Proof.
  intros Ha Hb. destruct g; cbn [ab_gate gate_bit].
  - rewrite <- xor_neq. now apply (ab_xor_complete rho).
  - now apply (ab_and_complete rho).
  - now apply (ab_and_not_complete rho H1).
  - rewrite negb_orb. now apply (ab_nor_complete rho H1).
Qed.
Lemma c_abit p b (Q : list (reg P) -> Prop) : wpC rho p (isOk (fun r => abit_hon rho r b)) -> (forall r, abit_hon rho r b -> Q [RABit r]) -> wpC rho (new_abit p) (isOk Q).
Proof. intros Hp HQ. unfold new_abit. eapply wpC_bindq'; [exact Hp|]. cbv beta. intros r Hr. cbn. auto. Qed.
Lemma hon_lin_reg i regs vals x : Forall2 (reg_hon rho) regs vals -> pick v_lin vals i = Some x -> exists a, pick r_lin regs i = Some a /\ numc_hon rho a x.
Proof.
  intros HF E. pose proof (pick_rel (reg_hon rho) (numc_hon rho) r_lin v_lin (fun a b => rel_lin _ _ _ _ a b) regs vals i HF) as H. rewrite E in H.
  destruct (pick r_lin regs i) as [b|]; [|contradiction]. exists b. auto.
Qed.
Lemma hon_word_of is regs vals x : Forall2 (reg_hon rho) regs vals -> opt (picks v_bit vals is) (fun l => guard (Nat.eqb (length l) 32) (Some l)) = Some x ->
  exists w, opt (picks r_bit regs is) (fun l => done (from_bits l)) = Some w /\ length x = 32 /\ Forall2 hon_bit (u_bits w) x /\ whon rho w (le2z x).
Proof.
  intros HF E. destruct (picks v_bit vals is) as [m|] eqn:Em; cbn [opt] in E; [|discriminate E]. destruct (Nat.eqb_spec (length m) 32) as [L|L]; cbn [guard] in E; [|discriminate E]. apply Some_eq in E. subst x.
  destruct (hon_bits_of is regs vals m HF Em) as (b & -> & Hb). cbn [opt].
  destruct (from_bits_hon rho b m) as (w & Ew & Hw); [rewrite (Forall2_length _ _ _ Hb); exact L|exact Hb|]. exists w. rewrite Ew. split; [reflexivity|]. split; [exact L|]. split; [|exact Hw].
  unfold from_bits in Ew. destruct (Nat.eqb (length b) 32); [|discriminate Ew]. injection Ew as <-. exact Hb.
Qed.
Lemma hon_words_of ws regs vals vs : Forall2 (reg_hon rho) regs vals -> all_some (map (picks v_bit vals) ws) = Some vs ->
  exists l, all_some (map (picks r_bit regs) ws) = Some l /\ Forall2 (Forall2 hon_bit) l vs.
Proof.
  intros HF. revert vs. induction ws as [|w ws IH]; intros vs E; cbn [map all_some] in *; [injection E as <-; exists []; split; [reflexivity|constructor]|].
  destruct (picks v_bit vals w) as [v|] eqn:Ev; [|discriminate]. destruct (all_some _) as [vs'|]; [|discriminate]. injection E as <-.
  destruct (hon_bits_of w regs vals v HF Ev) as (b & -> & Hb). destruct (IH vs' eq_refl) as (l & -> & Hl). exists (b :: l). split; [reflexivity|]. constructor; auto.
Qed.
Lemma hon_lin_of l regs vals x : Forall2 (reg_hon rho) regs vals -> lin_value vals l = Some x -> exists lc, lin_of regs l = Some lc /\ eval rho lc = x.
Proof.
  intros HF E. pose proof (lin_eval rho regs vals l H1 (hon_is_all _ _ _ HF)) as H. rewrite E in H. destruct (lin_of regs l) as [lc|]; [|contradiction]. exists lc. auto.
Qed.

Ltac opt_case E x := match type of E with opt ?o _ = Some _ => destruct o as [x|] eqn:?; cbn [opt] in E; [|discriminate E] end.
Ltac guard_case E H := match type of E with guard ?b _ = Some _ => destruct b eqn:H; cbn [guard] in E; [|discriminate E] end.
Ltac bit_at HF x := match goal with X : pick v_bit _ _ = Some x |- _ => destruct (hon_bit_of _ _ _ _ HF X) as (? & -> & ?); clear X; cbn [have] end.
Ltac num_at HF x := match goal with X : pick v_num _ _ = Some x |- _ => destruct (hon_num_of _ _ _ _ HF X) as (? & -> & ?); clear X; cbn [have] end.
Ltac bits_at HF x := match goal with X : picks v_bit _ _ = Some x |- _ => destruct (hon_bits_of _ _ _ _ HF X) as (? & -> & ?); clear X; cbn [have] end.
Ltac abit_at HF x := match goal with X : pick v_abit _ _ = Some x |- _ => destruct (hon_abit_of _ _ _ _ HF X) as (? & -> & ?); clear X; cbn [have] end.
Ltac num_lin_at HF x := match goal with X : pick v_lin _ _ = Some x |- _ => destruct (hon_lin_reg _ _ _ _ HF X) as (? & -> & ?); clear X; cbn [have] end.
Ltac word_at HF x L := match goal with X : opt (picks v_bit _ _) _ = Some x |- _ => destruct (hon_word_of _ _ _ _ HF X) as (? & -> & L & ? & ?); clear X; cbn [have] end.
Ltac lin_at HF x := match goal with X : lin_value _ _ = Some x |- _ => destruct (hon_lin_of _ _ _ _ HF X) as (? & -> & ?); clear X; cbn [have] end.
Ltac finish E := apply Some_eq in E; rewrite E; clear E; cbn [fst].

Lemma statement_complete w regs vals st e : step w vals st = Some e -> Forall2 (reg_hon rho) regs vals ->
  wpC rho (statement w regs st) (isOk (fun new => Forall2 (reg_hon rho) new (fst e))).
Proof.
  intros E HF. destruct st; cbn [statement step] in *.
  - opt_case E v. destruct v as [b|b|x|x|x]; cbn [v_bit opt] in E; try discriminate E. finish E. eapply c_bit with (b := b); [|intros r Hr; repeat constructor; exact Hr || apply Hr].
    eapply wpC_bindq'; [apply (ab_alloc_complete rho H1)|]. cbv beta. intros a [A1 A2]. split; [exact A1|exact A2].
  - opt_case E v. destruct v as [b|b|x|x|x]; cbn [v_num opt] in E; try discriminate E. finish E. eapply c_num; [apply (an_alloc_complete rho x)|]. intros r Hr. repeat constructor; apply Hr.
  - opt_case E v. destruct v as [b|b|x|x|x]; cbn [v_bit opt] in E; try discriminate E. finish E. eapply c_abit; [apply (ab_alloc_complete rho H1 b)|]. intros r Hr. constructor; [exact Hr|constructor].
  - opt_case E v. destruct v as [b|b|x|x|x]; cbn [v_bit opt] in E; try discriminate E. opt_case E x. abit_at HF x. guard_case E G. finish E.
    eapply c_abit; [apply (ab_alloc_conditionally_complete rho H1 b _ x); [apply H|]|].
    + intros ->. now destruct b.
    + intros r Hr. constructor; [exact Hr|constructor].
  - opt_case E x. opt_case E y. abit_at HF x. abit_at HF y. finish E. eapply c_abit; [apply gate_complete; eassumption|]. intros r Hr. constructor; [exact Hr|constructor].
  - opt_case E x. abit_at HF x. finish E. constructor; [|constructor]. destruct H as [A1 A2]. split; [exact A1|exact A2].
  - finish E. repeat constructor.
  - opt_case E x. bit_at HF x. finish E. constructor; [|constructor]. exact (bit_hon_not _ _ _ H).
  - opt_case E x. opt_case E y. bit_at HF x. bit_at HF y. finish E. eapply c_bit; [apply (b_and_complete rho H1); eassumption|]. intros r Hr. repeat constructor; apply Hr.
  - opt_case E x. opt_case E y. bit_at HF x. bit_at HF y. finish E. rewrite <- xor_neq. eapply c_bit; [apply (b_xor_complete rho); eassumption|]. intros r Hr. repeat constructor; apply Hr.
  - opt_case E x. opt_case E y. opt_case E z. bit_at HF x. bit_at HF y. bit_at HF z. finish E. rewrite <- ch_if.
    eapply c_bit; [apply (b_ch_complete rho H1); eassumption|]. intros r Hr. repeat constructor; apply Hr.
  - opt_case E x. opt_case E y. opt_case E z. bit_at HF x. bit_at HF y. bit_at HF z. finish E. rewrite <- maj_two.
    eapply c_bit; [apply (b_maj_complete rho H1); eassumption|]. intros r Hr. repeat constructor; apply Hr.
  - opt_case E vs. guard_case E G. rewrite !andb_true_iff, !Nat.leb_le in G. destruct G as [[G1 G2] G3]. finish E.
    destruct (hon_words_of words regs vals vs HF Heqo) as (l & -> & Hl). cbn [have].
    destruct (words_hon l vs Hl) as (ops & Eo & Ho).
    { rewrite forallb_forall in G1. apply Forall_forall. intros v Hv. apply Nat.eqb_eq. auto. }
    rewrite Eo. cbn [have]. assert (Hlen : length ops = length vs) by (rewrite (Forall2_length _ _ _ Ho); apply map_length).
    eapply c_bits; [apply (add_complete ops (map le2z vs)); [lia|exact Ho]|]. intros r Hr. apply rel_bits. rewrite sum_le, bits_of_z2le. exact Hr.
  - opt_case E v. destruct v as [b|b|x|x|z]; cbn [v_int opt] in E; try discriminate E. guard_case E G. finish E. cbn [given_int]. rewrite G.
    eapply c_word; [apply (u_alloc_complete rho H1); now apply fits_u32|]. intros r Hr. apply rel_bits. rewrite bits_of_z2le. exact Hr.
  - opt_case E v. destruct v as [b|b|x|x|z]; cbn [v_int opt] in E; try discriminate E. guard_case E G. finish E. cbn [given_int]. rewrite G.
    eapply c_bits; [apply (u64_into_boolean_vec_le_complete rho H1)|]. intros r Hr. apply rel_bits. rewrite bits_of_z2le. exact Hr.
  - opt_case E x. opt_case E y. word_at HF x Lx. word_at HF y Ly. finish E. eapply c_word; [apply (u_xor_complete rho); eassumption|]. intros r Hr. apply rel_bits. rewrite <- (xor_list x y Lx Ly). exact Hr.
  - opt_case E x. opt_case E y. opt_case E z. word_at HF x Lx. word_at HF y Ly. word_at HF z Lz. finish E. eapply c_word; [apply (u_ch_complete rho H1); eassumption|]. intros r Hr. apply rel_bits. rewrite <- (ch_list x y z Lx Ly Lz). exact Hr.
  - opt_case E x. opt_case E y. opt_case E z. word_at HF x Lx. word_at HF y Ly. word_at HF z Lz. finish E. eapply c_word; [apply (u_maj_complete rho H1); eassumption|]. intros r Hr. apply rel_bits. rewrite <- (maj_list x y z Lx Ly Lz). exact Hr.
  - opt_case E x. word_at HF x Lx. finish E. cbn [wpC isOk]. apply rel_bits, rotr_list; assumption.
  - opt_case E x. word_at HF x Lx. finish E. cbn [wpC isOk]. apply rel_bits, shr_list; [split; reflexivity|assumption|assumption].
  - opt_case E m. bits_at HF m. guard_case E G. apply Nat.eqb_eq in G. finish E.
    eapply c_bits; [apply (block_hwp (CompleteHL rho H1 H64) _ m); [rewrite (Forall2_length _ _ _ H); exact G|exact H]|]. intros r Hr. now apply rel_bits.
  - opt_case E m. bits_at HF m. guard_case E G. apply Nat.eqb_eq in G. finish E.
    eapply c_bits; [apply (sha256_hwp (CompleteHL rho H1 H64) _ m); [rewrite (Forall2_length _ _ _ H); exact G|exact H]|]. intros r Hr. now apply rel_bits.
  - opt_case E m. bits_at HF m. guard_case E G. rewrite !andb_true_iff, !Nat.eqb_eq in G. destruct G as [[G1 G2] G3]. finish E. rewrite G3.
    destruct (bytes_round m G1) as [R1 R2].
    eapply c_bits; [apply (blake2s_hwp (CompleteHL rho H1 H64) _ (bytes_of_bits m)); [exact G2|now apply is_byte_spec|exact R2|rewrite R1; exact H]|]. intros r Hr. now apply rel_bits.
  - opt_case E x. opt_case E y. num_at HF x. num_at HF y. finish E. eapply c_num; [apply (an_mul_complete rho); eassumption|]. intros r Hr. repeat constructor; apply Hr.
  - opt_case E x. num_at HF x. finish E. eapply c_num; [apply (an_square_complete rho); eassumption|]. intros r Hr. repeat constructor; apply Hr.
  - opt_case E x. opt_case E y. opt_case E t. num_at HF x. num_at HF y. bit_at HF t. finish E.
    eapply wpC_bindq'; [apply (an_conditionally_reverse_complete rho H1); eassumption|]. cbv beta. intros r [[R1 R2] [R3 R4]]. destruct t; repeat constructor; assumption.
  - opt_case E x. opt_case E y. opt_case E z. bit_at HF x. bit_at HF y. bit_at HF z. guard_case E G. apply Nat.eqb_eq in G. opt_case E t. finish E.
    rewrite idx_le in Heqo. apply nth_error_nth with (d := (fzero, fzero)) in Heqo.
    eapply wpC_bindq'; [apply (lookup3_xy_complete rho H1 _ _ _ table x y z); eassumption|]. cbv beta. intros r [[R1 R2] [R3 R4]]. rewrite Heqo in *. repeat constructor; assumption.
  - opt_case E x. opt_case E y. opt_case E z. bit_at HF x. bit_at HF y. bit_at HF z. guard_case E G. apply Nat.eqb_eq in G. opt_case E t. finish E.
    rewrite idx2_le in Heqo. apply nth_error_nth with (d := (fzero, fzero)) in Heqo.
    eapply wpC_bindq'; [apply (lookup3_xy_neg_complete rho H1 _ _ _ table x y z); eassumption|]. cbv beta. intros r [R1 R2]. rewrite Heqo in *. constructor; [exact R1|]. constructor; [exact R2|constructor].
  - finish E. constructor; [|constructor]. apply (num_zero_hon rho).
  - opt_case E x. num_at HF x. finish E. constructor; [|constructor]. now apply (num_of_allocated_hon rho).
  - opt_case E x. opt_case E y. num_lin_at HF x. bit_at HF y. finish E. constructor; [|constructor]. cbn [reg_hon rel_reg]. 
    replace (if y then (x + coeff)%F else x) with (x + coeff * fbit y)%F by (destruct y; cbn [fbit]; ring). now apply (num_add_bool_hon rho H1).
  - opt_case E x. num_at HF x. finish E. eapply c_bits; [apply (to_bits_le_strict_complete rho H1); eassumption|]. intros r Hr. apply rel_bits. rewrite bits_of_z2le. exact Hr.
  - opt_case E x. opt_case E y. opt_case E z. lin_at HF x. lin_at HF y. lin_at HF z. guard_case E G. apply feqb_eq in G. finish E.
    unfold cs_enforce. cbn [bind wpC isOk]. split; [congruence|constructor].
  - opt_case E x. num_at HF x. guard_case E G. finish E. eapply c_none; [apply (an_assert_nonzero_complete rho H1 _ x); [eassumption|]|constructor].
    intros ->. rewrite (proj2 (feqb_eq P fzero fzero) eq_refl) in G. discriminate G.
  - opt_case E x. opt_case E y. bit_at HF x. bit_at HF y. guard_case E G. apply eqb_prop in G. subst y. finish E.
    eapply c_none; [apply (b_enforce_equal_complete rho H1 _ _ x); [apply H|apply H0]|constructor].
  - opt_case E x. num_at HF x. finish E. eapply c_none; [apply (an_inputize_complete rho H1 _ x); assumption|constructor].
  - opt_case E m. bits_at HF m. finish E. eapply c_none; [eapply pack_complete; eassumption|constructor].
Qed.
End Complete.

(** ** Structure: no loose equalities, errors are passed on *)
Lemma have_gadget {A B} (o : option A) (k : A -> prog P (res B)) : (forall a, Gadget (k a)) -> Gadget (have o k).
Proof. intros H. destruct o; cbn [have]; [apply H|gadget]. Qed.
Lemma add_gadget ops : Gadget (@multieq_scope P _ (addmany ops)).
Proof. constructor; auto using noeq_scope, ns_ok_scope, prop_scope, addmany_ns, addmany_prop. Qed.
Lemma gate_gadget g a b : Gadget (@ab_gate P g a b).
Proof. destruct g; cbn [ab_gate]; auto using @ab_xor_gadget, @ab_and_gadget, @ab_and_not_gadget, @ab_nor_gadget. Qed.
Lemma statement_gadget w regs st : Gadget (@statement P w regs st).
Proof.
  pose proof (@ab_alloc_gadget P). pose proof (@an_alloc_gadget P). pose proof (@b_and_gadget P). pose proof (@b_xor_gadget P). pose proof (@b_ch_gadget P). pose proof (@b_maj_gadget P).
  pose proof (@sha256_gadget P). pose proof (@blake2s_gadget P). pose proof (@an_mul_gadget P). pose proof (@an_square_gadget P). pose proof (@an_conditionally_reverse_gadget P).
  pose proof (@lookup3_xy_gadget P). pose proof (@to_bits_le_strict_gadget P). pose proof (@an_assert_nonzero_gadget P). pose proof (@b_enforce_equal_gadget P).
  pose proof (@an_inputize_gadget P). pose proof (@pack_into_inputs_gadget P).
  pose proof gate_gadget. pose proof (@ab_alloc_conditionally_gadget P). pose proof (@u_alloc_gadget P). pose proof (@u64_into_boolean_vec_le_gadget P). pose proof (@u_xor_gadget P). pose proof (@u_ch_gadget P). pose proof (@u_maj_gadget P). pose proof (@block_gadget P). pose proof (@lookup3_xy_neg_gadget P).
  pose proof add_gadget. destruct st; cbn [statement]; repeat (apply have_gadget; intros ?); unfold new_bit, new_abit, new_bits, new_num, new_nums, new_lins, new_word, no_result; try (destruct (forallb is_byte _)); try solve [gadget].
Qed.

Lemma compile_gadget code : forall w i regs, Gadget (@compile P w i regs code).
Proof. pose proof statement_gadget. induction code as [|st code IH]; intros w i regs; cbn [compile]; gadget. Qed.
Lemma circuit_gadget w code : Gadget (@circuit P w code).
Proof. pose proof compile_gadget. unfold circuit. gadget. Qed.

(** ** The same shape whatever the values *)
Definition rsim (r r' : reg P) : Prop := match r, r' with RBit b, RBit b' => bsim b b' | RABit a, RABit a' => absim a a' | RNum a, RNum a' => ansim a a' | RLin n, RLin n' => numsim n n' | _, _ => False end.
Lemma rsim_bit r r' : rsim r r' -> orel bsim (r_bit r) (r_bit r'). Proof. destruct r, r'; cbn; tauto. Qed.
Lemma rsim_num r r' : rsim r r' -> orel ansim (r_num r) (r_num r'). Proof. destruct r, r'; cbn; tauto. Qed.
Lemma rsim_abit r r' : rsim r r' -> orel absim (r_abit r) (r_abit r'). Proof. destruct r, r'; cbn; tauto. Qed.
Lemma rsim_lin r r' : rsim r r' -> orel numsim (r_lin r) (r_lin r'). Proof. destruct r, r'; cbn; tauto. Qed.
Lemma rsim_bits l m : Forall2 bsim l m -> Forall2 rsim (map RBit l) (map RBit m). Proof. induction 1; constructor; auto. Qed.
Lemma b_lc_sim b b' c : bsim b b' -> @b_lc P b one_var c = b_lc b' one_var c.
Proof. destruct b, b'; cbn; try tauto; now intros ->. Qed.
Lemma lin_sim regs regs' l : Forall2 rsim regs regs' -> forall acc, lin_lc regs l acc = lin_lc regs' l acc.
Proof.
  intros HF. induction l as [|[c i] l IH]; intros acc; cbn [lin_lc]; [reflexivity|]. pose proof (nth_rel _ _ _ i HF) as Hn.
  destruct (nth_error regs i) as [[b|d|a|n]|], (nth_error regs' i) as [[b'|d'|a'|n']|]; cbn [orel rsim] in Hn; try contradiction; [| | | |reflexivity].
  - now rewrite (b_lc_sim _ _ c Hn).
  - unfold absim in Hn. now rewrite Hn.
  - unfold ansim in Hn. now rewrite Hn.
  - unfold numsim in Hn. unfold num_lc. now rewrite Hn.
Qed.
Lemma have_sim {A A' B B'} (R : A -> A' -> Prop) o o' (k : A -> prog P (res B)) (k' : A' -> prog P (res B')) Q :
  orel R o o' -> (forall a a', R a a' -> sim (k a) (k' a') Q) -> sim (have o k) (have o' k') Q.
Proof. destruct o, o'; cbn [orel have]; try contradiction; auto. Qed.
Lemma m_bits p q : sim p q (resR (Forall2 bsim)) -> sim (@new_bits P p) (new_bits q) (resR (Forall2 rsim)).
Proof. intros H. eapply sim_bindq; [exact H|]. intros r r' Hr. cbn. now apply rsim_bits. Qed.
Lemma m_bit p q : sim p q (resR bsim) -> sim (@new_bit P p) (new_bit q) (resR (Forall2 rsim)).
Proof. intros H. eapply sim_bindq; [exact H|]. intros r r' Hr. repeat constructor. exact Hr. Qed.
Lemma m_num p q : sim p q (resR ansim) -> sim (@new_num P p) (new_num q) (resR (Forall2 rsim)).
Proof. intros H. eapply sim_bindq; [exact H|]. intros r r' Hr. repeat constructor. exact Hr. Qed.
Lemma m_nums p q : sim p q (resR (fun x y => ansim (fst x) (fst y) /\ ansim (snd x) (snd y))) -> sim (@new_nums P p) (new_nums q) (resR (Forall2 rsim)).
Proof. intros H. eapply sim_bindq; [exact H|]. intros r r' [R1 R2]. repeat constructor; assumption. Qed.
Lemma m_abit p q : sim p q (resR absim) -> sim (@new_abit P p) (new_abit q) (resR (Forall2 rsim)).
Proof. intros H. eapply sim_bindq; [exact H|]. intros r r' Hr. repeat constructor. exact Hr. Qed.
Lemma gate_sim g a a' b b' : absim a a' -> absim b b' -> sim (@ab_gate P g a b) (ab_gate g a' b') (resR absim).
Proof. destruct g; cbn [ab_gate]; auto using @ab_xor_sim, @ab_and_sim, @ab_and_not_sim, @ab_nor_sim. Qed.
Lemma m_lins p q : sim p q (resR (fun x y => numsim (fst x) (fst y) /\ numsim (snd x) (snd y))) -> sim (@new_lins P p) (new_lins q) (resR (Forall2 rsim)).
Proof. intros H. eapply sim_bindq; [exact H|]. intros r r' [R1 R2]. repeat constructor; assumption. Qed.
Lemma m_word p q : sim p q (resR (wsimw false)) -> sim (@new_word P p) (new_word q) (resR (Forall2 rsim)).
Proof. intros H. eapply sim_bindq; [exact H|]. intros r r' [Hr _]. cbn. now apply rsim_bits. Qed.
Lemma wsimw_false c w w' : wsimw c w w' -> wsimw false w w'.
Proof. intros (A & B & _). split; [exact A|]. split; [exact B|]. intros X. discriminate X. Qed.
Lemma wx_false w w' : wx w w' -> wsimw false w w'.
Proof. intros [c [H _]]. eapply wsimw_false. exact H. Qed.
Lemma m_none p q R : sim p q (resR R) -> sim (@no_result P p) (no_result q) (resR (Forall2 rsim)).
Proof. intros H. eapply sim_bindq; [exact H|]. intros r r' _. constructor. Qed.
Lemma words_wx ws ws' : Forall2 (Forall2 bsim) ws ws' -> orel (Forall2 wx) (all_some (map (fun w => done (from_bits w)) ws)) (all_some (map (fun w => done (from_bits w)) ws')).
Proof.
  intros H. apply all_some_rel. apply Forall2_map_lr. eapply Forall2_impl; [|exact H]. cbv beta. intros w w' Hw. pose proof (from_bits_sim w w' Hw) as X.
  destruct (from_bits w), (from_bits w'); cbn [done orel]; tauto.
Qed.
Lemma word_sim is regs regs' : Forall2 rsim regs regs' -> orel (wsimw false) (opt (picks r_bit regs is) (fun l => done (from_bits l))) (opt (picks r_bit regs' is) (fun l => done (from_bits l))).
Proof.
  intros HF. pose proof (picks_rel rsim bsim r_bit r_bit rsim_bit _ _ is HF) as H. destruct (picks r_bit regs is) as [l|], (picks r_bit regs' is) as [m|]; cbn [orel opt] in *; try contradiction; [|exact I].
  pose proof (from_bits_sim l m H) as X. destruct (from_bits l), (from_bits m); cbn [done orel]; try tauto. now apply wx_false.
Qed.
Lemma wx_bits w w' : wx w w' -> Forall2 bsim (u_bits w) (u_bits w').
Proof. intros [c [[H _] _]]. exact H. Qed.

Ltac bit_at HF i := apply (have_sim bsim); [exact (pick_rel rsim bsim r_bit r_bit rsim_bit _ _ i HF)|intros ? ? ?].
Ltac num_at HF i := apply (have_sim ansim); [exact (pick_rel rsim ansim r_num r_num rsim_num _ _ i HF)|intros ? ? ?].
Ltac abit_at HF i := apply (have_sim absim); [exact (pick_rel rsim absim r_abit r_abit rsim_abit _ _ i HF)|intros ? ? ?].
Ltac lin_at HF i := apply (have_sim numsim); [exact (pick_rel rsim numsim r_lin r_lin rsim_lin _ _ i HF)|intros ? ? ?].
Ltac word_at HF is := apply (have_sim (wsimw false)); [exact (word_sim is _ _ HF)|intros ? ? ?].
Ltac bits_at HF is := apply (have_sim (Forall2 bsim)); [exact (picks_rel rsim bsim r_bit r_bit rsim_bit _ _ is HF)|intros ? ? ?].
Lemma statement_sim w w' regs regs' st : Forall2 rsim regs regs' -> sim (@statement P w regs st) (statement w' regs' st) (resR (Forall2 rsim)).
Proof.
  intros HF. destruct st; cbn [statement].
  - apply m_bit. eapply sim_bindq; [apply ab_alloc_sim|]. intros a a' Ha. exact Ha.
  - apply m_num, an_alloc_sim.
  - apply m_abit, ab_alloc_sim.
  - abit_at HF i. apply m_abit. now apply ab_alloc_conditionally_sim.
  - abit_at HF i. abit_at HF j. apply m_abit. now apply gate_sim.
  - abit_at HF i. repeat constructor. assumption.
  - repeat constructor.
  - bit_at HF i. repeat constructor. now apply bsim_not.
  - bit_at HF i. bit_at HF j. apply m_bit. now apply b_and_sim.
  - bit_at HF i. bit_at HF j. apply m_bit. now apply b_xor_sim.
  - bit_at HF i. bit_at HF j. bit_at HF k. apply m_bit. now apply b_ch_sim.
  - bit_at HF i. bit_at HF j. bit_at HF k. apply m_bit. now apply b_maj_sim.
  - apply (have_sim (Forall2 (Forall2 bsim))).
    { apply all_some_rel. induction words as [|is words IH]; constructor; auto. exact (picks_rel rsim bsim r_bit r_bit rsim_bit _ _ is HF). }
    intros ws ws' Hw. apply (have_sim (Forall2 wx)); [now apply words_wx|]. intros ops ops' Ho. apply m_bits.
    eapply sim_bindq; [apply sim_multieq, addmany_wx; exact Ho|]. intros r r' Hr. exact (wx_bits _ _ Hr).
  - apply m_word. eapply ok_mono_sim; [|apply u_alloc_sim; apply given_u32]. intros a b [H _]. exact H.
  - apply m_bits. apply u64_into_boolean_vec_le_sim.
  - word_at HF a. word_at HF b. apply m_word. now apply xor_bits_sim.
  - word_at HF a. word_at HF b. word_at HF c. apply m_word. now apply u_ch_sim.
  - word_at HF a. word_at HF b. word_at HF c. apply m_word. now apply u_maj_sim.
  - word_at HF a. cbn. apply rsim_bits. exact (proj1 (rotr_simw _ _ _ n H)).
  - word_at HF a. cbn. apply rsim_bits. exact (proj1 (shr_simw _ _ _ n H)).
  - bits_at HF bits. apply m_bits. now apply block_sim.
  - bits_at HF bits. apply m_bits. now apply sha256_sim.
  - bits_at HF bits. destruct (forallb is_byte personalization) eqn:E; [|exact I]. apply m_bits. apply blake2s_sim; [now apply is_byte_spec|assumption].
  - num_at HF i. num_at HF j. apply m_num. now apply an_mul_sim.
  - num_at HF i. apply m_num. now apply an_square_sim.
  - num_at HF i. num_at HF j. bit_at HF c. apply m_nums. now apply an_conditionally_reverse_sim.
  - bit_at HF i. bit_at HF j. bit_at HF k. apply m_nums. apply lookup3_xy_sim. repeat constructor; assumption.
  - bit_at HF i. bit_at HF j. bit_at HF k. apply m_lins. apply lookup3_xy_neg_sim. repeat constructor; assumption.
  - repeat constructor.
  - num_at HF i. constructor; [|constructor]. cbn. now apply num_of_allocated_sim.
  - lin_at HF i. bit_at HF j. constructor; [|constructor]. cbn [rsim]. now apply num_add_bool_sim.
  - num_at HF i. apply m_bits. now apply to_bits_le_strict_sim.
  - unfold lin_of. rewrite <- !(fun l => lin_sim regs regs' l HF). repeat (apply (have_sim eq); [destruct (lin_lc _ _ _); reflexivity|intros ? ? <-]).
    apply sim_enforce; auto. constructor.
  - num_at HF i. eapply m_none. apply an_assert_nonzero_sim. assumption.
  - bit_at HF i. bit_at HF j. eapply m_none. apply b_enforce_equal_sim; assumption.
  - num_at HF i. eapply m_none. apply an_inputize_sim. assumption.
  - bits_at HF bits. eapply m_none. apply pack_into_inputs_sim. assumption.
Qed.
Lemma compile_sim code : forall w w' i regs regs', Forall2 rsim regs regs' -> sim (@compile P w i regs code) (compile w' i regs' code) (resR (Forall2 rsim)).
Proof.
  induction code as [|st code IH]; intros w w' i regs regs' HF; cbn [compile]; [exact HF|].
  eapply sim_bindq; [apply sim_ns, statement_sim; exact HF|]. intros r r' Hr. apply IH. now apply Forall2_app.
Qed.
Lemma circuit_sim code w w' : sim (@circuit P w code) (circuit w' code) (resR (fun _ _ => True)).
Proof. eapply sim_bindq; [apply compile_sim; constructor|]. intros r r' _. exact I. Qed.

(** ** No inputs but those of output statements *)
Definition quiet {A} (p : prog P (res A)) : Prop := exists x (Q : A -> Prop), b_inp x = 0%Z /\ costs p x Q.
Lemma quiet_of {A} (p : prog P (res A)) x Q : costs p x Q -> b_inp x = 0%Z -> quiet p. Proof. unfold quiet. eauto. Qed.
Lemma quiet_panic {A} : quiet (A := A) Panic. Proof. exists bill0, (fun _ => True). split; [reflexivity|apply costs_panic]. Qed.
Lemma quiet_ret {A} (a : A) : quiet (Ret (Ok a)). Proof. exists bill0, (fun _ => True). split; [reflexivity|now apply costs_ret]. Qed.
Lemma quiet_map {A B} (p : prog P (res A)) (g : A -> B) : quiet p -> quiet (bindq p (fun a => Ret (Ok (g a)))).
Proof. intros (x & Q & E & H). exists x, (fun _ => True). split; [exact E|]. eapply costs_ret_bindq; [exact H|]. auto. Qed.
Lemma quiet_have {A B} (o : option A) (k : A -> prog P (res B)) : (forall a, quiet (k a)) -> quiet (have o k).
Proof. intros H. destruct o; cbn [have]; [apply H|apply quiet_panic]. Qed.

Lemma statement_quiet w regs st : outputs st = false -> quiet (@statement P w regs st).
Proof.
  intros Ho. destruct st; cbn [outputs] in Ho; try discriminate Ho; cbn [statement]; repeat (apply quiet_have; intros ?).
  - unfold new_bit. apply quiet_map, quiet_map. eapply quiet_of; [apply ab_alloc_any|reflexivity].
  - unfold new_num. apply quiet_map. eapply quiet_of; [apply an_alloc_costs|reflexivity].
  - apply quiet_map. eapply quiet_of; [apply ab_alloc_any|reflexivity].
  - apply quiet_map. eapply quiet_of; [apply cond_costs|reflexivity].
  - apply quiet_map. destruct g; cbn [ab_gate]; (eapply quiet_of; [first [apply ab_xor_costs|apply ab_and_costs|apply ab_and_not_costs|apply ab_nor_costs]|reflexivity]).
  - apply quiet_ret.
  - apply quiet_ret.
  - apply quiet_ret.
  - apply quiet_map. eapply quiet_of; [apply b_and_any'|reflexivity].
  - apply quiet_map. eapply quiet_of; [exact (b_xor_costs _ _)|destruct (_ && _); reflexivity].
  - apply quiet_map. eapply quiet_of; [apply b_ch_any|reflexivity].
  - apply quiet_map. eapply quiet_of; [apply b_maj_any|reflexivity].
  - apply quiet_map, quiet_map. eapply quiet_of; [apply addmany_scope_costs|]. destruct (forallb _ _); reflexivity.
  - apply quiet_map. eapply quiet_of; [apply u_alloc_costs|reflexivity].
  - apply quiet_map. eapply quiet_of; [apply u64_costs|reflexivity].
  - apply quiet_map. eapply quiet_of; [apply u_xor_any|reflexivity].
  - apply quiet_map. eapply quiet_of; [apply u_ch_any|reflexivity].
  - apply quiet_map. eapply quiet_of; [apply u_maj_any|reflexivity].
  - apply quiet_ret.
  - apply quiet_ret.
  - apply quiet_map. eapply quiet_of; [apply block_costs|reflexivity].
  - apply quiet_map. eapply quiet_of; [apply sha256_costs|reflexivity].
  - destruct (forallb _ _); [|apply quiet_panic]. apply quiet_map. eapply quiet_of; [apply blake2s_costs|reflexivity].
  - apply quiet_map. eapply quiet_of; [apply mul_costs|reflexivity].
  - apply quiet_map. eapply quiet_of; [apply square_costs|reflexivity].
  - unfold new_nums. apply (quiet_map _ (fun x => [RNum (fst x); RNum (snd x)])). eapply quiet_of; [apply reverse_costs|reflexivity].
  - unfold new_nums. apply (quiet_map _ (fun x => [RNum (fst x); RNum (snd x)])). eapply quiet_of; [apply lookup_costs|reflexivity].
  - unfold new_lins. apply (quiet_map _ (fun x => [RLin (fst x); RLin (snd x)])). eapply quiet_of; [apply lookup_neg_costs|reflexivity].
  - apply quiet_ret.
  - apply quiet_ret.
  - apply quiet_ret.
  - apply quiet_map. eapply quiet_of; [apply strict_costs|reflexivity].
  - eapply quiet_of; [apply costs_con, costs_done|reflexivity].
  - unfold no_result. apply (quiet_map _ (fun _ => [])). eapply quiet_of; [apply nonzero_costs|reflexivity].
  - unfold no_result. apply (quiet_map _ (fun _ => [])). eapply quiet_of; [apply enforce_equal_costs|reflexivity].
Qed.

(** ** Whole programs: soundness *)
Lemma packed_eq bs : packed_bits bs = (compute_multipacking bs : list P).
Proof. rewrite compute_multipacking_eq. unfold packed_bits. apply map_ext. intros c. now rewrite le_value_le2z. Qed.
Lemma pick_num_of (rho : Var -> P) regs vals i a : Forall2 (reg_is rho) regs vals -> pick r_num regs i = Some a -> pick v_num vals i = Some (rho (an_var a)).
Proof. intros HF E. pose proof (is_num_of rho i regs vals HF) as H. rewrite E in H. destruct (pick v_num vals i); cbn [orel] in H; [|contradiction]. now rewrite H. Qed.

(** One statement, in a run of the key generator. *)
Lemma statement_shape (rho : Var -> P) w regs vals st (k : KState P) new k' : rho one_var = fone -> Forall2 (reg_is rho) regs vals ->
  run (ShapeCS P) (statement w regs st) k = Done (Ok new, k') -> sat rho (k_cons k') ->
  exists v e, step v vals st = Some e /\ Forall2 (reg_is rho) new (fst e) /\ k_inputs k' = k_inputs k + length (snd e) /\
    map (fun j => rho (Input (k_inputs k + j))) (seq 0 (length (snd e))) = snd e /\ exists cs, k_cons k' = k_cons k ++ cs.
Proof.
  intros H1 HF Hr Hs. destruct (outputs st) eqn:Ho.
  - destruct st; cbn [outputs] in Ho; try discriminate Ho; cbn [statement] in Hr.
    + destruct (pick r_num regs i) as [a|] eqn:Ea; cbn [have] in Hr; [|discriminate Hr]. pose proof (pick_num_of rho regs vals i a HF Ea) as Ev.
      unfold no_result in Hr. rewrite run_bindq in Hr. destruct (inputize_shape a k) as (k2 & cs & E & Hi & _ & Hc & HS). rewrite E in Hr. cbn [obind fst snd run] in Hr.
      injection Hr as <- <-. exists None. cbn [step]. rewrite Ev. cbn [opt]. eexists. split; [reflexivity|]. cbn [fst snd length seq map]. split; [constructor|].
      split; [lia|]. split; [|eauto]. rewrite Nat.add_0_r. f_equal. apply (HS rho H1). rewrite Hc in Hs. now apply sat_app in Hs.
    + pose proof (is_bits_of rho bits regs vals HF) as Hb. destruct (picks r_bit regs bits) as [l|] eqn:Ea; cbn [have] in Hr; [|discriminate Hr].
      destruct (picks v_bit vals bits) as [m|] eqn:Ev; cbn [orel] in Hb; [|contradiction].
      unfold no_result in Hr. rewrite run_bindq in Hr. destruct (pack_shape l k) as (k2 & cs & E & Hi & _ & Hc & HS). rewrite E in Hr. cbn [obind fst snd run] in Hr.
      injection Hr as <- <-. exists None. cbn [step]. rewrite Ev. cbn [opt]. eexists. split; [reflexivity|]. cbn [fst snd]. split; [constructor|].
      assert (Hd : Forall2 (den rho) l m) by (eapply Forall2_impl; [|exact Hb]; intros ? ?; apply den_bit_is).
      rewrite packed_eq. split; [|split; [|eauto]].
      * rewrite Hi, compute_multipacking_eq, map_length, Multipack.chunks_length by apply capacity_pos. now rewrite (Forall2_length _ _ _ Hb).
      * apply (proj1 (HS rho m H1 Hd)). rewrite Hc in Hs. now apply sat_app in Hs.
  - destruct (shape_emits _ _ _ _ Hr) as (cs & He & Hc). rewrite Hc in Hs. apply sat_app in Hs as [_ Hs].
    destruct (wpS_emits rho _ _ _ _ (statement_sound rho H1 w regs vals st Ho HF) He Hs) as (v & nv & E & Hn).
    exists v, (nv, []). split; [exact E|]. cbn [fst snd length seq map]. split; [exact Hn|]. split; [|split; [reflexivity|eauto]].
    destruct (statement_quiet w regs st Ho) as (x & Q & Hx & HC). destruct (shape_spends _ _ _ _ Hr) as (y & Hy & _ & _ & Hi & _).
    destruct (HC _ _ Hy) as [-> _]. lia.
Qed.
Lemma shape_grows {A} (p : prog P A) k r k' : run (ShapeCS P) p k = Done (r, k') -> exists cs, k_cons k' = k_cons k ++ cs.
Proof. intros H. destruct (shape_emits _ _ _ _ H) as (cs & _ & E). eauto. Qed.

Lemma seq_from (a n : nat) : seq a n = map (fun j => a + j) (seq 0 n).
Proof.
  revert a. induction n as [|n IH]; intros a; [reflexivity|]. cbn [seq map]. f_equal; [lia|]. rewrite IH, <- seq_shift, map_map. apply map_ext. intros; lia.
Qed.
(** Which values those are. *)
Definition chosen (st : stmt P) : bool := match st with SBit | SAllocated | SUnless _ | SNum | SWord | SLong => true | _ => false end.
Lemma step_any v v' vals (st : stmt P) : chosen st = false -> step v vals st = step v' vals st.
Proof. destruct st; intros A; try reflexivity; discriminate A. Qed.
Lemma alloc_loop_shape (f : nat -> option bool -> prog P (res Boolean)) (Hf : forall i (k : KState P), exists k', run (ShapeCS P) (f i None) k = Done (Ok (BIs {| ab_var := Aux (k_aux k); ab_value := None |}), k') /\ k_aux k' = S (k_aux k)) n :
  forall i (k : KState P) r k', run (ShapeCS P) (mapq f i (repeat None n)) k = Done (Ok r, k') -> r = map (fun j => BIs {| ab_var := Aux (k_aux k + j); ab_value := None |}) (seq 0 n).
Proof.
  induction n as [|n IH]; intros i k r k' H; cbn [repeat mapq] in H; [injection H as <- <-; reflexivity|].
  rewrite run_bindq in H. destruct (Hf i k) as (k2 & E & Ek). rewrite E in H. cbn [obind fst snd] in H. rewrite run_bindq in H.
  destruct (run (ShapeCS P) (mapq f (S i) (repeat None n)) k2) as [[[t|er] k3]|] eqn:E3; cbn [obind fst snd run] in H; try discriminate H. injection H as <- <-.
  rewrite (IH _ _ _ _ E3), Ek. cbn [seq map]. rewrite Nat.add_0_r. f_equal. rewrite <- seq_shift, map_map. apply map_ext. intros j. now rewrite Nat.add_succ_r.
Qed.
Lemma alloc_one n (k : KState P) : exists k', run (ShapeCS P) (let* b := ns n (ab_alloc None) in Ret (Ok (BIs b))) k = Done (Ok (BIs {| ab_var := Aux (k_aux k); ab_value := None |}), k') /\ k_aux k' = S (k_aux k).
Proof. eexists. split; [reflexivity|reflexivity]. Qed.
Lemma word_shape (k : KState P) r k' : run (ShapeCS P) (u_alloc None) k = Done (Ok r, k') -> u_bits r = map (fun j => BIs {| ab_var := Aux (k_aux k + j); ab_value := None |}) (seq 0 32).
Proof.
  unfold u_alloc. rewrite run_bindq. match goal with |- context [run (ShapeCS P) (mapq ?f ?i ?l) ?k] => destruct (run (ShapeCS P) (mapq f i l) k) as [[[t|er] k3]|] eqn:E end;
    cbn [obind fst snd run]; intros H; try discriminate H. injection H as <- <-. cbn [u_bits]. eapply alloc_loop_shape; [|exact E]. intros i k1. apply alloc_one.
Qed.
Lemma long_shape (k : KState P) r k' : run (ShapeCS P) (u64_into_boolean_vec_le None) k = Done (Ok r, k') -> r = map (fun j => BIs {| ab_var := Aux (k_aux k + j); ab_value := None |}) (seq 0 64).
Proof. unfold u64_into_boolean_vec_le. apply alloc_loop_shape. intros i k1. apply alloc_one. Qed.
Lemma is_set_fb (rho : Var -> P) v b : rho v = fbit b -> is_set rho v = b.
Proof.
  unfold is_set. intros ->. destruct b; cbn [fbit].
  - destruct (feqb_spec (fone : P) fzero) as [X|X]; [now apply f_1_neq_0 in X|reflexivity].
  - destruct (feqb_spec (fzero : P) fzero) as [X|X]; [reflexivity|contradiction].
Qed.
Lemma read_bits (rho : Var -> P) (a0 n : nat) z : fits_in n z = true ->
  Forall2 (reg_is rho) (map RBit (map (fun j => BIs {| ab_var := Aux (a0 + j); ab_value := None |}) (seq 0 n))) (map VBit (bits_of n z)) ->
  le_value (map (fun i => is_set rho (Aux (a0 + i))) (seq 0 n)) = z.
Proof.
  intros Hz HF. unfold fits_in in Hz. rewrite andb_true_iff, Z.leb_le, Z.ltb_lt in Hz.
  assert (E : map (fun i => is_set rho (Aux (a0 + i))) (seq 0 n) = bits_of n z).
  { revert HF. generalize (bits_of n z) as l. generalize (seq 0 n) as s0. induction s0 as [|j s0 IH]; intros [|b l] HF; inversion_clear HF as [|? ? ? ? Hb Ht]; [reflexivity|]. cbn [map]. f_equal; [|now apply IH].
    apply is_set_fb. exact Hb. }
  rewrite E, le_value_le2z, bits_of_z2le. apply le2z_z2le_small. exact Hz.
Qed.
Lemma statement_choice (rho : Var -> P) regs vals st (k : KState P) new k' v e :
  run (ShapeCS P) (statement None regs st) k = Done (Ok new, k') -> step v vals st = Some e -> Forall2 (reg_is rho) new (fst e) -> step (choice rho k st) vals st = Some e.
Proof.
  intros Hr E HF. destruct (chosen st) eqn:Hc; [|rewrite (step_any _ v vals st Hc); exact E]. destruct st; try discriminate Hc; clear Hc.
  - cbn [step] in E. destruct v as [[b|b|x|x|x]|]; cbn [opt v_bit] in E; try discriminate E. apply Some_eq in E. rewrite E in *. cbn [fst] in HF.
    unfold statement, new_bit, ab_alloc, cs_alloc, cs_enforce, bindq in Hr. cbn in Hr. injection Hr as <- <-. inversion_clear HF as [|? ? ? ? Hb _]. cbn [choice step opt v_bit].
    rewrite (is_set_fb rho (Aux (k_aux k)) b Hb). reflexivity.
  - cbn [step] in E. destruct v as [[b|b|x|x|x]|]; cbn [opt v_num] in E; try discriminate E. apply Some_eq in E. rewrite E in *. cbn [fst] in HF.
    unfold statement, new_num, an_alloc, cs_alloc, bindq in Hr. cbn in Hr. injection Hr as <- <-. inversion_clear HF as [|? ? ? ? Hb _]. cbn [choice step opt v_num].
    replace (rho (Aux (k_aux k))) with x by (symmetry; exact Hb). reflexivity.
  - cbn [step] in E. destruct v as [[b|b|x|x|x]|]; cbn [opt v_bit] in E; try discriminate E. apply Some_eq in E. rewrite E in *. cbn [fst] in HF.
    unfold statement, new_abit, ab_alloc, cs_alloc, cs_enforce, bindq in Hr. cbn in Hr. injection Hr as <- <-. inversion_clear HF as [|? ? ? ? Hb _]. cbn [choice step opt v_bit].
    rewrite (is_set_fb rho (Aux (k_aux k)) b Hb). reflexivity.
  - cbn [step] in E. destruct v as [[b|b|x|x|x]|]; cbn [opt v_bit] in E; try discriminate E. destruct (pick v_abit vals i) as [x|] eqn:Ex; cbn [opt] in E; [|discriminate E].
    destruct (negb (x && b)) eqn:G; cbn [guard] in E; [|discriminate E]. apply Some_eq in E. rewrite E in *. cbn [fst] in HF. cbn [statement] in Hr.
    destruct (pick r_abit regs i) as [a|]; cbn [have] in Hr; [|discriminate Hr].
    unfold new_abit, ab_alloc_conditionally, cs_alloc, cs_enforce, bindq in Hr. cbn in Hr. injection Hr as <- <-. inversion_clear HF as [|? ? ? ? Hb _]. cbn [choice step opt v_bit].
    rewrite (is_set_fb rho (Aux (k_aux k)) b Hb), Ex. cbn [opt]. rewrite G. reflexivity.
  - cbn [step] in E. destruct v as [[b|b|x|x|z]|]; cbn [opt v_int] in E; try discriminate E. destruct (fits_in 32 z) eqn:Ez; cbn [guard] in E; [|discriminate E]. apply Some_eq in E. rewrite E in *. cbn [fst] in HF.
    cbn [statement given_int] in Hr. unfold new_word in Hr. rewrite run_bindq in Hr. destruct (run (ShapeCS P) (u_alloc None) k) as [[[t|er] k3]|] eqn:E3; cbn [obind fst snd run] in Hr; try discriminate Hr.
    injection Hr as <- <-. unfold into_bits in HF. rewrite (word_shape _ _ _ E3) in HF. cbn [choice step opt v_int]. rewrite (read_bits rho _ 32 z Ez HF), Ez. reflexivity.
  - cbn [step] in E. destruct v as [[b|b|x|x|z]|]; cbn [opt v_int] in E; try discriminate E. destruct (fits_in 64 z) eqn:Ez; cbn [guard] in E; [|discriminate E]. apply Some_eq in E. rewrite E in *. cbn [fst] in HF.
    cbn [statement given_int] in Hr. unfold new_bits in Hr. rewrite run_bindq in Hr. destruct (run (ShapeCS P) (u64_into_boolean_vec_le None) k) as [[[t|er] k3]|] eqn:E3; cbn [obind fst snd run] in Hr; try discriminate Hr.
    injection Hr as <- <-. rewrite (long_shape _ _ _ E3) in HF. cbn [choice step opt v_int]. rewrite (read_bits rho _ 64 z Ez HF), Ez. reflexivity.
Qed.
Lemma compile_sound (rho : Var -> P) : rho one_var = fone -> forall code i regs vals (k : KState P) r k', Forall2 (reg_is rho) regs vals ->
  run (ShapeCS P) (compile [] i regs code) k = Done (Ok r, k') -> sat rho (k_cons k') ->
  exists outs, meaning (choices rho k regs code) vals code = Some outs /\ k_inputs k' = k_inputs k + length outs /\
    map (fun j => rho (Input (k_inputs k + j))) (seq 0 (length outs)) = outs.
Proof.
  intros H1. induction code as [|st code IH]; intros i regs vals k r k' HF Hr Hs; cbn [compile] in Hr.
  - injection Hr as <- <-. exists []. split; [reflexivity|]. split; [cbn; lia|reflexivity].
  - rewrite run_bindq, run_ns_s in Hr. cbn [hd tl] in Hr. cbn [choices]. destruct (run (ShapeCS P) (statement None regs st) k) as [[[new|e] k2]|] eqn:E; cbn [obind fst snd run] in Hr; try discriminate Hr.
    destruct (shape_grows _ _ _ _ Hr) as [cs Hc]. assert (Hs2 : sat rho (k_cons k2)) by (rewrite Hc in Hs; now apply sat_app in Hs).
    destruct (statement_shape rho _ _ vals _ _ _ _ H1 HF E Hs2) as (v & e & Es & Hn & Hi & Hm & _).
    destruct (IH _ _ (vals ++ fst e) _ _ _ (Forall2_app HF Hn) Hr Hs) as (outs & Eo & Hi' & Hm').
    exists (snd e ++ outs). cbn [meaning hd tl]. rewrite (statement_choice rho _ _ _ _ _ _ _ _ E Es Hn). cbn [opt]. rewrite Eo. cbn [opt]. split; [reflexivity|]. rewrite app_length. split; [lia|].
    rewrite seq_app, map_app. f_equal; [exact Hm|]. rewrite <- Hm' at 2. rewrite Hi, (seq_from (0 + _)), map_map. cbn [Nat.add]. apply map_ext. intros j.
    now rewrite Nat.add_assoc.
Qed.

(** ** Whole programs: completeness *)
Lemma compile_complete (rho : Var -> P) : rho one_var = fone -> 64 <= num_bits P -> forall code w i regs vals outs, Forall2 (reg_hon rho) regs vals ->
  meaning w vals code = Some outs -> wpC rho (compile w i regs code) (isOk (fun _ => True)).
Proof.
  intros H1 H64. induction code as [|st code IH]; intros w i regs vals outs HF E; cbn [compile meaning] in *; [exact I|].
  destruct (step (hd None w) vals st) as [e|] eqn:Es; cbn [opt] in E; [|discriminate E].
  destruct (meaning (tl w) (vals ++ fst e) code) as [o|] eqn:Eo; cbn [opt] in E; [|discriminate E].
  eapply wpC_bindq'; [apply wpC_ns, (statement_complete rho H1 H64 _ _ _ _ _ Es HF)|]. cbv beta. intros new Hn. eapply IH; [|exact Eo]. now apply Forall2_app.
Qed.
Lemma circuit_complete (rho : Var -> P) code w outs : rho one_var = fone -> 64 <= num_bits P -> meaning w [] code = Some outs -> wpC rho (circuit w code) (isOk (fun _ => True)).
Proof. intros H1 H64 E. unfold circuit. eapply wpC_bindq'; [eapply compile_complete; eauto|]. intros r _. exact I. Qed.

Lemma step_quiet v vals (st : stmt P) e : outputs st = false -> step v vals st = Some e -> snd e = [].
Proof.
  intros Ho E. destruct st; cbn [outputs step] in *; try discriminate Ho; unfold guard, opt in E;
    repeat match type of E with context [match ?x with _ => _ end] => destruct x; try discriminate E end; apply Some_eq in E; rewrite E; reflexivity.
Qed.
Lemma inputize_inputs (a : AllocatedNum P) x (s : PState P) r s' : an_value a = Some x -> run (HonestCS P) (an_inputize a) s = Done (r, s') -> p_inputs s' = p_inputs s ++ [x].
Proof. intros Ha. unfold an_inputize, cs_alloc_input, cs_enforce, bindq. rewrite Ha. cbn. intros E. injection E as <- <-. reflexivity. Qed.
Lemma pack_inputs bits bs (s : PState P) r s' : Forall2 (fun b x => b_value b = Some x) bits bs -> run (HonestCS P) (pack_into_inputs bits) s = Done (r, s') ->
  p_inputs s' = p_inputs s ++ packed_bits bs.
Proof.
  intros HF E. unfold pack_into_inputs in E. destruct (pack_loop_honest _ _ (Forall2_chunks _ (capacity P) _ _ capacity_pos HF) 0 s) as (s2 & cs & E2 & Hi & _).
  rewrite E2 in E. injection E as _ <-. rewrite Hi, packed_eq, compute_multipacking_eq. reflexivity.
Qed.
Lemma statement_outputs (rho : Var -> P) w regs vals st e (s : PState P) new s' : rho one_var = fone -> step w vals st = Some e -> Forall2 (reg_hon rho) regs vals ->
  run (HonestCS P) (statement w regs st) s = Done (Ok new, s') -> p_inputs s' = p_inputs s ++ snd e.
Proof.
  intros H1 E HF Hr. destruct (outputs st) eqn:Ho.
  - destruct st; cbn [outputs] in Ho; try discriminate Ho; cbn [statement step] in Hr, E.
    + destruct (pick v_num vals i) as [x|] eqn:Ev; cbn [opt] in E; [|discriminate E]. apply Some_eq in E. rewrite E. cbn [snd]. destruct (hon_num_of rho _ _ _ _ HF Ev) as (a & Ea & _ & Hv).
      rewrite Ea in Hr. cbn [have] in Hr. unfold no_result in Hr. rewrite run_bindq in Hr. destruct (run (HonestCS P) (an_inputize a) s) as [[[[]|er] s2]|] eqn:E2; cbn [obind fst snd run] in Hr; try discriminate Hr.
      injection Hr as <- <-. exact (inputize_inputs _ _ _ _ _ Hv E2).
    + destruct (picks v_bit vals bits) as [x|] eqn:Ev; cbn [opt] in E; [|discriminate E]. apply Some_eq in E. rewrite E. cbn [snd]. destruct (hon_bits_of rho _ _ _ _ HF Ev) as (a & Ea & Hv).
      rewrite Ea in Hr. cbn [have] in Hr. unfold no_result in Hr. rewrite run_bindq in Hr. destruct (run (HonestCS P) (pack_into_inputs a) s) as [[[[]|er] s2]|] eqn:E2; cbn [obind fst snd run] in Hr; try discriminate Hr.
      injection Hr as <- <-. eapply pack_inputs; [|exact E2]. eapply Forall2_impl; [|exact Hv]. intros b y [_ H]. exact H.
  - rewrite (step_quiet _ _ _ _ Ho E), app_nil_r. destruct (statement_quiet w regs st Ho) as (x & Q & Hx & HC).
    pose proof (honest_counts _ _ _ HC _ _ _ Hr) as (_ & Hi & _). destruct (honest_extends _ _ _ _ Hr) as ([l Hl] & _). rewrite Hl in *. rewrite app_length in Hi.
    destruct l; [apply app_nil_r|]. cbn [length] in Hi. lia.
Qed.
Lemma compile_outputs (rho : Var -> P) : rho one_var = fone -> 64 <= num_bits P -> forall code w i regs vals outs (s : PState P) r s', Forall2 (reg_hon rho) regs vals ->
  meaning w vals code = Some outs -> run (HonestCS P) (compile w i regs code) s = Done (Ok r, s') -> agrees rho s' -> p_inputs s' = p_inputs s ++ outs.
Proof.
  intros H1 H64. induction code as [|st code IH]; intros w i regs vals outs s r s' HF E Hr Ha; cbn [compile meaning] in *.
  - apply Some_eq in E. injection Hr as <- <-. subst outs. now rewrite app_nil_r.
  - destruct (step (hd None w) vals st) as [e|] eqn:Es; cbn [opt] in E; [|discriminate E].
    destruct (meaning (tl w) (vals ++ fst e) code) as [o|] eqn:Eo; cbn [opt] in E; [|discriminate E]. apply Some_eq in E. subst outs.
    rewrite run_bindq, run_ns_h in Hr. destruct (run (HonestCS P) (statement (hd None w) regs st) s) as [[[new|er] s2]|] eqn:E2; cbn [obind fst snd run] in Hr; try discriminate Hr.
    assert (Ha2 : agrees rho s2) by (eapply agrees_extends; [exact (honest_extends _ _ _ _ Hr)|exact Ha]).
    destruct (wpC_honest _ rho _ _ _ _ E2 Ha2 (statement_complete rho H1 H64 _ _ _ _ _ Es HF)) as [Hn _]. cbn [isOk] in Hn.
    rewrite (IH _ _ _ _ _ _ _ _ (Forall2_app HF Hn) Eo Hr Ha), (statement_outputs rho _ _ _ _ _ _ _ _ H1 Es HF E2), app_assoc. reflexivity.
Qed.

(** The prover's run of a program that has a meaning, and the key generator's. *)
Lemma circuit_runs code w outs (s : PState P) : 64 <= num_bits P -> wf_state s -> meaning w [] code = Some outs ->
  exists s' cs, run (HonestCS P) (circuit w code) s = Done (Ok tt, s') /\ extends s s' /\ p_cons s' = p_cons s ++ cs /\ sat (asg s') cs /\ p_inputs s' = p_inputs s ++ outs /\
    forall w', run (ShapeCS P) (circuit w' code) (shape_of s) = Done (Ok tt, shape_of s').
Proof.
  intros H64 Hw E. destruct (Complete_of (circuit w code) s (fun _ _ => True) Hw (g_noeq (Gadget := circuit_gadget w code))) as (r & s' & cs & Hr & He & Hc & Hs & _).
  { intros rho _ H1. eapply circuit_complete; eauto. }
  destruct r. exists s', cs. split; [exact Hr|]. split; [exact He|]. split; [exact Hc|]. split; [exact Hs|]. split.
  - unfold circuit in Hr. rewrite run_bindq in Hr. destruct (run (HonestCS P) (compile w 0 [] code) s) as [[[r|er] s2]|] eqn:E2; cbn [obind fst snd run] in Hr; try discriminate Hr.
    injection Hr as <-. refine (compile_outputs (asg s2) _ H64 code w 0 [] [] outs s r s2 _ E E2 (agrees_asg s2)); [|constructor].
    eapply agrees_one; [exact Hw|]. eapply agrees_extends; [exact He|]. apply agrees_asg.
  - intros w'. destruct (SameShape_of (circuit w' code) (circuit w code) (fun _ _ => True) (g_prop (Gadget := circuit_gadget w code)) (circuit_sim code w' w) _ _ _ Hr) as ([] & Es & _). exact Es.
Qed.

(** ** Scope *)
Section Scope.
Variable K : Var -> Prop.
Hypothesis K1 : K one_var.
Definition kr (r : reg P) : Prop := match r with RBit b => kb K b | RABit a => ka K a | RNum a => kn K a | RLin n => knum K n end.
Lemma wpK_bind_ {A B} (p : prog P A) (g : A -> prog P B) Q : wpK K p (fun a => wpK K (g a) Q) -> wpK K (bind p g) Q.
Proof. induction p as [a| |n f k IH|n f k IH|n a b c k IH|n l r k IH|n k IH|k IH]; cbn; auto; try tauto; intros [X Y]; split; auto. Qed.
Lemma wpK_bindq_ {A B} (p : prog P (res A)) (g : A -> prog P (res B)) Q1 Q : wpK K p (okP Q1) -> (forall a, Q1 a -> wpK K (g a) (okP Q)) -> wpK K (bindq p g) (okP Q).
Proof. intros Hp Hg. unfold bindq. apply wpK_bind_. eapply wpK_mono; [|exact Hp]. intros [a|e]; cbn; auto. Qed.
Lemma pick_kb regs i b : Forall kr regs -> pick r_bit regs i = Some b -> kb K b.
Proof. unfold pick. intros H. destruct (nth_error regs i) as [r|] eqn:E; [|discriminate]. apply nth_error_In in E. rewrite Forall_forall in H. apply H in E. destruct r; cbn; try discriminate. intros [= <-]. exact E. Qed.
Lemma pick_kn regs i b : Forall kr regs -> pick r_num regs i = Some b -> kn K b.
Proof. unfold pick. intros H. destruct (nth_error regs i) as [r|] eqn:E; [|discriminate]. apply nth_error_In in E. rewrite Forall_forall in H. apply H in E. destruct r; cbn; try discriminate. intros [= <-]. exact E. Qed.
Lemma pick_ka regs i b : Forall kr regs -> pick r_abit regs i = Some b -> ka K b.
Proof. unfold pick. intros H. destruct (nth_error regs i) as [r|] eqn:E; [|discriminate]. apply nth_error_In in E. rewrite Forall_forall in H. apply H in E. destruct r; cbn; try discriminate. intros [= <-]. exact E. Qed.
Lemma pick_kl regs i b : Forall kr regs -> pick r_lin regs i = Some b -> knum K b.
Proof. unfold pick. intros H. destruct (nth_error regs i) as [r|] eqn:E; [|discriminate]. apply nth_error_In in E. rewrite Forall_forall in H. apply H in E. destruct r; cbn; try discriminate. intros [= <-]. exact E. Qed.
Lemma picks_kb regs is : Forall kr regs -> forall l, picks r_bit regs is = Some l -> Forall (kb K) l.
Proof.
  intros H. induction is as [|i is IH]; cbn [picks]; intros l E; [apply Some_eq in E; subst; constructor|].
  destruct (pick r_bit regs i) as [b|] eqn:Eb; [|discriminate E]. destruct (picks r_bit regs is) as [t|]; [|discriminate E]. apply Some_eq in E. subst l.
  constructor; [eapply pick_kb; eauto|apply IH; reflexivity].
Qed.
Lemma c_have {A B} (o : option A) (f : A -> prog P (res B)) Q : (forall a, o = Some a -> scop K (f a) Q) -> scop K (have o f) Q.
Proof. destruct o as [a|]; intros H; [exact (H a eq_refl)|exact I]. Qed.
Lemma lin_lck regs l : Forall kr regs -> forall acc lc, lck K acc -> lin_lc regs l acc = Some lc -> lck K lc.
Proof.
  intros HF. induction l as [|[c i] l IH]; intros acc lc Ha E; cbn [lin_lc] in E; [apply Some_eq in E; now subst|].
  destruct (nth_error regs i) as [r|] eqn:En; [|discriminate E]. apply nth_error_In in En. rewrite Forall_forall in HF. apply HF in En.
  destruct r; (eapply IH; [|exact E]); [apply lck_add_lc; [exact Ha|apply lck_b_lc; assumption]|apply lck_add_term; assumption|apply lck_add_term; assumption|apply lck_add_lc; [exact Ha|apply lck_add_scaled; [apply lck_zero|exact En]]].
Qed.
Lemma lin_of_lck regs l lc : Forall kr regs -> lin_of regs l = Some lc -> lck K lc.
Proof. intros HF. apply lin_lck; [exact HF|]. apply lck_add_term; [apply lck_zero|exact K1]. Qed.
Lemma map_kb l : Forall (kb K) l -> Forall kr (map RBit l). Proof. intros H. apply Forall_map. exact H. Qed.
Lemma ops_kw regs words ws ops : Forall kr regs -> all_some (map (picks r_bit regs) words) = Some ws ->
  all_some (map (fun w => done (from_bits w)) ws) = Some ops -> Forall (kw K) ops.
Proof.
  intros HF E. assert (Hw : Forall (Forall (kb K)) ws).
  { revert ws E. induction words as [|w words IH]; cbn [map all_some]; intros ws E; [apply Some_eq in E; subst; constructor|].
    destruct (picks r_bit regs w) as [l|] eqn:El; [|discriminate E]. destruct (all_some (map (picks r_bit regs) words)) as [t|]; [|discriminate E]. apply Some_eq in E. subst ws.
    constructor; [eapply picks_kb; eauto|apply IH; reflexivity]. }
  clear E. revert ops. induction Hw as [|w ws Hw _ IH]; cbn [map all_some]; intros ops E; [apply Some_eq in E; subst; constructor|].
  unfold from_bits at 1 in E. destruct (Nat.eqb_spec (length w) 32) as [L|L]; cbn [negb done] in E; [|discriminate E].
  destruct (all_some (map (fun w => done (from_bits w)) ws)) as [t|]; [|discriminate E]. apply Some_eq in E. subst ops. constructor; [split; [exact Hw|exact L]|]. apply IH. reflexivity.
Qed.
Lemma word_kw regs is w : Forall kr regs -> opt (picks r_bit regs is) (fun l => done (from_bits l)) = Some w -> kw K w.
Proof.
  intros HF E. destruct (picks r_bit regs is) as [l|] eqn:El; cbn [opt] in E; [|discriminate E]. apply (picks_kb _ _ HF) in El.
  unfold from_bits in E. destruct (Nat.eqb_spec (length l) 32) as [L|L]; cbn [done] in E; [|discriminate E]. apply Some_eq in E. subst w. split; [exact El|exact L].
Qed.
(** ... and unless it is [SNum], a statement constrains what it allocates. *)
Definition bare (st : stmt P) : bool := match st with SNum => true | _ => false end.
Lemma statement_scop w regs st : bare st = false -> Forall kr regs -> scop K (statement w regs st) (Forall kr).
Proof.
  intros HB HF. destruct st; cbn [statement];
    repeat match goal with |- scop _ (have _ _) _ => apply c_have; intros ? ? end;
    repeat match goal with
    | X : pick r_bit _ _ = Some _ |- _ => apply (pick_kb _ _ _ HF) in X
    | X : pick r_num _ _ = Some _ |- _ => apply (pick_kn _ _ _ HF) in X
    | X : picks r_bit _ _ = Some _ |- _ => apply (picks_kb _ _ HF) in X
    | X : pick r_abit _ _ = Some _ |- _ => apply (pick_ka _ _ _ HF) in X
    | X : pick r_lin _ _ = Some _ |- _ => apply (pick_kl _ _ _ HF) in X
    | X : opt (picks r_bit _ _) _ = Some _ |- _ => apply (word_kw _ _ _ HF) in X
    | X : lin_of _ _ = Some _ |- _ => apply (lin_of_lck _ _ _ HF) in X
    end; unfold new_bit, new_abit, new_bits, new_num, new_nums, new_lins, new_word, no_result.
  - eapply scop_bindq with (Q1 := kb K); [eapply scop_bindq; [apply ab_alloc_scop; exact K1|]; intros a Ha; exact Ha|]. intros a Ha. repeat constructor. exact Ha.
  - discriminate HB.
  - eapply scop_bindq; [apply ab_alloc_scop; exact K1|]. intros a Ha. repeat constructor. exact Ha.
  - eapply scop_bindq; [apply cond_scop; assumption|]. intros r Hr. repeat constructor. exact Hr.
  - eapply scop_bindq with (Q1 := ka K); [destruct g; cbn [ab_gate]; first [apply ab_xor_scop; assumption|apply ab_and_scop; assumption|apply ab_and_not_scop; assumption|apply ab_nor_scop; assumption]|].
    intros r Hr. repeat constructor. exact Hr.
  - repeat constructor. assumption.
  - repeat constructor.
  - repeat constructor. now apply kb_not.
  - eapply scop_bindq; [apply b_and_scop; assumption|]. intros r Hr. repeat constructor. exact Hr.
  - eapply scop_bindq; [apply b_xor_scop; assumption|]. intros r Hr. repeat constructor. exact Hr.
  - eapply scop_bindq; [apply b_ch_scop; assumption|]. intros r Hr. repeat constructor. exact Hr.
  - eapply scop_bindq; [apply b_maj_scop; assumption|]. intros r Hr. repeat constructor. exact Hr.
  - rename a into ws, a0 into ops. eapply scop_bindq with (Q1 := Forall (kb K)); [|intros r Hr; apply map_kb; exact Hr].
    eapply scop_bindq; [apply multieq_scop; try exact K1; apply addmany_scop; try exact K1; eapply ops_kw; eauto|]. intros r [Hr _]. exact Hr.
  - eapply scop_bindq; [apply u_alloc_scop; exact K1|]. intros r [Hr _]. apply map_kb; exact Hr.
  - eapply scop_bindq; [apply u64_scop; exact K1|]. intros r Hr. apply map_kb; exact Hr.
  - eapply scop_bindq; [apply u_xor_scop; assumption|]. intros r [Hr _]. apply map_kb; exact Hr.
  - eapply scop_bindq; [apply u_ch_scop; assumption|]. intros r [Hr _]. apply map_kb; exact Hr.
  - eapply scop_bindq; [apply u_maj_scop; assumption|]. intros r [Hr _]. apply map_kb; exact Hr.
  - apply scop_ret, map_kb. apply kw_rotr; assumption.
  - apply scop_ret, map_kb. apply kw_shr; assumption.
  - eapply scop_bindq; [apply sha256_block_scop; assumption|]. intros r Hr. apply map_kb; exact Hr.
  - eapply scop_bindq; [apply sha256_scop; assumption|]. intros r Hr. apply map_kb; exact Hr.
  - destruct (forallb is_byte personalization) eqn:Eb; [|exact I]. eapply scop_bindq; [apply blake2s_scop; try assumption|]. 
    + now apply is_byte_spec.
    + intros r Hr. apply map_kb; exact Hr.
  - eapply scop_bindq; [apply mul_scop; assumption|]. intros r Hr. repeat constructor. exact Hr.
  - eapply scop_bindq; [apply square_scop; assumption|]. intros r Hr. repeat constructor. exact Hr.
  - eapply scop_bindq; [apply reverse_scop; assumption|]. intros r [Hr Hr']. repeat constructor; assumption.
  - eapply scop_bindq; [apply lookup3_scop; [exact K1|repeat constructor; assumption]|]. intros r [Hr Hr']. repeat constructor; assumption.
  - eapply scop_bindq; [apply lookup3_neg_scop; [exact K1|repeat constructor; assumption]|]. intros r [Hr Hr']. repeat constructor; assumption.
  - constructor; [|constructor]. apply lck_zero.
  - constructor; [|constructor]. cbn [kr]. unfold knum. apply lck_add_var; [apply lck_zero|assumption].
  - constructor; [|constructor]. cbn [kr]. apply knum_add; assumption.
  - eapply scop_bindq; [apply strict_scop; assumption|]. intros r Hr. apply map_kb; exact Hr.
  - refine (conj _ (conj _ (conj _ _))); [assumption|assumption|assumption|constructor].
  - eapply scop_bindq; [apply nonzero_scop; assumption|]. intros r Hr. constructor.
  - eapply scop_bindq; [apply b_enforce_equal_scop; assumption|]. intros r Hr. constructor.
  - eapply scop_bindq; [apply inputize_scop; assumption|]. intros r Hr. constructor.
  - eapply scop_bindq; [apply pack_scop; assumption|]. intros r Hr. constructor.
Qed.
Lemma statement_wpK w regs st : Forall kr regs -> wpK K (statement w regs st) (okP (Forall kr)).
Proof.
  intros HF. destruct (bare st) eqn:Hb; [|apply scop_wpK, statement_scop; assumption]. destruct st; try discriminate Hb. cbn [statement]. unfold new_num.
  eapply wpK_bindq_; [apply an_alloc_wpK|]. intros a Ha. repeat constructor. exact Ha.
Qed.
Lemma compile_wpK code : forall w i regs, Forall kr regs -> wpK K (compile w i regs code) (okP (Forall kr)).
Proof.
  induction code as [|st code IH]; intros w i regs HF; cbn [compile]; [exact HF|]. eapply wpK_bindq_; [apply wpK_ns, statement_wpK; exact HF|].
  intros new Hn. apply IH. apply Forall_app. auto.
Qed.
Lemma circuit_wpK w code : wpK K (@circuit P w code) (okP (fun _ => True)).
Proof. unfold circuit. eapply wpK_bindq_; [apply compile_wpK; constructor|]. intros r _. exact I. Qed.
End Scope.
End P.
