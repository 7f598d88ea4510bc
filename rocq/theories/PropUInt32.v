(** Property theorems C20 and C21: 32-bit words (src/gadgets/uint32.rs). *)
From Coq Require Import String.
From Coq Require Import ZArith List Bool Lia.
From Verif Require Import Prelude PrimeField Zp Fields Circuit Loops BooleanGadget NumGadget MultiEq Spec UInt32 UInt32Proof SpecWord.
Import ListNotations.
Local Open Scope nat_scope.

(** * C20 *)

Theorem C20_constant (P : PrimeField) (rho : Var -> P) (v : Z) : (0 <= v < 2 ^ 32)%Z ->
  tracked (u_constant v) /\ u_value (u_constant v) = Some v /\ wden rho (u_constant v) v.
Proof.
  intros Hv. destruct (word_wden rho True _ v I (constant_word rho True v v Hv (fun _ => eq_refl))). auto.
Qed.
Print Assumptions C20_constant.

Theorem C20_alloc_sound (P : PrimeField) (v : option Z) : (forall z, v = Some z -> (0 <= z < 2 ^ 32)%Z) ->
  Sound (@u_alloc P v) (fun rho w => tracked w /\ u_value w = v /\ exists z, wden rho w z).
Proof.
  intros Hv rho r cs He H1 Hs.
  assert (Ho : only (okP (fun r => u_value r = v)) (@u_alloc P v)).
  { unfold u_alloc. eapply only_bindq; [apply only_true; intros [|]; exact I|]. reflexivity. }
  destruct (wpS_emits rho _ _ _ _ (wpS_only_and _ _ _ _ _ (u_alloc_sound rho H1 True v Hv) Ho) He Hs) as [[Ht (z & Hz & HF)] Hv'].
  split; [now apply tracked_tracks|]. split; [exact Hv'|].
  exists z. split; [exact Hz|]. rewrite bits_of_z2le. now apply den_bits.
Qed.
Print Assumptions C20_alloc_sound.

Theorem C20_alloc_complete (P : PrimeField) (s : PState P) (v : Z) : wf_state s -> (0 <= v < 2 ^ 32)%Z ->
  Complete (@u_alloc P (Some v)) s (fun rho w => wden rho w v /\ u_value w = Some v).
Proof.
  intros Hw Hv. apply Complete_of; [auto|apply (g_noeq (Gadget := u_alloc_gadget _))|]. intros rho Ha H1.
  eapply wpC_okmono; [|apply (u_alloc_complete rho H1 v Hv)]. intros w. apply hon_wden.
Qed.
Print Assumptions C20_alloc_complete.

(** Packing and unpacking bits, least or most significant first. *)
Theorem C20_into_bits (P : PrimeField) (rho : Var -> P) (w : UInt32) (z : Z) : wden rho w z ->
  Forall2 (den rho) (into_bits w) (bits_of 32 z) /\ Forall2 (den rho) (into_bits_be w) (rev (bits_of 32 z)).
Proof. intros [Hz HF]. split; [exact HF|]. unfold into_bits_be. now apply Forall2_rev. Qed.
Print Assumptions C20_into_bits.

Theorem C20_from_bits (P : PrimeField) (bits : list Boolean) : length bits = 32 ->
  exists w, from_bits bits = Done w /\ tracked w /\ into_bits w = bits /\
    (forall (rho : Var -> P) bs, Forall2 (den rho) bits bs -> wden rho w (le_value bs)) /\
    (forall bs, Forall2 (fun x b => b_value x = Some b) bits bs -> u_value w = Some (le_value bs)).
Proof.
  intros Hl. destruct (from_bits bits) as [w|] eqn:E; [|unfold from_bits in E; rewrite Hl in E; discriminate].
  exists w. destruct (from_bits_tracks _ _ E) as [Ht Hb]. split; [reflexivity|].
  split; [now apply tracked_tracks|]. split; [exact Hb|]. split.
  - intros rho bs HF. rewrite le_value_le2z. apply (word_wden rho True _ _ I).
    eapply from_bits_word; [exact E|]. now apply den_bits.
  - intros bs HF. rewrite from_bits_rev in E. unfold from_bits_be in E. rewrite rev_length, Hl in E. cbn [Nat.eqb] in E.
    inversion E; subst. cbn [u_value]. rewrite le_value_le2z, <- be2z_rev. apply from_bits_be_known; [rewrite rev_length; lia|].
    now apply Forall2_rev.
Qed.
Print Assumptions C20_from_bits.

Theorem C20_from_bits_be (P : PrimeField) (bits : list Boolean) : length bits = 32 ->
  exists w, from_bits_be bits = Done w /\ tracked w /\ into_bits_be w = bits /\
    (forall (rho : Var -> P) bs, Forall2 (den rho) bits bs -> wden rho w (be_value bs)) /\
    (forall bs, Forall2 (fun x b => b_value x = Some b) bits bs -> u_value w = Some (be_value bs)).
Proof.
  intros Hl. destruct (from_bits_be bits) as [w|] eqn:E; [|unfold from_bits_be in E; rewrite Hl in E; discriminate].
  exists w. destruct (from_bits_be_tracks _ _ E) as [Ht Hb]. split; [reflexivity|].
  split; [now apply tracked_tracks|]. split; [unfold into_bits_be; rewrite Hb; apply rev_involutive|]. split.
  - intros rho bs HF. rewrite be_value_be2z. apply (word_wden rho True _ _ I).
    eapply from_bits_be_word; [exact E|]. now apply den_bits.
  - intros bs HF. unfold from_bits_be in E. rewrite Hl in E. cbn [Nat.eqb] in E.
    inversion E; subst. cbn [u_value]. rewrite be_value_be2z. apply from_bits_be_known; [lia|]. exact HF.
Qed.
Print Assumptions C20_from_bits_be.

(** [assert_eq!(bits.len(), 32)] *)
Theorem C20_from_bits_panics (bits : list Boolean) : length bits <> 32 ->
  from_bits bits = Panicked /\ from_bits_be bits = Panicked.
Proof. intros H. unfold from_bits, from_bits_be. destruct (Nat.eqb_spec (length bits) 32); [contradiction|auto]. Qed.
Print Assumptions C20_from_bits_panics.

(** Rotation by any amount; the tracked value is rotated as well. *)
Theorem C20_rotr (P : PrimeField) (rho : Var -> P) (w : UInt32) (k : nat) (z : Z) : tracked w -> wden rho w z ->
  tracked (u_rotr w k) /\
  exists z', wden rho (u_rotr w k) z' /\ (u_value w = Some z -> u_value (u_rotr w k) = Some z') /\ (forall i, i < 32 -> bit_of z' i = bit_of z ((i + k) mod 32)).
Proof.
  intros Ht Hd. destruct (word_wden rho True _ _ I (rotr_word rho True w z k (wden_word rho w z Ht Hd True))) as [H1 H2].
  split; [exact H1|]. exists (rotr32 (k mod 32) z). split; [exact H2|]. split.
  - intros E. unfold u_rotr. cbn [u_value]. rewrite E. cbn [option_map]. f_equal.
    apply u32_rotate_right_spec; [apply Nat.lt_le_incl, Nat.mod_upper_bound; discriminate|apply Hd].
  - intros i Hi. apply rotr32_bit; [apply Hd|exact Hi].
Qed.
Print Assumptions C20_rotr.

(** Right shift.  The amount is taken modulo 32, so a shift by 32 is the identity. *)
Theorem C20_shr (P : PrimeField) (rho : Var -> P) (w : UInt32) (k : nat) (z : Z) : tracked w -> wden rho w z ->
  tracked (u_shr w k) /\ (u_value w = Some z -> u_value (u_shr w k) = Some (z / 2 ^ Z.of_nat (k mod 32))%Z) /\
  wden rho (u_shr w k) (z / 2 ^ Z.of_nat (k mod 32)).
Proof.
  intros Ht Hd. destruct (word_wden rho True _ _ I (shr_word rho True w z k (wden_word rho w z Ht Hd True))) as [H1 H2].
  split; [exact H1|]. split; [|exact H2]. intros E. unfold u_shr. cbn [u_value]. rewrite E. cbn [option_map].
  f_equal. apply Z.shiftr_div_pow2. lia.
Qed.
Print Assumptions C20_shr.

(** A word operation is bitwise [f]. *)
Definition bitwise2 (f : bool -> bool -> bool) (x y r : Z) : Prop :=
  forall i, i < 32 -> bit_of r i = f (bit_of x i) (bit_of y i).
Definition bitwise3 (f : bool -> bool -> bool -> bool) (x y z r : Z) : Prop :=
  forall i, i < 32 -> bit_of r i = f (bit_of x i) (bit_of y i) (bit_of z i).
Definition choose (x y z : bool) : bool := if x then y else z.
Definition majority (x y z : bool) : bool := Nat.leb 2 ((if x then 1 else 0) + (if y then 1 else 0) + (if z then 1 else 0)).

Theorem C20_xor_sound (P : PrimeField) (a b : UInt32) : tracked a -> tracked b ->
  Sound (@u_xor P a b) (fun rho r => forall x y, wden rho a x -> wden rho b y ->
    tracked r /\ exists z, wden rho r z /\ bitwise2 tt_xor x y z).
Proof.
  intros Ta Tb rho r cs He H1 Hs x y Hx Hy.
  destruct (word_wden rho True _ _ I (wpS_emits rho _ _ _ _ (u_xor_sound rho True a b x y
    (wden_word rho a x Ta Hx True) (wden_word rho b y Tb Hy True)) He Hs)) as [Tr Hr].
  split; [exact Tr|]. exists (Z.lxor x y). split; [exact Hr|]. intros i Hi. rewrite !bit_of_testbit, Z.lxor_spec.
  destruct (Z.testbit x _), (Z.testbit y _); reflexivity.
Qed.
Print Assumptions C20_xor_sound.

Theorem C20_xor_complete (P : PrimeField) (s : PState P) (a b : UInt32) (x y : Z) : wf_state s ->
  wden_known s a x -> wden_known s b y ->
  Complete (u_xor a b) s (fun rho r => exists z, wden rho r z /\ u_value r = Some z /\ bitwise2 tt_xor x y z).
Proof.
  intros Hw Hx Hy. apply Complete_of; [auto|apply (g_noeq (Gadget := u_xor_gadget a b))|]. intros rho Ha H1.
  eapply wpC_okmono; [|apply (u_xor_complete rho a b x y (wden_hon s rho a x Ha Hx) (wden_hon s rho b y Ha Hy))].
  cbv beta. intros w Hw'. destruct (hon_wden _ _ _ Hw'). exists (Z.lxor x y). split; [auto|]. split; [auto|].
  intros i Hi. rewrite !bit_of_testbit, Z.lxor_spec. destruct (Z.testbit x _), (Z.testbit y _); reflexivity.
Qed.
Print Assumptions C20_xor_complete.

Theorem C20_ch_sound (P : PrimeField) (a b c : UInt32) : tracked a -> tracked b -> tracked c ->
  Sound (@u_ch P a b c) (fun rho r => forall x y z, wden rho a x -> wden rho b y -> wden rho c z ->
    tracked r /\ exists v, wden rho r v /\ bitwise3 choose x y z v).
Proof.
  intros Ta Tb Tc rho r cs He H1 Hs x y z Hx Hy Hz.
  destruct (word_wden rho True _ _ I (wpS_emits rho _ _ _ _ (u_ch_sound rho H1 True a b c x y z
    (wden_word rho a x Ta Hx True) (wden_word rho b y Tb Hy True) (wden_word rho c z Tc Hz True)) He Hs)) as [Tr Hr].
  split; [exact Tr|]. exists (ch_fn x y z). split; [exact Hr|]. intros i Hi. apply ch_fn_bit. exact Hi.
Qed.
Print Assumptions C20_ch_sound.

Theorem C20_ch_complete (P : PrimeField) (s : PState P) (a b c : UInt32) (x y z : Z) : wf_state s ->
  wden_known s a x -> wden_known s b y -> wden_known s c z ->
  Complete (u_ch a b c) s (fun rho r => exists v, wden rho r v /\ u_value r = Some v /\ bitwise3 choose x y z v).
Proof.
  intros Hw Hx Hy Hz. apply Complete_of; [auto|apply (g_noeq (Gadget := u_ch_gadget a b c))|]. intros rho Ha H1.
  eapply wpC_okmono; [|apply (u_ch_complete rho H1 a b c x y z (wden_hon s rho a x Ha Hx) (wden_hon s rho b y Ha Hy)
    (wden_hon s rho c z Ha Hz))].
  cbv beta. intros w Hw'. destruct (hon_wden _ _ _ Hw'). exists (ch_fn x y z). split; [auto|]. split; [auto|].
  intros i Hi. now apply ch_fn_bit.
Qed.
Print Assumptions C20_ch_complete.

Theorem C20_maj_sound (P : PrimeField) (a b c : UInt32) : tracked a -> tracked b -> tracked c ->
  Sound (@u_maj P a b c) (fun rho r => forall x y z, wden rho a x -> wden rho b y -> wden rho c z ->
    tracked r /\ exists v, wden rho r v /\ bitwise3 majority x y z v).
Proof.
  intros Ta Tb Tc rho r cs He H1 Hs x y z Hx Hy Hz.
  destruct (word_wden rho True _ _ I (wpS_emits rho _ _ _ _ (u_maj_sound rho H1 True a b c x y z
    (wden_word rho a x Ta Hx True) (wden_word rho b y Tb Hy True) (wden_word rho c z Tc Hz True)) He Hs)) as [Tr Hr].
  split; [exact Tr|]. exists (maj_fn x y z). split; [exact Hr|]. intros i Hi.
  rewrite !bit_of_testbit, maj_fn_bit. destruct (Z.testbit x _), (Z.testbit y _), (Z.testbit z _); reflexivity.
Qed.
Print Assumptions C20_maj_sound.

Theorem C20_maj_complete (P : PrimeField) (s : PState P) (a b c : UInt32) (x y z : Z) : wf_state s ->
  wden_known s a x -> wden_known s b y -> wden_known s c z ->
  Complete (u_maj a b c) s (fun rho r => exists v, wden rho r v /\ u_value r = Some v /\ bitwise3 majority x y z v).
Proof.
  intros Hw Hx Hy Hz. apply Complete_of; [auto|apply (g_noeq (Gadget := u_maj_gadget a b c))|]. intros rho Ha H1.
  eapply wpC_okmono; [|apply (u_maj_complete rho H1 a b c x y z (wden_hon s rho a x Ha Hx) (wden_hon s rho b y Ha Hy)
    (wden_hon s rho c z Ha Hz))].
  cbv beta. intros w Hw'. destruct (hon_wden _ _ _ Hw'). exists (maj_fn x y z). split; [auto|]. split; [auto|].
  intros i Hi. rewrite !bit_of_testbit, maj_fn_bit. destruct (Z.testbit x _), (Z.testbit y _), (Z.testbit z _); reflexivity.
Qed.
Print Assumptions C20_maj_complete.

(** Examples: a word with a constant low half and an allocated high half (bits 16 and up are
    variables, odd ones negated). *)
Definition ex_word (P : PrimeField) (off : nat) (v : Z) : UInt32 :=
  {| u_bits := map (fun i => let b := bit_of v i in
       if Nat.ltb i 16 then BConst b
       else if Nat.even i then BIs {| ab_var := Aux (off + (i - 16)); ab_value := Some b |}
       else BNot {| ab_var := Aux (off + (i - 16)); ab_value := Some (negb b) |}) (seq 0 32);
     u_value := Some v |}.
Definition ex_aux (v : Z) : list Z :=
  map (fun i => let b := bit_of v i in Z.b2z (if Nat.even i then b else negb b)) (seq 16 16).
Definition ex_wstate (P : PrimeField) (vs : list Z) : PState P :=
  {| p_inputs := [ofZ 1]; p_aux := map ofZ (concat (map ex_aux vs)); p_cons := [] |}.
Definition w_out {P : PrimeField} (s : PState P) (w : UInt32) : list Z :=
  [toZ (eval (asg s) (fst (fold_left add_bit_step (u_bits w) (lc_zero, fone)))); match u_value w with Some v => v | None => (-1)%Z end].
Definition wex_run {P : PrimeField} {A} (p : prog P (res A)) (s : PState P) (out : PState P -> A -> list Z)
  : option (list Z * nat * bool) :=
  match run (HonestCS P) p s with
  | Done (Ok r, s') => Some (out s' r, length (p_cons s'), satb (asg s') (p_cons s'))
  | _ => None
  end.

Definition ex_x : Z := 0xdeadbeef. Definition ex_y : Z := 0x12345678. Definition ex_z : Z := 0xcafef00d.
Example C20_ex_inputs : tracked (ex_word Goldilocks 0 ex_x) /\
  wden_known (ex_wstate Goldilocks [ex_x; ex_y; ex_z]) (ex_word Goldilocks 16 ex_y) ex_y.
Proof.
  split.
  - split; [reflexivity|]. intros v E. inversion E; subst. split; [unfold ex_x; lia|].
    intros i x b Ei Eb. do 32 (destruct i as [|i]; [inversion Ei; subst; inversion Eb; reflexivity|]). destruct i; discriminate.
  - split; [unfold ex_y; lia|]. split; [|reflexivity]. unfold ex_word, bits_of. cbn [u_bits map seq].
    repeat (constructor; [repeat split; cbn; unfold known; cbn; try lia; reflexivity|]). constructor.
Qed.
Example C20_ex :
  wex_run (u_xor (ex_word Goldilocks 0 ex_x) (u_rotr (ex_word Goldilocks 16 ex_y) 40)) (ex_wstate Goldilocks [ex_x; ex_y; ex_z]) w_out
    = Some ([0xa6bf8ab9; 0xa6bf8ab9]%Z, 8, true) /\
  wex_run (u_ch (ex_word Goldilocks 0 ex_x) (ex_word Goldilocks 16 ex_y) (u_shr (ex_word Goldilocks 32 ex_z) 4)) (ex_wstate Goldilocks [ex_x; ex_y; ex_z]) w_out
    = Some ([0x12265768; 0x12265768]%Z, 16, true) /\
  wex_run (u_maj (ex_word Goldilocks 0 ex_x) (ex_word Goldilocks 16 ex_y) (ex_word Goldilocks 32 ex_z)) (ex_wstate Goldilocks [ex_x; ex_y; ex_z]) w_out
    = Some ([0xdabcf66d; 0xdabcf66d]%Z, 32, true).
Proof. repeat split; vm_compute; reflexivity. Qed.

(** * C21 *)

Fixpoint sum_z (l : list Z) : Z := match l with [] => 0 | z :: t => z + sum_z t end%Z.

(** Inside a MultiEq: in every assignment satisfying the direct constraints, the equality requests are
    in range (so that C19 applies), and if the requested equalities hold the result is the sum. *)
Theorem C21_addmany_sound (P : PrimeField) (ops : list UInt32) (zs : list Z) (rho : Var -> P) (r : UInt32) cs eqs :
  emits (addmany ops) (Ok r) cs eqs -> rho one_var = 1%F -> sat rho cs ->
  Forall tracked ops -> Forall2 (wden rho) ops zs ->
  Forall (in_range rho) eqs /\ (Forall (equal rho) eqs -> tracked r /\ wden rho r (sum_z zs mod 2 ^ 32)).
Proof.
  intros He H1 Hs HT HF.
  apply (wpS_in_scope rho (addmany ops) (fun r => tracked r /\ wden rho r (sum_z zs mod 2 ^ 32)) r cs eqs); auto. intros G.
  eapply wpS_okmono; [|exact (addmany_sound rho G ops zs H1 (words_word rho ops zs HT HF G))].
  cbv beta. intros w Hw g. exact (word_wden rho G w _ g Hw).
Qed.
Print Assumptions C21_addmany_sound.

(** As a whole gadget, with the MultiEq around it. *)
Theorem C21_addmany_scope (P : PrimeField) (ops : list UInt32) : Forall tracked ops ->
  Sound (multieq_scope (@addmany P ops)) (fun rho r => forall zs, Forall2 (wden rho) ops zs ->
    tracked r /\ wden rho r (sum_z zs mod 2 ^ 32)).
Proof.
  intros HT rho r cs He H1 Hs zs HF.
  destruct (multieq_scope_emits _ _ _ He) as (cs0 & eqs & [Hem _] & H3). destruct (H3 rho H1) as (Ha & Hb & Hc).
  destruct (C21_addmany_sound P ops zs rho r cs0 eqs Hem H1) as [HR HE]; auto.
  apply HE. apply equal_req. apply Ha; auto. now apply in_range_req.
Qed.
Print Assumptions C21_addmany_scope.

Theorem C21_addmany_complete (P : PrimeField) (s : PState P) (ops : list UInt32) (zs : list Z) : wf_state s ->
  64 <= num_bits P -> 2 <= length ops <= 10 -> Forall2 (wden_known s) ops zs ->
  Complete (multieq_scope (addmany ops)) s (fun rho r =>
    wden rho r (sum_z zs mod 2 ^ 32) /\ u_value r = Some (sum_z zs mod 2 ^ 32)%Z).
Proof.
  intros Hw H64 Hl HF. apply Complete_of; [auto|apply noeq_scope|]. intros rho Ha H1. apply wpC_multieq; [exact H1|].
  eapply wpC_okmono; [|exact (addmany_complete rho ops zs H1 H64 Hl (words_hon s rho ops zs Ha HF))].
  intros w. apply hon_wden.
Qed.
Print Assumptions C21_addmany_complete.

(** [assert!(Scalar::NUM_BITS >= 64)], [assert!(operands.len() >= 2)], [assert!(operands.len() <= 10)] *)
Theorem C21_addmany_panics (P : PrimeField) (ops : list UInt32) :
  num_bits P < 64 \/ length ops < 2 \/ 10 < length ops -> addmany ops = @Panic P _.
Proof.
  unfold addmany. destruct (Nat.leb_spec 64 (num_bits P)); [|reflexivity].
  destruct (Nat.leb_spec 2 (length ops)); [|reflexivity]. destruct (Nat.leb_spec (length ops) 10); [|reflexivity]. lia.
Qed.
Print Assumptions C21_addmany_panics.

(** Three words, two of them partly variable: 34 result bits, one packed equality. *)
Example C21_ex :
  wex_run (multieq_scope (addmany [ex_word Goldilocks 0 ex_x; ex_word Goldilocks 16 ex_y; u_constant ex_z])) (ex_wstate Goldilocks [ex_x; ex_y]) w_out
    = Some ([0xbbe10574; 0xbbe10574]%Z, 35, true) /\
  wex_run (multieq_scope (addmany [u_constant ex_x; u_constant ex_y])) (ex_wstate Goldilocks []) w_out
    = Some ([0xf0e21567; 0xf0e21567]%Z, 0, true) /\
  run (HonestCS Goldilocks) (multieq_scope (addmany [u_constant ex_x])) (ex_wstate Goldilocks []) = Panicked.
Proof. repeat split; vm_compute; reflexivity. Qed.
