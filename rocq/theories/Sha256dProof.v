(** Facts about the example circuit of the crate documentation (Sha256d.v). *)
From Coq Require Import String.
From Coq Require Import ZArith List Bool Lia Field.
From Verif Require Import Prelude PrimeField Circuit Loops BooleanGadget NumGadget Multipack MultiEq Spec UInt32 UInt32Proof WordLogic Sha256Spec Sha256 Sha256Proof
  Assembly PropAssembly Mimc Cost CostSpec CostProof CostRun Scope Sha256d.
Import Circuit.
Import ListNotations.
Local Open Scope nat_scope.

(** ** Bytes and bits *)
Lemma chunks_flat {A B} n (f : A -> list B) l : 0 < n -> (forall x, length (f x) = n) -> chunks n (flat_map f l) = map f l.
Proof.
  intros Hn Hf. induction l as [|x l IH]; [reflexivity|]. cbn [flat_map map].
  rewrite chunks_cons; [|exact Hn|intros E; apply (f_equal (@length B)) in E; rewrite app_length, Hf in E; cbn in E; lia].
  rewrite firstn_app, skipn_app, Hf, Nat.sub_diag, firstn_O, skipn_O, app_nil_r, firstn_all2, skipn_all2 by (rewrite Hf; lia). cbn [app]. now rewrite IH.
Qed.
Lemma flip_flat {A B} (f : A -> list B) l : (forall x, length (f x) = 8) -> flip (flat_map f l) = flat_map (fun x => rev (f x)) l.
Proof. intros Hf. unfold flip. rewrite chunks_flat by (auto; lia). induction l as [|x l IH]; [reflexivity|]. cbn [map flat_map]. now rewrite IH. Qed.
Lemma flip_length {A} (l : list A) : length (flip l) = length l.
Proof.
  unfold flip. induction l as [|l Hl IH] using (chunks_ind 8 ltac:(lia)); [reflexivity|]. rewrite chunks_cons by (auto; lia). cbn [flat_map].
  rewrite app_length, IH, rev_length, <- app_length, firstn_skipn. reflexivity.
Qed.
Lemma flip_rel {A B} (R : A -> B -> Prop) l m : Forall2 R l m -> Forall2 R (flip l) (flip m).
Proof.
  intros H. apply (Forall2_chunks R 8 l m ltac:(lia)) in H. unfold flip. induction H as [|x y l' m' Hx _ IH]; cbn [flat_map]; [constructor|].
  apply Forall2_app; [|exact IH]. now apply Forall2_rev.
Qed.
Lemma flip_Forall {A} (Q : A -> Prop) l : Forall Q l -> Forall Q (flip l).
Proof.
  intros H. unfold flip. induction l as [|l Hl IH] using (chunks_ind 8 ltac:(lia)); [constructor|]. rewrite chunks_cons by (auto; lia). cbn [flat_map].
  rewrite <- (firstn_skipn 8 l) in H. apply Forall_app in H as [H1 H2]. apply Forall_app. split; [now apply Forall_rev|auto].
Qed.

Lemma sha256_spec_len (m : list bool) : length (sha256_spec m) = 256.
Proof.
  unfold sha256_spec. set (H := fold_left _ _ _). unfold h_list. cbn [map concat]. unfold bits_of_word.
  rewrite !app_length, !map_length, !seq_length. reflexivity.
Qed.

Section P.
Context {P : PrimeField}.
Add Field PFsha256d : (F_field P).

(** ** The gadget *)
Lemma sha256d_hwp (L : HL P) data m : length data mod 8 = 0 -> Forall2 (hb L) data m ->
  hwp L (sha256d data) (fun r => Forall2 (hb L) r (flip (sha256_spec (sha256_spec (flip m))))).
Proof.
  intros Hl HF. unfold sha256d. eapply hwp_bindq.
  { apply hwp_ns. apply (sha256_hwp L (flip data) (flip m)); [now rewrite flip_length|now apply flip_rel]. }
  intros mid Hm. cbv beta in Hm. eapply hwp_bindq.
  { apply hwp_ns. apply (sha256_hwp L mid (sha256_spec (flip m))); [|exact Hm]. rewrite (Forall2_length _ _ _ Hm). rewrite sha256_spec_len. reflexivity. }
  intros r Hr. cbv beta in Hr. apply hwp_ret. now apply flip_rel.
Qed.
Lemma sha256d_gadget data : Gadget (@sha256d P data).
Proof. unfold sha256d. pose proof (@sha256_gadget P). gadget. Qed.
Lemma sha256d_sim data data' : Forall2 bsim data data' -> sim (@sha256d P data) (sha256d data') (resR (Forall2 bsim)).
Proof.
  intros HF. unfold sha256d. eapply sim_bindq; [apply sim_ns, sha256_sim, flip_rel; exact HF|]. intros mid mid' Hm.
  eapply sim_bindq; [apply sim_ns, sha256_sim; exact Hm|]. intros r r' Hr. cbn. now apply flip_rel.
Qed.

(** ** Allocating the bits *)
Definition fresh (a : nat) (vs : list (option bool)) : list Boolean :=
  map (fun x => BIs {| ab_var := Aux (fst x); ab_value := snd x |}) (combine (seq a (length vs)) vs).
Definition bit_con (i : nat) : Constraint P := (lc_sub_var (lc_add_var lc_zero one_var) (Aux i), lc_add_var lc_zero (Aux i), lc_zero).
Lemma fresh_cons a v vs : fresh a (v :: vs) = BIs {| ab_var := Aux a; ab_value := v |} :: fresh (S a) vs.
Proof. reflexivity. Qed.
Lemma fresh_length a vs : length (fresh a vs) = length vs.
Proof. unfold fresh. rewrite map_length, combine_length, seq_length. apply Nat.min_id. Qed.
Lemma fresh_sim vs : forall ws a, length vs = length ws -> Forall2 bsim (fresh a vs) (fresh a ws).
Proof.
  induction vs as [|v vs IH]; intros [|w ws] a Hl; try discriminate; [constructor|]. rewrite !fresh_cons. constructor; [reflexivity|]. apply IH. now injection Hl.
Qed.
Lemma fresh_vars vs : forall a, Forall (fun b => isvar b = true) (fresh a vs).
Proof. induction vs as [|v vs IH]; intros a; [constructor|]. rewrite fresh_cons. constructor; [reflexivity|apply IH]. Qed.

Definition one_bit (i : nat) (b : option bool) : prog P (res Boolean) :=
  bindq (ns (append "preimage bit " (nat_str i)) (ab_alloc b)) (fun a => Ret (Ok (BIs a))).
Lemma alloc_shape vs : forall i (k : KState P), run (ShapeCS P) (mapq one_bit i vs) k =
  Done (Ok (fresh (k_aux k) vs), {| k_inputs := k_inputs k; k_aux := k_aux k + length vs; k_cons := k_cons k ++ map bit_con (seq (k_aux k) (length vs)) |}).
Proof.
  induction vs as [|v vs IH]; intros i k.
  - cbn. rewrite Nat.add_0_r, app_nil_r. destruct k; reflexivity.
  - cbn [mapq]. rewrite run_bindq. unfold one_bit at 1.
    assert (E : run (ShapeCS P) (bindq (ns (append "preimage bit " (nat_str i)) (ab_alloc v)) (fun a => Ret (Ok (BIs a)))) k =
      Done (Ok (BIs {| ab_var := Aux (k_aux k); ab_value := v |}), {| k_inputs := k_inputs k; k_aux := S (k_aux k); k_cons := k_cons k ++ [bit_con (k_aux k)] |})) by reflexivity.
    rewrite E. cbn [obind fst snd]. rewrite run_bindq, IH. cbn [obind fst snd k_aux k_inputs k_cons run length seq map]. rewrite fresh_cons.
    do 2 f_equal. rewrite Nat.add_succ_r, <- app_assoc. reflexivity.
Qed.
Lemma alloc_honest bs : forall i (s : PState P), run (HonestCS P) (mapq one_bit i (map Some bs)) s =
  Done (Ok (fresh (length (p_aux s)) (map Some bs)),
        {| p_inputs := p_inputs s; p_aux := p_aux s ++ map fbit bs; p_cons := p_cons s ++ map bit_con (seq (length (p_aux s)) (length bs)) |}).
Proof.
  induction bs as [|b bs IH]; intros i s.
  - cbn. rewrite !app_nil_r. destruct s; reflexivity.
  - cbn [mapq map]. rewrite run_bindq. unfold one_bit at 1.
    assert (E : run (HonestCS P) (bindq (ns (append "preimage bit " (nat_str i)) (ab_alloc (Some b))) (fun a => Ret (Ok (BIs a)))) s =
      Done (Ok (BIs {| ab_var := Aux (length (p_aux s)); ab_value := Some b |}),
            {| p_inputs := p_inputs s; p_aux := p_aux s ++ [fbit b]; p_cons := p_cons s ++ [bit_con (length (p_aux s))] |})) by reflexivity.
    rewrite E. cbn [obind fst snd]. rewrite run_bindq, IH. cbn [obind fst snd p_aux p_inputs p_cons run length seq map]. rewrite app_length. cbn [length]. rewrite fresh_cons.
    rewrite Nat.add_1_r, <- !app_assoc. reflexivity.
Qed.
Lemma bit_con_holds (rho : Var -> P) i : rho one_var = fone -> holds rho (bit_con i) -> exists b, rho (Aux i) = fb b.
Proof.
  intros H1 H. unfold bit_con, holds in H. revert H. lcev. rewrite H1. intros H. destruct (isbit_of (rho (Aux i))) as [b Hb]; [|exists b; exact Hb].
  transitivity ((0 + 1 - rho (Aux i)) * (0 + rho (Aux i)))%F; [ring|exact H].
Qed.

(** ** What a run on the key generator's side emits *)
Lemma shape_emits {A} (p : prog P A) : forall k r k', run (ShapeCS P) p k = Done (r, k') -> exists cs, emits p r cs [] /\ k_cons k' = k_cons k ++ cs.
Proof.
  induction p as [a| |n f c IH|n f c IH|n a b d c IH|n l r c IH|n c IH|c IH]; intros k r0 k' H; cbn in H; try discriminate.
  - inversion H; subst. exists []. split; [constructor|]. now rewrite app_nil_r.
  - apply IH in H as (cs & He & Hk). exists cs. split; [econstructor; exact He|exact Hk].
  - apply IH in H as (cs & He & Hk). exists cs. split; [econstructor; exact He|exact Hk].
  - apply IH in H as (cs & He & Hk). cbn [k_cons] in Hk. exists ((a, b, d) :: cs). split; [constructor; exact He|]. now rewrite Hk, <- app_assoc.
  - apply IH in H as (cs & He & Hk). exists cs. split; [constructor; exact He|exact Hk].
  - apply IH in H as (cs & He & Hk). exists cs. split; [constructor; exact He|exact Hk].
Qed.

(** ** Cost *)
Definition sha256d_price (cap n : nat) : price := price_add (sha256_price cap (repeat true n)) (sha256_price cap (repeat true 256)).
Lemma flags_of (Q : Boolean -> bool) l b : Forall (fun x => Q x = b) l -> map Q l = repeat b (length l).
Proof. induction 1 as [|x l Hx _ IH]; [reflexivity|]. cbn [map length repeat]. now rewrite Hx, IH. Qed.
Lemma sha256d_costs_any data : costs (@sha256d P data)
  (pbill (price_add (sha256_price (capacity P) (map isvar (flip data))) (sha256_price (capacity P) (repeat (any (map isvar (flip data))) 256)))) (fun r => length r = 256).
Proof.
  unfold sha256d. rewrite pbill_add. eapply costs_bindq; [apply costs_ns, sha256_costs|].
  cbv beta. intros mid Hm. rewrite <- Hm. eapply costs_ret_bindq; [apply costs_ns, sha256_costs|]. cbv beta. intros r Hr. rewrite flip_length.
  apply (f_equal (@length bool)) in Hr. now rewrite map_length, repeat_length in Hr.
Qed.
Lemma sha256d_costs data : Forall (fun b => isvar b = true) data -> data <> [] ->
  costs (@sha256d P data) (pbill (sha256d_price (capacity P) (length data))) (fun r => length r = 256).
Proof.
  intros HF Hn. pose proof (sha256d_costs_any data) as H. rewrite (flags_of isvar _ _ (flip_Forall _ _ HF)), flip_length in H.
  destruct data as [|x data]; [congruence|]. cbn [length] in H. rewrite any_repeat in H. exact H.
Qed.

(** A bound for every capacity: an equality takes at most a constraint of its own. *)
Definition worst (x : fee) : Z := (fst x + Z.of_nat (length (snd x)) + 1)%Z.
Lemma groups_bound cap ws : forall used, (0 <= groups cap used ws <= Z.of_nat (length ws) + 1)%Z.
Proof.
  induction ws as [|w ws IH]; intros used; cbn [groups length]; [destruct (Nat.ltb 0 used); lia|].
  destruct (Nat.leb cap (used + w)); [specialize (IH w)|specialize (IH (used + w))]; lia.
Qed.
Lemma total_worst cap x : (CostSpec.p_cons (total cap x) <= worst x)%Z /\ p_vars (total cap x) = fst x.
Proof. unfold total, worst. cbn [CostSpec.p_cons p_vars]. pose proof (groups_bound cap (snd x) 0). split; [lia|reflexivity]. Qed.
Fixpoint worst_blocks (st : bool) (blocks : list (list bool)) : Z * Z :=
  match blocks with
  | [] => (0, 0)%Z
  | b :: t => let x := sha_block_fee st (sha_words b) in let y := worst_blocks (st || any b) t in (fst x + fst y, worst x + snd y)%Z
  end.
Lemma blocks_worst cap bl : forall st, p_vars (sha_blocks cap st bl) = fst (worst_blocks st bl) /\ (CostSpec.p_cons (sha_blocks cap st bl) <= snd (worst_blocks st bl))%Z.
Proof.
  induction bl as [|b bl IH]; intros st; [split; [reflexivity|cbn; lia]|]. cbn [sha_blocks worst_blocks]. cbv zeta. unfold price_add. cbn [p_vars CostSpec.p_cons fst snd].
  destruct (IH (st || any b)) as [I1 I2]. destruct (total_worst cap (sha_block_fee st (sha_words b))) as [T1 T2]. rewrite T2, I1. split; [reflexivity|lia].
Qed.
Definition sha256d_worst (n : nat) : Z * Z :=
  let x := worst_blocks false (chunks 512 (sha_pad_flags (repeat true n))) in let y := worst_blocks false (chunks 512 (sha_pad_flags (repeat true 256))) in
  (fst x + fst y, snd x + snd y)%Z.
Lemma sha256d_bound cap n : p_vars (sha256d_price cap n) = fst (sha256d_worst n) /\ (CostSpec.p_cons (sha256d_price cap n) <= snd (sha256d_worst n))%Z.
Proof.
  unfold sha256d_price, sha256d_worst, sha256_price, price_add. cbv zeta. cbn [p_vars CostSpec.p_cons fst snd].
  destruct (blocks_worst cap (chunks 512 (sha_pad_flags (repeat true n))) false) as [A B].
  destruct (blocks_worst cap (chunks 512 (sha_pad_flags (repeat true 256))) false) as [C D]. split; lia.
Qed.

(** ** The whole circuit *)
Definition rest (bits : list Boolean) : prog P (res unit) :=
  bindq (ns "SHA-256d(preimage)" (sha256d bits)) (fun hash => ns "pack hash" (pack_into_inputs hash)).
Lemma circuit_parts n pre : length (bit_values n pre) = n * 8 -> my_circuit n pre = bindq (mapq one_bit 0 (bit_values n pre)) rest.
Proof. intros H. unfold my_circuit. rewrite H, Nat.eqb_refl. reflexivity. Qed.
Lemma bits8 bytes : length (flat_map (fun byte => map (fun i => byte_bit byte i) (seq 0 8)) bytes) = length bytes * 8.
Proof. induction bytes as [|x l IH]; [reflexivity|]. cbn [flat_map]. rewrite app_length, IH, map_length, seq_length. cbn [length]. lia. Qed.
Lemma values_length n pre : match pre with Some bytes => length bytes = n | None => True end -> length (bit_values n pre) = n * 8.
Proof. destruct pre as [bytes|]; cbn [bit_values]; [intros <-; now rewrite map_length, bits8|intros _; apply repeat_length]. Qed.

Lemma run_ns M {A} n (p : prog P A) s : run M (ns n p) s = obind (m_push M s n) (fun s => obind (run M p s) (fun x => obind (m_pop M (snd x)) (fun s => Done (fst x, s)))).
Proof.
  unfold ns. cbn [run]. destruct (m_push M s n) as [s1|]; [|reflexivity]. cbn [obind]. rewrite run_bind. destruct (run M p s1) as [[a s2]|]; [|reflexivity].
  cbn [obind fst snd run]. destruct (m_pop M s2); reflexivity.
Qed.
Lemma run_ns_h {A} n (p : prog P A) s : run (HonestCS P) (ns n p) s = run (HonestCS P) p s.
Proof. rewrite run_ns. cbn [m_push m_pop HonestCS obind]. destruct (run (HonestCS P) p s) as [[a s']|]; reflexivity. Qed.
Lemma run_ns_s {A} n (p : prog P A) s : run (ShapeCS P) (ns n p) s = run (ShapeCS P) p s.
Proof. rewrite run_ns. cbn [m_push m_pop ShapeCS obind]. destruct (run (ShapeCS P) p s) as [[a s']|]; reflexivity. Qed.

Lemma rest_gadget bits : Gadget (rest bits).
Proof. unfold rest. pose proof sha256d_gadget. pose proof (@pack_into_inputs_gadget P). gadget. Qed.

(** The state of the prover after the bits, and what follows. *)
Definition after_bits (bs : list bool) : PState P := {| p_inputs := [fone]; p_aux := map fbit bs; p_cons := map bit_con (seq 0 (length bs)) |}.
Lemma after_known bs i b : nth_error bs i = Some b -> known (after_bits bs) (Aux i) /\ asg (after_bits bs) (Aux i) = fb b.
Proof.
  intros H. assert (Hi : i < length bs) by (apply nth_error_Some; congruence). split; cbn [known after_bits p_aux]; [now rewrite map_length|].
  unfold asg. cbn [p_aux after_bits]. apply nth_error_nth. rewrite nth_error_map, H. reflexivity.
Qed.
Lemma fresh_known bs : Forall2 (den_known (after_bits bs)) (fresh 0 (map Some bs)) bs.
Proof.
  assert (G : forall l a, (forall i b, nth_error l i = Some b -> nth_error bs (a + i) = Some b) -> Forall2 (den_known (after_bits bs)) (fresh a (map Some l)) l).
  { induction l as [|b l IH]; intros a H; [constructor|]. cbn [map]. rewrite fresh_cons. constructor.
    - destruct (after_known bs a b) as [K1 K2]; [rewrite <- (Nat.add_0_r a); now apply H|]. split; [exact K1|]. split; [exact K2|reflexivity].
    - apply IH. intros i c Hc. rewrite Nat.add_succ_comm. now apply H. }
  apply G. intros i b Hb. exact Hb.
Qed.
Lemma after_wf bs : wf_state (after_bits bs). Proof. exists []. reflexivity. Qed.

Lemma rest_honest (bs : list bool) : 64 <= num_bits P -> length bs mod 8 = 0 ->
  exists hash s2 s3 cs, run (HonestCS P) (sha256d (fresh 0 (map Some bs))) (after_bits bs) = Done (Ok hash, s2) /\
    run (HonestCS P) (rest (fresh 0 (map Some bs))) (after_bits bs) = Done (Ok tt, s3) /\
    run (HonestCS P) (pack_into_inputs hash) s2 = Done (Ok tt, s3) /\ length hash = 256 /\
    extends (after_bits bs) s3 /\ p_cons s3 = p_cons (after_bits bs) ++ cs /\ sat (asg s3) cs /\
    p_inputs s3 = fone :: compute_multipacking (flip (sha256_spec (sha256_spec (flip bs)))) /\ p_inputs s2 = [fone] /\ p_aux s3 = p_aux s2.
Proof.
  intros H64 Hl.
  assert (HK : forall rho, agrees rho (after_bits bs) -> Forall2 (bit_hon rho) (fresh 0 (map Some bs)) bs).
  { intros rho Ha. eapply Forall2_impl; [|apply fresh_known]. intros x b. now apply den_known_hon. }
  assert (Hlf : length (fresh 0 (map Some bs)) mod 8 = 0) by now rewrite fresh_length, map_length.
  set (D := flip (sha256_spec (sha256_spec (flip bs)))).
  destruct (Complete_of (sha256d (fresh 0 (map Some bs))) (after_bits bs) (fun rho r => Forall2 (bit_hon rho) r D) (after_wf bs) (g_noeq (Gadget := sha256d_gadget _)))
    as (hash & s2 & cs2 & Er & Ex2 & Ec2 & Es2 & HD).
  { intros rho Ha H1. exact (sha256d_hwp (CompleteHL rho H1 H64) _ _ Hlf (HK rho Ha)). }
  destruct (Complete_of (rest (fresh 0 (map Some bs))) (after_bits bs) (fun _ _ => True) (after_wf bs) (g_noeq (Gadget := rest_gadget _)))
    as ([] & s3 & cs & Er3 & Ex3 & Ec3 & Es3 & _).
  { intros rho Ha H1. unfold rest. eapply wpC_bindq'; [apply wpC_ns, (sha256d_hwp (CompleteHL rho H1 H64) _ _ Hlf (HK rho Ha))|].
    intros r Hr. apply wpC_ns. eapply pack_complete; [exact H1|exact Hr]. }
  assert (HV : Forall2 (fun b x => b_value b = Some x) hash D) by (eapply Forall2_impl; [|exact HD]; intros ? ? [_ H]; exact H).
  destruct (pack_loop_honest _ _ (Forall2_chunks _ (capacity P) _ _ capacity_pos HV) 0 s2) as (s3' & cs' & Ep & Ei & Ea & _).
  assert (E3 : run (HonestCS P) (rest (fresh 0 (map Some bs))) (after_bits bs) = Done (Ok tt, s3')).
  { unfold rest. rewrite run_bindq, run_ns_h, Er. cbn [obind fst snd]. rewrite run_ns_h. exact Ep. }
  assert (s3' = s3) as -> by (rewrite E3 in Er3; congruence).
  assert (E2 : p_inputs s2 = [fone]).
  { destruct (honest_counts _ _ _ (sha256d_costs_any _) _ _ _ Er) as (_ & Hi & _). cbv beta in Hi. cbn [pbill b_inp after_bits p_inputs length] in Hi.
    destruct Ex2 as ([l Hx] & _). cbn [after_bits p_inputs] in Hx. rewrite Hx in *. rewrite app_length in Hi. cbn [length] in Hi.
    destruct l as [|? ?]; [reflexivity|cbn [length] in Hi; lia]. }
  exists hash, s2, s3, cs. split; [exact Er|]. split; [exact Er3|]. split; [exact Ep|].
  split; [rewrite (Forall2_length _ _ _ HD); unfold D; rewrite flip_length; apply sha256_spec_len|].
  split; [exact Ex3|]. split; [exact Ec3|]. split; [exact Es3|]. split; [rewrite Ei, E2, compute_multipacking_eq; reflexivity|]. split; [exact E2|exact Ea].
Qed.

(** Both sides together: [s3] is the state of the prover at the end; the key generator has its shape. *)
Definition start_honest : PState P := {| p_inputs := [fone]; p_aux := []; p_cons := [] |}.
Definition start_shape : KState P := {| k_inputs := 1; k_aux := 0; k_cons := [] |}.
Definition byte_bits_le (bytes : list Z) : list bool := flat_map (fun byte => map (fun i => byte_bit byte i) (seq 0 8)) bytes.
Lemma both_runs n bytes : 64 <= num_bits P -> length bytes = n ->
  exists s3, run (HonestCS P) (my_circuit n (Some bytes)) start_honest = Done (Ok tt, s3) /\
    run (ShapeCS P) (my_circuit n None) start_shape = Done (Ok tt, shape_of s3) /\
    sat (asg s3) (p_cons s3) /\
    p_inputs s3 = fone :: compute_multipacking (flip (sha256_spec (sha256_spec (flip (byte_bits_le bytes))))) /\
    (forall i b, nth_error (byte_bits_le bytes) i = Some b -> asg s3 (Aux i) = fb b) /\
    (0 < n -> Z.of_nat (length (p_aux s3)) = (Z.of_nat (n * 8) + p_vars (sha256d_price (capacity P) (n * 8)))%Z /\
      Z.of_nat (length (p_cons s3)) = (Z.of_nat (n * 8) + CostSpec.p_cons (sha256d_price (capacity P) (n * 8)) + Z.of_nat (Nat.div (256 + (capacity P - 1)) (capacity P)))%Z).
Proof.
  intros H64 Hn. set (bs := byte_bits_le bytes).
  assert (Hlb : length bs = n * 8) by (unfold bs, byte_bits_le; rewrite bits8; now rewrite Hn).
  destruct (rest_honest bs H64) as (hash & s2 & s3 & cs & E2 & E3 & Ep & Hh & Ex & Ec & Es & Ei & Ei2 & Ea3); [rewrite Hlb; apply Nat.mod_mul; lia|].
  exists s3.
  assert (A1 : run (HonestCS P) (mapq one_bit 0 (map Some bs)) start_honest = Done (Ok (fresh 0 (map Some bs)), after_bits bs)) by (rewrite alloc_honest; reflexivity).
  assert (A2 : run (ShapeCS P) (mapq one_bit 0 (repeat None (n * 8))) start_shape = Done (Ok (fresh 0 (repeat None (n * 8))), shape_of (after_bits bs))).
  { rewrite alloc_shape. unfold start_shape, shape_of, after_bits. cbn [k_aux k_inputs k_cons p_inputs p_aux p_cons app length]. rewrite repeat_length, map_length, Hlb. reflexivity. }
  assert (Known : forall i b, nth_error bs i = Some b -> asg s3 (Aux i) = fb b).
  { intros i b Hb. destruct (after_known bs i b Hb) as [K1 K2]. rewrite (asg_extends _ _ _ Ex K1). exact K2. }
  split; [|split; [|split; [|split; [|split]]]].
  - rewrite circuit_parts by (apply values_length; exact Hn). cbn [bit_values]. fold (byte_bits_le bytes). fold bs. rewrite run_bindq, A1. cbn [obind fst snd]. exact E3.
  - rewrite circuit_parts by (apply values_length; exact I). cbn [bit_values]. rewrite run_bindq, A2. cbn [obind fst snd].
    assert (S : SameShape (rest (fresh 0 (repeat None (n * 8)))) (rest (fresh 0 (map Some bs))) (fun _ _ => True)).
    { apply SameShape_of; [exact (g_prop (Gadget := rest_gadget _))|]. unfold rest. eapply sim_bindq.
      - apply sim_ns, sha256d_sim, fresh_sim. now rewrite repeat_length, map_length, Hlb.
      - intros r r' Hr. apply sim_ns. now apply pack_into_inputs_sim. }
    destruct (S _ _ _ E3) as ([] & HR & _). exact HR.
  - rewrite Ec. apply sat_app. split; [|exact Es]. unfold after_bits. cbn [p_cons]. apply Forall_map, Forall_forall. intros i Hi. apply in_seq in Hi. cbn in Hi.
    destruct (nth_error bs i) as [b|] eqn:Hb; [|apply nth_error_None in Hb; lia]. unfold bit_con, holds. lcev. rewrite (Known i b Hb).
    replace (asg s3 one_var) with (fone : P) by (unfold one_var, asg; rewrite Ei; reflexivity). destruct b; cbn [fb]; ring.
  - exact Ei.
  - exact Known.
  - intros Hp. assert (Hne : fresh 0 (map Some bs) <> []).
    { intros E. apply (f_equal (@length Boolean)) in E. rewrite fresh_length, map_length, Hlb in E. cbn [length] in E. lia. }
    destruct (honest_counts _ _ _ (sha256d_costs _ (fresh_vars _ _) Hne) _ _ _ E2) as (C1 & _ & C3).
    destruct (honest_counts _ _ _ (pack_costs hash) _ _ _ Ep) as (_ & _ & D3). cbv beta zeta in *.
    rewrite fresh_length, map_length, Hlb in *. cbn [pbill b_aux b_cons after_bits p_aux p_cons] in *. rewrite !map_length, ?seq_length, Hlb in *.
    rewrite Multipack.chunks_length, Hh in D3 by apply capacity_pos. rewrite Ea3. split; [exact C1|]. rewrite D3, C3. reflexivity.
Qed.

(** Soundness: whatever satisfies the constraints. *)
Lemma circuit_sound n (k : KState P) (rho : Var -> P) : run (ShapeCS P) (my_circuit n None) start_shape = Done (Ok tt, k) ->
  rho one_var = fone -> sat rho (k_cons k) ->
  exists bs, length bs = n * 8 /\ (forall i b, nth_error bs i = Some b -> rho (Aux i) = fb b) /\
    let packed := compute_multipacking (flip (sha256_spec (sha256_spec (flip bs)))) in
    k_inputs k = 1 + length packed /\ map (fun i => rho (Input i)) (seq 1 (length packed)) = packed.
Proof.
  intros Hr H1 Hs. rewrite circuit_parts in Hr by (apply values_length; exact I). cbn [bit_values] in Hr.
  rewrite run_bindq, alloc_shape in Hr. cbn [obind fst snd] in Hr. cbn [start_shape k_aux k_inputs k_cons app] in Hr. rewrite repeat_length in Hr. cbn [Nat.add] in Hr.
  set (bits := fresh 0 (repeat None (n * 8))) in *. set (k1 := {| k_inputs := 1; k_aux := n * 8; k_cons := map bit_con (seq 0 (n * 8)) |}) in *.
  unfold rest in Hr. rewrite run_bindq, run_ns_s in Hr. destruct (run (ShapeCS P) (sha256d bits) k1) as [[[hash|e] k2]|] eqn:E2; cbn [obind fst snd] in Hr; try discriminate Hr.
  rewrite run_ns_s in Hr. destruct (pack_shape hash k2) as (k3 & cs3 & Ep & Hi3 & Ha3 & Hc3 & H3). rewrite Ep in Hr. assert (k3 = k) by congruence. subst k3.
  destruct (shape_emits _ _ _ _ E2) as (cs2 & He & Hc2). rewrite Hc3, Hc2 in Hs. apply sat_app in Hs as [Hs Hs3]. apply sat_app in Hs as [Hs1 Hs2].
  assert (B : forall i, i < n * 8 -> exists b, rho (Aux i) = fb b).
  { intros i Hi. unfold k1 in Hs1. cbn [k_cons] in Hs1. unfold sat in Hs1. rewrite Forall_map, Forall_forall in Hs1. apply (bit_con_holds rho i H1), Hs1, in_seq. lia. }
  assert (BS : forall m, m <= n * 8 -> exists bs, length bs = m /\ forall i b, nth_error bs i = Some b -> rho (Aux i) = fb b).
  { induction m as [|m IH]; intros Hm; [exists []; split; [reflexivity|intros [|i] b Hb; discriminate Hb]|].
    destruct IH as (l & Hl & Hx); [lia|]. destruct (B m ltac:(lia)) as [b Hb]. exists (l ++ [b]). split; [rewrite app_length; cbn; lia|].
    intros i c Hc. destruct (Nat.lt_ge_cases i m) as [Hi|Hi]; [rewrite nth_error_app1 in Hc by lia; auto|].
    rewrite nth_error_app2 in Hc by lia. rewrite Hl in Hc. destruct (i - m) as [|j] eqn:Ej; [|destruct j; discriminate Hc].
    replace i with m by lia. cbn in Hc. injection Hc as <-. exact Hb. }
  destruct (BS (n * 8) (le_n _)) as (bs & Hl & Hx). exists bs. split; [exact Hl|]. split; [exact Hx|]. cbv zeta.
  assert (HF : Forall2 (bit_is rho) bits bs).
  { assert (G : forall m l a, length l = m -> (forall i b, nth_error l i = Some b -> rho (Aux (a + i)) = fb b) -> Forall2 (bit_is rho) (fresh a (repeat None m)) l).
    { induction m as [|m IH]; intros [|b l] a Hm H; try discriminate; [constructor|]. cbn [repeat]. rewrite fresh_cons. constructor.
      - cbn. unfold var_bit. specialize (H 0 b eq_refl). rewrite Nat.add_0_r in H. exact H.
      - apply IH; [now injection Hm|]. intros i c Hc. rewrite Nat.add_succ_comm. now apply H. }
    apply G; [exact Hl|]. intros i b Hb. now apply Hx. }
  assert (HD : Forall2 (bit_is rho) hash (flip (sha256_spec (sha256_spec (flip bs))))).
  { refine (wpS_emits rho _ _ _ _ (sha256d_hwp (SoundHL rho H1) bits bs _ HF) He Hs2). unfold bits. rewrite fresh_length, repeat_length. apply Nat.mod_mul. lia. }
  assert (Hi2 : k_inputs k2 = 1).
  { destruct (shape_spends _ _ _ _ E2) as (x & Hx' & _ & _ & Hi & _). destruct (sha256d_costs_any _ _ _ Hx') as [-> _]. cbn [pbill b_inp k1 k_inputs] in Hi. lia. }
  set (D := flip (sha256_spec (sha256_spec (flip bs)))) in *.
  assert (HD' : Forall2 (den rho) hash D) by (eapply Forall2_impl; [|exact HD]; intros ? ?; apply den_bit_is).
  assert (Hlen : length (@compute_multipacking P D) = Nat.div (length hash + (capacity P - 1)) (capacity P)).
  { rewrite compute_multipacking_eq, map_length, Multipack.chunks_length by apply capacity_pos. now rewrite (Forall2_length _ _ _ HD). }
  split; [rewrite Hi3, Hi2, Hlen; reflexivity|]. rewrite Hi2 in H3. pose proof (proj1 (H3 rho D H1 HD') Hs3) as X.
  rewrite <- X at 2. rewrite <- seq_shift, map_map. reflexivity.
Qed.

(** Scoping. *)
Lemma circuit_scop (K : Var -> Prop) n pre : K one_var -> scop K (@my_circuit P n pre) (fun _ => True).
Proof.
  intros K1. unfold my_circuit. destruct (negb _); [apply scop_panic|]. unfold witness_bits. eapply scop_bindq.
  { apply scop_mapq with (Q := kb K). intros j x _. eapply scop_bindq; [apply scop_ns, ab_alloc_scop; exact K1|]. intros a Ha. apply scop_ret. exact Ha. }
  intros bits [Hb _]. eapply scop_bindq.
  { apply scop_ns. unfold sha256d. eapply scop_bindq; [apply scop_ns, sha256_scop; [exact K1|apply flip_Forall; exact Hb]|]. intros mid Hm.
    eapply scop_bindq; [apply scop_ns, sha256_scop; [exact K1|exact Hm]|]. intros r Hr. apply scop_ret. apply flip_Forall. exact Hr. }
  intros hash Hh. apply scop_ns, pack_scop; assumption.
Qed.
End P.
