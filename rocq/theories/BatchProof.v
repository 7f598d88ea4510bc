(** Batch verification decides whether a combination of the items' defects vanishes. *)
From Coq Require Import ZArith List Bool Lia.
From Verif Require Import Prelude PrimeField FModule Groth16 ProverProof Batch.
Import ListNotations.
Local Open Scope nat_scope.

Section Lists.
Context {P : PrimeField} {M : FMod P}.
Add Field PFfield_batch_lists : (F_field P).

Fixpoint gsuml (l : list M) : M := match l with [] => gzero | x :: l => x +g gsuml l end.
Lemma gsuml_app l l' : gsuml (l ++ l') = gsuml l +g gsuml l'.
Proof. induction l as [|x l IH]; cbn; [now rewrite gadd_0_l|]. now rewrite IH, gadd_assoc. Qed.
Lemma gsuml_zero l : Forall (fun x => x = gzero) l -> gsuml l = gzero.
Proof. induction 1; cbn; auto. subst. rewrite IHForall. apply gadd_0_l. Qed.

(** Polynomials with coefficients in the group, lowest first. *)
Fixpoint gpeval (ds : list M) (x : P) : M := match ds with [] => gzero | d :: ds => d +g x *g gpeval ds x end.
Fixpoint gquot (ds : list M) (r : P) : list M :=
  match ds with [] => [] | d :: ds' => match ds' with [] => [] | _ => gpeval ds' r :: gquot ds' r end end.

Lemma gquot_length ds r : length (gquot ds r) = length ds - 1.
Proof. induction ds as [|d [|d' ds] IH]; auto. cbn [gquot length] in *. rewrite IH. cbn. lia. Qed.
Lemma gquot_eval ds r x : gpeval ds x = gpeval ds r +g (x - r)%F *g gpeval (gquot ds r) x.
Proof.
  induction ds as [|d [|d' ds] IH].
  - cbn. now rewrite gmul_0_r, gadd_0_l.
  - cbn. now rewrite !gmul_0_r, !gadd_0_r.
  - change (gquot (d :: d' :: ds) r) with (gpeval (d' :: ds) r :: gquot (d' :: ds) r).
    set (q := gquot (d' :: ds) r) in *. set (e := d' :: ds) in *. cbn [gpeval]. rewrite IH.
    set (A := gpeval e r). set (B := gpeval q x). rewrite !gmul_add_r, <- !gmul_mul.
    rewrite <- !gadd_assoc. f_equal. rewrite !gadd_assoc, <- gmul_add_l. f_equal; [f_equal; ring|]. f_equal. ring.
Qed.
Lemma gquot_zero ds r : gpeval ds r = gzero -> Forall (fun d => d = gzero) (gquot ds r) -> Forall (fun d => d = gzero) ds.
Proof.
  induction ds as [|d [|d' ds] IH]; intros H F; auto.
  - cbn in H. rewrite gmul_0_r, gadd_0_r in H. auto.
  - change (gquot (d :: d' :: ds) r) with (gpeval (d' :: ds) r :: gquot (d' :: ds) r) in F. inversion F as [|? ? F1 F2]; subst. change (gpeval (d' :: ds) r = gzero) in F1.
    specialize (IH F1 F2). constructor; auto. change (d +g r *g gpeval (d' :: ds) r = gzero) in H. rewrite F1, gmul_0_r, gadd_0_r in H. exact H.
Qed.
(** A polynomial with as many distinct roots as coefficients is zero. *)
Lemma groots (roots : list P) : forall ds, NoDup roots -> length ds <= length roots -> (forall r, In r roots -> gpeval ds r = gzero) ->
  Forall (fun d => d = gzero) ds.
Proof.
  induction roots as [|r roots IH]; intros ds Hn Hl Hr; cbn [length] in Hl; [destruct ds; [constructor|cbn in Hl; lia]|].
  inversion Hn as [|? ? Hni Hn']; subst. apply (gquot_zero ds r); [apply Hr; now left|]. apply IH; auto.
  - rewrite gquot_length. lia.
  - intros x Hx. pose proof (Hr x (or_intror Hx)) as E. rewrite (gquot_eval ds r x), (Hr r (or_introl eq_refl)), gadd_0_l in E.
    apply gmul_cancel in E as [E|E]; auto. exfalso. apply Hni. replace r with x; auto.
    replace x with ((x - r) + r)%F by ring. rewrite E. ring.
Qed.
End Lists.

Section Batch.
Context {P : PrimeField} {E : Engine P} (M : Miller E).
Add Field PFfield_batch : (F_field P).
Implicit Types vk : VerifyingKey E.
Implicit Types item : Item E.

Lemma pair_0_l (y : E_G2 E) : pair (gzero : E_G1 E) y = gzero.
Proof. rewrite <- (gmul_0_l (gzero : E_G1 E)), pair_mul_l. apply gmul_0_l. Qed.
Lemma pair_neg_r (x : E_G1 E) (y : E_G2 E) : pair x (gneg y) = gneg (pair x y).
Proof. rewrite (gneg_mul y), pair_mul_r, <- gneg_mul. reflexivity. Qed.

Lemma fold_pairing (l : list (E_G1 E * E_G2 E)) : forall a, fold_left (fun acc t => acc +g pair (fst t) (snd t)) l a = a +g multi_pairing l.
Proof.
  unfold multi_pairing. induction l as [|t l IH]; intros a; cbn; [now rewrite gadd_0_r|]. rewrite IH, (IH (gzero +g _)), gadd_0_l. now rewrite gadd_assoc.
Qed.
Lemma multi_pairing_app (l l' : list (E_G1 E * E_G2 E)) : multi_pairing (l ++ l') = multi_pairing l +g multi_pairing l'.
Proof. unfold multi_pairing at 1. rewrite fold_left_app. apply fold_pairing. Qed.
Lemma multi_pairing_1 (x : E_G1 E) (y : E_G2 E) : multi_pairing [(x, y)] = pair x y.
Proof. cbn. apply gadd_0_l. Qed.
Lemma multi_pairing_cons (t : E_G1 E * E_G2 E) l : multi_pairing (t :: l) = pair (fst t) (snd t) +g multi_pairing l.
Proof. change (t :: l) with ([t] ++ l). rewrite multi_pairing_app. destruct t. now rewrite multi_pairing_1. Qed.
Lemma psi_dotl (ics : list (E_G1 E)) : forall gs, psi ics gs = dotl gs ics.
Proof.
  unfold psi. assert (H : forall gs a, fold_left (fun acc pg => acc +g snd pg *g fst pg) (combine ics gs) a = a +g dotl gs ics).
  { induction ics as [|i ics IH]; intros [|g gs] a; cbn [combine fold_left dotl]; try now rewrite gadd_0_r.
    rewrite IH. cbn [fst snd]. now rewrite gadd_assoc. }
  intros gs. now rewrite H, gadd_0_l.
Qed.

(** How far an item is from verifying. *)
Definition defect vk item : E_GT E :=
  ((gneg (pair (proof_a (item_proof item)) (proof_b (item_proof item))) +g pair (proof_c (item_proof item)) (delta_g2 vk))
    +g pair (dotl (fone :: item_inputs item) (ic vk)) (gamma_g2 vk)) +g pair (alpha_g1 vk) (beta_g2 vk).

Lemma verify_single_defect vk item : length (item_inputs item) + 1 = length (ic vk) ->
  verify_single item (prepare_verifying_key vk) = Done (if geqb (defect vk item) gzero then Ok tt else Err InvalidProof).
Proof.
  intros HL. unfold verify_single, verify_proof. cbn [prepare_verifying_key pvk_ic]. rewrite HL, Nat.eqb_refl. cbn [negb].
  unfold defect. destruct (ic vk) as [|ic0 ics]; [cbn in HL; lia|]. cbn [skipn dotl].
  rewrite gmul_1, fold_inputs_dotl. cbn [prepare_verifying_key alpha_g1_beta_g2 neg_gamma_g2 neg_delta_g2].
  rewrite !multi_pairing_cons. cbn [fst snd]. rewrite !pair_neg_r.
  set (a := pair (alpha_g1 vk) _). set (b := pair (proof_a _) _). set (c := pair (proof_c _) _). set (d := pair (_ +g _) _).
  change (multi_pairing (P := P) (E := E) []) with (gzero : E_GT E). rewrite gadd_0_r.
  destruct (geqb_spec a (b +g (gneg d +g gneg c))) as [H|H]; destruct (geqb_spec (((gneg b +g c) +g d) +g a) gzero) as [H'|H']; auto; exfalso.
  - apply H'. rewrite H. rewrite <- !gadd_assoc. rewrite (gadd_swap d), (gadd_assoc _ _ d), gadd_neg_r, gadd_0_l. rewrite (gadd_swap c), gadd_neg_r, gadd_0_r.
    apply gadd_neg_l.
  - apply H. symmetry. apply (gadd_cancel_l _ _ ((gneg b +g c) +g d)). rewrite H'.
    rewrite <- !gadd_assoc. rewrite (gadd_swap d b), (gadd_swap c b), (gadd_assoc _ _ d), gadd_neg_r, gadd_0_l, gadd_neg_r, gadd_0_r. apply gadd_neg_l.
Qed.
Lemma verify_single_lengths vk item : length (item_inputs item) + 1 <> length (ic vk) ->
  verify_single item (prepare_verifying_key vk) = Done (Err InvalidVerifyingKey).
Proof. intros HL. unfold verify_single, verify_proof. cbn [prepare_verifying_key pvk_ic]. apply Nat.eqb_neq in HL. now rewrite HL. Qed.

(** ** Accumulation *)
Definition tail_value vk (gs : list P) (dl : E_G1 E) (y : P) : E_GT E :=
  (pair dl (delta_g2 vk) +g pair (dotl gs (ic vk)) (gamma_g2 vk)) +g pair (y *g alpha_g1 vk) (beta_g2 vk).
Definition value vk (acc : Acc E) : E_GT E := multi_pairing (ml_terms acc) +g tail_value vk (gammas acc) (acc_delta acc) (acc_y acc).

Lemma dotl_acc_inputs {G : FMod P} zc inputs : forall gs (ics : list G), length gs = length inputs -> length ics = length inputs ->
  dotl (acc_inputs zc inputs gs) ics = dotl gs ics +g zc *g dotl inputs ics /\ length (acc_inputs zc inputs gs) = length gs.
Proof.
  induction inputs as [|a inputs IH]; intros [|g gs] [|i ics] H H'; cbn [length acc_inputs dotl] in *; try lia.
  - split; auto. now rewrite gmul_0_r, gadd_0_l.
  - destruct (IH gs ics) as [-> ->]; try lia. split; auto. rewrite gmul_add_l, gmul_add_r, gmul_mul. apply gadd_4.
Qed.

Lemma step_value vk acc item zc : length (gammas acc) = length (ic vk) -> length (item_inputs item) + 1 = length (ic vk) ->
  exists acc', step acc item zc = Done acc' /\ length (gammas acc') = length (ic vk) /\ value vk acc' = value vk acc +g zc *g defect vk item.
Proof.
  intros Hg Hi. unfold step, acc_gammas, value, tail_value, defect. destruct (gammas acc) as [|g gs]; [cbn in Hg; lia|].
  destruct (ic vk) as [|i0 ics]; [cbn in Hi; lia|]. cbn [length] in Hg, Hi.
  destruct (dotl_acc_inputs zc (item_inputs item) gs ics) as [Ed El]; try lia.
  eexists. split; [reflexivity|]. cbn [gammas ml_terms acc_delta acc_y]. split; [cbn; lia|].
  rewrite multi_pairing_app, multi_pairing_1. cbn [dotl]. rewrite Ed, gmul_1, pair_neg_r.
  rewrite !gmul_add_l, !pair_add_l, !pair_mul_l, !gmul_add_r.
  rewrite (gneg_mul (zc *g _)), (gneg_mul (pair (proof_a _) _)), (gmul_comm zc).
  set (a := (- (1))%F *g _). set (b := zc *g pair (proof_c _) _). set (c := zc *g pair i0 _). set (d := zc *g pair (dotl _ _) _). set (e := zc *g pair (alpha_g1 vk) _).
  set (A := multi_pairing _). set (B := pair (acc_delta acc) _). set (C := g *g pair i0 _). set (D := pair (dotl gs _) _). set (F := acc_y acc *g _).
  rewrite (gadd_4 C c D d). rewrite (gadd_4 B b), (gadd_4 _ _ F e), (gadd_4 A a). rewrite <- !gadd_assoc. reflexivity.
Qed.

Definition start vk : Acc E := mkAcc [] (repeat fzero (length (ic vk))) gzero fzero.
Lemma dotl_zero {G : FMod P} n : forall ics : list G, dotl (repeat fzero n) ics = gzero.
Proof. induction n; intros [|i ics]; cbn [repeat dotl]; auto. now rewrite IHn, gmul_0_l, gadd_0_l. Qed.
Lemma tail_value_0 vk n : tail_value vk (repeat fzero n) gzero fzero = gzero.
Proof. unfold tail_value. now rewrite dotl_zero, gmul_0_l, !pair_0_l, !gadd_0_l. Qed.
Lemma value_start vk : value vk (start vk) = gzero.
Proof. unfold value, start. cbn [ml_terms gammas acc_delta acc_y]. now rewrite tail_value_0, gadd_0_r. Qed.

Definition combined vk (items : list (Item E)) (zs : list P) : E_GT E := dotl zs (map (defect vk) items).

(** The values drawn by the loops. *)
Lemma draw_spec fuel (rng : nat -> P) : forall pos zc pos', draw fuel rng pos = Some (zc, pos') ->
  pos < pos' /\ zc <> fzero /\ filter (fun x => negb (feqb x fzero)) (map rng (seq pos (pos' - pos))) = [zc].
Proof.
  induction fuel as [|f IH]; intros pos zc pos'; cbn [draw]; [discriminate|].
  destruct (feqb_spec (rng pos) fzero) as [Hz|Hz]; cbn [negb].
  - intros H. destruct (IH _ _ _ H) as (H1 & H2 & H3). split; [lia|]. split; auto.
    replace (pos' - pos) with (S (pos' - S pos)) by lia. cbn [seq map filter]. rewrite Hz. destruct (feqb_spec (fzero : P) fzero); [|congruence]. exact H3.
  - intros [= <- <-]. split; [lia|]. split; auto. replace (S pos - pos) with 1 by lia. cbn. destruct (feqb_spec (rng pos) fzero); [congruence|]. reflexivity.
Qed.

Lemma verify_loop_spec vk fuel (rng : nat -> P) (items : list (Item E)) : forall pos acc r, verify_loop fuel rng pos acc items = Some r ->
  length (gammas acc) = length (ic vk) -> Forall (fun item => length (item_inputs item) + 1 = length (ic vk)) items ->
  exists zs pos' acc', r = Done acc' /\ length zs = length items /\ Forall (fun x => x <> fzero) zs /\ pos <= pos' /\
    filter (fun x => negb (feqb x fzero)) (map rng (seq pos (pos' - pos))) = zs /\ value vk acc' = value vk acc +g combined vk items zs.
Proof.
  induction items as [|item items IH]; intros pos acc r H Hg Hi; cbn [verify_loop] in H.
  - injection H as <-. exists [], pos, acc. rewrite Nat.sub_diag. cbn. rewrite gadd_0_r. repeat split; auto.
  - destruct (draw fuel rng pos) as [[zc pos1]|] eqn:Ed; [|discriminate]. inversion Hi as [|? ? Hi1 Hi2]; subst.
    destruct (step_value vk acc item zc Hg Hi1) as (acc1 & Es & Hg1 & V1). rewrite Es in H.
    destruct (draw_spec _ _ _ _ _ Ed) as (D1 & D2 & D3).
    destruct (IH _ _ _ H Hg1 Hi2) as (zs & pos' & acc' & -> & Lz & Fz & Hp & Ez & V). exists (zc :: zs), pos', acc'.
    split; auto. split; [cbn; lia|]. split; [now constructor|]. split; [lia|]. split.
    + replace (pos' - pos) with ((pos1 - pos) + (pos' - pos1)) by lia. rewrite seq_app, map_app, filter_app, D3. cbn [app]. f_equal.
      replace (pos + (pos1 - pos)) with pos1 by lia. exact Ez.
    + rewrite V, V1, <- gadd_assoc. reflexivity.
Qed.

Lemma verify_spec vk fuel (rng : nat -> P) (items : list (Item E)) r : Forall (fun item => length (item_inputs item) + 1 = length (ic vk)) items ->
  verify M fuel rng items vk = Some r ->
  exists zs n, length zs = length items /\ Forall (fun x => x <> fzero) zs /\ filter (fun x => negb (feqb x fzero)) (map rng (seq 0 n)) = zs /\
    r = Done (if geqb (combined vk items zs) gzero then Ok tt else Err InvalidProof).
Proof.
  intros Hi H. unfold verify in H. replace (existsb _ items) with false in H.
  2:{ symmetry. apply not_true_is_false. intros C. apply existsb_exists in C as (item & Hin & C). rewrite Forall_forall in Hi. apply Hi in Hin.
      unfold wrong_inputs in C. rewrite Hin, Nat.eqb_refl in C. discriminate. }
  change (mkAcc [] (repeat fzero (length (ic vk))) gzero fzero) with (start vk) in H.
  destruct (verify_loop fuel rng 0 (start vk) items) as [r'|] eqn:El; [|discriminate].
  destruct (verify_loop_spec vk _ _ _ _ _ _ El (repeat_length _ _) Hi) as (zs & pos & acc & -> & Lz & Fz & _ & Ez & V).
  exists zs, pos. rewrite Nat.sub_0_r in Ez. split; auto. split; auto. split; auto. injection H as <-. do 2 f_equal.
  rewrite value_start, gadd_0_l in V. rewrite <- V. rewrite final_exp_loop, multi_pairing_app. cbn [app]. rewrite !multi_pairing_cons, psi_dotl. cbn [fst snd]. change (multi_pairing (P := P) (E := E) []) with (gzero : E_GT E). rewrite gadd_0_r. unfold value, tail_value.
  now rewrite !gadd_assoc.
Qed.

(** ** The parallel version *)
Definition avalue vk (a : Accumulator M) : E_GT E :=
  match ml_result a with None => gzero | Some x => final_exponentiation x end +g tail_value vk (a_gammas a) (a_delta a) (a_y a).

Lemma dotl_add_gammas {G : FMod P} (a : list P) : forall b (ics : list G), length b = length a ->
  dotl (add_gammas a b) ics = dotl a ics +g dotl b ics /\ length (add_gammas a b) = length a.
Proof.
  induction a as [|x a IH]; intros [|y b] [|i ics] H; cbn [length add_gammas dotl] in *; try lia.
  - split; auto. now rewrite gadd_0_l.
  - split; auto. now rewrite gadd_0_l.
  - destruct (IH b []) as [_ ->]; [lia|]. rewrite gadd_0_l. auto.
  - destruct (IH b ics) as [-> ->]; [lia|]. split; auto. rewrite gmul_add_l. apply gadd_4.
Qed.
Lemma combine_value vk (a b : Accumulator M) : length (a_gammas a) = length (ic vk) -> length (a_gammas b) = length (ic vk) ->
  avalue vk (combine_acc M a b) = avalue vk a +g avalue vk b /\ length (a_gammas (combine_acc M a b)) = length (ic vk).
Proof.
  intros Ha Hb. unfold avalue.
  assert (X : match ml_result (combine_acc M a b) with None => gzero | Some x => final_exponentiation x end =
    match ml_result a with None => gzero | Some x => final_exponentiation x end +g match ml_result b with None => gzero | Some x => final_exponentiation x end).
  { unfold combine_acc. cbn [ml_result]. destruct (ml_result a), (ml_result b); rewrite ?gadd_0_l, ?gadd_0_r; auto. now rewrite final_exp_add. }
  rewrite X. clear X. unfold combine_acc, tail_value. cbn [a_gammas a_delta a_y].
  destruct (dotl_add_gammas (a_gammas a) (a_gammas b) (ic vk)) as [-> ->]; [lia|]. split; auto.
  rewrite gmul_add_l, !pair_add_l. set (x := match ml_result a with None => _ | _ => _ end). set (y := match ml_result b with None => _ | _ => _ end).
  set (p := pair (a_delta a) _). set (q := pair (a_delta b) _). set (p1 := pair (dotl (a_gammas a) _) _). set (q1 := pair (dotl (a_gammas b) _) _).
  set (p2 := pair (a_y a *g _) _). set (q2 := pair (a_y b *g _) _).
  rewrite (gadd_4 p q), (gadd_4 _ _ p2 q2), (gadd_4 x y). reflexivity.
Qed.

(** One chunk: the items' defects weighted by z, z^2, ... *)
Lemma chunk_loop_value vk zc (items : list (Item E)) : forall cur acc, length (gammas acc) = length (ic vk) ->
  Forall (fun item => length (item_inputs item) + 1 = length (ic vk)) items ->
  exists acc', chunk_loop zc cur acc items = Done acc' /\ length (gammas acc') = length (ic vk) /\
    value vk acc' = value vk acc +g cur *g gpeval (map (defect vk) items) zc.
Proof.
  induction items as [|item items IH]; intros cur acc Hg Hi; cbn [chunk_loop map gpeval].
  - exists acc. rewrite gmul_0_r, gadd_0_r. auto.
  - inversion Hi as [|? ? Hi1 Hi2]; subst. destruct (step_value vk acc item cur Hg Hi1) as (acc1 & Es & Hg1 & V1). rewrite Es. cbn [obind].
    destruct (IH (cur * zc)%F acc1 Hg1 Hi2) as (acc' & E2 & Hg2 & V2). exists acc'. split; auto. split; auto.
    rewrite V2, V1, gmul_add_r, gmul_mul, gadd_assoc. reflexivity.
Qed.
Definition chunk_value vk (items : list (Item E)) (zc : P) : E_GT E := zc *g gpeval (map (defect vk) items) zc.
Definition first_nonzero (rng : nat -> P) (zc : P) : Prop := zc <> fzero /\ exists k, rng k = zc /\ forall j, j < k -> rng j = fzero.

Lemma draw_first fuel rng zc pos' : draw fuel rng 0 = Some (zc, pos') -> first_nonzero rng zc.
Proof.
  intros H. assert (X : forall f pos, draw f rng pos = Some (zc, pos') -> zc <> fzero /\ exists k, pos <= k /\ rng k = zc /\ forall j, pos <= j < k -> rng j = fzero).
  { clear. induction f as [|f IH]; intros pos; cbn [draw]; [discriminate|]. destruct (feqb_spec (rng pos) fzero) as [Hz|Hz]; cbn [negb].
    - intros H. destruct (IH _ H) as (Z & k & K1 & K2 & K3). split; auto. exists k. split; [lia|]. split; auto. intros j Hj.
      destruct (Nat.eq_dec j pos); [now subst|apply K3; lia].
    - intros [= <- <-]. split; auto. exists pos. split; [lia|]. split; auto. intros; lia. }
  destruct (X _ _ H) as (Z & k & _ & K2 & K3). split; auto. exists k. split; auto. intros j Hj. apply K3. lia.
Qed.
Lemma first_nonzero_unique rng x y : first_nonzero rng x -> first_nonzero rng y -> x = y.
Proof.
  intros [X (j & Hj & Lj)] [Y (k & Hk & Lk)]. destruct (Nat.lt_trichotomy j k) as [L|[->|L]]; [|congruence|]; exfalso.
  - apply Lk in L. congruence.
  - apply Lj in L. congruence.
Qed.

Lemma chunk_acc_spec vk fuel rng (items : list (Item E)) r : Forall (fun item => length (item_inputs item) + 1 = length (ic vk)) items ->
  chunk_acc M fuel rng (length (ic vk)) items = Some r ->
  exists zc a, first_nonzero rng zc /\ r = Done a /\ length (a_gammas a) = length (ic vk) /\ avalue vk a = chunk_value vk items zc /\ ml_result a <> None.
Proof.
  intros Hi H. unfold chunk_acc in H. destruct (draw fuel rng 0) as [[zc pos]|] eqn:Ed; [|discriminate]. injection H as <-.
  change (mkAcc [] (repeat fzero (length (ic vk))) gzero fzero) with (start vk).
  destruct (chunk_loop_value vk zc items zc (start vk) (repeat_length _ _) Hi) as (acc & -> & Hg & V). cbn [obind].
  exists zc. eexists. split; [eapply draw_first; eauto|]. split; [reflexivity|]. split; auto. split; [|discriminate].
  rewrite value_start, gadd_0_l in V. unfold chunk_value. rewrite <- V. unfold avalue. cbn [ml_result a_gammas a_delta a_y]. now rewrite final_exp_loop.
Qed.

Lemma reduce_spec vk (work : nat -> option (outcome (Accumulator M))) (val : nat -> E_GT E) t : forall r,
  (forall i r, In i (leaves t) -> work i = Some r -> exists a, r = Done a /\ length (a_gammas a) = length (ic vk) /\ avalue vk a = val i /\ ml_result a <> None) ->
  reduce M (length (ic vk)) work t = Some r ->
  exists a, r = Done a /\ length (a_gammas a) = length (ic vk) /\ avalue vk a = gsuml (map val (leaves t)) /\ (ml_result a = None <-> leaves t = []).
Proof.
  induction t as [|i|l IHl rr IHr]; intros r Hw H; cbn [reduce leaves] in *.
  - injection H as <-. eexists. split; [reflexivity|]. cbn [new_accumulator a_gammas ml_result map gsuml]. split; [apply repeat_length|]. split; [|tauto].
    unfold avalue. cbn [new_accumulator ml_result a_gammas a_delta a_y]. rewrite tail_value_0. apply gadd_0_l.
  - destruct (Hw i r (or_introl eq_refl) H) as (a & -> & La & V & Hm). exists a. repeat split; auto; try discriminate; try contradiction.
    cbn. rewrite gadd_0_r. exact V.
  - destruct (reduce M _ work l) as [a|] eqn:E1; [|discriminate]. destruct (reduce M _ work rr) as [b|] eqn:E2; [|discriminate]. injection H as <-.
    destruct (IHl a) as (a' & -> & La & Va & Ma); auto. { intros; apply Hw; auto. apply in_or_app; auto. }
    destruct (IHr b) as (b' & -> & Lb & Vb & Mb); auto. { intros; apply Hw; auto. apply in_or_app; auto. }
    cbn [obind]. eexists. split; [reflexivity|]. destruct (combine_value vk a' b' La Lb) as [V L]. split; auto. split.
    + rewrite V, Va, Vb, map_app, gsuml_app. reflexivity.
    + cbn [combine_acc ml_result]. destruct (ml_result a'), (ml_result b'); split; intros X; try discriminate; try (apply app_eq_nil in X as [X1 X2]).
      * apply Ma in X1. discriminate.
      * apply Ma in X1. discriminate.
      * apply Mb in X2. discriminate.
      * destruct Ma as [Ma _], Mb as [Mb _]. now rewrite Ma, Mb.
      * reflexivity.
Qed.

Definition chunk_nth (items : list (Item E)) i : list (Item E) := nth i (chunks 8 items) [].

Lemma multicore_spec vk fuel rngs t (items : list (Item E)) r : Forall (fun item => length (item_inputs item) + 1 = length (ic vk)) items ->
  leaves t = seq 0 (length (chunks 8 items)) ->
  verify_multicore M fuel rngs t items vk = Some r ->
  exists zs, length zs = length (chunks 8 items) /\ (forall i, i < length zs -> first_nonzero (rngs i) (nth i zs fzero)) /\
    r = Done (if geqb (gsuml (map (fun i => chunk_value vk (chunk_nth items i) (nth i zs fzero)) (seq 0 (length zs)))) gzero then Ok tt else Err InvalidProof).
Proof.
  intros Hi Hl H. unfold verify_multicore in H. replace (existsb _ items) with false in H.
  2:{ symmetry. apply not_true_is_false. intros C. apply existsb_exists in C as (item & Hin & C). rewrite Forall_forall in Hi. apply Hi in Hin.
      unfold wrong_inputs in C. rewrite Hin, Nat.eqb_refl in C. discriminate. }
  set (work := fun i => match nth_error (chunks 8 items) i with Some c => chunk_acc M fuel (rngs i) (length (ic vk)) c | None => None end) in H.
  set (zof := fun i => match draw fuel (rngs i) 0 with Some (zc, _) => zc | None => fzero end).
  destruct (reduce M _ work t) as [r'|] eqn:Er; [|discriminate].
  assert (Hch : forall i c, nth_error (chunks 8 items) i = Some c -> Forall (fun item => length (item_inputs item) + 1 = length (ic vk)) c).
  { intros i c Hc. rewrite Forall_forall in *. intros x Hx. apply Hi. rewrite <- (chunks_concat 8 items) by lia. apply in_concat. exists c. split; auto.
    eapply nth_error_In; eauto. }
  assert (Hdone : forall t r', reduce M (length (ic vk)) work t = Some r' -> forall i, In i (leaves t) -> exists x, work i = Some x).
  { clear. induction t as [|i|l IHl rr IHr]; intros r' H j Hj; cbn [leaves reduce] in *; [contradiction| |].
    - destruct Hj as [<-|[]]. eauto.
    - destruct (reduce M _ work l) eqn:E1; [|discriminate]. destruct (reduce M _ work rr) eqn:E2; [|discriminate].
      apply in_app_or in Hj as [Hj|Hj]; eauto. }
  assert (Hz : forall i, i < length (chunks 8 items) -> first_nonzero (rngs i) (zof i)).
  { intros i Hlt. destruct (Hdone _ _ Er i) as [x Hx]. { rewrite Hl. apply in_seq. lia. }
    unfold work in Hx. destruct (nth_error (chunks 8 items) i) as [c|]; [|discriminate]. unfold chunk_acc in Hx. unfold zof.
    destruct (draw fuel (rngs i) 0) as [[zc pos]|] eqn:Ed; [|discriminate]. eapply draw_first; eauto. }
  destruct (reduce_spec vk work (fun i => chunk_value vk (chunk_nth items i) (zof i)) t r') as (a & -> & La & V & Hm); auto.
  { intros i x Hin Hx. rewrite Hl in Hin. apply in_seq in Hin. unfold work in Hx. destruct (nth_error (chunks 8 items) i) as [c|] eqn:Ec; [|discriminate].
    destruct (chunk_acc_spec vk fuel (rngs i) c x (Hch _ _ Ec) Hx) as (zc & a & Hf & -> & La & V & Hm). exists a. repeat split; auto.
    rewrite V. f_equal; [symmetry; unfold chunk_nth; now apply nth_error_nth|]. eapply first_nonzero_unique; eauto. apply Hz. lia. }
  exists (map zof (seq 0 (length (chunks 8 items)))). rewrite map_length, seq_length.
  assert (Hn : forall i, i < length (chunks 8 items) -> nth i (map zof (seq 0 (length (chunks 8 items)))) fzero = zof i).
  { intros i Hlt. rewrite (nth_indep _ fzero (zof 0)) by (rewrite map_length, seq_length; lia). rewrite map_nth, seq_nth by lia. reflexivity. }
  split; auto. split. { intros i Hlt. rewrite Hn by auto. auto. }
  injection H as <-. do 2 f_equal.
  replace (gsuml _) with (avalue vk a).
  2:{ rewrite V, Hl. f_equal. apply map_ext_in. intros i Hin. apply in_seq in Hin. rewrite Hn by lia. reflexivity. }
  unfold avalue in *. destruct (ml_result a) as [ml|] eqn:Em.
  - rewrite final_exp_add, final_exp_loop. rewrite !multi_pairing_cons. cbn [fst snd]. change (multi_pairing (P := P) (E := E) []) with (gzero : E_GT E).
    rewrite gadd_0_r, psi_dotl. unfold tail_value. now rewrite !gadd_assoc.
  - destruct Hm as [Hm _]. specialize (Hm eq_refl). rewrite V, Hm. cbn. destruct (geqb_spec (gzero : E_GT E) gzero); [reflexivity|congruence].
Qed.

(** Wrong lengths *)
Lemma wrong_lengths vk (items : list (Item E)) : existsb (wrong_inputs vk) items = true <-> exists item, In item items /\ length (item_inputs item) + 1 <> length (ic vk).
Proof.
  rewrite existsb_exists. unfold wrong_inputs. split; intros (item & Hin & H); exists item; split; auto.
  - destruct (Nat.eqb_spec (length (item_inputs item) + 1) (length (ic vk))); [discriminate|auto].
  - now apply Nat.eqb_neq in H as ->.
Qed.

(** Enough fuel always exists if the source does not run out of non-zero values. *)
Lemma draw_exists (rng : nat -> P) k : forall pos, pos <= k -> rng k <> fzero -> exists zc pos', pos' <= S k /\ forall fuel, k < fuel + pos -> draw fuel rng pos = Some (zc, pos').
Proof.
  intros pos Hp. remember (k - pos) as d eqn:Hd. revert pos Hp Hd. induction d as [|d IH]; intros pos Hp Hd Hk.
  - assert (pos = k) by lia. subst pos. exists (rng k), (S k). split; [lia|]. intros [|f] Hf; [lia|]. cbn. destruct (feqb_spec (rng k) fzero); [congruence|reflexivity].
  - destruct (feqb_spec (rng pos) fzero) as [Hz|Hz].
    + destruct (IH (S pos)) as (zc & pos' & L & X); auto; try lia. exists zc, pos'. split; [exact L|]. intros [|f] Hf; [lia|]. cbn.
      rewrite Hz. destruct (feqb_spec (fzero : P) fzero); [|congruence]. cbn. apply X. lia.
    + exists (rng pos), (S pos). split; [lia|]. intros [|f] Hf; [lia|]. cbn. destruct (feqb_spec (rng pos) fzero); [congruence|reflexivity].
Qed.
End Batch.
