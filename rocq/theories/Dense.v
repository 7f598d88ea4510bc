(** Coefficients of variables in the A and B parts do not cancel: auxiliary lemmas. *)
From Coq Require Import String.
From Coq Require Import ZArith List Bool Lia Field.
From Verif Require Import Prelude PrimeField Circuit Loops BooleanGadget NumGadget MultiEq UInt32 UInt32Proof Multipack DomainProof Scope Covered.
Import ListNotations.
Local Open Scope nat_scope.

Section Dense.
Context {P : PrimeField}.
Add Field PFdense : (F_field P).

(** [G] is the set of variables with coefficients other than zero in both parts of some constraint. *)
Variable G : Var -> bool.

Lemma var_dec (u v : Var) : {u = v} + {u <> v}.
Proof. decide equality; apply Nat.eq_dec. Qed.
Definition mentioned (v : Var) (l : LC P) : Prop := In v (map fst l).
Definition is_aux (v : Var) : Prop := match v with Aux _ => True | Input _ => False end.
Definition written (v : Var) (l : LC P) : Prop := exists c, In (v, c) l /\ c <> fzero.
Lemma written_mentioned v l : written v l -> mentioned v l.
Proof. intros (c & H & _). apply in_map_iff. now exists (v, c). Qed.
Definition safe (R : Var -> Prop) (l : LC P) : Prop := forall v, R v -> G v = false -> written v l -> cf v l <> fzero.
(** The coefficients are those of integers. *)
Definition intsafe (n : nat) (l : LC P) : Prop := forall v, is_aux v -> G v = false ->
  exists z, (Z.abs z < 2 ^ Z.of_nat n)%Z /\ cf v l = ofZ z /\ (mentioned v l -> z <> 0%Z) /\ (~ mentioned v l -> z = 0%Z).

(** The program on a constraint system with [na] auxiliary variables. *)
Fixpoint wpD (na : nat) {A} (p : prog P A) (Q : nat -> A -> Prop) : Prop :=
  match p with
  | Ret a => Q na a
  | Panic => True
  | Alloc _ _ k => wpD (S na) (k (Ok (Aux na)) false) Q
  | AllocInput _ _ k => forall i, wpD na (k (Ok (Input i)) false) Q
  | Enforce _ a b c k => safe is_aux a /\ safe (fun _ => True) b /\ ((forall v, cf v a <> fzero -> cf v b <> fzero -> G v = true) -> wpD na k Q)
  | EnforceEq n l r k => intsafe n l /\ wpD na k Q
  | PushNs _ k | PopNs k => wpD na k Q
  end.

Definition safe_row (k : Constraint P) : Prop := safe is_aux (fst (fst k)) /\ safe (fun _ => True) (snd (fst k)).
Lemma wpD_run {A} (p : prog P A) Q : forall t r t', wpD (k_aux t) p Q -> run (ShapeCS P) p t = Done (r, t') ->
  exists new, k_cons t' = k_cons t ++ new /\
    ((forall k v, In k new -> cf v (fst (fst k)) <> fzero -> cf v (snd (fst k)) <> fzero -> G v = true) -> Forall safe_row new /\ Q (k_aux t') r).
Proof.
  induction p as [a| |n f k IH|n f k IH|n a b c k IH|n l rr k IH|n k IH|k IH]; intros t r t' H Er;
    cbn [run m_alloc m_alloc_input m_enforce m_push m_pop ShapeCS obind fst snd wpD] in *; try discriminate.
  - injection Er as <- <-. exists []. rewrite app_nil_r. auto.
  - exact (IH _ _ {| k_inputs := k_inputs t; k_aux := S (k_aux t); k_cons := k_cons t |} _ _ H Er).
  - exact (IH _ _ {| k_inputs := S (k_inputs t); k_aux := k_aux t; k_cons := k_cons t |} _ _ (H _) Er).
  - destruct H as (H1 & H2 & H3). destruct (run_more _ _ _ _ Er) as (new & E1 & _). cbn [k_cons] in E1. rewrite <- app_assoc in E1. cbn [app] in E1.
    exists ((a, b, c) :: new). split; [exact E1|]. intros HG. specialize (H3 (fun v => HG (a, b, c) v (or_introl eq_refl))).
    destruct (IH {| k_inputs := k_inputs t; k_aux := k_aux t; k_cons := k_cons t ++ [(a, b, c)] |} r t' H3 Er) as (new' & E2 & H4). cbn [k_cons] in E2.
    rewrite E1, <- app_assoc in E2. apply app_inv_head in E2. cbn [app] in E2. injection E2 as <-. destruct H4 as [H4 H5]; [intros k0 v Hk; apply HG; now right|].
    split; [|exact H5]. constructor; [split; assumption|exact H4].
  - exact (IH _ _ _ H Er).
  - exact (IH _ _ _ H Er).
Qed.

(** ** Rules *)
Lemma wpD_mono {A} (p : prog P A) : forall na (Q Q' : nat -> A -> Prop), (forall n a, na <= n -> Q n a -> Q' n a) -> wpD na p Q -> wpD na p Q'.
Proof.
  induction p as [a| |n f k IH|n f k IH|n a b c k IH|n l r k IH|n k IH|k IH]; cbn; intros na Q Q' HQ; auto.
  - apply IH. intros n0 a Hn. apply HQ. lia.
  - intros H i. exact (IH _ _ _ _ _ HQ (H i)).
  - intros (H1 & H2 & H3). split; [exact H1|]. split; [exact H2|]. intros HG. exact (IH _ _ _ HQ (H3 HG)).
  - intros (H1 & H2). split; [exact H1|]. exact (IH _ _ _ HQ H2).
  - apply IH. exact HQ.
  - apply IH. exact HQ.
Qed.
Lemma wpD_bind {A B} (p : prog P A) (g : A -> prog P B) : forall na Q, wpD na p (fun n a => wpD n (g a) Q) -> wpD na (bind p g) Q.
Proof.
  induction p as [a| |n f k IH|n f k IH|n a b c k IH|n l r k IH|n k IH|k IH]; cbn; intros na Q; auto.
  - intros (H1 & H2 & H3). auto.
  - intros (H1 & H2). auto.
Qed.
Definition dn {A} (na : nat) (p : prog P (res A)) (Q : nat -> A -> Prop) : Prop := wpD na p (fun n r => match r with Ok a => Q n a | Err _ => True end).
Lemma dn_mono {A} na (p : prog P (res A)) (Q Q' : nat -> A -> Prop) : dn na p Q -> (forall n a, na <= n -> Q n a -> Q' n a) -> dn na p Q'.
Proof. intros H HQ. eapply wpD_mono; [|exact H]. intros n [a|e]; cbn; auto. Qed.
Lemma dn_bindq {A B} na (p : prog P (res A)) (g : A -> prog P (res B)) Q1 Q : dn na p Q1 -> (forall n a, na <= n -> Q1 n a -> dn n (g a) Q) -> dn na (bindq p g) Q.
Proof. intros Hp Hg. apply wpD_bind. eapply wpD_mono; [|exact Hp]. intros n [a|e] Hn H; cbn; [exact (Hg n a Hn H)|exact I]. Qed.
Lemma dn_ns {A} na n (p : prog P (res A)) Q : dn na p Q -> dn na (ns n p) Q.
Proof. intros H. unfold dn, ns. cbn. apply wpD_bind. eapply wpD_mono; [|exact H]. intros n0 r _ Hr. exact Hr. Qed.
Lemma dn_ret {A} na (a : A) (Q : nat -> A -> Prop) : Q na a -> dn na (Ret (Ok a)) Q. Proof. auto. Qed.

(** ** Linear combinations *)
Lemma add_lc_app (l m : LC P) : lc_add_lc l m = (l ++ m)%list.
Proof. unfold lc_add_lc, lc_add_term. revert l. induction m as [|[v c] m IH]; intros l; cbn [fold_left fst snd]; [now rewrite app_nil_r|]. rewrite IH, <- app_assoc. reflexivity. Qed.
Lemma sub_lc_app (l m : LC P) : lc_sub_lc l m = (l ++ map (fun s => (fst s, - snd s)%F) m)%list.
Proof. unfold lc_sub_lc, lc_sub_term, lc_add_term. revert l. induction m as [|[v c] m IH]; intros l; cbn [fold_left map fst snd]; [now rewrite app_nil_r|]. rewrite IH, <- app_assoc. reflexivity. Qed.
Lemma add_scaled_app (l m : LC P) c : lc_add_scaled l c m = (l ++ map (fun s => (fst s, snd s * c)%F) m)%list.
Proof. unfold lc_add_scaled, lc_add_term. revert l. induction m as [|[v d] m IH]; intros l; cbn [fold_left map fst snd]; [now rewrite app_nil_r|]. rewrite IH, <- app_assoc. reflexivity. Qed.
Lemma cf_neg v (m : LC P) : cf v (map (fun s => (fst s, - snd s)%F) m) = (- cf v m)%F.
Proof. induction m as [|[w d] m IH]; cbn [map cf fst snd]; [ring|]. rewrite IH. destruct (var_eqb w v); ring. Qed.
Lemma cf_scale v c (m : LC P) : cf v (map (fun s => (fst s, snd s * c)%F) m) = (cf v m * c)%F.
Proof. induction m as [|[w d] m IH]; cbn [map cf fst snd]; [ring|]. rewrite IH. destruct (var_eqb w v); ring. Qed.
Lemma fst_neg (m : LC P) : map fst (map (fun s => (fst s, - snd s)%F) m) = map fst m.
Proof. rewrite map_map. apply map_ext. reflexivity. Qed.
Lemma fst_scale c (m : LC P) : map fst (map (fun s => (fst s, snd s * c)%F) m) = map fst m.
Proof. rewrite map_map. apply map_ext. reflexivity. Qed.
Lemma cf_unmentioned v (l : LC P) : ~ mentioned v l -> cf v l = fzero.
Proof. unfold mentioned. induction l as [|[w c] l IH]; cbn [map In cf fst snd]; intros H; [reflexivity|]. destruct (var_eqb_spec w v); [tauto|]. apply IH. tauto. Qed.
Lemma cf_hd v c (l : LC P) : cf v ((v, c) :: l) = (c + cf v l)%F.
Proof. cbn [cf fst snd]. destruct (var_eqb_spec v v); [reflexivity|contradiction]. Qed.
Lemma cf_tl v w c (l : LC P) : w <> v -> cf v ((w, c) :: l) = cf v l.
Proof. intros H. cbn [cf fst snd]. destruct (var_eqb_spec w v); [contradiction|reflexivity]. Qed.

(** The literals *)
Definition ok (v : Var) : Prop := G v = true \/ is_aux v.
Definition okb (b : Boolean) : Prop := forall v, In v (bvs b) -> ok v.
Definition sb (b : Boolean) : Prop := forall v, In v (bvs b) -> G v = true.
Lemma sb_okb b : sb b -> okb b. Proof. intros H v Hv. left. auto. Qed.
Lemma sb_not b : sb b -> sb (b_not b). Proof. destruct b; exact (fun H => H). Qed.
Lemma okb_not b : okb b -> okb (b_not b). Proof. destruct b; exact (fun H => H). Qed.
Lemma bvs_not b : bvs (b_not b) = bvs b. Proof. destruct b; reflexivity. Qed.
Lemma aux_one v : is_aux v -> one_var <> v. Proof. intros H <-. exact H. Qed.
Lemma lit_mentioned_aux b c v : is_aux v -> mentioned v (b_lc b one_var c : LC P) <-> In v (bvs b).
Proof. clear G. intros Ha. apply aux_one in Ha. unfold mentioned, one_var in *. destruct b as [a|a|[|]]; cbn [b_lc]; unfold lc_sub_term, lc_add_term, lc_zero; cbn; intuition congruence. Qed.
Lemma lit_cf b c v : is_aux v -> cf v (b_lc b one_var c : LC P) = (if existsb (fun w => var_eqb w v) (bvs b) then match b with BNot _ => - c | _ => c end else fzero)%F.
Proof.
  intros Ha. apply aux_one in Ha. destruct b as [a|a|[|]]; cbn [b_lc bvs existsb]; unfold lc_sub_term, lc_add_term, lc_zero; cbn [app]; rewrite ?orb_false_r.
  - cbn [cf fst snd]. destruct (var_eqb _ _); [ring|reflexivity].
  - rewrite cf_tl by exact Ha. cbn [cf fst snd]. destruct (var_eqb _ _); [ring|reflexivity].
  - now rewrite cf_tl.
  - reflexivity.
Qed.
Lemma not_in_bvs v b : existsb (fun w => var_eqb w v) (bvs b) = true <-> In v (bvs b).
Proof. rewrite existsb_exists. split; [intros (w & Hw & E)|intros H; exists v]. - destruct (var_eqb_spec w v); [now subst w|discriminate]. - split; [exact H|]. now destruct (var_eqb_spec v v). Qed.

(** ** Safe combinations *)
Lemma safe_nil R : safe R []. Proof. intros v _ _ (c & [] & _). Qed.
Lemma safe_one R v c : c <> fzero -> safe R [(v, c)].
Proof. intros Hc w _ _ Hw. apply written_mentioned in Hw as [<-|[]]. cbn [fst]. rewrite cf_hd. cbn [cf]. intros E. apply Hc. rewrite <- E. ring. Qed.
Lemma safe_var R v : safe R (lc_add_var lc_zero v). Proof. apply safe_one, f_1_neq_0. Qed.
Lemma safe_twice R v : safe R (lc_add_var (lc_add_var lc_zero v) v).
Proof.
  intros w _ _ Hw. apply written_mentioned in Hw. assert (v = w) as <- by (destruct Hw as [Hw|[Hw|[]]]; exact Hw). unfold lc_add_var, lc_add_term, lc_zero. cbn [app]. rewrite !cf_hd. cbn [cf].
  intros E. apply (f_2_neq_0 (P := P)). rewrite <- E. ring.
Qed.
Lemma safe_minus R v : ok v -> safe R (lc_sub_var (lc_add_var lc_zero one_var) v).
Proof.
  intros Hv w _ Hg Hw. apply written_mentioned in Hw. unfold lc_sub_var, lc_sub_term, lc_add_var, lc_add_term, lc_zero in *. cbn [app] in *.
  assert (N : one_var <> v \/ G v = true). { destruct Hv as [Hv|Hv]; [now right|left; now apply aux_one]. }
  destruct Hw as [<-|[<-|[]]]; cbn [fst] in *.
  - destruct N as [N|N].
    + rewrite cf_hd, cf_tl by auto. cbn [cf]. intros E. apply (f_1_neq_0 (P := P)). rewrite <- E. ring.
    + rewrite cf_hd, cf_tl by congruence. cbn [cf]. intros E. apply (f_1_neq_0 (P := P)). rewrite <- E. ring.
  - destruct N as [N|N]; [|congruence]. rewrite cf_tl, cf_hd by auto. cbn [cf]. intros E. apply (one_not (P := P)). rewrite <- E. ring.
Qed.
Lemma safe_strong (R : Var -> Prop) l : (forall v, R v -> mentioned v l -> G v = true) -> safe R l.
Proof. intros H v Hr Hg Hm. apply written_mentioned in Hm. rewrite H in Hg by assumption. discriminate. Qed.
Lemma safe_lit R b : okb b -> safe R (b_lc b one_var fone).
Proof.
  intros H. destruct b as [a|a|[|]]; cbn [b_lc].
  - apply safe_var.
  - apply (safe_minus R (ab_var a)). apply H. now left.
  - apply safe_var.
  - apply safe_nil.
Qed.

(** ** Bits *)
Lemma ab_alloc_dn na v : dn na (@ab_alloc P v) (fun n a => n = S na /\ G (ab_var a) = true).
Proof.
  unfold ab_alloc, dn, bindq, cs_alloc. cbn [bind wpD cs_enforce]. split; [apply safe_minus; right; exact I|]. split; [apply safe_var|]. intros HG. cbn [ab_var]. split; [reflexivity|].
  apply HG.
  - apply touch_sub. repeat constructor. discriminate.
  - apply touch_add. constructor.
Qed.
Definition fresh na n (a : AllocatedBit) : Prop := n = S na /\ ab_var a = Aux na.
Lemma ab_xor_dn na a b : dn na (@ab_xor P a b) (fresh na).
Proof. unfold ab_xor, dn, bindq, cs_alloc. cbn [bind wpD cs_enforce]. split; [apply safe_twice|]. split; [apply safe_var|]. intros _. split; reflexivity. Qed.
Lemma ab_and_dn na a b : dn na (@ab_and P a b) (fresh na).
Proof. unfold ab_and, dn, bindq, cs_alloc. cbn [bind wpD cs_enforce]. split; [apply safe_var|]. split; [apply safe_var|]. intros _. split; reflexivity. Qed.
Lemma ab_and_not_dn na a b : ok (ab_var b) -> dn na (@ab_and_not P a b) (fresh na).
Proof. intros Hb. unfold ab_and_not, dn, bindq, cs_alloc. cbn [bind wpD cs_enforce]. split; [apply safe_var|]. split; [now apply safe_minus|]. intros _. split; reflexivity. Qed.
Lemma ab_nor_dn na a b : ok (ab_var a) -> ok (ab_var b) -> dn na (@ab_nor P a b) (fresh na).
Proof. intros Ha Hb. unfold ab_nor, dn, bindq, cs_alloc. cbn [bind wpD cs_enforce]. split; [now apply safe_minus|]. split; [now apply safe_minus|]. intros _. split; reflexivity. Qed.

(** The variable of [y] is one of [l] or was allocated between [na] and [n], or it is in [G]. *)
Definition der (l : list Var) (na n : nat) (y : Boolean) : Prop := forall v, In v (bvs y) -> G v = true \/ In v l \/ exists j, v = Aux j /\ na <= j < n.
Lemma der_not l na n y : der l na n y -> der l na n (b_not y). Proof. unfold der. now rewrite bvs_not. Qed.
Lemma der_fresh l na n a : fresh na n a -> der l na n (BIs a).
Proof. intros [-> E] v [<-|[]]. rewrite E. right. right. exists na. split; [reflexivity|lia]. Qed.
Lemma der_left l m na n y : incl (bvs y) l -> der (l ++ m) na n y. Proof. intros H v Hv. right. left. apply in_or_app. auto. Qed.
Lemma der_right l m na n y : incl (bvs y) m -> der (l ++ m) na n y. Proof. intros H v Hv. right. left. apply in_or_app. auto. Qed.
Lemma der_const l na n c : der l na n (BConst c). Proof. intros v []. Qed.
Lemma is_dn na (p : prog P (res AllocatedBit)) l : dn na p (fresh na) -> dn na (bindq p (fun r => Ret (Ok (BIs r)))) (der l na).
Proof. intros H. eapply dn_bindq; [exact H|]. intros n a Hn Ha. apply dn_ret. now apply der_fresh. Qed.
Lemma not_dn na (p : prog P (res Boolean)) l : dn na p (der l na) -> dn na (bindq p (fun r => Ret (Ok (b_not r)))) (der l na).
Proof. intros H. eapply dn_bindq; [exact H|]. intros n a Hn Ha. apply dn_ret. now apply der_not. Qed.
Lemma b_xor_dn na a b : dn na (@b_xor P a b) (der (bvs a ++ bvs b) na).
Proof.
  destruct a as [a|a|[|]], b as [b|b|[|]]; cbn [b_xor]; unfold b_xor_is;
    first [apply dn_ret; first [apply der_const|apply der_left, incl_refl|apply der_right, incl_refl]|apply is_dn, ab_xor_dn|apply not_dn, is_dn, ab_xor_dn].
Qed.
Lemma b_and_dn na a b : okb a -> okb b -> dn na (@b_and P a b) (der (bvs a ++ bvs b) na).
Proof.
  intros Ha Hb. destruct a as [a|a|[|]], b as [b|b|[|]]; cbn [b_and];
    first [apply dn_ret; first [apply der_const|apply der_left, incl_refl|apply der_right, incl_refl]
          |apply is_dn; first [apply ab_and_dn|apply ab_and_not_dn|apply ab_nor_dn]]; first [apply Ha; now left|apply Hb; now left].
Qed.
Lemma der_strong a b na n y : sb a -> sb b -> der (bvs a ++ bvs b) na n y -> der [] na n y.
Proof. intros Ha Hb H v Hv. destruct (H v Hv) as [K|[K|K]]; auto. left. apply in_app_or in K as [K|K]; auto. Qed.
Lemma b_and_dn_s na a b : sb a -> sb b -> dn na (@b_and P a b) (der [] na).
Proof. intros Ha Hb. eapply dn_mono; [apply b_and_dn; now apply sb_okb|]. intros n y _. now apply der_strong. Qed.
Lemma der_s na n y : sb y -> der [] na n y. Proof. intros H v Hv. auto. Qed.
Lemma ch_general_dn na a b c : sb a -> sb b -> sb c -> dn na (@ch_general P a b c) (der [] na).
Proof.
  intros Ha Hb Hc. unfold ch_general, dn, bindq, cs_alloc. cbn [bind wpD cs_enforce]. split; [|split].
  - apply safe_strong. intros v Hv Hm. rewrite sub_lc_app in Hm. unfold mentioned in Hm. rewrite map_app, fst_neg in Hm. apply in_app_or in Hm as [Hm|Hm];
      apply (lit_mentioned_aux _ _ _ Hv) in Hm; auto.
  - apply safe_lit. now apply sb_okb.
  - intros _. now apply der_fresh.
Qed.
Lemma maj_general_dn na a b c : sb a -> sb b -> sb c -> dn na (@maj_general P a b c) (der [] na).
Proof.
  intros Ha Hb Hc. unfold maj_general. unfold dn at 1, bindq at 1, cs_alloc. cbn [bind wpD]. match goal with |- wpD ?n ?p ?Q => change (dn n p (der [] na)) end.
  eapply dn_bindq; [apply dn_ns, b_and_dn_s; assumption|]. intros n bc Hn Hbc. unfold dn. cbn [bind wpD cs_enforce]. split; [|split].
  - rewrite !sub_lc_app, add_lc_app. intros v Hv Hg Hm. apply written_mentioned in Hm. unfold mentioned in Hm. rewrite !map_app, !fst_neg, !in_app_iff in Hm.
    assert (N : forall x, sb x -> cf v (b_lc x one_var fone : LC P) = fzero).
    { intros x Hx. apply cf_unmentioned. intros Hm'. apply (lit_mentioned_aux _ _ _ Hv) in Hm'. rewrite (Hx v Hm') in Hg. discriminate. }
    assert (M : In v (bvs bc)).
    { destruct Hm as [[[Hm|Hm]|Hm]|Hm]; apply (lit_mentioned_aux _ _ _ Hv) in Hm; auto; [rewrite (Hb v Hm) in Hg|rewrite (Hc v Hm) in Hg]; discriminate. }
    rewrite !cf_app, !cf_neg, (N b Hb), (N c Hc), (lit_cf bc fone v Hv), (proj2 (not_in_bvs v bc) M). intros E. apply (f_2_neq_0 (P := P)).
    destruct bc as [x|x|x]; [| |contradiction M]; [rewrite <- E; ring|]. transitivity (- (- (1) + - (1) + - 0 + - 0) : P)%F; [ring|]. rewrite E. ring.
  - apply safe_lit. now apply sb_okb.
  - intros _ v [<-|[]]. right. right. exists na. split; [reflexivity|lia].
Qed.
Lemma b_ch_dn na a b c : sb a -> sb b -> sb c -> dn na (@b_ch P a b c) (der [] na).
Proof.
  intros Ha Hb Hc.
  assert (G1 := ch_general_dn na a b c Ha Hb Hc). assert (A1 := b_and_dn_s na _ _ (sb_not a Ha) Hc). assert (A2 := b_and_dn_s na _ _ Ha Hb).
  assert (A3 := not_dn na _ _ (b_and_dn_s na _ _ Ha (sb_not b Hb))). assert (A4 := not_dn na _ _ (b_and_dn_s na _ _ (sb_not a Ha) (sb_not c Hc))).
  assert (R := der_s na na c Hc).
  destruct a as [a|a|[|]], b as [b|b|[|]], c as [c|c|[|]]; cbn [b_ch]; try assumption; cbn [tri_value b_value]; apply dn_ret; first [apply der_const|exact R].
Qed.
Lemma b_maj_dn na a b c : sb a -> sb b -> sb c -> dn na (@b_maj P a b c) (der [] na).
Proof.
  intros Ha Hb Hc.
  assert (G1 := maj_general_dn na a b c Ha Hb Hc). assert (A1 := b_and_dn_s na _ _ Hb Hc). assert (A2 := b_and_dn_s na _ _ Ha Hc). assert (A3 := b_and_dn_s na _ _ Ha Hb).
  assert (A4 := not_dn na _ _ (b_and_dn_s na _ _ (sb_not a Ha) (sb_not b Hb))). assert (A5 := not_dn na _ _ (b_and_dn_s na _ _ (sb_not a Ha) (sb_not c Hc))).
  assert (A6 := not_dn na _ _ (b_and_dn_s na _ _ (sb_not b Hb) (sb_not c Hc))).
  destruct a as [a|a|[|]], b as [b|b|[|]], c as [c|c|[|]]; cbn [b_maj]; try assumption; cbn [tri_value b_value]; apply dn_ret; apply der_const.
Qed.
(** ** Words: which variables are outside [G], where they come from, and that none occurs twice *)
Definition weakv (l : list Var) : list Var := filter (fun v => negb (G v)) l.
Definition weak (bits : list Boolean) : list Var := weakv (flat_map bvs bits).
Definition span (lo n : nat) (v : Var) : Prop := exists j, v = Aux j /\ lo <= j < n.
Definition wl (lo n : nat) (bits : list Boolean) : Prop := NoDup (weak bits) /\ forall v, In v (weak bits) -> span lo n v.
Lemma weakv_app l m : weakv (l ++ m) = weakv l ++ weakv m.
Proof. unfold weakv. induction l as [|x l IH]; cbn; [reflexivity|]. destruct (G x); cbn; now rewrite IH. Qed.
Lemma weak_app l m : weak (l ++ m) = weak l ++ weak m.
Proof. unfold weak. now rewrite flat_map_app, weakv_app. Qed.
Lemma weak_cons b m : weak (b :: m) = weakv (bvs b) ++ weak m.
Proof. unfold weak. cbn [flat_map]. apply weakv_app. Qed.
Lemma in_weakv v l : In v (weakv l) <-> In v l /\ G v = false.
Proof. unfold weakv. rewrite filter_In. destruct (G v); cbn; intuition congruence. Qed.
Lemma weakv_strong l : (forall v, In v l -> G v = true) -> weakv l = [].
Proof. intros H. destruct (weakv l) as [|x t] eqn:E; [reflexivity|]. assert (K : In x (weakv l)) by (rewrite E; now left). apply in_weakv in K as [K1 K2]. rewrite H in K2 by exact K1. discriminate. Qed.
Lemma weak_strong l : Forall sb l -> weak l = [].
Proof. intros H. apply weakv_strong. intros v Hv. apply in_flat_map in Hv as (b & Hb & Hv). exact (proj1 (Forall_forall _ _) H b Hb v Hv). Qed.
Lemma nodup_app {A} (l m : list A) : NoDup (l ++ m) <-> NoDup l /\ NoDup m /\ forall x, In x l -> ~ In x m.
Proof.
  induction l as [|a l IH]; cbn.
  - split; [intros H; split; [constructor|]; split; [exact H|tauto]|tauto].
  - rewrite !NoDup_cons_iff, IH, in_app_iff. split.
    + intros (H1 & H2 & H3 & H4). repeat split; auto. intros x [<-|Hx]; auto.
    + intros ((H1 & H2) & H3 & H4). repeat split; auto. intros [K|K]; [auto|exact (H4 a (or_introl eq_refl) K)].
Qed.
Lemma bvs_nodup b : NoDup (bvs b). Proof. destruct b; cbn; repeat constructor; auto. Qed.
Lemma weakv_nodup l : NoDup l -> NoDup (weakv l). Proof. apply NoDup_filter. Qed.
Lemma wl_strong lo n l : Forall sb l -> wl lo n l.
Proof. intros H. unfold wl. rewrite (weak_strong l H). split; [constructor|intros v []]. Qed.
Lemma wl_app lo m n x y : lo <= m -> m <= n -> wl lo m x -> wl m n y -> wl lo n (x ++ y).
Proof.
  intros H1 H2 [X1 X2] [Y1 Y2]. unfold wl. rewrite weak_app. split.
  - apply nodup_app. split; [exact X1|]. split; [exact Y1|]. intros v Hv Hw. destruct (X2 v Hv) as (i & -> & Hi), (Y2 _ Hw) as (j & E & Hj). injection E as ->. lia.
  - intros v Hv. apply in_app_or in Hv as [Hv|Hv]; [destruct (X2 v Hv) as (i & -> & Hi)|destruct (Y2 v Hv) as (i & -> & Hi)]; exists i; (split; [reflexivity|lia]).
Qed.
Lemma wl_mono lo n lo' n' x : lo' <= lo -> n <= n' -> wl lo n x -> wl lo' n' x.
Proof. intros H1 H2 [X1 X2]. split; [exact X1|]. intros v Hv. destruct (X2 v Hv) as (i & -> & Hi). exists i. split; [reflexivity|lia]. Qed.

Lemma mapq_wl {X} (f : nat -> X -> prog P (res Boolean)) (src : X -> list Var) l : forall i lo na,
  (forall j x n, In x l -> na <= n -> dn n (f j x) (der (src x) n)) ->
  lo <= na -> NoDup (weakv (flat_map src l)) -> (forall v, In v (weakv (flat_map src l)) -> span lo na v) ->
  dn na (mapq f i l) (fun n ys => length ys = length l /\ NoDup (weak ys) /\ forall v, In v (weak ys) -> In v (weakv (flat_map src l)) \/ span na n v).
Proof.
  induction l as [|x l IH]; intros i lo na Hf Hlo HN HR; cbn [mapq].
  { apply dn_ret. split; [reflexivity|]. split; [constructor|intros v []]. }
  cbn [flat_map] in HN, HR |- *. rewrite weakv_app in HN, HR. apply nodup_app in HN as (N1 & N2 & N3).
  eapply dn_bindq; [apply Hf; [now left|lia]|]. intros n1 y Hn1 Hy.
  eapply dn_bindq; [apply (IH (S i) lo n1)|]; [intros; apply Hf; [now right|lia]|lia|exact N2| |].
  { intros v Hv. destruct (HR v (in_or_app _ _ _ (or_intror Hv))) as (j & -> & Hj). exists j. split; [reflexivity|lia]. }
  intros n2 ys Hn2 (L & M1 & M2). apply dn_ret. split; [cbn; now rewrite L|]. rewrite weak_cons.
  assert (D : forall v, In v (weakv (bvs y)) -> In v (weakv (src x)) \/ span na n1 v).
  { intros v Hv. apply in_weakv in Hv as [Hv Hg]. destruct (Hy v Hv) as [K|[K|K]]; [congruence|left; now apply in_weakv|right; exact K]. }
  split.
  - apply nodup_app. split; [apply weakv_nodup, bvs_nodup|]. split; [exact M1|]. intros v Hv Hw. destruct (D v Hv) as [K|(j & E0 & Hj)], (M2 v Hw) as [K'|(j' & E & Hj')].
    + exact (N3 v K K').
    + subst v. destruct (HR _ (in_or_app _ _ _ (or_introl K))) as (j & E & Hj). injection E as ->. lia.
    + subst v. destruct (HR _ (in_or_app _ _ _ (or_intror K'))) as (j' & E & Hj'). injection E as ->. lia.
    + subst v. injection E as ->. lia.
  - intros v Hv. rewrite weakv_app, in_app_iff. apply in_app_or in Hv as [Hv|Hv].
    + destruct (D v Hv) as [K|(j & -> & Hj)]; [auto|]. right. exists j. split; [reflexivity|lia].
    + destruct (M2 v Hv) as [K|(j & -> & Hj)]; [auto|]. right. exists j. split; [reflexivity|lia].
Qed.

(** Words whose variables are in [G]; words of which this is not known. *)
Definition sw (w : UInt32) : Prop := length (u_bits w) = 32 /\ Forall sb (u_bits w).
Definition ww (lo n : nat) (w : UInt32) : Prop := length (u_bits w) = 32 /\ wl lo n (u_bits w).
Lemma sw_ww lo n w : sw w -> ww lo n w. Proof. intros [H1 H2]. split; [exact H1|now apply wl_strong]. Qed.
Lemma sw_const z : sw (u_constant z).
Proof. split; [reflexivity|]. cbn [u_constant u_bits]. apply Forall_map. apply Forall_forall. intros [|] _ v []. Qed.
Lemma sw_rotr w k : sw w -> sw (u_rotr w k).
Proof.
  intros [H1 H2]. split; cbn [u_rotr u_bits].
  - rewrite firstn_length, app_length, skipn_length, H1. lia.
  - apply Forall_firstn, Forall_app. split; [now apply Forall_skipn|exact H2].
Qed.
Lemma sw_shr w k : sw w -> sw (u_shr w k).
Proof.
  intros [H1 H2]. split; cbn [u_shr u_bits].
  - rewrite firstn_length, app_length, skipn_length, H1, repeat_length. lia.
  - apply Forall_firstn, Forall_app. split; [now apply Forall_skipn|]. apply Forall_forall. intros b Hb. apply repeat_spec in Hb as ->. intros v [].
Qed.
Lemma u_xor_dn lo na a b : lo <= na -> ww lo na a -> sw b -> dn na (@u_xor P a b) (fun n w => ww lo n w).
Proof.
  intros Hlo [A1 [A2 A3]] [B1 B2]. unfold u_xor. cbv zeta.
  assert (E : flat_map (fun x : Boolean * Boolean => bvs (fst x)) (combine (u_bits a) (u_bits b)) = flat_map bvs (u_bits a)).
  { assert (L : length (u_bits a) = length (u_bits b)) by congruence. clear - L. revert L. generalize (u_bits b). induction (u_bits a) as [|x l IH]; intros [|y m] L; try discriminate; [reflexivity|]. cbn. f_equal. apply IH. now injection L. }
  eapply dn_bindq.
  - apply (mapq_wl _ (fun x => bvs (fst x)) _ 0 lo na); [|exact Hlo| |].
    + intros j x n Hx Hn. apply dn_ns. eapply dn_mono; [apply b_xor_dn|]. intros n' y _ Hy v Hv. destruct x as [x y0]. cbn [fst snd] in *.
      pose proof (in_combine_r _ _ _ _ Hx) as Hs. destruct (Hy v Hv) as [K|[K|K]]; auto. apply in_app_or in K as [K|K]; auto.
      left. exact (proj1 (Forall_forall _ _) B2 y0 Hs v K).
    + rewrite E. exact A2.
    + rewrite E. exact A3.
  - cbv beta. rewrite E. intros n ys Hn (L & N1 & N2). apply dn_ret. cbn [ww u_bits]. split; [cbn [u_bits]; rewrite L, combine_length; lia|]. split; [exact N1|]. cbn [u_bits].
    intros v Hv. destruct (N2 v Hv) as [K|(j & -> & Hj)]; [destruct (A3 v K) as (j & -> & Hj)|]; exists j; (split; [reflexivity|lia]).
Qed.
Lemma triop_dn na a b c fn (f : nat -> Boolean -> Boolean -> Boolean -> prog P (res Boolean)) : sw a -> sw b -> sw c ->
  (forall j n x y z, sb x -> sb y -> sb z -> dn n (f j x y z) (der [] n)) -> dn na (@triop P a b c fn f) (fun n w => ww na n w).
Proof.
  intros [A1 A2] [B1 B2] [C1 C2] Hf. unfold triop. cbv zeta.
  assert (E : forall l : list (Boolean * Boolean * Boolean), flat_map (fun _ => @nil Var) l = []) by (induction l; auto).
  eapply dn_bindq.
  - apply (mapq_wl _ (fun _ => []) _ 0 na na); [|lia| |].
    + intros j [[x y] z] n Hx Hn. cbn [fst snd]. pose proof (in_combine_r _ _ _ _ Hx) as Hz. apply in_combine_l in Hx. pose proof (in_combine_r _ _ _ _ Hx) as Hy. apply in_combine_l in Hx.
      apply Hf; [exact (proj1 (Forall_forall _ _) A2 _ Hx)|exact (proj1 (Forall_forall _ _) B2 _ Hy)|exact (proj1 (Forall_forall _ _) C2 _ Hz)].
    + rewrite E. constructor.
    + rewrite E. intros v [].
  - cbv beta. rewrite E. intros n ys Hn (L & N1 & N2). apply dn_ret. split; [cbn [u_bits]; rewrite L, !combine_length; lia|]. split; [exact N1|]. cbn [u_bits].
    intros v Hv. destruct (N2 v Hv) as [[]|K]. exact K.
Qed.
Lemma u_ch_dn na a b c : sw a -> sw b -> sw c -> dn na (@u_ch P a b c) (fun n w => ww na n w).
Proof. intros Ha Hb Hc. apply triop_dn; auto. intros. now apply dn_ns, b_ch_dn. Qed.
Lemma u_maj_dn na a b c : sw a -> sw b -> sw c -> dn na (@u_maj P a b c) (fun n w => ww na n w).
Proof. intros Ha Hb Hc. apply triop_dn; auto. intros. now apply dn_ns, b_maj_dn. Qed.

(** Words with constant bits only, or with none. *)
Definition is_const (b : Boolean) : Prop := match b with BConst _ => True | _ => False end.
Definition uni (w : UInt32) : Prop := Forall is_const (u_bits w) \/ Forall (fun b => ~ is_const b) (u_bits w).
Lemma uni_const z : uni (u_constant z).
Proof. left. cbn [u_constant u_bits]. apply Forall_map, Forall_forall. intros [|] _; exact I. Qed.

(** ** Sums of words *)
(** The combination [l'] is [l] with [z] times [v] added; [z] is [0] or [2^i] up to the sign, [i < n]. *)
Definition sign (z : Z) : Prop := z = 1%Z \/ z = (-1)%Z.
Definition gains (v : Var) (n : nat) (here : Prop) (l l' : LC P) : Prop :=
  (mentioned v l' <-> mentioned v l \/ here) /\
  (~ here -> cf v l' = cf v l) /\
  (here -> exists s m, sign s /\ m < n /\ cf v l' = (cf v l + ofZ (s * 2 ^ Z.of_nat m)%Z)%F).
Lemma add_bits_gains v bits : is_aux v -> G v = false -> forall l k, NoDup (weak bits) ->
  gains v (k + length bits) (In v (flat_map bvs bits)) l (fst (fold_left (@add_bit_step P) bits (l, ofZ (2 ^ Z.of_nat k)%Z))).
Proof.
  intros Ha Hg. induction bits as [|b bits IH]; intros l k HN; cbn [fold_left].
  { cbn. split; [tauto|]. split; [reflexivity|tauto]. }
  rewrite weak_cons in HN. apply nodup_app in HN as (_ & N2 & N3).
  unfold add_bit_step at 2. cbn [fst snd]. rewrite add_lc_app.
  replace (fdouble (ofZ (2 ^ Z.of_nat k)%Z : P)) with (ofZ (2 ^ Z.of_nat (S k))%Z : P).
  2:{ rewrite pow2_S, ofZ_mul, ofZ_2. unfold fdouble. ring. }
  destruct (IH (l ++ b_lc b one_var (ofZ (2 ^ Z.of_nat k)%Z))%list (S k) N2) as (I1 & I2 & I3). cbn [flat_map length]. rewrite Nat.add_succ_r.
  assert (M : mentioned v (l ++ b_lc b one_var (ofZ (2 ^ Z.of_nat k)%Z : P))%list <-> mentioned v l \/ In v (bvs b)).
  { unfold mentioned. rewrite map_app, in_app_iff. fold (mentioned v l) (mentioned v (b_lc b one_var (ofZ (2 ^ Z.of_nat k)%Z : P))). rewrite lit_mentioned_aux by exact Ha. tauto. }
  assert (W : forall w, In v (flat_map bvs w) -> In v (weak w)) by (intros w Hw; now apply in_weakv).
  split; [rewrite I1, M, in_app_iff; tauto|]. split.
  - intros HI. rewrite in_app_iff in HI. rewrite I2 by tauto. rewrite cf_app, lit_cf by exact Ha. destruct (existsb _ (bvs b)) eqn:E; [apply not_in_bvs in E; tauto|]. ring.
  - intros HI. apply in_app_or in HI as [HI|HI].
    + rewrite I2 by (intros K; apply (N3 v); [now apply in_weakv|now apply W]). rewrite cf_app, lit_cf, (proj2 (not_in_bvs v b) HI) by exact Ha.
      destruct b as [x|x|x]; [exists 1%Z, k|exists (-1)%Z, k|contradiction HI].
      * split; [now left|]. split; [lia|]. f_equal. f_equal. lia.
      * split; [now right|]. split; [lia|]. f_equal. replace (-1 * 2 ^ Z.of_nat k)%Z with (- 2 ^ Z.of_nat k)%Z by lia. now rewrite ofZ_neg.
    + destruct (I3 HI) as (s & m & Hs & Hm & E). exists s, m. split; [exact Hs|]. split; [lia|]. rewrite E, cf_app, lit_cf by exact Ha.
      destruct (existsb _ (bvs b)) eqn:E'; [|ring]. apply not_in_bvs in E'. exfalso. apply (N3 v); [now apply in_weakv|now apply W].
Qed.
Lemma add_ops_gains v ops : is_aux v -> G v = false -> forall st, Forall (fun w => length (u_bits w) = 32) ops -> NoDup (weak (flat_map u_bits ops)) ->
  gains v 32 (In v (flat_map bvs (flat_map u_bits ops))) (snd (fst st)) (snd (fst (fold_left (@add_op_step P) ops st))).
Proof.
  intros Ha Hg. induction ops as [|w ops IH]; intros [[rv l] ac] HL HN; cbn [fold_left flat_map].
  { cbn. split; [tauto|]. split; [reflexivity|tauto]. }
  inversion_clear HL as [|? ? H32 HL']. cbn [flat_map] in HN. rewrite weak_app in HN. apply nodup_app in HN as (N1 & N2 & N3).
  pose proof (add_bits_gains v (u_bits w) Ha Hg l 0 N1) as (B1 & B2 & B3). rewrite H32 in B3. change (2 ^ Z.of_nat 0)%Z with 1%Z in *. rewrite ofZ_1 in *.
  destruct (IH (add_op_step (rv, l, ac) w) HL' N2) as (I1 & I2 & I3). cbn [add_op_step fst snd] in *. rewrite flat_map_app.
  set (l1 := fst (fold_left add_bit_step (u_bits w) (l, fone))) in *.
  assert (W : forall w, In v (flat_map bvs w) -> In v (weak w)) by (intros w' Hw; now apply in_weakv).
  split; [rewrite I1, B1, in_app_iff; tauto|]. split.
  - intros HI. rewrite in_app_iff in HI. rewrite I2, B2 by tauto. reflexivity.
  - intros HI. apply in_app_or in HI as [HI|HI].
    + destruct (B3 HI) as (s & m & Hs & Hm & E). exists s, m. split; [exact Hs|]. split; [lia|]. rewrite I2, E; [reflexivity|]. intros K. apply (N3 v); now apply W.
    + destruct (I3 HI) as (s & m & Hs & Hm & E). exists s, m. split; [exact Hs|]. split; [lia|]. rewrite E, B2; [reflexivity|]. intros K. apply (N3 v); now apply W.
Qed.
Lemma add_loop_dn rv m : forall na i c lc bits, Forall (fun b => sb b /\ ~ is_const b) bits ->
  dn na (@add_result_loop P rv m i c lc bits) (fun _ r => Forall (fun b => sb b /\ ~ is_const b) (fst (fst r)) /\ length (fst (fst r)) = length bits + Pos.size_nat m /\ snd r = i + Pos.size_nat m).
Proof.
  induction m as [m IH|m IH|]; intros na i c lc bits Hb; cbn [add_result_loop Pos.size_nat];
    (eapply dn_bindq; [apply dn_ns, ab_alloc_dn|]); intros n a Hn (_ & Ha); cbv zeta;
    (assert (S1 : Forall (fun b => sb b /\ ~ is_const b) (bits ++ [BIs a])) by (apply Forall_app; split; [exact Hb|]; constructor; [split; [intros v [<-|[]]; exact Ha|exact (fun F => F)]|constructor])).
  1,2: eapply dn_mono; [apply IH; exact S1|]; cbv beta; intros n' r _ (R1 & R2 & R3); rewrite app_length in R2; cbn [length] in R2; repeat split; auto; lia.
  apply dn_ret. cbn [fst snd]. rewrite app_length. cbn [length]. repeat split; [exact S1|lia].
Qed.
Lemma addmany_dn na ops : Forall (fun w => length (u_bits w) = 32) ops -> NoDup (weak (flat_map u_bits ops)) -> dn na (@addmany P ops) (fun _ w => sw w /\ uni w).
Proof.
  intros HL HN. unfold addmany. destruct (negb (Nat.leb 64 _)); [exact I|]. destruct (negb (Nat.leb 2 (length ops))) eqn:E2; [exact I|].
  destruct (negb (Nat.leb (length ops) 10)) eqn:E10; [exact I|]. apply negb_false_iff, Nat.leb_le in E2, E10. cbv zeta.
  pose proof (fun v Ha Hg => add_ops_gains v ops Ha Hg (Some 0%Z, lc_zero, true) HL HN) as HI.
  destruct (fold_left add_op_step ops (Some 0%Z, lc_zero, true)) as [[rv lc] ac]. cbn [fst snd] in HI.
  pose proof (add_max_size (length ops) (conj E2 E10)) as HS. cbv zeta in HS. set (m := Z.to_pos _) in *.
  assert (K : dn na (bindq (add_result_loop rv m 0 fone lc_zero []) (fun r => let '(result_bits, result_lc, i) := r in
     bind (cs_enforce_equal i lc result_lc) (fun _ => Ret (Ok {| u_bits := firstn 32 result_bits; u_value := option_map (fun v => (v mod 2 ^ 32)%Z) rv |})))) (fun _ w => sw w /\ uni w)).
  { eapply dn_bindq; [apply add_loop_dn; constructor|]. cbv beta. intros n [[rb rl] ri] Hn (R1 & R2 & R3). cbn [fst snd length] in *. cbn [Nat.add] in R2, R3. subst ri. unfold dn. cbn [bind cs_enforce_equal wpD]. split.
    - intros v Ha Hg. destruct (HI v Ha Hg) as (I1 & I2 & I3). destruct (in_dec var_dec v (flat_map bvs (flat_map u_bits ops))) as [Hin|Hin].
      + destruct (I3 Hin) as (s & j & Hs & Hj & E). exists (s * 2 ^ Z.of_nat j)%Z. assert (P1 : (0 < 2 ^ Z.of_nat j)%Z) by (apply Z.pow_pos_nonneg; lia).
        assert (P2 : (2 ^ Z.of_nat j < 2 ^ Z.of_nat (Pos.size_nat m))%Z) by (apply Z.pow_lt_mono_r; lia).
        split; [destruct Hs; subst s; lia|]. split; [rewrite E; unfold lc_zero; cbn [cf]; ring|]. split; [intros _; destruct Hs; subst s; lia|]. intros Hm. exfalso. apply Hm, I1. now right.
      + exists 0%Z. split; [apply Z.pow_pos_nonneg; lia|]. split; [rewrite (I2 Hin), ofZ_0; reflexivity|]. split; [|reflexivity]. intros Hm. apply I1 in Hm as [[]|Hm]. contradiction.
    - apply Forall_and_inv in R1 as [R1 R1']. split; [split; [cbn [u_bits]; rewrite firstn_length; lia|]; cbn [u_bits]; now apply Forall_firstn|right; cbn [u_bits]; now apply Forall_firstn]. }
  destruct ac; [|exact K]. destruct rv as [v|]; [|exact K]. cbn [option_map]. apply dn_ret. split; [apply sw_const|apply uni_const].
Qed.
End Dense.
