(** Variables are allocated before they are used: auxiliary lemmas. *)
From Coq Require Import String.
From Coq Require Import ZArith List Bool Lia Field.
From Verif Require Import Prelude PrimeField Circuit Loops BooleanGadget NumGadget MultiEq UInt32 UInt32Proof LookupGadget Multipack WordLogic
  Sha256Spec Sha256 Sha256Proof Blake2sSpec Blake2s Blake2sProof.
Import ListNotations.
Local Open Scope nat_scope.

Create HintDb scope.

Section Scope.
Context {P : PrimeField}.
Add Field PFscope : (F_field P).

(** [K] is the set of variables that have been allocated at some later time: replies are in it. *)
Definition lck (K : Var -> Prop) (l : LC P) : Prop := Forall (fun t => K (fst t)) l.
Fixpoint wpK (K : Var -> Prop) {A} (p : prog P A) (Q : A -> Prop) : Prop :=
  match p with
  | Ret a => Q a
  | Panic => True
  | Alloc _ _ k | AllocInput _ _ k => (forall v b, K v -> wpK K (k (Ok v) b) Q) /\ (forall e b, wpK K (k (Err e) b) Q)
  | Enforce _ a b c k => lck K a /\ lck K b /\ lck K c /\ wpK K k Q
  | EnforceEq _ l r k => lck K l /\ lck K r /\ wpK K k Q
  | PushNs _ k | PopNs k => wpK K k Q
  end.

(** The coefficient of [v]. *)
Fixpoint cf (v : Var) (l : LC P) : P := match l with [] => fzero | t :: l => if var_eqb (fst t) v then (snd t + cf v l)%F else cf v l end.
(** Unless [p] ends with a result in [E], it enforces a constraint with [v] in it, allocating other variables only. *)
Fixpoint cov {A} (E : A -> Prop) (v : Var) (p : prog P A) : Prop :=
  match p with
  | Ret a => E a
  | Panic => True
  | Alloc _ _ k | AllocInput _ _ k => (forall w b, w <> v -> cov E v (k (Ok w) b)) /\ (forall e b, cov E v (k (Err e) b))
  | Enforce _ a b c k => cf v a <> fzero \/ cf v b <> fzero \/ cf v c <> fzero \/ cov E v k
  | EnforceEq _ _ _ k | PushNs _ k | PopNs k => cov E v k
  end.
(** As [wpK]; and there is a constraint for every variable that is allocated (if it is none of finitely many older ones). *)
Fixpoint wpC (K : Var -> Prop) {A} (E : A -> Prop) (p : prog P A) (Q : A -> Prop) : Prop :=
  match p with
  | Ret a => Q a
  | Panic => True
  | Alloc _ _ k => (exists S, Forall K S /\ forall v b, ~ In v S -> cov E v (k (Ok v) b)) /\ (forall v b, K v -> wpC K E (k (Ok v) b) Q) /\ (forall e b, wpC K E (k (Err e) b) Q)
  | AllocInput _ _ k => (forall v b, K v -> wpC K E (k (Ok v) b) Q) /\ (forall e b, wpC K E (k (Err e) b) Q)
  | Enforce _ a b c k => lck K a /\ lck K b /\ lck K c /\ wpC K E k Q
  | EnforceEq _ l r k => lck K l /\ lck K r /\ wpC K E k Q
  | PushNs _ k | PopNs k => wpC K E k Q
  end.
Definition is_err {A} (r : res A) : Prop := match r with Ok _ => False | Err _ => True end.

(** ** Constraining a variable *)
Lemma cov_bind {A B} (E : A -> Prop) (E' : B -> Prop) v (p : prog P A) (g : A -> prog P B) : (forall a, E a -> cov E' v (g a)) -> cov E v p -> cov E' v (bind p g).
Proof.
  intros Hg. induction p as [a| |n f k IH|n f k IH|n a b c k IH|n l r k IH|n k IH|k IH]; cbn; auto.
  - intros [H1 H2]. split; auto.
  - intros [H1 H2]. split; auto.
  - tauto.
Qed.
Lemma cov_right {A B} (E' : B -> Prop) v (p : prog P A) (g : A -> prog P B) : (forall a, cov E' v (g a)) -> cov E' v (bind p g).
Proof.
  intros Hg. induction p as [a| |n f k IH|n f k IH|n a b c k IH|n l r k IH|n k IH|k IH]; cbn; auto.
Qed.
Lemma cov_after {A B} (E' : B -> Prop) v (p : prog P A) (g : A -> prog P B) Q : wpK (fun w => w <> v) p Q -> (forall a, Q a -> cov E' v (g a)) -> cov E' v (bind p g).
Proof.
  intros Hp Hg. induction p as [a| |n f k IH|n f k IH|n a b c k IH|n l r k IH|n k IH|k IH]; cbn in *; auto.
  - destruct Hp as [H1 H2]. split; auto.
  - destruct Hp as [H1 H2]. split; auto.
  - destruct Hp as (_ & _ & _ & Hp). auto.
  - destruct Hp as (_ & _ & Hp). auto.
Qed.
Lemma cov_bindq {A B} v (p : prog P (res A)) (g : A -> prog P (res B)) : cov is_err v p -> cov is_err v (bindq p g).
Proof. apply cov_bind. intros [a|e]; cbn; [contradiction|auto]. Qed.
Lemma cov_afterq {A B} v (p : prog P (res A)) (g : A -> prog P (res B)) Q : wpK (fun w => w <> v) p (okP Q) -> (forall a, Q a -> cov is_err v (g a)) -> cov is_err v (bindq p g).
Proof. intros Hp Hg. eapply cov_after; [exact Hp|]. intros [a|e]; cbn; auto. Qed.

Lemma var_eqb_spec v w : reflect (v = w) (var_eqb v w).
Proof.
  destruct v as [i|i], w as [j|j]; cbn; try (constructor; discriminate); destruct (Nat.eqb_spec i j); constructor; congruence.
Qed.
Lemma cf_app v l m : cf v (l ++ m) = (cf v l + cf v m)%F.
Proof. induction l as [|[w c] l IH]; cbn [app cf fst snd]; [ring|]. rewrite IH. destruct (var_eqb w v); ring. Qed.
Lemma cf_other v l : lck (fun w => w <> v) l -> cf v l = fzero.
Proof. induction 1 as [|[w c] l Hw _ IH]; [reflexivity|]. cbn [cf fst snd] in *. destruct (var_eqb_spec w v); [contradiction|exact IH]. Qed.
Lemma cf_same v c : cf v [(v, c)] = c.
Proof. cbn [cf fst snd]. destruct (var_eqb_spec v v); [ring|contradiction]. Qed.
Lemma one_not : (- fone)%F <> (fzero : P).
Proof. intros H. apply (f_1_neq_0 (P := P)). replace (fone : P) with (- - (fone : P))%F by ring. rewrite H. ring. Qed.

(** ** Linear combinations *)
Section LC.
Variable K : Var -> Prop.
Lemma lck_zero : lck K lc_zero. Proof. constructor. Qed.
Lemma lck_app l m : lck K l -> lck K m -> lck K (l ++ m). Proof. intros. apply Forall_app; auto. Qed.
Lemma lck_add_term l c v : lck K l -> K v -> lck K (lc_add_term l c v).
Proof. intros. apply lck_app; auto. constructor; auto. Qed.
Lemma lck_sub_term l c v : lck K l -> K v -> lck K (lc_sub_term l c v). Proof. apply lck_add_term. Qed.
Lemma lck_add_var l v : lck K l -> K v -> lck K (lc_add_var l v). Proof. apply lck_add_term. Qed.
Lemma lck_sub_var l v : lck K l -> K v -> lck K (lc_sub_var l v). Proof. apply lck_sub_term. Qed.
Lemma lck_fold (f : LC P -> Var * P -> LC P) m : (forall l t, lck K l -> K (fst t) -> lck K (f l t)) -> lck K m -> forall l, lck K l -> lck K (fold_left f m l).
Proof. intros Hf. induction 1; cbn; auto. Qed.
Lemma lck_add_lc l m : lck K l -> lck K m -> lck K (lc_add_lc l m).
Proof. intros Hl Hm. apply lck_fold; auto. intros. now apply lck_add_term. Qed.
Lemma lck_sub_lc l m : lck K l -> lck K m -> lck K (lc_sub_lc l m).
Proof. intros Hl Hm. apply lck_fold; auto. intros. now apply lck_sub_term. Qed.
Lemma lck_add_scaled l c m : lck K l -> lck K m -> lck K (lc_add_scaled l c m).
Proof. intros Hl Hm. apply lck_fold; auto. intros. now apply lck_add_term. Qed.
Lemma lck_sub_scaled l c m : lck K l -> lck K m -> lck K (lc_sub_scaled l c m).
Proof. intros Hl Hm. apply lck_fold; auto. intros. now apply lck_sub_term. Qed.
Definition kb (b : Boolean) : Prop := match b with BIs a | BNot a => K (ab_var a) | BConst _ => True end.
Definition ka (a : AllocatedBit) : Prop := K (ab_var a).
Lemma kb_not b : kb b -> kb (b_not b). Proof. destruct b; auto. Qed.
Lemma lck_b_lc b c : K one_var -> kb b -> lck K (b_lc b one_var c).
Proof. intros K1. destruct b as [a|a|[|]]; cbn [kb b_lc]; intros H; auto using lck_add_term, lck_sub_term, lck_zero. Qed.
Definition kn (a : AllocatedNum P) : Prop := K (an_var a).
Definition knum (a : Num P) : Prop := lck K (num_lc_ a).
Definition bvs (b : Boolean) : list Var := match b with BIs a | BNot a => [ab_var a] | BConst _ => [] end.
Lemma kb_bvs b : kb b -> Forall K (bvs b). Proof. destruct b; cbn; auto. Qed.
Lemma bvs_kb b : (forall v, In v (bvs b) -> K v) -> kb b. Proof. destruct b; cbn; auto. Qed.
End LC.

(** ** Where the coefficient is not zero *)
Section Touch.
Variable v : Var.
Notation off := (lck (fun w => w <> v)).
Lemma touch_add l : off l -> cf v (lc_add_var l v) <> fzero.
Proof.
  intros H. unfold lc_add_var, lc_add_term. rewrite cf_app, (cf_other v l H), cf_same. intros E. apply (f_1_neq_0 (P := P)). rewrite <- E. ring.
Qed.
Lemma touch_sub l : off l -> cf v (lc_sub_var l v) <> fzero.
Proof.
  intros H. unfold lc_sub_var, lc_sub_term, lc_add_term. rewrite cf_app, (cf_other v l H), cf_same. intros E. apply one_not. rewrite <- E. ring.
Qed.
Lemma cf_add_term_off l c w : w <> v -> cf v (lc_add_term l c w) = cf v l.
Proof. intros H. unfold lc_add_term. rewrite cf_app, (cf_other v [(w, c)]); [ring|]. constructor; auto. Qed.
Lemma touch_term l c w : cf v l <> fzero -> w <> v -> cf v (lc_sub_term l c w) <> fzero.
Proof. intros Hl Hw. unfold lc_sub_term. now rewrite cf_add_term_off. Qed.
Lemma touch_sub_lc l m : cf v l <> fzero -> off m -> cf v (lc_sub_lc l m) <> fzero.
Proof.
  intros Hl Hm. revert l Hl. unfold lc_sub_lc. induction Hm as [|[w c] m Hw _ IH]; intros l Hl; [exact Hl|]. cbn [fold_left fst snd] in *. apply IH. now apply touch_term.
Qed.
End Touch.

Section Rules.
Variable K : Var -> Prop.
Hypothesis K1 : K one_var.
Notation wpK := (wpK K). Notation wpC := (wpC K). Notation lck := (lck K).
Notation kb := (kb K). Notation ka := (ka K).

Lemma wpK_mono {A} (p : prog P A) (Q Q' : A -> Prop) : (forall a, Q a -> Q' a) -> wpK p Q -> wpK p Q'.
Proof.
  intros HQ. induction p as [a| |n f k IH|n f k IH|n a b c k IH|n l r k IH|n k IH|k IH]; cbn; auto; try tauto.
  - intros [H1 H2]. split; auto.
  - intros [H1 H2]. split; auto.
Qed.
Lemma wpC_wpK {A} E (p : prog P A) Q : wpC E p Q -> wpK p Q.
Proof.
  induction p as [a| |n f k IH|n f k IH|n a b c k IH|n l r k IH|n k IH|k IH]; cbn; auto; try tauto.
  - intros (_ & H1 & H2). split; auto.
  - intros [H1 H2]. split; auto.
Qed.
Lemma wpC_bind {A B} (E : A -> Prop) (E' : B -> Prop) (p : prog P A) (g : A -> prog P B) Q :
  (forall a v, E a -> cov E' v (g a)) -> wpC E p (fun a => wpC E' (g a) Q) -> wpC E' (bind p g) Q.
Proof.
  intros Hg. induction p as [a| |n f k IH|n f k IH|n a b c k IH|n l r k IH|n k IH|k IH]; cbn; auto; try tauto.
  - intros ((S & HS & Hc) & H1 & H2). split; [|split; auto]. exists S. split; [exact HS|]. intros v b Hv. eapply cov_bind; [|apply Hc; exact Hv]. auto.
  - intros [H1 H2]. split; auto.
Qed.
Lemma wpC_mono {A} E (p : prog P A) (Q Q' : A -> Prop) : (forall a, Q a -> Q' a) -> wpC E p Q -> wpC E p Q'.
Proof.
  intros HQ. induction p as [a| |n f k IH|n f k IH|n a b c k IH|n l r k IH|n k IH|k IH]; cbn; auto; try tauto.
  - intros (H0 & H1 & H2). split; auto.
  - intros [H1 H2]. split; auto.
Qed.
Definition scop {A} (p : prog P (res A)) (Q : A -> Prop) : Prop := wpC is_err p (okP Q).
Lemma scop_wpK {A} (p : prog P (res A)) (Q : A -> Prop) : scop p Q -> wpK p (okP Q). Proof. apply wpC_wpK. Qed.
Lemma scop_mono {A} (p : prog P (res A)) (Q Q' : A -> Prop) : (forall a, Q a -> Q' a) -> scop p Q -> scop p Q'.
Proof. intros H. apply wpC_mono. intros [a|e]; cbn; auto. Qed.
Lemma scop_bindq {A B} (p : prog P (res A)) (g : A -> prog P (res B)) (Q1 : A -> Prop) Q :
  scop p Q1 -> (forall a, Q1 a -> scop (g a) Q) -> scop (bindq p g) Q.
Proof.
  intros Hp Hg. unfold scop, bindq. apply wpC_bind with (E := is_err).
  - intros [a|e] v; cbn; [contradiction|auto].
  - eapply wpC_mono; [|exact Hp]. intros [a|e] Ha; cbn in *; [exact (Hg a Ha)|exact I].
Qed.
Lemma scop_ret {A} (a : A) (Q : A -> Prop) : Q a -> scop (Ret (Ok a)) Q. Proof. auto. Qed.
Lemma scop_ns {A} n (p : prog P (res A)) Q : scop p Q -> scop (ns n p) Q.
Proof. intros H. unfold scop, ns. cbn. apply wpC_bind with (E := is_err); [auto|]. eapply wpC_mono; [|exact H]. auto. Qed.
Lemma wpK_ns {A} n (p : prog P A) Q : wpK p Q -> wpK (ns n p) Q.
Proof.
  unfold ns. cbn. induction p as [a| |m f k IH|m f k IH|m a b c k IH|m l r k IH|m k IH|k IH]; cbn; auto; try tauto.
  - intros [H1 H2]. split; auto.
  - intros [H1 H2]. split; auto.
Qed.
Lemma scop_panic {A} (Q : A -> Prop) : scop Panic Q. Proof. exact I. Qed.
(** The variable is constrained later; [S] are older ones. *)
Lemma scop_alloc {B} S n f (g : Var * bool -> prog P (res B)) Q : Forall K S -> (forall v b, ~ In v S -> cov is_err v (g (v, b))) ->
  (forall v b, K v -> scop (g (v, b)) Q) -> scop (bindq (cs_alloc n f) g) Q.
Proof. intros HS Hc H. unfold scop, bindq, cs_alloc. cbn. split; [exists S; auto|]. split; [intros v b Hv; exact (H v b Hv)|intros; exact I]. Qed.
Lemma scop_alloc_input {B} n f (g : Var * bool -> prog P (res B)) Q : (forall v b, K v -> scop (g (v, b)) Q) -> scop (bindq (cs_alloc_input n f) g) Q.
Proof. intros H. unfold scop, bindq, cs_alloc_input. cbn. split; [intros v b Hv; exact (H v b Hv)|intros; exact I]. Qed.
Lemma scop_enforce {B} n a b c (k : unit -> prog P (res B)) Q : lck a -> lck b -> lck c -> scop (k tt) Q -> scop (bind (cs_enforce n a b c) k) Q.
Proof. intros. unfold scop. cbn. repeat (split; [assumption|]). assumption. Qed.
Lemma scop_enforce_equal {B} n l r (k : unit -> prog P (res B)) Q : lck l -> lck r -> scop (k tt) Q -> scop (bind (cs_enforce_equal n l r) k) Q.
Proof. intros. unfold scop. cbn. repeat (split; [assumption|]). assumption. Qed.
Lemma scop_mapq {A B} (f : nat -> A -> prog P (res B)) (Q : B -> Prop) l : forall i,
  (forall j x, In x l -> scop (f j x) Q) -> scop (mapq f i l) (fun ys => Forall Q ys /\ length ys = length l).
Proof.
  induction l as [|x l IH]; intros i H; cbn [mapq]; [apply scop_ret; auto|].
  eapply scop_bindq; [apply H; now left|]. intros y Hy. eapply scop_bindq; [apply IH; intros; apply H; now right|].
  cbv beta. intros ys [Hys Hl]. apply scop_ret. split; [now constructor|cbn; now rewrite Hl].
Qed.
Lemma scop_foldq {S A} (f : nat -> S -> A -> prog P (res S)) (Inv : S -> Prop) l : forall i s,
  Inv s -> (forall j x s, In x l -> Inv s -> scop (f j s x) Inv) -> scop (foldq f i s l) Inv.
Proof.
  induction l as [|x l IH]; intros i s Hs H; cbn [foldq]; [now apply scop_ret|].
  eapply scop_bindq; [apply H; [now left|exact Hs]|]. intros s' Hs'. apply IH; [exact Hs'|]. intros; apply H; auto. now right.
Qed.

(** ** Bits *)
Local Hint Resolve lck_zero lck_add_term lck_sub_term lck_add_var lck_sub_var lck_add_lc lck_sub_lc lck_add_scaled lck_sub_scaled lck_b_lc kb_not : scope.
Local Hint Resolve touch_add touch_sub touch_term touch_sub_lc : scope.
Local Hint Extern 1 (_ <> _) => let H := fresh in intros H; match goal with N : ~ In _ _ |- _ => apply N; cbn [In app]; rewrite ?in_app_iff; cbn [In]; tauto end : scope.
Local Hint Extern 2 (Scope.kb _ _) => apply bvs_kb; let w := fresh in let H := fresh in let H' := fresh in intros w H H'; subst w;
  match goal with N : ~ In _ _ |- _ => apply N; cbn [In app]; rewrite ?in_app_iff; cbn [In]; tauto end : scope.
Ltac sc := auto 12 with scope.
Ltac known := repeat first [apply Forall_nil|apply Forall_cons; [assumption|]|apply kb_bvs; assumption|apply Forall_app; split].
Ltac touches := cbn [bind cs_enforce cov]; first [left; solve [sc]|right; left; solve [sc]|right; right; left; solve [sc]].
Ltac gate S := let Hv := fresh "Hv" in apply (scop_alloc S); [known|intros ? ? Hv; touches|intros ? ? Hv; apply scop_enforce; [sc|sc|sc|apply scop_ret; try exact Hv; try exact I]].

Lemma ab_alloc_scop v : scop (@ab_alloc P v) ka. Proof. unfold ab_alloc. gate [one_var]. Qed.
Lemma cond_scop v a : ka a -> scop (@ab_alloc_conditionally P v a) ka.
Proof. unfold ka. intros Ha. unfold ab_alloc_conditionally. gate [one_var; ab_var a]. Qed.
Lemma ab_xor_scop a b : ka a -> ka b -> scop (@ab_xor P a b) ka.
Proof. unfold ka. intros Ha Hb. unfold ab_xor. gate [one_var; ab_var a; ab_var b]. Qed.
Lemma ab_and_scop a b : ka a -> ka b -> scop (@ab_and P a b) ka.
Proof. unfold ka. intros Ha Hb. unfold ab_and. gate [one_var; ab_var a; ab_var b]. Qed.
Lemma ab_and_not_scop a b : ka a -> ka b -> scop (@ab_and_not P a b) ka.
Proof. unfold ka. intros Ha Hb. unfold ab_and_not. gate [one_var; ab_var a; ab_var b]. Qed.
Lemma ab_nor_scop a b : ka a -> ka b -> scop (@ab_nor P a b) ka.
Proof. unfold ka. intros Ha Hb. unfold ab_nor. gate [one_var; ab_var a; ab_var b]. Qed.
Lemma is_scop (p : prog P (res AllocatedBit)) : scop p ka -> scop (bindq p (fun r => Ret (Ok (BIs r)))) kb.
Proof. intros H. eapply scop_bindq; [exact H|]. intros r Hr. apply scop_ret. exact Hr. Qed.
Lemma not_scop (p : prog P (res Boolean)) : scop p kb -> scop (bindq p (fun r => Ret (Ok (b_not r)))) kb.
Proof. intros H. eapply scop_bindq; [exact H|]. intros r Hr. apply scop_ret. now apply kb_not. Qed.
Lemma b_xor_scop a b : kb a -> kb b -> scop (@b_xor P a b) kb.
Proof.
  destruct a as [a|a|[|]], b as [b|b|[|]]; cbn [kb b_xor]; intros Ha Hb; try (apply scop_ret; exact Ha); try (apply scop_ret; exact Hb); try (apply scop_ret; exact I);
    try apply not_scop; apply is_scop, ab_xor_scop; assumption.
Qed.
Lemma b_and_scop a b : kb a -> kb b -> scop (@b_and P a b) kb.
Proof.
  destruct a as [a|a|[|]], b as [b|b|[|]]; cbn [kb b_and]; intros Ha Hb; try (apply scop_ret; exact Ha); try (apply scop_ret; exact Hb); try (apply scop_ret; exact I);
    apply is_scop; first [apply ab_and_scop|apply ab_and_not_scop|apply ab_nor_scop]; assumption.
Qed.
Lemma b_enforce_equal_scop a b : kb a -> kb b -> scop (@b_enforce_equal P a b) (fun _ => True).
Proof.
  destruct a as [a|a|[|]], b as [b|b|[|]]; cbn [b_enforce_equal eqb]; intros Ha Hb; try exact I;
    apply scop_enforce; sc; try (apply scop_ret; exact I).
Qed.
Lemma an_alloc_wpK v : wpK (@an_alloc P v) (okP (kn K)).
Proof. unfold an_alloc. cbn. split; [intros w b Hw; exact Hw|intros; exact I]. Qed.
End Rules.

Section Rules2.
Variable K : Var -> Prop.
Hypothesis K1 : K one_var.
Notation wpK := (wpK K). Notation wpC := (wpC K). Notation lck := (lck K). Notation scop := (scop K).
Notation ab_alloc_scop := (ab_alloc_scop K K1). Notation cond_scop := (cond_scop K K1). Notation b_and_scop := (b_and_scop K K1). Notation b_xor_scop := (b_xor_scop K K1).
Notation kb := (kb K). Notation ka := (ka K). Notation kn := (kn K). Notation knum := (knum K).
Local Hint Resolve lck_zero lck_add_term lck_sub_term lck_add_var lck_sub_var lck_add_lc lck_sub_lc lck_add_scaled lck_sub_scaled lck_b_lc kb_not : scope.
Local Hint Resolve touch_add touch_sub touch_term touch_sub_lc : scope.
Local Hint Extern 1 (_ <> _) => let H := fresh in intros H; match goal with N : ~ In _ _ |- _ => apply N; cbn [In app]; rewrite ?in_app_iff; cbn [In]; tauto end : scope.
Local Hint Extern 2 (Scope.kb _ _) => apply bvs_kb; let w := fresh in let H := fresh in let H' := fresh in intros w H H'; subst w;
  match goal with N : ~ In _ _ |- _ => apply N; cbn [In app]; rewrite ?in_app_iff; cbn [In]; tauto end : scope.
Ltac sc := auto 12 with scope.
Ltac known := repeat first [apply Forall_nil|apply Forall_cons; [assumption|]|apply kb_bvs; assumption|apply Forall_app; split].
Ltac touches := cbn [bind cs_enforce cov]; first [left; solve [sc]|right; left; solve [sc]|right; right; left; solve [sc]].
Ltac gate S := let Hv := fresh "Hv" in apply (scop_alloc K S); [known|intros ? ? Hv; touches|intros ? ? Hv; apply scop_enforce; [sc|sc|sc|apply scop_ret; try exact Hv; try exact I]].

Lemma ch_general_scop a b c : kb a -> kb b -> kb c -> scop (@ch_general P a b c) kb.
Proof. intros Ha Hb Hc. unfold ch_general. gate (one_var :: bvs a ++ bvs b ++ bvs c). Qed.
Lemma maj_general_scop a b c : kb a -> kb b -> kb c -> scop (@maj_general P a b c) kb.
Proof.
  intros Ha Hb Hc. unfold maj_general. apply (scop_alloc _ (one_var :: bvs a ++ bvs b ++ bvs c)); [known| |].
  { intros v inv Hv. eapply cov_afterq; [apply wpK_ns, scop_wpK, Scope.b_and_scop; sc|]. intros bc Hbc. cbv beta in Hbc. touches. }
  intros v inv Hv. eapply scop_bindq; [apply scop_ns, b_and_scop; assumption|].
  intros bc Hbc. apply scop_enforce; [sc|sc|sc|apply scop_ret; exact Hv].
Qed.
Lemma b_ch_scop a b c : kb a -> kb b -> kb c -> scop (@b_ch P a b c) kb.
Proof.
  intros Ha Hb Hc.
  assert (G := ch_general_scop a b c Ha Hb Hc). assert (A1 := b_and_scop _ _ (kb_not K a Ha) Hc). assert (A2 := b_and_scop _ _ Ha Hb).
  assert (A3 := not_scop K _ (b_and_scop _ _ Ha (kb_not K b Hb))). assert (A4 := not_scop K _ (b_and_scop _ _ (kb_not K a Ha) (kb_not K c Hc))).
  destruct a as [a|a|[|]], b as [b|b|[|]], c as [c|c|[|]]; cbn [b_ch]; try assumption; cbn [tri_value b_value]; apply scop_ret; assumption || exact I.
Qed.
Lemma b_maj_scop a b c : kb a -> kb b -> kb c -> scop (@b_maj P a b c) kb.
Proof.
  intros Ha Hb Hc.
  assert (G := maj_general_scop a b c Ha Hb Hc). assert (A1 := b_and_scop _ _ Hb Hc). assert (A2 := b_and_scop _ _ Ha Hc). assert (A3 := b_and_scop _ _ Ha Hb).
  assert (A4 := not_scop K _ (b_and_scop _ _ (kb_not K a Ha) (kb_not K b Hb))). assert (A5 := not_scop K _ (b_and_scop _ _ (kb_not K a Ha) (kb_not K c Hc))).
  assert (A6 := not_scop K _ (b_and_scop _ _ (kb_not K b Hb) (kb_not K c Hc))).
  destruct a as [a|a|[|]], b as [b|b|[|]], c as [c|c|[|]]; cbn [b_maj]; try assumption; cbn [tri_value b_value]; apply scop_ret; assumption || exact I.
Qed.
Lemma alloc_bits_scop i l : scop (mapq (@alloc_bit_at P) i l) (Forall ka).
Proof. eapply scop_mono; [|apply scop_mapq; intros; apply scop_ns, ab_alloc_scop]. cbv beta. tauto. Qed.
Lemma Forall_kb l : Forall ka l -> Forall kb (map BIs l). Proof. induction 1; constructor; auto. Qed.
Lemma u64_scop v : scop (@u64_into_boolean_vec_le P v) (Forall kb).
Proof.
  unfold u64_into_boolean_vec_le. eapply scop_mono; [|apply scop_mapq; intros; apply is_scop, scop_ns, ab_alloc_scop]. cbv beta. tauto.
Qed.
Lemma field_bits_scop (Q : PrimeField) (v : option Q) : scop (@field_into_allocated_bits_le P Q v) (Forall ka).
Proof.
  unfold field_into_allocated_bits_le. destruct v as [v|]; [|apply alloc_bits_scop].
  destruct (strip_leading _ _ _) as [tmp|]; [|exact I]. destruct (Nat.eqb _ _); [apply alloc_bits_scop|exact I].
Qed.
Lemma field_vec_scop (Q : PrimeField) (v : option Q) : scop (@field_into_boolean_vec_le P Q v) (Forall kb).
Proof. eapply scop_bindq; [apply field_bits_scop|]. intros l Hl. apply scop_ret. now apply Forall_kb. Qed.

(** ** Numbers *)
(** A number is constrained later. *)
Lemma scop_num {B} S n v (g : AllocatedNum P -> prog P (res B)) Q : Forall K S -> (forall r, ~ In (an_var r) S -> cov is_err (an_var r) (g r)) ->
  (forall r, kn r -> scop (g r) Q) -> scop (bindq (ns n (an_alloc v)) g) Q.
Proof.
  intros HS Hc Hg. unfold Scope.scop, bindq, ns, an_alloc. cbn. split; [|split].
  - exists S. split; [exact HS|]. intros w b Hw. exact (Hc {| an_value := recorded b v; an_var := w |} Hw).
  - intros w b Hw. apply (Hg {| an_value := recorded b v; an_var := w |}). exact Hw.
  - intros; exact I.
Qed.
Lemma inputize_scop a : kn a -> scop (@an_inputize P a) (fun _ => True).
Proof. unfold kn. intros Ha. unfold an_inputize. apply scop_alloc_input. intros v b Hv. apply scop_enforce; [sc|sc|sc|exact I]. Qed.
Lemma mul_scop a b : kn a -> kn b -> scop (@an_mul P a b) kn.
Proof. unfold kn. intros Ha Hb. unfold an_mul. gate [an_var a; an_var b]. Qed.
Lemma square_scop a : kn a -> scop (@an_square P a) kn.
Proof. unfold kn. intros Ha. unfold an_square. gate [an_var a]. Qed.
Lemma nonzero_scop a : kn a -> scop (@an_assert_nonzero P a) (fun _ => True).
Proof. unfold kn. intros Ha. unfold an_assert_nonzero. gate [one_var; an_var a]. Qed.
Lemma reverse_scop a b c : kn a -> kn b -> kb c -> scop (@an_conditionally_reverse P a b c) (fun r => kn (fst r) /\ kn (snd r)).
Proof.
  unfold Scope.kn at 1 2. intros Ha Hb Hc. unfold an_conditionally_reverse. apply (scop_num (one_var :: an_var a :: an_var b :: bvs c)); [known|intros r Hr; touches|].
  unfold Scope.kn. intros c' Hc'.
  apply scop_enforce; [sc|sc|sc|]. apply (scop_num (one_var :: an_var a :: an_var b :: bvs c)); [known|intros r Hr; touches|]. unfold Scope.kn. intros d Hd.
  apply scop_enforce; [sc|sc|sc|]. apply scop_ret. split; assumption.
Qed.
Lemma unpack_fold vars : Forall K vars -> forall l (c : P), lck l -> lck (fst (fold_left unpack_step vars (l, c))).
Proof. induction 1 as [|v vars Hv _ IH]; intros l c Hl; [exact Hl|]. cbn [fold_left]. unfold unpack_step at 2. cbn [fst snd]. apply IH. sc. Qed.
Lemma unpack_scope l : Forall ka l -> lck (unpack_lc (map ab_var l)).
Proof. intros H. apply unpack_fold; [|apply lck_zero]. induction H; constructor; auto. Qed.
Lemma to_bits_scop a : kn a -> scop (@to_bits_le P a) (Forall kb).
Proof.
  unfold kn. intros Ha. unfold to_bits_le. eapply scop_bindq; [apply field_bits_scop|]. intros l Hl.
  apply scop_enforce; [sc|sc| |apply scop_ret; now apply Forall_kb]. apply lck_sub_var; [now apply unpack_scope|exact Ha].
Qed.
Lemma kary_scop l : Forall ka l -> scop (@kary_and P l) ka.
Proof.
  intros H. destruct H as [|x l Hx H]; [exact I|]. cbn [kary_and]. apply scop_foldq; [exact Hx|].
  rewrite Forall_forall in H. intros j b s Hb Hs. apply scop_ns, ab_and_scop; auto.
Qed.
Definition kst (s : StrictSt) : Prop := Forall ka (st_result s) /\ (forall a, st_last_run s = Some a -> ka a) /\ Forall ka (st_current_run s).
Lemma strict_step_scop s x : kst s -> scop (@strict_step P s x) kst.
Proof.
  intros (H1 & H2 & H3). unfold strict_step. destruct x as [b ab]. destruct (negb (orb (st_found_one s) b)).
  { destruct ab as [[|]|]; first [exact I|apply scop_ret; split; [|split]; assumption]. }
  destruct b.
  - eapply scop_bindq; [apply scop_ns, ab_alloc_scop|]. intros a Ha. apply scop_ret.
    split; [|split]; cbn [st_result st_last_run st_current_run]; auto; apply Forall_app; split; auto.
  - eapply scop_bindq with (Q1 := fun o => forall a, o = Some a -> ka a).
    + assert (R : Forall ka (match st_last_run s with Some l => (st_current_run s ++ [l])%list | None => st_current_run s end)).
      { destruct (st_last_run s) as [l|]; [apply Forall_app; split; auto|exact H3]. }
      destruct (st_current_run s) as [|y ys]; [apply scop_ret; exact H2|].
      eapply scop_bindq; [apply scop_ns, kary_scop, R|]. intros k Hk. apply scop_ret. intros a [= <-]. exact Hk.
    + cbv beta. intros [l|] Hl; [|exact I]. eapply scop_bindq; [apply scop_ns, cond_scop; auto|]. intros a Ha. apply scop_ret.
      split; [|split]; cbn [st_result st_last_run st_current_run]; auto. apply Forall_app; split; auto.
Qed.
Lemma strict_scop a : kn a -> scop (@to_bits_le_strict P a) (Forall kb).
Proof.
  unfold kn. intros Ha. unfold to_bits_le_strict. eapply scop_bindq.
  - apply scop_foldq with (Inv := kst); [|intros; now apply strict_step_scop]. split; [constructor|]. split; [discriminate|constructor].
  - intros s (H1 & _ & _). destruct (st_current_run s); [|exact I]. apply scop_enforce; [sc|sc| |].
    + apply lck_sub_var; [|exact Ha]. apply unpack_scope. now apply Forall_rev.
    + apply scop_ret. apply Forall_rev. now apply Forall_kb.
Qed.
Lemma knum_add n b c : knum n -> kb b -> knum (num_add_bool n one_var b c).
Proof. unfold knum. intros Hn Hb. cbn [num_lc_ num_add_bool]. sc. Qed.
Lemma lookup_con_scop {B} n b0 b1 b2 pc cs r (k : unit -> prog P (res B)) Q : kb b0 -> kb b1 -> kb b2 -> kb pc -> kn r -> scop (k tt) Q ->
  scop (bind (@lookup_constraint P n b0 b1 b2 pc cs r) k) Q.
Proof. unfold kn. intros. unfold lookup_constraint. apply scop_enforce; [sc|sc| |assumption]. repeat (apply lck_sub_lc; [|sc]). sc. Qed.
Lemma lookup3_scop bits coords : Forall kb bits -> scop (@lookup3_xy P bits coords) (fun r => kn (fst r) /\ kn (snd r)).
Proof.
  intros H. unfold lookup3_xy. destruct H as [|b0 ? H0 H]; [exact I|]. destruct H as [|b1 ? H1 H]; [exact I|].
  destruct H as [|b2 ? H2 H]; [exact I|]. destruct H; [|exact I]. destruct (negb _); [exact I|]. cbv zeta.
  apply (scop_num (one_var :: bvs b0 ++ bvs b1 ++ bvs b2)); [known| |intros x Hx; apply (scop_num (one_var :: bvs b0 ++ bvs b1 ++ bvs b2)); [known| |]].
  { intros x Hx. eapply cov_afterq; [apply wpK_ns, an_alloc_wpK|]. intros y Hy. eapply cov_afterq; [apply wpK_ns, scop_wpK, Scope.b_and_scop; sc|]. intros pc Hpc.
    unfold lookup_constraint. touches. }
  { intros y Hy. eapply cov_afterq; [apply wpK_ns, scop_wpK, Scope.b_and_scop; sc|]. intros pc Hpc. unfold lookup_constraint.
    cbn [bind cs_enforce cov]. right. right. right. touches. }
  intros y Hy. eapply scop_bindq; [apply scop_ns, b_and_scop; assumption|]. intros pc Hpc.
  apply lookup_con_scop; auto. apply lookup_con_scop; auto. apply scop_ret. split; assumption.
Qed.
Lemma lookup3_neg_scop bits coords : Forall kb bits -> scop (@lookup3_xy_neg P bits coords) (fun r => knum (fst r) /\ knum (snd r)).
Proof.
  intros H. unfold lookup3_xy_neg. destruct H as [|b0 ? H0 H]; [exact I|]. destruct H as [|b1 ? H1 H]; [exact I|].
  destruct H as [|b2 ? H2 H]; [exact I|]. destruct H; [|exact I]. destruct (negb _); [exact I|]. cbv zeta.
  apply (scop_num (one_var :: bvs b0 ++ bvs b1 ++ bvs b2)); [known| |].
  { intros y Hy. eapply cov_afterq; [apply wpK_ns, scop_wpK, Scope.b_and_scop; sc|]. intros pc Hpc. touches. }
  unfold Scope.kn. intros y Hy.
  eapply scop_bindq; [apply scop_ns, b_and_scop; assumption|]. intros pc Hpc.
  match goal with |- scop (bind (cs_enforce _ (lc_add_lc (lc_add_lc _ ?l) _) _ _) _) _ => assert (HY : lck l) by sc; set (ly := l) in * end.
  apply scop_enforce; [sc|sc|sc|]. apply scop_ret. cbn [fst snd]. split.
  - repeat apply knum_add; auto; try exact I. apply lck_zero.
  - unfold knum. cbn [num_lc_ num_of_allocated]. sc.
Qed.
Lemma pack_fold bits : Forall kb bits -> forall n (c : P), knum n -> knum (fst (fold_left pack_step bits (n, c))).
Proof. induction 1 as [|b bits Hb _ IH]; intros n c Hn; [exact Hn|]. cbn [fold_left]. unfold pack_step at 2. apply IH. now apply knum_add. Qed.
Lemma chunks_Forall {A} (R : A -> Prop) n : 0 < n -> forall l, Forall R l -> Forall (Forall R) (chunks n l).
Proof.
  intros Hn l. induction l as [|l Hl IH] using (chunks_ind n Hn); intros HF; [constructor|].
  rewrite chunks_cons by auto. rewrite <- (firstn_skipn n l) in HF. apply Forall_app in HF as [H1 H2]. constructor; auto.
Qed.
Lemma pack_scop bits : Forall kb bits -> scop (@pack_into_inputs P bits) (fun _ => True).
Proof.
  intros H. unfold pack_into_inputs. apply (chunks_Forall _ (capacity P) capacity_pos) in H. rewrite Forall_forall in H.
  apply scop_foldq with (Inv := fun _ => True); [exact I|]. intros j c s Hc _. unfold pack_chunk. apply scop_alloc_input. intros v b Hv.
  apply scop_enforce; [|sc|sc|exact I]. unfold num_lc. apply lck_add_scaled; [apply lck_zero|]. apply (pack_fold c); [auto|apply lck_zero].
Qed.

(** ** Words *)
Definition kw (w : UInt32) : Prop := Forall kb (u_bits w) /\ length (u_bits w) = 32.
Lemma kw_const z : kw (u_constant z).
Proof.
  split; cbn [u_bits u_constant]; [|now rewrite map_length, low_bits_z2le, z2le_length].
  apply Forall_map. apply Forall_forall. intros [|] _; exact I.
Qed.
Lemma Forall_firstn {A} (R : A -> Prop) n l : Forall R l -> Forall R (firstn n l).
Proof. intros H. rewrite <- (firstn_skipn n l) in H. now apply Forall_app in H. Qed.
Lemma Forall_skipn {A} (R : A -> Prop) n l : Forall R l -> Forall R (skipn n l).
Proof. intros H. rewrite <- (firstn_skipn n l) in H. now apply Forall_app in H. Qed.
Lemma kw_rotr w k : kw w -> kw (u_rotr w k).
Proof.
  intros [H L]. split; cbn [u_bits u_rotr].
  - apply Forall_firstn, Forall_app. split; [now apply Forall_skipn|exact H].
  - rewrite firstn_length, app_length, L. lia.
Qed.
Lemma kw_shr w k : kw w -> kw (u_shr w k).
Proof.
  intros [H L]. split; cbn [u_bits u_shr].
  - apply Forall_firstn, Forall_app. split; [now apply Forall_skipn|]. apply Forall_forall. intros x Hx. apply repeat_spec in Hx as ->. exact I.
  - rewrite firstn_length, app_length, repeat_length. lia.
Qed.
Lemma u_alloc_scop v : scop (@u_alloc P v) kw.
Proof.
  unfold u_alloc. eapply scop_bindq; [apply scop_mapq; intros; apply is_scop, scop_ns, ab_alloc_scop|]. cbv beta. intros l [Hl L]. apply scop_ret.
  split; [exact Hl|]. cbn [u_bits]. rewrite L. destruct v; [now rewrite map_length, low_bits_z2le, z2le_length|reflexivity].
Qed.
Lemma Forall_combine {A B} (R : A -> Prop) (S : B -> Prop) l m : Forall R l -> Forall S m -> Forall (fun x => R (fst x) /\ S (snd x)) (combine l m).
Proof. intros H. revert m. induction H; intros m Hm; [constructor|]. destruct Hm; constructor; auto. Qed.
Lemma u_xor_scop a b : kw a -> kw b -> scop (@u_xor P a b) kw.
Proof.
  intros [Ha La] [Hb Lb]. unfold u_xor. pose proof (Forall_combine _ _ _ _ Ha Hb) as HC. rewrite Forall_forall in HC.
  eapply scop_bindq; [apply scop_mapq with (Q := kb); intros j x Hx; apply scop_ns, b_xor_scop; apply (HC x Hx)|].
  cbv beta. intros l [Hl L]. apply scop_ret. split; [exact Hl|]. cbn [u_bits]. rewrite L, combine_length. lia.
Qed.
Lemma triop_scop a b c tri (f : nat -> Boolean -> Boolean -> Boolean -> prog P (res Boolean)) : kw a -> kw b -> kw c ->
  (forall i x y z, kb x -> kb y -> kb z -> scop (f i x y z) kb) -> scop (triop a b c tri f) kw.
Proof.
  intros [Ha La] [Hb Lb] [Hc Lc] Hf. unfold triop. pose proof (Forall_combine _ _ _ _ (Forall_combine _ _ _ _ Ha Hb) Hc) as HC. rewrite Forall_forall in HC.
  eapply scop_bindq; [apply scop_mapq with (Q := kb); intros j x Hx; apply Hf; apply (HC x Hx)|].
  cbv beta. intros l [Hl L]. apply scop_ret. split; [exact Hl|]. cbn [u_bits]. rewrite L, !combine_length. lia.
Qed.
Lemma u_ch_scop a b c : kw a -> kw b -> kw c -> scop (@u_ch P a b c) kw.
Proof. intros. apply triop_scop; auto. intros. apply scop_ns, b_ch_scop; auto. Qed.
Lemma u_maj_scop a b c : kw a -> kw b -> kw c -> scop (@u_maj P a b c) kw.
Proof. intros. apply triop_scop; auto. intros. apply scop_ns, b_maj_scop; auto. Qed.
Lemma add_bits_scope bits : Forall kb bits -> forall st : LC P * P, lck (fst st) -> lck (fst (fold_left add_bit_step bits st)).
Proof. induction 1 as [|b bits Hb _ IH]; intros st Hs; [exact Hs|]. cbn [fold_left]. apply IH. unfold add_bit_step. cbn [fst]. sc. Qed.
Lemma add_ops_scope ops : Forall kw ops -> forall st : option Z * LC P * bool, lck (snd (fst st)) -> lck (snd (fst (fold_left add_op_step ops st))).
Proof.
  induction 1 as [|w ops [Hw _] _ IH]; intros st Hs; [exact Hs|]. cbn [fold_left]. apply IH. unfold add_op_step. destruct st as [[rv lc] ac]. cbn [fst snd] in *.
  now apply add_bits_scope.
Qed.
Lemma add_loop_scop rv m : forall i c lc bits, Forall kb bits -> lck lc ->
  scop (@add_result_loop P rv m i c lc bits) (fun r => Forall kb (fst (fst r)) /\ lck (snd (fst r)) /\ length (fst (fst r)) = length bits + Pos.size_nat m).
Proof.
  induction m as [m IH|m IH|]; intros i c lc bits Hb Hl; cbn [add_result_loop Pos.size_nat].
  1,2: eapply scop_bindq; [apply scop_ns, ab_alloc_scop|]; intros a Ha; unfold ka in Ha; cbv zeta; eapply scop_mono; [|apply IH; [apply Forall_app; split; auto|sc]];
       cbv beta; intros r (R1 & R2 & R3); rewrite app_length in R3; cbn [length] in R3; repeat split; auto; lia.
  eapply scop_bindq; [apply scop_ns, ab_alloc_scop|]. intros a Ha. unfold ka in Ha. apply scop_ret. cbn [fst snd]. repeat split.
  - apply Forall_app; split; auto.
  - sc.
  - rewrite app_length. reflexivity.
Qed.
Lemma addmany_scop ops : Forall kw ops -> scop (@addmany P ops) kw.
Proof.
  intros H. unfold addmany. destruct (negb (Nat.leb 64 _)); [exact I|]. destruct (negb (Nat.leb 2 (length ops))) eqn:E2; [exact I|].
  destruct (negb (Nat.leb (length ops) 10)) eqn:E10; [exact I|]. apply negb_false_iff, Nat.leb_le in E2, E10. cbv zeta.
  pose proof (add_ops_scope ops H (Some 0%Z, lc_zero, true) (lck_zero K)) as HL.
  destruct (fold_left add_op_step ops (Some 0%Z, lc_zero, true)) as [[rv lc] ac]. cbn [fst snd] in HL.
  pose proof (add_max_size (length ops) (conj E2 E10)) as HS. cbv zeta in HS. set (m := Z.to_pos _) in *.
  assert (G : scop (bindq (add_result_loop rv m 0 fone lc_zero []) (fun r => let '(result_bits, result_lc, i) := r in
     bind (cs_enforce_equal i lc result_lc) (fun _ => Ret (Ok {| u_bits := firstn 32 result_bits; u_value := option_map (fun v => (v mod 2 ^ 32)%Z) rv |})))) kw).
  { eapply scop_bindq; [apply add_loop_scop; [constructor|apply lck_zero]|]. cbv beta. intros [[rb rl] ri] (R1 & R2 & R3). cbn [fst snd length] in *.
    apply scop_enforce_equal; auto. apply scop_ret. split; cbn [u_bits]; [now apply Forall_firstn|]. rewrite firstn_length. lia. }
  destruct ac; [|exact G]. destruct rv as [v|]; [|exact G]. cbn [option_map]. apply scop_ret, kw_const.
Qed.

(** ** MultiEq *)
Definition kme (s : MeSt (P := P)) : Prop := lck (me_lhs s) /\ lck (me_rhs s).
Definition never {A} : A -> Prop := fun _ => False.
Lemma accumulate_scope s : kme s -> wpC never (me_accumulate s) kme.
Proof. intros [H1 H2]. unfold me_accumulate. cbn. split; [exact H1|]. split; [sc|]. split; [exact H2|]. split; apply lck_zero. Qed.
Lemma me_push_scope s n l r : kme s -> lck l -> lck r -> kme (me_push s n l r).
Proof. intros [H1 H2] Hl Hr. split; cbn [me_lhs me_rhs me_push]; sc. Qed.
Lemma me_eq_scope s n l r : kme s -> lck l -> lck r -> wpC never (me_enforce_equal s n l r) kme.
Proof.
  intros Hs Hl Hr. unfold me_enforce_equal. apply wpC_bind with (E := never); [intros ? ? []|].
  assert (T : forall s, kme s -> wpC never (if Nat.ltb (me_used s + n) (capacity P) then Ret (me_push s n l r) else Panic) kme).
  { intros s' Hs'. destruct (Nat.ltb _ _); [|exact I]. now apply me_push_scope. }
  destruct (Nat.leb _ _); [|now apply T]. eapply wpC_mono; [|apply accumulate_scope; exact Hs]. exact T.
Qed.
Lemma cov_multieq {A} (E : A -> Prop) v (p : prog P A) : cov E v p -> forall s, cov (fun x => E (fst x)) v (multieq p s).
Proof.
  induction p as [a| |n f k IH|n f k IH|n a b c k IH|n l r k IH|n k IH|k IH]; intros H s; cbn in H |- *; auto.
  - destruct H as [H1 H2]. split; auto.
  - destruct H as [H1 H2]. split; auto.
  - destruct H as [H|[H|[H|H]]]; auto.
  - apply cov_right. intros s'. now apply IH.
Qed.
Lemma multieq_wpC {A} E (p : prog P A) Q : wpC E p Q -> forall s, kme s -> wpC (fun x => E (fst x)) (multieq p s) (fun x => Q (fst x) /\ kme (snd x)).
Proof.
  induction p as [a| |n f k IH|n f k IH|n a b c k IH|n l r k IH|n k IH|k IH]; intros H s Hs; cbn in H |- *.
  - auto.
  - exact I.
  - destruct H as ((S & HS & Hc) & H1 & H2). split; [|split; intros; apply IH; auto]. exists S. split; [exact HS|]. intros v b Hv. now apply cov_multieq, Hc.
  - destruct H as [H1 H2]. split; intros; apply IH; auto.
  - destruct H as (H1 & H2 & H3 & H4). auto.
  - destruct H as (H1 & H2 & H3). apply wpC_bind with (E := never); [intros ? ? []|]. eapply wpC_mono; [|apply me_eq_scope; assumption]. cbv beta. intros s' Hs'. now apply IH.
  - auto.
  - auto.
Qed.
Lemma multieq_scop {A} (p : prog P (res A)) Q : scop p Q -> scop (multieq_scope p) Q.
Proof.
  intros H. unfold Scope.scop, multieq_scope. apply wpC_bind with (E := fun x => is_err (fst x)).
  { intros [r s] v Hr. apply cov_right. intros _. exact Hr. }
  eapply wpC_mono; [|apply (multieq_wpC _ p _ H); split; apply lck_zero].
  cbv beta. intros [r s] [Hr Hs]. cbn [fst snd] in *. apply wpC_bind with (E := never); [intros ? ? []|]. unfold me_drop. destruct (Nat.ltb _ _); [|exact Hr].
  apply wpC_bind with (E := never); [intros ? ? []|]. eapply wpC_mono; [|apply accumulate_scope; exact Hs]. intros ? _. exact Hr.
Qed.

(** ** The hash functions *)
Definition kwz (w : UInt32) (z : Z) : Prop := kw w /\ u32 z.
Definition ScopeWL : WL P.
Proof.
  refine {| wp := fun A p Q => scop p Q; Wd := kwz |}.
  - intros A a Q H. exact H.
  - intros A B p g Q1 Q Hp Hg. eapply scop_bindq; eauto.
  - intros A n p Q Hp. now apply scop_ns.
  - intros A p Q Q' H Hp. eapply scop_mono; eauto.
  - intros w z [_ H]. exact H.
  - intros z Hz. split; [apply kw_const|exact Hz].
  - intros w z k Hk [Hw Hz]. split; [now apply kw_rotr|]. pose proof (rotr_range k z Hz) as H'. now rewrite (Nat.mod_small k 32 Hk) in H'.
  - intros w z k Hk [Hw Hz]. split; [now apply kw_shr|]. now apply shr_range.
  - intros a b x y [Ha Hx] [Hb Hy]. eapply scop_mono; [|exact (u_xor_scop a b Ha Hb)]. intros r Hr. split; [exact Hr|now apply lxor_range].
  - intros a b c x y z [Ha Hx] [Hb Hy] [Hc Hz]. eapply scop_mono; [|exact (u_ch_scop a b c Ha Hb Hc)]. intros r Hr. split; [exact Hr|now apply ch_range].
  - intros a b c x y z [Ha Hx] [Hb Hy] [Hc Hz]. eapply scop_mono; [|exact (u_maj_scop a b c Ha Hb Hc)]. intros r Hr. split; [exact Hr|now apply maj_range].
  - intros ops zs _ HF. eapply scop_mono; [|apply addmany_scop].
    + intros r Hr. split; [exact Hr|apply mod32_u32].
    + clear -HF. induction HF as [|w z ops zs [Hw _] _ IH]; constructor; auto.
Defined.
Definition ScopeHL : HL P.
Proof.
  refine {| hwp := fun A p Q => scop p Q; hb := fun b _ => kb b; hw := kwz |}.
  - intros A a Q H. exact H.
  - intros A B p g Q1 Q Hp Hg. eapply scop_bindq; eauto.
  - intros A n p Q Hp. now apply scop_ns.
  - intros A p Q Q' H Hp. eapply scop_mono; eauto.
  - intros b. exact I.
  - intros w z [[H L] _]. pose proof (z2le_length 32 z) as L'. revert H L L'. generalize (u_bits w), (z2le 32 z). intros l m H. revert m. generalize 32.
    induction H as [|b l Hb _ IH]; intros n [|x m] L L'; cbn in *; try (exfalso; lia); constructor; auto. destruct n; [lia|]. apply (IH n); lia.
  - intros w z [_ H]. exact H.
  - intros z Hz. split; [apply kw_const|exact Hz].
  - intros bits bs Hl HF. pose proof (Forall2_length _ _ _ HF) as Hl'. unfold from_bits_be. rewrite Hl. cbn [Nat.eqb]. eexists. split; [reflexivity|]. split.
    + split; cbn [u_bits]; [|now rewrite rev_length]. apply Forall_rev. clear -HF. induction HF; constructor; auto.
    + pose proof (be2z_range bs) as Hr. rewrite <- Hl', Hl in Hr. exact Hr.
  - intros bits bs Hl HF. pose proof (Forall2_length _ _ _ HF) as Hl'. unfold from_bits. rewrite Hl. cbn [Nat.eqb]. eexists. split; [reflexivity|]. split.
    + split; cbn [u_bits]; [|exact Hl]. clear -HF. induction HF; constructor; auto.
    + apply le2z_u32. congruence.
  - intros a b x y [Ha Hx] [Hb Hy]. eapply scop_mono; [|exact (u_xor_scop a b Ha Hb)]. intros r Hr. split; [exact Hr|now apply lxor_range].
  - intros p zs H. apply multieq_scop. exact (H ScopeWL (fun w z Hw => Hw)).
Defined.
Lemma any_bits l : Forall kb l -> Forall2 (hb ScopeHL) l (repeat false (length l)).
Proof. induction 1; constructor; auto. Qed.
Lemma all_bits l m : Forall2 (hb ScopeHL) l m -> Forall kb l.
Proof. induction 1; constructor; auto. Qed.
Lemma sha256_scop input : Forall kb input -> scop (@sha256 P input) (Forall kb).
Proof.
  intros H. destruct (Nat.eq_dec (length input mod 8) 0) as [E|E].
  - eapply scop_mono; [|exact (sha256_hwp ScopeHL input _ E (any_bits _ H))]. intros r. apply all_bits.
  - unfold sha256. rewrite (proj2 (Nat.eqb_neq _ _) E). exact I.
Qed.
Lemma sha256_block_scop input : Forall kb input -> scop (@sha256_block_no_padding P input) (Forall kb).
Proof.
  intros H. destruct (Nat.eq_dec (length input) 512) as [E|E].
  - eapply scop_mono; [|exact (block_hwp ScopeHL input _ E (any_bits _ H))]. intros r. apply all_bits.
  - unfold sha256_block_no_padding. rewrite (proj2 (Nat.eqb_neq _ _) E). exact I.
Qed.
Lemma zero_bytes n : bits_of_bytes (repeat 0%Z n) = repeat false (8 * n).
Proof.
  induction n as [|n IH]; [reflexivity|]. replace (8 * S n) with (8 + 8 * n) by lia. rewrite repeat_app, <- IH. reflexivity.
Qed.
Lemma blake2s_scop input person : Forall byte person -> Forall kb input -> scop (@blake2s P input person) (Forall kb).
Proof.
  intros Hb H. destruct (Nat.eq_dec (length person) 8) as [Ep|Ep]; [|unfold blake2s; rewrite (proj2 (Nat.eqb_neq _ _) Ep); exact I].
  destruct (Nat.eq_dec (length input mod 8) 0) as [E|E].
  - apply Nat.div_exact in E; [|lia]. assert (X : Forall2 (hb ScopeHL) input (bits_of_bytes (repeat 0%Z (length input / 8)))).
    { rewrite zero_bytes, <- E. now apply any_bits. }
    eapply scop_mono; [|apply (blake2s_hwp ScopeHL input (repeat 0%Z (length input / 8)) person Ep Hb); [|exact X]].
    + intros r. apply all_bits.
    + apply Forall_forall. intros x Hx. apply repeat_spec in Hx as ->. unfold byte. lia.
  - unfold blake2s. rewrite Ep. cbn [Nat.eqb negb]. rewrite (proj2 (Nat.eqb_neq _ _) E). exact I.
Qed.
End Rules2.
End Scope.
