(** Names: which annotations and namespaces a program uses, and that the testing constraint system
    (src/gadgets/test/mod.rs) does not panic about them. *)
From Coq Require Import String Ascii DecimalString DecimalNat.
From Coq Require Import ZArith List Bool Lia.
From Verif Require Import Prelude PrimeField Circuit Loops TestCS TestCSProof.
Import ListNotations.
Local Open Scope nat_scope.

(** ** Strings *)
Lemma append_inj_l (a : string) : forall b c, (a ++ b = a ++ c)%string -> b = c.
Proof. induction a as [|x a IH]; intros b c H; [exact H|]. cbn in H. injection H as H. auto. Qed.
Definition digit (c : ascii) : bool := let n := nat_of_ascii c in Nat.leb 48 n && Nat.leb n 57.
Fixpoint digits (s : string) : bool := match s with EmptyString => true | String c t => digit c && digits t end.
Lemma uint_digits d : digits (NilEmpty.string_of_uint d) = true.
Proof. induction d; cbn [NilEmpty.string_of_uint digits]; auto. Qed.
Lemma nat_str_digits n : digits (nat_str n) = true. Proof. apply uint_digits. Qed.
Lemma nat_str_inj i j : nat_str i = nat_str j -> i = j.
Proof.
  unfold nat_str. intros H. apply (f_equal NilEmpty.uint_of_string) in H. rewrite !NilEmpty.usu in H. injection H as H.
  apply (f_equal Nat.of_uint) in H. now rewrite !DecimalNat.Unsigned.of_to in H.
Qed.
Lemma digits_slash s : digits s = true -> has_slash s = false.
Proof.
  induction s as [|c s IH]; [reflexivity|]. cbn [digits has_slash]. intros H. apply andb_true_iff in H as [H1 H2].
  destruct (Ascii.eqb_spec c "/"); [subst; discriminate H1|auto].
Qed.
Lemma nat_str_slash n : has_slash (nat_str n) = false. Proof. apply digits_slash, nat_str_digits. Qed.
(** A number ends where the digits end. *)
Lemma digits_end a : forall b c d s t, digits a = true -> digits b = true -> digit c = false -> digit d = false ->
  (a ++ String c s = b ++ String d t)%string -> a = b.
Proof.
  induction a as [|x a IH]; intros [|y b] c d s t Ha Hb Hc Hd H; cbn in *; auto.
  - injection H as -> _. apply andb_true_iff in Hb as [Hb _]. congruence.
  - injection H as -> _. apply andb_true_iff in Ha as [Ha _]. congruence.
  - injection H as -> H. apply andb_true_iff in Ha as [_ Ha]. apply andb_true_iff in Hb as [_ Hb]. f_equal. exact (IH b c d s t Ha Hb Hc Hd H).
Qed.

(** ** The judgement
    One set of names per namespace that is open, the innermost first. *)
Notation names := (string -> Prop).
Definition add (n : string) (u : names) : names := fun x => x = n \/ u x.
Definition none : names := fun _ => False.
Definition join (a b : names) : names := fun x => a x \/ b x.
Definition just (n : string) : names := fun x => x = n.
Definition apart (a b : names) : Prop := forall x, a x -> b x -> False.
Definition sub (a b : names) : Prop := forall x, a x -> b x.

Section Judgement.
Context {P : PrimeField}.

Fixpoint wpN (ok : names) {A} (st : list names) (p : prog P A) (Q : list names -> A -> Prop) : Prop :=
  match p with
  | Ret a => Q st a
  | Panic => True
  | Alloc n _ k | AllocInput n _ k =>
      match st with [] => False | u :: t => ok n /\ ~ u n /\ forall r b, wpN ok (add n u :: t) (k r b) Q end
  | Enforce n _ _ _ k => match st with [] => False | u :: t => ok n /\ ~ u n /\ wpN ok (add n u :: t) k Q end
  | EnforceEq _ _ _ k => match st with [] => False | _ => wpN ok st k Q end
  | PushNs n k => match st with [] => False | u :: t => ok n /\ ~ u n /\ wpN ok (none :: add n u :: t) k Q end
  | PopNs k => match st with _ :: (_ :: _) as t => wpN ok t k Q | _ => False end
  end.

Lemma wpN_mono (ok ok' : names) {A} (p : prog P A) : (forall x, ok x -> ok' x) -> forall st (Q Q' : list names -> A -> Prop), (forall st a, Q st a -> Q' st a) ->
  wpN ok st p Q -> wpN ok' st p Q'.
Proof.
  intros Ho. induction p as [a| |n f k IH|n f k IH|n a b c k IH|n l r k IH|n k IH|k IH]; intros st Q Q' HQ; cbn; auto.
  - destruct st as [|u t]; auto. intros (H1 & H2 & H3). repeat split; auto. intros. eapply IH; eauto.
  - destruct st as [|u t]; auto. intros (H1 & H2 & H3). repeat split; auto. intros. eapply IH; eauto.
  - destruct st as [|u t]; auto. intros (H1 & H2 & H3). repeat split; auto. eapply IH; eauto.
  - destruct st as [|u t]; auto. apply IH, HQ.
  - destruct st as [|u t]; auto. intros (H1 & H2 & H3). repeat split; auto. eapply IH; eauto.
  - destruct st as [|u [|v t]]; auto. apply IH, HQ.
Qed.
Lemma wpN_bind (ok : names) {A B} (p : prog P A) (g : A -> prog P B) : forall st Q, wpN ok st p (fun st a => wpN ok st (g a) Q) -> wpN ok st (bind p g) Q.
Proof.
  induction p as [a| |n f k IH|n f k IH|n a b c k IH|n l r k IH|n k IH|k IH]; intros st Q; cbn; auto.
  - destruct st as [|u t]; auto. intros (H1 & H2 & H3). auto.
  - destruct st as [|u t]; auto. intros (H1 & H2 & H3). auto.
  - destruct st as [|u t]; auto. intros (H1 & H2 & H3). auto.
  - destruct st as [|u t]; auto.
  - destruct st as [|u t]; auto. intros (H1 & H2 & H3). auto.
  - destruct st as [|u [|v t]]; auto.
Qed.

(** [p] uses names in [N] only, each once, unless it is in a namespace that [p] opens; its result satisfies [Q]. *)
Definition uses (ok : names) {A} (p : prog P A) (N : names) (Q : A -> Prop) : Prop :=
  forall u st, apart N u -> wpN ok (u :: st) p (fun st' a => Q a /\ exists u', st' = u' :: st /\ sub u' (join u N)).

Lemma uses_weaken (ok ok' : names) {A} (p : prog P A) N N' (Q Q' : A -> Prop) : sub N N' -> (forall x, ok x -> ok' x) -> (forall a, Q a -> Q' a) ->
  uses ok p N Q -> uses ok' p N' Q'.
Proof.
  intros HN Ho HQ H u st Hu. eapply wpN_mono; [exact Ho| |apply H; intros x Hx; apply Hu, HN, Hx].
  cbv beta. intros st' a (Ha & u' & -> & Hs). split; [auto|]. exists u'. split; [reflexivity|]. intros x Hx. destruct (Hs x Hx) as [?|?]; [now left|right; auto].
Qed.
Lemma uses_sub (ok : names) {A} (p : prog P A) N N' (Q : A -> Prop) : sub N N' -> uses ok p N Q -> uses ok p N' Q.
Proof. intros H. now apply uses_weaken. Qed.
Lemma uses_post (ok : names) {A} (p : prog P A) N (Q Q' : A -> Prop) : (forall a, Q a -> Q' a) -> uses ok p N Q -> uses ok p N Q'.
Proof. intros H. apply uses_weaken; auto. intros x Hx; exact Hx. Qed.
Lemma uses_ret (ok : names) {A} (a : A) N (Q : A -> Prop) : Q a -> uses ok (Ret a) N Q.
Proof. intros H u st _. cbn. split; [exact H|]. exists u. split; [reflexivity|]. intros x Hx; now left. Qed.
Lemma uses_panic (ok : names) {A} N (Q : A -> Prop) : uses ok Panic N Q. Proof. intros u st _. exact I. Qed.
Lemma uses_bind (ok : names) {A B} (p : prog P A) (g : A -> prog P B) N1 N2 N (Q1 : A -> Prop) (Q : B -> Prop) :
  uses ok p N1 Q1 -> (forall a, Q1 a -> uses ok (g a) N2 Q) -> apart N1 N2 -> sub (join N1 N2) N -> uses ok (bind p g) N Q.
Proof.
  intros Hp Hg Hd Hs u st Hu. apply wpN_bind. eapply wpN_mono; [intros x Hx; exact Hx| |apply Hp; intros x Hx; apply Hu, Hs; now left].
  cbv beta. intros st' a (Ha & u' & -> & Hu'). eapply wpN_mono; [intros x Hx; exact Hx| |apply (Hg a Ha)].
  - cbv beta. intros st'' b (Hb & u'' & -> & Hu''). split; [exact Hb|]. exists u''. split; [reflexivity|]. intros x Hx.
    destruct (Hu'' x Hx) as [H|H]; [|right; apply Hs; now right]. destruct (Hu' x H) as [H'|H']; [now left|right; apply Hs; now left].
  - intros x Hx H. destruct (Hu' x H) as [H'|H']; [apply (Hu x); [apply Hs; now right|exact H']|exact (Hd x H' Hx)].
Qed.
Lemma uses_bindq (ok : names) {A B} (p : prog P (res A)) (g : A -> prog P (res B)) N1 N2 N (Q1 : A -> Prop) (Q : B -> Prop) :
  uses ok p N1 (okP Q1) -> (forall a, Q1 a -> uses ok (g a) N2 (okP Q)) -> apart N1 N2 -> sub (join N1 N2) N -> uses ok (bindq p g) N (okP Q).
Proof.
  intros Hp Hg Hd Hs. unfold bindq. eapply uses_bind; [exact Hp| |exact Hd|exact Hs]. intros [a|e] Ha; [apply Hg; exact Ha|apply uses_ret; exact I].
Qed.
Lemma uses_alloc (ok : names) n f (Q : Var * bool -> Prop) : ok n -> (forall v b, Q (v, b)) -> uses ok (@cs_alloc P n f) (just n) (okP Q).
Proof.
  intros Ho HQ u st Hu. cbn. repeat split; [exact Ho|exact (Hu n eq_refl)|destruct r; cbn; auto|].
  exists (add n u). split; [reflexivity|]. intros x [Hx|Hx]; [now right|now left].
Qed.
Lemma uses_alloc_input (ok : names) n f (Q : Var * bool -> Prop) : ok n -> (forall v b, Q (v, b)) -> uses ok (@cs_alloc_input P n f) (just n) (okP Q).
Proof.
  intros Ho HQ u st Hu. cbn. repeat split; [exact Ho|exact (Hu n eq_refl)|destruct r; cbn; auto|].
  exists (add n u). split; [reflexivity|]. intros x [Hx|Hx]; [now right|now left].
Qed.
Lemma uses_enforce (ok : names) n a b c : ok n -> uses ok (@cs_enforce P n a b c) (just n) (fun _ => True).
Proof.
  intros Ho u st Hu. cbn. repeat split; [exact Ho|exact (Hu n eq_refl)|].
  exists (add n u). split; [reflexivity|]. intros x [Hx|Hx]; [now right|now left].
Qed.
Lemma uses_enforce_equal (ok : names) n l r : uses ok (@cs_enforce_equal P n l r) none (fun _ => True).
Proof. intros u st Hu. cbn. split; [exact I|]. exists u. split; [reflexivity|]. intros x Hx; now left. Qed.
Lemma uses_ns (ok : names) {A} n (p : prog P A) N Q : ok n -> uses ok p N Q -> uses ok (ns n p) (just n) Q.
Proof.
  intros Ho Hp u st Hu. unfold ns. cbn. split; [exact Ho|]. split; [exact (Hu n eq_refl)|]. apply wpN_bind.
  eapply wpN_mono; [intros x Hx; exact Hx| |apply Hp; intros x _ []]. cbv beta. intros st' a (Ha & u' & -> & _). cbn. split; [exact Ha|].
  exists (add n u). split; [reflexivity|]. intros x [Hx|Hx]; [now right|now left].
Qed.
Lemma uses_mapq (ok : names) {A B} (f : nat -> A -> prog P (res B)) (N : nat -> names) l : forall i,
  (forall j x, uses ok (f j x) (N j) (okP (fun _ => True))) -> (forall j k, j <> k -> apart (N j) (N k)) ->
  uses ok (mapq f i l) (fun x => exists j, i <= j < i + length l /\ N j x) (okP (fun ys => length ys = length l)).
Proof.
  induction l as [|x l IH]; intros i H Hd; cbn [mapq length]; [apply uses_ret; reflexivity|].
  eapply uses_bindq with (N1 := N i) (N2 := fun x => exists j, S i <= j < S i + length l /\ N j x); [apply H| | |].
  - intros y _. eapply uses_bindq with (N2 := none); [apply IH; auto| |intros ? ? []|intros z [Hz|[]]; exact Hz].
    cbv beta. intros ys Hys. apply uses_ret. cbn. now rewrite Hys.
  - intros z Hz (j & Hj & Hz'). apply (Hd i j) with z; [lia|exact Hz|exact Hz'].
  - intros z [Hz|(j & Hj & Hz)]; [exists i; split; [lia|exact Hz]|exists j; split; [lia|exact Hz]].
Qed.
Lemma uses_foldq (ok : names) {S A} (f : nat -> S -> A -> prog P (res S)) (N : nat -> names) (I : nat -> S -> Prop) l : forall i s, I i s ->
  (forall j s x, I j s -> uses ok (f j s x) (N j) (okP (I (Datatypes.S j)))) -> (forall j k, j <> k -> apart (N j) (N k)) ->
  uses ok (foldq f i s l) (fun x => exists j, i <= j < i + length l /\ N j x) (okP (I (i + length l))).
Proof.
  induction l as [|x l IH]; intros i s Hs H Hd; cbn [foldq length]; [apply uses_ret; now rewrite Nat.add_0_r|].
  eapply uses_bindq with (N1 := N i) (N2 := fun x => exists j, Datatypes.S i <= j < Datatypes.S i + length l /\ N j x); [apply H, Hs| | |].
  - intros s' Hs'. replace (i + Datatypes.S (length l)) with (Datatypes.S i + length l) by lia. now apply IH.
  - intros z Hz (j & Hj & Hz'). apply (Hd i j) with z; [lia|exact Hz|exact Hz'].
  - intros z [Hz|(j & Hj & Hz)]; [exists i; split; [lia|exact Hz]|exists j; split; [lia|exact Hz]].
Qed.

(** ** The testing constraint system
    Paths as lists of names. *)
Definition free_of_slash (l : list string) : Prop := Forall (fun n => has_slash n = false) l.
Definition present (s : TState P) (l : list string) : Prop := find_obj (String.concat "/" l) (t_objs s) <> None.

(** The names in use in the directory [d]. *)
Definition lvl (s : TState P) (d : list string) (u : names) : Prop :=
  forall x rest, free_of_slash (x :: rest) -> present s (d ++ x :: rest) -> u x.
(** [r]: the namespaces opened since the start, the innermost first. *)
Fixpoint lv (s : TState P) (d : list string) (r : list string) (st : list names) : Prop :=
  match st, r with
  | [u], [] => lvl s d u
  | u :: (v :: _) as t, n :: r' => lvl s (d ++ rev r) u /\ v n /\ lv s d r' t
  | _, _ => False
  end.

Lemma lv_top s d r u t : lv s d r (u :: t) -> lvl s (d ++ rev r) u.
Proof. destruct t as [|v t], r as [|n r]; cbn [lv]; try contradiction; [rewrite app_nil_r; auto|tauto]. Qed.

Lemma lv_objs s s' d : t_objs s' = t_objs s -> forall st r, lv s d r st -> lv s' d r st.
Proof.
  intros E. assert (X : forall d u, lvl s d u -> lvl s' d u) by (intros d' u H x rest Hf Hp; apply (H x rest Hf); unfold present in *; now rewrite <- E).
  induction st as [|u st IH]; intros r H; [destruct r; exact H|]. destruct st as [|v st], r as [|m r]; cbn [lv] in *; try contradiction; [now apply X|].
  destruct H as (H1 & H2 & H3). split; [now apply X|]. split; [exact H2|]. apply (IH r H3).
Qed.

(** The new object [D/n]. *)
Definition grown (s s' : TState P) (n : string) : Prop :=
  forall path, find_obj path (t_objs s') <> None -> find_obj path (t_objs s) <> None \/ path = String.concat "/" (t_ns s ++ [n]).

Lemma present_grown s s' n l : grown s s' n -> free_of_slash l -> l <> [] -> free_of_slash (t_ns s ++ [n]) -> present s' l -> present s l \/ l = t_ns s ++ [n].
Proof.
  intros G Hl Hne Hn Hp. destruct (G _ Hp) as [H|H]; [now left|right]. apply concat_slash_inj in H; auto. destruct (t_ns s); discriminate.
Qed.

(** A longer path does not have the name of a shorter one. *)
Lemma lvl_grown s s' n d u m : grown s s' n -> free_of_slash (t_ns s ++ [n]) -> free_of_slash d -> lvl s d u ->
  (forall rest, t_ns s ++ [n] <> d ++ m :: rest) \/ u m -> (forall x rest, t_ns s ++ [n] = d ++ x :: rest -> x = m) -> lvl s' d u.
Proof.
  intros G Hn Hd Hl Hm Hx x rest Hf Hp. apply (present_grown s s' n) in Hp; auto.
  - destruct Hp as [Hp|Hp]; [eapply Hl; eauto|]. pose proof (Hx x rest (eq_sym Hp)) as ->. destruct Hm as [Hm|Hm]; [exfalso; eapply Hm; symmetry; exact Hp|exact Hm].
  - apply Forall_app. split; assumption.
  - destruct d; discriminate.
Qed.
Lemma app_first {A} (d : list A) a l b m : d ++ a :: l = d ++ b :: m -> a = b.
Proof. intros H. apply app_inv_head in H. now injection H. Qed.

(** Adding an object named [n] in the current directory. *)
Lemma lv_below s s' d n : grown s s' n -> free_of_slash (t_ns s ++ [n]) -> forall t r m pre, t_ns s = d ++ rev r ++ m :: pre ->
  (match t with v :: _ => v m | [] => False end) -> lv s d r t -> lv s' d r t.
Proof.
  intros G Hn. induction t as [|u t IH]; intros r m pre E Hm H; [destruct r; exact H|].
  assert (Hfd : free_of_slash (d ++ rev r)).
  { rewrite E in Hn. rewrite app_assoc in Hn. apply Forall_app in Hn as [Hn _]. apply Forall_app in Hn as [Hn _]. exact Hn. }
  assert (HL : lvl s (d ++ rev r) u -> lvl s' (d ++ rev r) u).
  { intros HL. eapply (lvl_grown s s' n (d ++ rev r) u m); auto. intros x rest. rewrite E. rewrite <- !app_assoc. cbn [app]. intros X.
    apply app_inv_head in X. now apply app_first in X. }
  destruct t as [|v t], r as [|m' r]; cbn [lv] in H |- *; try contradiction.
  - rewrite <- (app_nil_r d) in H. rewrite <- (app_nil_r d). now apply HL.
  - destruct H as (H1 & H2 & H3). split; [now apply HL|]. split; [exact H2|]. eapply (IH r m' (m :: pre)); auto.
    rewrite E. cbn [rev]. rewrite <- !app_assoc. reflexivity.
Qed.
Lemma lv_add s s' d r n u t : grown s s' n -> free_of_slash (t_ns s ++ [n]) -> t_ns s = d ++ rev r -> lv s d r (u :: t) -> lv s' d r (add n u :: t).
Proof.
  intros G Hn E H.
  assert (HL : lvl s (t_ns s) u -> lvl s' (t_ns s) (add n u)).
  { intros HL x rest Hf Hp. apply (present_grown s s' n) in Hp; auto.
    - destruct Hp as [Hp|Hp]; [right; eapply HL; eauto|left; now apply app_first in Hp].
    - apply Forall_app. split; [now apply Forall_app in Hn|exact Hf].
    - destruct (t_ns s); discriminate. }
  destruct t as [|v t], r as [|m r]; cbn [lv] in H |- *; try contradiction.
  - rewrite <- (app_nil_r d). change (@nil string) with (rev (@nil string)). rewrite <- E. apply HL. rewrite E. cbn [rev]. now rewrite app_nil_r.
  - destruct H as (H1 & H2 & H3). rewrite <- E in H1. split; [rewrite <- E; auto|]. split; [exact H2|].
    apply (lv_below s s' d n G Hn (v :: t) r m []); [exact E|exact H2|exact H3].
Qed.
Lemma lv_push s s' d r n u t : grown s s' n -> free_of_slash (t_ns s ++ [n]) -> t_ns s = d ++ rev r -> ~ u n -> lv s d r (u :: t) -> lv s' d (n :: r) (none :: add n u :: t).
Proof.
  intros G Hn E Hu H. cbn [lv]. split; [|split; [now left|now apply (lv_add s s' d r n u t)]].
  intros x rest Hf Hp. cbn [rev] in Hp. rewrite app_assoc, <- E in Hp. apply (present_grown s s' n) in Hp; auto.
  - destruct Hp as [Hp|Hp].
    + apply Hu. apply lv_top in H. rewrite <- E in H. rewrite <- app_assoc in Hp. cbn [app] in Hp. eapply H; [|exact Hp].
      constructor; [|exact Hf]. apply Forall_app in Hn as [_ Hn]. now inversion Hn.
    + apply (f_equal (@length string)) in Hp. rewrite !app_length in Hp. cbn in Hp. lia.
  - apply Forall_app. split; assumption.
  - destruct (t_ns s); discriminate.
Qed.

Definition fine (s : TState P) (d r : list string) (st : list names) : Prop := free_of_slash (t_ns s) /\ t_ns s = d ++ rev r /\ lv s d r st.
Definition word (n : string) : Prop := has_slash n = false.

Lemma fine_path s d r u t n : fine s d r (u :: t) -> word n -> ~ u n ->
  compute_path (t_ns s) n = Done (String.concat "/" (t_ns s ++ [n])) /\ find_obj (String.concat "/" (t_ns s ++ [n])) (t_objs s) = None.
Proof.
  intros (F & E & H) Hw Hu. split; [now apply compute_path_spec|]. destruct (find_obj _ _) eqn:X; [|reflexivity]. exfalso. apply Hu.
  apply lv_top in H. rewrite <- E in H. apply (H n []); [constructor; [exact Hw|constructor]|]. unfold present. rewrite X. discriminate.
Qed.
Lemma grown_cons (s s' : TState P) n o : t_objs s' = (String.concat "/" (t_ns s ++ [n]), o) :: t_objs s -> grown s s' n.
Proof. intros E path. rewrite E, find_cons. destruct (String.eqb_spec path (String.concat "/" (t_ns s ++ [n]))); [now right|now left]. Qed.
Lemma fine_word (s : TState P) n : free_of_slash (t_ns s) -> word n -> free_of_slash (t_ns s ++ [n]).
Proof. intros. apply Forall_app. split; [assumption|constructor; [assumption|constructor]]. Qed.

Lemma run_names {A} (p : prog P A) : forall s d r st Q a q, fine s d r st -> wpN word st p Q -> run (HonestCS P) p (pstate s) = Done (a, q) ->
  exists s' r' st', run TestCS p s = Done (a, s') /\ pstate s' = q /\ Q st' a /\ fine s' d r' st'.
Proof.
  induction p as [a0| |n f k IH|n f k IH|n x y z k IH|n l r0 k IH|n k IH|k IH]; intros s d r st Q a q HF HN HR; cbn [run] in HR |- *; cbn [wpN] in HN; try discriminate.
  - injection HR as <- <-. exists s, r, st. auto.
  - destruct st as [|u t]; [contradiction|]. destruct HN as (Hw & Hu & HN). destruct (fine_path s d r u t n HF Hw Hu) as [Hp Hf]. destruct HF as (F & E & H).
    cbn [m_alloc TestCS]. unfold t_alloc. rewrite Hp. cbn [obind]. cbn [m_alloc HonestCS obind] in HR. destruct f as [x|e]; cbn [fst snd] in HR.
    + unfold set_named_obj. cbn [t_objs]. rewrite Hf. cbn [obind fst snd t_objs t_ns t_cons t_inputs t_aux].
      set (s1 := mkT _ _ _ _ _).
      assert (G : grown s s1 n) by (eapply grown_cons; reflexivity).
      assert (F1 : fine s1 d r (add n u :: t)) by (repeat split; [exact F|exact E|]; exact (lv_add s s1 d r n u t G (fine_word s n F Hw) E H)).
      eapply IH; [exact F1|apply HN|]. rewrite <- HR. unfold s1, pstate. cbn [t_inputs t_aux t_cons p_inputs p_aux p_cons]. rewrite map_app. cbn [map fst]. now rewrite map_length.
    + cbn [obind fst snd]. assert (F1 : fine s d r (add n u :: t)); [|eapply IH; [exact F1|apply HN|exact HR]].
      repeat split; [exact F|exact E|]. clear -H. destruct t as [|v t], r as [|m r]; cbn [lv] in *; try contradiction.
      * intros z rest Hf Hp. right. eapply H; eauto.
      * destruct H as (H1 & H2 & H3). split; [|auto]. intros z rest Hf Hp. right. eapply H1; eauto.
  - destruct st as [|u t]; [contradiction|]. destruct HN as (Hw & Hu & HN). destruct (fine_path s d r u t n HF Hw Hu) as [Hp Hf]. destruct HF as (F & E & H).
    cbn [m_alloc_input TestCS]. unfold t_alloc_input. rewrite Hp. cbn [obind]. cbn [m_alloc_input HonestCS obind] in HR. destruct f as [x|e]; cbn [fst snd] in HR.
    + unfold set_named_obj. cbn [t_objs]. rewrite Hf. cbn [obind fst snd t_objs t_ns t_cons t_inputs t_aux].
      set (s1 := mkT _ _ _ _ _).
      assert (G : grown s s1 n) by (eapply grown_cons; reflexivity).
      assert (F1 : fine s1 d r (add n u :: t)) by (repeat split; [exact F|exact E|]; exact (lv_add s s1 d r n u t G (fine_word s n F Hw) E H)).
      eapply IH; [exact F1|apply HN|]. rewrite <- HR. unfold s1, pstate. cbn [t_inputs t_aux t_cons p_inputs p_aux p_cons]. rewrite map_app. cbn [map fst]. now rewrite map_length.
    + cbn [obind fst snd]. assert (F1 : fine s d r (add n u :: t)); [|eapply IH; [exact F1|apply HN|exact HR]].
      repeat split; [exact F|exact E|]. clear -H. destruct t as [|v t], r as [|m r]; cbn [lv] in *; try contradiction.
      * intros z rest Hf Hp. right. eapply H; eauto.
      * destruct H as (H1 & H2 & H3). split; [|auto]. intros z rest Hf Hp. right. eapply H1; eauto.
  - destruct st as [|u t]; [contradiction|]. destruct HN as (Hw & Hu & HN). destruct (fine_path s d r u t n HF Hw Hu) as [Hp Hf]. destruct HF as (F & E & H).
    cbn [m_enforce TestCS]. unfold t_enforce. rewrite Hp. cbn [obind]. cbn [m_enforce HonestCS obind] in HR.
    unfold set_named_obj. rewrite Hf. cbn [obind fst snd t_objs t_ns t_cons t_inputs t_aux].
    set (s1 := mkT _ _ _ _ _).
    assert (G : grown s s1 n) by (eapply grown_cons; reflexivity).
    eapply (IH s1 d r (add n u :: t)); [|apply HN|].
    + repeat split; [exact F|exact E|]. now apply (lv_add s s1 d r n u t G (fine_word s n F Hw) E H).
    + rewrite <- HR. unfold s1, pstate. cbn [t_inputs t_aux t_cons p_inputs p_aux p_cons]. now rewrite map_app.
  - destruct st as [|u t]; [contradiction|]. destruct HN as (Hw & Hu & HN). destruct (fine_path s d r u t n HF Hw Hu) as [Hp Hf]. destruct HF as (F & E & H).
    cbn [m_push TestCS]. unfold t_push. rewrite Hp. cbn [obind]. cbn [m_push HonestCS obind] in HR.
    unfold set_named_obj. rewrite Hf. cbn [obind fst snd t_objs t_ns t_cons t_inputs t_aux].
    set (s1 := mkT _ _ _ _ _).
    assert (G : grown s s1 n) by (eapply grown_cons; reflexivity).
    eapply (IH s1 d (n :: r) (none :: add n u :: t)); [|apply HN|exact HR].
    split; [apply (fine_word s n F Hw)|]. split; [unfold s1; cbn [t_ns rev]; now rewrite app_assoc, E|].
    now apply (lv_push s s1 d r n u t G (fine_word s n F Hw) E Hu H).
  - destruct st as [|u [|v t]]; [contradiction|contradiction|]. destruct HF as (F & E & H). destruct r as [|m r]; [contradiction|]. cbn [lv] in H. destruct H as (H1 & H2 & H3).
    cbn [m_pop TestCS]. unfold t_pop. cbn [rev] in E. rewrite app_assoc in E.
    assert (X : match t_ns s with [] => Panicked | _ :: _ => Done (mkT (t_objs s) (removelast (t_ns s)) (t_cons s) (t_inputs s) (t_aux s)) end
              = Done (mkT (t_objs s) (d ++ rev r) (t_cons s) (t_inputs s) (t_aux s))).
    { rewrite E, removelast_snoc. destruct (d ++ rev r); reflexivity. }
    rewrite X. cbn [obind]. cbn [m_pop HonestCS obind] in HR.
    eapply (IH _ d r (v :: t)); [|exact HN|exact HR]. split; [|split; [reflexivity|eapply lv_objs; [|exact H3]; reflexivity]]. cbn [t_ns].
    rewrite E in F. apply Forall_app in F. tauto.
Qed.
End Judgement.
