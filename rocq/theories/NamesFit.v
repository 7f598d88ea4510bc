(** From the names a program uses to its runs on the testing constraint system. *)
From Coq Require Import String Ascii.
From Coq Require Import ZArith List Bool Lia.
From Verif Require Import Prelude PrimeField Circuit Loops BooleanGadget NumGadget MultiEq UInt32 LookupGadget Multipack Sha256 Blake2s TestCS TestCSProof PropTestCS Mimc Names NamesGadgets.
Import ListNotations.
Local Open Scope nat_scope.

Section Fit.
Context {P : PrimeField}.

(** The directories of what exists, and the current one, exist. *)
Definition tidy (s : TState P) : Prop :=
  (forall l rest, l <> [] -> free_of_slash (l ++ rest) -> present s (l ++ rest) -> present s l) /\
  (forall l rest, l <> [] -> t_ns s = l ++ rest -> present s l).

Lemma tidy_objs (s s' : TState P) : t_objs s' = t_objs s -> t_ns s' = t_ns s -> tidy s -> tidy s'.
Proof. intros E1 E2 [H1 H2]. unfold tidy, present in *. rewrite E1, E2. split; assumption. Qed.
Lemma tidy_grow (s s' : TState P) n o : word n -> free_of_slash (t_ns s) -> t_objs s' = (String.concat "/" (t_ns s ++ [n]), o) :: t_objs s -> tidy s ->
  (forall l rest, l <> [] -> free_of_slash (l ++ rest) -> present s' (l ++ rest) -> present s' l) /\ (forall l rest, l <> [] -> t_ns s ++ [n] = l ++ rest -> present s' l).
Proof.
  intros Hw Hf E [H1 H2].
  assert (K : forall l, present s l -> present s' l).
  { intros l. unfold present. rewrite E, find_cons. destruct (String.eqb _ _); [discriminate|auto]. }
  assert (N : present s' (t_ns s ++ [n])) by (unfold present; rewrite E, find_cons, String.eqb_refl; discriminate).
  assert (X : forall l rest, l <> [] -> t_ns s ++ [n] = l ++ rest -> present s' l).
  { intros l rest Hl El. destruct rest as [|x rest] using rev_ind; [rewrite app_nil_r in El; rewrite <- El; exact N|].
    rewrite app_assoc in El. apply app_inj_tail in El as [El _]. apply K. eapply H2; eauto. }
  split; [|exact X]. intros l rest Hl Fl Hp.
  destruct (present_grown s s' n (l ++ rest)) as [Hp'|Hp'].
  - eapply grown_cons. exact E.
  - exact Fl.
  - destruct l; [contradiction|discriminate].
  - now apply fine_word.
  - exact Hp.
  - apply K. eapply H1; eauto.
  - eapply X; [exact Hl|symmetry; exact Hp'].
Qed.
Lemma path_inv nss n path : compute_path nss n = Done path -> word n /\ path = String.concat "/" (nss ++ [n]).
Proof.
  intros H. destruct (has_slash n) eqn:E; [unfold compute_path in H; rewrite E in H; discriminate|]. split; [exact E|].
  rewrite compute_path_spec in H by exact E. now injection H.
Qed.
Lemma tidy_run {A} (p : prog P A) s r s' : Inv s -> run TestCS p s = Done (r, s') -> tidy s -> tidy s'.
Proof.
  intros HI H. refine (proj2 (run_ind_inv (fun s s' => tidy s -> tidy s') _ _ _ _ _ _ _ A p s r s' HI H)); auto.
  - intros s0 ann f s1 v b I0 E T0. apply alloc_inv in E. destruct E as (path & Hp & -> & [(e & -> & -> & ->)|(x & -> & _ & -> & ->)]); auto.
    apply path_inv in Hp as [Hw ->]. match goal with |- tidy ?s1 => destruct (tidy_grow s0 s1 _ _ Hw (i_ns _ I0) eq_refl T0) as [G1 G2] end.
    split; [exact G1|]. cbn [t_ns]. intros l rest Hl El. eapply (G2 l (rest ++ [ann])); [exact Hl|]. now rewrite El, app_assoc.
  - intros s0 ann f s1 v b I0 E T0. apply alloc_input_inv in E. destruct E as (path & Hp & -> & [(e & -> & -> & ->)|(x & -> & _ & -> & ->)]); auto.
    apply path_inv in Hp as [Hw ->]. match goal with |- tidy ?s1 => destruct (tidy_grow s0 s1 _ _ Hw (i_ns _ I0) eq_refl T0) as [G1 G2] end.
    split; [exact G1|]. cbn [t_ns]. intros l rest Hl El. eapply (G2 l (rest ++ [ann])); [exact Hl|]. now rewrite El, app_assoc.
  - intros s0 ann a b d s1 I0 E T0. apply enforce_inv in E. destruct E as (path & Hp & _ & ->).
    apply path_inv in Hp as [Hw ->]. match goal with |- tidy ?s1 => destruct (tidy_grow s0 s1 _ _ Hw (i_ns _ I0) eq_refl T0) as [G1 G2] end.
    split; [exact G1|]. cbn [t_ns]. intros l rest Hl El. eapply (G2 l (rest ++ [ann])); [exact Hl|]. now rewrite El, app_assoc.
  - intros s0 n s1 I0 E T0. apply push_inv in E. destruct E as (path & Hp & _ & ->).
    apply path_inv in Hp as [Hw ->]. match goal with |- tidy ?s1 => destruct (tidy_grow s0 s1 _ _ Hw (i_ns _ I0) eq_refl T0) as [G1 G2] end.
    split; [exact G1|exact G2].
  - intros s0 s1 I0 E [T1 T2]. apply pop_inv in E. destruct E as (Hn & ->). split; [exact T1|]. cbn [t_ns]. intros l rest Hl El.
    apply (T2 l (rest ++ [last (t_ns s0) EmptyString])); [exact Hl|]. rewrite app_assoc, <- El. now apply app_removelast_last.
Qed.
Lemma reach_tidy s : Reach s -> tidy s.
Proof.
  induction 1 as [|A p s r s' H IH E|s path x s' H IH E].
  - split; [|intros [|x l] rest Hl El; [contradiction|discriminate El]]. intros l rest Hl Hf Hp. destruct rest as [|y rest]; [now rewrite app_nil_r in Hp|].
    exfalso. unfold present, test_new in Hp. cbn [t_objs] in Hp. rewrite find_cons in Hp. destruct (String.eqb_spec (String.concat "/" (l ++ y :: rest)) "ONE") as [X|X]; [|now apply Hp].
    change ("ONE"%string) with (String.concat "/" ["ONE"%string]) in X. apply concat_slash_inj in X.
    + apply (f_equal (@length string)) in X. rewrite app_length in X. cbn in X. destruct l; [contradiction|cbn in X; lia].
    + destruct l; discriminate.
    + discriminate.
    + exact Hf.
    + constructor; [reflexivity|constructor].
  - eapply tidy_run; [apply reach_inv; exact H|exact E|exact IH].
  - apply set_inv in E. destruct E as (v & _ & E). apply set_entry_entry in E. destruct E as (y & n & _ & Ho & Hn & _ & _). eapply tidy_objs; eauto.
Qed.

(** What is new is below the directory [d], under a name that was not in use there. *)
Definition under (d : list string) (w : names) (path : string) : Prop := exists x rest, free_of_slash (x :: rest) /\ path = String.concat "/" (d ++ x :: rest) /\ ~ w x.
Definition outer (w : names) (r : list string) (st : list names) : Prop :=
  length st = S (length r) /\ sub w (last st none) /\ forall x l, rev r = x :: l -> ~ w x.
Lemma outer_new d w s r u t n : outer w r (u :: t) -> t_ns s = d ++ rev r -> free_of_slash (@t_ns P s ++ [n]) -> ~ u n -> under d w (String.concat "/" (t_ns s ++ [n])).
Proof.
  intros (Hl & Hw & Hr) E F Hn. rewrite E in F |- *. rewrite <- app_assoc in F |- *. apply Forall_app in F as [_ F]. destruct (rev r) as [|x l] eqn:Er.
  - apply (f_equal (@length string)) in Er. rewrite rev_length in Er. cbn in Er. destruct t as [|v t]; [|cbn in Hl; lia]. cbn [last] in Hw.
    exists n, []. split; [exact F|]. split; [reflexivity|]. intros X. exact (Hn (Hw n X)).
  - exists x, (l ++ [n]). split; [exact F|]. split; [reflexivity|]. eapply Hr. reflexivity.
Qed.
Lemma outer_add w r u t n : outer w r (u :: t) -> outer w r (add n u :: t).
Proof.
  intros (Hl & Hw & Hr). split; [exact Hl|]. split; [|exact Hr]. destruct t as [|v t]; [|exact Hw]. cbn [last] in *. intros x Hx. right. auto.
Qed.
Lemma outer_push w r u t n : ~ u n -> outer w r (u :: t) -> outer w (n :: r) (none :: add n u :: t).
Proof.
  intros Hn H. pose proof (outer_add w r u t n H) as (Hl & Hw & _). destruct H as (Hl' & Hw' & Hr). split; [cbn in *; lia|]. split; [exact Hw|].
  cbn [rev]. intros x l E. destruct (rev r) as [|y l'] eqn:Er; [|injection E as <- _; eapply Hr; reflexivity].
  injection E as <- _. apply (f_equal (@length string)) in Er. rewrite rev_length in Er. cbn in Er. destruct t as [|v t]; [|cbn in Hl'; lia]. cbn [last] in Hw'. intros X. exact (Hn (Hw' _ X)).
Qed.
Lemma outer_pop w r u v t : outer w r (u :: v :: t) -> exists n r', r = n :: r' /\ outer w r' (v :: t).
Proof.
  intros (Hl & Hw & Hr). destruct r as [|n r]; [discriminate|]. exists n, r. split; [reflexivity|]. split; [cbn in *; lia|]. split; [exact Hw|].
  intros x l E. apply (Hr x (l ++ [n])). cbn [rev]. rewrite E. reflexivity.
Qed.
Lemma taken_cons (s s' : TState P) path o d w : t_objs s' = (path, o) :: t_objs s -> under d w path -> forall q, (taken s' q -> taken s q \/ under d w q).
Proof. intros E H q. unfold taken. rewrite E, find_cons. destruct (String.eqb_spec q path) as [->|]; auto. Qed.
Lemma run_below {A} (p : prog P A) : forall s d r st w Q a s', t_ns s = d ++ rev r -> free_of_slash (t_ns s) -> outer w r st -> wpN word st p Q ->
  run TestCS p s = Done (a, s') -> forall path, taken s' path -> taken s path \/ under d w path.
Proof.
  induction p as [a0| |n f k IH|n f k IH|n x y z k IH|n l r0 k IH|n k IH|k IH]; intros s d r st w Q a s' E F O HN HR path Hpath; cbn [run] in HR; cbn [wpN] in HN; try discriminate.
  - injection HR as <- <-. now left.
  - destruct st as [|u t]; [contradiction|]. destruct HN as (Hw & Hu & HN). cbn [m_alloc TestCS] in HR. destruct (t_alloc s n f) as [[[s1 v] b]|] eqn:X; [|discriminate]. cbn [obind fst snd] in HR.
    apply alloc_inv in X. destruct X as (pt & Hp & -> & [(e & -> & -> & ->)|(x & -> & _ & -> & ->)]).
    + eapply (IH _ _ s d r (add n u :: t) w Q); eauto using outer_add.
    + apply path_inv in Hp as [_ ->]. eapply (IH _ _ _ d r (add n u :: t) w Q) in HR; eauto using outer_add. destruct HR as [HR|HR]; [|now right].
      revert HR. eapply taken_cons; [reflexivity|]. eapply outer_new; eauto. now apply fine_word.
  - destruct st as [|u t]; [contradiction|]. destruct HN as (Hw & Hu & HN). cbn [m_alloc_input TestCS] in HR. destruct (t_alloc_input s n f) as [[[s1 v] b]|] eqn:X; [|discriminate]. cbn [obind fst snd] in HR.
    apply alloc_input_inv in X. destruct X as (pt & Hp & -> & [(e & -> & -> & ->)|(x & -> & _ & -> & ->)]).
    + eapply (IH _ _ s d r (add n u :: t) w Q); eauto using outer_add.
    + apply path_inv in Hp as [_ ->]. eapply (IH _ _ _ d r (add n u :: t) w Q) in HR; eauto using outer_add. destruct HR as [HR|HR]; [|now right].
      revert HR. eapply taken_cons; [reflexivity|]. eapply outer_new; eauto. now apply fine_word.
  - destruct st as [|u t]; [contradiction|]. destruct HN as (Hw & Hu & HN). cbn [m_enforce TestCS] in HR. destruct (t_enforce s n x y z) as [s1|] eqn:X; [|discriminate]. cbn [obind] in HR.
    apply enforce_inv in X. destruct X as (pt & Hp & _ & ->). apply path_inv in Hp as [_ ->].
    eapply (IH _ d r (add n u :: t) w Q) in HR; eauto using outer_add. destruct HR as [HR|HR]; [|now right].
    revert HR. eapply taken_cons; [reflexivity|]. eapply outer_new; eauto. now apply fine_word.
  - destruct st as [|u t]; [contradiction|]. destruct HN as (Hw & Hu & HN). cbn [m_push TestCS] in HR. destruct (t_push s n) as [s1|] eqn:X; [|discriminate]. cbn [obind] in HR.
    apply push_inv in X. destruct X as (pt & Hp & _ & ->). apply path_inv in Hp as [_ ->].
    eapply (IH _ d (n :: r) (none :: add n u :: t) w Q) in HR; eauto using outer_push.
    + destruct HR as [HR|HR]; [|now right]. revert HR. eapply taken_cons; [reflexivity|]. eapply outer_new; eauto. now apply fine_word.
    + cbn [t_ns rev]. now rewrite E, app_assoc.
    + now apply fine_word.
  - destruct st as [|u [|v t]]; [contradiction|contradiction|]. apply outer_pop in O as (n & r' & -> & O). cbn [m_pop TestCS] in HR. destruct (t_pop s) as [s1|] eqn:X; [|discriminate]. cbn [obind] in HR.
    apply pop_inv in X. destruct X as (_ & ->). cbn [rev] in E. rewrite app_assoc in E. rewrite E in F, HR. rewrite removelast_snoc in HR. apply Forall_app in F as [F _].
    eapply (IH _ d r' (v :: t) w Q) in HR; eauto; try reflexivity.
Qed.

(** What a program that [uses] the names [N] does when those are free. *)
Lemma uses_run {A} (p : prog P A) N Q : uses word p N Q -> forall s, Reach s -> (forall x, N x -> ~ taken s (path_of s x)) ->
  forall r q, run (HonestCS P) p (pstate s) = Done (r, q) ->
  exists s', run TestCS p s = Done (r, s') /\ pstate s' = q /\ t_ns s' = t_ns s /\ Q r /\
    forall path, taken s' path -> taken s path \/ exists x rest, free_of_slash (x :: rest) /\ path = String.concat "/" (t_ns s ++ x :: rest) /\ N x.
Proof.
  intros H s Hs Hfree r q E. pose proof (i_ns _ (reach_inv _ Hs)) as Hns.
  set (w := fun x => taken s (path_of s x)).
  assert (F : fine s (t_ns s) [] [w]).
  { split; [exact Hns|]. split; [cbn; now rewrite app_nil_r|]. cbn [lv]. intros x rest Hf Hp.
    apply (proj1 (reach_tidy _ Hs) (t_ns s ++ [x]) rest).
    - destruct (t_ns s); discriminate.
    - apply Forall_app. inversion Hf; subst. split; [now apply fine_word|assumption].
    - rewrite <- app_assoc. exact Hp. }
  pose proof (H w [] (fun x Hx => Hfree x Hx)) as HN.
  destruct (run_names p s (t_ns s) [] _ _ r q F HN E) as (s' & r' & st' & R & Eq & (HQ & u' & -> & Hu') & F').
  exists s'. split; [exact R|]. split; [exact Eq|]. destruct F' as (_ & En & L). destruct r' as [|n r']; cbn [lv] in L; [|contradiction].
  split; [rewrite En; cbn; apply app_nil_r|]. split; [exact HQ|]. intros path Hx.
  edestruct (run_below p s (t_ns s) [] [w] w) as [B|(x & rest & B1 & B2 & B3)]; [cbn; now rewrite app_nil_r|exact Hns| |exact HN|exact R|exact Hx|now left|].
  - split; [reflexivity|]. split; [intros x Hx'; exact Hx'|discriminate].
  - right. exists x, rest. split; [exact B1|]. split; [exact B2|]. subst path. destruct (Hu' x (L x rest B1 Hx)) as [?|?]; [contradiction|assumption].
Qed.

(** Objects stay. *)
Lemma run_stays {A} (p : prog P A) s r s' path : Inv s -> run TestCS p s = Done (r, s') -> taken s path -> taken s' path.
Proof.
  intros HI H. refine (proj2 (run_ind_inv (fun s s' => taken s path -> taken s' path) _ _ _ _ _ _ _ A p s r s' HI H)); auto; unfold taken.
  - intros s0 ann f s1 v b _ E. apply alloc_inv in E. destruct E as (pt & _ & -> & [(e & -> & -> & ->)|(x & -> & _ & -> & ->)]); auto.
    cbn [t_objs]. rewrite find_cons. destruct (String.eqb _ _); [discriminate|auto].
  - intros s0 ann f s1 v b _ E. apply alloc_input_inv in E. destruct E as (pt & _ & -> & [(e & -> & -> & ->)|(x & -> & _ & -> & ->)]); auto.
    cbn [t_objs]. rewrite find_cons. destruct (String.eqb _ _); [discriminate|auto].
  - intros s0 ann a b d s1 _ E. apply enforce_inv in E. destruct E as (pt & _ & _ & ->). cbn [t_objs]. rewrite find_cons. destruct (String.eqb _ _); [discriminate|auto].
  - intros s0 n s1 _ E. apply push_inv in E. destruct E as (pt & _ & _ & ->). cbn [t_objs]. rewrite find_cons. destruct (String.eqb _ _); [discriminate|auto].
  - intros s0 s1 _ E. apply pop_inv in E. destruct E as (_ & ->). auto.
Qed.
(** The first thing the program does is to open a namespace [n], or it panics. *)
Definition opens {A} (p : prog P A) (n : string) : Prop := (forall s, run TestCS p s = Panicked) \/ exists k, forall s, run TestCS p s = run TestCS (PushNs n k : prog P A) s.
Lemma opens_twice {A B} (p : prog P A) (p' : prog P B) n s r s' : word n -> opens p n -> opens p' n -> ns_ok 0 p -> Reach s -> run TestCS p s = Done (r, s') -> run TestCS p' s' = Panicked.
Proof.
  intros Hn Hp Hp' Hk Hs E.
  assert (En : t_ns s' = t_ns s) by (apply (ns_run p s r s' (t_ns s) []); [now rewrite app_nil_r|exact Hk|exact E]).
  assert (T : taken s' (path_of s n)).
  { destruct Hp as [Hp|[k Hp]]; [rewrite Hp in E; discriminate|]. rewrite Hp in E. cbn [run] in E. cbn [m_push TestCS] in E. destruct (t_push s n) as [s1|] eqn:E1; [|discriminate]. cbn [obind] in E.
    destruct (C03_duplicate_panics P s n fzero [] [] [] Hn) as (_ & _ & _ & _ & _ & _ & _ & HT). eapply run_stays; [|exact E|apply HT; exact E1].
    apply reach_inv. eapply (R_run unit (PushNs n (Ret tt))) with (r := tt); [exact Hs|]. cbn [run]. cbn [m_push TestCS]. rewrite E1. reflexivity. }
  destruct Hp' as [Hp'|[k Hp']]; rewrite Hp'; [reflexivity|]. cbn [run m_push TestCS].
  destruct (C03_duplicate_panics P s' n fzero [] [] [] Hn) as (_ & _ & _ & HP & _). rewrite (proj2 HP); [reflexivity|]. unfold path_of in *. now rewrite En.
Qed.
Lemma opens_panic {A} n : opens (Panic : prog P A) n. Proof. left. reflexivity. Qed.
Lemma opens_push {A} n (p : prog P A) k : p = PushNs n k -> opens p n. Proof. intros ->. right. exists k. reflexivity. Qed.
Lemma opens_bindq {A B} n (p : prog P (res A)) (g : A -> prog P (res B)) : opens p n -> opens (bindq p g) n.
Proof.
  intros [H|[k H]]; [left|right; exists (bindq k g)]; intros s; rewrite run_bindq, H; [reflexivity|]. cbn [run]. destruct (m_push TestCS s n) as [s1|]; [|reflexivity]. cbn [obind].
  now rewrite run_bindq.
Qed.
(** A program before it that does nothing but compute. *)
Lemma opens_after {A B} n (p : prog P (res A)) (g : A -> prog P (res B)) : (forall s, run TestCS p s = Panicked) \/ (exists a, forall s, run TestCS p s = Done (Ok a, s)) ->
  (forall a, opens (g a) n) -> opens (bindq p g) n.
Proof.
  intros [H|[a H]] Hg; [left; intros s; rewrite run_bindq, H; reflexivity|]. destruct (Hg a) as [X|[k X]]; [left|right; exists k]; intros s; rewrite run_bindq, H; cbn [obind fst snd]; apply X.
Qed.
Lemma lift_map_run {A B} (f : A -> outcome B) l : forall i,
  (forall s, run TestCS (@mapq P _ _ (fun _ c => lift (f c) (fun w => Ret (Ok w))) i l) s = Panicked) \/
  exists ws, forall s, run TestCS (@mapq P _ _ (fun _ c => lift (f c) (fun w => Ret (Ok w))) i l) s = Done (Ok ws, s).
Proof.
  induction l as [|x l IH]; intros i; cbn [mapq]; [right; exists []; reflexivity|].
  destruct (f x) as [w|]; cbn [lift]; [|left; reflexivity].
  destruct (IH (S i)) as [H|[ws H]]; [left|right; exists (w :: ws)]; intros s; rewrite run_bindq; cbn [run obind fst snd]; rewrite run_bindq, H; reflexivity.
Qed.
Lemma scope_opens {A B C} n (p : prog P (res A)) (g1 : A -> prog P (res B)) (g2 : B -> prog P (res C)) : opens (multieq_scope (bindq (bindq (ns n p) g1) g2)) n.
Proof. eapply opens_push. reflexivity. Qed.
Lemma foldq_first {S A} (f : nat -> S -> A -> prog P (res S)) i s x l : foldq f i s (x :: l) = bindq (f i s x) (fun s => foldq f (Datatypes.S i) s l).
Proof. reflexivity. Qed.
Lemma compression_opens input cur : opens (@sha256_compression P input cur) "w extension 16".
Proof.
  unfold sha256_compression. destruct (negb _); [apply opens_panic|]. destruct (negb _); [apply opens_panic|]. apply opens_after; [apply lift_map_run|]. intros w.
  unfold compression_body. assert (E : seq 16 48 = 16 :: seq 17 47) by reflexivity. rewrite E. clear E. rewrite foldq_first. unfold w_extension at 1.
  assert (E : ("w extension " ++ nat_str 16)%string = "w extension 16"%string) by reflexivity. rewrite E. apply scope_opens.
Qed.
Lemma block_opens input : opens (@sha256_block_no_padding P input) "w extension 16".
Proof. unfold sha256_block_no_padding. destruct (negb _); [apply opens_panic|]. apply opens_bindq, compression_opens. Qed.
Lemma pad_zeros_nonempty fuel : forall l padded, l <> [] -> pad_zeros fuel l = Some padded -> padded <> [].
Proof.
  induction fuel as [|f IH]; intros l padded Hl; cbn [pad_zeros]; destruct (Nat.eqb _ 0); intros H; try discriminate; try (injection H as <-; exact Hl).
  eapply IH; [|exact H]. destruct l; discriminate.
Qed.
Lemma sha256_opens input : opens (@sha256 P input) "block 0".
Proof.
  unfold sha256. destruct (negb _); [apply opens_panic|]. destruct (sha256_padding input) as [padded|] eqn:E; [|apply opens_panic].
  destruct (negb _); [apply opens_panic|]. apply opens_bindq.
  assert (X : exists b l, chunks 512 padded = b :: l).
  { unfold sha256_padding in E. destruct (pad_zeros 512 (input ++ [BConst true])) as [p0|] eqn:Ep; [|discriminate]. apply pad_zeros_nonempty in Ep; [|destruct input; discriminate].
    revert E. generalize (map (fun i => BConst (Z.land (Z.shiftr (Z.of_nat (length input)) (Z.of_nat i)) 1 =? 1)%Z) (rev (seq 0 64))). intros tl E.
    apply (f_equal (fun o => match o with Some x => x | None => [] end)) in E. cbv beta iota in E. subst padded.
    destruct p0 as [|y p0]; [contradiction|]. unfold chunks. cbn [app length chunks_aux]. eauto. }
  destruct X as (b & l & ->). cbn [foldq]. apply opens_bindq. eapply opens_push. reflexivity.
Qed.
Lemma blake_opens h m t f : opens (@blake2s_compression P h m t f) "first xor".
Proof.
  unfold blake2s_compression. destruct (negb _); [apply opens_panic|]. destruct (negb _); [apply opens_panic|]. cbv zeta. destruct (negb _); [apply opens_panic|].
  apply opens_bindq. unfold set_xor_const, idx. destruct (nth_error _ 12); [|apply opens_panic]. apply opens_bindq. eapply opens_push. reflexivity.
Qed.
End Fit.
