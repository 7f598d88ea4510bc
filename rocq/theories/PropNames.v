(** Property theorem C79: gadgets do not collide with themselves on names in the testing constraint system. *)
From Coq Require Import String Ascii.
From Coq Require Import ZArith List Bool Lia.
From Verif Require Import Prelude PrimeField Zp Fields Circuit Loops BooleanGadget NumGadget MultiEq UInt32 UInt32Proof LookupGadget Multipack Sha256 Sha256Proof Blake2s Blake2sProof TestCS TestCSProof PropTestCS Mimc
  Names NamesGadgets NamesFit.
Import ListNotations.
Local Open Scope nat_scope.

(** ** Specification
    A set of names: those of a list, and those that consist of a text and a decimal number. *)
Definition listed (l fams : list string) (x : string) : Prop := In x l \/ exists f i, In f fams /\ x = (f ++ nat_str i)%string.
Definition no_slash (x : string) : Prop := has_slash x = false.
(** Whenever the names of the set are free in the current namespace: if the program goes through for a prover without names, then it
    goes through on the testing constraint system, with the same result, the same values and the same constraints; it comes back
    to the namespace where it started, and everything that is new is below that namespace and there under a name of the set. *)
Definition fits {P : PrimeField} {A} (p : prog P A) (l fams : list string) : Prop :=
  Forall no_slash (l ++ fams) /\
  forall s : TState P, Reach s -> (forall x, listed l fams x -> ~ taken s (path_of s x)) ->
  forall r q, run (HonestCS P) p (pstate s) = Done (r, q) ->
  exists s', run TestCS p s = Done (r, s') /\ pstate s' = q /\ t_ns s' = t_ns s /\
    forall path, taken s' path -> taken s path \/
      exists x rest, Forall no_slash (x :: rest) /\ path = String.concat "/" (t_ns s ++ x :: rest) /\ listed l fams x.

(** ** Proofs *)
Section Proofs.
Context {P : PrimeField}.
Lemma uses_fits {A} (p : prog P A) N Q l fams : Forall no_slash (l ++ fams) -> uses word p N Q -> (forall x, N x -> listed l fams x) -> fits p l fams.
Proof.
  intros Hw H HN. split; [exact Hw|]. intros s Hs Hf r q E. destruct (uses_run p _ Q (uses_sub word p N (listed l fams) Q HN H) s Hs Hf r q E) as (s' & H1 & H2 & H3 & _ & H4).
  exists s'. auto.
Qed.
Lemma plain_fits {A} (p : prog P (res A)) N l fams : Forall no_slash (l ++ fams) -> uses plain p N (okP (fun _ => True)) -> (forall x, N x -> listed l fams x) -> fits p l fams.
Proof. intros Hw H. apply uses_fits with (Q := okP (fun _ => True)); [exact Hw|now apply weak]. Qed.
Lemma listed_word l fams x : Forall no_slash (l ++ fams) -> listed l fams x -> no_slash x.
Proof.
  intros Hw. rewrite Forall_forall in Hw. intros [Hx|(f & i & Hf & ->)]; [apply Hw, in_or_app; now left|].
  unfold no_slash. rewrite has_slash_app, nat_str_slash, orb_false_r. apply Hw, in_or_app. now right.
Qed.
Lemma names_list l : forall x, oneof l x -> listed l [] x. Proof. intros x Hx. now left. Qed.
Lemma names_fam f : forall x, fam f x -> listed [] [f] x. Proof. intros x [i Hx]. right. exists f, i. split; [now left|exact Hx]. Qed.
End Proofs.
Ltac lst := unfold n_bits, n_strict, n_pack, n_compression; let X := fresh in intros ? X; repeat match goal with
  | H : join _ _ _ |- _ => destruct H as [H|H]
  | H : fam _ _ |- _ => destruct H as [? H]
  | H : mq _ |- _ => destruct H as [? H]
  | H : just _ _ |- _ => unfold just in H; subst
  end; first [left; cbn in *; solve [tauto|auto 20] | right; eexists _, _; split; [|eassumption]; cbn; tauto].
Tactic Notation "fit1" uconstr(H) := intros; eapply plain_fits; [repeat constructor|apply H|first [apply names_list|apply names_fam|solve [lst]]].

(** Bits (boolean.rs). *)
Theorem C79_boolean (P : PrimeField) :
  (forall v, fits (@ab_alloc P v) ["boolean"; "boolean constraint"]%string []) /\
  (forall v m, fits (@ab_alloc_conditionally P v m) ["boolean"; "boolean constraint"]%string []) /\
  (forall a b, fits (@ab_xor P a b) ["xor result"; "xor constraint"]%string []) /\
  (forall a b, fits (@ab_and P a b) ["and result"; "and constraint"]%string []) /\
  (forall a b, fits (@ab_and_not P a b) ["and not result"; "and not constraint"]%string []) /\
  (forall a b, fits (@ab_nor P a b) ["nor result"; "nor constraint"]%string []) /\
  (forall a b, fits (@b_xor P a b) ["xor result"; "xor constraint"]%string []) /\
  (forall a b, fits (@b_and P a b) ["and result"; "and constraint"; "and not result"; "and not constraint"; "nor result"; "nor constraint"]%string []) /\
  (forall a b, fits (@b_enforce_equal P a b) ["enforce equal to one"; "enforce equal to zero"; "enforce equal"]%string []) /\
  (forall a b c, fits (@b_ch P a b c) ["ch"; "ch computation"; "and result"; "and constraint"; "and not result"; "and not constraint"; "nor result"; "nor constraint"]%string []) /\
  (forall a b c, fits (@b_maj P a b c) ["maj"; "b and c"; "maj computation"; "and result"; "and constraint"; "and not result"; "and not constraint"; "nor result"; "nor constraint"]%string []) /\
  (forall v, fits (@u64_into_boolean_vec_le P v) [] ["bit "]%string) /\
  (forall (F : PrimeField) (v : option F), fits (@field_into_boolean_vec_le P F v) [] ["bit "]%string) /\
  (forall (F : PrimeField) (v : option F), fits (@field_into_allocated_bits_le P F v) [] ["bit "]%string).
Proof.
  split; [fit1 ab_alloc_u|]. split; [fit1 cond_u|]. split; [fit1 ab_xor_u|]. split; [fit1 ab_and_u|]. split; [fit1 ab_and_not_u|]. split; [fit1 ab_nor_u|].
  split; [fit1 b_xor_u|]. split; [fit1 b_and_u|]. split; [fit1 b_enforce_equal_u|]. split; [fit1 b_ch_u|]. split; [fit1 b_maj_u|].
  split; [fit1 u64_u|]. split; [fit1 field_vec_u|]. fit1 field_bits_u.
Qed.
Print Assumptions C79_boolean.

(** Numbers, lookups and packing (num.rs, lookup.rs, multipack.rs). *)
Theorem C79_num (P : PrimeField) :
  (forall v, fits (@an_alloc P v) ["num"]%string []) /\
  (forall a, fits (@an_inputize P a) ["input variable"; "enforce input is correct"]%string []) /\
  (forall a b, fits (@an_mul P a b) ["product num"; "multiplication constraint"]%string []) /\
  (forall a, fits (@an_square P a) ["squared num"; "squaring constraint"]%string []) /\
  (forall a, fits (@an_assert_nonzero P a) ["ephemeral inverse"; "nonzero assertion constraint"]%string []) /\
  (forall a b c, fits (@an_conditionally_reverse P a b c)
    ["conditional reversal result 1"; "first conditional reversal"; "conditional reversal result 2"; "second conditional reversal"]%string []) /\
  (forall a, fits (@to_bits_le P a) ["unpacking constraint"]%string ["bit "]%string) /\
  (forall a, fits (@to_bits_le_strict P a) ["unpacking constraint"]%string ["bit "; "run ending at "]%string) /\
  (forall bits coords, fits (@lookup3_xy P bits coords) ["x"; "y"; "precomp"; "x-coordinate lookup"; "y-coordinate lookup"]%string []) /\
  (forall bits coords, fits (@lookup3_xy_neg P bits coords) ["y"; "precomp"; "y-coordinate lookup"]%string []) /\
  (forall bits, fits (@pack_into_inputs P bits) [] ["input "; "packing constraint "]%string).
Proof.
  split; [fit1 an_alloc_u|]. split; [fit1 inputize_u|]. split; [fit1 mul_u|]. split; [fit1 square_u|]. split; [fit1 nonzero_u|]. split; [fit1 reverse_u|].
  split; [fit1 to_bits_u|]. split; [fit1 strict_u|]. split; [fit1 lookup_u|]. split; [fit1 lookup_neg_u|]. fit1 pack_u.
Qed.
Print Assumptions C79_num.

(** Words (uint32.rs); an addition needs a MultiEq around it. *)
Theorem C79_uint32 (P : PrimeField) :
  (forall v, fits (@u_alloc P v) [] ["allocated bit "]%string) /\
  (forall a b, fits (@u_xor P a b) [] ["xor of bit "]%string) /\
  (forall a b c, fits (@u_ch P a b c) [] ["ch "]%string) /\
  (forall a b c, fits (@u_maj P a b c) [] ["maj "]%string) /\
  (forall ops, fits (multieq_scope (@addmany P ops)) [] ["result bit "; "multieq "]%string).
Proof.
  split; [fit1 u_alloc_u|]. split; [fit1 u_xor_u|]. split; [fit1 u_ch_u|]. split; [fit1 u_maj_u|].
  intros ops. eapply uses_fits; [repeat constructor|apply multieq_u, addmany_u|lst].
Qed.
Print Assumptions C79_uint32.

(** The hash functions, for messages of any length. *)
Theorem C79_hashes (P : PrimeField) :
  (forall input cur, fits (@sha256_compression P input cur)
    ["deferred h0 computation"; "new h1"; "new h2"; "new h3"; "deferred h4 computation"; "new h5"; "new h6"; "new h7"]%string
    ["w extension "; "compression round "; "multieq "]%string) /\
  (forall input, fits (@sha256_block_no_padding P input)
    ["deferred h0 computation"; "new h1"; "new h2"; "new h3"; "deferred h4 computation"; "new h5"; "new h6"; "new h7"]%string
    ["w extension "; "compression round "; "multieq "]%string) /\
  (forall input, fits (@sha256 P input) [] ["block "]%string) /\
  (forall h m t f, fits (@blake2s_compression P h m t f)
    ["first xor"; "second xor"; "third xor"; "h[0] ^ v[0] ^ v[0 + 8]"; "h[1] ^ v[1] ^ v[1 + 8]"; "h[2] ^ v[2] ^ v[2 + 8]"; "h[3] ^ v[3] ^ v[3 + 8]";
     "h[4] ^ v[4] ^ v[4 + 8]"; "h[5] ^ v[5] ^ v[5 + 8]"; "h[6] ^ v[6] ^ v[6 + 8]"; "h[7] ^ v[7] ^ v[7 + 8]"]%string
    ["round "; "multieq "]%string) /\
  (forall input personalization, fits (@blake2s P input personalization) ["final block"]%string ["block "]%string).
Proof.
  split; [intros; eapply uses_fits; [repeat constructor|apply sha256_compression_u|lst]|]. split; [intros; eapply uses_fits; [repeat constructor|apply sha256_block_u|lst]|].
  split; [intros; eapply uses_fits; [repeat constructor|apply sha256_u|apply names_fam]|]. split; [|intros; eapply uses_fits; [repeat constructor|apply blake2s_u|lst]].
  intros. eapply uses_fits; [repeat constructor|apply blake2s_compression_u|]. intros x [Hx|[[[i Hx]|[i Hx]]|(i & Hi & Hx)]].
  - left. cbn in *. tauto.
  - right. exists "round "%string, i. split; [now left|exact Hx].
  - right. exists "multieq "%string, i. split; [right; now left|exact Hx].
  - left. subst. do 8 (destruct i as [|i]; [vm_compute; tauto|]). lia.
Qed.
Print Assumptions C79_hashes.

(** Programs compose: one after the other, if their names differ; and in a namespace, whatever the names. *)
Theorem C79_sequence (P : PrimeField) (A B : Type) (p : prog P (res A)) (g : A -> prog P (res B)) l1 f1 l2 f2 :
  fits p l1 f1 -> (forall a, fits (g a) l2 f2) -> (forall x, listed l1 f1 x -> ~ listed l2 f2 x) -> Forall no_slash (l2 ++ f2) ->
  fits (bindq p g) (l1 ++ l2) (f1 ++ f2).
Proof.
  intros [Hw1 Hp] Hg Hd Hw2. split.
  { apply Forall_app in Hw1 as [? ?]. apply Forall_app in Hw2 as [? ?]. repeat (apply Forall_app; split); assumption. }
  intros s Hs Hfree r q E. rewrite run_bindq in E. destruct (run (HonestCS P) p (pstate s)) as [[r1 q1]|] eqn:E1; [|discriminate]. cbn [obind fst snd] in E.
  assert (In1 : forall x, listed l1 f1 x -> listed (l1 ++ l2) (f1 ++ f2) x).
  { intros x [Hx|(f & i & Hf & Hx)]; [left; apply in_or_app; now left|right; exists f, i; split; [apply in_or_app; now left|exact Hx]]. }
  assert (In2 : forall x, listed l2 f2 x -> listed (l1 ++ l2) (f1 ++ f2) x).
  { intros x [Hx|(f & i & Hf & Hx)]; [left; apply in_or_app; now right|right; exists f, i; split; [apply in_or_app; now right|exact Hx]]. }
  destruct (Hp s Hs (fun x Hx => Hfree x (In1 x Hx)) r1 q1 E1) as (s1 & R1 & Q1 & N1 & W1). rewrite run_bindq, R1. cbn [obind fst snd].
  destruct r1 as [a|e].
  2: { injection E as <- <-. exists s1. repeat split; auto. intros path Hx. destruct (W1 path Hx) as [?|(x & rest & H1 & H2 & H3)]; [now left|right; exists x, rest; auto]. }
  rewrite <- Q1 in E. assert (Hs1 : Reach s1) by (eapply R_run; eauto). pose proof (i_ns _ (reach_inv _ Hs)) as Hns.
  destruct (proj2 (Hg a) s1 Hs1) with (r := r) (q := q) as (s2 & R2 & Q2 & N2 & W2); [|exact E|].
  - intros x Hx Ht. pose proof (listed_word _ _ _ Hw2 Hx) as Fx. unfold path_of in Ht. rewrite N1 in Ht.
    destruct (W1 _ Ht) as [H|(y & rest & H1 & H2 & H3)]; [exact (Hfree x (In2 x Hx) H)|].
    apply concat_slash_inj in H2.
    + apply app_inv_head in H2. injection H2 as <- _. exact (Hd x H3 Hx).
    + destruct (t_ns s); discriminate.
    + destruct (t_ns s); discriminate.
    + apply Forall_app. split; [exact Hns|constructor; [exact Fx|constructor]].
    + apply Forall_app. split; [exact Hns|exact H1].
  - exists s2. split; [exact R2|]. split; [exact Q2|]. split; [now rewrite N2|]. intros path Hx. rewrite N1 in W2.
    destruct (W2 path Hx) as [H|(x & rest & H1 & H2 & H3)]; [|right; exists x, rest; auto].
    destruct (W1 path H) as [?|(x & rest & H1 & H2 & H3)]; [now left|right; exists x, rest; auto].
Qed.
Print Assumptions C79_sequence.

Theorem C79_namespace (P : PrimeField) (A : Type) (n : string) (p : prog P A) l fams : no_slash n -> fits p l fams -> fits (ns n p) [n] [].
Proof.
  intros Hn [Hw Hp]. split; [constructor; [exact Hn|constructor]|]. intros s Hs Hfree r q E. unfold ns in *. cbn [run] in E |- *. cbn [m_push HonestCS obind] in E.
  assert (Hnot : ~ taken s (path_of s n)) by (apply Hfree; left; now left).
  pose proof (i_ns _ (reach_inv _ Hs)) as Hns.
  cbn [m_push TestCS]. destruct (t_push s n) as [s1|] eqn:E1.
  2: { exfalso. apply Hnot. destruct (C03_duplicate_panics P s n fzero [] [] [] Hn) as (_ & _ & _ & H & _). now apply H. }
  assert (Hs1 : Reach s1). { eapply (R_run unit (PushNs n (Ret tt))) with (r := tt); [exact Hs|]. cbn [run]. cbn [m_push TestCS]. rewrite E1. reflexivity. }
  apply push_inv in E1. destruct E1 as (path & Hpath & Hnone & ->). apply path_inv in Hpath as [_ ->].
  set (s1 := mkT _ _ _ _ _) in *. cbn [obind]. rewrite run_bind in E. rewrite run_bind.
  destruct (run (HonestCS P) p (pstate s)) as [[r1 q1]|] eqn:R1; [|discriminate]. cbn [obind fst snd run m_pop HonestCS] in E. injection E as <- <-.
  assert (Empty : forall x rest, Forall no_slash (x :: rest) -> ~ taken s1 (String.concat "/" (t_ns s1 ++ x :: rest))).
  { intros x rest Hf Ht. unfold taken, s1 in Ht. cbn [t_objs t_ns] in Ht. rewrite find_cons in Ht.
    destruct (String.eqb_spec (String.concat "/" ((t_ns s ++ [n]) ++ x :: rest)) (String.concat "/" (t_ns s ++ [n]))) as [X|X].
    - apply concat_slash_inj in X; [apply (f_equal (@length string)) in X; rewrite !app_length in X; cbn in X; lia| | | |].
      + destruct (t_ns s); discriminate.
      + destruct (t_ns s); discriminate.
      + apply Forall_app. split; [now apply fine_word|exact Hf].
      + now apply fine_word.
    - apply Hnot. apply (proj1 (reach_tidy _ Hs) (t_ns s ++ [n]) (x :: rest)); [destruct (t_ns s); discriminate| |exact Ht].
      apply Forall_app. split; [now apply fine_word|exact Hf]. }
  destruct (Hp s1 Hs1) with (r := r1) (q := q1) as (s2 & R2 & Q2 & N2 & W2); [|exact R1|].
  { intros x Hx. apply (Empty x []). constructor; [exact (listed_word _ _ _ Hw Hx)|constructor]. }
  rewrite R2. cbn [obind run m_pop TestCS fst snd]. unfold t_pop. rewrite N2. assert (En : t_ns s1 = t_ns s ++ [n]) by reflexivity. rewrite En.
  exists (mkT (t_objs s2) (t_ns s) (t_cons s2) (t_inputs s2) (t_aux s2)). split; [|split; [exact Q2|split; [reflexivity|]]].
  - destruct (t_ns s ++ [n]) eqn:X; [destruct (t_ns s); discriminate|]. rewrite <- X, removelast_snoc. reflexivity.
  - intros path Hx. destruct (W2 path Hx) as [H|(x & rest & H1 & H2 & H3)].
    + unfold taken, s1 in H. cbn [t_objs] in H. rewrite find_cons in H. destruct (String.eqb_spec path (String.concat "/" (t_ns s ++ [n]))) as [->|X]; [|now left].
      right. exists n, []. split; [constructor; [exact Hn|constructor]|]. split; [reflexivity|left; now left].
    + right. exists n, (x :: rest). split; [constructor; assumption|]. split; [rewrite H2; unfold s1; cbn [t_ns]; now rewrite <- app_assoc|left; now left].
Qed.
Print Assumptions C79_namespace.

(** Called a second time in the same namespace, they panic. *)
Theorem C79_second_call (P : PrimeField) (s s' : TState P) : Reach s ->
  (forall v r, run TestCS (@ab_alloc P (Some v)) s = Done (r, s') -> forall v', run TestCS (@ab_alloc P (Some v')) s' = Panicked) /\
  (forall input cur r, run TestCS (@sha256_compression P input cur) s = Done (r, s') -> forall input' cur', run TestCS (@sha256_compression P input' cur') s' = Panicked) /\
  (forall input r, run TestCS (@sha256_block_no_padding P input) s = Done (r, s') -> forall input', run TestCS (@sha256_block_no_padding P input') s' = Panicked) /\
  (forall input r, run TestCS (@sha256 P input) s = Done (r, s') -> forall input', run TestCS (@sha256 P input') s' = Panicked) /\
  (forall h m t f r, run TestCS (@blake2s_compression P h m t f) s = Done (r, s') -> forall h' m' t' f', run TestCS (@blake2s_compression P h' m' t' f') s' = Panicked).
Proof.
  intros Hs. split.
  { intros v r E v'. assert (Hw : has_slash "boolean" = false) by reflexivity.
    assert (En : t_ns s' = t_ns s) by (apply (ns_run (ab_alloc (Some v)) s r s' (t_ns s) []); [now rewrite app_nil_r|apply @g_ns, ab_alloc_gadget|exact E]).
    assert (T : taken s' (path_of s "boolean")).
    { unfold ab_alloc in E. rewrite run_bindq in E. change (rmap fbit (get (Some v))) with (Ok (fbit v) : res P) in E. destruct (run TestCS (cs_alloc "boolean" (Ok (fbit v))) s) as [[r1 s1]|] eqn:E1; [|discriminate].
      assert (T1 : taken s1 (path_of s "boolean")).
      { destruct (C03_duplicate_panics P s "boolean" (fbit v) [] [] [] Hw) as (_ & _ & _ & _ & HT & _).
        unfold cs_alloc in E1. cbn [run] in E1. change (m_alloc TestCS) with (@t_alloc P) in E1.
        destruct (t_alloc s "boolean" (Ok (fbit v))) as [[[s2 v1] b1]|]; [|discriminate]. cbn [obind fst snd] in E1.
        assert (s2 = s1) as <- by (destruct v1; cbn [run] in E1; now injection E1). eapply HT. reflexivity. }
      assert (Hs1 : Inv s1) by (apply reach_inv; eapply R_run; eauto).
      cbn [obind fst snd] in E. destruct r1 as [a|e]; [eapply run_stays; eauto|injection E as _ <-; exact T1]. }
    destruct (C03_duplicate_panics P s' "boolean" (fbit v') [] [] [] Hw) as (HP & _). unfold ab_alloc. rewrite run_bindq. change (rmap fbit (get (Some v'))) with (Ok (fbit v') : res P). unfold cs_alloc. cbn [run]. change (m_alloc TestCS) with (@t_alloc P).
    rewrite (proj2 HP); [reflexivity|]. unfold path_of in *. now rewrite En. }
  split; [intros input cur r E input' cur'; eapply opens_twice; [|apply (compression_opens input cur)|apply compression_opens|apply @g_ns, compression_gadget|exact Hs|exact E]; reflexivity|].
  split; [intros input r E input'; eapply opens_twice; [|apply (block_opens input)|apply block_opens|apply @g_ns, block_gadget|exact Hs|exact E]; reflexivity|].
  split; [intros input r E input'; eapply opens_twice; [|apply (sha256_opens input)|apply sha256_opens|apply @g_ns, sha256_gadget|exact Hs|exact E]; reflexivity|].
  intros h m t f r E h' m' t' f'. eapply opens_twice; [|apply (blake_opens h m t f)|apply blake_opens|apply @g_ns, b_compression_gadget|exact Hs|exact E]; reflexivity.
Qed.
Print Assumptions C79_second_call.

(** ** Examples *)
(** In the fresh system every name but ONE is free, so that any message can be hashed there... *)
Example C79_ex_sha256 (P : PrimeField) (input : list Boolean) r q : run (HonestCS P) (sha256 input) prover_start = Done (r, q) ->
  exists s', run TestCS (sha256 input) test_new = Done (r, s') /\ pstate s' = q /\ t_ns s' = [].
Proof.
  intros E. destruct (C79_hashes P) as (_ & _ & H & _). destruct (proj2 (H input) test_new R_new) with (r := r) (q := q) as (s' & H1 & H2 & H3 & _); [|exact E|eauto].
  intros x [[]|(f & i & [<-|[]] & ->)] Ht. apply Ht. reflexivity.
Qed.
(** ...and hashing twice, in two namespaces, works as well. *)
Example C79_ex_two (P : PrimeField) (a b : list Boolean) : fits (bindq (ns "left" (@sha256 P a)) (fun _ => ns "right" (@sha256 P b))) ["left"; "right"]%string [].
Proof.
  destruct (C79_hashes P) as (_ & _ & H & _). apply (C79_sequence P _ _ _ _ ["left"%string] [] ["right"%string] []).
  - eapply C79_namespace; [reflexivity|apply H].
  - intros _. eapply C79_namespace; [reflexivity|apply H].
  - intros x [[<-|[]]|(? & ? & [] & _)] [[X|[]]|(? & ? & [] & _)]. discriminate X.
  - repeat constructor.
Qed.
(** Two bits with two namespaces, the conjunction of them, and without namespaces. *)
Definition ex_bits (n1 n2 : option string) : option (nat * nat * bool) :=
  let w {A} (n : option string) (p : prog Fr64513 A) := match n with Some n => ns n p | None => p end in
  match run TestCS (bindq (w n1 (ab_alloc (Some true))) (fun a => bindq (w n2 (ab_alloc (Some true))) (fun b => ns "and" (b_and (BIs a) (BIs b))))) test_new with
  | Done (Ok _, s) => Some (List.length (t_objs s), num_constraints s, match is_satisfied s with Done b => b | Panicked => false end)
  | _ => None
  end.
Example C79_ex_bits : ex_bits (Some "a"%string) (Some "b"%string) = Some (10, 3, true) /\ ex_bits (Some "a"%string) (Some "a"%string) = None /\ ex_bits None None = None.
Proof. vm_compute. auto. Qed.
