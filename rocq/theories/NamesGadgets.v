(** The names that the gadgets use. *)
From Coq Require Import String Ascii.
From Coq Require Import ZArith List Bool Lia.
From Verif Require Import Prelude PrimeField Circuit Loops BooleanGadget NumGadget MultiEq UInt32 LookupGadget Multipack Sha256 Blake2s TestCS TestCSProof Names.
Import ListNotations.
Local Open Scope nat_scope.

Definition fam (s : string) : names := fun x => exists i, x = (s ++ nat_str i)%string.
Definition oneof (l : list string) : names := fun x => In x l.
Definition mq : names := fam "multieq ".
(** Names that are not those of MultiEq. *)
Definition plain (x : string) : Prop := word x /\ ~ mq x.

Lemma fam_apart s j k : j <> k -> apart (just (s ++ nat_str j)) (just (s ++ nat_str k)).
Proof. intros H x Hx Hy. unfold just in *. subst. apply append_inj_l, nat_str_inj in Hy. contradiction. Qed.
Lemma fam_loop s i n : sub (fun x => exists j, i <= j < i + n /\ just (s ++ nat_str j) x) (fam s).
Proof. intros x (j & _ & Hx). exists j. exact Hx. Qed.

Ltac wd := first [reflexivity | unfold word; rewrite ?has_slash_app, ?nat_str_slash; reflexivity].
Ltac pl := split; [wd|intros [? X]; cbn [append] in X; discriminate X].
Ltac nset := repeat match goal with
  | |- apart _ _ => intros ? ? ?
  | |- sub _ _ => intros ? ?
  | H : join _ _ _ |- _ => destruct H as [H|H]
  | H : none _ |- _ => destruct H
  | H : just _ _ |- _ => unfold just in H
  | H : oneof _ _ |- _ => cbn [oneof In] in H
  | H : fam _ _ |- _ => destruct H as [? H]
  | H : mq _ |- _ => destruct H as [? H]
  | H : _ \/ _ |- _ => destruct H as [H|H]
  | H : False |- _ => destruct H
  | H : ?x = _, H' : ?x = _ |- _ => rewrite H in H'; clear H; rename H' into H; try (cbn [append] in H; discriminate H)
  | H : _ = ?x, H' : ?x = _ |- _ => rewrite <- H in H'; clear H; try (cbn [append] in H'; discriminate H')
  | H : _ = ?x, H' : _ = ?x |- _ => rewrite <- H in H'; clear H; try (cbn [append] in H'; discriminate H')
  end.
Ltac nin := solve [assumption | eexists; eassumption | cbn [oneof In]; solve [tauto | intuition auto] | left; nin | right; nin].
Ltac ns_ := nset; try (cbn [append] in *; discriminate); try nin.

Section Helpers.
Context {P : PrimeField} {ok : names}.
Notation U p N := (uses ok p N (okP (fun _ => True))).

Lemma uses_ok {A} (p : prog P (res A)) N Q : uses ok p N (okP Q) -> U p N.
Proof. apply uses_post. intros [a|e] _; exact I. Qed.
Lemma uses_res {A} (r : res A) N : U (Ret r : prog P (res A)) N.
Proof. apply uses_ret. destruct r; exact I. Qed.

(** One variable, one constraint. *)
Lemma uses_gate {A} x y f (g : Var * bool -> prog P (res A)) : ok x -> x <> y -> (forall v b, U (g (v, b)) (just y)) ->
  U (bindq (cs_alloc x f) g) (oneof [x; y]).
Proof.
  intros Hx Hd Hg. eapply uses_bindq with (N2 := just y); [apply uses_alloc with (Q := fun _ => True); auto| | |].
  - intros [v b] _. apply Hg.
  - intros z Hz Hz'. unfold just in *. congruence.
  - intros z [Hz|Hz]; unfold just in Hz; subst; cbn; auto.
Qed.
Lemma uses_gate_input {A} x y f (g : Var * bool -> prog P (res A)) : ok x -> x <> y -> (forall v b, U (g (v, b)) (just y)) ->
  U (bindq (cs_alloc_input x f) g) (oneof [x; y]).
Proof.
  intros Hx Hd Hg. eapply uses_bindq with (N2 := just y); [apply uses_alloc_input with (Q := fun _ => True); auto| | |].
  - intros [v b] _. apply Hg.
  - intros z Hz Hz'. unfold just in *. congruence.
  - intros z [Hz|Hz]; unfold just in Hz; subst; cbn; auto.
Qed.
Lemma uses_then {A B} (p : prog P (res A)) (g : A -> B) N : U p N -> U (bindq p (fun r => Ret (Ok (g r)))) N.
Proof. intros H. eapply uses_bindq with (N2 := none); [exact H|intros; apply uses_res|nset|intros z [Hz|[]]; exact Hz]. Qed.
Lemma uses_q {A B} (p : prog P (res A)) (g : A -> prog P (res B)) N1 N2 N : U p N1 -> (forall a, U (g a) N2) -> apart N1 N2 -> sub (join N1 N2) N -> U (bindq p g) N.
Proof. intros. eapply uses_bindq; eauto. Qed.
Lemma uses_e {B} n a b c (g : prog P (res B)) N2 N : ok n -> U g N2 -> apart (just n) N2 -> sub (join (just n) N2) N -> U (bind (cs_enforce n a b c) (fun _ => g)) N.
Proof. intros Hn Hg Hd Hs. eapply uses_bind; [apply uses_enforce, Hn|intros; exact Hg|exact Hd|exact Hs]. Qed.
Lemma uses_in {A} n (p : prog P (res A)) N : ok n -> U p N -> U (ns n p) (just n).
Proof. intros. eapply uses_ns; eauto. Qed.
Lemma uses_map {A B} s (f : nat -> A -> prog P (res B)) l i : (forall j x, U (f j x) (just (s ++ nat_str j))) -> U (mapq f i l) (fam s).
Proof.
  intros H. apply uses_ok with (Q := fun ys => length ys = length l). eapply uses_sub; [apply (fam_loop s i (length l))|].
  apply uses_mapq; [exact H|intros; now apply fam_apart].
Qed.
Lemma uses_fold {S A} s (f : nat -> S -> A -> prog P (res S)) l i st : (forall j st x, U (f j st x) (just (s ++ nat_str j))) -> U (foldq f i st l) (fam s).
Proof.
  intros H. eapply uses_sub; [apply (fam_loop s i (length l))|].
  apply (uses_foldq ok f (fun j => just (s ++ nat_str j)) (fun _ _ => True)); [exact I|intros; apply H|intros; now apply fam_apart].
Qed.

Lemma uses_last {B} n a b c (r : res B) : ok n -> U (bind (cs_enforce n a b c) (fun _ => Ret r) : prog P _) (just n).
Proof. intros Hn. eapply uses_e with (N2 := none); [exact Hn|apply uses_res|intros ? ? []|intros z [Hz|[]]; exact Hz]. Qed.
End Helpers.

Section Gadgets.
Context {P : PrimeField}.
Notation U p N := (uses plain p N (okP (fun _ => True))).
Ltac gate := first [apply uses_gate|apply uses_gate_input]; [pl|discriminate|intros; apply uses_last; pl].

(** ** boolean.rs *)
Definition n_bit : list string := ["boolean"; "boolean constraint"]%string.
Definition n_xor : list string := ["xor result"; "xor constraint"]%string.
Definition n_and : list string := ["and result"; "and constraint"; "and not result"; "and not constraint"; "nor result"; "nor constraint"]%string.
Definition n_eq : list string := ["enforce equal to one"; "enforce equal to zero"; "enforce equal"]%string.
Definition n_ch : list string := ["ch"; "ch computation"]%string ++ n_and.
Definition n_maj : list string := ["maj"; "b and c"; "maj computation"]%string ++ n_and.

Lemma ab_alloc_u v : U (@ab_alloc P v) (oneof n_bit).
Proof. gate. Qed.
Lemma cond_u v a : U (@ab_alloc_conditionally P v a) (oneof n_bit).
Proof. gate. Qed.
Lemma ab_xor_u a b : U (@ab_xor P a b) (oneof n_xor).
Proof. gate. Qed.
Lemma ab_and_u a b : U (@ab_and P a b) (oneof ["and result"; "and constraint"]%string).
Proof. gate. Qed.
Lemma ab_and_not_u a b : U (@ab_and_not P a b) (oneof ["and not result"; "and not constraint"]%string).
Proof. gate. Qed.
Lemma ab_nor_u a b : U (@ab_nor P a b) (oneof ["nor result"; "nor constraint"]%string).
Proof. gate. Qed.
Lemma b_xor_u a b : U (@b_xor P a b) (oneof n_xor).
Proof.
  destruct a as [a|a|[|]], b as [b|b|[|]]; cbn [b_xor]; try apply uses_res; unfold b_xor_is; repeat apply uses_then; apply ab_xor_u.
Qed.
Lemma b_and_u a b : U (@b_and P a b) (oneof n_and).
Proof.
  destruct a as [a|a|[|]], b as [b|b|[|]]; cbn [b_and]; try apply uses_res; apply uses_then;
    first [eapply uses_sub; [|apply ab_and_u]|eapply uses_sub; [|apply ab_and_not_u]|eapply uses_sub; [|apply ab_nor_u]]; unfold n_and; ns_.
Qed.
Lemma b_enforce_equal_u a b : U (@b_enforce_equal P a b) (oneof n_eq).
Proof.
  destruct a as [a|a|[|]], b as [b|b|[|]]; cbn [b_enforce_equal eqb]; try apply uses_res;
    eapply uses_e with (N2 := none); try apply uses_res; try pl; unfold n_eq; ns_.
Qed.
Lemma ch_general_u a b c : U (@ch_general P a b c) (oneof n_ch).
Proof. apply (uses_sub plain _ (oneof ["ch"; "ch computation"]%string)); [unfold n_ch; cbn [app]; ns_|gate]. Qed.
Lemma b_and_sub l a b : sub (oneof n_and) (oneof l) -> U (@b_and P a b) (oneof l).
Proof. intros H. eapply uses_sub; [exact H|apply b_and_u]. Qed.
Lemma and_ch : sub (oneof n_and) (oneof n_ch). Proof. intros x Hx. unfold n_ch. apply in_or_app. now right. Qed.
Lemma and_maj : sub (oneof n_and) (oneof n_maj). Proof. intros x Hx. unfold n_maj. apply in_or_app. now right. Qed.
Lemma b_ch_u a b c : U (@b_ch P a b c) (oneof n_ch).
Proof.
  destruct a as [a|a|[|]], b as [b|b|[|]], c as [c|c|[|]]; cbn [b_ch tri_value b_value]; try apply uses_res; try apply ch_general_u; first [apply b_and_sub, and_ch|apply uses_then, b_and_sub, and_ch].
Qed.
Lemma maj_general_u a b c : U (@maj_general P a b c) (oneof n_maj).
Proof.
  unfold maj_general. eapply uses_q with (N1 := just "maj") (N2 := oneof ["b and c"; "maj computation"]%string); [apply uses_alloc; [pl|auto]| |ns_|unfold n_maj; cbn [app]; ns_].
  intros [m b0]. eapply uses_q with (N2 := just "maj computation"); [eapply uses_in; [pl|apply b_and_u]| |ns_|ns_].
  intros bc. apply uses_e with (N2 := none); [pl|apply uses_res|ns_|ns_].
Qed.
Lemma b_maj_u a b c : U (@b_maj P a b c) (oneof n_maj).
Proof.
  destruct a as [a|a|[|]], b as [b|b|[|]], c as [c|c|[|]]; cbn [b_maj tri_value b_value]; try apply uses_res; try apply maj_general_u; first [apply b_and_sub, and_maj|apply uses_then, b_and_sub, and_maj].
Qed.
Lemma alloc_bit_at_u j x : U (@alloc_bit_at P j x) (just ("bit " ++ nat_str j)).
Proof. eapply uses_in; [pl|apply ab_alloc_u]. Qed.
Lemma u64_u v : U (@u64_into_boolean_vec_le P v) (fam "bit ").
Proof. apply uses_map. intros j x. apply uses_then, alloc_bit_at_u. Qed.
Lemma field_bits_u (F : PrimeField) (v : option F) : U (@field_into_allocated_bits_le P F v) (fam "bit ").
Proof.
  unfold field_into_allocated_bits_le. destruct v as [v|]; [|apply uses_map, alloc_bit_at_u].
  destruct (strip_leading _ _ _) as [tmp|]; [|apply uses_panic]. destruct (Nat.eqb _ _); [apply uses_map, alloc_bit_at_u|apply uses_panic].
Qed.
Lemma field_vec_u (F : PrimeField) (v : option F) : U (@field_into_boolean_vec_le P F v) (fam "bit ").
Proof. apply uses_then, field_bits_u. Qed.

(** ** num.rs *)
Lemma an_alloc_u v : U (@an_alloc P v) (oneof ["num"]%string).
Proof.
  unfold an_alloc. eapply uses_q with (N2 := none); [apply uses_alloc; [pl|auto]|intros [w b]; apply uses_res|ns_|ns_].
Qed.
Lemma inputize_u a : U (@an_inputize P a) (oneof ["input variable"; "enforce input is correct"]%string).
Proof. gate. Qed.
Lemma mul_u a b : U (@an_mul P a b) (oneof ["product num"; "multiplication constraint"]%string).
Proof. gate. Qed.
Lemma square_u a : U (@an_square P a) (oneof ["squared num"; "squaring constraint"]%string).
Proof. gate. Qed.
Lemma nonzero_u a : U (@an_assert_nonzero P a) (oneof ["ephemeral inverse"; "nonzero assertion constraint"]%string).
Proof. gate. Qed.
Definition n_reverse : list string := ["conditional reversal result 1"; "first conditional reversal"; "conditional reversal result 2"; "second conditional reversal"]%string.
Lemma reverse_u a b c : U (@an_conditionally_reverse P a b c) (oneof n_reverse).
Proof.
  unfold an_conditionally_reverse, n_reverse.
  eapply uses_q with (N2 := oneof ["first conditional reversal"; "conditional reversal result 2"; "second conditional reversal"]%string); [eapply uses_in; [pl|apply an_alloc_u]| |ns_|ns_]. intros x.
  eapply uses_e with (N2 := oneof ["conditional reversal result 2"; "second conditional reversal"]%string); [pl| |ns_|ns_].
  eapply uses_q with (N2 := just "second conditional reversal"); [eapply uses_in; [pl|apply an_alloc_u]| |ns_|ns_]. intros y.
  apply uses_e with (N2 := none); [pl|apply uses_res|ns_|ns_].
Qed.
Definition n_bits : names := join (fam "bit ") (just "unpacking constraint").
Lemma to_bits_u a : U (@to_bits_le P a) n_bits.
Proof.
  unfold to_bits_le. eapply uses_q; [apply field_bits_u| |idtac|intros x Hx; exact Hx]; [|ns_]. intros l.
  apply uses_e with (N2 := none); [pl|apply uses_res|ns_|ns_].
Qed.
Lemma kary_u l : U (@kary_and P l) (fam "and ").
Proof.
  destruct l as [|x l]; cbn [kary_and]; [apply uses_panic|]. apply uses_fold. intros j s y. eapply uses_in; [pl|apply ab_and_u].
Qed.
(** From the [i]-th bit on. *)
Definition from (i : nat) : names := fun x => exists j, i <= j /\ (x = ("bit " ++ nat_str j)%string \/ x = ("run ending at " ++ nat_str j)%string).
Definition n_at (i : nat) : names := oneof [("run ending at " ++ nat_str i)%string; ("bit " ++ nat_str i)%string].
Lemma run_bit_differ i j : ("run ending at " ++ nat_str i)%string <> ("bit " ++ nat_str j)%string. Proof. discriminate. Qed.
Lemma step_found_u s b a : st_found_one s || b = true ->
  uses plain (@strict_step P s (b, a)) (n_at (st_i s)) (okP (fun s' => st_i s' = S (st_i s) /\ st_found_one s' = true)).
Proof.
  intros E. unfold strict_step. rewrite E. cbn [negb]. destruct b.
  - eapply uses_bindq with (N1 := just ("bit " ++ nat_str (st_i s))) (N2 := none); [eapply uses_in; [pl|apply ab_alloc_u]|intros x _; apply uses_ret; cbn; auto|nset|].
    intros z [Hz|[]]. right. left. symmetry. exact Hz.
  - eapply uses_bindq with (Q1 := fun _ => True) (N1 := just ("run ending at " ++ nat_str (st_i s))) (N2 := just ("bit " ++ nat_str (st_i s))).
    + destruct (st_current_run s) as [|y l]; [apply uses_res|]. apply uses_then. eapply uses_in; [pl|apply kary_u].
    + intros [l|] _; [|apply uses_panic].
      eapply uses_bindq with (N1 := just ("bit " ++ nat_str (st_i s))) (N2 := none); [eapply uses_in; [pl|apply cond_u]|intros x _; apply uses_ret; cbn; auto|nset|intros z [Hz|[]]; exact Hz].
    + intros z Hz Hz'. unfold just in *. subst. discriminate.
    + intros z [Hz|Hz]; unfold just in Hz; subst; [left|right; left]; reflexivity.
Qed.
Lemma bits_apart i : apart (n_at i) (from (S i)).
Proof.
  intros x [Hx|[Hx|[]]] (j & Hj & [Hy|Hy]); subst; try discriminate; apply append_inj_l, nat_str_inj in Hy; lia.
Qed.
Lemma strict_fold_u l : forall k s, U (foldq (fun _ => @strict_step P) k s l) (from (st_i s)).
Proof.
  induction l as [|[b a] l IH]; intros k s; cbn [foldq]; [apply uses_res|]. destruct (st_found_one s || b) eqn:E.
  - eapply uses_bindq with (N2 := from (S (st_i s))); [apply step_found_u, E| |apply bits_apart|].
    + cbv beta. intros s' [E1 _]. rewrite <- E1. apply IH.
    + intros x [Hx|(j & Hj & Hx)]; [|exists j; split; [lia|exact Hx]]. exists (st_i s). split; [lia|]. destruct Hx as [Hx|[Hx|[]]]; auto.
  - eapply uses_bindq with (N1 := none) (Q1 := fun s' => st_i s' = st_i s) (N2 := from (st_i s)); [|intros s' E1; rewrite <- E1; apply IH|nset|intros x [[]|Hx]; exact Hx].
    unfold strict_step. rewrite E. cbn [negb]. destruct a as [[|]|]; [apply uses_panic|apply uses_ret; reflexivity|apply uses_ret; reflexivity].
Qed.
Definition n_strict : names := join (join (fam "bit ") (fam "run ending at ")) (just "unpacking constraint").
Lemma strict_u a : U (@to_bits_le_strict P a) n_strict.
Proof.
  unfold to_bits_le_strict. eapply uses_q with (N1 := join (fam "bit ") (fam "run ending at ")); [|intros s|idtac|intros x Hx; exact Hx].
  - eapply uses_sub; [|apply strict_fold_u]. intros x (j & _ & [Hx|Hx]); [left|right]; exists j; exact Hx.
  - destruct (st_current_run s); [|apply uses_panic]. apply uses_e with (N2 := none); [pl|apply uses_res|ns_|ns_].
  - ns_.
Qed.

(** ** lookup.rs and multipack.rs *)
Definition n_lookup : list string := ["x"; "y"; "precomp"; "x-coordinate lookup"; "y-coordinate lookup"]%string.
Lemma lookup_u bits coords : U (@lookup3_xy P bits coords) (oneof n_lookup).
Proof.
  unfold lookup3_xy, n_lookup. destruct bits as [|b0 [|b1 [|b2 [|]]]]; try apply uses_panic. destruct (negb _); [apply uses_panic|]. unfold lookup_constraint.
  eapply uses_q with (N2 := oneof ["y"; "precomp"; "x-coordinate lookup"; "y-coordinate lookup"]%string); [eapply uses_in; [pl|apply an_alloc_u]| |ns_|ns_]. intros x.
  eapply uses_q with (N2 := oneof ["precomp"; "x-coordinate lookup"; "y-coordinate lookup"]%string); [eapply uses_in; [pl|apply an_alloc_u]| |ns_|ns_]. intros y.
  eapply uses_q with (N2 := oneof ["x-coordinate lookup"; "y-coordinate lookup"]%string); [eapply uses_in; [pl|apply b_and_u]| |ns_|ns_]. intros pc.
  eapply uses_e with (N2 := just "y-coordinate lookup"); [pl| |ns_|ns_].
  apply uses_e with (N2 := none); [pl|apply uses_res|ns_|ns_].
Qed.
Definition n_lookup_neg : list string := ["y"; "precomp"; "y-coordinate lookup"]%string.
Lemma lookup_neg_u bits coords : U (@lookup3_xy_neg P bits coords) (oneof n_lookup_neg).
Proof.
  unfold lookup3_xy_neg, n_lookup_neg. destruct bits as [|b0 [|b1 [|b2 [|]]]]; try apply uses_panic. destruct (negb _); [apply uses_panic|].
  eapply uses_q with (N2 := oneof ["precomp"; "y-coordinate lookup"]%string); [eapply uses_in; [pl|apply an_alloc_u]| |ns_|ns_]. intros y.
  eapply uses_q with (N2 := just "y-coordinate lookup"); [eapply uses_in; [pl|apply b_and_u]| |ns_|ns_]. intros pc.
  apply uses_e with (N2 := none); [pl|apply uses_res|ns_|ns_].
Qed.
Definition n_pack : names := join (fam "input ") (fam "packing constraint ").
Lemma pack_u bits : U (@pack_into_inputs P bits) n_pack.
Proof.
  unfold pack_into_inputs. eapply uses_sub; [|apply (uses_foldq plain pack_chunk (fun j => oneof ["input " ++ nat_str j; "packing constraint " ++ nat_str j]%string) (fun _ _ => True));
    [exact I|intros j s x _; gate|]].
  - intros x (j & _ & [Hx|[Hx|[]]]); [left|right]; exists j; symmetry; exact Hx.
  - intros j k Hd x [Hx|[Hx|[]]] [Hy|[Hy|[]]]; subst; try discriminate; apply append_inj_l, nat_str_inj in Hy; congruence.
Qed.

(** ** uint32.rs *)
Lemma u_alloc_u v : U (@u_alloc P v) (fam "allocated bit ").
Proof. unfold u_alloc. apply uses_then, uses_map. intros j x. apply uses_then. eapply uses_in; [pl|apply ab_alloc_u]. Qed.
Lemma u_xor_u a b : U (@u_xor P a b) (fam "xor of bit ").
Proof. unfold u_xor. apply uses_then, uses_map. intros j x. eapply uses_in; [pl|apply b_xor_u]. Qed.
Lemma u_ch_u a b c : U (@u_ch P a b c) (fam "ch ").
Proof. unfold u_ch, triop. apply uses_then, uses_map. intros j x. eapply uses_in; [pl|apply b_ch_u]. Qed.
Lemma u_maj_u a b c : U (@u_maj P a b c) (fam "maj ").
Proof. unfold u_maj, triop. apply uses_then, uses_map. intros j x. eapply uses_in; [pl|apply b_maj_u]. Qed.
Definition res_from (i : nat) : names := fun x => exists j, i <= j /\ x = ("result bit " ++ nat_str j)%string.
Lemma add_loop_u rv m : forall i c lc bits, U (@add_result_loop P rv m i c lc bits) (res_from i).
Proof.
  assert (S1 : forall i, sub (join (just ("result bit " ++ nat_str i)) (res_from (S i))) (res_from i)).
  { intros i x [Hx|(j & Hj & Hx)]; [exists i; split; [lia|exact Hx]|exists j; split; [lia|exact Hx]]. }
  assert (S2 : forall i, apart (just ("result bit " ++ nat_str i)) (res_from (S i))).
  { intros i x Hx (j & Hj & Hy). unfold just in Hx. subst. apply append_inj_l, nat_str_inj in Hy. lia. }
  induction m as [m IH|m IH|]; intros i c lc bits; cbn [add_result_loop];
    (eapply uses_q; [eapply uses_in; [pl|apply ab_alloc_u]| |apply S2|apply S1]); intros b; cbv zeta; [apply IH|apply IH|apply uses_res].
Qed.
Lemma addmany_u ops : U (@addmany P ops) (fam "result bit ").
Proof.
  unfold addmany. destruct (negb (Nat.leb 64 _)); [apply uses_panic|]. destruct (negb (Nat.leb 2 (length ops))); [apply uses_panic|].
  destruct (negb (Nat.leb (length ops) 10)); [apply uses_panic|]. cbv zeta. destruct (fold_left add_op_step ops _) as [[rv lc] ac].
  assert (G : U (bindq (add_result_loop rv (Z.to_pos (Z.of_nat (length ops) * (2 ^ 32 - 1))) 0 fone lc_zero []) (fun r => let '(result_bits, result_lc, i) := r in
     bind (cs_enforce_equal i lc result_lc) (fun _ => Ret (Ok {| u_bits := firstn 32 result_bits; u_value := option_map (fun v => (v mod 2 ^ 32)%Z) rv |})) : prog P _)) (fam "result bit ")).
  { eapply uses_q with (N1 := fam "result bit ") (N2 := none); [|intros [[rb rl] ri]|nset|intros x [Hx|[]]; exact Hx].
    - eapply uses_sub; [|apply add_loop_u]. intros x (j & _ & Hx). exists j. exact Hx.
    - eapply uses_bind with (N2 := none); [apply uses_enforce_equal|intros; apply uses_res|nset|intros x [[]|[]]]. }
  destruct ac; [|exact G]. destruct rv as [v|]; [|exact G]. cbn [option_map]. apply uses_res.
Qed.

(** ** multieq.rs *)
(** What the inner constraint system has, against what the program asked for: in addition the batches so far. *)
Definition close (k : nat) (l st : list names) : Prop :=
  Forall2 (fun u2 u : names => apart mq u /\ forall x, u2 x -> u x \/ exists i, i < k /\ x = ("multieq " ++ nat_str i)%string) l st.
Lemma close_mono k k' l st : k <= k' -> close k l st -> close k' l st.
Proof.
  intros Hk H. induction H as [|u2 u l st [H1 H2] H IH]; constructor; [|exact IH]. split; [exact H1|].
  intros x Hx. destruct (H2 x Hx) as [?|(i & Hi & Ei)]; [now left|right; exists i; split; [lia|exact Ei]].
Qed.
Lemma close_fresh k (u2 u : names) : apart mq u -> (forall x, u2 x -> u x \/ exists i, i < k /\ x = ("multieq " ++ nat_str i)%string) -> ~ u2 ("multieq " ++ nat_str k)%string.
Proof.
  intros Ha H Hx. destruct (H _ Hx) as [H'|(i & Hi & Ei)]; [apply (Ha _ (ex_intro _ k eq_refl) H')|].
  apply append_inj_l, nat_str_inj in Ei. lia.
Qed.
Lemma mq_word k : word ("multieq " ++ nat_str k)%string. Proof. wd. Qed.
Lemma close_batch k u2 u l st : close k (u2 :: l) (u :: st) -> close (S k) (add ("multieq " ++ nat_str k)%string u2 :: l) (u :: st).
Proof.
  intros H. inversion H as [|? ? ? ? [H1 H2] H3]; subst. constructor; [|eapply close_mono; [|exact H3]; lia]. split; [exact H1|].
  intros x [Hx|Hx]; [right; exists k; split; [lia|exact Hx]|]. destruct (H2 x Hx) as [?|(i & Hi & Ei)]; [now left|right; exists i; split; [lia|exact Ei]].
Qed.
Lemma close_add k n u2 u l st : plain n -> close k (u2 :: l) (u :: st) -> close k (add n u2 :: l) (add n u :: st).
Proof.
  intros [_ Hn] H. inversion H as [|? ? ? ? [H1 H2] H3]; subst. constructor; [|exact H3]. split.
  - intros x Hx [->|Hy]; [exact (Hn Hx)|exact (H1 x Hx Hy)].
  - intros x [Hx|Hx]; [left; now left|]. destruct (H2 x Hx) as [?|?]; [left; now right|now right].
Qed.
Lemma close_not k n u2 u l st : plain n -> ~ u n -> close k (u2 :: l) (u :: st) -> ~ u2 n.
Proof.
  intros [_ Hn] Hu H Hx. inversion H as [|? ? ? ? [H1 H2] H3]; subst. destruct (H2 n Hx) as [?|(i & _ & Ei)]; [contradiction|]. apply Hn. exists i. exact Ei.
Qed.
Lemma accumulate_wpN (s : @MeSt P) (u2 : names) t (Q : list names -> @MeSt P -> Prop) : ~ u2 ("multieq " ++ nat_str (me_ops s))%string ->
  (forall s', me_ops s' = S (me_ops s) -> Q (add ("multieq " ++ nat_str (me_ops s))%string u2 :: t) s') -> wpN word (u2 :: t) (me_accumulate s) Q.
Proof. intros H HQ. unfold me_accumulate. cbn [bind cs_enforce wpN]. split; [apply mq_word|]. split; [exact H|]. apply HQ. reflexivity. Qed.

Lemma multieq_wpN {A} (p : prog P A) : forall (s : @MeSt P) st l outer Q, wpN plain st p Q -> close (me_ops s) l st ->
  wpN word (l ++ outer) (multieq p s) (fun st2 x => exists l' st', Q st' (fst x) /\ st2 = l' ++ outer /\ close (me_ops (snd x)) l' st').
Proof.
  induction p as [a| |n f k IH|n f k IH|n a b c k IH|n e r k IH|n k IH|k IH]; intros s st l outer Q H C; cbn [multieq wpN] in H |- *; auto.
  - exists l, st. auto.
  - destruct st as [|u t]; [contradiction|]. destruct H as (H1 & H2 & H3). destruct l as [|u2 l]; [inversion C|]. cbn [app].
    split; [apply H1|]. split; [eapply close_not; eauto|]. intros r b. apply (IH r b s (add n u :: t) (add n u2 :: l)); [apply H3|now apply close_add].
  - destruct st as [|u t]; [contradiction|]. destruct H as (H1 & H2 & H3). destruct l as [|u2 l]; [inversion C|]. cbn [app].
    split; [apply H1|]. split; [eapply close_not; eauto|]. intros r b. apply (IH r b s (add n u :: t) (add n u2 :: l)); [apply H3|now apply close_add].
  - destruct st as [|u t]; [contradiction|]. destruct H as (H1 & H2 & H3). destruct l as [|u2 l]; [inversion C|]. cbn [app].
    split; [apply H1|]. split; [eapply close_not; eauto|]. apply (IH s (add n u :: t) (add n u2 :: l)); [apply H3|now apply close_add].
  - destruct st as [|u t]; [contradiction|]. destruct l as [|u2 l]; [inversion C|].
    assert (K : forall (s' : @MeSt P) l', close (me_ops s') l' (u :: t) -> wpN word (l' ++ outer) (if Nat.ltb (me_used s' + n) (capacity P) then Ret (me_push s' n e r) else Panic : prog P _)
      (fun st2 s2 => wpN word st2 (multieq k s2) (fun st2 x => exists l' st', Q st' (fst x) /\ st2 = l' ++ outer /\ close (me_ops (snd x)) l' st'))).
    { intros s' l' C'. destruct (Nat.ltb _ _); cbn [wpN]; [|exact I]. apply (IH _ (u :: t)); [exact H|exact C']. }
    apply wpN_bind. unfold me_enforce_equal. apply wpN_bind. destruct (Nat.leb _ _).
    + cbn [app]. apply accumulate_wpN.
      * inversion C as [|? ? ? ? [H1 H2] H3]; subst. eapply close_fresh; eauto.
      * intros s' E. apply (K s' (add ("multieq " ++ nat_str (me_ops s))%string u2 :: l)). rewrite E. now apply close_batch.
    + cbn [wpN]. now apply K.
  - destruct st as [|u t]; [contradiction|]. destruct H as (H1 & H2 & H3). destruct l as [|u2 l]; [inversion C|]. cbn [app].
    split; [apply H1|]. split; [eapply close_not; eauto|]. apply (IH s (none :: add n u :: t) (none :: add n u2 :: l)); [apply H3|].
    constructor; [|now apply close_add]. split; [intros x _ []|intros x []].
  - destruct st as [|u [|v t]]; [contradiction|contradiction|]. destruct l as [|u2 l]; [inversion C|]. inversion C as [|? ? ? ? _ C']; subst.
    destruct l as [|v2 l]; [inversion C'|]. cbn [app]. apply (IH s (v :: t) (v2 :: l)); [exact H|exact C'].
Qed.
Lemma multieq_u {A} (p : prog P A) N Q : uses plain p N Q -> uses word (multieq_scope p) (join N mq) Q.
Proof.
  intros H u st Hu. unfold multieq_scope. apply wpN_bind.
  eapply wpN_mono; [intros x Hx; exact Hx| |apply (multieq_wpN p me_new [u] [u] st); [apply (H u []); intros x Hx; apply Hu; now left|]].
  - cbv beta. intros st2 [a s] (l' & st' & (Ha & u' & -> & Hu') & -> & C). cbn [fst snd] in *. destruct l' as [|u2 l']; [inversion C|].
    inversion C as [|? ? ? ? [C1 C2] C3]; subst. inversion C3; subst. cbn [app].
    assert (X : sub u2 (join u (join N mq))).
    { intros x Hx. destruct (C2 x Hx) as [Hx'|(i & _ & Ei)]; [|right; right; exists i; exact Ei]. destruct (Hu' x Hx') as [?|?]; [now left|right; now left]. }
    unfold me_drop. apply wpN_bind. destruct (Nat.ltb _ _).
    + apply wpN_bind. apply accumulate_wpN; [eapply close_fresh; eauto|]. intros s' _. cbn [wpN]. split; [exact Ha|]. eexists. split; [reflexivity|].
      intros x [Hx|Hx]; [right; right; eexists; exact Hx|apply X, Hx].
    + cbn [wpN]. split; [exact Ha|]. exists u2. split; [reflexivity|exact X].
  - constructor; [|constructor]. split; [intros x Hx Hx'; apply (Hu x); [now right|exact Hx']|auto].
Qed.

(** ** sha256.rs *)
Notation W p N := (uses word p N (okP (fun _ => True))).
Lemma weak {A} (p : prog P (res A)) N : U p N -> W p N.
Proof. intros H. eapply uses_weaken; [| | |exact H]; [intros x Hx; exact Hx|intros x [Hx _]; exact Hx|auto]. Qed.
Lemma uses_idx {A B ok} (l : list A) i (k : A -> prog P (res B)) N : (forall x, uses ok (k x) N (okP (fun _ => True))) -> uses ok (idx l i k) N (okP (fun _ => True)).
Proof. intros H. unfold idx. destruct (nth_error l i); [apply H|apply uses_panic]. Qed.

(** [let* x := ns n p in g x] *)
Lemma uses_step {ok : names} {A B} n (p : prog P (res A)) (g : A -> prog P (res B)) M l : ok n -> uses ok p M (okP (fun _ => True)) ->
  (forall a, uses ok (g a) (oneof l) (okP (fun _ => True))) -> ~ In n l -> uses ok (bindq (ns n p) g) (oneof (n :: l)) (okP (fun _ => True)).
Proof.
  intros Hn Hp Hg Hd. eapply uses_q with (N2 := oneof l); [eapply uses_in; [exact Hn|exact Hp]|exact Hg| |].
  - intros x Hx Hx'. unfold just in Hx. subst. exact (Hd Hx').
  - intros x [Hx|Hx]; [left; symmetry; exact Hx|right; exact Hx].
Qed.
Ltac notin := let H := fresh in intros H; cbn [In] in H; repeat (destruct H as [H|H]; [discriminate H|]); destruct H.
Lemma w_extension_u i w : U (@w_extension P i w) (just ("w extension " ++ nat_str i)%string).
Proof.
  unfold w_extension. eapply uses_in; [pl|].
  apply uses_idx with (N := oneof ["first xor for s0"; "second xor for s0"; "first xor for s1"; "second xor for s1"; "computation of w[i]"]%string). intros w15.
  eapply uses_step; [pl|apply u_xor_u|intros s0|notin]. eapply uses_step; [pl|apply u_xor_u|intros s0'|notin].
  apply uses_idx. intros w2. eapply uses_step; [pl|apply u_xor_u|intros s1|notin]. eapply uses_step; [pl|apply u_xor_u|intros s1'|notin].
  apply uses_idx. intros w16. apply uses_idx. intros w7. eapply uses_step; [pl|apply addmany_u|intros tmp; apply uses_res|notin].
Qed.
Lemma compute_u m n others : plain n -> U (@compute P m n others) (just n).
Proof. intros Hn. unfold compute. eapply uses_in with (N := fam "result bit "); [exact Hn|]. destruct m; [apply addmany_u|apply uses_res]. Qed.
Lemma compute_step {B} m n others (g : UInt32 -> prog P (res B)) l : plain n -> (forall a, U (g a) (oneof l)) -> ~ In n l -> U (bindq (@compute P m n others) g) (oneof (n :: l)).
Proof.
  intros Hn Hg Hd. unfold compute. eapply (uses_step n _ g (fam "result bit ")); [exact Hn| |exact Hg|exact Hd]. destruct m; [apply addmany_u|apply uses_res].
Qed.
Lemma round_step_u w i r : U (@round_step P w i r) (just ("compression round " ++ nat_str i)%string).
Proof.
  unfold round_step. eapply uses_in with (N := oneof ["deferred e computation"; "first xor for s1"; "second xor for s1"; "ch"; "deferred a computation"; "first xor for s0"; "second xor for s0"; "maj"]%string); [pl|].
  apply compute_step; [pl|intros e|notin]. eapply uses_step; [pl|apply u_xor_u|intros s1|notin]. eapply uses_step; [pl|apply u_xor_u|intros s1'|notin].
  eapply uses_step; [pl|apply u_ch_u|intros c|notin]. apply uses_idx. intros k. apply uses_idx. intros wi. cbv zeta.
  apply compute_step; [pl|intros a|notin]. eapply uses_step; [pl|apply u_xor_u|intros s0|notin]. eapply uses_step; [pl|apply u_xor_u|intros s0'|notin].
  eapply uses_step; [pl|apply u_maj_u|intros m; apply uses_res|notin].
Qed.
Definition n_finish : list string := ["deferred h0 computation"; "new h1"; "new h2"; "new h3"; "deferred h4 computation"; "new h5"; "new h6"; "new h7"]%string.
Lemma finish_u r c0 c1 c2 c3 c4 c5 c6 c7 : U (@finish P r c0 c1 c2 c3 c4 c5 c6 c7) (oneof n_finish).
Proof.
  unfold finish. apply compute_step; [pl|intros h0|notin].
  eapply uses_step; [pl|apply addmany_u|intros h1|notin]. eapply uses_step; [pl|apply addmany_u|intros h2|notin]. eapply uses_step; [pl|apply addmany_u|intros h3|notin].
  apply compute_step; [pl|intros h4|notin].
  eapply uses_step; [pl|apply addmany_u|intros h5|notin]. eapply uses_step; [pl|apply addmany_u|intros h6|notin]. eapply uses_step; [pl|apply addmany_u|intros h7; apply uses_res|notin].
Qed.
Definition n_compression : names := join (fam "w extension ") (join (fam "compression round ") (oneof n_finish)).
Lemma compression_body_u w cur : U (@compression_body P w cur) n_compression.
Proof.
  unfold compression_body. eapply uses_q; [apply uses_fold; intros; apply w_extension_u|intros w'| |intros x Hx; exact Hx]; [|unfold n_finish; ns_].
  destruct (negb _); [apply uses_panic|]. destruct cur as [|c0 [|c1 [|c2 [|c3 [|c4 [|c5 [|c6 [|c7 [|]]]]]]]]]; try apply uses_panic.
  eapply uses_q; [apply uses_fold; intros; apply round_step_u|intros r; apply finish_u| |intros x Hx; exact Hx]. unfold n_finish; ns_.
Qed.
Lemma lift_map_u {A B ok} (f : A -> outcome B) l i : uses ok (@mapq P _ _ (fun _ c => lift (f c) (fun w => Ret (Ok w))) i l) none (okP (fun _ => True)).
Proof.
  revert i. induction l as [|x l IH]; intros i; cbn [mapq]; [apply uses_res|]. destruct (f x); cbn [lift]; [|intros u st _; exact I].
  eapply uses_q with (N1 := none) (N2 := none); [apply uses_res|intros y|intros ? []|intros ? [[]|[]]].
  eapply uses_q with (N1 := none) (N2 := none); [apply IH|intros ys; apply uses_res|intros ? []|intros ? [[]|[]]].
Qed.
Lemma sha256_compression_u input cur : W (@sha256_compression P input cur) (join n_compression mq).
Proof.
  unfold sha256_compression. destruct (negb _); [apply uses_panic|]. destruct (negb _); [apply uses_panic|].
  eapply uses_q with (N1 := none); [apply lift_map_u|intros w; apply multieq_u, compression_body_u|intros ? []|intros x [[]|Hx]; exact Hx].
Qed.
Lemma sha256_block_u input : W (@sha256_block_no_padding P input) (join n_compression mq).
Proof.
  unfold sha256_block_no_padding. destruct (negb _); [apply uses_panic|]. apply uses_then, sha256_compression_u.
Qed.
Lemma sha256_u input : W (@sha256 P input) (fam "block ").
Proof.
  unfold sha256. destruct (negb _); [apply uses_panic|]. destruct (sha256_padding input) as [padded|]; [|apply uses_panic]. destruct (negb _); [apply uses_panic|].
  apply uses_then, uses_fold. intros j s x. eapply uses_in; [wd|apply sha256_compression_u].
Qed.

(** ** blake2s.rs *)
Lemma set_add3_step {B} n v i j x (g : list UInt32 -> prog P (res B)) l : plain n -> (forall a, U (g a) (oneof l)) -> ~ In n l -> U (bindq (set_add3 n v i j x) g) (oneof (n :: l)).
Proof.
  intros Hn Hg Hd. eapply uses_q with (N1 := just n) (N2 := oneof l); [|exact Hg| |].
  - unfold set_add3. apply uses_idx. intros vi. apply uses_idx. intros vj. apply uses_then. eapply uses_in; [exact Hn|apply addmany_u].
  - intros y Hy Hy'. unfold just in Hy. subst. exact (Hd Hy').
  - intros y [Hy|Hy]; [left; symmetry; exact Hy|right; exact Hy].
Qed.
Lemma set_add2_step {B} n v i j (g : list UInt32 -> prog P (res B)) l : plain n -> (forall a, U (g a) (oneof l)) -> ~ In n l -> U (bindq (set_add2 n v i j) g) (oneof (n :: l)).
Proof.
  intros Hn Hg Hd. eapply uses_q with (N1 := just n) (N2 := oneof l); [|exact Hg| |].
  - unfold set_add2. apply uses_idx. intros vi. apply uses_idx. intros vj. apply uses_then. eapply uses_in; [exact Hn|apply addmany_u].
  - intros y Hy Hy'. unfold just in Hy. subst. exact (Hd Hy').
  - intros y [Hy|Hy]; [left; symmetry; exact Hy|right; exact Hy].
Qed.
Lemma set_xor_u n v i j r : plain n -> U (@set_xor P n v i j r) (just n).
Proof. intros Hn. unfold set_xor. apply uses_idx. intros vi. apply uses_idx. intros vj. apply uses_then. eapply uses_in; [exact Hn|apply u_xor_u]. Qed.
Lemma set_xor_step {B} n v i j r (g : list UInt32 -> prog P (res B)) l : plain n -> (forall a, U (g a) (oneof l)) -> ~ In n l -> U (bindq (set_xor n v i j r) g) (oneof (n :: l)).
Proof.
  intros Hn Hg Hd. eapply uses_q with (N1 := just n) (N2 := oneof l); [now apply set_xor_u|exact Hg| |].
  - intros y Hy Hy'. unfold just in Hy. subst. exact (Hd Hy').
  - intros y [Hy|Hy]; [left; symmetry; exact Hy|right; exact Hy].
Qed.
Lemma just_one n : sub (just n) (oneof [n]). Proof. intros x Hx. left. symmetry. exact Hx. Qed.
Definition n_mixing : list string := ["mixing step 1"; "mixing step 2"; "mixing step 3"; "mixing step 4"; "mixing step 5"; "mixing step 6"; "mixing step 7"; "mixing step 8"]%string.
Lemma mixing_g_u v abcd x y : U (@mixing_g P v abcd x y) (oneof n_mixing).
Proof.
  destruct abcd as [[[a b] c] d]. unfold mixing_g.
  apply set_add3_step; [pl|intros v1|notin]. apply set_xor_step; [pl|intros v2|notin]. apply set_add2_step; [pl|intros v3|notin]. apply set_xor_step; [pl|intros v4|notin].
  apply set_add3_step; [pl|intros v5|notin]. apply set_xor_step; [pl|intros v6|notin]. apply set_add2_step; [pl|intros v7|notin].
  eapply uses_sub; [apply just_one|apply set_xor_u; pl].
Qed.
Lemma mix_u n m s i j abcd v : plain n -> U (@mix P n m s i j abcd v) (just n).
Proof.
  intros Hn. unfold mix. apply uses_idx; intros si. apply uses_idx; intros sj. apply uses_idx; intros x. apply uses_idx; intros y.
  eapply uses_in; [exact Hn|apply mixing_g_u].
Qed.
Lemma mix_step {B} n m s i j abcd v (g : list UInt32 -> prog P (res B)) l : plain n -> (forall a, U (g a) (oneof l)) -> ~ In n l -> U (bindq (mix n m s i j abcd v) g) (oneof (n :: l)).
Proof.
  intros Hn Hg Hd. eapply uses_q with (N1 := just n) (N2 := oneof l); [now apply mix_u|exact Hg| |].
  - intros y Hy Hy'. unfold just in Hy. subst. exact (Hd Hy').
  - intros y [Hy|Hy]; [left; symmetry; exact Hy|right; exact Hy].
Qed.
Lemma b_round_u m i v : U (@b_round P m i v) (just ("round " ++ nat_str i)%string).
Proof.
  unfold b_round. eapply uses_in with (N := oneof ["mixing invocation 1"; "mixing invocation 2"; "mixing invocation 3"; "mixing invocation 4"; "mixing invocation 5"; "mixing invocation 6"; "mixing invocation 7"; "mixing invocation 8"]%string); [pl|].
  apply uses_idx. intros s. do 7 (apply mix_step; [pl|intros ?|notin]). eapply uses_sub; [apply just_one|apply mix_u; pl].
Qed.
Definition hv (i : nat) : string := ("h[" ++ nat_str i ++ "] ^ v[" ++ nat_str i ++ "] ^ v[" ++ nat_str i ++ " + 8]")%string.
Lemma hv_inj i j : hv i = hv j -> i = j.
Proof. unfold hv. cbn [append]. intros H. injection H as H. apply nat_str_inj. eapply digits_end; [| | | |exact H]; try apply nat_str_digits; reflexivity. Qed.
Lemma final_xor_u v i h : W (@final_xor P v i h) (just (hv i)).
Proof.
  unfold final_xor. eapply uses_in with (N := oneof ["first xor"; "second xor"]%string); [unfold word, hv; rewrite ?has_slash_app, ?nat_str_slash; reflexivity|].
  apply uses_idx. intros hi. apply uses_idx. intros vi. eapply uses_step; [wd|apply weak, u_xor_u|intros a|notin].
  apply uses_idx. intros vi8. eapply uses_step; [wd|apply weak, u_xor_u|intros b; apply uses_res|notin].
Qed.
Lemma set_xor_const_step {B} n v i z (g : list UInt32 -> prog P (res B)) N : word n -> (forall a, W (g a) N) -> ~ N n -> W (bindq (set_xor_const n v i z) g) (join (just n) N).
Proof.
  intros Hn Hg Hd. eapply uses_q with (N1 := just n) (N2 := N); [|exact Hg| |intros x Hx; exact Hx].
  - unfold set_xor_const. apply uses_idx. intros vi. apply uses_then. eapply uses_in; [exact Hn|apply weak, u_xor_u].
  - intros y Hy Hy'. unfold just in Hy. subst. exact (Hd Hy').
Qed.
Definition n_final : names := fun x => exists i, i < 8 /\ x = hv i.
Definition n_blake : names := join (oneof ["first xor"; "second xor"; "third xor"]%string) (join (join (fam "round ") mq) n_final).
Lemma blake2s_compression_u h m t f : W (@blake2s_compression P h m t f) n_blake.
Proof.
  unfold blake2s_compression. destruct (negb _); [apply uses_panic|]. destruct (negb _); [apply uses_panic|]. cbv zeta. destruct (negb _); [apply uses_panic|].
  assert (D : forall n, In n ["first xor"; "second xor"; "third xor"]%string -> ~ join (join (fam "round ") mq) n_final n).
  { intros n Hn [[[i E]|[i E]]|(i & _ & E)]; cbn [In] in Hn; destruct Hn as [<-|[<-|[<-|[]]]]; discriminate E. }
  eapply uses_sub; [|apply set_xor_const_step with (N := join (just "second xor") (join (just "third xor") (join (join (fam "round ") mq) n_final))%string); [wd|intros v1|]].
  - intros x [Hx|[Hx|[Hx|Hx]]]; [left|left|left|right; exact Hx]; unfold just in Hx; subst; cbn; auto.
  - apply set_xor_const_step; [wd|intros v2|].
    + eapply uses_q with (N1 := just "third xor"%string) (N2 := join (join (fam "round ") mq) n_final); [|intros v3| |intros x Hx; exact Hx].
      * destruct f; [|apply uses_res]. unfold set_xor_const. apply uses_idx. intros vi. apply uses_then. eapply uses_in; [wd|apply weak, u_xor_u].
      * eapply uses_q; [apply multieq_u, uses_fold; intros; apply b_round_u|intros v4| |intros x Hx; exact Hx].
        -- eapply uses_sub; [|apply (uses_foldq word (fun i h _ => final_xor v4 i h) (fun j => just (hv j)) (fun _ _ => True)); [exact I|intros; apply final_xor_u|]].
           ++ intros x (j & Hj & Hx). rewrite seq_length in Hj. exists j. split; [lia|exact Hx].
           ++ intros j k Hd x Hx Hy. unfold just in *. subst. apply hv_inj in Hy. contradiction.
        -- intros x [[i E]|[i E]] (j & _ & E'); subst; discriminate E'.
      * intros x Hx. unfold just in Hx. subst. apply D. cbn; auto.
    + intros [Hx|Hx]; [discriminate Hx|]. revert Hx. apply D. cbn; auto.
  - intros [Hx|[Hx|Hx]]; [discriminate Hx|discriminate Hx|]. revert Hx. apply D. cbn; auto.
Qed.
Lemma b_block_u block : W (@b_block P block) none.
Proof. unfold b_block. apply uses_then, (lift_map_u (fun w => from_bits (push_until 32 (BConst false) w))). Qed.
Lemma b_blocks_u l : forall i, W (@mapq P _ _ (fun _ b => b_block b) i l) none.
Proof.
  induction l as [|b l IH]; intros i; cbn [mapq]; [apply uses_res|].
  eapply uses_q with (N1 := none) (N2 := none); [apply b_block_u|intros y|intros ? []|intros ? [[]|[]]]. apply uses_then, IH.
Qed.
Lemma blake2s_u input pers : W (@blake2s P input pers) (join (fam "block ") (just "final block")).
Proof.
  unfold blake2s. destruct (negb _); [apply uses_panic|]. destruct (negb _); [apply uses_panic|]. cbv zeta.
  eapply uses_q with (N1 := none); [|intros blocks|intros ? []|intros x [[]|Hx]; exact Hx].
  - apply b_blocks_u.
  - eapply uses_q; [apply uses_fold; intros; eapply uses_in; [wd|apply blake2s_compression_u]|intros h| |intros x Hx; exact Hx].
    + apply uses_idx. intros last. apply uses_then. eapply uses_in; [wd|apply blake2s_compression_u].
    + ns_.
Qed.
End Gadgets.
