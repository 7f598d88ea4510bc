(** The MiMC circuit performs a fixed list of calls; what key generator and prover make of them. *)
From Coq Require Import String.
From Coq Require Import ZArith List Bool Lia Field.
From Verif Require Import Prelude PrimeField FModule Circuit Loops Assembly AssemblyProof PropAssembly PropGenerator PropGroth16 PropRandom Mimc.
Import ListNotations.
Local Open Scope nat_scope.

Section MimcProof.
Context {P : PrimeField}.
Add Field PFmimcproof : (F_field P).
Implicit Types cs : list P.
Notation len := List.length.

Lemma round_calls_cons a n xl xr (l r : P) cs : cs <> [] ->
  the_constraints (round_calls a n xl xr l r cs) = all_cons a n xl xr cs /\
  the_aux (round_calls a n xl xr l r cs) = all_aux l r cs /\
  flat_map (fun c => match c with CallAllocInput x => [x] | _ => [] end) (round_calls a n xl xr l r cs) = [image l r cs].
Proof.
  revert a xl xr l r. induction cs as [|c [|c' cs] IH]; intros a xl xr l r Hn; [contradiction|repeat split; reflexivity|].
  destruct (IH (S (S a)) (Aux (S a)) xl ((l + c) * ((l + c) * (l + c)) + r)%F l ltac:(discriminate)) as (A & B & C).
  repeat split.
  - change (round_cons c xl xr (Aux a) (Aux (S a)) ++ the_constraints (round_calls (S (S a)) n (Aux (S a)) xl ((l + c) * ((l + c) * (l + c)) + r)%F l (c' :: cs)) =
            round_cons c xl xr (Aux a) (Aux (S a)) ++ all_cons (S (S a)) n (Aux (S a)) xl (c' :: cs)). now rewrite A.
  - change (((l + c) * (l + c))%F :: ((l + c) * ((l + c) * (l + c)) + r)%F :: the_aux (round_calls (S (S a)) n (Aux (S a)) xl ((l + c) * ((l + c) * (l + c)) + r)%F l (c' :: cs)) =
            ((l + c) * (l + c))%F :: ((l + c) * ((l + c) * (l + c)) + r)%F :: all_aux ((l + c) * ((l + c) * (l + c)) + r)%F l (c' :: cs)). now rewrite B.
  - exact C.
Qed.

Lemma mimc_facts (l r : P) cs : cs <> [] ->
  the_constraints (mimc_calls l r cs) = all_cons 2 1 (Aux 0) (Aux 1) cs /\
  the_aux (mimc_calls l r cs) = l :: r :: all_aux l r cs /\ the_inputs (mimc_calls l r cs) = [fone; image l r cs].
Proof.
  intros H. destruct (round_calls_cons 2 1 (Aux 0) (Aux 1) l r cs H) as (A & B & C). unfold mimc_calls. repeat split.
  - exact A.
  - change (the_aux ([CallAlloc l; CallAlloc r] ++ round_calls 2 1 (Aux 0) (Aux 1) l r cs)) with (l :: r :: the_aux (round_calls 2 1 (Aux 0) (Aux 1) l r cs)). now rewrite B.
  - unfold the_inputs. cbn [app flat_map]. now rewrite C.
Qed.

(** ** The machines *)
Section Same.
Variables (rounds : nat) (cs : list P) (l r : P).
Hypothesis Hlen : len cs = rounds.

Lemma keypair_calls : synthesize_keypair (mimc_circuit rounds None None cs) = synthesize_keypair (circuit_of (mimc_calls l r cs)).
Proof.
  unfold synthesize_keypair, synthesize. rewrite !run_bindq. unfold cs_alloc_input. cbn -[mimc_circuit circuit_of mimc_calls ka_new obind]. cbn [obind fst snd]. f_equal.
  apply (calls_of_circuit (KeypairCS P) num_aux num_inputs (fun _ _ => True)); auto; try reflexivity.
  - intros s x. do 2 eexists. cbn. repeat split; cbn; lia.
  - intros s x. do 2 eexists. cbn. repeat split; cbn; lia.
  - intros s a b c s' H. cbn in H. destruct (ka_eval _ a _) as [x1|]; cbn in H; [|discriminate]. destruct (ka_eval _ b _) as [x2|]; cbn in H; [|discriminate].
    destruct (ka_eval _ c _) as [x3|]; cbn in H; [|discriminate]. injection H as <-. auto.
  - right. auto.
Qed.

Lemma shape_calls : synthesize_shape (mimc_circuit rounds None None cs) = synthesize_shape (circuit_of (mimc_calls l r cs)).
Proof.
  unfold synthesize_shape, synthesize. rewrite !run_bindq. unfold cs_alloc_input. cbn -[mimc_circuit circuit_of mimc_calls obind]. cbn [obind fst snd]. f_equal.
  apply (calls_of_circuit (ShapeCS P) k_aux k_inputs (fun _ _ => True)); auto; try reflexivity.
  - intros s x. do 2 eexists. cbn. repeat split.
  - intros s x. do 2 eexists. cbn. repeat split.
  - intros s a b c s' H. cbn in H. injection H as <-. auto.
  - right. auto.
Qed.

Lemma prover_calls : synthesize_prover (mimc_circuit rounds (Some l) (Some r) cs) = synthesize_prover (circuit_of (mimc_calls l r cs)).
Proof.
  unfold synthesize_prover, synthesize. rewrite !run_bindq. unfold cs_alloc_input. cbn -[mimc_circuit circuit_of mimc_calls obind]. cbn [obind fst snd]. f_equal.
  apply (calls_of_circuit (ProvingCS P) (fun s => len (aux_assignment s)) (fun s => len (input_assignment s)) (fun f x => f = Ok x)); auto; try reflexivity.
  - intros s n f x ->. reflexivity.
  - intros s n f x ->. reflexivity.
  - intros s x. do 2 eexists. cbn. rewrite app_length, Nat.add_sub. cbn. repeat split; cbn; rewrite ?app_length; cbn; lia.
  - intros s x. do 2 eexists. cbn. rewrite app_length, Nat.add_sub. cbn. repeat split; cbn; rewrite ?app_length; cbn; lia.
  - intros s a b c s' H. cbn in H. destruct (pa_eval a _ _ _ _ _) as [[[x1 x2] x3]|]; cbn in H; [|discriminate]. destruct (pa_eval b _ _ _ _ _) as [[[x4 x5] x6]|]; cbn in H; [|discriminate].
    destruct (pa_eval c _ _ _ _ _) as [[[x7 x8] x9]|]; cbn in H; [|discriminate]. injection H as <-. auto.
  - left. auto.
Qed.

Lemma honest_calls : synthesize_honest (mimc_circuit rounds (Some l) (Some r) cs) = synthesize_honest (circuit_of (mimc_calls l r cs)).
Proof.
  unfold synthesize_honest, synthesize. rewrite !run_bindq. unfold cs_alloc_input. cbn -[mimc_circuit circuit_of mimc_calls obind]. cbn [obind fst snd]. f_equal.
  apply (calls_of_circuit (HonestCS P) (fun s => len (p_aux s)) (fun s => len (p_inputs s)) (fun f x => f = Ok x)); auto; try reflexivity.
  - intros s n f x ->. reflexivity.
  - intros s n f x ->. reflexivity.
  - intros s x. do 2 eexists. cbn. repeat split; cbn; rewrite ?app_length; cbn; lia.
  - intros s x. do 2 eexists. cbn. repeat split; cbn; rewrite ?app_length; cbn; lia.
  - intros s a b c s' H. cbn in H. injection H as <-. auto.
  - left. auto.
Qed.
End Same.

(** ** Scoping *)
Fixpoint in_scope (ni na : nat) (calls : list (call P)) : Prop :=
  match calls with
  | [] => True
  | CallAlloc _ :: t => in_scope ni (S na) t
  | CallAllocInput _ :: t => in_scope (S ni) na t
  | CallEnforce a b c :: t => con_ok ni na (a, b, c) /\ in_scope ni na t
  end.
Lemma in_scope_scoped calls : forall pre, scoped pre -> in_scope (len (the_inputs pre)) (len (the_aux pre)) calls -> scoped (pre ++ calls).
Proof.
  induction calls as [|x calls IH]; intros pre Hp H; [now rewrite app_nil_r|]. change (x :: calls) with ([x] ++ calls). rewrite app_assoc. apply IH.
  - apply scoped_snoc; auto. intros a b c ->. apply H.
  - unfold the_inputs, the_aux in *. rewrite !flat_map_app. cbn [List.length] in *. rewrite !app_length. destruct x; cbn [in_scope flat_map app List.length] in *; rewrite ?Nat.add_0_r, ?Nat.add_1_r; auto. apply H.
Qed.

Lemma round_scope cs : forall a n xl xr (l r : P), 1 <= n -> v_ok n a xl -> v_ok n a xr -> in_scope n a (round_calls a n xl xr l r cs).
Proof.
  induction cs as [|c [|c' cs] IH]; intros a n xl xr l r Hn Hl Hr; [exact I|..].
  - cbn. repeat split; repeat constructor; cbn; try lia; (destruct xl; cbn in *; lia) || (destruct xr; cbn in *; lia).
  - change (round_calls a n xl xr l r (c :: c' :: cs)) with
      ([CallAlloc ((l + c) * (l + c))%F; CallEnforce [(xl, fone); (one_var, c)] [(xl, fone); (one_var, c)] [(Aux a, fone)]; CallAlloc ((l + c) * ((l + c) * (l + c)) + r)%F;
        CallEnforce [(Aux a, fone)] [(xl, fone); (one_var, c)] [(Aux (S a), fone); (xr, (- (1))%F)]] ++ round_calls (S (S a)) n (Aux (S a)) xl ((l + c) * ((l + c) * (l + c)) + r)%F l (c' :: cs)).
    cbn [app in_scope]. repeat split; try (repeat constructor; cbn; try lia; (destruct xl; cbn in *; lia) || (destruct xr; cbn in *; lia)).
    apply IH; auto; [cbn; lia|destruct xl; cbn in *; lia].
Qed.

Lemma mimc_scoped (l r : P) cs : scoped (mimc_calls l r cs).
Proof.
  apply (in_scope_scoped (mimc_calls l r cs) []).
  - intros before a b c after v H. destruct before; discriminate.
  - unfold mimc_calls. cbn [app in_scope the_inputs the_aux flat_map List.length]. apply round_scope; cbn; lia.
Qed.

(** ** No coefficients cancel *)
Lemma coefficient_nodup (lc : LC P) v c : NoDup (map fst lc) -> In (v, c) lc -> coefficient lc v = c.
Proof.
  induction lc as [|[u d] lc IH]; [contradiction|]. cbn [map fst]. intros Hn [H|H]; inversion Hn as [|? ? Hu Hn']; subst.
  - injection H as -> ->.
    assert (Z : coefficient lc v = fzero).
    { rewrite coefficient_eq. apply lc_coeff_unmentioned. intros (x & _ & Hx). apply Hu. apply in_map_iff. exists (v, x). auto. }
    destruct v as [i|i]; cbn [coefficient]; rewrite Nat.eqb_refl, Z; ring.
  - specialize (IH Hn' H). destruct u as [i|i], v as [j|j]; cbn [coefficient]; rewrite IH; try ring.
    + destruct (Nat.eqb_spec i j) as [->|]; [|ring]. exfalso. apply Hu. apply in_map_iff. exists (Input j, c). auto.
    + destruct (Nat.eqb_spec i j) as [->|]; [|ring]. exfalso. apply Hu. apply in_map_iff. exists (Aux j, c). auto.
Qed.

Lemma all_cons_nodup cs : forall a n xl xr k, (exists i, xl = Aux i) -> In k (all_cons a n xl xr cs) -> NoDup (map fst (part_A k)) /\ NoDup (map fst (part_B k)).
Proof.
  assert (R : forall c xl xr tmp new (k : Constraint P), (exists i, xl = Aux i) -> In k (round_cons c xl xr tmp new) -> NoDup (map fst (part_A k)) /\ NoDup (map fst (part_B k))).
  { intros c xl xr tmp new k [i ->] [<-|[<-|[]]]; cbn; split; repeat constructor; cbn; intuition discriminate. }
  induction cs as [|c [|c' cs] IH]; intros a n xl xr k Hx Hk; [contradiction|eapply R; eauto|].
  change (In k (round_cons c xl xr (Aux a) (Aux (S a)) ++ all_cons (S (S a)) n (Aux (S a)) xl (c' :: cs))) in Hk. apply in_app_or in Hk as [Hk|Hk]; [eapply R; eauto|].
  eapply IH; [|exact Hk]. eauto.
Qed.

(** The variable of every round keeps an effect. *)
Definition effect (alpha beta : P) (k : Constraint P) (v : Var) : P := (beta * coefficient (part_A k) v + alpha * coefficient (part_B k) v + coefficient (part_C k) v)%F.
Lemma all_cons_effect alpha beta cs : alpha <> fzero -> forall a n il ir j, il < a -> ir < a -> il <> ir -> cs <> [] -> j = il \/ j = ir \/ a <= j < a + (2 * len cs - 1) ->
  exists k, In k (all_cons a n (Aux il) (Aux ir) cs) /\ effect alpha beta k (Aux j) <> fzero.
Proof.
  intros Ha.
  assert (R : forall c il ir a new j, il < a -> ir < a -> il <> ir -> (forall i, new = Aux i -> a < i) -> j = il \/ j = ir \/ j = a ->
    exists k, In k (round_cons c (Aux il) (Aux ir) (Aux a) new) /\ effect alpha beta k (Aux j) <> fzero).
  { intros c il ir a new j Hil Hir Hne Hnew Hj. assert (N : ~ (j < a /\ new = Aux j)) by (intros [X Y]; apply Hnew in Y; lia).
    destruct Hj as [->|[->| ->]].
    - eexists. split; [right; left; reflexivity|]. unfold effect, part_A, part_B, part_C, lc_sub_var, lc_sub_term, lc_add_var, lc_add_term, lc_zero, one_var. cbn [fst snd app coefficient]. rewrite Nat.eqb_refl.
      destruct (Nat.eqb_spec a il); [lia|]. destruct (Nat.eqb_spec ir il); [lia|]. destruct new as [i|i]; [|destruct (Nat.eqb_spec i il); [exfalso; apply N; subst; auto|]];
      (intros Z; apply Ha; rewrite <- Z; ring).
    - eexists. split; [right; left; reflexivity|]. unfold effect, part_A, part_B, part_C, lc_sub_var, lc_sub_term, lc_add_var, lc_add_term, lc_zero, one_var. cbn [fst snd app coefficient]. rewrite Nat.eqb_refl.
      destruct (Nat.eqb_spec a ir); [lia|]. destruct (Nat.eqb_spec il ir); [lia|]. destruct new as [i|i]; [|destruct (Nat.eqb_spec i ir); [exfalso; apply N; subst; auto|]];
      (intros Z; apply (@f_1_neq_0 P); match type of Z with ?t = _ => transitivity (0 - t)%F; [ring|rewrite Z; ring] end).
    - eexists. split; [left; reflexivity|]. unfold effect, part_A, part_B, part_C, lc_sub_var, lc_sub_term, lc_add_var, lc_add_term, lc_zero, one_var. cbn [fst snd app coefficient]. rewrite Nat.eqb_refl. destruct (Nat.eqb_spec il a); [lia|].
      intros Z. apply (@f_1_neq_0 P). rewrite <- Z. ring. }
  induction cs as [|c [|c' cs] IH]; intros a n il ir j Hil Hir Hne Hn Hj; [contradiction|..].
  - cbn [all_cons]. apply R; auto; [discriminate|]. cbn in Hj. lia.
  - change (all_cons a n (Aux il) (Aux ir) (c :: c' :: cs)) with (round_cons c (Aux il) (Aux ir) (Aux a) (Aux (S a)) ++ all_cons (S (S a)) n (Aux (S a)) (Aux il) (c' :: cs)).
    assert (D : (j = il \/ j = ir \/ j = a) \/ (j = S a \/ S (S a) <= j < S (S a) + (2 * len (c' :: cs) - 1))) by (cbn [List.length] in *; lia).
    destruct D as [D|D].
    + destruct (R c il ir a (Aux (S a)) j Hil Hir Hne ltac:(intros i [= <-]; lia) D) as (k & Hk & X). exists k. split; auto. apply in_or_app. auto.
    + destruct (IH (S (S a)) n (S a) il j ltac:(lia) ltac:(lia) ltac:(lia) ltac:(discriminate) ltac:(lia)) as (k & Hk & X). exists k. split; auto. apply in_or_app. auto.
Qed.

Lemma all_cons_length cs : forall a n xl xr, len (all_cons a n xl xr cs) = 2 * len cs.
Proof.
  induction cs as [|c [|c' cs] IH]; intros a n xl xr; [reflexivity|reflexivity|].
  change (all_cons a n xl xr (c :: c' :: cs)) with (round_cons c xl xr (Aux a) (Aux (S a)) ++ all_cons (S (S a)) n (Aux (S a)) xl (c' :: cs)).
  rewrite app_length, IH. cbn [List.length round_cons]. lia.
Qed.
End MimcProof.
