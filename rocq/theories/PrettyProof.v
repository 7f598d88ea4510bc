(** Lemmas about [pretty_print]. *)
From Coq Require Import String Ascii DecimalString Decimal.
From Coq Require Import ZArith Znumtheory List Bool Lia Sorted Field.
From Verif Require Import Prelude PrimeField Circuit TestCS TestCSProof TestHash PrettyPrint PrettySpec.
Import ListNotations.
Local Open Scope nat_scope.
Local Open Scope string_scope.

(** ** Strings *)
Lemma sapp_assoc (a b c : string) : (a ++ b) ++ c = a ++ (b ++ c).
Proof. induction a as [|x a IH]; cbn; [reflexivity|]. now rewrite IH. Qed.
Lemma sapp_nil_r (a : string) : a ++ "" = a.
Proof. induction a as [|x a IH]; cbn; [reflexivity|]. now rewrite IH. Qed.
Fixpoint cat (l : list string) : string := match l with [] => "" | x :: l => x ++ cat l end.
Lemma concat_cat l : String.concat "" l = cat l.
Proof. induction l as [|x [|y l] IH]; cbn [String.concat cat] in *; [reflexivity|now rewrite sapp_nil_r|]. now rewrite IH. Qed.

Lemma lacks_app c a b : lacks c (a ++ b) <-> lacks c a /\ lacks c b.
Proof. induction a as [|x a IH]; cbn; [tauto|]. rewrite IH. tauto. Qed.
Lemma split_at c a : forall a' r r', lacks c a -> lacks c a' -> a ++ String c r = a' ++ String c r' -> a = a' /\ r = r'.
Proof.
  induction a as [|x a IH]; intros [|y a'] r r' H H' E; cbn in *.
  - injection E as ->. auto.
  - injection E as <- _. destruct H'. congruence.
  - injection E as -> _. destruct H. congruence.
  - injection E as -> E. destruct (IH a' r r') as [-> ->]; tauto.
Qed.
Lemma sapp_inj_l a b b' : a ++ b = a ++ b' -> b = b'.
Proof. induction a as [|x a IH]; cbn; auto. intros [= E]. auto. Qed.

Lemma digits_lack c u : (forall d, In d ["0"; "1"; "2"; "3"; "4"; "5"; "6"; "7"; "8"; "9"]%char -> d <> c) -> lacks c (NilEmpty.string_of_uint u).
Proof. intros H. induction u; cbn [NilEmpty.string_of_uint lacks]; auto; split; auto; apply H; cbn; tauto. Qed.

Definition var_eq_dec (v w : Var) : {v = w} + {v <> w}.
Proof. decide equality; apply Nat.eq_dec. Defined.

(** ** The coefficient *)
Section Pretty.
Context {P : PrimeField}.
Variable debug : P -> string.
Local Open Scope F_scope.
Add Field PFfield_pretty : (F_field P).

Lemma toZ_negone : toZ (negone : P) = (modulus P - 1)%Z.
Proof.
  assert (H : (negone : P) = ofZ (modulus P - 1)).
  { apply toZ_inj. unfold negone. pose proof (prime_ge_2 _ (modulus_prime P)) as H2.
    assert (E : ofZ (modulus P - 1) + 1 = 0 :> P).
    { rewrite <- ofZ_1, <- ofZ_add. apply toZ_inj. rewrite toZ_ofZ, toZ_0. replace (modulus P - 1 + 1)%Z with (modulus P) by lia. apply Z.mod_same. lia. }
    f_equal. transitivity (ofZ (modulus P - 1) + 1 + - (1) : P); [rewrite E|]; ring. }
  rewrite H, toZ_ofZ_small; [reflexivity|]. pose proof (prime_ge_2 _ (modulus_prime P)). lia.
Qed.
Lemma is_negone (c : P) : feqb c negone = (toZ c =? modulus P - 1)%Z.
Proof.
  rewrite <- toZ_negone. destruct (Z.eqb_spec (toZ c) (toZ (negone : P))) as [E|E].
  - apply toZ_inj in E. now apply feqb_eq.
  - destruct (feqb c negone) eqn:F; auto. apply feqb_eq in F. congruence.
Qed.
Lemma is_one (c : P) : feqb c 1 = (toZ c =? 1)%Z.
Proof.
  replace (toZ c =? 1)%Z with (toZ c =? toZ (1 : P))%Z by (now rewrite toZ_1). destruct (Z.eqb_spec (toZ c) (toZ (1 : P))) as [E|E].
  - apply toZ_inj in E. now apply feqb_eq.
  - destruct (feqb c 1) eqn:F; auto. apply feqb_eq in F. congruence.
Qed.
Lemma toZ_pow2 i : i < num_bits P -> toZ (fpow (ofZ 2) i : P) = (2 ^ Z.of_nat i)%Z.
Proof.
  intros Hi. assert (E : fpow (ofZ 2) i = ofZ (2 ^ Z.of_nat i) :> P).
  { clear Hi. induction i as [|i IH]; [cbn; now rewrite ofZ_1|]. rewrite fpow_S, IH, <- ofZ_mul. f_equal. rewrite Nat2Z.inj_succ, Z.pow_succ_r; lia. }
  rewrite E. apply toZ_ofZ_small. split; [lia|]. pose proof (num_bits_lo P) as L. pose proof (modulus_odd (P := P)) as O.
  pose proof (Z.pow_le_mono_r 2 (Z.of_nat i) (Z.of_nat (num_bits P) - 1) ltac:(lia) ltac:(lia)).
  destruct (Z.eq_dec (2 ^ Z.of_nat i) (modulus P)) as [C|]; [|lia].
  rewrite <- C in O. destruct i as [|i].
  - cbn in C. pose proof (prime_ge_2 _ (modulus_prime P)). lia.
  - rewrite Nat2Z.inj_succ, Z.pow_succ_r in O by lia. now rewrite Z.odd_mul in O.
Qed.
Lemma write_power_app s l (c : P) : forall i, write_power s i l c = (s ++ write_power "" i l c)%string.
Proof. induction l as [|x l IH]; intros i; cbn [write_power]; [now rewrite sapp_nil_r|]. destruct (feqb x c); auto. Qed.
Lemma find_power (c : P) : c <> 0 -> write_power "" 0 powers_of_two c =
  (if (2 ^ Z.log2 (toZ c) =? toZ c)%Z then "2^" ++ decimal (Z.to_nat (Z.log2 (toZ c))) ++ " . " else "")%string.
Proof.
  intros Hc. unfold powers_of_two. pose proof (toZ_range P c) as R.
  assert (Rc : (1 <= toZ c)%Z). { assert (toZ c <> 0%Z); [|lia]. intros E. rewrite <- (toZ_0 (P := P)) in E. apply toZ_inj in E. auto. }
  assert (K : forall n i, (i + n = num_bits P)%nat -> (forall j, j < i -> toZ c <> (2 ^ Z.of_nat j)%Z) ->
    write_power "" i (map (fun i => fpow (ofZ 2) i) (seq i n)) c =
    (if (2 ^ Z.log2 (toZ c) =? toZ c)%Z then "2^" ++ decimal (Z.to_nat (Z.log2 (toZ c))) ++ " . " else "")%string).
  { induction n as [|n IH]; intros i Hi Hj; cbn [seq map write_power].
    - destruct (Z.eqb_spec (2 ^ Z.log2 (toZ c)) (toZ c)) as [E|E]; auto. exfalso.
      pose proof (Z.log2_nonneg (toZ c)). apply (Hj (Z.to_nat (Z.log2 (toZ c)))).
      + pose proof (num_bits_hi P). assert (Z.log2 (toZ c) < Z.of_nat (num_bits P))%Z by (apply Z.log2_lt_pow2; lia). lia.
      + rewrite Z2Nat.id by lia. auto.
    - destruct (feqb (fpow (ofZ 2) i) c) eqn:F.
      + apply feqb_eq in F. assert (E : toZ c = (2 ^ Z.of_nat i)%Z) by (rewrite <- F; apply toZ_pow2; lia).
        rewrite E, Z.log2_pow2, Z.eqb_refl, Nat2Z.id by lia. reflexivity.
      + apply IH; [lia|]. intros j Hji. destruct (Nat.eq_dec j i) as [->|]; [|apply Hj; lia].
        intros E. rewrite <- (toZ_pow2 i) in E by lia. apply toZ_inj in E. symmetry in E. apply feqb_eq in E. congruence. }
  apply (K (num_bits P) 0%nat); [lia|]. intros j Hj. lia.
Qed.

Definition tt_text (st : TState P) (first : bool) (t : Var * P) : string :=
  (sign_text first (snd t) ++ factor_text debug (snd t) ++ "`" ++ name_of st (fst t) ++ "`")%string.
Lemma pp_step_spec st s first v c : c <> 0 ->
  pp_step debug st s first (v, c) = match entry st v with Some _ => Done (s ++ tt_text st first (v, c))%string | None => Panicked end.
Proof.
  intros Hc. unfold pp_step, tt_text, sign_text, factor_text, name_of. cbn [fst snd]. rewrite is_negone, is_one.
  destruct (entry st v) as [e|]; [|reflexivity]. f_equal. rewrite write_power_app, (find_power c Hc).
  destruct (toZ c =? 1)%Z, (toZ c =? modulus P - 1)%Z, first; cbn [negb andb orb append]; rewrite ?sapp_assoc; cbn [append]; reflexivity.
Qed.

(** the terms after each other *)
Definition terms_text (st : TState P) (first : bool) (m : list (Var * P)) : string :=
  match m with [] => "" | t :: m => (tt_text st first t ++ cat (map (tt_text st false) m))%string end.
Lemma pp_loop_spec st (m : list (Var * P)) : Forall (fun t => snd t <> 0) m -> forall s first,
  (Forall (fun t => entry st (fst t) <> None) m ->
     pp_loop debug st s first m = Done ((s ++ terms_text st first m)%string, match m with [] => first | _ => false end)) /\
  (~ Forall (fun t => entry st (fst t) <> None) m -> pp_loop debug st s first m = Panicked).
Proof.
  induction 1 as [|[v c] m Hc Hm IH]; intros s first; cbn [pp_loop terms_text].
  - split; [now rewrite sapp_nil_r|]. intros H. destruct H. constructor.
  - cbn [snd] in Hc. rewrite pp_step_spec by auto. cbn [fst]. destruct (entry st v) as [e|] eqn:E; cbn [obind].
    + destruct (IH (s ++ tt_text st first (v, c))%string false) as [A B]. split.
      * intros H. inversion_clear H as [|? ? _ H']. rewrite A by auto. rewrite sapp_assoc. f_equal. f_equal; [|destruct m; reflexivity].
        f_equal. f_equal. destruct m; reflexivity.
      * intros H. apply B. intros H'. apply H. constructor; auto. cbn [fst]. congruence.
    + split; auto. intros H. inversion_clear H as [|? ? H' _]. cbn [fst] in H'. congruence.
Qed.
Definition braces (st : TState P) (m : list (Var * P)) : string :=
  ("(" ++ match m with [] => "0" | _ => terms_text st true m end ++ ")")%string.
Lemma pp_spec st s (lc : LC P) :
  (Forall (fun t => entry st (fst t) <> None) (proc_lc lc) -> pp debug st s lc = Done (s ++ braces st (proc_lc lc))%string) /\
  (~ Forall (fun t => entry st (fst t) <> None) (proc_lc lc) -> pp debug st s lc = Panicked).
Proof.
  destruct (pp_loop_spec st (proc_lc lc) (proc_nonzero lc) (s ++ "(")%string true) as [A B]. unfold pp. split; intros H.
  - rewrite A by auto. cbn [obind]. f_equal. unfold braces. destruct (proc_lc lc); rewrite ?sapp_assoc; reflexivity.
  - now rewrite B.
Qed.

(** ** The terms *)
Lemma total_coef v (lc : LC P) : total v lc = coef lc v.
Proof.
  induction lc as [|[w c] lc IH]; [reflexivity|]. rewrite coef_cons. cbn [total]. rewrite IH. destruct (var_eqb v w); ring.
Qed.
Lemma total_proc v (lc : LC P) : total v (proc_lc lc) = total v lc.
Proof. rewrite !total_coef. unfold coef. apply eval_proc. Qed.
Lemma total_absent v (lc : LC P) : ~ In v (map fst lc) -> total v lc = 0.
Proof.
  induction lc as [|[w c] lc IH]; cbn [total map fst In]; auto. intros H. destruct (var_eqb_spec v w) as [->|]; [tauto|]. auto.
Qed.
Lemma sorted_total (m : list (Var * P)) : StronglySorted vlt m -> forall v c, In (v, c) m -> total v m = c.
Proof.
  induction 1 as [|[w d] m Hm IH HF]; intros v c; cbn [In total]; [tauto|]. intros [E|H].
  - injection E as -> ->. destruct (var_eqb_spec v v); [|congruence]. rewrite total_coef, coef_above; [ring|exact HF].
  - destruct (var_eqb_spec v w) as [->|]; [|auto]. exfalso. rewrite Forall_forall in HF. apply (var_cmp_irrefl w), (HF _ H).
Qed.
Lemma dangling_iff st (lc : LC P) : dangling st lc <-> ~ Forall (fun t => entry st (fst t) <> None) (proc_lc lc).
Proof.
  split.
  - intros (v & Hv & He) H. rewrite <- total_proc in Hv.
    destruct (in_dec var_eq_dec v (map fst (proc_lc lc))) as [Hi|Hi]; [|now rewrite total_absent in Hv].
    apply in_map_iff in Hi as (t & <- & Ht). rewrite Forall_forall in H. now apply (H t Ht).
  - intros H. destruct (Exists_dec (fun t => entry st (fst t) = None) (proc_lc lc)) as [X|X].
    + intros t. destruct (entry st (fst t)); [right; discriminate|now left].
    + apply Exists_exists in X as ([v c] & Hi & He). exists v. split; [|exact He].
      rewrite <- total_proc, (sorted_total _ (proc_sorted lc) v c Hi). pose proof (proc_nonzero lc) as N. rewrite Forall_forall in N. apply (N _ Hi).
    + exfalso. apply H. apply Forall_forall. intros t Ht He. apply X, Exists_exists. eauto.
Qed.

Lemma variables_in (st : TState P) v : In v (variables st) <-> entry st v <> None.
Proof.
  unfold variables. rewrite in_app_iff, !in_map_iff. destruct v as [i|i]; cbn [entry]; rewrite nth_error_Some; split.
  - intros [(j & [= ->] & Hj)|(j & E & _)]; [|discriminate]. apply in_seq in Hj. lia.
  - intros H. left. exists i. split; auto. apply in_seq. lia.
  - intros [(j & E & _)|(j & [= ->] & Hj)]; [discriminate|]. apply in_seq in Hj. lia.
  - intros H. right. exists i. split; auto. apply in_seq. lia.
Qed.
Lemma variables_sorted (st : TState P) : StronglySorted (fun v w => var_cmp v w = Lt) (variables st).
Proof.
  assert (S : forall (f : nat -> Var) , (forall i j, i < j -> var_cmp (f i) (f j) = Lt) -> forall n k, StronglySorted (fun v w => var_cmp v w = Lt) (map f (seq k n))).
  { intros f Hf. induction n as [|n IH]; intros k; cbn [seq map]; constructor; auto. apply Forall_forall. intros v Hv.
    apply in_map_iff in Hv as (j & <- & Hj). apply in_seq in Hj. apply Hf. lia. }
  unfold variables. generalize (seq 0 (List.length (t_inputs st))), (S Input ltac:(intros; now apply Nat.compare_lt_iff) (List.length (t_inputs st)) 0%nat).
  intros l Hl. pose proof (S Aux ltac:(intros; now apply Nat.compare_lt_iff) (List.length (t_aux st)) 0%nat) as HA.
  revert Hl. induction l as [|i l IH]; cbn [map app]; intros Hl; auto. inversion_clear Hl as [|? ? H1 H2]. constructor; auto.
  apply Forall_app. split; auto. apply Forall_forall. intros v Hv. apply in_map_iff in Hv as (j & <- & _). reflexivity.
Qed.
Lemma map_total (f : Var -> P) (l : list Var) v : StronglySorted (fun v w => var_cmp v w = Lt) l ->
  total v (map (fun v => (v, f v)) l) = if in_dec var_eq_dec v l then f v else 0.
Proof.
  induction 1 as [|w l Hl IH HF]; cbn [map total]; [reflexivity|].
  destruct (var_eqb_spec v w) as [->|N].
  - rewrite IH. destruct (in_dec var_eq_dec w (w :: l)) as [|X]; [|destruct X; now left].
    destruct (in_dec var_eq_dec w l) as [Hi|]; [|ring]. rewrite Forall_forall in HF. now apply HF, var_cmp_irrefl in Hi.
  - rewrite IH. destruct (in_dec var_eq_dec v l) as [Hi|Hi], (in_dec var_eq_dec v (w :: l)) as [Hj|Hj]; auto.
    + destruct Hj. now right.
    + destruct Hj; congruence.
Qed.
Lemma filter_sorted_v (f : Var -> bool) l : StronglySorted (fun v w => var_cmp v w = Lt) l -> StronglySorted (fun v w => var_cmp v w = Lt) (filter f l).
Proof.
  induction 1 as [|v l Hl IH HF]; cbn; [constructor|]. destruct (f v); auto. constructor; auto.
  rewrite Forall_forall in *. intros x Hx. apply filter_In in Hx. now apply HF.
Qed.
Lemma proc_listing st (lc : LC P) : ~ dangling st lc ->
  proc_lc lc = map (fun v => (v, total v lc)) (filter (fun v => negb (feqb (total v lc) 0)) (variables st)).
Proof.
  intros Hd. apply norm_unique; auto using proc_sorted, proc_nonzero.
  - assert (S := filter_sorted_v (fun v => negb (feqb (total v lc) 0)) _ (variables_sorted st)). revert S. generalize (filter (fun v => negb (feqb (total v lc) 0)) (variables st)).
    induction 1 as [|v l Hl IH HF]; cbn [map]; constructor; auto. apply Forall_forall. intros t Ht. apply in_map_iff in Ht as (w & <- & Hw).
    rewrite Forall_forall in HF. exact (HF _ Hw).
  - apply Forall_forall. intros t Ht. apply in_map_iff in Ht as (v & <- & Hv). apply filter_In in Hv as [_ Hv]. cbn [snd]. intros E. rewrite E in Hv.
    now rewrite (proj2 (feqb_eq P 0 0) eq_refl) in Hv.
  - intros v. rewrite <- !total_coef, total_proc, map_total by (apply filter_sorted_v, variables_sorted).
    destruct (in_dec var_eq_dec v _) as [_|N]; [reflexivity|].
    destruct (feqb (total v lc) 0) eqn:F; [now apply feqb_eq|]. exfalso. apply N, filter_In. rewrite F. split; auto.
    apply variables_in. intros E. apply Hd. exists v. split; auto. intros C. rewrite C in F. now rewrite (proj2 (feqb_eq P 0 0) eq_refl) in F.
Qed.
Lemma braces_text st (lc : LC P) : ~ dangling st lc -> braces st (proc_lc lc) = lc_text debug st lc.
Proof.
  intros H. rewrite (proc_listing st lc H). unfold braces, lc_text. f_equal. f_equal.
  destruct (filter _ (variables st)) as [|v vs]; [reflexivity|]. cbn [map terms_text]. rewrite concat_cat, map_map. reflexivity.
Qed.

Definition entry_dec (st : TState P) v : {entry st v <> None} + {~ entry st v <> None}.
Proof. destruct (entry st v); [left; discriminate|right; tauto]. Defined.
Lemma pp_text st s (lc : LC P) : (~ dangling st lc -> pp debug st s lc = Done (s ++ lc_text debug st lc)%string) /\ (dangling st lc -> pp debug st s lc = Panicked).
Proof.
  destruct (pp_spec st s lc) as [A B]. split; intros H.
  - rewrite <- braces_text by auto. apply A. rewrite dangling_iff in H.
    destruct (Forall_dec (fun t : Var * P => entry st (fst t) <> None) (fun t => entry_dec st (fst t)) (proc_lc lc)); tauto.
  - apply B. now apply dangling_iff.
Qed.
Lemma dangling_dec st (lc : LC P) : dangling st lc \/ ~ dangling st lc.
Proof.
  rewrite dangling_iff.
  destruct (Forall_dec (fun t : Var * P => entry st (fst t) <> None) (fun t => entry_dec st (fst t)) (proc_lc lc)); tauto.
Qed.

Definition con_dangles (st : TState P) (c : LC P * LC P * LC P * string) : Prop := let '(x, y, z, _) := c in dangling st x \/ dangling st y \/ dangling st z.
Lemma pp_constraint_text st s c : (~ con_dangles st c -> pp_constraint debug st s c = Done (s ++ constraint_text debug st c)%string) /\
  (con_dangles st c -> pp_constraint debug st s c = Panicked).
Proof.
  destruct c as [[[x y] z] name]. unfold con_dangles, pp_constraint, constraint_text.
  destruct (pp_text st ((s ++ newline) ++ (name ++ ": "))%string x) as [A B]. split; intros H.
  - rewrite A by tauto. cbn [obind]. rewrite (proj1 (pp_text st _ y)) by tauto. cbn [obind]. rewrite (proj1 (pp_text st _ z)) by tauto. f_equal.
    change eol with newline. now rewrite !sapp_assoc.
  - destruct (dangling_dec st x) as [X|X]; [now rewrite B|]. rewrite A by auto. cbn [obind].
    destruct (dangling_dec st y) as [Y|Y]; [now rewrite (proj2 (pp_text st _ y))|]. rewrite (proj1 (pp_text st _ y)) by auto. cbn [obind].
    rewrite (proj2 (pp_text st _ z)); tauto.
Qed.
Lemma pp_constraints_text st cs : forall s, (~ Exists (con_dangles st) cs -> pp_constraints debug st s cs = Done (s ++ cat (map (constraint_text debug st) cs))%string) /\
  (Exists (con_dangles st) cs -> pp_constraints debug st s cs = Panicked).
Proof.
  induction cs as [|c cs IH]; intros s; cbn [pp_constraints map cat].
  - split; [now rewrite sapp_nil_r|]. intros H. inversion H.
  - assert (D : con_dangles st c \/ ~ con_dangles st c).
    { destruct c as [[[x y] z] name]. unfold con_dangles. destruct (dangling_dec st x), (dangling_dec st y), (dangling_dec st z); tauto. }
    destruct (pp_constraint_text st s c) as [A B], D as [D|D].
    + rewrite B by auto. split; auto. intros H. destruct H. now constructor.
    + rewrite A by auto. cbn [obind]. destruct (IH (s ++ constraint_text debug st c)%string) as [A' B']. split; intros H.
      * rewrite A', sapp_assoc; auto.
      * apply B'. inversion H; tauto.
Qed.
Lemma dangles_flat st : Exists (con_dangles st) (t_cons st) <-> exists lc, In lc (lcs_of st) /\ dangling st lc.
Proof.
  unfold lcs_of. rewrite Exists_exists. split.
  - intros ([[[x y] z] n] & Hc & [H|[H|H]]); [exists x|exists y|exists z]; split; auto; apply in_flat_map; exists (x, y, z, n); cbn; auto.
  - intros (lc & Hi & H). apply in_flat_map in Hi as ([[[x y] z] n] & Hc & Hl). exists (x, y, z, n). split; auto. cbn in Hl |- *.
    destruct Hl as [<-|[<-|[<-|[]]]]; auto.
Qed.

(** ** Reading back *)
Section Read.
Hypothesis debug_inj : forall c c', debug c = debug c' -> c = c'.
Hypothesis debug_plain : forall c, lacks " " (debug c) /\ lacks ")" (debug c) /\ lacks "`" (debug c).

Lemma decimal_lacks c n : (forall d, In d ["0"; "1"; "2"; "3"; "4"; "5"; "6"; "7"; "8"; "9"]%char -> d <> c) -> lacks c (decimal n).
Proof. apply digits_lack. Qed.
Lemma decimal_space n : lacks " " (decimal n).
Proof. apply decimal_lacks. cbn. intros d H E. subst. repeat (destruct H as [H|H]; [discriminate|]). destruct H. Qed.
Lemma decimal_tick n : lacks "`" (decimal n).
Proof. apply decimal_lacks. cbn. intros d H E. subst. repeat (destruct H as [H|H]; [discriminate|]). destruct H. Qed.

Lemma debug_end c c' : (debug c ++ " . ")%string = (debug c' ++ " . ")%string -> c = c'.
Proof. intros E. apply split_at in E as [E _]; auto; now apply debug_plain. Qed.
Lemma pre_inj first c c' : (sign_text first c ++ factor_text debug c)%string = (sign_text first c' ++ factor_text debug c')%string -> c = c'.
Proof.
  unfold sign_text, factor_text. intros E.
  destruct (Z.eqb_spec (toZ c) (modulus P - 1)) as [N|N], (Z.eqb_spec (toZ c') (modulus P - 1)) as [N'|N'].
  - apply toZ_inj. congruence.
  - exfalso. rewrite orb_true_r in E. destruct first; [|discriminate]. destruct (Z.eqb_spec (toZ c') 1); [discriminate|]. cbn [orb] in E.
    destruct (2 ^ _ =? _)%Z; [discriminate|]. cbn [append] in E. pose proof (proj1 (debug_plain c')) as L.
    destruct (debug c') as [|x d]; cbn in E, L; [discriminate|]. injection E as <- _. now destruct L.
  - exfalso. rewrite orb_true_r in E. destruct first; [|discriminate]. destruct (Z.eqb_spec (toZ c) 1); [discriminate|]. cbn [orb] in E.
    destruct (2 ^ _ =? _)%Z; [discriminate|]. cbn [append] in E. pose proof (proj1 (debug_plain c)) as L.
    destruct (debug c) as [|x d]; cbn in E, L; [discriminate|]. injection E as -> _. now destruct L.
  - rewrite !orb_false_r in E. apply sapp_inj_l in E.
    assert (NE : forall a (d : string), (a ++ d ++ " . ")%string <> "") by (intros [|? ?] [|? ?]; discriminate).
    destruct (Z.eqb_spec (toZ c) 1) as [O|O], (Z.eqb_spec (toZ c') 1) as [O'|O'].
    + apply toZ_inj. congruence.
    + symmetry in E. now apply NE in E.
    + now apply NE in E.
    + destruct (2 ^ Z.log2 (toZ c) =? toZ c)%Z, (2 ^ Z.log2 (toZ c') =? toZ c')%Z.
      * rewrite !sapp_assoc in E. apply sapp_inj_l in E. cbn [append] in E. apply split_at in E as [_ E]; auto using decimal_space.
        injection E as E. now apply debug_end.
      * exfalso. cbn [append] in E. change (debug c' ++ " . ")%string with (debug c' ++ String " " ". ")%string in E.
        rewrite sapp_assoc in E. change (String "2" (String "^" (decimal (Z.to_nat (Z.log2 (toZ c))) ++ " . " ++ debug c ++ " . ")))%string
          with (String "2" (String "^" (decimal (Z.to_nat (Z.log2 (toZ c))))) ++ String " " (". " ++ debug c ++ " . "))%string in E.
        apply split_at in E as [_ E]; [|cbn; split; [discriminate|split; [discriminate|apply decimal_space]]|apply debug_plain].
        injection E as E. exact (NE ""%string (debug c) E).
      * exfalso. symmetry in E. cbn [append] in E. change (debug c ++ " . ")%string with (debug c ++ String " " ". ")%string in E.
        rewrite sapp_assoc in E. change (String "2" (String "^" (decimal (Z.to_nat (Z.log2 (toZ c'))) ++ " . " ++ debug c' ++ " . ")))%string
          with (String "2" (String "^" (decimal (Z.to_nat (Z.log2 (toZ c'))))) ++ String " " (". " ++ debug c' ++ " . "))%string in E.
        apply split_at in E as [_ E]; [|cbn; split; [discriminate|split; [discriminate|apply decimal_space]]|apply debug_plain].
        injection E as E. exact (NE ""%string (debug c') E).
      * now apply debug_end.
Qed.
Lemma pre_lacks first c : lacks "`" (sign_text first c ++ factor_text debug c).
Proof.
  unfold sign_text, factor_text. apply lacks_app. split.
  - destruct (_ =? _)%Z, first; cbn; repeat split; discriminate.
  - destruct (_ || _); [exact I|]. rewrite !lacks_app. split; [destruct (_ =? _)%Z; [rewrite !lacks_app|exact I]|split; [apply debug_plain|]].
    + split; [cbn; repeat split; discriminate|]. split; [apply decimal_tick|cbn; repeat split; discriminate].
    + cbn; repeat split; discriminate.
Qed.

Variables st st' : TState P.
Hypothesis names : forall v, lacks "`" (name_of st v).
Hypothesis names' : forall v, lacks "`" (name_of st' v).
Definition by_name (st : TState P) (t : Var * P) : string * P := (name_of st (fst t), snd t).

Lemma term_inj first t t' r r' : (tt_text st first t ++ r)%string = (tt_text st' first t' ++ r')%string -> by_name st t = by_name st' t' /\ r = r'.
Proof.
  unfold tt_text, by_name. destruct t as [v c], t' as [v' c']. cbn [fst snd]. intros E.
  assert (A : forall (st : TState P) first v c r, ((sign_text first c ++ factor_text debug c ++ "`" ++ name_of st v ++ "`") ++ r)%string =
    ((sign_text first c ++ factor_text debug c) ++ String "`" (name_of st v ++ String "`" r))%string).
  { intros. rewrite !sapp_assoc. reflexivity. }
  rewrite !A in E. apply split_at in E as [E1 E]; auto using pre_lacks. apply split_at in E as [E2 E]; auto. apply pre_inj in E1. subst. split; congruence.
Qed.
Lemma tail_inj m : forall m' r r', (cat (map (tt_text st false) m) ++ ")" ++ r)%string = (cat (map (tt_text st' false) m') ++ ")" ++ r')%string ->
  map (by_name st) m = map (by_name st') m' /\ r = r'.
Proof.
  assert (S : forall (st : TState P) t r r', (")" ++ r)%string <> (tt_text st false t ++ r')%string).
  { intros s t r r'. unfold tt_text, sign_text. destruct (_ =? _)%Z; discriminate. }
  induction m as [|t m IH]; intros [|t' m'] r r' E; cbn [map cat] in E |- *.
  - injection E as ->. auto.
  - rewrite sapp_assoc in E. now apply S in E.
  - rewrite sapp_assoc in E. symmetry in E. now apply S in E.
  - rewrite !sapp_assoc in E. apply term_inj in E as [-> E]. apply IH in E as [-> ->]. auto.
Qed.
Lemma zero_first s t r r' : ("0)" ++ r)%string <> (tt_text s true t ++ r')%string.
Proof.
  unfold tt_text, sign_text, factor_text. destruct (toZ (snd t) =? modulus P - 1)%Z; [discriminate|]. rewrite orb_false_r.
  destruct (toZ (snd t) =? 1)%Z; [discriminate|]. destruct (_ =? _)%Z; [discriminate|]. cbn [append].
  pose proof (proj1 (proj2 (debug_plain (snd t)))) as L. destruct (debug (snd t)) as [|x [|y d]]; cbn; try discriminate.
  intros E. injection E as _ <- _. cbn in L. tauto.
Qed.
Lemma braces_inj m m' r r' : (braces st m ++ r)%string = (braces st' m' ++ r')%string -> map (by_name st) m = map (by_name st') m' /\ r = r'.
Proof.
  unfold braces. rewrite !sapp_assoc. intros E. apply sapp_inj_l in E. destruct m as [|t m], m' as [|t' m'].
  - injection E as ->. auto.
  - exfalso. unfold terms_text in E. rewrite sapp_assoc in E. revert E. apply zero_first.
  - exfalso. unfold terms_text in E. rewrite sapp_assoc in E. symmetry in E. revert E. apply zero_first.
  - unfold terms_text in E. rewrite !sapp_assoc in E. apply term_inj in E as [E1 E]. apply tail_inj in E as [E2 E]. cbn [map]. now rewrite E1, E2.
Qed.
End Read.
End Pretty.
