(** Lemmas about the model of TestConstraintSystem. *)
From Coq Require Import String Ascii.
From Coq Require Import ZArith List Bool Lia.
From Verif Require Import Prelude PrimeField Circuit Blake2sSpec TestCS.
Import ListNotations.
Local Open Scope nat_scope.

Section Proofs.
Context {P : PrimeField}.
Local Open Scope F_scope.
Add Field PFfield_tcs : (F_field P).
Notation T := (TState P).

(** What a state records, without the names. *)
Definition pstate (s : T) : PState P :=
  {| p_inputs := map fst (t_inputs s); p_aux := map fst (t_aux s); p_cons := map fst (t_cons s) |}.

Definition in_range (s : T) (l : LC P) : Prop := Forall (fun t => entry s (fst t) <> None) l.
Definition c_in_range (s : T) (c : Constraint P) : Prop :=
  let '(a, b, d) := c in in_range s a /\ in_range s b /\ in_range s d.

Lemma entry_asg s v e : entry s v = Some e -> asg (pstate s) v = fst e.
Proof.
  destruct v as [i|i]; cbn; intros H; rewrite (nth_error_nth (map fst _) i 0 (x := fst e)); auto;
    now apply map_nth_error.
Qed.

Lemma eval_fold_acc s l : forall acc,
  in_range s l ->
  fold_left (fun acc t => obind acc (fun acc =>
    match entry s (fst t) with Some e => Done (acc + fst e * snd t) | None => Panicked end)) l (Done acc)
  = Done (acc + eval (asg (pstate s)) l).
Proof.
  induction l as [|[v c] l IH]; intros acc H.
  - cbn. f_equal. ring.
  - inversion H; subst. cbn [fold_left obind fst snd] in *.
    destruct (entry s v) as [e|] eqn:E; [|congruence].
    rewrite IH by auto. rewrite eval_cons, (entry_asg _ _ _ E). f_equal. ring.
Qed.
Lemma fold_panicked s l : fold_left (fun acc t => obind acc (fun acc =>
    match entry s (fst t) with Some e => Done (acc + fst e * snd t) | None => Panicked end)) l Panicked = @Panicked P.
Proof. induction l; cbn; auto. Qed.
Lemma eval_fold_bad s l : forall acc, ~ in_range s l ->
  fold_left (fun acc t => obind acc (fun acc =>
    match entry s (fst t) with Some e => Done (acc + fst e * snd t) | None => Panicked end)) l acc = @Panicked P.
Proof.
  induction l as [|[v c] l IH]; intros acc H.
  - exfalso. apply H. constructor.
  - cbn [fold_left fst snd]. destruct acc as [acc|]; cbn [obind]; [|apply fold_panicked].
    destruct (entry s v) as [e|] eqn:E; [|apply fold_panicked].
    apply IH. intros HH. apply H. constructor; [cbn; congruence|assumption].
Qed.

Lemma in_range_dec s l : in_range s l \/ ~ in_range s l.
Proof.
  induction l as [|[v c] l IH]; [left; constructor|].
  destruct (entry s v) eqn:E.
  - destruct IH as [H|H]; [left|right].
    + constructor; [cbn; congruence|assumption].
    + intros HH. inversion HH; auto.
  - right. intros HH. inversion HH; subst. cbn in *; congruence.
Qed.

Lemma eval_lc_ok s l : in_range s l -> eval_lc s l = Done (eval (asg (pstate s)) l).
Proof. intros H. unfold eval_lc. rewrite eval_fold_acc by auto. f_equal. ring. Qed.
Lemma eval_lc_bad s l : ~ in_range s l -> eval_lc s l = Panicked.
Proof. apply eval_fold_bad. Qed.
Lemma eval_lc_inv s l x : eval_lc s l = Done x -> in_range s l /\ x = eval (asg (pstate s)) l.
Proof.
  intros H. destruct (in_range_dec s l) as [R|R].
  - rewrite eval_lc_ok in H by auto. split; congruence.
  - rewrite eval_lc_bad in H by auto. discriminate.
Qed.

Lemma first_unsat_none s cs : first_unsatisfied s cs = Done None <->
  Forall (fun c => c_in_range s (fst c) /\ holds (asg (pstate s)) (fst c)) cs.
Proof.
  induction cs as [|[[[a b] d] path] cs IH].
  - split; constructor.
  - cbn [first_unsatisfied]. split.
    + destruct (eval_lc s a) as [x|] eqn:Ea; [|discriminate].
      destruct (eval_lc s b) as [y|] eqn:Eb; [|discriminate].
      destruct (eval_lc s d) as [z|] eqn:Ed; [|discriminate].
      cbn [obind]. destruct (feqb (x * y) z) eqn:E; [|discriminate].
      apply feqb_eq in E. apply eval_lc_inv in Ea, Eb, Ed. destruct Ea, Eb, Ed. subst.
      intros H'. constructor; [|now apply IH]. cbn. auto.
    + intros H. inversion H as [|c l H1 H2]; subst. destruct H1 as [H1 H3]. cbn in H1. destruct H1 as (H1 & H1' & H1''). cbn in H3.
      rewrite !eval_lc_ok by auto. cbn [obind].
      rewrite (proj2 (feqb_eq _ _ _) H3). now apply IH.
Qed.

Lemma first_unsat_some s cs path : first_unsatisfied s cs = Done (Some path) <->
  exists pre c post, cs = pre ++ (c, path) :: post /\
    Forall (fun c => c_in_range s (fst c) /\ holds (asg (pstate s)) (fst c)) pre /\
    c_in_range s c /\ ~ holds (asg (pstate s)) c.
Proof.
  induction cs as [|[[[a b] d] p] cs IH].
  - split; [discriminate|]. intros (pre & c & post & H & _). now destruct pre.
  - cbn [first_unsatisfied]. split.
    + destruct (eval_lc s a) as [x|] eqn:Ea; [|discriminate].
      destruct (eval_lc s b) as [y|] eqn:Eb; [|discriminate].
      destruct (eval_lc s d) as [z|] eqn:Ed; [|discriminate].
      cbn [obind]. apply eval_lc_inv in Ea, Eb, Ed. destruct Ea, Eb, Ed. subst.
      destruct (feqb _ _) eqn:E; intros H'.
      * apply feqb_eq in E. apply IH in H'. destruct H' as (pre & c & post & -> & ? & ? & ?).
        exists ((a, b, d, p) :: pre), c, post. repeat split; auto. constructor; auto. cbn. auto.
      * injection H' as ->. exists [], (a, b, d), cs. repeat split; auto. cbn. intros HH.
        apply feqb_eq in HH. congruence.
    + intros (pre & c & post & H & Hp & Hc & Hn). destruct pre as [|q pre]; cbn in H; inversion H; subst; clear H.
      * destruct Hc as (H1 & H1' & H1''). rewrite !eval_lc_ok by auto. cbn [obind].
        destruct (feqb _ _) eqn:E; auto. apply feqb_eq in E. now destruct Hn.
      * inversion Hp as [|c0 l H1 H2]; subst. destruct H1 as [H1 H3]. cbn in H1. destruct H1 as (H1 & H1' & H1''). cbn in H3.
        rewrite !eval_lc_ok by auto. cbn [obind]. rewrite (proj2 (feqb_eq _ _ _) H3). apply IH. eauto 10.
Qed.

Lemma first_unsat_total s cs : Forall (c_in_range s) (map fst cs) -> first_unsatisfied s cs <> Panicked.
Proof.
  induction cs as [|[[[a b] d] p] cs IH]; [discriminate|].
  intros H. inversion H as [|? ? H1 H4]; subst. cbn in H1. destruct H1 as (H1 & H2 & H3). cbn [first_unsatisfied].
  rewrite !eval_lc_ok by auto. cbn [obind]. destruct (feqb _ _); [auto|discriminate].
Qed.

(** ** Paths *)
Lemma append_assoc (a b c : string) : ((a ++ b) ++ c = a ++ (b ++ c))%string.
Proof. induction a; cbn; congruence. Qed.
Lemma append_nil_r (a : string) : (a ++ "" = a)%string.
Proof. induction a; cbn; congruence. Qed.
Lemma path_fold l : forall acc, fst (fold_left path_step l (acc, true)) =
  (acc ++ fold_right (fun n r => String "/" n ++ r) "" l)%string.
Proof.
  induction l as [|n l IH]; intros acc; cbn [fold_left path_step].
  - cbn. now rewrite append_nil_r.
  - rewrite IH. cbn [fold_right]. rewrite !append_assoc. reflexivity.
Qed.
Lemma concat_fold n l : String.concat "/" (n :: l) = (n ++ fold_right (fun n r => String "/" n ++ r) "" l)%string.
Proof.
  revert n. induction l as [|m l IH]; intros n.
  - cbn. now rewrite append_nil_r.
  - change (String.concat "/" (n :: m :: l)) with (n ++ "/" ++ String.concat "/" (m :: l))%string.
    rewrite IH. reflexivity.
Qed.
Lemma compute_path_spec nss n : has_slash n = false -> compute_path nss n = Done (String.concat "/" (nss ++ [n])).
Proof.
  intros H. unfold compute_path. rewrite H. f_equal.
  assert (E : exists m l, nss ++ [n] = m :: l) by (destruct nss; cbn; eauto).
  destruct E as (m & l & ->). cbn [fold_left path_step]. rewrite path_fold, concat_fold. reflexivity.
Qed.

Lemma has_slash_app a b : has_slash (a ++ b) = has_slash a || has_slash b.
Proof. induction a as [|c a IH]; cbn; auto. destruct (Ascii.eqb c "/"); auto. Qed.

(** splitting at the first separator is unique *)
Lemma split_slash a : forall b r r', has_slash a = false -> has_slash b = false ->
  (a ++ String "/" r = b ++ String "/" r')%string -> a = b /\ r = r'.
Proof.
  induction a as [|c a IH]; intros [|d b] r r' Ha Hb; cbn in *; intros H; inversion H; subst; auto.
  - rewrite Ascii.eqb_refl in Hb. discriminate.
  - rewrite Ascii.eqb_refl in Ha. discriminate.
  - destruct (Ascii.eqb d "/"); [discriminate|]. destruct (IH b r r'); auto. now subst.
Qed.
Lemma concat_slash_inj l : forall m, l <> [] -> m <> [] ->
  Forall (fun n => has_slash n = false) l -> Forall (fun n => has_slash n = false) m ->
  String.concat "/" l = String.concat "/" m -> l = m.
Proof.
  induction l as [|a l IH]; intros [|b m] Hl Hm Fl Fm; try congruence.
  inversion Fl as [|? ? Ha Fl']; inversion Fm as [|? ? Hb Fm']; subst. intros H.
  destruct l as [|a' l], m as [|b' m].
  - cbn in H. now subst.
  - change (String.concat "/" (b :: b' :: m)) with (b ++ String "/" (String.concat "/" (b' :: m)))%string in H.
    cbn [String.concat] in H. subst. rewrite has_slash_app in Ha. cbn in Ha. rewrite orb_true_r in Ha. discriminate.
  - change (String.concat "/" (a :: a' :: l)) with (a ++ String "/" (String.concat "/" (a' :: l)))%string in H.
    cbn [String.concat] in H. subst. rewrite has_slash_app in Hb. cbn in Hb. rewrite orb_true_r in Hb. discriminate.
  - change (String.concat "/" (b :: b' :: m)) with (b ++ String "/" (String.concat "/" (b' :: m)))%string in H.
    change (String.concat "/" (a :: a' :: l)) with (a ++ String "/" (String.concat "/" (a' :: l)))%string in H.
    apply split_slash in H; auto. destruct H as [-> H]. f_equal. apply IH; auto; discriminate.
Qed.

(** ** Invariant *)
Record Inv (s : T) : Prop := {
  i_var : forall path v, find_obj path (t_objs s) = Some (OVar v) -> exists x, entry s v = Some (x, path);
  i_named : forall v x path, entry s v = Some (x, path) -> find_obj path (t_objs s) = Some (OVar v);
  i_con : forall path i, find_obj path (t_objs s) = Some (OConstraint i) <-> exists c, nth_error (t_cons s) i = Some (c, path);
  i_one : exists x t, t_inputs s = (x, "ONE"%string) :: t;
  i_ns : Forall (fun n => has_slash n = false) (t_ns s)
}.

Lemma nth_error_snoc {A} (l : list A) i x : nth_error (l ++ [x]) i =
  if Nat.eqb i (List.length l) then Some x else nth_error l i.
Proof.
  destruct (Nat.eqb_spec i (List.length l)) as [->|H].
  - rewrite nth_error_app2, Nat.sub_diag by lia. reflexivity.
  - destruct (Nat.lt_ge_cases i (List.length l)).
    + apply nth_error_app1; lia.
    + transitivity (@None A); [|symmetry]; apply nth_error_None; rewrite ?app_length; cbn; lia.
Qed.
Lemma nth_error_over {A} (l : list A) i : i = List.length l -> nth_error l i = None.
Proof. intros ->. now apply nth_error_None. Qed.

Lemma find_cons path p o l : find_obj path ((p, o) :: l) = if String.eqb path p then Some o else find_obj path l.
Proof. reflexivity. Qed.

Lemma inv_new : Inv (@test_new P).
Proof.
  constructor; cbn.
  - intros path v. destruct (String.eqb_spec path "ONE"); [|discriminate]. intros [= <-]. subst. cbn. eauto.
  - intros [[|[|i]]|[|i]] x path; cbn; try discriminate. now intros [= <- <-].
  - intros path i. destruct (String.eqb_spec path "ONE"); split; try discriminate; intros [c H]; now destruct i.
  - eauto.
  - constructor.
Qed.

Lemma has_slash_done nss n path : compute_path nss n = Done path -> has_slash n = false /\ path = String.concat "/" (nss ++ [n]).
Proof.
  intros H. destruct (has_slash n) eqn:E.
  - unfold compute_path in H. rewrite E in H. discriminate.
  - rewrite compute_path_spec in H by auto. split; congruence.
Qed.

Ltac inv H := inversion H; subst; clear H.

Lemma alloc_inv (s : T) ann f s' r b : t_alloc s ann f = Done (s', r, b) ->
  exists path, compute_path (t_ns s) ann = Done path /\ b = true /\
  ((exists e, f = Err e /\ s' = s /\ r = Err e) \/
   (exists x, f = Ok x /\ find_obj path (t_objs s) = None /\ r = Ok (Aux (List.length (t_aux s))) /\
     s' = mkT ((path, OVar (Aux (List.length (t_aux s)))) :: t_objs s) (t_ns s) (t_cons s) (t_inputs s) (t_aux s ++ [(x, path)]))).
Proof.
  unfold t_alloc. destruct (compute_path _ _) as [path|]; [|discriminate]. cbn [obind]. intros H.
  exists path. destruct f as [x|e].
  - unfold set_named_obj in H. cbn in H. destruct (find_obj path (t_objs s)) eqn:E; [discriminate|].
    cbn in H. inv H. split; auto. split; auto. right. exists x. auto.
  - inv H. split; auto. split; auto. left. exists e. auto.
Qed.
Lemma alloc_input_inv (s : T) ann f s' r b : t_alloc_input s ann f = Done (s', r, b) ->
  exists path, compute_path (t_ns s) ann = Done path /\ b = true /\
  ((exists e, f = Err e /\ s' = s /\ r = Err e) \/
   (exists x, f = Ok x /\ find_obj path (t_objs s) = None /\ r = Ok (Input (List.length (t_inputs s))) /\
     s' = mkT ((path, OVar (Input (List.length (t_inputs s)))) :: t_objs s) (t_ns s) (t_cons s) (t_inputs s ++ [(x, path)]) (t_aux s))).
Proof.
  unfold t_alloc_input. destruct (compute_path _ _) as [path|]; [|discriminate]. cbn [obind]. intros H.
  exists path. destruct f as [x|e].
  - unfold set_named_obj in H. cbn in H. destruct (find_obj path (t_objs s)) eqn:E; [discriminate|].
    cbn in H. inv H. split; auto. split; auto. right. exists x. auto.
  - inv H. split; auto. split; auto. left. exists e. auto.
Qed.
Lemma enforce_inv (s : T) ann a b c s' : t_enforce s ann a b c = Done s' ->
  exists path, compute_path (t_ns s) ann = Done path /\ find_obj path (t_objs s) = None /\
  s' = mkT ((path, OConstraint (List.length (t_cons s))) :: t_objs s) (t_ns s) (t_cons s ++ [(a, b, c, path)]) (t_inputs s) (t_aux s).
Proof.
  unfold t_enforce, set_named_obj. destruct (compute_path _ _) as [path|]; [|discriminate]. cbn [obind].
  destruct (find_obj path (t_objs s)) eqn:E; [discriminate|]. intros H. cbn in H. inv H. eauto.
Qed.
Lemma push_inv (s : T) name s' : t_push s name = Done s' ->
  exists path, compute_path (t_ns s) name = Done path /\ find_obj path (t_objs s) = None /\
  s' = mkT ((path, ONamespace) :: t_objs s) (t_ns s ++ [name]) (t_cons s) (t_inputs s) (t_aux s).
Proof.
  unfold t_push, set_named_obj. destruct (compute_path _ _) as [path|]; [|discriminate]. cbn [obind].
  destruct (find_obj path (t_objs s)) eqn:E; [discriminate|]. intros H. cbn in H. inv H. eauto.
Qed.
Lemma pop_inv (s : T) s' : t_pop s = Done s' ->
  t_ns s <> [] /\ s' = mkT (t_objs s) (removelast (t_ns s)) (t_cons s) (t_inputs s) (t_aux s).
Proof. unfold t_pop. destruct (t_ns s) eqn:E; [discriminate|]. intros H. inv H. split; [discriminate|reflexivity]. Qed.
Lemma set_inv (s : T) path x s' : t_set s path x = Done s' ->
  exists v, find_obj path (t_objs s) = Some (OVar v) /\ set_entry s v x = Done s'.
Proof. unfold t_set. destruct (find_obj _ _) as [[|v|]|]; try discriminate. eauto. Qed.

Lemma nth_error_upd {A} (l : list A) : forall i j x, nth_error (upd i x l) j =
  if Nat.eqb i j then match nth_error l j with Some _ => Some x | None => None end else nth_error l j.
Proof.
  induction l as [|y l IH]; intros i j x.
  - cbn. destruct j, i; cbn; auto; destruct (Nat.eqb _ _); auto.
  - destruct i, j; cbn; auto.
Qed.

Lemma var_eqb_spec v w : reflect (v = w) (var_eqb v w).
Proof.
  destruct v as [i|i], w as [j|j]; cbn; try (constructor; congruence);
    destruct (Nat.eqb_spec i j); constructor; congruence.
Qed.

Lemma set_entry_entry (s : T) v x s' : set_entry s v x = Done s' -> exists y n, entry s v = Some (y, n) /\
  t_objs s' = t_objs s /\ t_ns s' = t_ns s /\ t_cons s' = t_cons s /\
  forall w, entry s' w = if var_eqb v w then Some (x, n) else entry s w.
Proof.
  destruct v as [i|i]; cbn.
  - destruct (nth_error (t_inputs s) i) as [[y n]|] eqn:E; [|discriminate]. intros H. inv H.
    exists y, n. repeat split; auto. intros [j|j]; cbn; auto. rewrite nth_error_upd.
    destruct (Nat.eqb_spec i j); auto. subst. now rewrite E.
  - destruct (nth_error (t_aux s) i) as [[y n]|] eqn:E; [|discriminate]. intros H. inv H.
    exists y, n. repeat split; auto. intros [j|j]; cbn; auto. rewrite nth_error_upd.
    destruct (Nat.eqb_spec i j); auto. subst. now rewrite E.
Qed.

Lemma entry_aux_snoc (s : T) p o x path v :
  entry (mkT ((p, o) :: t_objs s) (t_ns s) (t_cons s) (t_inputs s) (t_aux s ++ [(x, path)])) v =
  if var_eqb v (Aux (List.length (t_aux s))) then Some (x, path) else entry s v.
Proof. destruct v as [i|i]; cbn; auto. apply nth_error_snoc. Qed.
Lemma entry_input_snoc (s : T) p o x path v :
  entry (mkT ((p, o) :: t_objs s) (t_ns s) (t_cons s) (t_inputs s ++ [(x, path)]) (t_aux s)) v =
  if var_eqb v (Input (List.length (t_inputs s))) then Some (x, path) else entry s v.
Proof. destruct v as [i|i]; cbn; auto. apply nth_error_snoc. Qed.
Lemma entry_aux_new (s : T) : entry s (Aux (List.length (t_aux s))) = None.
Proof. cbn. now apply nth_error_over. Qed.
Lemma entry_input_new (s : T) : entry s (Input (List.length (t_inputs s))) = None.
Proof. cbn. now apply nth_error_over. Qed.

(** A new object under a new path. *)
Lemma inv_alloc (s : T) ann f s' r b : Inv s -> t_alloc s ann f = Done (s', r, b) -> Inv s'.
Proof.
  intros [I1 I2 I3 I4 I5] H. apply alloc_inv in H.
  destruct H as (path & Hp & -> & [(e & -> & -> & ->)|(x & -> & Hn & -> & ->)]); [now constructor|].
  constructor; try rewrite find_cons; cbn [t_objs t_cons t_inputs t_ns]; auto.
  - intros q v. rewrite find_cons, entry_aux_snoc. destruct (String.eqb_spec q path) as [->|Hq].
    + intros [= <-]. destruct (var_eqb_spec (Aux (List.length (t_aux s))) (Aux (List.length (t_aux s)))); [eauto|congruence].
    + intros Hf. destruct (I1 _ _ Hf) as [y Hy]. destruct (var_eqb_spec v (Aux (List.length (t_aux s)))) as [->|]; eauto.
      rewrite entry_aux_new in Hy. discriminate.
  - intros v y q. rewrite find_cons, entry_aux_snoc. destruct (var_eqb_spec v (Aux (List.length (t_aux s)))) as [->|Hv].
    + intros [= <- <-]. now rewrite String.eqb_refl.
    + intros Hy. apply I2 in Hy. destruct (String.eqb_spec q path) as [->|]; auto. congruence.
  - intros q i. rewrite find_cons. rewrite <- I3. destruct (String.eqb_spec q path) as [->|]; [|tauto].
    rewrite Hn. split; discriminate.
Qed.
Lemma inv_alloc_input (s : T) ann f s' r b : Inv s -> t_alloc_input s ann f = Done (s', r, b) -> Inv s'.
Proof.
  intros [I1 I2 I3 I4 I5] H. apply alloc_input_inv in H.
  destruct H as (path & Hp & -> & [(e & -> & -> & ->)|(x & -> & Hn & -> & ->)]); [now constructor|].
  constructor; try rewrite find_cons; cbn [t_objs t_cons t_inputs t_ns]; auto.
  - intros q v. rewrite find_cons, entry_input_snoc. destruct (String.eqb_spec q path) as [->|Hq].
    + intros [= <-]. destruct (var_eqb_spec (Input (List.length (t_inputs s))) (Input (List.length (t_inputs s)))); [eauto|congruence].
    + intros Hf. destruct (I1 _ _ Hf) as [y Hy]. destruct (var_eqb_spec v (Input (List.length (t_inputs s)))) as [->|]; eauto.
      rewrite entry_input_new in Hy. discriminate.
  - intros v y q. rewrite find_cons, entry_input_snoc. destruct (var_eqb_spec v (Input (List.length (t_inputs s)))) as [->|Hv].
    + intros [= <- <-]. now rewrite String.eqb_refl.
    + intros Hy. apply I2 in Hy. destruct (String.eqb_spec q path) as [->|]; auto. congruence.
  - intros q i. rewrite find_cons. rewrite <- I3. destruct (String.eqb_spec q path) as [->|]; [|tauto].
    rewrite Hn. split; discriminate.
  - destruct I4 as (y & t & ->). cbn. eauto.
Qed.
Lemma inv_enforce (s : T) ann a b c s' : Inv s -> t_enforce s ann a b c = Done s' -> Inv s'.
Proof.
  intros [I1 I2 I3 I4 I5] H. apply enforce_inv in H. destruct H as (path & Hp & Hn & ->).
  constructor; cbn [t_objs t_cons t_inputs t_ns]; auto.
  - intros q v. rewrite find_cons. destruct (String.eqb_spec q path) as [->|Hq]; [discriminate|]. apply I1.
  - intros v y q Hy. rewrite find_cons. apply I2 in Hy. destruct (String.eqb_spec q path) as [->|]; auto. congruence.
  - intros q i. rewrite find_cons, nth_error_snoc.
    destruct (String.eqb_spec q path) as [->|Hq].
    + split.
      * intros [= <-]. rewrite Nat.eqb_refl. eauto.
      * destruct (Nat.eqb_spec i (List.length (t_cons s))) as [->|]; auto.
        intros Hc. apply I3 in Hc. congruence.
    + rewrite I3. destruct (Nat.eqb_spec i (List.length (t_cons s))) as [->|]; [|tauto]. split; intros [d Hd].
      * rewrite nth_error_over in Hd by auto. discriminate.
      * congruence.
Qed.
Lemma inv_push (s : T) name s' : Inv s -> t_push s name = Done s' -> Inv s'.
Proof.
  intros [I1 I2 I3 I4 I5] H. apply push_inv in H. destruct H as (path & Hp & Hn & ->).
  constructor; cbn [t_objs t_cons t_inputs t_ns]; auto.
  - intros q v. rewrite find_cons. destruct (String.eqb_spec q path) as [->|Hq]; [discriminate|]. apply I1.
  - intros v y q Hy. rewrite find_cons. apply I2 in Hy. destruct (String.eqb_spec q path) as [->|]; auto. congruence.
  - intros q i. rewrite find_cons, <- I3. destruct (String.eqb_spec q path) as [->|]; [|tauto].
    rewrite Hn. split; discriminate.
  - apply Forall_app. split; auto. constructor; auto. now apply has_slash_done in Hp.
Qed.
Lemma inv_pop (s : T) s' : Inv s -> t_pop s = Done s' -> Inv s'.
Proof.
  intros [I1 I2 I3 I4 I5] H. apply pop_inv in H. destruct H as [Hn ->]. constructor; auto.
  cbn [t_ns]. rewrite (app_removelast_last ""%string Hn) in I5. now apply Forall_app in I5.
Qed.
Lemma inv_set (s : T) path x s' : Inv s -> t_set s path x = Done s' -> Inv s'.
Proof.
  intros [I1 I2 I3 I4 I5] H. apply set_inv in H. destruct H as (v & Hf & H).
  pose proof H as H0.
  apply set_entry_entry in H. destruct H as (y & n & He & Ho & Hn & Hc & Hw).
  pose proof (I2 _ _ _ He) as Hv.
  constructor; rewrite ?Ho, ?Hn, ?Hc; auto.
  - intros q w Hq. rewrite Hw. destruct (var_eqb_spec v w) as [<-|]; [|now apply I1].
    destruct (I1 _ _ Hq) as [z Hz]. replace n with q by congruence. eauto.
  - intros w z q. rewrite Hw. destruct (var_eqb_spec v w) as [<-|]; [|now apply I2]. intros [= <- <-]. congruence.
  - destruct I4 as (z & t & E). destruct v as [i|i]; cbn in H0.
    + destruct (nth_error (t_inputs s) i) as [e|] eqn:Ei; [|discriminate]. inv H0. cbn [t_inputs].
      rewrite E in Ei |- *. destruct i; cbn in *; eauto. injection Ei as <-. cbn. eauto.
    + destruct (nth_error (t_aux s) i); [|discriminate]. inv H0. cbn. eauto.
Qed.

Lemma run_ind_inv (R : T -> T -> Prop) :
  (forall s, R s s) -> (forall s1 s2 s3, R s1 s2 -> R s2 s3 -> R s1 s3) ->
  (forall s ann f s' r b, Inv s -> t_alloc s ann f = Done (s', r, b) -> R s s') ->
  (forall s ann f s' r b, Inv s -> t_alloc_input s ann f = Done (s', r, b) -> R s s') ->
  (forall s ann a b c s', Inv s -> t_enforce s ann a b c = Done s' -> R s s') ->
  (forall s n s', Inv s -> t_push s n = Done s' -> R s s') ->
  (forall s s', Inv s -> t_pop s = Done s' -> R s s') ->
  forall A (p : prog P A) s r s', Inv s -> run TestCS p s = Done (r, s') -> Inv s' /\ R s s'.
Proof.
  intros Rr Rt R1 R2 R3 R4 R5 A p.
  induction p as [a| |n f k IH|n f k IH|n a b c k IH|n l r0 k IH|n k IH|k IH]; intros s r s' Hi H; cbn in H; try discriminate.
  - inv H. auto.
  - destruct (t_alloc s n f) as [[[s1 v] b]|] eqn:E; [|discriminate]. cbn in H.
    destruct (IH _ _ _ _ _ (inv_alloc _ _ _ _ _ _ Hi E) H). split; eauto.
  - destruct (t_alloc_input s n f) as [[[s1 v] b]|] eqn:E; [|discriminate]. cbn in H.
    destruct (IH _ _ _ _ _ (inv_alloc_input _ _ _ _ _ _ Hi E) H). split; eauto.
  - destruct (t_enforce s n a b c) as [s1|] eqn:E; [|discriminate]. cbn in H.
    destruct (IH _ _ _ (inv_enforce _ _ _ _ _ _ Hi E) H). split; eauto.
  - destruct (t_push s n) as [s1|] eqn:E; [|discriminate]. cbn in H.
    destruct (IH _ _ _ (inv_push _ _ _ Hi E) H). split; eauto.
  - destruct (t_pop s) as [s1|] eqn:E; [|discriminate]. cbn in H.
    destruct (IH _ _ _ (inv_pop _ _ Hi E) H). split; eauto.
Qed.

(** ** The recorded values and constraints are those of an honest prover *)
Lemma run_honest {A} (p : prog P A) : forall s r s', run TestCS p s = Done (r, s') ->
  run (HonestCS P) p (pstate s) = Done (r, pstate s').
Proof.
  induction p as [a| |n f k IH|n f k IH|n a b c k IH|n l r0 k IH|n k IH|k IH]; intros s r s' H; cbn in H; try discriminate.
  - inv H. reflexivity.
  - destruct (t_alloc s n f) as [[[s1 v] b]|] eqn:E; [|discriminate]. cbn in H. cbn [run obind].
    apply alloc_inv in E. destruct E as (path & _ & -> & [(e & -> & -> & ->)|(x & -> & _ & -> & ->)]); cbn.
    + now apply IH.
    + apply IH in H. unfold pstate in *. cbn in H |- *. rewrite map_app, map_length in *. exact H.
  - destruct (t_alloc_input s n f) as [[[s1 v] b]|] eqn:E; [|discriminate]. cbn in H. cbn [run obind].
    apply alloc_input_inv in E. destruct E as (path & _ & -> & [(e & -> & -> & ->)|(x & -> & _ & -> & ->)]); cbn.
    + now apply IH.
    + apply IH in H. unfold pstate in *. cbn in H |- *. rewrite map_app, map_length in *. exact H.
  - destruct (t_enforce s n a b c) as [s1|] eqn:E; [|discriminate]. cbn in H |- *.
    apply enforce_inv in E. destruct E as (path & _ & _ & ->).
    apply IH in H. unfold pstate in *. cbn in H |- *. rewrite map_app in *. exact H.
  - destruct (t_push s n) as [s1|] eqn:E; [|discriminate]. cbn in H |- *.
    apply push_inv in E. destruct E as (path & _ & _ & ->). now apply IH in H.
  - destruct (t_pop s) as [s1|] eqn:E; [|discriminate]. cbn in H |- *.
    apply pop_inv in E. destruct E as (_ & ->). now apply IH in H.
Qed.

(** ** Namespaces *)
Lemma removelast_snoc {A} (l : list A) x : removelast (l ++ [x]) = l.
Proof. rewrite removelast_app by discriminate. apply app_nil_r. Qed.

Lemma ns_run {A} (p : prog P A) : forall s r s' st0 ext, t_ns s = st0 ++ ext -> ns_ok (List.length ext) p ->
  run TestCS p s = Done (r, s') -> t_ns s' = st0.
Proof.
  induction p as [a| |n f k IH|n f k IH|n a b c k IH|n l r0 k IH|n k IH|k IH]; intros s r s' st0 ext Hs Hok H; cbn in H, Hok; try discriminate.
  - inv H. destruct ext; [|discriminate]. now rewrite app_nil_r in Hs.
  - destruct (t_alloc s n f) as [[[s1 v] b]|] eqn:E; [|discriminate]. cbn in H.
    eapply IH; [|apply Hok|eassumption].
    apply alloc_inv in E. destruct E as (path & _ & -> & [(e & -> & -> & ->)|(x & -> & _ & -> & ->)]); auto.
  - destruct (t_alloc_input s n f) as [[[s1 v] b]|] eqn:E; [|discriminate]. cbn in H.
    eapply IH; [|apply Hok|eassumption].
    apply alloc_input_inv in E. destruct E as (path & _ & -> & [(e & -> & -> & ->)|(x & -> & _ & -> & ->)]); auto.
  - destruct (t_enforce s n a b c) as [s1|] eqn:E; [|discriminate]. cbn in H.
    eapply IH; [|apply Hok|eassumption]. apply enforce_inv in E. destruct E as (path & _ & _ & ->). auto.
  - destruct (t_push s n) as [s1|] eqn:E; [|discriminate]. cbn in H.
    eapply (IH _ _ _ _ (ext ++ [n])); [|rewrite app_length, Nat.add_1_r; apply Hok|eassumption].
    apply push_inv in E. destruct E as (path & _ & _ & ->). cbn [t_ns]. now rewrite Hs, app_assoc.
  - destruct (t_pop s) as [s1|] eqn:E; [|discriminate]. cbn in H.
    destruct (List.length ext) as [|d] eqn:El; [easy|].
    destruct ext as [|e0 ext0] using rev_ind; [discriminate|]. clear IHext0.
    rewrite app_length, Nat.add_1_r in El. injection El as El.
    eapply (IH _ _ _ _ ext0); [|rewrite El; apply Hok|eassumption].
    apply pop_inv in E. destruct E as [_ ->]. cbn [t_ns]. now rewrite Hs, app_assoc, removelast_snoc.
Qed.

(** Without its namespaces *)
Fixpoint strip_ns {A} (p : prog P A) : prog P A :=
  match p with
  | Ret a => Ret a
  | Panic => Panic
  | Alloc n f k => Alloc n f (fun r b => strip_ns (k r b))
  | AllocInput n f k => AllocInput n f (fun r b => strip_ns (k r b))
  | Enforce n a b c k => Enforce n a b c (strip_ns k)
  | EnforceEq n l r k => EnforceEq n l r (strip_ns k)
  | PushNs _ k => strip_ns k
  | PopNs k => strip_ns k
  end.

Lemma strip_run (M : Machine P) {A} (p : prog P A) : (forall s n, m_push M s n = Done s) -> (forall s, m_pop M s = Done s) ->
  forall s, run M (strip_ns p) s = run M p s.
Proof.
  intros H1 H2. induction p; intros s; cbn; rewrite ?H1, ?H2; cbn; auto.
  - destruct (m_alloc _ _ _ _); cbn; auto.
  - destruct (m_alloc_input _ _ _ _); cbn; auto.
  - destruct (m_enforce _ _ _ _ _ _); cbn; auto.
Qed.

End Proofs.
