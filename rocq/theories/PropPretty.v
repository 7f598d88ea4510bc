(** Property theorem C69: [TestConstraintSystem::pretty_print] (src/gadgets/test/mod.rs:166-227). *)
From Coq Require Import String Ascii DecimalString DecimalN.
From Coq Require Import ZArith List Bool Lia.
From Verif Require Import Prelude PrimeField Fields Circuit TestCS TestCSProof TestHash PropHash PropTestCS PrettyPrint PrettySpec PrettyProof.
Import ListNotations.
Local Open Scope nat_scope.
Local Open Scope string_scope.

(** * C69 *)
(** If variables that do not exist do not occur, or cancel, the text is [system_text]: each constraint with the variables in order and their total
    coefficients. *)
Theorem C69_text (P : PrimeField) (debug : P -> string) (s : TState P) :
  (forall lc v, In lc (lcs_of s) -> total v lc <> fzero -> entry s v <> None) -> pretty_print debug s = Done (system_text debug s).
Proof.
  intros H. unfold pretty_print, system_text. destruct (pp_constraints_text debug s (t_cons s) "") as [A _]. rewrite A.
  - cbn [obind append]. now rewrite concat_cat.
  - rewrite dangles_flat. intros (lc & Hi & v & Hv & He). now apply (H lc v).
Qed.
Print Assumptions C69_text.

(** Otherwise it panics. *)
Theorem C69_panics (P : PrimeField) (debug : P -> string) (s : TState P) :
  pretty_print debug s = Panicked <-> exists lc v, In lc (lcs_of s) /\ total v lc <> fzero /\ entry s v = None.
Proof.
  split.
  - intros E. destruct (pp_constraints_text debug s (t_cons s) "") as [A _]. unfold pretty_print in E.
    assert (D : Exists (con_dangles s) (t_cons s) \/ ~ Exists (con_dangles s) (t_cons s)).
    { destruct (Exists_dec (con_dangles s) (t_cons s)); auto. intros [[[x y] z] n]. unfold con_dangles.
      assert (K : forall l, {dangling s l} + {~ dangling s l}).
      { intros l. destruct (Forall_dec (fun t : Var * P => entry s (fst t) <> None) (fun t => entry_dec s (fst t)) (proc_lc l)).
        - right. intros X. apply (proj1 (dangling_iff debug s l)) in X. contradiction.
        - left. now apply (dangling_iff debug). }
      destruct (K x), (K y), (K z); tauto. }
    destruct D as [D|D]; [|rewrite A in E by auto; discriminate]. apply dangles_flat in D as (lc & Hi & v & H). exists lc, v. tauto.
  - intros (lc & v & Hi & Hv). unfold pretty_print. destruct (pp_constraints_text debug s (t_cons s) "") as [_ B]. rewrite B; [reflexivity|].
    apply dangles_flat. exists lc. split; auto. exists v. auto.
Qed.
Print Assumptions C69_panics.

(** Systems with the same names of variables and constraints, and constraints that are the same functions, have the same text (or both panic). *)
Definition same_names {P : PrimeField} (s s' : TState P) : Prop :=
  map snd (t_inputs s) = map snd (t_inputs s') /\ map snd (t_aux s) = map snd (t_aux s') /\ map snd (t_cons s) = map snd (t_cons s').
Lemma same_name_of {P : PrimeField} (s s' : TState P) v : map snd (t_inputs s) = map snd (t_inputs s') -> map snd (t_aux s) = map snd (t_aux s') ->
  name_of s v = name_of s' v /\ (entry s v = None <-> entry s' v = None).
Proof.
  intros H1 H2. assert (K : forall (l l' : list (P * string)) i, map snd l = map snd l' ->
    match nth_error l i with Some e => snd e | None => "" end = match nth_error l' i with Some e => snd e | None => "" end /\ (nth_error l i = None <-> nth_error l' i = None)).
  { induction l as [|a l IH]; intros [|b l'] [|i] E; cbn in *; try discriminate; try tauto.
    - injection E as -> _. split; auto. split; discriminate.
    - injection E as _ E. now apply IH. }
  unfold name_of. destruct v as [i|i]; cbn [entry]; auto.
Qed.
Theorem C69_depends_only (P : PrimeField) (debug : P -> string) (s s' : TState P) :
  same_names s s' -> same_system s s' -> pretty_print debug s = pretty_print debug s'.
Proof.
  intros (N1 & N2 & N3) (_ & _ & HC).
  assert (L : forall ts str first, pp_loop debug s str first ts = pp_loop debug s' str first ts).
  { induction ts as [|[v c] ts IH]; intros str first; cbn [pp_loop]; auto.
    destruct (same_name_of s s' v N1 N2) as [E1 E2]. unfold pp_step, name_of in *.
    destruct (entry s v) as [e|], (entry s' v) as [e'|]; cbn [obind] in *.
    - rewrite E1. apply IH.
    - assert (X : Some e = None) by now apply E2. discriminate.
    - assert (X : Some e' = None) by now apply E2. discriminate.
    - reflexivity. }
  assert (K : forall str l l', same_lc l l' -> pp debug s str l = pp debug s' str l').
  { intros str l l' H. apply proc_canonical in H. unfold pp. now rewrite H, L. }
  unfold pretty_print. f_equal. generalize "". revert N3. induction HC as [|c c' cs cs' H HC IH]; intros N str; cbn [pp_constraints]; auto.
  destruct c as [[[x y] z] n], c' as [[[x' y'] z'] n']. cbn [map snd] in N. injection N as <- N. destruct H as (Hx & Hy & Hz). cbn [pp_constraint].
  rewrite (K _ x x' Hx). destruct (pp debug s' _ x') as [str1|]; cbn [obind]; auto.
  rewrite (K _ y y' Hy). destruct (pp debug s' _ y') as [str2|]; cbn [obind]; auto.
  rewrite (K _ z z' Hz). destruct (pp debug s' _ z') as [str3|]; cbn [obind]; auto.
Qed.
Print Assumptions C69_depends_only.

(** Conversely the text determines the names of the constraints and the constraints as functions: for systems with the same variables, provided that
    no constraint is called something with an opening parenthesis and no variable something with a backquote, and that scalars are shown injectively
    without blanks, closing parentheses and backquotes. *)
Theorem C69_faithful (P : PrimeField) (debug : P -> string) (s s' : TState P) (text : string) : Reach s ->
  (forall c c', debug c = debug c' -> c = c') -> (forall c, lacks " " (debug c) /\ lacks ")" (debug c) /\ lacks "`" (debug c)) ->
  map snd (t_inputs s) = map snd (t_inputs s') -> map snd (t_aux s) = map snd (t_aux s') ->
  Forall (lacks "`") (map snd (t_inputs s) ++ map snd (t_aux s)) ->
  Forall (lacks "(") (map snd (t_cons s)) -> Forall (lacks "(") (map snd (t_cons s')) ->
  pretty_print debug s = Done text -> pretty_print debug s' = Done text ->
  same_names s s' /\ same_system s s'.
Proof.
  intros R DI DP N1 N2 NV NC NC' E E'.
  assert (T : forall s, pretty_print debug s = Done text -> ~ Exists (con_dangles s) (t_cons s) /\ text = cat (map (constraint_text debug s) (t_cons s)) ++ newline).
  { clear. intros s E. assert (D : ~ Exists (con_dangles s) (t_cons s)).
    { intros D. apply dangles_flat in D as (lc & Hi & v & Hv). assert (X : pretty_print debug s = Panicked) by (apply C69_panics; exists lc, v; tauto). congruence. }
    split; auto. unfold pretty_print in E. rewrite (proj1 (pp_constraints_text debug s (t_cons s) "") D) in E. cbn [obind] in E. injection E as <-. reflexivity. }
  destruct (T s E) as [D ->], (T s' E') as [D' ET]. clear T E E'.
  assert (NM : forall v, name_of s v = name_of s' v) by (intros v; now apply same_name_of).
  assert (LV : forall v, lacks "`" (name_of s v)).
  { rewrite Forall_forall in NV. intros v. unfold name_of. destruct (entry s v) as [e|] eqn:Ee; [|exact I]. apply NV, in_app_iff.
    destruct v as [i|i]; apply nth_error_In, (in_map snd) in Ee; auto. }
  assert (LV' : forall v, lacks "`" (name_of s' v)) by (intros v; rewrite <- NM; auto).
  assert (NI : forall v w, entry s v <> None -> entry s w <> None -> name_of s v = name_of s w -> v = w).
  { intros v w Hv Hw Hn. unfold name_of in Hn. destruct (entry s v) as [e|] eqn:Ev; [|congruence]. destruct (entry s w) as [e'|] eqn:Ew; [|congruence].
    destruct (C03_one_path_each P s R v e Ev) as [F _]. destruct (C03_one_path_each P s R w e' Ew) as [F' _]. rewrite Hn in F. rewrite F in F'. congruence. }
  assert (BI : forall l l' r r', ~ dangling s l -> ~ dangling s' l' -> lc_text debug s l ++ r = lc_text debug s' l' ++ r' -> same_lc l l' /\ r = r').
  { intros l l' r r' Hl Hl' EB. rewrite <- !braces_text in EB by auto. apply braces_inj in EB as [EB Er]; auto. split; [|exact Er].
    refine (proj1 (proc_canonical l l') _).
    assert (Fl : Forall (fun t => entry s (fst t) <> None) (proc_lc l)).
    { rewrite (dangling_iff debug) in Hl. destruct (Forall_dec (fun t : Var * P => entry s (fst t) <> None) (fun t => entry_dec s (fst t)) (proc_lc l)); tauto. }
    assert (Fl' : Forall (fun t => entry s' (fst t) <> None) (proc_lc l')).
    { rewrite (dangling_iff debug) in Hl'. destruct (Forall_dec (fun t : Var * P => entry s' (fst t) <> None) (fun t => entry_dec s' (fst t)) (proc_lc l')); tauto. }
    revert EB Fl Fl'. generalize (proc_lc l) (proc_lc l'). induction l0 as [|[v c] m IH]; intros [|[v' c'] m'] EB F F'; cbn [map] in EB; try discriminate; auto.
    unfold by_name in EB at 1 3. cbn [fst snd] in EB. injection EB as En Ec EB. inversion_clear F as [|? ? F1 F2]. inversion_clear F' as [|? ? F1' F2'].
    cbn [fst] in F1, F1'. rewrite <- NM in En. f_equal; [|now apply IH]. f_equal; auto. apply NI; auto.
    intros X. apply F1'. now apply (same_name_of s s' v' N1 N2). }
  enough (K : map snd (t_cons s) = map snd (t_cons s') /\ Forall2 same_constraint (t_cons s) (t_cons s')).
  { destruct K as [K1 K2]. split; [repeat split; auto|]. split; [|split; auto].
    - apply (f_equal (@List.length string)) in N1. now rewrite !map_length in N1.
    - apply (f_equal (@List.length string)) in N2. now rewrite !map_length in N2. }
  revert D D' NC NC' ET. generalize (t_cons s) (t_cons s').
  assert (HN : forall c (t : TState P) r, exists x r', constraint_text debug t c ++ r = newline ++ String x r').
  { intros [[[x y] z] n] t r. cbn [constraint_text]. change eol with newline. rewrite !sapp_assoc. destruct n as [|a n]; cbn; eauto. }
  induction l as [|c cs IH]; intros [|c' cs'] D D' NC NC' ET; cbn [map cat] in ET |- *.
  - auto.
  - exfalso. rewrite sapp_assoc in ET. destruct (HN c' s' (cat (map (constraint_text debug s') cs') ++ newline)) as (x & r & EX). rewrite EX in ET. discriminate.
  - exfalso. rewrite sapp_assoc in ET. destruct (HN c s (cat (map (constraint_text debug s) cs) ++ newline)) as (x & r & EX). rewrite EX in ET. discriminate.
  - destruct c as [[[x y] z] n], c' as [[[x' y'] z'] n']. cbn [map snd] in NC, NC'. inversion_clear NC as [|? ? C1 C2]. inversion_clear NC' as [|? ? C1' C2'].
    assert (DD : ~ (dangling s x \/ dangling s y \/ dangling s z)) by (intros X; apply D; now constructor).
    assert (DD' : ~ (dangling s' x' \/ dangling s' y' \/ dangling s' z')) by (intros X; apply D'; now constructor).
    cbn [constraint_text] in ET. rewrite !sapp_assoc in ET. apply sapp_inj_l in ET.
    assert (EN : n = n' /\ lc_text debug s x ++ " * " ++ lc_text debug s y ++ " = " ++ lc_text debug s z ++ cat (map (constraint_text debug s) cs) ++ newline
        = lc_text debug s' x' ++ " * " ++ lc_text debug s' y' ++ " = " ++ lc_text debug s' z' ++ cat (map (constraint_text debug s') cs') ++ newline).
    { assert (B : forall (t : TState P) l r, exists q, lc_text debug t l ++ r = String "(" q) by (intros; unfold lc_text; cbn; eauto).
      destruct (B s x (" * " ++ lc_text debug s y ++ " = " ++ lc_text debug s z ++ cat (map (constraint_text debug s) cs) ++ newline)) as (q & Eq).
      destruct (B s' x' (" * " ++ lc_text debug s' y' ++ " = " ++ lc_text debug s' z' ++ cat (map (constraint_text debug s') cs') ++ newline)) as (q' & Eq').
      rewrite Eq, Eq' in ET |- *. rewrite <- !(sapp_assoc _ ": ") in ET. apply split_at in ET as [ET ->].
      - split; [|reflexivity]. revert ET. clear. revert n'. induction n as [|a n IH]; intros [|b n'] E; cbn in E; auto.
        + injection E as _ E. destruct n' as [|b' n']; [discriminate|]. injection E as _ E. destruct n'; discriminate.
        + injection E as _ E. destruct n as [|b' n]; [discriminate|]. injection E as _ E. destruct n; discriminate.
        + injection E as -> E. now rewrite (IH n' E).
      - apply lacks_app. split; auto. cbn. repeat split; discriminate.
      - apply lacks_app. split; auto. cbn. repeat split; discriminate. }
    destruct EN as [-> EN]. apply BI in EN as [Hx EN]; [|tauto|tauto]. apply sapp_inj_l in EN. apply BI in EN as [Hy EN]; [|tauto|tauto].
    apply sapp_inj_l in EN. apply BI in EN as [Hz EN]; [|tauto|tauto].
    assert (D1 : ~ Exists (con_dangles s) cs) by (intros X; apply D; now apply Exists_cons_tl).
    assert (D1' : ~ Exists (con_dangles s') cs') by (intros X; apply D'; now apply Exists_cons_tl).
    destruct (IH cs' D1 D1' C2 C2' EN) as [K1 K2]. split; [cbn [snd]; now rewrite K1|]. constructor; auto. split; auto.
Qed.
Print Assumptions C69_faithful.

(** ** Example *)
(** Scalars shown as decimal numbers. *)
Definition c69_debug (c : Fr64513) : string := NilEmpty.string_of_uint (N.to_uint (Z.to_N (toZ c))).
Definition c69_lc (l : list (Var * Z)) : LC Fr64513 := map (fun t => (fst t, ofZ (snd t))) l.
(** First constraint: 3 z + 8 x - y, with [x] and [y] in several pieces, and k - 1 times a variable that was not allocated; second constraint: [z]
    cancels. *)
Definition c69_circuit (k : Z) : prog Fr64513 (res unit) :=
  PushNs "a" (Alloc "x" (Ok (ofZ 7)) (fun _ _ => Alloc "y" (Ok (ofZ 8)) (fun _ _ => PopNs (AllocInput "z" (Ok (ofZ 5)) (fun _ _ =>
  Enforce "first" (c69_lc [(Aux 1, 4); (Aux 0, 3); (Input 1, 3); (Aux 1, -5); (Aux 0, 5); (Aux 7, k); (Aux 7, -1)]%Z) (c69_lc [(Input 0, -1)]%Z) (c69_lc []) (
  Enforce "second" (c69_lc [(Aux 0, 1)]%Z) (c69_lc [(Input 1, 9); (Input 1, -9)]%Z) (c69_lc [(Aux 0, 1); (Aux 1, 16384)]%Z) (Ret (Ok tt)))))))).
Definition c69_run (k : Z) : outcome string := obind (run TestCS (c69_circuit k) test_new) (fun r => pretty_print c69_debug (snd r)).
Example C69_ex :
  c69_run 1 = Done (newline ++ "first: (3 . `z` + 2^3 . 8 . `a/x` - `a/y`) * ( - `ONE`) = (0)"
                    ++ newline ++ "second: (`a/x`) * (0) = (`a/x` + 2^14 . 16384 . `a/y`)" ++ newline) /\
  c69_run 2 = Panicked.
Proof. vm_compute. split; reflexivity. Qed.
Lemma c69_debug_ok : (forall c c', c69_debug c = c69_debug c' -> c = c') /\ forall c, lacks " " (c69_debug c) /\ lacks ")" (c69_debug c) /\ lacks "`" (c69_debug c).
Proof.
  split.
  - intros c c' E. unfold c69_debug in E. apply (f_equal NilEmpty.uint_of_string) in E. rewrite !NilEmpty.usu in E. injection E as E.
    apply DecimalN.Unsigned.to_uint_inj in E. apply toZ_inj. pose proof (toZ_range Fr64513 c). pose proof (toZ_range Fr64513 c'). apply Z2N.inj; tauto.
  - intros c. unfold c69_debug. repeat split; apply digits_lack; cbn [In]; intros d H E; subst; repeat (destruct H as [H|H]; [discriminate|]); destruct H.
Qed.
(** The hypotheses of [C69_faithful] for the system of [c69_circuit 1]. *)
Example C69_faithful_ex : exists s, run TestCS (c69_circuit 1) test_new = Done (Ok tt, s) /\ Reach s /\
  Forall (lacks "`") (map snd (t_inputs s) ++ map snd (t_aux s)) /\ Forall (lacks "(") (map snd (t_cons s)) /\
  map snd (t_inputs s) = ["ONE"; "z"] /\ map snd (t_aux s) = ["a/x"; "a/y"] /\ map snd (t_cons s) = ["first"; "second"].
Proof.
  destruct (run TestCS (c69_circuit 1) test_new) as [[[[]|e] s]|] eqn:E; [|exfalso|exfalso].
  - exists s. split; [reflexivity|]. split; [exact (R_run _ _ _ _ _ R_new E)|].
    assert (H : map snd (t_inputs s) = ["ONE"; "z"] /\ map snd (t_aux s) = ["a/x"; "a/y"] /\ map snd (t_cons s) = ["first"; "second"]).
    { assert (X : match run TestCS (c69_circuit 1) test_new with
        | Done (_, s) => map snd (t_inputs s) = ["ONE"; "z"] /\ map snd (t_aux s) = ["a/x"; "a/y"] /\ map snd (t_cons s) = ["first"; "second"]
        | Panicked => False end) by (vm_compute; repeat split). rewrite E in X. exact X. }
    destruct H as (-> & -> & ->). split; [|split; [|auto]]; cbn [app]; repeat (apply Forall_cons; [cbn; repeat split; discriminate|]); apply Forall_nil.
  - assert (X : match run TestCS (c69_circuit 1) test_new with Done (Err _, _) => False | _ => True end) by (vm_compute; exact I). rewrite E in X. exact X.
  - assert (X : match run TestCS (c69_circuit 1) test_new with Panicked => False | _ => True end) by (vm_compute; exact I). rewrite E in X. exact X.
Qed.
