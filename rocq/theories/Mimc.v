(** The MiMC circuit of the integration tests, groth16/tests/common/mod.rs (groth16/benches/batch.rs includes the same file). *)
From Coq Require Import String.
From Coq Require Import ZArith List Bool Lia Field.
From Verif Require Import Prelude PrimeField Circuit Loops Assembly AssemblyProof PropAssembly.
Import ListNotations.
Local Open Scope nat_scope.

Section Model.
Context {P : PrimeField}.
Local Open Scope lc_scope.
Local Open Scope prog_scope.
Local Open Scope string_scope.

(** common/mod.rs:5 [MIMC_ROUNDS] is 322; the model has the number of rounds as a parameter. *)
Definition MIMC_ROUNDS : nat := 322.

(** common/mod.rs:20-34 [mimc]. *)
Definition mimc (rounds : nat) (xl xr : P) (constants : list P) : outcome P :=
  if Nat.eqb (List.length constants) rounds then
    Done (fst (fold_left (fun x c => let tmp1 := (fst x + c)%F in ((tmp1 * tmp1 * tmp1 + snd x)%F, fst x)) constants (xl, xr)))
  else Panicked.

(** Local variables of the loop of common/mod.rs:66-125. *)
Record MimcSt := { ml_value : option P; ml_var : Var; mr_value : option P; mr_var : Var }.

(** common/mod.rs:90-95 [new_xl_value]: [unwrap] inside [map]. *)
Definition new_xl_value (xl_value xr_value tmp_value : option P) (c : P) : outcome (option P) :=
  match xl_value with
  | None => Done None
  | Some e => match tmp_value, xr_value with
              | Some t, Some r => Done (Some ((e + c) * t + r)%F)
              | _, _ => Panicked
              end
  end.

(** common/mod.rs:66-125, one iteration. *)
Definition mimc_round (rounds i : nat) (s : MimcSt) (c : P) : prog P (res MimcSt) :=
  ns ("round " ++ nat_str i)
    (let tmp_value := option_map (fun e => ((e + c) * (e + c))%F) (ml_value s) in
     let* (tmp, _) := cs_alloc "tmp" (get tmp_value) in
     cs_enforce "tmp = (xL + Ci)^2" (lc_zero +v ml_var s +t (c, one_var)) (lc_zero +v ml_var s +t (c, one_var)) (lc_zero +v tmp) ;;;
     match new_xl_value (ml_value s) (mr_value s) tmp_value c with
     | Panicked => Panic
     | Done new_value =>
         let* (new_xl, _) := (if Nat.eqb i (rounds - 1) then cs_alloc_input "image" (get new_value) else cs_alloc "new_xl" (get new_value)) in
         cs_enforce "new_xL = xR + (xL + Ci)^3" (lc_zero +v tmp) (lc_zero +v ml_var s +t (c, one_var)) (lc_zero +v new_xl -v mr_var s) ;;;
         Ret (Ok {| ml_value := new_value; ml_var := new_xl; mr_value := ml_value s; mr_var := ml_var s |})
     end).

(** common/mod.rs:48-129 [MiMCDemo::synthesize]. *)
Definition mimc_circuit (rounds : nat) (xl xr : option P) (constants : list P) : prog P (res unit) :=
  if Nat.eqb (List.length constants) rounds then
    let* (xl_var, _) := cs_alloc "preimage xl" (get xl) in
    let* (xr_var, _) := cs_alloc "preimage xr" (get xr) in
    let* _ := foldq (mimc_round rounds) 0 {| ml_value := xl; ml_var := xl_var; mr_value := xr; mr_var := xr_var |} constants in
    Ret (Ok tt)
  else Panic.

Local Close Scope string_scope.

(** ** Runs *)

(** The constraints of one round. *)
Definition round_cons (c : P) (xl xr tmp new : Var) : list (Constraint P) :=
  [(lc_zero +v xl +t (c, one_var), lc_zero +v xl +t (c, one_var), lc_zero +v tmp);
   (lc_zero +v tmp, lc_zero +v xl +t (c, one_var), lc_zero +v new -v xr)].

(** Variables of the remaining rounds and their constraints; [a] auxiliary and [n] input variables are allocated already. *)
Fixpoint all_cons (a n : nat) (xl xr : Var) (cs : list P) : list (Constraint P) :=
  match cs with
  | [] => []
  | [c] => round_cons c xl xr (Aux a) (Input n)
  | c :: t => round_cons c xl xr (Aux a) (Aux (S a)) ++ all_cons (S (S a)) n (Aux (S a)) xl t
  end.

(** Auxiliary values. *)
Fixpoint all_aux (l r : P) (cs : list P) : list P :=
  match cs with
  | [] => []
  | [c] => [((l + c) * (l + c))%F]
  | c :: t => let tmp := ((l + c) * (l + c))%F in let new := ((l + c) * tmp + r)%F in tmp :: new :: all_aux new l t
  end.

Fixpoint image (l r : P) (cs : list P) : P :=
  match cs with [] => l | c :: t => image ((l + c) * ((l + c) * (l + c)) + r)%F l t end.

Lemma run_bind M {A B} (p : prog P A) (g : A -> prog P B) : forall s, run M (bind p g) s = obind (run M p s) (fun x => run M (g (fst x)) (snd x)).
Proof.
  induction p; intros s; cbn [bind run]; auto.
  - destruct (m_alloc M s ann f) as [[[? ?] ?]|]; cbn [obind]; auto.
  - destruct (m_alloc_input M s ann f) as [[[? ?] ?]|]; cbn [obind]; auto.
  - destruct (m_enforce M s ann a b c) as [?|]; cbn [obind]; auto.
  - destruct (m_push M s name) as [?|]; cbn [obind]; auto.
  - destruct (m_pop M s) as [?|]; cbn [obind]; auto.
Qed.

Lemma run_bindq M {A B} (p : prog P (res A)) (g : A -> prog P (res B)) s :
  run M (bindq p g) s = obind (run M p s) (fun x => match fst x with Ok a => run M (g a) (snd x) | Err e => Done (Err e, snd x) end).
Proof. unfold bindq. rewrite run_bind. destruct (run M p s) as [[[a|e] s']|]; reflexivity. Qed.

Ltac crunch := unfold mimc_round, ns, bindq, cs_alloc, cs_alloc_input, cs_enforce; cbn -[nat_str String.append lc_add_var lc_sub_var lc_add_term].

Lemma shape_round rounds i n a k xl xr c :
  run (ShapeCS P) (mimc_round rounds i {| ml_value := None; ml_var := xl; mr_value := None; mr_var := xr |} c) {| k_inputs := n; k_aux := a; k_cons := k |} =
  if Nat.eqb i (rounds - 1) then
    Done (Ok {| ml_value := None; ml_var := Input n; mr_value := None; mr_var := xl |}, {| k_inputs := S n; k_aux := S a; k_cons := k ++ round_cons c xl xr (Aux a) (Input n) |})
  else
    Done (Ok {| ml_value := None; ml_var := Aux (S a); mr_value := None; mr_var := xl |}, {| k_inputs := n; k_aux := S (S a); k_cons := k ++ round_cons c xl xr (Aux a) (Aux (S a)) |}).
Proof. crunch. destruct (Nat.eqb i (rounds - 1)); crunch; rewrite <- app_assoc; reflexivity. Qed.

Lemma honest_round rounds i ins aux k xl xr l r c :
  let tmp := ((l + c) * (l + c))%F in let new := ((l + c) * tmp + r)%F in let a := List.length aux in
  run (HonestCS P) (mimc_round rounds i {| ml_value := Some l; ml_var := xl; mr_value := Some r; mr_var := xr |} c) {| p_inputs := ins; p_aux := aux; p_cons := k |} =
  if Nat.eqb i (rounds - 1) then
    Done (Ok {| ml_value := Some new; ml_var := Input (List.length ins); mr_value := Some l; mr_var := xl |},
          {| p_inputs := ins ++ [new]; p_aux := aux ++ [tmp]; p_cons := k ++ round_cons c xl xr (Aux a) (Input (List.length ins)) |})
  else
    Done (Ok {| ml_value := Some new; ml_var := Aux (S a); mr_value := Some l; mr_var := xl |},
          {| p_inputs := ins; p_aux := aux ++ [tmp; new]; p_cons := k ++ round_cons c xl xr (Aux a) (Aux (S a)) |}).
Proof.
  intros tmp new a. crunch. destruct (Nat.eqb i (rounds - 1)); crunch; rewrite <- !app_assoc; [reflexivity|].
  rewrite app_length. cbn [List.length]. rewrite Nat.add_1_r. reflexivity.
Qed.

(** Key generation. *)
Lemma shape_rounds rounds cs : forall i n a k xl xr,
  i + List.length cs = rounds -> cs <> [] ->
  exists st, run (ShapeCS P) (foldq (mimc_round rounds) i {| ml_value := None; ml_var := xl; mr_value := None; mr_var := xr |} cs)
    {| k_inputs := n; k_aux := a; k_cons := k |} =
  Done (Ok st, {| k_inputs := S n; k_aux := a + (2 * List.length cs - 1); k_cons := k ++ all_cons a n xl xr cs |}).
Proof.
  induction cs as [|c cs IH]; intros i n a k xl xr Hi Hn; [contradiction|]. cbn [foldq]. rewrite run_bindq, shape_round. cbn [List.length] in *.
  destruct cs as [|c' cs].
  - replace (Nat.eqb i (rounds - 1)) with true by (symmetry; apply Nat.eqb_eq; cbn in Hi; lia). cbn [obind fst snd foldq run]. eexists.
    replace (a + (2 * S (List.length (@nil P)) - 1)) with (S a) by (cbn; lia). reflexivity.
  - replace (Nat.eqb i (rounds - 1)) with false by (symmetry; apply Nat.eqb_neq; cbn in Hi; lia). cbn [obind fst snd].
    destruct (IH (S i) n (S (S a)) (k ++ round_cons c xl xr (Aux a) (Aux (S a))) (Aux (S a)) xl) as [st E]; [lia|discriminate|]. rewrite E. exists st. rewrite <- app_assoc.
    replace (a + (2 * S (List.length (c' :: cs)) - 1)) with (S (S a) + (2 * List.length (c' :: cs) - 1)) by (cbn [List.length]; lia). reflexivity.
Qed.

Lemma honest_rounds rounds cs : forall i ins aux k xl xr l r,
  i + List.length cs = rounds -> cs <> [] ->
  exists st, run (HonestCS P) (foldq (mimc_round rounds) i {| ml_value := Some l; ml_var := xl; mr_value := Some r; mr_var := xr |} cs)
    {| p_inputs := ins; p_aux := aux; p_cons := k |} =
  Done (Ok st, {| p_inputs := ins ++ [image l r cs]; p_aux := aux ++ all_aux l r cs;
                  p_cons := k ++ all_cons (List.length aux) (List.length ins) xl xr cs |}).
Proof.
  induction cs as [|c cs IH]; intros i ins aux k xl xr l r Hi Hn; [contradiction|]. cbn [foldq]. rewrite run_bindq, honest_round. cbn [List.length] in *.
  destruct cs as [|c' cs].
  - replace (Nat.eqb i (rounds - 1)) with true by (symmetry; apply Nat.eqb_eq; cbn in Hi; lia). cbn [obind fst snd foldq run]. eexists. reflexivity.
  - replace (Nat.eqb i (rounds - 1)) with false by (symmetry; apply Nat.eqb_neq; cbn in Hi; lia). cbn [obind fst snd].
    destruct (IH (S i) ins (aux ++ [((l + c) * (l + c))%F; ((l + c) * ((l + c) * (l + c)) + r)%F]) (k ++ round_cons c xl xr (Aux (List.length aux)) (Aux (S (List.length aux)))) (Aux (S (List.length aux))) xl ((l + c) * ((l + c) * (l + c)) + r)%F l) as [st E]; [lia|discriminate|].
    rewrite E. exists st. rewrite <- !app_assoc, app_length. cbn [List.length]. replace (List.length aux + 2) with (S (S (List.length aux))) by lia. reflexivity.
Qed.

(** ** What the constraints say *)
Add Field PFmimc : (F_field P).

Lemma all_cons_sound rho : rho one_var = fone -> forall cs a n xl xr, cs <> [] -> sat rho (all_cons a n xl xr cs) -> rho (Input n) = image (rho xl) (rho xr) cs.
Proof.
  intros H1. assert (R : forall c xl xr tmp new, sat rho (round_cons c xl xr tmp new) ->
     rho new = ((rho xl + c) * ((rho xl + c) * (rho xl + c)) + rho xr)%F).
  { intros c xl xr tmp new H. unfold round_cons, sat in H. inversion H as [|? ? A B]; subst. inversion B as [|? ? C _]; subst. cbn [holds] in A, C.
    rewrite ?eval_add_term, ?eval_sub_var, ?eval_add_var, ?eval_zero, ?H1 in A. rewrite ?eval_sub_var, ?eval_add_term, ?eval_add_var, ?eval_zero, ?H1 in C.
    assert (A' : rho tmp = ((rho xl + c) * (rho xl + c))%F) by (transitivity (0 + rho tmp)%F; [ring|]; rewrite <- A; ring).
    transitivity ((0 + rho new - rho xr) + rho xr)%F; [ring|]. rewrite <- C, A'. ring. }
  induction cs as [|c cs IH]; intros a n xl xr Hn H; [contradiction|]. destruct cs as [|c' cs].
  - cbn [image all_cons] in *. eapply R; eauto.
  - change (all_cons a n xl xr (c :: c' :: cs)) with (round_cons c xl xr (Aux a) (Aux (S a)) ++ all_cons (S (S a)) n (Aux (S a)) xl (c' :: cs)) in H.
    apply sat_app in H as [A B]. apply IH in B; [|discriminate]. rewrite B. apply R in A. rewrite A. reflexivity.
Qed.

Lemma all_cons_complete rho : rho one_var = fone -> forall cs a n xl xr, cs <> [] ->
  (forall j x, nth_error (all_aux (rho xl) (rho xr) cs) j = Some x -> rho (Aux (a + j)) = x) -> rho (Input n) = image (rho xl) (rho xr) cs ->
  sat rho (all_cons a n xl xr cs).
Proof.
  intros H1. assert (R : forall c xl xr tmp new, rho tmp = ((rho xl + c) * (rho xl + c))%F -> rho new = ((rho xl + c) * ((rho xl + c) * (rho xl + c)) + rho xr)%F ->
     sat rho (round_cons c xl xr tmp new)).
  { intros c xl xr tmp new A B. repeat constructor; cbn [holds]; rewrite ?eval_add_term, ?eval_sub_var, ?eval_add_var, ?eval_zero, ?H1, ?A, ?B; ring. }
  induction cs as [|c cs IH]; intros a n xl xr Hn Ha Hi; [contradiction|]. destruct cs as [|c' cs].
  - apply R; [|exact Hi]. rewrite <- (Nat.add_0_r a). apply (Ha 0). reflexivity.
  - change (all_cons a n xl xr (c :: c' :: cs)) with (round_cons c xl xr (Aux a) (Aux (S a)) ++ all_cons (S (S a)) n (Aux (S a)) xl (c' :: cs)).
    assert (N : rho (Aux (S a)) = ((rho xl + c) * ((rho xl + c) * (rho xl + c)) + rho xr)%F) by (rewrite <- (Nat.add_1_r a); apply (Ha 1); reflexivity).
    apply sat_app. split.
    + apply R; [|exact N]. rewrite <- (Nat.add_0_r a). apply (Ha 0). reflexivity.
    + apply IH; [discriminate| |].
      * intros j x Hj. replace (S (S a) + j) with (a + S (S j)) by lia. apply Ha. rewrite N in Hj. exact Hj.
      * rewrite Hi, N. reflexivity.
Qed.

Lemma fold_image cs : forall l r : P, fst (fold_left (fun x c => let tmp1 := (fst x + c)%F in ((tmp1 * tmp1 * tmp1 + snd x)%F, fst x)) cs (l, r)) = image l r cs.
Proof. induction cs as [|c t IH]; intros l r; [reflexivity|]. cbn [fold_left fst snd image]. rewrite IH. f_equal. ring. Qed.

Lemma all_aux_length cs : cs <> [] -> forall l r : P, List.length (all_aux l r cs) = 2 * List.length cs - 1.
Proof.
  induction cs as [|c [|c' cs] IH]; intros Hn l r; [contradiction|reflexivity|].
  change (List.length (all_aux l r (c :: c' :: cs))) with (S (S (List.length (all_aux ((l + c) * ((l + c) * (l + c)) + r)%F l (c' :: cs))))).
  rewrite IH by discriminate. cbn [List.length]. lia.
Qed.
End Model.

(** ** The calls the circuit performs *)
Section Calls.
Context {P : PrimeField}.
Local Open Scope lc_scope.

Fixpoint round_calls (a n : nat) (xl xr : Var) (l r : P) (cs : list P) : list (call P) :=
  match cs with
  | [] => []
  | c :: t =>
      let tmp := ((l + c) * (l + c))%F in let new := ((l + c) * tmp + r)%F in
      let square := CallEnforce (lc_zero +v xl +t (c, one_var)) (lc_zero +v xl +t (c, one_var)) (lc_zero +v Aux a) in
      match t with
      | [] => [CallAlloc tmp; square; CallAllocInput new; CallEnforce (lc_zero +v Aux a) (lc_zero +v xl +t (c, one_var)) (lc_zero +v Input n -v xr)]
      | _ => [CallAlloc tmp; square; CallAlloc new; CallEnforce (lc_zero +v Aux a) (lc_zero +v xl +t (c, one_var)) (lc_zero +v Aux (S a) -v xr)]
               ++ round_calls (S (S a)) n (Aux (S a)) xl new l t
      end
  end.
Definition mimc_calls (l r : P) (cs : list P) : list (call P) := [CallAlloc l; CallAlloc r] ++ round_calls 2 1 (Aux 0) (Aux 1) l r cs.

Variables (M : Machine P) (na ni : St M -> nat) (stands_for : res P -> P -> Prop).
Hypothesis M_push : forall s n, m_push M s n = Done s.
Hypothesis M_pop : forall s, m_pop M s = Done s.
Hypothesis M_alloc : forall s n f x, stands_for f x -> m_alloc M s n f = m_alloc M s EmptyString (Ok x).
Hypothesis M_alloc_input : forall s n f x, stands_for f x -> m_alloc_input M s n f = m_alloc_input M s EmptyString (Ok x).
Hypothesis M_enforce : forall s n a b c, m_enforce M s n a b c = m_enforce M s EmptyString a b c.
Hypothesis M_alloc_ok : forall s x, exists s' b, m_alloc M s EmptyString (Ok x) = Done (s', Ok (Aux (na s)), b) /\ na s' = S (na s) /\ ni s' = ni s.
Hypothesis M_alloc_input_ok : forall s x, exists s' b, m_alloc_input M s EmptyString (Ok x) = Done (s', Ok (Input (ni s)), b) /\ na s' = na s /\ ni s' = S (ni s).
Hypothesis M_enforce_ok : forall s a b c s', m_enforce M s EmptyString a b c = Done s' -> na s' = na s /\ ni s' = ni s.

(** The values are known, or nobody asks for them. *)
Definition known (vl vr : option P) (l r : P) : Prop :=
  (vl = Some l /\ vr = Some r /\ forall x, stands_for (Ok x) x) \/ (vl = None /\ vr = None /\ forall x, stands_for (get None) x).

Lemma known_get vl vr l r : known vl vr l r -> stands_for (get vl) l /\ stands_for (get vr) r.
Proof. intros [(-> & -> & H)|(-> & -> & H)]; cbn [get]; auto. Qed.

Lemma calls_of_rounds rounds cs : forall i s vl vr xl xr l r, i + List.length cs = rounds -> known vl vr l r ->
  exists st, run M (foldq (mimc_round rounds) i {| ml_value := vl; ml_var := xl; mr_value := vr; mr_var := xr |} cs) s =
             obind (run M (circuit_of (round_calls (na s) (ni s) xl xr l r cs)) s) (fun x => Done (Ok st, snd x)).
Proof.
  induction cs as [|c cs IH]; intros i s vl vr xl xr l r Hi Hk; [eexists; reflexivity|]. cbn [foldq]. cbn [List.length] in Hi.
  set (tmp := ((l + c) * (l + c))%F). set (new := ((l + c) * tmp + r)%F).
  set (vt := option_map (fun e => ((e + c) * (e + c))%F) vl).
  destruct (M_alloc_ok s tmp) as (s1 & b1 & E1 & A1 & N1).
  assert (Ht : stands_for (get vt) tmp) by (destruct Hk as [(-> & -> & H)|(-> & -> & H)]; apply H).
  assert (Hv : exists v, new_xl_value vl vr vt c = Done v /\ known v vl new l).
  { unfold vt. destruct Hk as [(-> & -> & H)|(-> & -> & H)]; cbn; eexists; (split; [reflexivity|]); [left|right]; auto. }
  destruct Hv as (v & Ev & Kv). destruct (known_get _ _ _ _ Kv) as [Gv _].
  rewrite run_bindq. match goal with |- exists st, obind _ ?k = _ => set (K := k) end.
  unfold mimc_round, ns, bindq, cs_alloc, cs_enforce. cbn -[nat_str String.append lc_add_var lc_sub_var lc_add_term round_calls circuit_of]. rewrite M_push. cbn [obind].
  fold vt. rewrite (M_alloc _ _ _ _ Ht), E1. cbn [obind fst snd bind run]. rewrite M_enforce.
  destruct cs as [|c' cs].
  - cbn [round_calls circuit_of run]. fold tmp. rewrite E1. cbn [obind fst snd run].
    destruct (m_enforce M s1 EmptyString _ _ _) as [s2|] eqn:E2; cbn [obind fst snd]; [|exists {| ml_value := None; ml_var := xl; mr_value := None; mr_var := xr |}; reflexivity].
    cbn [option_map ml_value mr_value]. rewrite Ev. replace (Nat.eqb i (rounds - 1)) with true by (symmetry; apply Nat.eqb_eq; cbn in Hi; lia).
    unfold cs_alloc_input. cbn [bind run]. fold new. rewrite (M_alloc_input _ _ _ _ Gv). destruct (M_enforce_ok _ _ _ _ _ E2) as [A2 N2].
    destruct (M_alloc_input_ok s2 new) as (s3 & b3 & E3 & A3 & N3). rewrite E3. cbn [obind fst snd bind run]. rewrite M_enforce. rewrite N2, N1.
    destruct (m_enforce M s3 EmptyString _ _ _) as [s4|] eqn:E4; cbn [obind fst snd bind run]; [|exists {| ml_value := None; ml_var := xl; mr_value := None; mr_var := xr |}; reflexivity].
    rewrite M_pop. unfold K. cbn [obind fst snd foldq run]. eexists. reflexivity.
  - change (round_calls (na s) (ni s) xl xr l r (c :: c' :: cs)) with
      ([CallAlloc tmp; CallEnforce (lc_zero +v xl +t (c, one_var)) (lc_zero +v xl +t (c, one_var)) (lc_zero +v Aux (na s)); CallAlloc new;
        CallEnforce (lc_zero +v Aux (na s)) (lc_zero +v xl +t (c, one_var)) (lc_zero +v Aux (S (na s)) -v xr)] ++ round_calls (S (S (na s))) (ni s) (Aux (S (na s))) xl new l (c' :: cs)).
    cbn [app circuit_of run]. rewrite E1. cbn [obind fst snd run].
    destruct (m_enforce M s1 EmptyString _ _ _) as [s2|] eqn:E2; cbn [obind fst snd]; [|exists {| ml_value := None; ml_var := xl; mr_value := None; mr_var := xr |}; reflexivity].
    cbn [option_map ml_value mr_value]. rewrite Ev. replace (Nat.eqb i (rounds - 1)) with false by (symmetry; apply Nat.eqb_neq; cbn in Hi; lia).
    cbn [bind run]. rewrite (M_alloc _ _ _ _ Gv). destruct (M_enforce_ok _ _ _ _ _ E2) as [A2 N2].
    destruct (M_alloc_ok s2 new) as (s3 & b3 & E3 & A3 & N3). rewrite E3. cbn [obind fst snd bind run]. rewrite M_enforce. rewrite A2, A1.
    destruct (m_enforce M s3 EmptyString _ _ _) as [s4|] eqn:E4; cbn [obind fst snd bind run]; [|exists {| ml_value := None; ml_var := xl; mr_value := None; mr_var := xr |}; reflexivity].
    rewrite M_pop. unfold K. cbn [obind fst snd]. destruct (M_enforce_ok _ _ _ _ _ E4) as [A4 N4].
    destruct (IH (S i) s4 v vl (Aux (S (na s))) xl new l ltac:(cbn [List.length] in *; lia) Kv) as [st X].
    rewrite A4, A3, A2, A1, N4, N3, N2, N1 in X. exists st. exact X.
Qed.

Lemma calls_of_circuit rounds vl vr l r cs s : List.length cs = rounds -> known vl vr l r -> na s = 0 -> ni s = 1 ->
  run M (mimc_circuit rounds vl vr cs) s = run M (circuit_of (mimc_calls l r cs)) s.
Proof.
  intros Hl Hk A0 N0. unfold mimc_circuit. rewrite Hl, Nat.eqb_refl. destruct (known_get _ _ _ _ Hk) as [Gl Gr].
  unfold mimc_calls. cbn [app circuit_of]. unfold bindq at 1. unfold cs_alloc at 1. cbn [bind run]. rewrite (M_alloc _ _ _ _ Gl). 
  destruct (M_alloc_ok s l) as (s1 & b1 & E1 & A1 & N1). rewrite E1. cbn [obind fst snd].
  unfold bindq at 1. unfold cs_alloc at 1. cbn [bind run]. rewrite (M_alloc _ _ _ _ Gr). 
  destruct (M_alloc_ok s1 r) as (s2 & b2 & E2 & A2 & N2). rewrite E2. cbn [obind fst snd].
  rewrite run_bindq. destruct (calls_of_rounds rounds cs 0 s2 vl vr (Aux (na s)) (Aux (na s1)) l r Hl Hk) as [st X]. rewrite X.
  rewrite A2, A1, N2, N1, A0, N0. destruct (run M (circuit_of (round_calls 2 1 (Aux 0) (Aux 1) l r cs)) s2) as [[out s3]|] eqn:Er; cbn [obind fst snd run]; auto.
  assert (R : forall calls s out s', run M (circuit_of calls) s = Done (out, s') -> out = Ok tt).
  { clear - M_alloc_ok M_alloc_input_ok. induction calls as [|[x|x|a b c] calls IH]; intros s out s'; cbn [circuit_of run].
    - congruence.
    - destruct (M_alloc_ok s x) as (t & b & -> & _). cbn [obind fst snd]. apply IH.
    - destruct (M_alloc_input_ok s x) as (t & b & -> & _). cbn [obind fst snd]. apply IH.
    - destruct (m_enforce M s EmptyString a b c); cbn [obind]; [apply IH|discriminate]. }
  now rewrite (R _ _ _ _ Er).
Qed.
End Calls.
