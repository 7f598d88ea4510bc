(** Properties C29, C30 and C31: the worker pool. *)
From Coq Require Import ZArith List Bool Lia.
From Verif Require Import Prelude Multicore Sched Compute.
Import ListNotations.
Local Open Scope nat_scope.

(** ** C31 *)

(** [log_num_threads] is the floor of the binary logarithm of the number of threads. *)
Theorem C31_floor_log2 t : 0 < t -> (Z.of_nat t < 2 ^ 63)%Z ->
  exists r, log_num_threads (Multicore t) = Done r /\ 2 ^ r <= t < 2 ^ (r + 1).
Proof.
  intros H0 H1. destruct (log2_floor_spec (Z.of_nat t)) as (r & E & L); [lia|auto|]. exists r. split; auto.
  rewrite <- !(Nat2Z.inj_pow 2) in L. lia.
Qed.
Print Assumptions C31_floor_log2.

Theorem C31_single : log_num_threads Single = Done 0.
Proof. reflexivity. Qed.
Print Assumptions C31_single.

Theorem C31_zero_panics : log2_floor 0 = Panicked.
Proof. reflexivity. Qed.
Print Assumptions C31_zero_panics.

Example C31_ex : log_num_threads (Multicore 6) = Done 2 /\ 2 ^ 2 <= 6 < 2 ^ 3 /\ log2_floor (2 ^ 62) = Done 62.
Proof. vm_compute. repeat split; lia. Qed.

(** ** C29 *)

(** The tasks hand out the indices [0 .. length l): each index belongs to exactly one task. *)
Theorem C29_partition {A St} (w : Worker) (n : nat) (init : nat -> nat -> St) (l : list A) :
  wf_worker w -> (w = Single -> 0 < n) ->
  let ts := spawn_tasks (scope_chunk w n) init l in
  (forall j, j < length l -> exists! k, exists t, nth_error ts k = Some t /\ t_lo t <= j < t_hi t) /\
  (forall t, In t ts -> t_lo t < t_hi t <= length l).
Proof.
  intros Hw Hs ts. assert (Hn : 0 < scope_chunk w n).
  { destruct w; [now apply scope_chunk_pos_multi; destruct Hw|apply (Hs eq_refl)]. }
  set (c := scope_chunk w n) in *.
  pose proof (spawn_tasks_inv (fun (s : St) (a : A) => (a, s)) c init l Hn) as I. split.
  - intros j Hj. destruct (chunks_index c l Hn j Hj) as (ch & Hc & Hm). exists (j / c).
    pose proof (Nat.div_mod j c ltac:(lia)) as DM. split.
    + eexists. unfold ts, spawn_tasks, mapi. rewrite nth_error_mapi_from, Hc. split; [reflexivity|]. cbn [t_lo t_hi]. nia.
    + intros k (t & Hk & Ht). destruct (Nat.eq_dec (j / c) k) as [|Hne]; auto. exfalso.
      refine (ti_disj _ _ _ I k (j / c) t _ Hk _ (not_eq_sym Hne) j Ht _); cbn [snd].
      * unfold spawn_tasks, mapi. rewrite nth_error_mapi_from, Hc. reflexivity.
      * cbn [t_lo t_hi]. nia.
  - intros t Ht. apply In_nth_error in Ht as [k Hk]. unfold ts, spawn_tasks, mapi in Hk. rewrite nth_error_mapi_from in Hk.
    destruct (nth_error (chunks c l) k) as [ch|] eqn:Ec; [|discriminate]. injection Hk as <-. cbn [t_lo t_hi].
    destruct (chunks_layout c l Hn _ _ Ec) as [-> Hl]. rewrite firstn_length, skipn_length. cbn. nia.
Qed.
Print Assumptions C29_partition.

(** Whatever the interleaving: every run is finite, can always go on until all tasks have ended, and
    then the vector holds what [par_for] computes. *)
Theorem C29_any_interleaving {A St} (step : St -> A -> A * St) (w : Worker) (n : nat) (init : nat -> nat -> St) (l : list A) :
  wf_worker w -> (w = Single -> 0 < n) ->
  forall m v ts, tsteps step m (l, spawn_tasks (scope_chunk w n) init l) (v, ts) ->
    m <= length l /\
    (tdone ts \/ exists c, tstep step (v, ts) c) /\
    (tdone ts -> m = length l /\ par_for w n init step l = Done v).
Proof.
  intros Hw Hs m v ts H. assert (Hn : 0 < scope_chunk w n).
  { destruct w; [now apply scope_chunk_pos_multi; destruct Hw|apply (Hs eq_refl)]. }
  pose proof (tsteps_inv step _ _ _ _ (spawn_tasks_inv step _ init l Hn) H) as I.
  pose proof (work_steps step _ _ _ H) as W. cbn [snd] in W. rewrite work_spawn in W by auto. split; [lia|]. split.
  - eapply TInv_progress; eauto.
  - intros D. pose proof (TInv_done step _ _ _ I D) as ->. split.
    + assert (Z0 : work ts = 0); [|lia]. clear - D. induction ts as [|t ts IH]; cbn; auto. rewrite IH.
      * pose proof (D t (or_introl eq_refl)). lia.
      * intros t' H. apply D. now right.
    + unfold par_for, chunks_mut. destruct (Nat.eqb_spec (scope_chunk w n) 0); [lia|]. reflexivity.
Qed.
Print Assumptions C29_any_interleaving.

(** The sequential loop over the whole vector. *)
Definition for_each {A} (f : nat -> A -> A) (l : list A) : list A := map (fun p => f (fst p) (snd p)) (combine (seq 0 (length l)) l).

Lemma for_each_mapi {A} (f : nat -> A -> A) l : mapi f l = for_each f l.
Proof. unfold mapi, for_each. generalize 0. induction l; intros i; cbn; f_equal; auto. Qed.

(** So the result does not depend on the number of threads: for the three loop shapes of the code. *)
Theorem C29_map {A} (f : A -> A) (w : Worker) (l : list A) : wf_worker w -> l <> [] ->
  par_map w (length l) f l = Done (for_each (fun _ => f) l).
Proof.
  intros Hw Hl. rewrite par_map_spec.
  - now rewrite <- for_each_mapi, mapi_const.
  - apply scope_chunk_pos; auto. destruct l; [congruence|cbn; lia].
Qed.
Print Assumptions C29_map.

Theorem C29_zip {A B} (f : A -> B -> A) (db : B) (w : Worker) (a : list A) (b : list B) : wf_worker w -> a <> [] -> length a <= length b ->
  par_zip w (length a) f a b = Done (for_each (fun i x => f x (nth i b db)) a).
Proof.
  intros Hw Hl Hb. rewrite (par_zip_spec _ _ _ _ _ db); auto.
  - now rewrite <- for_each_mapi.
  - apply scope_chunk_pos; auto. destruct a; [congruence|cbn; lia].
Qed.
Print Assumptions C29_zip.

(** Loops that carry a running local value restarted in each chunk: if the value at the start of a
    chunk and its update follow the index ([sigma]), the chunking is invisible. *)
Theorem C29_running_state {A St} (sigma : nat -> St) (f : nat -> A -> A) (init : nat -> nat -> St) (step : St -> A -> A * St)
    (w : Worker) (l : list A) : wf_worker w -> l <> [] ->
  (forall c i, init c i = sigma (i * c)) -> (forall j a, step (sigma j) a = (f j a, sigma (S j))) ->
  par_for w (length l) init step l = Done (for_each f l).
Proof.
  intros Hw Hl Hi Hs. rewrite <- for_each_mapi. apply (par_for_spec _ _ _ _ (fun _ k s => s = sigma k)).
  - apply scope_chunk_pos; auto. destruct l; [congruence|cbn; lia].
  - intros i. apply Hi.
  - intros i k s a _ ->. eauto.
Qed.
Print Assumptions C29_running_state.

Example C29_ex : par_for (Multicore 3) 7 (fun c i => i * c) (fun s a => (s * a, S s)) [1; 2; 3; 4; 5; 6; 7]
    = Done [0; 2; 6; 12; 20; 30; 42]
  /\ par_for Single 7 (fun c i => i * c) (fun s a => (s * a, S s)) [1; 2; 3; 4; 5; 6; 7] = Done [0; 2; 6; 12; 20; 30; 42]
  /\ length (spawn_tasks (scope_chunk (Multicore 3) 7) (fun _ _ => tt) [1; 2; 3; 4; 5; 6; 7]) = 4
  /\ par_map Single 0 S [1] = Panicked.
Proof. vm_compute. auto. Qed.

(** ** C30 *)
Section C30.
Context {R : Type} (cl : nat -> option R) (threads : nat) (handler : bool).

(** States reached by some sequence of events: any interleaving of any number of threads. *)
Definition Reached (s : CState R) : Prop := exists es, crun cl (4 * threads) handler es c_init = Some s.

Let inv s : Reached s -> CInv cl (4 * threads) s.
Proof. intros [es H]. eapply CInv_run; eauto. apply CInv_init. Qed.

(** The spawn counter is the number of calls whose closure has not run to its end. *)
Theorem C30_counter s : Reached s ->
  cs_counter s = length (filter (fun t => match c_phase t with Finished => false | _ => true end) (cs_tasks s)).
Proof. intros H. apply (ci_counter _ _ _ (inv s H)). Qed.

(** At most [4 * threads + 1] spawned closures are unfinished. *)
Theorem C30_backlog s : Reached s ->
  length (filter (fun t => match c_phase t with Finished => false | _ => true end && negb (c_inline t)) (cs_tasks s)) <= 4 * threads + 1.
Proof. intros H. apply (ci_backlog _ _ _ (inv s H)). Qed.

(** A waiter only ever gets the value of its own closure. *)
Theorem C30_own_value s k t v : Reached s -> nth_error (cs_tasks s) k = Some t -> c_waiter t = Got v -> cl k = Some v.
Proof. intros H Hk. apply (ci_tasks _ _ _ (inv s H) k t Hk). Qed.

Definition consumes (k : nat) (e : CEvent) : bool :=
  match e with Wait j | WaitInPool j | DropW j => j =? k | _ => false end.

(** A waiter is consumed at most once, in any run. *)
Theorem C30_at_most_once es s k : crun cl (4 * threads) handler es c_init = Some s ->
  length (filter (consumes k) es) <= 1.
Proof.
  assert (G : forall es s0 s', CInv cl (4 * threads) s0 -> crun cl (4 * threads) handler es s0 = Some s' ->
     length (filter (consumes k) es) <= match nth_error (cs_tasks s0) k with
       | Some t => match c_waiter t with Unborn | Live => 1 | _ => 0 end | None => 1 end).
  { clear es s. induction es as [|e es IH]; intros s0 s' I H; cbn [filter length]; [lia|]. cbn [crun] in H.
    destruct (cstep cl (4 * threads) handler e s0) as [s1|] eqn:E; [|discriminate].
    specialize (IH _ _ (CInv_step _ _ _ _ _ _ I E) H).
    destruct (consumes k e) eqn:Ec.
    - assert (exists t t1, nth_error (cs_tasks s0) k = Some t /\ c_waiter t = Live /\ nth_error (cs_tasks s1) k = Some t1 /\
         match c_waiter t1 with Unborn | Live => False | _ => True end) as (t & t1 & E0 & W0 & E1 & W1).
      { unfold cstep in E. destruct (cs_aborted s0); [discriminate|].
        destruct e as [|j|j|j|j|j|j]; try discriminate; cbn in Ec; apply Nat.eqb_eq in Ec as ->;
          destruct (nth_error (cs_tasks s0) k) as [t|] eqn:Et; try discriminate;
          destruct (c_waiter t) eqn:Ew; try discriminate;
          assert (Hkl : k < length (cs_tasks s0)) by (apply nth_error_Some; congruence); apply Nat.ltb_lt in Hkl.
        - destruct (c_chan t); [|destruct (c_phase t); try discriminate]; injection E as <-;
            (do 2 eexists; split; [reflexivity|]; split; [auto|]; unfold c_upd; cbn [cs_tasks];
             rewrite nth_error_upd, Nat.eqb_refl, Hkl; split; [reflexivity|]; exact Logic.I).
        - injection E as <-. do 2 eexists; split; [reflexivity|]; split; [auto|]; unfold c_upd; cbn [cs_tasks];
             rewrite nth_error_upd, Nat.eqb_refl, Hkl; split; [reflexivity|]; exact Logic.I.
        - injection E as <-. do 2 eexists; split; [reflexivity|]; split; [auto|]; unfold c_upd; cbn [cs_tasks];
             rewrite nth_error_upd, Nat.eqb_refl, Hkl; split; [reflexivity|]; exact Logic.I. }
      rewrite E0, W0. rewrite E1 in IH. cbn [length]. destruct (c_waiter t1); try tauto; lia.
    - destruct (nth_error (cs_tasks s0) k) as [t|] eqn:E0.
      + destruct (cstep_later _ _ _ _ _ _ I E k t E0) as (t1 & E1 & _ & _ & L). rewrite E1 in IH. unfold later_waiter in L.
        destruct (c_waiter t); try (rewrite L in IH; exact IH); destruct (c_waiter t1); lia.
      + destruct (nth_error (cs_tasks s1) k) as [t1|]; auto. destruct (c_waiter t1); lia. }
  intros H. specialize (G _ _ _ (CInv_init cl (4 * threads)) H). cbn in G. destruct k; exact G.
Qed.

(** No lost result: while the process lives, a live waiter of a closure that returns [v] can always be
    brought to [v], only by steps of that closure, and then [wait] returns it. *)
Theorem C30_delivered s k t v : Reached s -> cs_aborted s = false -> nth_error (cs_tasks s) k = Some t -> c_waiter t = Live ->
  cl k = Some v -> exists es s' t', incl es [Exec k; Send k; Dec k; Wait k] /\ crun cl (4 * threads) handler es s = Some s' /\
    nth_error (cs_tasks s') k = Some t' /\ c_waiter t' = Got v.
Proof.
  intros H Ha Hk Hw Hc.
  assert (Hkl : k < length (cs_tasks s)) by (apply nth_error_Some; congruence). apply Nat.ltb_lt in Hkl.
  pose proof (ci_tasks _ _ _ (inv s H) k t Hk) as (O1 & O2 & O3 & O4 & O5 & O6 & O7 & O8 & O9 & O10).
  assert (U : forall t', nth_error (upd k t' (cs_tasks s)) k = Some t') by (intros; now rewrite nth_error_upd, Nat.eqb_refl, Hkl).
  assert (U2 : forall t1 t2, nth_error (upd k t2 (upd k t1 (cs_tasks s))) k = Some t2)
    by (intros; now rewrite nth_error_upd, Nat.eqb_refl, upd_length, Hkl).
  assert (U3 : forall t1 t2 t3, nth_error (upd k t3 (upd k t2 (upd k t1 (cs_tasks s)))) k = Some t3)
    by (intros; now rewrite nth_error_upd, Nat.eqb_refl, !upd_length, Hkl).
  destruct (c_phase t) eqn:Ep.
  - exists [Exec k; Send k; Wait k]. do 2 eexists. split; [intros x; cbn; tauto|].
    cbn [crun]; unfold cstep. rewrite Ha, Hk, Ep, Hc. cbn [c_upd cs_aborted cs_tasks]. rewrite Ha, U. cbn [c_phase c_waiter]. rewrite Hw.
    cbn [receiver_alive c_upd cs_aborted cs_tasks]. rewrite Ha, U2. cbn [c_waiter c_chan]. split; [reflexivity|].
    unfold c_upd; cbn [cs_tasks]. split; [apply U3|reflexivity].
  - specialize (O1 _ eq_refl). exists [Send k; Wait k]. do 2 eexists. split; [intros x; cbn; tauto|].
    cbn [crun]; unfold cstep. rewrite Ha, Hk, Ep, Hw. cbn [receiver_alive c_upd cs_aborted cs_tasks]. rewrite Ha, U. cbn [c_waiter c_chan].
    split; [reflexivity|]. unfold c_upd; cbn [cs_tasks]. split; [apply U2|]. cbn. congruence.
  - destruct O4 as [_ O4]; auto. exists [Wait k]. do 2 eexists. split; [intros x; cbn; tauto|].
    cbn [crun]; unfold cstep. rewrite Ha, Hk, Hw, O4, Hc by auto. split; [reflexivity|]. unfold c_upd; cbn [cs_tasks]. split; [apply U|reflexivity].
  - destruct O4 as [_ O4]; auto. exists [Wait k]. do 2 eexists. split; [intros x; cbn; tauto|].
    cbn [crun]; unfold cstep. rewrite Ha, Hk, Hw, O4, Hc by auto. split; [reflexivity|]. unfold c_upd; cbn [cs_tasks]. split; [apply U|reflexivity].
  - (* a closure that returned can only have unwound because its waiter was already gone *)
    exfalso. destruct H as [es H].
    assert (G : forall es s0, crun cl (4 * threads) handler es c_init = Some s0 -> forall t, nth_error (cs_tasks s0) k = Some t ->
       c_phase t = Unwound -> c_waiter t <> Live).
    { clear -Hc. induction es as [|e es IH] using rev_ind; intros s0 H t Hk Ep; [cbn in H; injection H as <-; destruct k; discriminate|].
      rewrite crun_app in H. destruct (crun cl (4 * threads) handler es c_init) as [s1|] eqn:E1; [|discriminate].
      specialize (IH s1 eq_refl).
      assert (I1 : CInv cl (4 * threads) s1) by (eapply CInv_run; eauto; apply CInv_init).
      cbn [crun] in H. destruct (cstep cl (4 * threads) handler e s1) as [s2|] eqn:E2; [|discriminate]. injection H as <-.
      unfold cstep in E2. destruct (cs_aborted s1); [discriminate|].
      destruct e as [|j|j|j|j|j|j]; try (destruct (nth_error (cs_tasks s1) j) as [t1|] eqn:Et1; [|discriminate]).
      - injection E2 as <-. cbn [cs_tasks] in Hk. destruct (Nat.lt_ge_cases k (length (cs_tasks s1))).
        + rewrite nth_error_app1 in Hk by auto. eauto.
        + rewrite nth_error_app2 in Hk by auto. destruct (k - _) as [|[|]]; cbn [nth_error] in Hk; try discriminate. injection Hk as <-. discriminate.
      - destruct (c_phase t1) eqn:Ep1; try discriminate. destruct (cl j) eqn:Ej; injection E2 as <-; unfold c_upd, unwind in Hk; cbn [cs_tasks] in Hk;
          rewrite nth_error_upd in Hk; destruct (Nat.eqb_spec j k) as [->|]; cbn [andb] in Hk; eauto; try congruence.
        destruct (k <? _); [injection Hk as <-; discriminate|]. eauto.
      - destruct (c_phase t1) eqn:Ep1; try discriminate. destruct (receiver_alive (c_waiter t1)) eqn:Er; injection E2 as <-; unfold c_upd, unwind in Hk; cbn [cs_tasks] in Hk;
          rewrite nth_error_upd in Hk; destruct (Nat.eqb_spec j k) as [->|]; cbn [andb] in Hk; eauto;
          (destruct (k <? _); [injection Hk as <-; cbn in *; try discriminate|eauto]).
        destruct (c_inline t1); [discriminate|]. intros E. rewrite E in Er. discriminate.
      - destruct (c_phase t1) eqn:Ep1; try discriminate. injection E2 as <-; cbn [cs_tasks] in Hk;
          rewrite nth_error_upd in Hk; destruct (Nat.eqb_spec j k) as [->|]; cbn [andb] in Hk; eauto.
          destruct (k <? _); [injection Hk as <-; discriminate|eauto].
      - destruct (c_waiter t1) eqn:Ew1; try discriminate. destruct (c_chan t1); [|destruct (c_phase t1) eqn:Ep1; try discriminate]; injection E2 as <-; unfold c_upd in Hk; cbn [cs_tasks] in Hk;
          rewrite nth_error_upd in Hk; destruct (Nat.eqb_spec j k) as [->|]; cbn [andb] in Hk; eauto;
          (destruct (k <? _); [injection Hk as <-; cbn; discriminate|eauto]).
      - destruct (c_waiter t1) eqn:Ew1; try discriminate. injection E2 as <-; unfold c_upd in Hk; cbn [cs_tasks] in Hk;
          rewrite nth_error_upd in Hk; destruct (Nat.eqb_spec j k) as [->|]; cbn [andb] in Hk; eauto;
          (destruct (k <? _); [injection Hk as <-; cbn; discriminate|eauto]).
      - destruct (c_waiter t1) eqn:Ew1; try discriminate. injection E2 as <-; unfold c_upd in Hk; cbn [cs_tasks] in Hk;
          rewrite nth_error_upd in Hk; destruct (Nat.eqb_spec j k) as [->|]; cbn [andb] in Hk; eauto;
          (destruct (k <? _); [injection Hk as <-; cbn; discriminate|eauto]). }
    exact (G es s H t Hk Ep Hw).
Qed.

(** A panicking closure never delivers: its [wait] can only block or panic, and its counter slot is
    never given back, whatever happens afterwards. *)
Theorem C30_panicking_closure s k t : Reached s -> nth_error (cs_tasks s) k = Some t -> cl k = None ->
  c_phase t <> Finished /\ (forall v, c_waiter t <> Got v) /\
  (forall s', cstep cl (4 * threads) handler (Wait k) s = Some s' ->
     exists t', nth_error (cs_tasks s') k = Some t' /\ c_waiter t' = WaitPanicked).
Proof.
  intros H Hk Hc.
  pose proof (ci_tasks _ _ _ (inv s H) k t Hk) as (O1 & O2 & O3 & O4 & O5 & O6 & O7 & O8 & O9 & O10). repeat split.
  - intros E. destruct O4; auto.
  - intros v E. apply O3 in E. congruence.
  - intros s' E. unfold cstep in E. destruct (cs_aborted s); [discriminate|]. rewrite Hk in E.
    assert (Hkl : k < length (cs_tasks s)) by (apply nth_error_Some; congruence). apply Nat.ltb_lt in Hkl.
    destruct (c_waiter t); try discriminate. destruct (c_chan t) eqn:Ech; [rewrite (O2 _ eq_refl) in Hc; discriminate|].
    destruct (c_phase t); try discriminate; injection E as <-; unfold c_upd; cbn [cs_tasks];
      rewrite nth_error_upd, Nat.eqb_refl, Hkl; cbn [andb]; eexists; split; reflexivity.
Qed.

(** When [wait()] (outside the pool) stops blocking it has the value, or the closure panicked: it never gives up. *)
Theorem C30_wait_ends s s' k : Reached s -> cstep cl (4 * threads) handler (Wait k) s = Some s' ->
  exists t', nth_error (cs_tasks s') k = Some t' /\ c_waiter t' = match cl k with Some v => Got v | None => WaitPanicked end.
Proof.
  intros H E. unfold cstep in E. destruct (cs_aborted s); [discriminate|]. destruct (nth_error (cs_tasks s) k) as [t|] eqn:Hk; [|discriminate].
  assert (Hkl : k < length (cs_tasks s)) by (apply nth_error_Some; congruence). apply Nat.ltb_lt in Hkl.
  pose proof (ci_tasks _ _ _ (inv s H) k t Hk) as (O1 & O2 & O3 & O4 & O5 & O6 & O7 & O8 & O9 & O10).
  destruct (c_waiter t) eqn:Ew; try discriminate. destruct (c_chan t) as [v|] eqn:Ec.
  - injection E as <-. unfold c_upd. cbn [cs_tasks]. rewrite nth_error_upd, Nat.eqb_refl, Hkl. cbn [andb]. eexists. split; [reflexivity|]. cbn. now rewrite (O2 v eq_refl).
  - destruct (c_phase t) eqn:Ep; try discriminate; injection E as <-; unfold c_upd; cbn [cs_tasks]; rewrite nth_error_upd, Nat.eqb_refl, Hkl; cbn [andb];
      (eexists; split; [reflexivity|]); cbn.
    + destruct O4 as [N O4]; [now right|]. destruct (cl k); [specialize (O4 eq_refl); discriminate|reflexivity].
    + now rewrite (O10 eq_refl eq_refl).
Qed.

(** Once a closure has unwound (its own panic, or a result nobody could receive), its slot stays
    counted for ever; after more than [4 * threads] of these every further call runs inline. *)
Theorem C30_leak es s s' k t : Reached s -> nth_error (cs_tasks s) k = Some t -> c_phase t = Unwound ->
  crun cl (4 * threads) handler es s = Some s' ->
  0 < cs_counter s' /\ exists t', nth_error (cs_tasks s') k = Some t' /\ c_phase t' = Unwound.
Proof.
  intros H Hk Ep Hr. destruct (crun_later _ _ _ _ _ _ (inv s H) Hr k t Hk) as (t' & Hk' & _ & L & _).
  unfold later_phase in L. rewrite Ep in L. split; [|eauto].
  pose proof (CInv_run _ _ _ _ _ _ (inv s H) Hr) as I'. rewrite (ci_counter _ _ _ I').
  pose proof (count_upd unfinished _ k t' (mkC false Finished Live None) Hk') as E.
  unfold unfinished at 2 4 in E. rewrite L in E. cbn in E. lia.
Qed.

Theorem C30_degrades s s' : Reached s ->
  4 * threads < length (filter (fun t => match c_phase t with Unwound => true | _ => false end) (cs_tasks s)) ->
  cstep cl (4 * threads) handler Spawn s = Some s' ->
  exists t, cs_tasks s' = cs_tasks s ++ [t] /\ c_inline t = true.
Proof.
  intros H Hl E. unfold cstep in E. destruct (cs_aborted s); [discriminate|]. injection E as <-. cbn [cs_tasks].
  eexists. split; [reflexivity|]. cbn [c_inline]. apply Nat.ltb_lt. rewrite (ci_counter _ _ _ (inv s H)).
  eapply Nat.lt_le_trans; [exact Hl|]. apply count_le. intros t. unfold unfinished. destruct (c_phase t); auto.
Qed.

(** The single-threaded build (src/multicore.rs:158-183): [compute] runs the closure before returning. *)
Definition single_compute (f : option R) : outcome (option R) :=
  match f with Some v => Done (Some v) | None => Panicked end.
Definition single_wait (w : option R) : outcome R := match w with Some v => Done v | None => Panicked end.
Theorem C30_single (f : option R) : obind (single_compute f) single_wait = match f with Some v => Done v | None => Panicked end.
Proof. destruct f; reflexivity. Qed.
End C30.
Print Assumptions C30_counter.
Print Assumptions C30_backlog.
Print Assumptions C30_own_value.
Print Assumptions C30_at_most_once.
Print Assumptions C30_delivered.
Print Assumptions C30_panicking_closure.
Print Assumptions C30_wait_ends.
Print Assumptions C30_leak.
Print Assumptions C30_degrades.
Print Assumptions C30_single.

(** One thread: six calls; the sixth finds 5 > 4 unfinished and runs inline.  Closure 2 panics, closure 1's
    waiter is dropped early, closure 0 and the inline one deliver. *)
Example C30_ex :
  let cl := fun k => if k =? 2 then None else Some (10 * k) in
  match crun cl 4 true [Spawn; Spawn; Spawn; Spawn; Spawn; Spawn; Exec 5; Send 5; Dec 5; Wait 5; Exec 0; Send 0; Wait 0; Dec 0;
                        Exec 2; Wait 2; DropW 1; Exec 1; Send 1] c_init with
  | Some s => cs_counter s = 4 /\ map c_inline (cs_tasks s) = [false; false; false; false; false; true]
              /\ map c_waiter (cs_tasks s) = [Got 0; WDropped; WaitPanicked; Live; Live; Got 50]
              /\ map c_phase (cs_tasks s) = [Finished; Unwound; Unwound; Pending; Pending; Finished]
  | None => False
  end.
Proof. vm_compute. auto. Qed.
