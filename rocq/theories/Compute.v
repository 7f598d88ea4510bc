(** Transition system for [Worker::compute] and [Waiter] (src/multicore.rs:33-76, 93-117). *)
From Coq Require Import ZArith List Bool Lia.
From Verif Require Import Prelude Sched.
Import ListNotations.
Local Open Scope nat_scope.

(** Where the [k]-th closure handed to [compute] has got to. *)
Inductive Phase (R : Type) :=
| Pending                 (* counted by fetch_add, closure not yet run *)
| Computed (v : R)        (* [let res = f()] done *)
| Sent                    (* [sender.send(res).unwrap()] done *)
| Finished                (* [fetch_sub] done *)
| Unwound.                (* a panic unwound the closure: its sender is dropped, fetch_sub is skipped *)
Arguments Pending {R}. Arguments Computed {R}. Arguments Sent {R}. Arguments Finished {R}. Arguments Unwound {R}.

(** What became of the [Waiter] (the receiving end). *)
Inductive WState (R : Type) :=
| Unborn                  (* inline call still running inside [compute]: receiver alive, caller has no Waiter yet *)
| Live                    (* returned to the caller, not consumed *)
| Got (v : R)             (* [wait()] returned v *)
| WaitPanicked            (* [wait()] panicked *)
| WDropped                (* dropped without wait *)
| NeverReturned.          (* the inline closure panicked out of [compute] *)
Arguments Unborn {R}. Arguments Live {R}. Arguments Got {R}. Arguments WaitPanicked {R}. Arguments WDropped {R}. Arguments NeverReturned {R}.

Record CTask (R : Type) := mkC { c_inline : bool; c_phase : Phase R; c_waiter : WState R; c_chan : option R }.
Arguments mkC {R}. Arguments c_inline {R}. Arguments c_phase {R}. Arguments c_waiter {R}. Arguments c_chan {R}.

(** [WORKER_SPAWN_COUNTER], all calls so far, and whether rayon aborted the process. *)
Record CState (R : Type) := mkCS { cs_counter : nat; cs_tasks : list (CTask R); cs_aborted : bool }.
Arguments mkCS {R}. Arguments cs_counter {R}. Arguments cs_tasks {R}. Arguments cs_aborted {R}.

Inductive CEvent :=
| Spawn            (* some thread calls [compute] *)
| Exec (k : nat)   (* closure k runs *)
| Send (k : nat)   (* closure k sends its result *)
| Dec (k : nat)    (* closure k lowers the counter; an inline [compute] returns *)
| Wait (k : nat)   (* [wait()] on a thread outside the pool stops blocking *)
| WaitInPool (k : nat) (* [wait()] on a pool thread *)
| DropW (k : nat). (* the Waiter is dropped *)

Section Compute.
Context {R : Type}.
(** [cl k]: what the [k]-th closure does: return a value, or panic. *)
Variable cl : nat -> option R.
(** [*WORKER_SPAWN_MAX_COUNT] = 4 * threads, src/multicore.rs:16-19. *)
Variable max_count : nat.
(** rayon aborts the process when a spawned closure panics, unless a panic handler was installed. *)
Variable handler : bool.

Definition c_upd (k : nat) (t : CTask R) (s : CState R) : CState R := mkCS (cs_counter s) (upd k t (cs_tasks s)) (cs_aborted s).

(** A panic inside closure [k]: spawned closures hit rayon's handler, inline ones unwind through
    [rayon::scope] and [compute] into the caller. *)
Definition unwind (k : nat) (t : CTask R) (s : CState R) : CState R :=
  mkCS (cs_counter s)
    (upd k (mkC (c_inline t) Unwound (if c_inline t then NeverReturned else c_waiter t) (c_chan t)) (cs_tasks s))
    (cs_aborted s || negb (c_inline t) && negb handler).

(** Is the receiver alive? *)
Definition receiver_alive (w : WState R) : bool :=
  match w with Unborn | Live => true | _ => false end.

(** src/multicore.rs:33-76 and 98-108; [None]: the event is not possible in this state. *)
Definition cstep (e : CEvent) (s : CState R) : option (CState R) :=
  if cs_aborted s then None else
  match e with
  | Spawn =>
      (* previous_count = fetch_add(1); inline iff previous_count > max *)
      let inline := max_count <? cs_counter s in
      Some (mkCS (S (cs_counter s)) (cs_tasks s ++ [mkC inline Pending (if inline then Unborn else Live) None]) false)
  | Exec k =>
      match nth_error (cs_tasks s) k with
      | Some t => match c_phase t with
                  | Pending => match cl k with
                               | Some v => Some (c_upd k (mkC (c_inline t) (Computed v) (c_waiter t) (c_chan t)) s)
                               | None => Some (unwind k t s)
                               end
                  | _ => None
                  end
      | None => None
      end
  | Send k =>
      match nth_error (cs_tasks s) k with
      | Some t => match c_phase t with
                  | Computed v =>
                      if receiver_alive (c_waiter t)
                      then Some (c_upd k (mkC (c_inline t) Sent (c_waiter t) (Some v)) s)
                      else Some (unwind k t s)
                  | _ => None
                  end
      | None => None
      end
  | Dec k =>
      match nth_error (cs_tasks s) k with
      | Some t => match c_phase t with
                  | Sent => Some (mkCS (cs_counter s - 1)
                              (upd k (mkC (c_inline t) Finished (if c_inline t then Live else c_waiter t) (c_chan t)) (cs_tasks s)) false)
                  | _ => None
                  end
      | None => None
      end
  | Wait k =>
      match nth_error (cs_tasks s) k with
      | Some t => match c_waiter t with
                  | Live => match c_chan t with
                            | Some v => Some (c_upd k (mkC (c_inline t) (c_phase t) (Got v) None) s)
                            | None => match c_phase t with
                                      | Unwound | Finished => (* sender gone: recv() is Err, unwrap panics *)
                                          Some (c_upd k (mkC (c_inline t) (c_phase t) WaitPanicked None) s)
                                      | _ => None (* still blocking *)
                                      end
                            end
                  | _ => None
                  end
      | None => None
      end
  | WaitInPool k =>
      match nth_error (cs_tasks s) k with
      | Some t => match c_waiter t with
                  | Live => Some (c_upd k (mkC (c_inline t) (c_phase t) WaitPanicked None) s)
                  | _ => None
                  end
      | None => None
      end
  | DropW k =>
      match nth_error (cs_tasks s) k with
      | Some t => match c_waiter t with
                  | Live => Some (c_upd k (mkC (c_inline t) (c_phase t) WDropped None) s)
                  | _ => None
                  end
      | None => None
      end
  end.

Definition c_init : CState R := mkCS 0 [] false.

Fixpoint crun (es : list CEvent) (s : CState R) : option (CState R) :=
  match es with
  | [] => Some s
  | e :: r => match cstep e s with Some s' => crun r s' | None => None end
  end.

(** ** Invariants *)
Definition unfinished (t : CTask R) : bool := match c_phase t with Finished => false | _ => true end.
Definition count {X} (f : X -> bool) (l : list X) : nat := length (filter f l).

Definition task_ok (k : nat) (t : CTask R) : Prop :=
  (forall v, c_phase t = Computed v -> cl k = Some v) /\
  (forall v, c_chan t = Some v -> cl k = Some v) /\
  (forall v, c_waiter t = Got v -> cl k = Some v) /\
  (c_phase t = Sent \/ c_phase t = Finished -> cl k <> None /\ (c_waiter t = Live -> c_chan t = cl k)) /\
  (c_waiter t = Unborn -> c_inline t = true) /\
  (c_phase t <> Finished -> c_inline t = true -> c_waiter t = Unborn \/ c_waiter t = NeverReturned) /\
  (c_waiter t = NeverReturned -> c_phase t = Unwound) /\
  (c_inline t = true -> c_phase t = Finished -> c_waiter t <> Unborn) /\
  (c_inline t = true -> c_phase t = Sent -> c_chan t = cl k) /\
  (c_phase t = Unwound -> c_waiter t = Live -> cl k = None).

Record CInv (s : CState R) : Prop := {
  ci_counter : cs_counter s = count unfinished (cs_tasks s);
  ci_backlog : count (fun t => unfinished t && negb (c_inline t)) (cs_tasks s) <= max_count + 1;
  ci_tasks : forall k t, nth_error (cs_tasks s) k = Some t -> task_ok k t
}.

Lemma count_app {X} (f : X -> bool) l m : count f (l ++ m) = count f l + count f m.
Proof. unfold count. now rewrite filter_app, app_length. Qed.
Lemma count_upd {X} (f : X -> bool) l : forall k t t', nth_error l k = Some t ->
  count f (upd k t' l) + Nat.b2n (f t) = count f l + Nat.b2n (f t').
Proof.
  unfold count. induction l as [|x l IH]; intros [|k] t t' H; cbn [nth_error upd filter] in *; try discriminate.
  - injection H as <-. destruct (f x), (f t'); cbn; lia.
  - specialize (IH _ _ t' H). destruct (f x); cbn [length]; lia.
Qed.
Lemma count_le {X} (f g : X -> bool) l : (forall x, f x = true -> g x = true) -> count f l <= count g l.
Proof.
  unfold count. intros H. induction l as [|x l IH]; cbn; auto. specialize (H x). destruct (f x), (g x); cbn; try lia.
Qed.

Lemma task_upd_ok (s : CState R) k t : CInv s -> task_ok k t ->
  forall j t', nth_error (upd k t (cs_tasks s)) j = Some t' -> task_ok j t'.
Proof.
  intros I Ht j t'. rewrite nth_error_upd. destruct (Nat.eqb_spec k j) as [<-|]; cbn [andb].
  - destruct (k <? _); [now intros [= <-]|]. apply (ci_tasks _ I).
  - apply (ci_tasks _ I).
Qed.

(** The general step: task [k] goes from [t] to [t']. *)
Lemma CInv_upd s k t t' n a : CInv s -> nth_error (cs_tasks s) k = Some t -> task_ok k t' -> c_inline t' = c_inline t ->
  (n + Nat.b2n (unfinished t) = cs_counter s + Nat.b2n (unfinished t')) -> Nat.b2n (unfinished t') <= Nat.b2n (unfinished t) ->
  CInv (mkCS n (upd k t' (cs_tasks s)) a).
Proof.
  intros I H Ht Hi Hn Hu. split; cbn [cs_counter cs_tasks].
  - pose proof (count_upd unfinished _ k t t' H). rewrite (ci_counter _ I) in Hn. lia.
  - pose proof (count_upd (fun t => unfinished t && negb (c_inline t)) _ k t t' H) as E. cbn beta in E. rewrite Hi in E.
    pose proof (ci_backlog _ I). destruct (unfinished t), (unfinished t'), (c_inline t); cbn in *; lia.
  - now apply task_upd_ok.
Qed.

Ltac ok := unfold task_ok; cbn [c_inline c_phase c_waiter c_chan] in *; repeat apply conj; intros;
  repeat match goal with H : _ \/ _ |- _ => destruct H end; try discriminate; try congruence; auto;
  try (split; [congruence|]; intros; try discriminate; try congruence).
(** All cases of a task's fields at once. *)
Ltac bash := ok;
  repeat match goal with
    | H : Some _ = Some _ |- _ => injection H as H; subst
    | H : Got _ = Got _ |- _ => injection H as H; subst
    | H : Computed _ = Computed _ |- _ => injection H as H; subst
    | H : _ -> _ |- _ => let X := type of H in match X with ?A -> ?B =>
         assert B by (apply H; first [reflexivity | discriminate | congruence | (left; reflexivity) | (right; reflexivity)]); clear H end
    | H : forall v, ?A = Some v -> _ |- _ => specialize (H _ eq_refl)
    | H : forall v, ?A = Got v -> _ |- _ => specialize (H _ eq_refl)
    | H : forall v, ?A = Computed v -> _ |- _ => specialize (H _ eq_refl)
    | H : _ /\ _ |- _ => destruct H
    | H : _ \/ _ |- _ => destruct H
    end; try discriminate; try congruence; auto;
  try (split; [congruence|]; intros; try discriminate; congruence).

Lemma CInv_step e s s' : CInv s -> cstep e s = Some s' -> CInv s'.
Proof.
  intros I H. unfold cstep in H. destruct (cs_aborted s) eqn:Ea; [discriminate|].
  destruct e as [|k|k|k|k|k|k];
    try (destruct (nth_error (cs_tasks s) k) as [t|] eqn:Et; [|discriminate];
         pose proof (ci_tasks _ I k t Et) as O; destruct t as [i p w c]; unfold task_ok in O; cbn [c_inline c_phase c_waiter c_chan] in *;
         decompose [and] O; clear O).
  - injection H as <-. split; cbn [cs_counter cs_tasks].
    + rewrite count_app, (ci_counter _ I). cbn. lia.
    + rewrite count_app. pose proof (ci_backlog _ I) as B. pose proof (ci_counter _ I) as C.
      pose proof (count_le (fun t => unfinished t && negb (c_inline t)) unfinished (cs_tasks s)) as L.
      destruct (Nat.ltb_spec max_count (cs_counter s)); cbn in *; [lia|].
      specialize (L (fun x H => proj1 (andb_prop _ _ H))). lia.
    + intros k t. destruct (Nat.lt_ge_cases k (length (cs_tasks s))).
      * rewrite nth_error_app1 by auto. apply (ci_tasks _ I).
      * rewrite nth_error_app2 by auto. destruct (k - _) as [|[|]]; cbn [nth_error]; try discriminate. intros [= <-].
        generalize (max_count <? cs_counter s). intros b. destruct b; ok.
  - destruct p; try discriminate.
    destruct (cl k) as [v|] eqn:Ec; injection H as <-;
      (eapply CInv_upd; [exact I|exact Et| |reflexivity|cbn; try destruct p; cbn; lia|cbn; try destruct p; cbn; lia]); destruct i, w, c; bash.
  - destruct p; try discriminate.
    destruct (receiver_alive w) eqn:Er; injection H as <-;
      (eapply CInv_upd; [exact I|exact Et| |reflexivity|cbn; try destruct p; cbn; lia|cbn; try destruct p; cbn; lia]); destruct i, w, c; try discriminate; bash.
  - destruct p; try discriminate. injection H as <-.
    assert (Cp : 0 < cs_counter s).
    { rewrite (ci_counter _ I). pose proof (count_upd unfinished _ k _ (mkC false Finished Live None) Et) as E. cbn in E. lia. }
    eapply CInv_upd; [exact I|exact Et| |reflexivity|cbn; try destruct p; cbn; lia|cbn; try destruct p; cbn; lia]; destruct i, w, c; bash.
  - destruct w; try discriminate.
    destruct c as [v|]; [|destruct p; try discriminate]; injection H as <-;
      (eapply CInv_upd; [exact I|exact Et| |reflexivity|cbn; try destruct p; cbn; lia|cbn; try destruct p; cbn; lia]); destruct i; try destruct p; bash.
  - destruct w; try discriminate. injection H as <-.
    eapply CInv_upd; [exact I|exact Et| |reflexivity|cbn; try destruct p; cbn; lia|cbn; try destruct p; cbn; lia]; destruct i, p, c; bash.
  - destruct w; try discriminate. injection H as <-.
    eapply CInv_upd; [exact I|exact Et| |reflexivity|cbn; try destruct p; cbn; lia|cbn; try destruct p; cbn; lia]; destruct i, p, c; bash.
Qed.

Lemma CInv_init : CInv c_init.
Proof. split; cbn; auto; [lia|]. intros [|k]; discriminate. Qed.

Lemma CInv_run es : forall s s', CInv s -> crun es s = Some s' -> CInv s'.
Proof.
  induction es as [|e es IH]; intros s s' I H; cbn in H; [now injection H as <-|].
  destruct (cstep e s) eqn:E; [|discriminate]. eapply IH; [|exact H]. eapply CInv_step; eauto.
Qed.

(** Phases [Finished]/[Unwound] and consumed waiters are final; inline never changes. *)
Definition later_phase (p p' : Phase R) : Prop := match p with Finished | Unwound => p' = p | _ => True end.
Definition later_waiter (w w' : WState R) : Prop := match w with Unborn | Live => True | _ => w' = w end.
Definition later (t t' : CTask R) : Prop :=
  c_inline t' = c_inline t /\ later_phase (c_phase t) (c_phase t') /\ later_waiter (c_waiter t) (c_waiter t').

Lemma later_refl t : later t t.
Proof. repeat split; unfold later_phase, later_waiter; [destruct (c_phase t)|destruct (c_waiter t)]; auto. Qed.
Lemma later_trans t1 t2 t3 : later t1 t2 -> later t2 t3 -> later t1 t3.
Proof.
  unfold later, later_phase, later_waiter. intros (A1 & A2 & A3) (B1 & B2 & B3). split; [congruence|]. split.
  - destruct (c_phase t1); auto; rewrite A2 in B2; auto.
  - destruct (c_waiter t1); auto; rewrite A3 in B3; auto.
Qed.

Lemma upd_later (l : list (CTask R)) k0 t0' : (forall t0, nth_error l k0 = Some t0 -> later t0 t0') ->
  forall k t, nth_error l k = Some t -> exists t', nth_error (upd k0 t0' l) k = Some t' /\ later t t'.
Proof.
  intros H k t Hk. rewrite nth_error_upd. destruct (Nat.eqb_spec k0 k) as [->|]; cbn [andb].
  - assert (k < length l) as ->%Nat.ltb_lt by (apply nth_error_Some; congruence). eauto.
  - eauto using later_refl.
Qed.

Lemma cstep_later e s s' : CInv s -> cstep e s = Some s' -> forall k t, nth_error (cs_tasks s) k = Some t ->
  exists t', nth_error (cs_tasks s') k = Some t' /\ later t t'.
Proof.
  intros I H. unfold cstep in H. destruct (cs_aborted s); [discriminate|].
  destruct e as [|k0|k0|k0|k0|k0|k0];
    try (destruct (nth_error (cs_tasks s) k0) as [t0|] eqn:Et; [|discriminate];
         pose proof (ci_tasks _ I k0 t0 Et) as (O1 & O2 & O3 & O4 & O5 & O6 & O7 & O8 & O9 & O10)).
  - injection H as <-. cbn. intros k t Hk. exists t. split; [|apply later_refl].
    rewrite nth_error_app1; auto. apply nth_error_Some. congruence.
  - destruct (c_phase t0) eqn:Ep; try discriminate. destruct (cl k0); injection H as <-; unfold c_upd, unwind; cbn [cs_tasks]; apply upd_later;
      intros t1 E; rewrite Et in E; injection E as <-; unfold later, later_phase, later_waiter; cbn; rewrite Ep; repeat split.
    + destruct (c_waiter t0); auto.
    + destruct (c_inline t0) eqn:Ei; destruct (c_waiter t0) eqn:Ew; auto; destruct O6; congruence.
  - destruct (c_phase t0) eqn:Ep; try discriminate. destruct (receiver_alive _); injection H as <-; unfold c_upd, unwind; cbn [cs_tasks]; apply upd_later;
      intros t1 E; rewrite Et in E; injection E as <-; unfold later, later_phase, later_waiter; cbn; rewrite Ep; repeat split.
    + destruct (c_waiter t0); auto.
    + destruct (c_inline t0) eqn:Ei; destruct (c_waiter t0) eqn:Ew; auto; destruct O6; congruence.
  - destruct (c_phase t0) eqn:Ep; try discriminate. injection H as <-; cbn [cs_tasks]; apply upd_later;
      intros t1 E; rewrite Et in E; injection E as <-; unfold later, later_phase, later_waiter; cbn; rewrite Ep; repeat split.
    destruct (c_inline t0) eqn:Ei; destruct (c_waiter t0) eqn:Ew; auto; [destruct O6; congruence ..|].
    specialize (O7 eq_refl). congruence.
  - destruct (c_waiter t0) eqn:Ew; try discriminate. destruct (c_chan t0); [|destruct (c_phase t0) eqn:Ep; try discriminate]; injection H as <-; unfold c_upd; cbn [cs_tasks]; apply upd_later;
      intros t1 E; rewrite Et in E; injection E as <-; unfold later, later_phase, later_waiter; cbn; rewrite ?Ew, ?Ep; repeat split.
    destruct (c_phase t0); auto.
  - destruct (c_waiter t0) eqn:Ew; try discriminate. injection H as <-; unfold c_upd; cbn [cs_tasks]; apply upd_later;
      intros t1 E; rewrite Et in E; injection E as <-; unfold later, later_phase, later_waiter; cbn; rewrite ?Ew; repeat split. destruct (c_phase t0); auto.
  - destruct (c_waiter t0) eqn:Ew; try discriminate. injection H as <-; unfold c_upd; cbn [cs_tasks]; apply upd_later;
      intros t1 E; rewrite Et in E; injection E as <-; unfold later, later_phase, later_waiter; cbn; rewrite ?Ew; repeat split. destruct (c_phase t0); auto.
Qed.

Lemma crun_later es : forall s s', CInv s -> crun es s = Some s' -> forall k t, nth_error (cs_tasks s) k = Some t ->
  exists t', nth_error (cs_tasks s') k = Some t' /\ later t t'.
Proof.
  induction es as [|e es IH]; intros s s' I H k t Hk; cbn in H; [injection H as <-; eauto using later_refl|].
  destruct (cstep e s) as [s1|] eqn:E; [|discriminate].
  destruct (cstep_later _ _ _ I E _ _ Hk) as (t1 & H1 & L1).
  destruct (IH s1 s' (CInv_step _ _ _ I E) H _ _ H1) as (t2 & H2 & L2). eauto using later_trans.
Qed.

Lemma crun_app es es' s : crun (es ++ es') s = match crun es s with Some s1 => crun es' s1 | None => None end.
Proof. revert s; induction es; intros s; cbn; auto. destruct (cstep a s); auto. Qed.
End Compute.
