(** Property theorem C19: batched equality constraints (src/gadgets/multieq.rs). *)
From Coq Require Import String.
From Coq Require Import ZArith List Bool Lia Field.
From Verif Require Import Prelude PrimeField Zp Fields Circuit Loops BooleanGadget NumGadget MultiEq Spec.
Import ListNotations.
Local Open Scope F_scope.

(** Whatever program [p] runs inside a MultiEq and whatever the constraint system replies: there is
    a sequence [eqs] of equality requests and a sequence [cs0] of direct constraints that [p] makes
    with those replies, every request is narrower than the capacity, and for every assignment the
    constraints [cs] actually enforced
    - imply the direct constraints and, given the ranges, every single requested equality;
    - follow from the direct constraints and the requested equalities. *)
Theorem C19_multieq (P : PrimeField) (A : Type) (p : prog P A) (r : A) (cs : list (Constraint P)) :
  emits (multieq_scope p) r cs [] ->
  exists cs0 eqs, emits p r cs0 eqs /\ Forall (fun q => (fst (fst q) < capacity P)%nat) eqs /\
    forall rho, rho one_var = 1 ->
      (sat rho cs -> sat rho cs0 /\ (Forall (in_range rho) eqs -> Forall (equal rho) eqs)) /\
      (sat rho cs0 -> Forall (equal rho) eqs -> sat rho cs).
Proof.
  intros He. destruct (multieq_scope_emits p r cs He) as (cs0 & eqs & [H1 H2] & H3).
  exists cs0, eqs. refine (conj H1 (conj H2 _)). intros rho Hone. destruct (H3 rho Hone) as (Ha & Hb & Hc).
  assert (EB : forall q, req_bounded rho q <-> in_range rho q) by (intros [[n l] r']; reflexivity).
  assert (EH : forall q, req_holds rho q <-> equal rho q) by (intros [[n l] r']; reflexivity).
  split.
  - intros Hs. split; [auto|]. intros HF. eapply Forall_impl; [intros q; apply EH|]. apply Ha; auto.
    eapply Forall_impl; [intros q; apply EB|]. exact HF.
  - intros Hs HF. apply Hc; auto. eapply Forall_impl; [intros q; apply EH|]. exact HF.
Qed.
Print Assumptions C19_multieq.

(** Conversely, a program all of whose requests are narrower than the capacity never panics in a
    MultiEq; a wider request does (by [C19_multieq] no result is returned then). *)
Theorem C19_no_panic (P : PrimeField) (A : Type) (p : prog P A) (r : A) cs0 eqs : emits p r cs0 eqs ->
  Forall (fun q => (fst (fst q) < capacity P)%nat) eqs -> exists cs, emits (multieq_scope p) r cs [].
Proof. exact (multieq_scope_exists p r cs0 eqs). Qed.
Print Assumptions C19_no_panic.

(** Honest synthesis: if the equalities hold of the prover's assignment, the run succeeds and all
    emitted constraints hold. *)
Theorem C19_complete (P : PrimeField) (A : Type) (p : prog P (res A)) (s : PState P) (Q : (Var -> P) -> A -> Prop) :
  wf_state s -> (forall rho, agrees rho s -> rho one_var = 1 -> wpC rho p (isOk (Q rho))) ->
  Complete (multieq_scope p) s Q.
Proof.
  intros Hw H. apply Complete_of; [auto|apply noeq_scope|]. intros rho Ha H1. apply wpC_multieq; auto.
Qed.
Print Assumptions C19_complete.

(** Three 8-bit requests in a field of capacity 15: the second overflows, the third too, and the last
    one is enforced on drop; all three are enforced, in three constraints.  With 7-bit requests two
    fit into one constraint. *)
Definition ex_req (n : nat) (i : nat) : prog Fr64513 unit :=
  cs_enforce_equal n (lc_add_var lc_zero (Aux i)) (lc_add_term lc_zero (ofZ 2) (Aux (3 + i))).
Definition ex_meq (n : nat) : prog Fr64513 (res unit) :=
  bind (ex_req n 0) (fun _ => bind (ex_req n 1) (fun _ => bind (ex_req n 2) (fun _ => Ret (Ok tt)))).
Example C19_ex :
  ex_run (multieq_scope (ex_meq 8)) (ex_state [200; 14; 6; 100; 7; 3]%Z) (fun _ _ => []) = Some ([], 3%nat, true) /\
  ex_run (multieq_scope (ex_meq 7)) (ex_state [100; 14; 6; 50; 7; 3]%Z) (fun _ _ => []) = Some ([], 2%nat, true) /\
  ex_run (multieq_scope (ex_meq 7)) (ex_state [100; 16; 6; 50; 7; 3]%Z) (fun _ _ => []) = Some ([], 2%nat, false) /\
  ex_run (multieq_scope (ex_meq 7)) (ex_state [100; 14; 8; 50; 7; 3]%Z) (fun _ _ => []) = Some ([], 2%nat, false) /\
  run (HonestCS Fr64513) (multieq_scope (ex_meq 15)) (ex_state [2; 4; 6; 1; 2; 3]%Z) = Panicked.
Proof. repeat split; vm_compute; reflexivity. Qed.

(** The range hypothesis is needed: outside of it two wrong equalities can cancel. *)
Example C19_ex_range :
  ex_run (multieq_scope (ex_meq 7)) (ex_state [100 + 128; 14 - 1; 6; 50; 7; 3]%Z) (fun _ _ => []) = Some ([], 2%nat, true).
Proof. vm_compute. reflexivity. Qed.
