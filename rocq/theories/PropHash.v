(** Property theorem C05: the circuit hash of TestConstraintSystem (src/gadgets/test/mod.rs:71-121, 229-252). *)
From Coq Require Import String.
From Coq Require Import ZArith List Bool Lia.
From Verif Require Import Prelude PrimeField Zp Fields Circuit Blake2sSpec TestCS TestCSProof TestHash.
Import ListNotations.
Local Open Scope nat_scope.

(** Two linear combinations are the same function of the assignment. *)
Definition same_lc {P : PrimeField} (l l' : LC P) : Prop := forall rho, eval rho l = eval rho l'.
Definition same_constraint {P : PrimeField} (c c' : LC P * LC P * LC P * string) : Prop :=
  let '(x, y, z, _) := c in let '(x', y', z', _) := c' in same_lc x x' /\ same_lc y y' /\ same_lc z z'.
Definition same_system {P : PrimeField} (s s' : TState P) : Prop :=
  List.length (t_inputs s) = List.length (t_inputs s') /\ List.length (t_aux s) = List.length (t_aux s') /\
  Forall2 same_constraint (t_cons s) (t_cons s').

(** The stream (hence the hash) depends on the counts and the combinations as functions only:
    names, values, order, duplicates and cancelling terms do not matter. *)
Theorem C05_stream_depends_only (P : PrimeField) (s s' : TState P) : same_system s s' ->
  hash_stream s = hash_stream s' /\ hash s = hash s'.
Proof.
  intros (H1 & H2 & H3).
  assert (H : hash_stream s = hash_stream s').
  { unfold hash_stream. rewrite H1, H2, (Forall2_length _ _ _ H3).
    replace (map hash_constraint (t_cons s')) with (map hash_constraint (t_cons s)); [reflexivity|].
    induction H3 as [|c c' cs cs' H H3 IH]; [reflexivity|]. cbn [map]. f_equal; [|now apply IH].
    destruct c as [[[x y] z] n], c' as [[[x' y'] z'] n']. destruct H as (Hx & Hy & Hz).
    apply proc_canonical in Hx, Hy, Hz. unfold hash_constraint, hash_lc. now rewrite Hx, Hy, Hz. }
  split; [exact H|]. unfold hash. now rewrite H.
Qed.
Print Assumptions C05_stream_depends_only.

(** Conversely the stream determines them, for systems with fewer than 2^64 variables and
    constraints, all constraints being over allocated variables. *)
Definition small {P : PrimeField} (s : TState P) : Prop :=
  (Z.of_nat (List.length (t_inputs s) + List.length (t_aux s)) < 2 ^ 64)%Z /\ (Z.of_nat (List.length (t_cons s)) < 2 ^ 64)%Z /\
  Forall (c_in_range s) (map fst (t_cons s)).
Theorem C05_stream_faithful (P : PrimeField) (s s' : TState P) (bytes : list Z) : small s -> small s' ->
  hash_stream s = Done bytes -> hash_stream s' = Done bytes -> same_system s s'.
Proof.
  intros (S1 & S2 & S3) (S1' & S2' & S3'). unfold hash_stream.
  destruct (oconcat (map hash_constraint (t_cons s))) as [b|] eqn:E; [|discriminate].
  destruct (oconcat (map hash_constraint (t_cons s'))) as [b'|] eqn:E'; [|discriminate].
  cbn [obind]. intros H H'. rewrite <- H' in H. apply Done_inj in H. rewrite <- !app_assoc in H.
  apply app_split in H; [|now rewrite !u64_be_length]. destruct H as [L1 H].
  apply app_split in H; [|now rewrite !u64_be_length]. destruct H as [L2 H].
  apply app_split in H; [|now rewrite !u64_be_length]. destruct H as [L3 H].
  apply u64_be_inj in L1, L2, L3; try (unfold u64_ok; lia).
  assert (HO : forall t : TState P, (Z.of_nat (List.length (t_inputs t) + List.length (t_aux t)) < 2 ^ 64)%Z ->
    Forall (c_in_range t) (map fst (t_cons t)) -> Forall con_ok (t_cons t)).
  { intros t Ht Hr. rewrite Forall_forall in *. intros c Hc. specialize (Hr _ (in_map fst _ _ Hc)).
    destruct c as [[[x y] z] n]. destruct Hr as (Rx & Ry & Rz). repeat split; now apply (lc_ok_range t). }
  pose proof (hash_cons_inj _ _ _ _ L3 (HO _ S1 S3) (HO _ S1' S3') E E' H) as HN.
  split; [exact L1|]. split; [exact L2|]. clear - HN. revert HN. generalize (t_cons s) (t_cons s').
  induction l as [|c l IH]; intros [|c' l'] HN; cbn in HN; try discriminate; constructor.
  - apply (f_equal (fun x => hd (con_norm c) x)) in HN. cbn [hd] in HN. destruct c as [[[x y] z] n], c' as [[[x' y'] z'] n'].
    cbn [con_norm] in HN. assert (H : proc_lc x = proc_lc x' /\ proc_lc y = proc_lc y' /\ proc_lc z = proc_lc z') by (repeat split; congruence).
    destruct H as (Hx & Hy & Hz). split; [|split]; unfold same_lc; now apply (proj1 (proc_canonical _ _)).
  - apply IH. now apply (f_equal (@tl _)) in HN.
Qed.
Print Assumptions C05_stream_faithful.

(** The hash is defined whenever the field elements have 32-byte representations, and it is the
    hexadecimal form of the BLAKE2s digest of the stream. *)
Theorem C05_defined (P : PrimeField) (s : TState P) : Nat.div (repr_bits P + 7) 8 = 32 ->
  exists bytes, hash_stream s = Done bytes /\
    hash s = Done (fold_left (fun acc b => (acc ++ hex_byte b)%string) (blake2s_spec (repeat 0%Z 8) bytes) EmptyString).
Proof.
  intros H.
  assert (HT : forall m : list (Var * P), exists b, oconcat (map hash_term m) = Done b).
  { induction m as [|t m [b IH]]; [exists []; reflexivity|]. cbn [map oconcat]. rewrite IH.
    unfold hash_term. replace (List.length (rev (to_repr (snd t)))) with 32.
    - cbn [Nat.eqb obind]. eauto.
    - rewrite rev_length. unfold to_repr. now rewrite map_length, seq_length. }
  assert (HL : forall l : LC P, exists b, hash_lc l = Done b).
  { intros l. unfold hash_lc. destruct (HT (proc_lc l)) as [b ->]. cbn [obind]. eauto. }
  assert (HC : forall cs : list (LC P * LC P * LC P * string), exists b, oconcat (map hash_constraint cs) = Done b).
  { induction cs as [|[[[x y] z] n] cs [b IH]]; [exists []; reflexivity|]. cbn [map oconcat hash_constraint]. rewrite IH.
    destruct (HL x) as [bx ->], (HL y) as [by' ->], (HL z) as [bz ->]. cbn [obind]. eauto. }
  unfold hash, hash_stream. destruct (HC (t_cons s)) as [b ->]. cbn [obind]. eauto.
Qed.
Print Assumptions C05_defined.

(** ** Example: the field of the dummy engine with 32-byte representations *)
Definition params_wide : ZpParams 64513.
Proof.
  refine (Build_ZpParams 64513 16 256 10 57751 5 _ _ _ _ _ _ _ _);
    solve [lia | vm_compute; congruence | vm_compute; reflexivity].
Defined.
Definition Wide : PrimeField := ZpField 64513 prime_64513 params_wide.
Definition ex_lc (l : list (Var * Z)) : LC Wide := map (fun t => (fst t, ofZ (snd t))) l.
Definition ex_sys (l : list (Var * Z)) : TState Wide :=
  mkT [] [] [(ex_lc l, ex_lc [(Input 0, 1%Z)], ex_lc [], "c"%string)] [(1%F, "ONE"%string)] [(ofZ 7, "x"%string); (ofZ 8, "y"%string)].
Definition ex_same (a b : TState Wide) : bool :=
  match hash_stream a, hash_stream b with
  | Done x, Done y => if list_eq_dec Z.eq_dec x y then true else false
  | _, _ => false
  end.
Example C05_ex :
  ex_same (ex_sys [(Aux 0, 2%Z); (Aux 1, 5%Z)]) (ex_sys [(Aux 1, 3%Z); (Input 0, 9%Z); (Aux 0, 2%Z); (Input 0, 64504%Z); (Aux 1, 2%Z)]) = true /\
  ex_same (ex_sys [(Aux 0, 2%Z); (Aux 1, 5%Z)]) (ex_sys [(Aux 0, 5%Z); (Aux 1, 2%Z)]) = false /\
  match hash_stream (ex_sys [(Aux 0, 2%Z); (Aux 1, 5%Z)]) with Done b => List.length b = 24 + (8 + 2 * 41) + (8 + 41) + 8 | Panicked => False end /\
  small (ex_sys [(Aux 0, 2%Z); (Aux 1, 5%Z)]).
Proof.
  split; [vm_compute; reflexivity|]. split; [vm_compute; reflexivity|]. split; [vm_compute; reflexivity|].
  repeat split; repeat constructor; discriminate.
Qed.
