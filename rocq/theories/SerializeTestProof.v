(** Proofs about the test [serialization] of groth16/src/lib.rs. *)
From Coq Require Import String.
From Coq Require Import ZArith List Bool Lia Field.
From Coq Require Import Strings.Byte.
From Verif Require Import Prelude PrimeField FModule GRing Circuit Loops Multicore Domain FFTProof DomainProof Multiexp MultiexpProof PropMultiexp Assembly AssemblyProof PropAssembly Groth16 GeneratorProof PropGenerator PropGroth16
  Mimc MimcProof PropDemo Session Encoding EncodingProof PropEncoding PropStorage PropVerifier PropProofSpace SerializeTest.
From Verif Require PropDomain PropSession.
Import ListNotations.
Local Open Scope nat_scope.

Section Silly.
Context {P : PrimeField}.
Add Field PFsilly : (F_field P).

Definition silly_calls (a b : P) : list (call P) :=
  [CallAlloc a; CallAlloc b; CallAllocInput (a * b)%F; CallEnforce (lc_zero +v Aux 0)%lc (lc_zero +v Aux 1)%lc (lc_zero +v Input 1)%lc].
Lemma silly_keypair a b : synthesize_keypair (P := P) (silly None None) = synthesize_keypair (circuit_of (silly_calls a b)).
Proof. unfold synthesize_keypair, synthesize. rewrite !run_bindq. unfold cs_alloc_input, cs_alloc. cbn -[silly circuit_of silly_calls obind ka_new]. cbn [obind fst snd]. f_equal. Qed.
Lemma silly_shape a b : synthesize_shape (P := P) (silly None None) = synthesize_shape (circuit_of (silly_calls a b)).
Proof. reflexivity. Qed.
Lemma silly_prover a b : synthesize_prover (P := P) (silly (Some a) (Some b)) = synthesize_prover (circuit_of (silly_calls a b)).
Proof. unfold synthesize_prover, synthesize. rewrite !run_bindq. unfold cs_alloc_input, cs_alloc. cbn -[silly circuit_of silly_calls obind]. cbn [obind fst snd]. f_equal. Qed.
Lemma silly_honest a b : synthesize_honest (P := P) (silly (Some a) (Some b)) = synthesize_honest (circuit_of (silly_calls a b)).
Proof. reflexivity. Qed.
Lemma silly_scoped a b : scoped (silly_calls a b).
Proof. apply (in_scope_scoped (silly_calls a b) [] nothing_scoped). unfold silly_calls. cbn [in_scope the_inputs the_aux flat_map List.length]. repeat split; repeat constructor; cbn; lia. Qed.

(** The three constraints. *)
Definition silly_cons : list (Constraint P) :=
  [([(Aux 0, fone)], [(Aux 1, fone)], [(Input 1, fone)]); ([(Input 0, fone)], [], []); ([(Input 1, fone)], [], [])].
Definition silly_inst : KState P := {| k_inputs := 2; k_aux := 2; k_cons := silly_cons |}.
Lemma silly_describes : describes (P := P) (silly None None) silly_inst.
Proof. change (synthesize_shape (P := P) (silly None None) = Done (Ok silly_inst)). now rewrite (silly_shape fzero fzero), shape_synth. Qed.
Definition silly_wit (a b : P) : PState P := {| p_inputs := [fone; (a * b)%F]; p_aux := [a; b]; p_cons := silly_cons |}.
Lemma silly_assigns a b : assigns (P := P) (silly (Some a) (Some b)) (silly_wit a b).
Proof. change (synthesize_honest (P := P) (silly (Some a) (Some b)) = Done (Ok (silly_wit a b))). now rewrite silly_honest, honest_synth. Qed.
Lemma silly_satisfying a b : satisfying (silly_wit a b).
Proof.
  intros x y z Hin. cbn in Hin. repeat destruct Hin as [Hin|Hin]; try contradiction; injection Hin as <- <- <-;
    rewrite ?eval_add_var, ?eval_zero, ?eval_cons, ?eval_nil; cbn; ring.
Qed.
Lemma silly_same a b : same_circuit silly_inst (silly_wit a b). Proof. repeat split. Qed.
Lemma silly_addressable a b : addressable (silly_wit a b). Proof. repeat split; vm_compute; congruence. Qed.
Lemma silly_exponent : PropDomain.domain_exponent (List.length (k_cons silly_inst)) 2.
Proof. split; [cbn; lia|]. intros e' He'. assert (e' = 0 \/ e' = 1) as [-> | ->] by lia; cbn; lia. Qed.

(** ** The polynomials *)
Section Roots.
Hypothesis H2 : 2 < two_adicity P.
Definition w4 : P := domain_generator 2.
Lemma w4_sq : (w4 * w4)%F = (- (1))%F.
Proof.
  unfold w4, domain_generator. pose proof (root_prim 2 H2) as H. rewrite sqn_fpow in H. cbn [prim] in H. rewrite <- H. change (2 ^ 1) with 2. cbn [fpow]. ring.
Qed.
Definition q4 : P := finv (1 + 1 + 1 + 1)%F.
Lemma four : (1 + 1 + 1 + 1 : P)%F <> fzero.
Proof. intros H. assert (X : ((1 + 1) * (1 + 1) : P)%F = fzero) by (rewrite <- H; ring). apply fmul_0 in X as [X|X]; exact (f_2_neq_0 X). Qed.
Definition l0 : list P := [q4; q4; q4; q4].
Definition l1 : list P := [q4; - (w4 * q4); - q4; w4 * q4]%F.
Definition l2 : list P := [q4; - q4; q4; - q4]%F.
Definition zeros : list P := [].
Definition silly_U (v : Var) : list P := match v with Aux 0 => l0 | Input 0 => l1 | Input 1 => l2 | _ => zeros end.
Definition silly_V (v : Var) : list P := match v with Aux 1 => l0 | _ => zeros end.
Definition silly_W (v : Var) : list P := match v with Input 1 => l0 | _ => zeros end.
Lemma eval4 (a b c d x : P) : PropDomain.eval [a; b; c; d] x = (a + b * x + c * (x * x) + d * (x * x * x))%F.
Proof. unfold PropDomain.eval. cbn. ring. Qed.
Lemma lagrange k : k < 4 -> PropDomain.eval l0 (fpow w4 k) = nth k [1; 0; 0]%F fzero /\ PropDomain.eval l1 (fpow w4 k) = nth k [0; 1; 0]%F fzero /\ PropDomain.eval l2 (fpow w4 k) = nth k [0; 0; 1]%F fzero.
Proof.
  intros Hk. pose proof w4_sq as W. pose proof four as F. unfold l0, l1, l2. rewrite !eval4.
  assert (Q : (q4 * (1 + 1 + 1 + 1))%F = fone) by (apply finv_l, F).
  assert (Hp : fpow w4 0 = fone /\ fpow w4 1 = w4 /\ fpow w4 2 = (- (1))%F /\ fpow w4 3 = (- w4)%F).
  { cbn [fpow]. repeat split; [ring| |]; [transitivity (w4 * w4)%F; [ring|exact W]|]. transitivity (w4 * (w4 * w4))%F; [ring|]. rewrite W. ring. }
  destruct Hp as (P0 & P1 & P2 & P3). set (w := w4) in *. set (q := q4) in *.
  assert (Hk' : k = 0 \/ k = 1 \/ k = 2 \/ k = 3) by lia.
  destruct Hk' as [E|[E|[E|E]]]; subst k; rewrite ?P0, ?P1, ?P2, ?P3; cbn [nth]; repeat split.
  all: first [ring [W] | transitivity (q * (1 + 1 + 1 + 1))%F; [ring [W]|exact Q]].
Qed.
Lemma silly_polys : qap_polynomials silly_inst 2 silly_U silly_V silly_W.
Proof.
  assert (Z : forall v : list P, (forall k, nth k v fzero = fzero) -> PropDomain.has_values w4 (2 ^ 2) zeros v).
  { intros v Hv. split; [cbn; lia|]. intros k _. rewrite Hv. reflexivity. }
  assert (X : PropDomain.has_values w4 (2 ^ 2) l0 [1; 0; 0]%F /\ PropDomain.has_values w4 (2 ^ 2) l1 [0; 1; 0]%F /\ PropDomain.has_values w4 (2 ^ 2) l2 [0; 0; 1]%F).
  { split; [|split]; (split; [cbn; lia|]); intros k Hk; change (2 ^ 2) with 4 in Hk; destruct (lagrange k Hk) as (A & B & C); [exact A|exact B|exact C]. }
  destruct X as (X0 & X1 & X2).
  assert (Y : forall u v : list P, forall w m l, PropDomain.has_values w m l u -> u = v -> PropDomain.has_values w m l v) by (intros; subst; assumption).
  assert (L3 : forall a b c a' b' c' : P, a = a' -> b = b' -> c = c' -> [a; b; c] = [a'; b'; c']) by (intros; subst; reflexivity).
  intros v. fold w4. destruct v as [[|[|i]]|[|[|i]]]; unfold silly_U, silly_V, silly_W, column_A, column_B, column_C; cbn [k_cons silly_inst silly_cons map coefficient lc_zero].
  all: split; [|split].
  all: cbn [Nat.eqb]; try (apply Z; intros [|[|[|k]]]; cbn [nth]; [ring|ring|ring|destruct k; reflexivity]).
  all: eapply Y; [eassumption|].
  all: apply L3; ring.
Qed.

(** *** The polynomials at a point *)
Lemma ev0 t : PropDomain.eval l0 t = (q4 * ((1 + t) * (1 + t * t)))%F.
Proof. unfold l0. rewrite eval4. ring. Qed.
Lemma ev1 t : PropDomain.eval l1 t = (q4 * ((1 - w4 * t) * (1 - t * t)))%F.
Proof. unfold l1. rewrite eval4. pose proof w4_sq as W. set (w := w4) in *. ring [W]. Qed.
Lemma ev2 t : PropDomain.eval l2 t = (q4 * ((1 - t) * (1 + t * t)))%F.
Proof. unfold l2. rewrite eval4. ring. Qed.
Lemma evz t : PropDomain.eval zeros t = fzero.
Proof. reflexivity. Qed.
Lemma pow4 (t : P) : fpow t (2 ^ 2) = (t * t * (t * t))%F.
Proof. change (2 ^ 2) with 4. cbn [fpow]. ring. Qed.
Lemma q4_nonzero : q4 <> fzero.
Proof. apply finv_nonzero, four. Qed.
Lemma nonzero_at t : (t * t * (t * t))%F <> fone ->
  PropDomain.eval l0 t <> fzero /\ PropDomain.eval l1 t <> fzero /\ PropDomain.eval l2 t <> fzero /\
  ((1 + t)%F <> fzero /\ (1 - t)%F <> fzero /\ (1 + t * t)%F <> fzero).
Proof.
  intros H. pose proof w4_sq as W. pose proof q4_nonzero as Q.
  assert (A : (1 + t)%F <> fzero). { intros Z. apply H. transitivity ((1 + t) * (t - 1) * (1 + t * t) + 1)%F; [ring|]. rewrite Z. ring. }
  assert (B : (1 - t)%F <> fzero). { intros Z. apply H. transitivity ((1 - t) * (- (1) - t) * (1 + t * t) + 1)%F; [ring|]. rewrite Z. ring. }
  assert (C : (1 + t * t)%F <> fzero). { intros Z. apply H. transitivity ((1 + t) * (t - 1) * (1 + t * t) + 1)%F; [ring|]. rewrite Z. ring. }
  assert (D : (1 - w4 * t)%F <> fzero).
  { intros Z. apply C. set (w := w4) in *. transitivity ((1 - w * t) * (1 + w * t))%F; [ring [W]|]. rewrite Z. ring. }
  rewrite ev0, ev1, ev2. repeat split; auto; intros Z.
  - apply fmul_0 in Z as [Z|Z]; [auto|]. apply fmul_0 in Z as [Z|Z]; auto.
  - apply fmul_0 in Z as [Z|Z]; [auto|]. apply fmul_0 in Z as [Z|Z]; [auto|]. assert (Z' : ((1 + t) * (1 - t))%F = fzero) by (rewrite <- Z; ring). apply fmul_0 in Z' as [Z'|Z']; auto.
  - apply fmul_0 in Z as [Z|Z]; [auto|]. apply fmul_0 in Z as [Z|Z]; auto.
Qed.
Lemma nonzero_back t : PropDomain.eval l0 t <> fzero -> PropDomain.eval l1 t <> fzero -> (t * t * (t * t))%F <> fone.
Proof.
  rewrite ev0, ev1. intros A B H.
  assert (Z : ((1 + t) * (1 + t * t) * (1 - t))%F = fzero) by (transitivity (1 - t * t * (t * t))%F; [ring|]; rewrite H; ring).
  apply fmul_0 in Z as [Z|Z].
  - apply A. rewrite Z. ring.
  - apply B. transitivity (q4 * ((1 - w4 * t) * ((1 - t) * (1 + t))))%F; [ring|]. rewrite Z. ring.
Qed.
End Roots.
End Silly.

(** ** Equality is equality *)
Section Eq.
Context {P : PrimeField} {E : Engine P}.
Lemma vec_eq_refl {M : FMod P} (x : list M) : vec_eq x x = true.
Proof. induction x as [|a x IH]; cbn; auto. destruct (geqb_spec a a); cbn; congruence. Qed.
Lemma geqb_same {M : FMod P} (x : M) : geqb x x = true.
Proof. destruct (geqb_spec x x); congruence. Qed.
Lemma params_eq_refl (p : Parameters E) : params_eq p p = true.
Proof. unfold params_eq, vk_eq. now rewrite !vec_eq_refl, !geqb_same. Qed.
Lemma proof_eq_refl (p : Proof_ E) : proof_eq p p = true.
Proof. unfold proof_eq. now rewrite !geqb_same. Qed.
End Eq.

(** ** The key *)
Section Key.
Context {P : PrimeField} {E : Engine P} (B1 : GroupBytes (E_G1 E)) (B2 : GroupBytes (E_G2 E)).
Context (w : Worker) (g1 : E_G1 E) (g2 : E_G2 E) (alpha beta gamma delta tau : P).
Add Field PFkey : (F_field P).
Hypothesis H2 : 2 < two_adicity P.
Hypothesis Hw : wf_worker w.
Hypothesis Hu1 : uncompressed_len B1 = 96.
Hypothesis Hu2 : uncompressed_len B2 = 192.

Definition fine : Prop :=
  (g1 <> gzero /\ g2 <> gzero) /\ (alpha <> fzero /\ beta <> fzero /\ gamma <> fzero /\ delta <> fzero) /\
  (tau <> fzero /\ (tau * tau * (tau * tau))%F <> fone /\ (beta * (tau - 1))%F <> (tau + 1)%F).

Notation generated := (generate_parameters w (silly None None) g1 g2 alpha beta gamma delta tau).
Notation L0 := (PropDomain.eval l0 tau). Notation L1 := (PropDomain.eval l1 tau). Notation L2 := (PropDomain.eval l2 tau).

Lemma silly_documented params : generated = Done (Ok params) -> documented g1 g2 alpha beta gamma delta tau silly_inst 2 silly_U silly_V silly_W params.
Proof.
  intros Hg. destruct (C35_form g1 g2 alpha beta gamma delta tau w (silly None None) params Hw Hg) as (inst & e & Ek & He & _ & D).
  pose proof (@silly_describes P) as Hd. unfold describes in Hd, Ek. rewrite Ek in Hd. injection Hd as ->.
  assert (e = 2) by (apply (least_pow_unique (List.length (k_cons (@silly_inst P)))); apply PropDomain.domain_exponent_least; [exact He|exact silly_exponent]). subst e.
  apply D. exact (silly_polys H2).
Qed.

Lemma vector_length {M : FMod P} (B : GroupBytes M) (xs : list M) : List.length (vector_encoding B xs) = 4 + uncompressed_len B * List.length xs.
Proof.
  unfold vector_encoding. rewrite app_length. f_equal. induction xs as [|x xs IH]; cbn [flat_map List.length]; [lia|]. rewrite app_length, to_uncompressed_length, IH. lia.
Qed.
Lemma key_length params : generated = Done (Ok params) ->
  List.length (key_file B1 B2 params) = 1560 + 96 * (List.length (p_a params) + List.length (p_b_g1 params)) + 192 * List.length (p_b_g2 params).
Proof.
  intros Hg. destruct (silly_documented params Hg) as [_ _ _ _ _ _ Dic Dl Dh _ _ _].
  unfold key_file. rewrite params_write_eq. cbn [fst write_all room written app].
  unfold params_encoding, vk_encoding. rewrite !app_length, !vector_length, !to_uncompressed_length, Hu1, Hu2.
  rewrite Dic, Dl, Dh, !map_length, !seq_length. change (k_inputs silly_inst) with 2. change (k_aux silly_inst) with 2. change (2 ^ 2 - 1) with 3. lia.
Qed.

Lemma query_counts params : generated = Done (Ok params) ->
  let n {M : FMod P} (x : M) := if geqb x gzero then 0 else 1 in
  List.length (p_a params) = n (L1 *g g1) + n (L2 *g g1) + n (L0 *g g1) /\ List.length (p_b_g1 params) = n (L0 *g g1) /\ List.length (p_b_g2 params) = n (L0 *g g2).
Proof.
  intros Hg n. destruct (silly_documented params Hg) as [_ _ _ _ _ _ _ _ _ Da Db1 Db2]. rewrite Da, Db1, Db2.
  change (k_inputs silly_inst) with 2. change (k_aux silly_inst) with 2. unfold variables. cbn [seq map app silly_U silly_V]. rewrite !evz.
  unfold n. split; [|split]; cbn [filter]; rewrite !gmul_0_l, !geqb_same.
  all: repeat match goal with |- context [geqb ?x ?y] => destruct (geqb x y) end; reflexivity.
Qed.

Lemma l_free : fine -> forall i, i < k_aux (@silly_inst P) ->
  ((beta * PropDomain.eval (silly_U (Aux i)) tau + alpha * PropDomain.eval (silly_V (Aux i)) tau + PropDomain.eval (silly_W (Aux i)) tau) * finv delta)%F *g g1 <> gzero.
Proof.
  intros ((N1 & N2) & (Na & Nb & Ng & Nd) & (Nt & Nt4 & Nq)) i Hi Z. destruct (nonzero_at H2 tau Nt4) as (K0 & K1 & K2 & _).
  apply scaled_zero in Z; [|exact N1|apply finv_nonzero, Nd]. cbn [k_aux silly_inst] in Hi.
  destruct i as [|[|i]]; [| |lia]; cbn [silly_U silly_V silly_W] in Z; rewrite !evz in Z.
  - assert (Z' : (beta * L0)%F = fzero) by (rewrite <- Z; ring). apply fmul_0 in Z' as [Z'|Z']; auto.
  - assert (Z' : (alpha * L0)%F = fzero) by (rewrite <- Z; ring). apply fmul_0 in Z' as [Z'|Z']; auto.
Qed.

Lemma generated_fine : fine -> exists params, generated = Done (Ok params).
Proof.
  intros HF. destruct (proj1 (C06_keygen_defined (P := P) (silly_calls fzero fzero)) (silly_scoped _ _)) as [s Es]. rewrite <- silly_keypair in Es.
  destruct (generate_cases g1 g2 alpha beta gamma delta tau w (silly None None) s Hw Es) as (ks & e & Ek & He & Hl & _ & G & _).
  pose proof (@silly_describes P) as Hd. unfold describes in Hd, Ek. rewrite Ek in Hd. injection Hd as ->.
  assert (e = 2) by (apply (least_pow_unique (List.length (k_cons (@silly_inst P)))); apply PropDomain.domain_exponent_least; [exact He|exact silly_exponent]). subst e.
  rewrite G by (intros _; split; [cbn; lia|cbn; lia]). clear G.
  destruct (Nat.ltb_spec 2 (two_adicity P)); [|lia]. cbn [negb].
  pose proof (l_free HF) as FL. destruct HF as (_ & (_ & _ & Ng & Nd) & _).
  destruct (feqb_spec gamma fzero); [contradiction|]. destruct (feqb_spec delta fzero); [contradiction|]. cbn [orb].
  destruct (existsb _ _) eqn:Ex; [|eexists; reflexivity]. exfalso.
  apply (existsb_l g1 g2 alpha beta gamma delta tau silly_inst 2 silly_U silly_V silly_W H2 Hl Ng Nd (silly_polys H2)) in Ex as (i & Hi & Z).
  exact (FL i Hi Z).
Qed.

Lemma ic_values : let v i := (beta * PropDomain.eval (silly_U (Input i)) tau + alpha * PropDomain.eval (silly_V (Input i)) tau + PropDomain.eval (silly_W (Input i)) tau)%F in
  v 0 = (beta * L1)%F /\ v 1 = (q4 * ((1 + tau * tau) * (tau + 1 - beta * (tau - 1))))%F.
Proof. cbv zeta. cbn [silly_U silly_V silly_W]. rewrite !evz, ev0, ev2. split; ring. Qed.

Lemma no_accident_iff : beta <> fzero -> (tau * tau * (tau * tau))%F <> fone ->
  (no_accident alpha beta tau silly_inst 2 silly_U silly_V silly_W <-> tau <> fzero /\ (beta * (tau - 1))%F <> (tau + 1)%F).
Proof.
  intros Nb Nt4. destruct (nonzero_at H2 tau Nt4) as (K0 & K1 & K2 & _ & _ & K5). destruct ic_values as [V0 V1]. pose proof (@q4_nonzero P) as Q.
  unfold no_accident. cbn [k_inputs silly_inst]. rewrite pow4. split.
  - intros (A & _ & C). split; [apply C; lia|]. intros Z. apply (A 1); [lia|]. rewrite V1, Z. ring.
  - intros (A & C). split; [|split; [intros _; exact Nt4|intros _; exact A]]. intros [|[|i]] Hi; [| |lia].
    + rewrite V0. intros Z. apply fmul_0 in Z as [Z|Z]; auto.
    + rewrite V1. intros Z. apply fmul_0 in Z as [Z|Z]; [auto|]. apply fmul_0 in Z as [Z|Z]; [auto|]. apply C.
      transitivity (tau + 1 - (tau + 1 - beta * (tau - 1)))%F; [ring|]. rewrite Z. ring.
Qed.

Lemma silly_fits : counts_fit (@silly_inst P) 2.
Proof. split; vm_compute; congruence. Qed.

Lemma written_key params : params_write B1 B2 params (mkWriter [] None) = (mkWriter (key_file B1 B2 params) None, Ok tt).
Proof. unfold key_file. rewrite params_write_eq. reflexivity. Qed.

Theorem key_iff :
  (fine -> exists params, generated = Done (Ok params) /\ key_part B1 B2 generated = Done params) /\
  (~ fine -> key_part B1 B2 generated = Panicked).
Proof.
  assert (X : forall params, generated = Done (Ok params) ->
    (fine -> key_part B1 B2 generated = Done params) /\ (~ fine -> key_part B1 B2 generated = Panicked)).
  { intros params Hg. rewrite Hg. unfold key_part. cbn [obind unwrapped]. rewrite written_key. cbn [obind unwrapped written].
    pose proof (key_length params Hg) as KL. destruct (query_counts params Hg) as (Ca & Cb1 & Cb2).
    destruct (generate_ok_inv g1 g2 alpha beta gamma delta tau w _ params Hw Hg) as (_ & ks & e & _ & _ & Ek & He & Hle & _ & Ng & Nd & Ep & Ex).
    assert (Hl : existsb is_identity (p_l params) = false) by exact Ex.
    pose proof (silly_documented params Hg) as D. destruct D as [_ _ _ _ _ _ _ Dl _ _ _ _].
    assert (LI : forall i, i < 2 -> ((beta * PropDomain.eval (silly_U (Aux i)) tau + alpha * PropDomain.eval (silly_V (Aux i)) tau + PropDomain.eval (silly_W (Aux i)) tau) * finv delta)%F *g g1 <> gzero).
    { intros i Hi Z. rewrite Dl in Hl. assert (T : existsb is_identity (map (fun i => ((beta * PropDomain.eval (silly_U (Aux i)) tau + alpha * PropDomain.eval (silly_V (Aux i)) tau
                                  + PropDomain.eval (silly_W (Aux i)) tau) * finv delta)%F *g g1) (seq 0 (k_aux (@silly_inst P)))) = true); [|congruence].
      apply existsb_exists. eexists. split; [apply in_map_iff; exists i; split; [reflexivity|apply in_seq; cbn; lia]|]. apply is_identity_iff. exact Z. }
    assert (N1 : g1 <> gzero). { intros Z. apply (LI 0); [lia|]. rewrite Z. apply gmul_0_r. }
    assert (Nb : beta <> fzero). { intros Z. apply (LI 0); [lia|]. apply scaled_zero; [exact N1|apply finv_nonzero, Nd|]. cbn [silly_U silly_V silly_W]. rewrite !evz, Z. ring. }
    assert (Na : alpha <> fzero). { intros Z. apply (LI 1); [lia|]. apply scaled_zero; [exact N1|apply finv_nonzero, Nd|]. cbn [silly_U silly_V silly_W]. rewrite !evz, Z. ring. }
    assert (K0 : L0 <> fzero). { intros Z. apply (LI 0); [lia|]. apply scaled_zero; [exact N1|apply finv_nonzero, Nd|]. cbn [silly_U silly_V silly_W]. rewrite !evz, Z. ring. }
    assert (RB : forall checked, g2 <> gzero -> (tau * tau * (tau * tau))%F <> fone ->
      read_back B1 B2 checked params (key_file B1 B2 params) = if feqb tau fzero || feqb (beta * (tau - 1))%F (tau + 1)%F then Panicked else Done tt).
    { intros checked N2 Nt4. unfold read_back.
      pose proof (C63_key_comes_back B1 B2 w (silly None None) silly_inst 2 silly_U silly_V silly_W g1 g2 alpha beta gamma delta tau params checked [] UnexpectedEof
        Hw N1 N2 Hg silly_describes silly_exponent (silly_polys H2) silly_fits) as [A B]. rewrite app_nil_r in A, B.
      pose proof (no_accident_iff Nb Nt4) as NA.
      destruct (feqb_spec tau fzero) as [Zt|Nt]; [|destruct (feqb_spec (beta * (tau - 1))%F (tau + 1)%F) as [Zq|Nq]]; cbn [orb].
      - rewrite B; [reflexivity|]. intros Z. apply NA in Z. tauto.
      - rewrite B; [reflexivity|]. intros Z. apply NA in Z. tauto.
      - rewrite A; [|apply NA; auto]. cbn [unwrapped obind fst]. rewrite params_eq_refl. reflexivity. }
    assert (LN : len_is 2136 (key_file B1 B2 params) = true <-> g2 <> gzero /\ (tau * tau * (tau * tau))%F <> fone).
    { unfold len_is. rewrite Z.eqb_eq, KL, Ca, Cb1, Cb2. clear - N1 K0 H2.
      destruct (geqb_spec (L0 *g g1) gzero) as [Z|_]; [exfalso; apply gmul_zero_iff in Z; auto|].
      destruct (geqb_spec (L0 *g g2) gzero) as [Z2|Z2]; destruct (geqb_spec (L1 *g g1) gzero) as [Z3|Z3]; destruct (geqb_spec (L2 *g g1) gzero) as [Z4|Z4].
      all: split; intros H; try (exfalso; lia); try reflexivity.
      - exfalso. destruct H as [N2 _]. apply gmul_zero_iff in Z2; auto.
      - exfalso. destruct H as [N2 _]. apply gmul_zero_iff in Z2; auto.
      - exfalso. destruct H as [N2 _]. apply gmul_zero_iff in Z2; auto.
      - exfalso. destruct H as [N2 _]. apply gmul_zero_iff in Z2; auto.
      - exfalso. destruct H as [_ H]. destruct (nonzero_at H2 tau H) as (_ & K1 & _). apply gmul_zero_iff in Z3; auto.
      - exfalso. destruct H as [_ H]. destruct (nonzero_at H2 tau H) as (_ & K1 & _). apply gmul_zero_iff in Z3; auto.
      - exfalso. destruct H as [_ H]. destruct (nonzero_at H2 tau H) as (_ & _ & K2 & _). apply gmul_zero_iff in Z4; auto.
      - split; [intros Z; apply Z2; rewrite Z; apply gmul_0_r|]. apply (nonzero_back H2); [exact K0|]. intros Z. apply Z3. rewrite Z. apply gmul_0_l. }
    split.
    - intros ((_ & N2) & _ & (Nt & Nt4 & Nq)). rewrite (proj2 LN) by auto. cbn [must obind]. rewrite !RB by auto.
      destruct (feqb_spec tau fzero); [contradiction|]. destruct (feqb_spec (beta * (tau - 1))%F (tau + 1)%F); [contradiction|]. reflexivity.
    - intros HF. destruct (len_is 2136 (key_file B1 B2 params)) eqn:El; [|reflexivity]. destruct (proj1 LN eq_refl) as [N2 Nt4]. cbn [must obind]. rewrite !RB by auto.
      destruct (feqb_spec tau fzero); [reflexivity|]. destruct (feqb_spec (beta * (tau - 1))%F (tau + 1)%F); [reflexivity|]. exfalso. apply HF. unfold fine. tauto. }
  split.
  - intros HF. destruct (generated_fine HF) as [params Hg]. exists params. split; [exact Hg|]. now apply (X params Hg).
  - intros HF. destruct generated as [[params|err]|] eqn:Hg; [|reflexivity|reflexivity]. exact (proj2 (X params eq_refl) HF).
Qed.
End Key.


(** ** One round *)
Section Round.
Context {P : PrimeField} {E : Engine P} (B1 : GroupBytes (E_G1 E)) (B2 : GroupBytes (E_G2 E)).
Context (w w' : Worker) (ln_ceil : Z -> nat) (g1 : E_G1 E) (g2 : E_G2 E) (alpha beta gamma delta tau : P).
Add Field PFround : (F_field P).
Hypothesis H2 : 2 < two_adicity P.
Hypothesis Hw : wf_worker w.
Hypothesis Hw' : wf_worker w'.
Hypothesis Hln : sane_ln_ceil ln_ceil.
Hypothesis Hr1 : repr_len B1 = 48.
Hypothesis Hr2 : repr_len B2 = 96.
Hypothesis Hnd : forall (x : E_G1 E) (y : E_G2 E), pair x y = gzero -> x = gzero \/ y = gzero.
Notation generated := (generate_parameters w (silly None None) g1 g2 alpha beta gamma delta tau).

Lemma silly_occurs a b : forall i, i < 2 -> ~ occurs part_B (silly_wit a b : PState P) (Input i).
Proof.
  intros i Hi (k & c & Hk & Hc & _). cbn [silly_wit p_cons] in Hk. unfold silly_cons in Hk. cbn [In] in Hk.
  destruct Hk as [Hk|[Hk|[Hk|[]]]]; subst k; unfold part_B in Hc; cbn [fst snd In] in Hc; repeat destruct Hc as [Hc|Hc]; try contradiction; discriminate.
Qed.
Lemma silly_occurs_A1 a b : ~ occurs part_A (silly_wit a b : PState P) (Aux 1).
Proof.
  intros (k & c & Hk & Hc & _). cbn [silly_wit p_cons] in Hk. unfold silly_cons in Hk. cbn [In] in Hk.
  destruct Hk as [Hk|[Hk|[Hk|[]]]]; subst k; unfold part_A in Hc; cbn [fst snd In] in Hc; repeat destruct Hc as [Hc|Hc]; try contradiction; discriminate.
Qed.
Lemma silly_occurs_B0 a b : ~ occurs part_B (silly_wit a b : PState P) (Aux 0).
Proof.
  intros (k & c & Hk & Hc & _). cbn [silly_wit p_cons] in Hk. unfold silly_cons in Hk. cbn [In] in Hk.
  destruct Hk as [Hk|[Hk|[Hk|[]]]]; subst k; unfold part_B in Hc; cbn [fst snd In] in Hc; repeat destruct Hc as [Hc|Hc]; try contradiction; discriminate.
Qed.

Lemma created_fine params a b r s : fine g1 g2 alpha beta gamma delta tau -> generated = Done (Ok params) ->
  exists proof, create_proof w' ln_ceil (silly (Some a) (Some b)) params r s = Done (Ok proof) /\
    verify_proof (prepare_verifying_key (p_vk params)) proof [(a * b)%F] = Done (Ok tt).
Proof.
  intros ((N1 & N2) & (Na & Nb & Ng & Nd) & (Nt & Nt4 & Nq)) Hg. destruct (nonzero_at H2 tau Nt4) as (K0 & K1 & K2 & _).
  destruct (proj1 (C06_keygen_defined (P := P) (silly_calls a b)) (silly_scoped _ _)) as [s0 Es].
  destruct (prover_defined _ _ Es) as [t Et]. rewrite <- silly_prover in Et.
  assert (Nt4' : fpow tau (2 ^ 2) <> fone) by (rewrite pow4; exact Nt4).
  assert (BK : bookkeeping_agrees (silly_wit a b) silly_U silly_V tau).
  { unfold bookkeeping_agrees. cbn [p_inputs p_aux silly_wit List.length]. split; [|split; [|split]].
    - intros [|[|i]] Hi; [exact K1|exact K2|lia].
    - intros [|[|i]] Hi Ho; [exact K0|exfalso; exact (silly_occurs_A1 a b Ho)|lia].
    - intros i Hi Ho. exfalso. exact (silly_occurs a b i Hi Ho).
    - intros [|[|i]] Hi Ho; [exfalso; exact (silly_occurs_B0 a b Ho)|exact K0|lia]. }
  destruct (proj2 (proj1 (C37_prover_succeeds_iff g1 g2 alpha beta gamma delta tau w w' ln_ceil (silly None None) (silly (Some a) (Some b)) silly_inst (silly_wit a b) params t 2
    silly_U silly_V silly_W r s Hw Hw' Hln Hg silly_describes (silly_assigns a b) (silly_same a b) (silly_addressable a b) Et N1 N2 silly_exponent Nt Nt4' (silly_polys H2))) BK) as [proof Hp].
  exists proof. split; [exact Hp|].
  exact (C37_proofs_verify g1 g2 alpha beta gamma delta tau w w' ln_ceil (silly None None) (silly (Some a) (Some b)) silly_inst (silly_wit a b) params r s proof
    Hw Hw' Hln Hg silly_describes (silly_assigns a b) (silly_same a b) (silly_addressable a b) (silly_satisfying a b) Hp).
Qed.

Lemma wrong_input params proof a c : fine g1 g2 alpha beta gamma delta tau -> generated = Done (Ok params) ->
  verify_proof (prepare_verifying_key (p_vk params)) proof [c] = Done (Ok tt) ->
  (a = c /\ verify_proof (prepare_verifying_key (p_vk params)) proof [a] = Done (Ok tt)) \/
  (a <> c /\ verify_proof (prepare_verifying_key (p_vk params)) proof [a] = Done (Err InvalidProof)).
Proof.
  intros HF Hg Hv. destruct (feq_dec a c) as [Ea|Na]; [left; subst; auto|right]. split; [exact Na|].
  pose proof HF as ((N1 & N2) & (_ & Nb & Ng & Nd) & (Nt & Nt4 & Nq)).
  destruct (nonzero_at H2 tau Nt4) as (K0 & K1 & K2 & _ & _ & K5).
  pose proof (silly_documented w g1 g2 alpha beta gamma delta tau H2 Hw params Hg) as D.
  pose proof (doc_ic _ _ _ _ _ _ _ _ _ _ _ _ _ D) as Dic. pose proof (doc_gamma_g2 _ _ _ _ _ _ _ _ _ _ _ _ _ D) as Dg. clear D.
  change (k_inputs silly_inst) with 2 in Dic. cbn [seq map] in Dic.
  apply C38_invalid_proof_iff. split; [rewrite Dic; reflexivity|]. intros Hv'. apply C38_accepts_iff in Hv'.
  assert (HG : gamma_g2 (p_vk params) <> gzero). { rewrite Dg. intros Z. apply gmul_zero_iff in Z; auto. }
  pose proof (C57_inputs (p_vk params) proof [a] [c] (fun x Hx => match Hnd x _ Hx with or_introl A => A | or_intror B => False_ind _ (HG B) end) Hv' Hv) as C.
  rewrite Dic in C. cbn [tl combination] in C. destruct (ic_values alpha beta tau) as [_ V1]. cbv zeta in V1. rewrite V1 in C.
  set (v := (q4 * ((1 + tau * tau) * (tau + 1 - beta * (tau - 1))))%F) in *.
  assert (NV : v <> fzero).
  { intros Z. apply fmul_0 in Z as [Z|Z]; [exact (q4_nonzero Z)|]. apply fmul_0 in Z as [Z|Z]; [auto|]. apply Nq.
    transitivity (tau + 1 - (tau + 1 - beta * (tau - 1)))%F; [ring|]. rewrite Z. ring. }
  assert (Z : ((a - c) * v * finv gamma)%F *g g1 = gzero).
  { transitivity (a *g ((v * finv gamma)%F *g g1) +g gzero -g (c *g ((v * finv gamma)%F *g g1) +g gzero)); [gcoeffs; ring|]. rewrite C. gcoeffs; ring. }
  apply scaled_zero in Z; [|exact N1|apply finv_nonzero, Ng]. apply fmul_0 in Z as [Z|Z]; [|contradiction].
  apply Na. transitivity (a - c + c)%F; [ring|]. rewrite Z. ring.
Qed.

Lemma proof_file_length (proof : Proof_ E) : len_is 192 (proof_encoding B1 B2 proof) = true.
Proof. unfold len_is, proof_encoding. rewrite !app_length, !to_bytes_length, Hr1, Hr2. reflexivity. Qed.

Theorem round_iff params a b r s : fine g1 g2 alpha beta gamma delta tau -> generated = Done (Ok params) ->
  exists proof, create_proof w' ln_ceil (silly (Some a) (Some b)) params r s = Done (Ok proof) /\
  let result := proof_part B1 B2 (prepare_verifying_key (p_vk params)) a (a * b)%F (create_proof w' ln_ceil (silly (Some a) (Some b)) params r s) in
  (~ PropSession.has_identity proof /\ a <> (a * b)%F -> result = Done tt) /\
  (PropSession.has_identity proof \/ a = (a * b)%F -> result = Panicked).
Proof.
  intros HF Hg. destruct (created_fine params a b r s HF Hg) as (proof & Hp & Hv). exists proof. split; [exact Hp|]. rewrite Hp. cbv zeta.
  unfold proof_part. cbn [obind unwrapped]. rewrite proof_write_eq. unfold write_all. cbn [room written app]. cbn [obind unwrapped written]. rewrite proof_file_length. cbn [must obind].
  pose proof (proof_own B1 B2 proof [] UnexpectedEof) as PO. rewrite app_nil_r in PO. rewrite PO. clear PO.
  assert (HI : (is_identity (proof_a proof) || is_identity (proof_b proof) || is_identity (proof_c proof))%bool = true <-> PropSession.has_identity proof).
  { rewrite !orb_true_iff, !is_identity_iff. unfold PropSession.has_identity. tauto. }
  destruct (_ || _ || _)%bool.
  - cbn [unwrapped obind]. split; [intros [A _]; exfalso; apply A, HI; reflexivity|reflexivity].
  - cbn [unwrapped obind fst]. rewrite proof_eq_refl. cbn [must obind]. rewrite Hv. cbn [obind is_ok must].
    destruct (wrong_input params proof a (a * b)%F HF Hg Hv) as [[A Hx]|[A Hx]]; rewrite Hx; cbn [obind is_err is_ok negb must].
    + split; [intros [_ B]; contradiction|reflexivity].
    + split; [reflexivity|]. intros [B|B]; [apply HI in B; discriminate|contradiction].
Qed.
End Round.

(** ** The rounds and the test *)
Section Rounds.
Context {P : PrimeField} {E : Engine P} (R : Rng E) (B1 : GroupBytes (E_G1 E)) (B2 : GroupBytes (E_G2 E)).
Context (w w' : Worker) (ln_ceil : Z -> nat).
Add Field PFrounds : (F_field P).
Hypothesis H2 : 2 < two_adicity P.
Hypothesis Hw : wf_worker w.
Hypothesis Hw' : wf_worker w'.
Hypothesis Hln : sane_ln_ceil ln_ceil.
Hypothesis Hr1 : repr_len B1 = 48.
Hypothesis Hr2 : repr_len B2 = 96.
Hypothesis Hnd : forall (x : E_G1 E) (y : E_G2 E), pair x y = gzero -> x = gzero \/ y = gzero.

Definition round_ok (params : Parameters E) (rng : rng_state R) (i : nat) : Prop :=
  let a := draws R rng (4 * i) in let b := draws R rng (4 * i + 1) in
  a <> fzero /\ b <> fone /\
  exists proof, create_proof w' ln_ceil (silly (Some a) (Some b)) params (draws R rng (4 * i + 2)) (draws R rng (4 * i + 3)) = Done (Ok proof) /\
    proof_a proof <> gzero /\ proof_b proof <> gzero /\ proof_c proof <> gzero.

Lemma differs (a b : P) : a <> (a * b)%F <-> a <> fzero /\ b <> fone.
Proof.
  split.
  - intros H. split; intros Z; apply H; rewrite Z; ring.
  - intros [A B] Z. apply B. assert (X : (a * (b - 1))%F = fzero) by (transitivity (a * b - a)%F; [ring|]; rewrite <- Z; ring).
    apply fmul_0 in X as [X|X]; [contradiction|]. transitivity (b - 1 + 1)%F; [ring|]. rewrite X. ring.
Qed.

Lemma draws_later (rng : rng_state R) m k : draws R (state_after R rng m) k = draws R rng (m + k).
Proof. revert rng. induction m as [|m IH]; intros rng; [reflexivity|]. cbn [state_after Nat.add]. rewrite IH. reflexivity. Qed.

Theorem rounds_iff g1 g2 alpha beta gamma delta tau params : fine (E := E) g1 g2 alpha beta gamma delta tau ->
  generate_parameters w (silly None None) g1 g2 alpha beta gamma delta tau = Done (Ok params) ->
  forall n rng,
  let result := proof_rounds R B1 B2 w' ln_ceil params (prepare_verifying_key (p_vk params)) n rng in
  (result = Done tt \/ result = Panicked) /\ (result = Done tt <-> forall i, i < n -> round_ok params rng i).
Proof.
  intros HF Hg. induction n as [|n IH]; intros rng; cbv zeta.
  - cbn [proof_rounds]. split; [auto|]. split; [intros _ i Hi; lia|auto].
  - cbn [proof_rounds]. set (a := draws R rng 0). set (b := draws R rng 1).
    replace (random_fr R rng) with (a, state_after R rng 1) by (unfold a, draws; cbn [state_after]; now destruct (random_fr R rng)).
    replace (random_fr R (state_after R rng 1)) with (b, state_after R rng 2) by (unfold b, draws; cbn [state_after]; now destruct (random_fr R (snd (random_fr R rng)))).
    rewrite PropSession.C55_random_proof. replace (state_after R (state_after R rng 2) 2) with (state_after R rng 4) by reflexivity. rewrite !draws_later. cbn [Nat.add].
    destruct (round_iff B1 B2 w w' ln_ceil g1 g2 alpha beta gamma delta tau H2 Hw Hw' Hln Hr1 Hr2 Hnd params a b (draws R rng 2) (draws R rng 3) HF Hg) as (proof & Hp & A & B). cbv zeta in A, B.
    assert (R0 : round_ok params rng 0 <-> ~ PropSession.has_identity proof /\ a <> (a * b)%F).
    { rewrite differs. unfold round_ok, PropSession.has_identity. cbv zeta. change (4 * 0) with 0. cbn [Nat.add]. fold a b. split.
      - intros (Ha & Hb & pr & Hc & Hi). rewrite Hp in Hc. injection Hc as <-. tauto.
      - intros (Hi & Ha & Hb). split; [exact Ha|]. split; [exact Hb|]. exists proof. split; [exact Hp|]. tauto. }
    assert (RS : forall i, round_ok params (state_after R rng 4) i <-> round_ok params rng (S i)).
    { intros i. unfold round_ok. rewrite !draws_later. replace (4 * S i) with (4 + 4 * i) by lia. rewrite !Nat.add_assoc. tauto. }
    assert (DEC : (~ PropSession.has_identity proof /\ a <> (a * b)%F) \/ (PropSession.has_identity proof \/ a = (a * b)%F)).
    { destruct (feq_dec a (a * b)%F); [auto|]. unfold PropSession.has_identity.
      destruct (geqb_spec (proof_a proof) gzero); [tauto|]. destruct (geqb_spec (proof_b proof) gzero); [tauto|]. destruct (geqb_spec (proof_c proof) gzero); tauto. }
    destruct DEC as [K|K].
    + rewrite (A K). cbn [obind]. destruct (IH (state_after R rng 4)) as [I1 I2]. split; [exact I1|]. rewrite I2. split.
      * intros X [|i] Hi; [apply R0, K|apply RS, X; lia].
      * intros X i Hi. apply RS, X. lia.
    + rewrite (B K). cbn [obind]. split; [auto|]. split; [discriminate|]. intros X. exfalso. pose proof (proj1 R0 (X 0 ltac:(lia))). tauto.
Qed.

Hypothesis Hu1 : uncompressed_len B1 = 96.
Hypothesis Hu2 : uncompressed_len B2 = 192.
Theorem test_iff n rng :
  let g1 := fst (random_g1 R rng) in let g2 := fst (random_g2 R (snd (random_g1 R rng))) in let rng' := snd (random_g2 R (snd (random_g1 R rng))) in
  let d := draws R rng' in
  let result := serialization R B1 B2 w w' ln_ceil n rng in
  (result = Done tt \/ result = Panicked) /\
  (result = Done tt <->
   fine g1 g2 (d 0) (d 1) (d 2) (d 3) (d 4) /\
   exists params, generate_parameters w (silly None None) g1 g2 (d 0) (d 1) (d 2) (d 3) (d 4) = Done (Ok params) /\
     forall i, i < n -> round_ok params (state_after R rng' 5) i).
Proof.
  intros g1 g2 rng' d. cbv zeta. unfold serialization. rewrite PropSession.C55_random_parameters. cbv zeta. fold g1 g2 rng'. fold d.
  destruct (key_iff B1 B2 w g1 g2 (d 0) (d 1) (d 2) (d 3) (d 4) H2 Hw Hu1 Hu2) as [A B].
  assert (DEC : fine g1 g2 (d 0) (d 1) (d 2) (d 3) (d 4) \/ ~ fine g1 g2 (d 0) (d 1) (d 2) (d 3) (d 4)).
  { unfold fine. destruct (geqb_spec g1 gzero); [tauto|]. destruct (geqb_spec g2 gzero); [tauto|].
    destruct (feq_dec (d 0) fzero); [tauto|]. destruct (feq_dec (d 1) fzero); [tauto|]. destruct (feq_dec (d 2) fzero); [tauto|]. destruct (feq_dec (d 3) fzero); [tauto|].
    destruct (feq_dec (d 4) fzero); [tauto|]. destruct (feq_dec (d 4 * d 4 * (d 4 * d 4))%F fone); [tauto|]. destruct (feq_dec (fmul (d 1) (fsub (d 4) fone)) (fadd (d 4) fone)); tauto. }
  destruct DEC as [HF|HF].
  - destruct (A HF) as (params & Hg & Hk). rewrite Hk. cbn [obind].
    destruct (rounds_iff g1 g2 (d 0) (d 1) (d 2) (d 3) (d 4) params HF Hg n (state_after R rng' 5)) as [I1 I2]. split; [exact I1|]. rewrite I2. split.
    + intros X. split; [exact HF|]. exists params. auto.
    + intros (_ & params' & Hg' & X). rewrite Hg in Hg'. injection Hg' as <-. exact X.
  - rewrite (B HF). cbn [obind]. split; [auto|]. split; [discriminate|]. intros [K _]. contradiction.
Qed.
End Rounds.
