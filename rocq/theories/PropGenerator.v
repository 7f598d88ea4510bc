(** Properties C35, C36, C48: parameter generation. *)
From Coq Require Import String.
From Coq Require Import ZArith List Bool Lia Field.
From Verif Require Import Prelude PrimeField Fields FModule Circuit Multicore Domain FFTProof DomainProof Quotient Multiexp Assembly AssemblyProof PropAssembly Groth16 GeneratorProof.
From Verif Require PropDomain.
Import ListNotations.
Local Open Scope nat_scope.

(** ** Specification *)

(** The instance a circuit describes: number of inputs (the constant one included), of auxiliary variables, and the constraints,
    those for the inputs included. *)
Definition describes {P : PrimeField} (circuit : prog P (res unit)) (inst : KState P) : Prop :=
  synthesize (ShapeCS P) {| k_inputs := 0; k_aux := 0; k_cons := [] |} k_inputs circuit = Done (Ok inst).

(** The coefficient of a variable in a linear combination: terms of the same variable add up. *)
Fixpoint coefficient {P : PrimeField} (lc : LC P) (v : Var) : P :=
  match lc with
  | [] => fzero
  | (Input i, c) :: t => (match v with Input j => if i =? j then c else 0 | Aux _ => 0 end + coefficient t v)%F
  | (Aux i, c) :: t => (match v with Aux j => if i =? j then c else 0 | Input _ => 0 end + coefficient t v)%F
  end.

(** The columns of the three matrices. *)
Definition column_A {P : PrimeField} (inst : KState P) (v : Var) : list P := map (fun '(a, b, c) => coefficient a v) (k_cons inst).
Definition column_B {P : PrimeField} (inst : KState P) (v : Var) : list P := map (fun '(a, b, c) => coefficient b v) (k_cons inst).
Definition column_C {P : PrimeField} (inst : KState P) (v : Var) : list P := map (fun '(a, b, c) => coefficient c v) (k_cons inst).

(** A generator of the subgroup of order [2^e]. *)
Definition domain_generator {P : PrimeField} (e : nat) : P := fpow (root_of_unity P) (2 ^ (two_adicity P - e)).

(** [U v], [V v], [W v] are the polynomials of degree below [2^e] interpolating the columns on the domain. *)
Definition qap_polynomials {P : PrimeField} (inst : KState P) (e : nat) (U V W : Var -> list P) : Prop :=
  forall v, PropDomain.has_values (domain_generator e) (2 ^ e) (U v) (column_A inst v) /\
            PropDomain.has_values (domain_generator e) (2 ^ e) (V v) (column_B inst v) /\
            PropDomain.has_values (domain_generator e) (2 ^ e) (W v) (column_C inst v).

Definition variables (ni na : nat) : list Var := map Input (seq 0 ni) ++ map Aux (seq 0 na).

(** The parameters of the Groth16 paper, as the documentation of the fields says. *)
Record documented {P : PrimeField} {E : Engine P} (g1 : E_G1 E) (g2 : E_G2 E) (alpha beta gamma delta tau : P)
    (inst : KState P) (e : nat) (U V W : Var -> list P) (p : Parameters E) : Prop := {
  doc_alpha_g1 : alpha_g1 (p_vk p) = alpha *g g1;
  doc_beta_g1 : beta_g1 (p_vk p) = beta *g g1;
  doc_beta_g2 : beta_g2 (p_vk p) = beta *g g2;
  doc_gamma_g2 : gamma_g2 (p_vk p) = gamma *g g2;
  doc_delta_g1 : delta_g1 (p_vk p) = delta *g g1;
  doc_delta_g2 : delta_g2 (p_vk p) = delta *g g2;
  doc_ic : ic (p_vk p) = map (fun i => ((beta * PropDomain.eval (U (Input i)) tau + alpha * PropDomain.eval (V (Input i)) tau
                                         + PropDomain.eval (W (Input i)) tau) * finv gamma)%F *g g1) (seq 0 (k_inputs inst));
  doc_l : p_l p = map (fun i => ((beta * PropDomain.eval (U (Aux i)) tau + alpha * PropDomain.eval (V (Aux i)) tau
                                  + PropDomain.eval (W (Aux i)) tau) * finv delta)%F *g g1) (seq 0 (k_aux inst));
  doc_h : p_h p = map (fun i => (fpow tau i * (fpow tau (2 ^ e) - 1) * finv delta)%F *g g1) (seq 0 (2 ^ e - 1));
  doc_a : p_a p = filter (fun x => negb (geqb x gzero))
                    (map (fun v => PropDomain.eval (U v) tau *g g1) (variables (k_inputs inst) (k_aux inst)));
  doc_b_g1 : p_b_g1 p = filter (fun x => negb (geqb x gzero))
                    (map (fun v => PropDomain.eval (V v) tau *g g1) (variables (k_inputs inst) (k_aux inst)));
  doc_b_g2 : p_b_g2 p = filter (fun x => negb (geqb x gzero))
                    (map (fun v => PropDomain.eval (V v) tau *g g2) (variables (k_inputs inst) (k_aux inst)))
}.

(** ** Auxiliary *)
Section Aux.
Context {P : PrimeField}.
Add Field PFpg : (F_field P).

Lemma coefficient_eq (lc : LC P) v : coefficient lc v = lc_coeff lc v.
Proof.
  induction lc as [|[[i|i] c] lc IH]; [reflexivity|..]; cbn [coefficient]; rewrite IH; cbn [lc_coeff fold_right fst snd]; fold (lc_coeff lc v);
    destruct v as [j|j]; cbn [var_eqb]; try ring; destruct (i =? j); ring.
Qed.
Lemma dom_gen_eq e : e <= two_adicity P -> domain_generator (P := P) e = dom_root e.
Proof. intros _. unfold domain_generator, dom_root. symmetry. apply sqn_fpow. Qed.

Lemma qap_eval tau e sel cons v (U : list P) : e < two_adicity P -> List.length cons <= 2 ^ e ->
  PropDomain.has_values (domain_generator e) (2 ^ e) U (map (fun c => coefficient (sel c) v) cons) ->
  qap tau e sel cons v = PropDomain.eval U tau.
Proof.
  intros He Hl HU. rewrite dom_gen_eq in HU by lia.
  change (PropDomain.eval U tau) with (peval U tau). rewrite <- (at_tau_interp e tau U _ He HU). unfold qap. apply at_tau_ext. intros k Hk.
  rewrite col_coeff_column. cbn [Nat.leb]. rewrite Nat.sub_0_r. unfold coef. destruct (nth_error cons k) as [c|] eqn:Ec.
  - erewrite nth_error_nth by (rewrite nth_error_map, Ec; reflexivity). now rewrite coefficient_eq.
  - rewrite nth_overflow; auto. rewrite map_length. now apply nth_error_None.
Qed.

Lemma map_sel {B} (f : LC P -> B) (cons : list (Constraint P)) :
  map (fun '(a, b, c) => f a) cons = map (fun c => f (sel_a c)) cons /\ map (fun '(a, b, c) => f b) cons = map (fun c => f (sel_b c)) cons /\
  map (fun '(a, b, c) => f c) cons = map (fun c => f (sel_c c)) cons.
Proof. repeat split; apply map_ext; intros [[a b] c]; reflexivity. Qed.

Lemma c36_zero (alpha beta delta : P) : ((0 * beta + 0 * alpha + 0) * finv delta)%F = fzero.
Proof. ring. Qed.
Context {E : Engine P} (g1 : E_G1 E) (g2 : E_G2 E) (alpha beta gamma delta tau : P).
Lemma params_documented ks e U V W : e < two_adicity P -> List.length (k_cons ks) <= 2 ^ e -> gamma <> fzero -> delta <> fzero -> qap_polynomials ks e U V W ->
  documented g1 g2 alpha beta gamma delta tau ks e U V W (params_of E g1 g2 alpha beta gamma delta tau e ks).
Proof.
  intros He Hl Hg Hd HQ.
  assert (QU : forall v, qap tau e sel_a (k_cons ks) v = PropDomain.eval (U v) tau).
  { intros v. apply qap_eval; auto. destruct (HQ v) as (H & _ & _). unfold column_A in H. now rewrite (proj1 (map_sel (fun lc => coefficient lc v) _)) in H. }
  assert (QV : forall v, qap tau e sel_b (k_cons ks) v = PropDomain.eval (V v) tau).
  { intros v. apply qap_eval; auto. destruct (HQ v) as (_ & H & _). unfold column_B in H. now rewrite (proj1 (proj2 (map_sel (fun lc => coefficient lc v) _))) in H. }
  assert (QW : forall v, qap tau e sel_c (k_cons ks) v = PropDomain.eval (W v) tau).
  { intros v. apply qap_eval; auto. destruct (HQ v) as (_ & _ & H). unfold column_C in H. now rewrite (proj2 (proj2 (map_sel (fun lc => coefficient lc v) _))) in H. }
  split; try reflexivity; unfold params_of; cbn [p_vk ic p_l p_h p_a p_b_g1 p_b_g2].
  - apply map_ext. intros i. unfold ext_scalar. rewrite QU, QV, QW. f_equal. field. auto.
  - apply map_ext. intros i. unfold ext_scalar. rewrite QU, QV, QW. f_equal. field. auto.
  - unfold h_of. apply map_ext. intros i. f_equal. field. auto.
  - unfold nonid, is_identity. f_equal. apply map_ext. intros v. now rewrite QU.
  - unfold nonid, is_identity. f_equal. apply map_ext. intros v. now rewrite QV.
  - unfold nonid, is_identity. f_equal. apply map_ext. intros v. now rewrite QV.
Qed.

Lemma polys_exist (ks : KState P) e : e < two_adicity P -> exists U V W, qap_polynomials ks e U V W.
Proof.
  intros He.
  assert (C : forall (col : Var -> list P), exists f, forall v, PropDomain.has_values (domain_generator e) (2 ^ e) (f v) (col v)).
  { intros col. exists (fun v => interp_poly e (col v)).
    intros v. rewrite dom_gen_eq by lia. exact (interp_values e (col v) He). }
  destruct (C (column_A ks)) as [U HU], (C (column_B ks)) as [V HV], (C (column_C ks)) as [W HW].
  exists U, V, W. intros v. auto.
Qed.
End Aux.

(** * C35 *)
Section C35.
Context {P : PrimeField} {E : Engine P} (g1 : E_G1 E) (g2 : E_G2 E) (alpha beta gamma delta tau : P).
Notation generate w circuit := (generate_parameters w circuit g1 g2 alpha beta gamma delta tau).

Lemma generate_cases (w : Worker) circuit s : wf_worker w -> synthesize_keypair circuit = Done (Ok s) ->
  exists ks e, describes circuit ks /\ PropDomain.domain_exponent (List.length (k_cons ks)) e /\ List.length (k_cons ks) <= 2 ^ e /\ 0 < k_inputs ks /\
   ((w = Single -> 1 < 2 ^ e /\ 0 < k_aux ks) ->
    generate w circuit =
    if negb (e <? two_adicity P) then Done (Err PolynomialDegreeTooLarge)
    else if (feqb gamma fzero || feqb delta fzero)%bool then Done (Err UnexpectedIdentity)
    else if existsb is_identity (p_l (params_of E g1 g2 alpha beta gamma delta tau e ks)) then Done (Err UnconstrainedVariable)
    else Done (Ok (params_of E g1 g2 alpha beta gamma delta tau e ks))) /\
   (w = Single -> e < two_adicity P -> gamma <> fzero -> delta <> fzero -> ~ (1 < 2 ^ e /\ 0 < k_aux ks) -> generate w circuit = Panicked) /\
   (w = Single -> ~ (e < two_adicity P /\ gamma <> fzero /\ delta <> fzero) -> 
     generate w circuit = if negb (e <? two_adicity P) then Done (Err PolynomialDegreeTooLarge) else Done (Err UnexpectedIdentity)).
Proof.
  intros Hw Es. destruct (synthesize_keypair_spec _ _ Es) as (ks & Ek & KI). destruct (shape_pos _ _ Ek) as [Hin Hlen].
  destruct (least_pow_ex (List.length (k_cons ks))) as [e He].
  exists ks, e. split; [exact Ek|]. split; [now apply PropDomain.least_domain_exponent|]. split; [apply He|]. split; [exact Hin|].
  split; [|split].
  - intros H1. apply (generate_spec E g1 g2 alpha beta gamma delta tau w circuit s ks e Hw Es KI He Hin). intros; auto.
  - intros -> HS Hg Hd Hdeg. apply (generate_single_panics E g1 g2 alpha beta gamma delta tau circuit s ks e Es KI He HS Hg Hd).
    pose proof (pow2_gt0 e). lia.
  - intros -> Hno. rewrite (generate_spec E g1 g2 alpha beta gamma delta tau Single circuit s ks e Hw Es KI He Hin); [|intros _ A B C; exfalso; apply Hno; auto].
    destruct (Nat.ltb_spec e (two_adicity P)); cbn [negb]; auto.
    destruct (feqb_spec gamma fzero); cbn [orb]; auto. destruct (feqb_spec delta fzero); cbn [orb]; auto. exfalso. apply Hno. auto.
Qed.

Lemma generate_ok_inv (w : Worker) circuit p : wf_worker w -> generate w circuit = Done (Ok p) ->
  exists s ks e, synthesize_keypair circuit = Done (Ok s) /\ KInv s ks /\ describes circuit ks /\ PropDomain.domain_exponent (List.length (k_cons ks)) e /\
    List.length (k_cons ks) <= 2 ^ e /\ e < two_adicity P /\ gamma <> fzero /\ delta <> fzero /\
    p = params_of E g1 g2 alpha beta gamma delta tau e ks /\ existsb is_identity (p_l p) = false.
Proof.
  intros Hw Ep.
  destruct (synthesize_keypair circuit) as [[s|err]|] eqn:Es; [|unfold generate_parameters in Ep; rewrite Es in Ep; discriminate..].
  destruct (generate_cases w circuit s Hw Es) as (ks & e & Ek & He & Hl & _ & G & GP & GE). exists s, ks, e. split; [reflexivity|].
  split. { destruct (synthesize_keypair_spec _ _ Es) as (ks' & Ek' & KI). unfold describes in Ek. unfold synthesize_shape, shape_new in Ek'. congruence. }
  split; [exact Ek|]. split; [exact He|]. split; [exact Hl|].
  assert (Hgood : w = Single -> 1 < 2 ^ e /\ 0 < k_aux ks).
  { intros Hs. destruct (Nat.lt_ge_cases e (two_adicity P)) as [A|A];
      [destruct (feqb_spec gamma fzero) as [B|B]; [|destruct (feqb_spec delta fzero) as [C|C]]|].
    - rewrite (GE Hs) in Ep by tauto. destruct (negb _); discriminate.
    - rewrite (GE Hs) in Ep by tauto. destruct (negb _); discriminate.
    - destruct (Nat.lt_ge_cases 1 (2 ^ e)); [destruct (Nat.lt_ge_cases 0 (k_aux ks)); [auto|]|]; rewrite (GP Hs) in Ep by (auto; lia); discriminate.
    - rewrite (GE Hs) in Ep by lia. destruct (negb _); discriminate. }
  rewrite (G Hgood) in Ep. destruct (Nat.ltb_spec e (two_adicity P)) as [HS|]; cbn [negb] in Ep; [|discriminate].
  destruct (feqb_spec gamma fzero) as [|Hg]; cbn [orb] in Ep; [discriminate|]. destruct (feqb_spec delta fzero) as [|Hd]; [discriminate|].
  destruct (existsb _ _) eqn:Ex; [discriminate|]. split; [exact HS|]. injection Ep as <-. repeat split; auto.
Qed.

Theorem C35_form (w : Worker) circuit p : wf_worker w -> generate w circuit = Done (Ok p) ->
  exists inst e, describes circuit inst /\ PropDomain.domain_exponent (List.length (k_cons inst)) e /\ e < two_adicity P /\
    forall U V W, qap_polynomials inst e U V W -> documented g1 g2 alpha beta gamma delta tau inst e U V W p.
Proof.
  intros Hw Ep. destruct (generate_ok_inv w circuit p Hw Ep) as (s & ks & e & _ & _ & Ek & He & Hl & HS & Hg & Hd & -> & _).
  exists ks, e. split; [exact Ek|]. split; [exact He|]. split; [exact HS|]. intros U V W HQ. now apply params_documented.
Qed.
(** The polynomials exist, so that the previous statement determines the parameters ... *)
Theorem C35_polynomials (inst : KState P) e : e < two_adicity P -> exists U V W, qap_polynomials inst e U V W.
Proof. apply polys_exist. Qed.
(** ... and, in particular, the number of threads does not matter. *)
Theorem C35_threads (w w' : Worker) circuit p p' : wf_worker w -> wf_worker w' ->
  generate w circuit = Done (Ok p) -> generate w' circuit = Done (Ok p') -> p = p'.
Proof.
  intros Hw Hw' E1 E2. destruct (C35_form w circuit p Hw E1) as (ks & e & A1 & A2 & HS & D1). destruct (C35_form w' circuit p' Hw' E2) as (ks' & e' & B1 & B2 & _ & D2).
  unfold describes in *. rewrite A1 in B1. assert (ks' = ks) by congruence. subst ks'.
  assert (e' = e) by (apply (least_pow_unique (List.length (k_cons ks))); now apply PropDomain.domain_exponent_least). subst e'.
  destruct (polys_exist ks e HS) as (U & V & W & HQ). destruct (D1 U V W HQ), (D2 U V W HQ).
  destruct p as [[x1 x2 x3 x4 x5 x6 x7] x8 x9 x10 x11 x12], p' as [[y1 y2 y3 y4 y5 y6 y7] y8 y9 y10 y11 y12]. cbn [p_vk p_h p_l p_a p_b_g1 p_b_g2 alpha_g1 beta_g1 beta_g2 gamma_g2 delta_g1 delta_g2 ic] in *.
  congruence.
Qed.

Lemma gmul_zero_iff {M : FMod P} (x : P) (g : M) : g <> gzero -> (x *g g = gzero <-> x = fzero).
Proof.
  intros Hg. split; [|intros ->; apply gmul_0_l]. intros H. destruct (feq_dec x fzero) as [|Hx]; auto. exfalso. apply Hg.
  rewrite <- (gmul_1 _ _ g), <- (finv_l x Hx), gmul_mul, H. apply gmul_0_r.
Qed.
Lemma filter_nonid {M : FMod P} (g : M) (f : Var -> P) l : g <> gzero ->
  filter (fun x => negb (geqb x gzero)) (map (fun v => f v *g g) l) = map (fun v => f v *g g) (filter (fun v => negb (feqb (f v) fzero)) l).
Proof.
  intros Hg. induction l as [|v l IH]; [reflexivity|]. cbn [map filter]. destruct (geqb_spec (f v *g g) gzero) as [H|H]; destruct (feqb_spec (f v) fzero) as [H'|H'];
    cbn [negb map]; rewrite IH; auto; exfalso; now apply H', (gmul_zero_iff _ g) || (apply H; rewrite H'; apply gmul_0_l).
Qed.
(** For generators other than the identity, exactly the variables whose polynomial vanishes at [tau] are left out. *)
Theorem C35_queries (w : Worker) circuit p : wf_worker w -> g1 <> gzero -> g2 <> gzero -> generate w circuit = Done (Ok p) ->
  exists inst e, describes circuit inst /\ PropDomain.domain_exponent (List.length (k_cons inst)) e /\
    forall U V W, qap_polynomials inst e U V W ->
    let u v := PropDomain.eval (U v) tau in let v v := PropDomain.eval (V v) tau in
    let vars := variables (k_inputs inst) (k_aux inst) in
    p_a p = map (fun x => u x *g g1) (filter (fun x => negb (feqb (u x) fzero)) vars) /\
    p_b_g1 p = map (fun x => v x *g g1) (filter (fun x => negb (feqb (v x) fzero)) vars) /\
    p_b_g2 p = map (fun x => v x *g g2) (filter (fun x => negb (feqb (v x) fzero)) vars).
Proof.
  intros Hw H1 H2 Ep. destruct (C35_form w circuit p Hw Ep) as (ks & e & A1 & A2 & HS & D). exists ks, e. split; [exact A1|]. split; [exact A2|].
  intros U V W HQ. destruct (D U V W HQ) as [_ _ _ _ _ _ _ _ _ Da Db1 Db2]. cbv zeta. rewrite Da, Db1, Db2, !filter_nonid by auto. auto.
Qed.
End C35.
Print Assumptions C35_form.
Print Assumptions C35_polynomials.
Print Assumptions C35_threads.
Print Assumptions C35_queries.

(** z = 2xy (see [C06_ex]) with toxic waste 3, 5, 7, 11, 13 on the test engine, both builds. *)
Definition c35_run (w : Worker) := generate_parameters (E := DummyEngine Fr64513) w (circuit_of c06_calls) fone (ofZ 2) (ofZ 3) (ofZ 5) (ofZ 7) (ofZ 11) (ofZ 13).
Example C35_ex : wf_worker (Multicore 3) /\ wf_worker Single /\
  match c35_run (Multicore 3), c35_run Single with
  | Done (Ok p), Done (Ok p') =>
      (map toZ (p_h p), List.length (p_l p), List.length (p_a p), List.length (p_b_g1 p), List.length (ic (p_vk p)), toZ (beta_g2 (p_vk p)))
      = (map (fun k => (13 ^ k * (13 ^ 4 - 1) * 35189) mod 64513) [0; 1; 2], 3%nat, 4%nat, 2%nat, 2%nat, 10)%Z /\
      map toZ (p_a p) = map toZ (p_a p')
  | _, _ => False
  end.
Proof. split; [cbn; lia|]. split; [exact I|]. vm_compute. repeat split. Qed.

(** * C36 *)
Section C36.
Context {P : PrimeField} {E : Engine P} (g1 : E_G1 E) (g2 : E_G2 E) (alpha beta gamma delta tau : P).
Notation generate w circuit := (generate_parameters w circuit g1 g2 alpha beta gamma delta tau).

(** Errors (and panics) of the circuit come first. *)
Theorem C36_synthesis (w : Worker) circuit :
  (forall err, synthesize_keypair circuit = Done (Err err) -> generate w circuit = Done (Err err)) /\
  (synthesize_keypair circuit = Panicked -> generate w circuit = Panicked).
Proof. split; [intros err|]; intros H; unfold generate_parameters; now rewrite H. Qed.

Lemma existsb_l inst e U V W : e < two_adicity P -> List.length (k_cons inst) <= 2 ^ e -> gamma <> fzero -> delta <> fzero -> qap_polynomials inst e U V W ->
  existsb is_identity (p_l (params_of E g1 g2 alpha beta gamma delta tau e inst)) = true <->
  exists i, i < k_aux inst /\ ((beta * PropDomain.eval (U (Aux i)) tau + alpha * PropDomain.eval (V (Aux i)) tau
                                  + PropDomain.eval (W (Aux i)) tau) * finv delta)%F *g g1 = gzero.
Proof.
  intros HS Hl Hg Hd HQ. rewrite (doc_l _ _ _ _ _ _ _ _ _ _ _ _ _ (params_documented g1 g2 alpha beta gamma delta tau inst e U V W HS Hl Hg Hd HQ)).
  rewrite existsb_exists. unfold is_identity. split.
  - intros (x & Hx & Ex). apply in_map_iff in Hx as (i & <- & Hi). apply in_seq in Hi. exists i. split; [lia|].
    destruct (geqb_spec (((beta * PropDomain.eval (U (Aux i)) tau + alpha * PropDomain.eval (V (Aux i)) tau
                                  + PropDomain.eval (W (Aux i)) tau) * finv delta)%F *g g1) gzero); [auto|discriminate].
  - intros (i & Hi & Ei). eexists. split; [apply in_map_iff; exists i; split; [reflexivity|apply in_seq; lia]|].
    cbv beta. rewrite Ei. destruct (geqb_spec (gzero : E_G1 E) gzero); congruence.
Qed.

(** After synthesis, in this order: too many constraints, gamma or delta zero, an auxiliary variable without effect; otherwise success.
    (Build with threads; for the other build see C48.) *)
Theorem C36_cases n circuit s : 0 < n -> wf_worker (Multicore n) -> synthesize_keypair circuit = Done (Ok s) ->
  exists inst e, describes circuit inst /\ PropDomain.domain_exponent (List.length (k_cons inst)) e /\
  let result := generate (Multicore n) circuit in
  (two_adicity P <= e -> result = Done (Err PolynomialDegreeTooLarge)) /\
  (e < two_adicity P -> gamma = fzero \/ delta = fzero -> result = Done (Err UnexpectedIdentity)) /\
  (e < two_adicity P -> gamma <> fzero -> delta <> fzero -> forall U V W, qap_polynomials inst e U V W ->
    let unconstrained := exists i, i < k_aux inst /\
      ((beta * PropDomain.eval (U (Aux i)) tau + alpha * PropDomain.eval (V (Aux i)) tau + PropDomain.eval (W (Aux i)) tau) * finv delta)%F *g g1 = gzero in
    (unconstrained -> result = Done (Err UnconstrainedVariable)) /\
    (~ unconstrained -> exists p, result = Done (Ok p))).
Proof.
  intros _ Hw Es. destruct (generate_cases g1 g2 alpha beta gamma delta tau (Multicore n) circuit s Hw Es) as (ks & e & Ek & He & Hl & _ & G & _).
  exists ks, e. split; [exact Ek|]. split; [exact He|]. rewrite G by discriminate. clear G. cbv zeta. split; [|split].
  - intros HS. destruct (Nat.ltb_spec e (two_adicity P)); [lia|reflexivity].
  - intros HS H0. destruct (Nat.ltb_spec e (two_adicity P)); [|lia]. cbn [negb].
    destruct (feqb_spec gamma fzero); cbn [orb]; auto. destruct (feqb_spec delta fzero); cbn [orb]; auto. tauto.
  - intros HS Hg Hd U V W HQ. destruct (Nat.ltb_spec e (two_adicity P)); [|lia]. cbn [negb].
    destruct (feqb_spec gamma fzero); [contradiction|]. destruct (feqb_spec delta fzero); [contradiction|]. cbn [orb].
    pose proof (existsb_l ks e U V W HS Hl Hg Hd HQ) as X. destruct (existsb _ _); split; intros Hu; auto.
    + exfalso. apply Hu, X. reflexivity.
    + apply X in Hu. discriminate.
    + eauto.
Qed.

(** With a generator [g1] other than the identity, a variable appearing in no constraint is always reported. *)
Theorem C36_unused n circuit s inst i : 0 < n -> wf_worker (Multicore n) -> synthesize_keypair circuit = Done (Ok s) -> describes circuit inst ->
  i < k_aux inst -> (forall a b c, In (a, b, c) (k_cons inst) -> ~ In (Aux i) (map fst (a ++ b ++ c))) ->
  forall p, generate (Multicore n) circuit <> Done (Ok p).
Proof.
  intros _ Hw Es Ei Hi Hno p Ep.
  destruct (generate_cases g1 g2 alpha beta gamma delta tau (Multicore n) circuit s Hw Es) as (ks & e & Ek & He & Hl & _ & G & _).
  unfold describes in *. rewrite Ei in Ek. assert (ks = inst) by congruence. subst ks. rewrite G in Ep by discriminate. clear G.
  destruct (Nat.ltb_spec e (two_adicity P)) as [HS|]; cbn [negb] in Ep; [|discriminate].
  destruct (feqb_spec gamma fzero) as [|Hg]; cbn [orb] in Ep; [discriminate|]. destruct (feqb_spec delta fzero) as [|Hd]; [discriminate|].
  assert (Z : forall sel, (forall c : Constraint P, In c (k_cons inst) -> ~ In (Aux i) (map fst (sel c))) -> qap tau e sel (k_cons inst) (Aux i) = fzero).
  { intros sel H. unfold qap. rewrite (at_tau_ext e tau _ (fun _ => fzero)); [apply at_tau_zero|]. intros k _. rewrite col_coeff_column. cbn [Nat.leb].
    destruct (nth_error (k_cons inst) (k - 0)) as [c|] eqn:Ec; auto. apply lc_coeff_unmentioned. intros (x & _ & Hx). apply nth_error_In in Ec.
    apply (H c Ec). apply in_map_iff. exists (Aux i, x). auto. }
  assert (X : existsb is_identity (p_l (params_of E g1 g2 alpha beta gamma delta tau e inst)) = true).
  { apply existsb_exists. exists gzero. split; [|unfold is_identity; destruct (geqb_spec (gzero : E_G1 E) gzero); congruence].
    unfold params_of. cbn [p_l]. apply in_map_iff. exists i. split; [|apply in_seq; lia]. unfold ext_scalar.
    rewrite !Z; [|intros [[a b] c] Hc Hin; apply (Hno a b c Hc); rewrite !map_app, !in_app_iff; cbn [sel_a sel_b sel_c fst snd] in Hin; auto ..].
    rewrite <- (gmul_0_l g1). f_equal. apply c36_zero. }
  rewrite X in Ep. discriminate.
Qed.
End C36.
Print Assumptions C36_synthesis.
Print Assumptions C36_cases.
Print Assumptions C36_unused.

(** Gamma zero; a variable in no constraint; too many constraints (513 with the inputs' one, domain limit 2^9). *)
Definition c36_run calls gamma := generate_parameters (E := DummyEngine Fr64513) (Multicore 2) (circuit_of calls) fone (ofZ 2) (ofZ 3) (ofZ 5) gamma (ofZ 11) (ofZ 13).
Definition c36_error {A} (r : outcome (res A)) : option SynthesisError := match r with Done (Err e) => Some e | _ => None end.
Example C36_ex :
  c36_error (c36_run c06_calls fzero) = Some UnexpectedIdentity /\
  c36_error (c36_run (c06_calls ++ [CallAlloc (ofZ 9)]) (ofZ 7)) = Some UnconstrainedVariable /\
  c36_error (c36_run (repeat (CallEnforce [] [] []) 512) (ofZ 7)) = Some PolynomialDegreeTooLarge /\
  c36_error (generate_parameters (E := DummyEngine Fr64513) (Multicore 2) (Ret (Err AssignmentMissing)) fone fone fone fone fone fone fone) = Some AssignmentMissing.
Proof. repeat split; vm_compute; reflexivity. Qed.

(** * C48 *)

(** False as stated: without the [multicore] feature, parameter generation for the empty circuit panics (an empty [h] is split into
    chunks of size 0), while it succeeds with threads. *)
Definition c48_run (w : Worker) calls := generate_parameters (E := DummyEngine Fr64513) w (circuit_of calls) fone (ofZ 2) (ofZ 3) (ofZ 5) (ofZ 7) (ofZ 11) (ofZ 13).
Lemma c48_panic {A} (r : outcome A) : match r with Panicked => true | Done _ => false end = true -> r = Panicked.
Proof. destruct r; [discriminate|auto]. Qed.
Theorem C48_empty_circuit_refuted : exists calls : list (call Fr64513),
  (exists p, c48_run (Multicore 2) calls = Done (Ok p)) /\ c48_run Single calls = Panicked.
Proof.
  exists []. split; [|apply c48_panic; vm_compute; reflexivity].
  assert (X : match c48_run (Multicore 2) [] with Done (Ok _) => true | _ => false end = true) by (vm_compute; reflexivity).
  destruct (c48_run (Multicore 2) []) as [[p|]|]; try discriminate. eauto.
Qed.
Print Assumptions C48_empty_circuit_refuted.

(** The same for a circuit with public inputs and constraints but no auxiliary variable. *)
Theorem C48_no_aux_refuted : exists calls : list (call Fr64513), scoped calls /\ the_constraints calls <> [] /\
  (exists p, c48_run (Multicore 2) calls = Done (Ok p)) /\ c48_run Single calls = Panicked.
Proof.
  exists [CallAllocInput (ofZ 4); CallEnforce [(Input 1, fone)] [(Input 0, fone)] [(Input 0, ofZ 4)]]. split; [|split; [discriminate|split; [|apply c48_panic; vm_compute; reflexivity]]].
  - apply (scoped_snoc [CallAllocInput (ofZ 4)]); [|intros a b c [= <- <- <-]; repeat constructor; cbn; lia].
    apply (scoped_snoc []); [|discriminate]. intros before ? ? ? ? ? E. destruct before; discriminate.
  - match goal with |- exists p, ?r = _ => assert (X : match r with Done (Ok _) => true | _ => false end = true) by (vm_compute; reflexivity); destruct r as [[p|]|]; try discriminate; eauto end.
Qed.
Print Assumptions C48_no_aux_refuted.

(** What is true: the builds agree for every circuit with at least one auxiliary variable and at least two constraints (including
    those for the inputs), and whenever the other build reports an error before the first loop. *)
Theorem C48_otherwise_same {P : PrimeField} {E : Engine P} (g1 : E_G1 E) (g2 : E_G2 E) (alpha beta gamma delta tau : P) n circuit inst :
  0 < n -> wf_worker (Multicore n) -> describes circuit inst ->
  (0 < k_aux inst /\ 2 <= List.length (k_cons inst)) \/ gamma = fzero \/ delta = fzero ->
  generate_parameters Single circuit g1 g2 alpha beta gamma delta tau = generate_parameters (Multicore n) circuit g1 g2 alpha beta gamma delta tau.
Proof.
  intros _ Hw Hi Hc. destruct (synthesize_keypair circuit) as [[s|err]|] eqn:Es;
    [|unfold generate_parameters; rewrite Es; reflexivity..].
  destruct (generate_cases g1 g2 alpha beta gamma delta tau Single circuit s I Es) as (ks & e & Ek & He & Hl & _ & G & _ & GE).
  destruct (generate_cases g1 g2 alpha beta gamma delta tau (Multicore n) circuit s Hw Es) as (ks' & e' & Ek' & He' & _ & _ & G' & _).
  unfold describes in *. assert (ks = inst) by congruence. assert (ks' = inst) by congruence. subst ks ks'.
  assert (e' = e) by (apply (least_pow_unique (List.length (k_cons inst))); now apply PropDomain.domain_exponent_least). subst e'.
  rewrite G' by discriminate. destruct Hc as [[H1 H2]|H0].
  - rewrite G; auto. intros _. split; [|auto]. lia.
  - rewrite GE; [|reflexivity|tauto]. destruct (negb _); auto.
    destruct (feqb_spec gamma fzero); cbn [orb]; auto. destruct (feqb_spec delta fzero); cbn [orb]; auto. tauto.
Qed.
Print Assumptions C48_otherwise_same.

(** Exactly when the builds differ: synthesis succeeds, the domain fits, gamma and delta can be inverted, and there is a single
    constraint (that of the constant input, so the circuit has none and no other input) or no auxiliary variable.  Then the build
    without threads panics and the other does not. *)
Definition degenerate {P : PrimeField} (gamma delta : P) (circuit : prog P (res unit)) : Prop :=
  exists s inst e, synthesize_keypair circuit = Done (Ok s) /\ describes circuit inst /\ PropDomain.domain_exponent (List.length (k_cons inst)) e /\
    e < two_adicity P /\ gamma <> fzero /\ delta <> fzero /\ (List.length (k_cons inst) <= 1 \/ k_aux inst = 0).
Theorem C48_differ_iff {P : PrimeField} {E : Engine P} (g1 : E_G1 E) (g2 : E_G2 E) (alpha beta gamma delta tau : P) n circuit :
  wf_worker (Multicore n) ->
  (generate_parameters Single circuit g1 g2 alpha beta gamma delta tau <> generate_parameters (Multicore n) circuit g1 g2 alpha beta gamma delta tau
     <-> degenerate gamma delta circuit) /\
  (degenerate gamma delta circuit -> generate_parameters Single circuit g1 g2 alpha beta gamma delta tau = Panicked /\
     exists x, generate_parameters (Multicore n) circuit g1 g2 alpha beta gamma delta tau = Done x).
Proof.
  intros Hw.
  assert (A : degenerate gamma delta circuit -> generate_parameters Single circuit g1 g2 alpha beta gamma delta tau = Panicked /\
     exists x, generate_parameters (Multicore n) circuit g1 g2 alpha beta gamma delta tau = Done x).
  { intros (s & inst & e & Es & Hi & He & HS & Hg & Hd & Hc).
    destruct (generate_cases g1 g2 alpha beta gamma delta tau Single circuit s I Es) as (ks & e1 & Ek & He1 & Hl & _ & _ & GP & _).
    destruct (generate_cases g1 g2 alpha beta gamma delta tau (Multicore n) circuit s Hw Es) as (ks' & e2 & Ek' & He' & _ & _ & G' & _).
    unfold describes in *. assert (ks = inst) by congruence. subst ks.
    assert (e1 = e) by (apply (least_pow_unique (List.length (k_cons inst))); now apply PropDomain.domain_exponent_least). subst e1. split.
    - apply GP; auto. intros [H1 H2]. destruct Hc as [Hc|Hc]; [|lia]. destruct e as [|e]; [cbn in H1; lia|].
      destruct He as [_ He]. specialize (He 0 ltac:(lia)). cbn in He. lia.
    - rewrite G' by discriminate. destruct (negb _); eauto. destruct (_ || _)%bool; eauto. destruct (existsb _ _); eauto. }
  split; [|exact A]. split.
  - intros Hne. destruct (synthesize_keypair circuit) as [[s|err]|] eqn:Es;
      [|exfalso; apply Hne; unfold generate_parameters; rewrite Es; reflexivity..].
    destruct (generate_cases g1 g2 alpha beta gamma delta tau Single circuit s I Es) as (ks & e & Ek & He & Hl & _ & G & _ & GE).
    destruct (generate_cases g1 g2 alpha beta gamma delta tau (Multicore n) circuit s Hw Es) as (ks' & e' & Ek' & He' & _ & _ & G' & _).
    unfold describes in Ek'. assert (ks' = ks) by (unfold describes in Ek; congruence). subst ks'.
    assert (e' = e) by (apply (least_pow_unique (List.length (k_cons ks))); now apply PropDomain.domain_exponent_least). subst e'.
    rewrite G' in Hne by discriminate. exists s, ks, e. split; [exact Es|]. split; [exact Ek|]. split; [exact He|].
    destruct (Nat.ltb_spec e (two_adicity P)) as [HS|HS].
    2:{ exfalso. apply Hne. rewrite GE by (auto; lia). destruct (Nat.ltb_spec e (two_adicity P)); [lia|reflexivity]. }
    destruct (feqb_spec gamma fzero) as [Hg|Hg]; cbn [orb negb] in Hne.
    { exfalso. apply Hne. rewrite GE by tauto. destruct (Nat.ltb_spec e (two_adicity P)); [reflexivity|lia]. }
    destruct (feqb_spec delta fzero) as [Hd|Hd]; cbn [orb negb] in Hne.
    { exfalso. apply Hne. rewrite GE by tauto. destruct (Nat.ltb_spec e (two_adicity P)); [reflexivity|lia]. }
    repeat (split; [assumption|]). destruct (Nat.le_gt_cases (List.length (k_cons ks)) 1) as [|H2]; [auto|]. right.
    destruct (k_aux ks) eqn:Ea; [reflexivity|]. exfalso. apply Hne. rewrite G by (intros _; split; [lia|lia]).
    destruct (Nat.ltb_spec e (two_adicity P)); [|lia]. cbn [negb].
    destruct (feqb_spec gamma fzero); [contradiction|]. destruct (feqb_spec delta fzero); [contradiction|]. reflexivity.
  - intros Hd. destruct (A Hd) as [-> [x ->]]. discriminate.
Qed.
Print Assumptions C48_differ_iff.
