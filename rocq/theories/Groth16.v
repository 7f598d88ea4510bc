(** groth16: parameters, parameter generation, proof creation and verification.

    Groups are modelled abstractly (see [FModule]): an element of [E::G1], [E::G1Affine] is an element of one vector space
    over the scalar field, so [to_affine], [to_curve] and [batch_normalize] are the identity and [wnaf.base(g).scalar(x)] is
    [x *g g]; these, and [multi_miller_loop(..).final_exponentiation()] being the sum of the pairings, are the contracts of
    the [group] and [pairing] crates. *)
From Coq Require Import String.
From Coq Require Import ZArith List Bool Lia.
From Verif Require Import Prelude PrimeField FModule Circuit Multicore Domain Quotient Multiexp Assembly.
Import ListNotations.
Local Open Scope nat_scope.

(** [pairing::Engine] / [MultiMillerLoop]: three groups of prime order and a bilinear map. *)
Record Engine (P : PrimeField) := {
  E_G1 : FMod P; E_G2 : FMod P; E_GT : FMod P;
  pair : E_G1 -> E_G2 -> E_GT;
  pair_add_l : forall x y z, pair (x +g y) z = pair x z +g pair y z;
  pair_add_r : forall x y z, pair x (y +g z) = pair x y +g pair x z;
  pair_mul_l : forall a x y, pair (a *g x) y = a *g pair x y;
  pair_mul_r : forall a x y, pair x (a *g y) = a *g pair x y
}.
Arguments E_G1 {P}. Arguments E_G2 {P}. Arguments E_GT {P}. Arguments pair {P e}.

(** The engine of groth16/src/tests/dummy_engine.rs: every group is the scalar field, the pairing is multiplication. *)
Section Dummy.
Context (P : PrimeField).
Add Field PFfield_dummy : (F_field P).
Definition DummyEngine : Engine P.
Proof.
  refine {| E_G1 := ScalarMod P; E_G2 := ScalarMod P; E_GT := ScalarMod P; pair := (fun x y => x * y)%F : ScalarMod P -> ScalarMod P -> ScalarMod P |};
    cbn; intros; ring.
Defined.
End Dummy.

Section Groth16.
Context {P : PrimeField} (E : Engine P).
Notation G1 := (E_G1 E).
Notation G2 := (E_G2 E).

(** groth16/src/lib.rs:101-141 *)
Record VerifyingKey := mkVK {
  alpha_g1 : G1; beta_g1 : G1; beta_g2 : G2; gamma_g2 : G2; delta_g1 : G1; delta_g2 : G2; ic : list G1
}.
(** groth16/src/lib.rs:220-246 *)
Record Parameters := mkParams {
  p_vk : VerifyingKey; p_h : list G1; p_l : list G1; p_a : list G1; p_b_g1 : list G1; p_b_g2 : list G2
}.
(** groth16/src/lib.rs:29-34 *)
Record Proof_ := mkProof { proof_a : G1; proof_b : G2; proof_c : G1 }.

(** ** Parameter generation *)

(** groth16/src/generator.rs:367-380 [eval_at_tau]; indexing out of range panics. *)
Fixpoint eval_at_tau_from (powers_of_tau : list P) (acc : P) (p : list (P * nat)) : outcome P :=
  match p with
  | [] => Done acc
  | (coeff, index) :: t =>
      match nth_error powers_of_tau index with
      | None => Panicked
      | Some n => eval_at_tau_from powers_of_tau (acc + n * coeff)%F t
      end
  end.
Definition eval_at_tau (powers_of_tau : list P) (p : list (P * nat)) : outcome P := eval_at_tau_from powers_of_tau fzero p.

(** generator.rs:382-404: the elements computed for one variable: A query, B queries in G1 and G2, IC / L query. *)
Definition quad : Type := G1 * G1 * G2 * G1.
Definition quad_identity : quad := (gzero, gzero, gzero, gzero).
Definition eval_one (g1 : G1) (g2 : G2) (powers_of_tau : list P) (inv alpha beta : P)
    (cols : list (P * nat) * list (P * nat) * list (P * nat)) : outcome quad :=
  let '(at_, bt, ct) := cols in
  obind (eval_at_tau powers_of_tau at_) (fun at_ =>
  obind (eval_at_tau powers_of_tau bt) (fun bt =>
  obind (eval_at_tau powers_of_tau ct) (fun ct =>
  let a := if negb (feqb at_ fzero) then at_ *g g1 else gzero in
  let b_g1 := if negb (feqb bt fzero) then bt *g g1 else gzero in
  let b_g2 := if negb (feqb bt fzero) then bt *g g2 else gzero in
  let at_ := (at_ * beta)%F in
  let bt := (bt * alpha)%F in
  let e := ((at_ + bt + ct) * inv)%F in
  Done (a, b_g1, b_g2, e *g g1)))).

(** generator.rs:303-415 [eval].  A panic in one of the tasks is a panic of the scope, hence of the call. *)
Definition eval_vars (w : Worker) (g1 : G1) (g2 : G2) (powers_of_tau : list P) (at_ bt ct : list (list (P * nat)))
    (n : nat) (inv alpha beta : P) : outcome (list quad) :=
  if ((n =? length at_) && (n =? length bt) && (n =? length ct))%bool then
    obind (par_zip w n (fun (_ : outcome quad) cols => eval_one g1 g2 powers_of_tau inv alpha beta cols)
             (repeat (Done quad_identity) n) (combine (combine at_ bt) ct))
      (omap (fun x => x))
  else Panicked.

Definition q_a (q : quad) : G1 := fst (fst (fst q)).
Definition q_b1 (q : quad) : G1 := snd (fst (fst q)).
Definition q_b2 (q : quad) : G2 := snd (fst q).
Definition q_ext (q : quad) : G1 := snd q.

Definition is_identity {M : FMod P} (x : M) : bool := geqb x gzero.

(** generator.rs:227-244 *)
Definition invert_or_error (x : P) : res P :=
  match finvert x with Some y => Ok y | None => Err UnexpectedIdentity end.

Definition Done_res {A} (r : res A) : outcome (res A) := Done r.

(** generator.rs:157-507 [generate_parameters]. *)
Definition generate_parameters (w : Worker) (circuit : prog P (res unit)) (g1 : G1) (g2 : G2) (alpha beta gamma delta tau : P)
  : outcome (res Parameters) :=
  (* :175-202 *)
  obindr (synthesize_keypair circuit) (fun assembly =>
  (* :204-206 *)
  obindr (from_coeffs (M := ScalarMod P) (repeat fzero (num_constraints assembly))) (fun powers_of_tau =>
  obindr (Done_res (invert_or_error gamma)) (fun gamma_inverse =>
  obindr (Done_res (invert_or_error delta)) (fun delta_inverse =>
  let m := length (coeffs powers_of_tau) in
  (* :251-264 powers of tau *)
  obind (par_for w m (fun chunk i => fpow tau (i * chunk)) (fun current _ => (current, (current * tau)%F)) (coeffs powers_of_tau)) (fun ps =>
  let powers_of_tau := with_coeffs powers_of_tau ps in
  (* :266-268 *)
  let coeff := (z powers_of_tau tau * delta_inverse)%F in
  (* :248, :270-294 h query; the chunks of [powers_of_tau] are at least as long as those of [h] *)
  obind (par_zip w (m - 1) (fun (_ : G1) p => (p * coeff)%F *g g1) (repeat gzero (m - 1)) ps) (fun h =>
  (* :297-299 *)
  obind (ifft w powers_of_tau) (fun powers_of_tau =>
  let powers_of_tau := coeffs powers_of_tau in
  (* :418-453 *)
  obind (eval_vars w g1 g2 powers_of_tau (col_inputs (ka_at assembly)) (col_inputs (ka_bt assembly)) (col_inputs (ka_ct assembly))
           (num_inputs assembly) gamma_inverse alpha beta) (fun inputs =>
  obind (eval_vars w g1 g2 powers_of_tau (col_aux (ka_at assembly)) (col_aux (ka_bt assembly)) (col_aux (ka_ct assembly))
           (num_aux assembly) delta_inverse alpha beta) (fun aux =>
  let a := map q_a inputs ++ map q_a aux in
  let b_g1 := map q_b1 inputs ++ map q_b1 aux in
  let b_g2 := map q_b2 inputs ++ map q_b2 aux in
  let ic := map q_ext inputs in
  let l := map q_ext aux in
  (* :457-461 *)
  if existsb is_identity l then Done (Err UnconstrainedVariable) else
  (* :463-506 *)
  Done (Ok (mkParams
    (mkVK (alpha *g g1) (beta *g g1) (beta *g g2) (gamma *g g2) (delta *g g1) (delta *g g2) ic)
    h l
    (filter (fun e => negb (is_identity e)) a)
    (filter (fun e => negb (is_identity e)) b_g1)
    (filter (fun e => negb (is_identity e)) b_g2)))))))))))).

(** ** Proof creation *)

(** src/multiexp.rs:305-332: the call itself, which may panic on its assertion; the result is what [wait] returns. *)
Definition multiexp_start {M : FMod P} (ln_ceil : Z -> nat) (bases : list M) (start : nat) (d : Density) (exps : list Exponent)
  : outcome (outcome (res M)) :=
  let c := window_size ln_ceil (length exps) in
  match get_query_size d with
  | Some n => if n =? length exps then Done (multiexp_inner bases start d exps c) else Panicked
  | None => Done (multiexp_inner bases start d exps c)
  end.

(** groth16/src/prover.rs:182-361 [create_proof], for the [ParameterSource] of groth16/src/lib.rs:435-474, [&Parameters],
    none of whose methods fail. *)
Definition create_proof (w : Worker) (ln_ceil : Z -> nat) (circuit : prog P (res unit)) (params : Parameters) (r s : P)
  : outcome (res Proof_) :=
  (* :193-216 *)
  obindr (synthesize_prover circuit) (fun prover =>
  let vk := p_vk params in
  (* :222-242 *)
  obindr (prover_h w (pa_a prover) (pa_b prover) (pa_c prover)) (fun h_exps =>
  obind (multiexp_start ln_ceil (p_h params) 0 FullDensity (map exponent_of h_exps)) (fun h =>
  (* :244-257 *)
  let inputs := map exponent_of (input_assignment prover) in
  let aux := map exponent_of (aux_assignment prover) in
  (* :259-264 *)
  obind (multiexp_start ln_ceil (p_l params) 0 FullDensity aux) (fun l =>
  (* :266-282; the second source starts after the inputs: lib.rs:455 *)
  obind (multiexp_start ln_ceil (p_a params) 0 FullDensity inputs) (fun a_inputs =>
  obind (multiexp_start ln_ceil (p_a params) (length inputs) (Tracked (a_aux_density prover)) aux) (fun a_aux =>
  (* :284-315 *)
  let b_input_density_total := dt_get_total_density (b_input_density prover) in
  obind (multiexp_start ln_ceil (p_b_g1 params) 0 (Tracked (b_input_density prover)) inputs) (fun b_g1_inputs =>
  obind (multiexp_start ln_ceil (p_b_g1 params) b_input_density_total (Tracked (b_aux_density prover)) aux) (fun b_g1_aux =>
  obind (multiexp_start ln_ceil (p_b_g2 params) 0 (Tracked (b_input_density prover)) inputs) (fun b_g2_inputs =>
  obind (multiexp_start ln_ceil (p_b_g2 params) b_input_density_total (Tracked (b_aux_density prover)) aux) (fun b_g2_aux =>
  (* :317-321 *)
  if (is_identity (delta_g1 vk) || is_identity (delta_g2 vk))%bool then Done (Err UnexpectedIdentity) else
  (* :323-335 *)
  let g_a := (r *g delta_g1 vk) +g alpha_g1 vk in
  let g_b := (s *g delta_g2 vk) +g beta_g2 vk in
  let g_c := (((r * s)%F *g delta_g1 vk) +g (s *g alpha_g1 vk)) +g (r *g beta_g1 vk) in
  (* :336-354 *)
  obindr a_inputs (fun a_answer =>
  obindr a_aux (fun x =>
  let a_answer := a_answer +g x in
  let g_a := g_a +g a_answer in
  let a_answer := s *g a_answer in
  let g_c := g_c +g a_answer in
  obindr b_g1_inputs (fun b1_answer =>
  obindr b_g1_aux (fun x =>
  let b1_answer := b1_answer +g x in
  obindr b_g2_inputs (fun b2_answer =>
  obindr b_g2_aux (fun x =>
  let b2_answer := b2_answer +g x in
  let g_b := g_b +g b2_answer in
  let b1_answer := r *g b1_answer in
  let g_c := g_c +g b1_answer in
  obindr h (fun h =>
  let g_c := g_c +g h in
  obindr l (fun l =>
  let g_c := g_c +g l in
  Done (Ok (mkProof g_a g_b g_c)))))))))))))))))))).

(** ** Verification *)

(** groth16/src/lib.rs:399-408 *)
Record PreparedVerifyingKey := mkPVK {
  alpha_g1_beta_g2 : E_GT E; neg_gamma_g2 : G2; neg_delta_g2 : G2; pvk_ic : list G1
}.
(** groth16/src/verifier.rs:11-21 *)
Definition prepare_verifying_key (vk : VerifyingKey) : PreparedVerifyingKey :=
  mkPVK (pair (alpha_g1 vk) (beta_g2 vk)) (gneg (gamma_g2 vk)) (gneg (delta_g2 vk)) (ic vk).

(** [E::multi_miller_loop(terms).final_exponentiation()] *)
Definition multi_pairing (terms : list (G1 * G2)) : E_GT E :=
  fold_left (fun acc t => acc +g pair (fst t) (snd t)) terms gzero.

(** verifier.rs:32-36 *)
Definition fold_inputs (acc : G1) (public_inputs : list P) (ics : list G1) : G1 :=
  fold_left (fun acc ib => acc +g (fst ib *g snd ib)) (combine public_inputs ics) acc.

(** verifier.rs:23-58 [verify_proof].  [pvk.ic[0]] would panic on an empty [ic]. *)
Definition verify_proof (pvk : PreparedVerifyingKey) (proof : Proof_) (public_inputs : list P) : outcome (result VerificationError unit) :=
  if negb (length public_inputs + 1 =? length (pvk_ic pvk)) then Done (Err InvalidVerifyingKey) else
  match pvk_ic pvk with
  | [] => Panicked
  | ic0 :: _ =>
      let acc := fold_inputs ic0 public_inputs (skipn 1 (pvk_ic pvk)) in
      if geqb (alpha_g1_beta_g2 pvk)
              (multi_pairing [(proof_a proof, proof_b proof); (acc, neg_gamma_g2 pvk); (proof_c proof, neg_delta_g2 pvk)])
      then Done (Ok tt) else Done (Err InvalidProof)
  end.
End Groth16.
Arguments VerifyingKey {P}. Arguments Parameters {P}. Arguments Proof_ {P}. Arguments PreparedVerifyingKey {P}.
Arguments mkVK {P E}. Arguments mkParams {P E}. Arguments mkProof {P E}. Arguments mkPVK {P E}.
Arguments alpha_g1 {P E}. Arguments beta_g1 {P E}. Arguments beta_g2 {P E}. Arguments gamma_g2 {P E}.
Arguments delta_g1 {P E}. Arguments delta_g2 {P E}. Arguments ic {P E}.
Arguments p_vk {P E}. Arguments p_h {P E}. Arguments p_l {P E}. Arguments p_a {P E}. Arguments p_b_g1 {P E}. Arguments p_b_g2 {P E}.
Arguments proof_a {P E}. Arguments proof_b {P E}. Arguments proof_c {P E}.
Arguments alpha_g1_beta_g2 {P E}. Arguments neg_gamma_g2 {P E}. Arguments neg_delta_g2 {P E}. Arguments pvk_ic {P E}.
Arguments q_a {P E}. Arguments q_b1 {P E}. Arguments q_b2 {P E}. Arguments q_ext {P E}.
Arguments eval_one {P E}. Arguments eval_vars {P E}. Arguments generate_parameters {P E}. Arguments create_proof {P E}.
Arguments prepare_verifying_key {P E}. Arguments verify_proof {P E}. Arguments multi_pairing {P E}. Arguments fold_inputs {P E}.
