(** Property C62: proofs put together from the elements of the key. *)
From Coq Require Import String.
From Coq Require Import ZArith List Bool Lia Field.
From Verif Require Import Prelude PrimeField Fields FModule GRing Circuit Multicore Multiexp MultiexpProof PropMultiexp Assembly AssemblyProof PropAssembly Groth16 GeneratorProof ProverProof PropGenerator PropGroth16 BatchProof PropVerifier PropDeterminism.
From Verif Require Import FFTProof DomainProof Quotient Roots MPoly PropRandom.
From Verif Require PropDomain.
Import ListNotations.
Local Open Scope nat_scope.

(** ** Specification *)
Section Spec.
Context {P : PrimeField} {E : Engine P}.

(** How to put together an element of the first group from the elements of a key: coefficients for [alpha_g1], [beta_g1], [delta_g1], for
    the elements of [ic], [l] and [h], and a polynomial in the secret point, evaluated at [tau] in the exponent.  (The elements of [a]
    and [b_g1] are such evaluations, see [C62_queries]; the polynomials may be more than combinations of these.) *)
Record plan1 := mkPlan1 { x_alpha : P; x_beta : P; x_delta : P; x_tau : list P; x_ic : list P; x_l : list P; x_h : list P }.
(** The same for the second group: [beta_g2], [gamma_g2], [delta_g2], and a polynomial for [b_g2]. *)
Record plan2 := mkPlan2 { y_beta : P; y_gamma : P; y_delta : P; y_tau : list P }.

Definition element1 (g1 : E_G1 E) (tau : P) (params : Parameters E) (x : plan1) : E_G1 E :=
  x_alpha x *g alpha_g1 (p_vk params) +g x_beta x *g beta_g1 (p_vk params) +g x_delta x *g delta_g1 (p_vk params)
  +g PropDomain.eval (x_tau x) tau *g g1
  +g combination (x_ic x) (ic (p_vk params)) +g combination (x_l x) (p_l params) +g combination (x_h x) (p_h params).
Definition element2 (g2 : E_G2 E) (tau : P) (params : Parameters E) (y : plan2) : E_G2 E :=
  y_beta y *g beta_g2 (p_vk params) +g y_gamma y *g gamma_g2 (p_vk params) +g y_delta y *g delta_g2 (p_vk params)
  +g PropDomain.eval (y_tau y) tau *g g2.
Definition put_together (g1 : E_G1 E) (g2 : E_G2 E) (tau : P) (params : Parameters E) (a : plan1) (b : plan2) (c : plan1) : Proof_ E :=
  mkProof (element1 g1 tau params a) (element2 g2 tau params b) (element1 g1 tau params c).

(** x_1 g_1 + x_2 g_2 + ..., in either group *)
Fixpoint linear {M : FMod P} (xs : list P) (gs : list M) : M :=
  match xs, gs with x :: xs, g :: gs => x *g g +g linear xs gs | _, _ => gzero end.

(** The witness that can be read off the plan for the third element. *)
Definition extracted (inst : KState P) (inputs : list P) (c : plan1) : PState P :=
  {| p_inputs := fone :: inputs; p_aux := map (fun i => nth i (x_l c) fzero) (seq 0 (k_aux inst)); p_cons := k_cons inst |}.
End Spec.

(** * C62 *)
Section C62.
Context {P : PrimeField} {E : Engine P}.
Add Field PFc62 : (F_field P).

Lemma comb_scalars {M : FMod P} (f : nat -> P) (g : M) n : forall cs k,
  dotl cs (map (fun i => f i *g g) (seq k n)) = fsum n (fun i => nth i cs 0 * f (k + i)%nat)%F *g g.
Proof.
  induction n as [|n IH]; intros cs k; cbn [seq map].
  - destruct cs; cbn [dotl]; symmetry; apply gmul_0_l.
  - destruct cs as [|c cs]; cbn [dotl].
    + rewrite fsum_zero; [symmetry; apply gmul_0_l|]. intros i _. destruct i; cbn [nth]; ring.
    + rewrite IH, fsum_Sl. cbn [nth]. rewrite Nat.add_0_r, gmul_add_l, gmul_mul. f_equal. f_equal. apply fsum_ext. intros i _. now rewrite Nat.add_succ_r.
Qed.

Fixpoint wsum (n : nat) (c : nat -> P) (p : nat -> list P) : list P :=
  match n with 0 => [] | S n => padd (wsum n c p) (psc (c n) (p n)) end.
Lemma hev_wsum n c p x : hev (wsum n c p) x = fsum n (fun i => c i * hev (p i) x)%F.
Proof. induction n as [|n IH]; cbn [wsum hev]; [reflexivity|]. rewrite hev_padd, hev_psc, fsum_S, IH. reflexivity. Qed.
Lemma wsum_length n c p m : (forall i, List.length (p i) <= m) -> List.length (wsum n c p) <= m.
Proof. intros H. induction n as [|n IH]; cbn [wsum List.length]; [lia|]. rewrite padd_length, psc_length. specialize (H n). lia. Qed.

Section Poly.
Variables (ni na m : nat) (U V W : Var -> list P) (A C : @plan1 P) (B : @plan2 P) (xs : list P).
Hypothesis (Hm : 0 < m).
Hypothesis LU : forall v, List.length (U v) <= m /\ List.length (V v) <= m /\ List.length (W v) <= m.
Hypothesis LA : List.length (x_tau A) <= m.
Hypothesis LB : List.length (y_tau B) <= m.
Hypothesis LC : List.length (x_tau C) <= m.

Definition pneg (p : list P) : list P := psc (- fone)%F p.
(** [h (x^m - 1)], of the first [m - 1] coefficients *)
Definition hz (h : list P) : list P := padd (psh m (firstn (m - 1) h)) (psc (- fone)%F (firstn (m - 1) h)).
Definition in_ic (Q : Var -> list P) (cs : list P) : list P := wsum ni (fun i => nth i cs fzero) (fun i => Q (Input i)).
Definition in_l (Q : Var -> list P) (cs : list P) : list P := wsum na (fun i => nth i cs fzero) (fun i => Q (Aux i)).

Definition U1 := in_l U (x_l A). Definition V1 := in_l V (x_l A). Definition W1 := padd (in_l W (x_l A)) (hz (x_h A)).
Definition U2 := in_ic U (x_ic A). Definition V2 := in_ic V (x_ic A). Definition W2 := in_ic W (x_ic A).
Definition U4 := in_ic U (x_ic C). Definition V4 := in_ic V (x_ic C). Definition W4 := in_ic W (x_ic C).
Definition Uz := padd (in_ic U (fone :: xs)) (in_l U (x_l C)).
Definition Vz := padd (in_ic V (fone :: xs)) (in_l V (x_l C)).
Definition Wz := padd (padd (in_ic W (fone :: xs)) (in_l W (x_l C))) (hz (x_h C)).

Local Notation "p +++ q" := (padd p q) (at level 60, right associativity).
Local Notation "c ** p" := (psc c p) (at level 40).
Local Notation a := (x_tau A). Local Notation b := (y_tau B). Local Notation c := (x_tau C).

(** The equation, multiplied by [gamma delta], as a polynomial in [gamma], [delta], [alpha], [beta], [tau]. *)
Definition equation : mp (P := P) 5 :=
  [ (* 1 *)
    [ [];
      [ [pml W2 b; y_beta B ** W2 +++ pml U2 b; y_beta B ** U2]; [pml V2 b; y_beta B ** V2] ];
      [ [y_delta B ** W2 +++ pneg W4; y_delta B ** U2 +++ pneg U4]; [y_delta B ** V2 +++ pneg V4] ] ];
    (* gamma *)
    [ [ [pml W1 b; y_beta B ** W1 +++ pml U1 b; y_beta B ** U1]; [pml V1 b; y_beta B ** V1] ];
      [ [pml a b +++ (y_delta B ** W1 +++ (y_gamma B ** W2 +++ pneg Wz));
         y_beta B ** a +++ (x_beta A ** b +++ (y_delta B ** U1 +++ (y_gamma B ** U2 +++ pneg Uz))); [x_beta A * y_beta B]%F];
        [x_alpha A ** b +++ (y_delta B ** V1 +++ (y_gamma B ** V2 +++ pneg Vz)); [x_alpha A * y_beta B - 1]%F] ];
      [ [x_delta A ** b +++ (y_delta B ** a +++ pneg c); [x_delta A * y_beta B + y_delta B * x_beta A - x_beta C]%F]; [[y_delta B * x_alpha A - x_alpha C]%F] ];
      [ [[x_delta A * y_delta B - x_delta C]%F] ] ];
    (* gamma^2 *)
    [ [ [y_gamma B ** W1; y_gamma B ** U1]; [y_gamma B ** V1] ];
      [ [y_gamma B ** a; [y_gamma B * x_beta A]%F]; [[y_gamma B * x_alpha A]%F] ];
      [ [[y_gamma B * x_delta A]%F] ] ] ].

Lemma hz_length h : List.length (hz h) <= 2 * m - 1.
Proof. unfold hz. rewrite padd_length, psh_length, psc_length. pose proof (firstn_le_length (m - 1) h). rewrite firstn_length. lia. Qed.
Lemma hz_eval h x : hev (hz h) x = (hev (firstn (m - 1) h) x * (fpow x m - 1))%F.
Proof. unfold hz. rewrite hev_padd, hev_psh, hev_psc. ring. Qed.

Lemma degrees : mdeg 5 equation [2; 3; 1; 2; 3 * m - 3].
Proof.
  assert (L1 : forall Q cs, (forall v, List.length (Q v) <= m) -> List.length (in_ic Q cs) <= m) by (intros; apply wsum_length; auto).
  assert (L2 : forall Q cs, (forall v, List.length (Q v) <= m) -> List.length (in_l Q cs) <= m) by (intros; apply wsum_length; auto).
  assert (HU : forall v, List.length (U v) <= m) by apply LU. assert (HV : forall v, List.length (V v) <= m) by apply LU. assert (HW : forall v, List.length (W v) <= m) by apply LU.
  assert (LU1 : List.length U1 <= m) by (apply L2; auto). assert (LV1 : List.length V1 <= m) by (apply L2; auto).
  assert (LU2 : List.length U2 <= m) by (apply L1; auto). assert (LV2 : List.length V2 <= m) by (apply L1; auto). assert (LW2 : List.length W2 <= m) by (apply L1; auto).
  assert (LU4 : List.length U4 <= m) by (apply L1; auto). assert (LV4 : List.length V4 <= m) by (apply L1; auto). assert (LW4 : List.length W4 <= m) by (apply L1; auto).
  assert (LW1 : List.length W1 <= 2 * m - 1).
  { unfold W1. rewrite padd_length. pose proof (hz_length (x_h A)). pose proof (L2 W (x_l A) HW). lia. }
  assert (LUz : List.length Uz <= m) by (unfold Uz; rewrite padd_length; apply Nat.max_lub; auto).
  assert (LVz : List.length Vz <= m) by (unfold Vz; rewrite padd_length; apply Nat.max_lub; auto).
  assert (LWz : List.length Wz <= 2 * m - 1).
  { unfold Wz. rewrite !padd_length. pose proof (hz_length (x_h C)). pose proof (L2 W (x_l C) HW). pose proof (L1 W (fone :: xs) HW). lia. }
  pose proof (pml_length' a b m m LA LB Hm) as M0. pose proof (pml_length' W1 b _ m LW1 LB Hm) as M1. pose proof (pml_length' U1 b _ m LU1 LB Hm) as M2. pose proof (pml_length' V1 b _ m LV1 LB Hm) as M3.
  pose proof (pml_length' W2 b _ m LW2 LB Hm) as M4. pose proof (pml_length' U2 b _ m LU2 LB Hm) as M5. pose proof (pml_length' V2 b _ m LV2 LB Hm) as M6.
  assert (T : forall p : list P, List.length p <= 3 * m - 2 -> List.length p <= S (3 * m - 3) /\ Forall (fun q : P => @nil nat = []) p).
  { intros p Hp. split; [lia|]. apply Forall_forall. reflexivity. }
  unfold equation.
  repeat match goal with
  | |- mdeg (S (S _)) _ _ => split; [cbn; lia|]
  | |- mdeg 1 _ _ => apply T; unfold pneg; repeat (rewrite padd_length || rewrite psc_length); cbn [List.length]; lia
  | |- Forall _ [] => constructor
  | |- Forall _ (_ :: _) => constructor
  end.
Qed.

Definition scalar1 (al be ga de t : P) : P :=
  (x_alpha A * al + x_beta A * be + x_delta A * de + hev a t + (be * hev U2 t + al * hev V2 t + hev W2 t) * finv ga + (be * hev U1 t + al * hev V1 t + hev W1 t) * finv de)%F.
Definition scalar2 (al be ga de t : P) : P := (y_beta B * be + y_gamma B * ga + y_delta B * de + hev b t)%F.
Definition scalar3 (al be ga de t : P) : P :=
  (al * be + (be * hev Uz t + al * hev Vz t + hev Wz t)
   + (x_alpha C * al + x_beta C * be + x_delta C * de + hev c t + (be * hev U4 t + al * hev V4 t + hev W4 t) * finv ga) * de)%F.

Lemma equation_eval al be ga de t : ga <> fzero -> de <> fzero ->
  mev 5 equation [ga; de; al; be; t] = (ga * de * (scalar1 al be ga de t * scalar2 al be ga de t - scalar3 al be ga de t))%F.
Proof.
  intros Hg Hd. unfold equation, mev. cbn [map]. 
  assert (ID : forall l : list P, hev (map (fun q : mp (P := P) 0 => q) l) t = hev l t) by (intros l; f_equal; apply (map_id l)). rewrite !ID. clear ID.
  unfold pneg. repeat (rewrite hev_padd || rewrite hev_psc || rewrite hev_pml).
  unfold scalar1, scalar2, scalar3. cbn [hev]. field. auto.
Qed.

Lemma equation_solved : mzero 5 equation -> forall x, (hev Uz x * hev Vz x = hev Wz x)%F.
Proof.
  intros Z x.
  assert (HZ : forall i j k l, hev (nth l (nth k (nth j (nth i equation []) []) []) []) x = fzero).
  { assert (N : forall n (p : mp (P := P) (S (S n))) i, mzero (S (S n)) p -> mzero (S n) (nth i (p : list (mp (S n))) [])).
    { intros n p i Hp. destruct (Nat.lt_ge_cases i (List.length (p : list (mp (P := P) (S n))))) as [H|H].
      - cbn [mzero] in Hp. rewrite Forall_forall in Hp. apply Hp. now apply nth_In.
      - rewrite nth_overflow by auto. constructor. }
    intros i j k l. apply zero_hev. change (mzero 1 (nth l (nth k (nth j (nth i equation []) []) []) [])).
    apply (N 0). apply (N 1). apply (N 2). apply (N 3). exact Z. }
  pose proof (HZ 1 1 1 1) as E1. pose proof (HZ 1 1 0 2) as E2. pose proof (HZ 2 1 1 0) as E3.
  pose proof (HZ 1 0 0 2) as E4. pose proof (HZ 1 0 1 1) as E5. pose proof (HZ 1 0 0 1) as E6.
  pose proof (HZ 1 1 1 0) as E7. pose proof (HZ 1 1 0 1) as E8. pose proof (HZ 1 1 0 0) as E9. clear HZ Z.
  unfold equation in *. cbn [nth hev] in *. unfold pneg in *.
  repeat match goal with H : _ |- _ => rewrite hev_padd in H || rewrite hev_psc in H || rewrite hev_pml in H end.
  set (ax := hev a x) in *. set (bx := hev b x) in *.
  assert (One : (x_alpha A * y_beta B)%F = fone) by (transitivity (x_alpha A * y_beta B - 1 + x * 0 + 1)%F; [ring|]; rewrite E1; ring).
  assert (Nb : y_beta B <> fzero) by (intros Q; rewrite Q in One; apply (f_1_neq_0 (P := P)); rewrite <- One; ring).
  assert (Na : x_alpha A <> fzero) by (intros Q; rewrite Q in One; apply (f_1_neq_0 (P := P)); rewrite <- One; ring).
  assert (Zx : forall u v : P, u <> fzero -> (u * v)%F = fzero -> v = fzero) by (intros u v Hu Q; apply fmul_0 in Q as [Q|Q]; tauto).
  assert (Zb : x_beta A = fzero) by (apply (Zx (y_beta B)); auto; rewrite <- E2; ring).
  assert (Zg : y_gamma B = fzero) by (apply (Zx (x_alpha A)); auto; rewrite <- E3; ring).
  assert (ZU : hev U1 x = fzero) by (apply (Zx (y_beta B)); auto).
  assert (ZV : hev V1 x = fzero) by (apply (Zx (y_beta B)); auto).
  assert (ZW : hev W1 x = fzero) by (apply (Zx (y_beta B)); auto; rewrite ZU in E6; rewrite <- E6; ring).
  rewrite ZU, ZV, ZW, Zb, Zg in *.
  assert (F1 : hev Vz x = (x_alpha A * bx)%F) by (transitivity (x_alpha A * bx - (x_alpha A * bx + (y_delta B * 0 + (0 * hev V2 x + - fone * hev Vz x))))%F; [ring|]; rewrite E7; ring).
  assert (F2 : hev Uz x = (y_beta B * ax)%F) by (transitivity (y_beta B * ax - (y_beta B * ax + (0 * bx + (y_delta B * 0 + (0 * hev U2 x + - fone * hev Uz x)))))%F; [ring|]; rewrite E8; ring).
  assert (F3 : hev Wz x = (ax * bx)%F) by (transitivity (ax * bx - (ax * bx + (y_delta B * 0 + (0 * hev W2 x + - fone * hev Wz x))))%F; [ring|]; rewrite E9; ring).
  rewrite F1, F2, F3. transitivity (x_alpha A * y_beta B * (ax * bx))%F; [ring|]. rewrite One. ring.
Qed.
End Poly.

Lemma ic_scalars ni (U V W : Var -> list P) cs al be inv t :
  fsum ni (fun i => nth i cs 0 * ((be * PropDomain.eval (U (Input i)) t + al * PropDomain.eval (V (Input i)) t + PropDomain.eval (W (Input i)) t) * inv))%F =
  ((be * hev (in_ic ni U cs) t + al * hev (in_ic ni V cs) t + hev (in_ic ni W cs) t) * inv)%F.
Proof.
  unfold in_ic. rewrite !hev_wsum, !fsum_mul_l, <- !fsum_add, fsum_mul_r. apply fsum_ext. intros i _.
  change PropDomain.eval with (peval (P := P)). rewrite <- !hev_peval. ring.
Qed.
Lemma l_scalars na (U V W : Var -> list P) cs al be inv t :
  fsum na (fun i => nth i cs 0 * ((be * PropDomain.eval (U (Aux i)) t + al * PropDomain.eval (V (Aux i)) t + PropDomain.eval (W (Aux i)) t) * inv))%F =
  ((be * hev (in_l na U cs) t + al * hev (in_l na V cs) t + hev (in_l na W cs) t) * inv)%F.
Proof.
  unfold in_l. rewrite !hev_wsum, !fsum_mul_l, <- !fsum_add, fsum_mul_r. apply fsum_ext. intros i _.
  change PropDomain.eval with (peval (P := P)). rewrite <- !hev_peval. ring.
Qed.
Lemma h_scalars n cs (z inv t : P) : fsum n (fun i => nth i cs 0 * (fpow t i * z * inv))%F = (hev (firstn n cs) t * z * inv)%F.
Proof.
  rewrite hev_peval, (peval_upto _ n) by apply firstn_le_length. rewrite !fsum_mul_r. apply fsum_ext. intros i Hi. unfold coef.
  assert (X : nth i (firstn n cs) fzero = nth i cs (fzero : P)).
  { destruct (Nat.lt_ge_cases i (List.length cs)).
    - rewrite <- (firstn_skipn n cs) at 2. rewrite app_nth1; auto. rewrite firstn_length. lia.
    - rewrite !nth_overflow; auto. rewrite firstn_length. lia. }
  rewrite X. ring.
Qed.

Section Key.
Variables (g1 : E_G1 E) (g2 : E_G2 E) (alpha beta gamma delta tau : P) (inst : KState P) (e : nat) (U V W : Var -> list P) (params : Parameters E).
Hypothesis Hdoc : documented g1 g2 alpha beta gamma delta tau inst e U V W params.
Hypothesis Hg : gamma <> fzero.
Hypothesis Hd : delta <> fzero.
Let ni := k_inputs inst.
Let na := k_aux inst.
Let m := 2 ^ e.

Lemma element1_scalar (x : @plan1 P) : element1 g1 tau params x =
  (x_alpha x * alpha + x_beta x * beta + x_delta x * delta + hev (x_tau x) tau
   + (beta * hev (in_ic ni U (x_ic x)) tau + alpha * hev (in_ic ni V (x_ic x)) tau + hev (in_ic ni W (x_ic x)) tau) * finv gamma
   + (beta * hev (in_l na U (x_l x)) tau + alpha * hev (in_l na V (x_l x)) tau + hev (in_l na W (x_l x)) tau + hev (hz m (x_h x)) tau) * finv delta)%F *g g1.
Proof.
  destruct Hdoc as [D1 D2 D3 D4 D5 D6 D7 D8 D9 D10 D11 D12]. unfold element1. rewrite D1, D2, D5, D7, D8, D9, !combination_dotl.
  rewrite (comb_scalars (fun i => ((beta * PropDomain.eval (U (Input i)) tau + alpha * PropDomain.eval (V (Input i)) tau + PropDomain.eval (W (Input i)) tau) * finv gamma)%F)).
  rewrite (comb_scalars (fun i => ((beta * PropDomain.eval (U (Aux i)) tau + alpha * PropDomain.eval (V (Aux i)) tau + PropDomain.eval (W (Aux i)) tau) * finv delta)%F)).
  rewrite (comb_scalars (fun i => (fpow tau i * (fpow tau (2 ^ e) - 1) * finv delta)%F)). cbn [Nat.add].
  rewrite ic_scalars, l_scalars, h_scalars. fold ni na m. rewrite hz_eval. change (PropDomain.eval (x_tau x) tau) with (peval (x_tau x) tau). rewrite <- hev_peval.
  gcoeffs. field. auto.
Qed.
Lemma element2_scalar (y : @plan2 P) : element2 g2 tau params y = (y_beta y * beta + y_gamma y * gamma + y_delta y * delta + hev (y_tau y) tau)%F *g g2.
Proof.
  destruct Hdoc as [D1 D2 D3 D4 D5 D6 D7 D8 D9 D10 D11 D12]. unfold element2. rewrite D3, D4, D6. change (PropDomain.eval (y_tau y) tau) with (peval (y_tau y) tau). rewrite <- hev_peval.
  gcoeffs. ring.
Qed.

Lemma accepted_equation (a c : @plan1 P) (b : @plan2 P) xs : pair g1 g2 <> gzero ->
  (verifies (p_vk params) (put_together g1 g2 tau params a b c) xs <->
   List.length xs + 1 = ni /\ mev 5 (equation ni na m U V W a c b xs) [gamma; delta; alpha; beta; tau] = fzero).
Proof.
  intros Hp. rewrite equation_eval by auto.
  assert (Lic : List.length (ic (p_vk params)) = ni) by (destruct Hdoc as [_ _ _ _ _ _ D7 _ _ _ _ _]; now rewrite D7, map_length, seq_length).
  assert (St : forall ic0 ics, ic (p_vk params) = ic0 :: ics -> ic0 +g combination xs ics =
     ((beta * hev (in_ic ni U (fone :: xs)) tau + alpha * hev (in_ic ni V (fone :: xs)) tau + hev (in_ic ni W (fone :: xs)) tau) * finv gamma)%F *g g1).
  { intros ic0 ics Ei. destruct Hdoc as [_ _ _ _ _ _ D7 _ _ _ _ _]. rewrite <- ic_scalars.
    pose proof (comb_scalars (fun i => ((beta * PropDomain.eval (U (Input i)) tau + alpha * PropDomain.eval (V (Input i)) tau + PropDomain.eval (W (Input i)) tau) * finv gamma)%F) g1 ni (fone :: xs) 0) as X.
    cbn [Nat.add] in X. rewrite <- X. unfold ni. rewrite <- D7, Ei. cbn [dotl]. now rewrite gmul_1, combination_dotl. }
  assert (Q : forall ic0 ics, ic (p_vk params) = ic0 :: ics ->
     (pair (element1 g1 tau params a) (element2 g2 tau params b) =
        pair (alpha_g1 (p_vk params)) (beta_g2 (p_vk params)) +g pair (ic0 +g combination xs ics) (gamma_g2 (p_vk params)) +g pair (element1 g1 tau params c) (delta_g2 (p_vk params)) <->
      (scalar1 ni na m U V W a alpha beta gamma delta tau * scalar2 b alpha beta gamma delta tau - scalar3 ni na m U V W c xs alpha beta gamma delta tau)%F = fzero)).
  { intros ic0 ics Ei. rewrite (St _ _ Ei), !element1_scalar, element2_scalar. destruct Hdoc as [D1 D2 D3 D4 D5 D6 _ _ _ _ _ _]. rewrite D1, D3, D4, D6.
    rewrite !pair_mul_l, !pair_mul_r, <- !gmul_mul, <- !gmul_add_l.
    match goal with |- (?x *g _ = ?y *g _) <-> _ => assert (Y : (x - y)%F = (scalar1 ni na m U V W a alpha beta gamma delta tau * scalar2 b alpha beta gamma delta tau - scalar3 ni na m U V W c xs alpha beta gamma delta tau)%F) end.
    { unfold scalar1, scalar2, scalar3, U1, V1, W1, U2, V2, W2, U4, V4, W4, Uz, Vz, Wz. rewrite !hev_padd. field. auto. }
    rewrite <- Y. clear - Hp. set (x := (_ * _)%F). set (y := (_ + _)%F). split.
    - intros H. assert (Z : (x - y)%F *g pair g1 g2 = gzero).
      { transitivity (x *g pair g1 g2 -g y *g pair g1 g2); [gcoeffs; ring|]. rewrite H. apply gsub_diag. }
      destruct (gmul_cancel _ _ Z); [auto|contradiction].
    - intros H. transitivity ((x - y)%F *g pair g1 g2 +g y *g pair g1 g2); [gcoeffs; ring|]. rewrite H, gmul_0_l. apply gadd_0_l. }
  assert (ZZ : forall x : P, (gamma * delta * x)%F = fzero <-> x = fzero).
  { intros x. split; [|intros ->; ring]. intros H. apply fmul_0 in H as [H|H]; auto. exfalso. apply fmul_0 in H as [H|H]; contradiction. }
  rewrite ZZ. split.
  - intros (ic0 & ics & Ei & Hl & H). split; [rewrite <- Lic, Ei; cbn; lia|]. now apply (Q ic0 ics Ei).
  - intros [Hl H]. destruct (ic (p_vk params)) as [|ic0 ics] eqn:Ei; [cbn in Lic; lia|]. exists ic0, ics. split; [exact Ei|]. split; [cbn in Lic; lia|]. now apply (Q ic0 ics).
Qed.
End Key.

(** The values of the combined polynomials on the domain are the values of the constraints. *)
Lemma on_domain ni na e (inst : KState P) (sel : Constraint P -> LC P) (Q : Var -> list P) (wit : PState P) k c :
  (forall v, PropDomain.has_values (domain_generator e) (2 ^ e) (Q v) (map (fun c => coefficient (sel c) v) (k_cons inst))) ->
  k < 2 ^ e -> nth_error (k_cons inst) k = Some c -> lc_ok ni na (sel c) ->
  (hev (in_ic ni Q (p_inputs wit)) (fpow (domain_generator e) k) + hev (in_l na Q (p_aux wit)) (fpow (domain_generator e) k))%F = eval (PropGroth16.value wit) (sel c).
Proof.
  intros HQ Hk Hc Hok. rewrite (eval_coeffs ni na _ _ Hok). unfold in_ic, in_l. rewrite !hev_wsum.
  assert (X : forall v, hev (Q v) (fpow (domain_generator e) k) = lc_coeff (sel c) v).
  { intros v. destruct (HQ v) as [_ H]. specialize (H k Hk). change PropDomain.eval with (peval (P := P)) in H. rewrite hev_peval, H.
    erewrite nth_error_nth by (rewrite nth_error_map, Hc; reflexivity). apply coefficient_eq. }
  f_equal; apply fsum_ext; intros i _; rewrite X; cbn [PropGroth16.value]; ring.
Qed.

(** If more than [(3 * 2^e + 5) N^4] of the [N^5] choices of the toxic waste from a set of [N] values lead to keys for which the same plan
    results in an accepted proof, then the coefficients of the elements of [l] in its third part are a satisfying witness for the
    public inputs. *)
Theorem C62_witness_known (circuit : prog P (res unit)) (inst : KState P) e (D : list P) (a : @plan1 P) (b : @plan2 P) (c : @plan1 P) (inputs : list P) (accepted : list (P * P * P * P * P)) :
  describes circuit inst -> PropDomain.domain_exponent (List.length (k_cons inst)) e ->
  List.length (x_tau a) <= 2 ^ e -> List.length (y_tau b) <= 2 ^ e -> List.length (x_tau c) <= 2 ^ e ->
  NoDup D -> NoDup accepted ->
  (forall alpha beta gamma delta tau, In (alpha, beta, gamma, delta, tau) accepted ->
     In alpha D /\ In beta D /\ In gamma D /\ In delta D /\ In tau D /\
     exists w (g1 : E_G1 E) (g2 : E_G2 E) params, wf_worker w /\ pair g1 g2 <> gzero /\
       generate_parameters w circuit g1 g2 alpha beta gamma delta tau = Done (Ok params) /\
       verify_proof (prepare_verifying_key (p_vk params)) (put_together g1 g2 tau params a b c) inputs = Done (Ok tt)) ->
  (3 * 2 ^ e + 5) * List.length D ^ 4 < List.length accepted ->
  satisfying (extracted inst inputs c) /\ List.length (p_inputs (extracted inst inputs c)) = k_inputs inst.
Proof.
  intros Hinst He LA LB LC HD Hn Hacc Hmany.
  assert (Hm : 0 < 2 ^ e) by (apply Nat.neq_0_lt_0, Nat.pow_nonzero; lia).
  assert (Hne : exists x, In x accepted) by (destruct accepted as [|x l]; [cbn in Hmany; lia|exists x; now left]).
  (* the key exists for one of them *)
  assert (X0 : e < two_adicity P /\ Forall (con_ok (k_inputs inst) (k_aux inst)) (k_cons inst)).
  { destruct Hne as [[[[[alpha beta] gamma] delta] tau] Hx]. destruct (Hacc _ _ _ _ _ Hx) as (_ & _ & _ & _ & _ & w & g1 & g2 & params & Hw & _ & Hgen & _).
    destruct (generate_ok_inv g1 g2 alpha beta gamma delta tau w circuit params Hw Hgen) as (s' & ks & e' & _ & KI & Ek & He' & Hle & HS & _).
    unfold describes in Hinst. rewrite Ek in Hinst. injection Hinst as ->. split; [|apply (ki_ok _ _ KI)].
    assert (e' = e) by (apply (least_pow_unique (List.length (k_cons inst))); now apply PropDomain.domain_exponent_least). now subst e'. }
  destruct X0 as [HS Hok]. destruct (polys_exist inst e HS) as (U & V & W & HQ). pose proof (proj1 He) as Hl.
  set (ni := k_inputs inst) in *. set (na := k_aux inst) in *. set (m := 2 ^ e) in *.
  assert (HL : forall v, List.length (U v) <= m /\ List.length (V v) <= m /\ List.length (W v) <= m).
  { intros v. destruct (HQ v) as ([A _] & [B _] & [C _]). auto. }
  assert (Hall : forall alpha beta gamma delta tau, In (alpha, beta, gamma, delta, tau) accepted ->
     List.length inputs + 1 = ni /\ mev 5 (equation ni na m U V W a c b inputs) [gamma; delta; alpha; beta; tau] = fzero).
  { intros alpha beta gamma delta tau Hx. destruct (Hacc _ _ _ _ _ Hx) as (_ & _ & _ & _ & _ & w & g1 & g2 & params & Hw & Hp & Hgen & Hv).
    destruct (generate_ok_inv g1 g2 alpha beta gamma delta tau w circuit params Hw Hgen) as (s' & ks & e' & _ & KI & Ek & He' & Hle & _ & Hg & Hd & Ep & _).
    pose proof Hinst as Hi. unfold describes in Hi. rewrite Ek in Hi. injection Hi as ->.
    assert (e' = e) by (apply (least_pow_unique (List.length (k_cons inst))); now apply PropDomain.domain_exponent_least). subst e'.
    pose proof (params_documented g1 g2 alpha beta gamma delta tau inst e U V W HS Hl Hg Hd HQ) as HDoc. rewrite <- Ep in HDoc.
    apply C38_accepts_iff in Hv. apply (accepted_equation g1 g2 alpha beta gamma delta tau inst e U V W params HDoc Hg Hd a c b inputs Hp) in Hv. exact Hv. }
  destruct (mzero_dec 5 (equation ni na m U V W a c b inputs)) as [Z|Z].
  2: { exfalso.
    set (flip := fun x : P * P * P * P * P => let '(alpha, beta, gamma, delta, tau) := x in [gamma; delta; alpha; beta; tau]).
    pose proof (few_zeros D 4 (equation ni na m U V W a c b inputs) _ (map flip accepted) HD Z (degrees ni na m U V W a c b inputs Hm HL LA LB LC)) as F.
    rewrite map_length in F. assert (Y : List.length accepted <= list_sum [2; 3; 1; 2; 3 * m - 3] * List.length D ^ 4).
    { apply F.
      - apply FinFun.Injective_map_NoDup; auto. intros [[[[? ?] ?] ?] ?] [[[[? ?] ?] ?] ?] [= -> -> -> -> ->]. reflexivity.
      - intros xs Hx. apply in_map_iff in Hx as ([[[[alpha beta] gamma] delta] tau] & <- & Hx). destruct (Hacc _ _ _ _ _ Hx) as (A1 & A2 & A3 & A4 & A5 & _).
        split; [reflexivity|]. split; [|apply Hall, Hx]. cbn [flip In]. intros x H. repeat (destruct H as [<-|H]; [assumption|]). destruct H. }
    replace (list_sum [2; 3; 1; 2; 3 * m - 3]) with (3 * m + 5) in Y by (cbn; lia). lia. }
  split.
  2: { destruct Hne as [[[[[alpha beta] gamma] delta] tau] Hx]. destruct (Hall _ _ _ _ _ Hx) as [L _]. cbn [extracted p_inputs List.length]. lia. }
  intros la lb lc Hin. cbn [extracted p_cons] in Hin. apply In_nth_error in Hin as [k Hk].
  assert (Hlt : k < m) by (assert (k < List.length (k_cons inst)) by (apply nth_error_Some; intros Q; pose proof (eq_trans (eq_sym Hk) Q); discriminate); lia).
  pose proof (equation_solved ni na m U V W a c b inputs Z (fpow (domain_generator e) k)) as Eq.
  assert (Hc : con_ok ni na (la, lb, lc)) by (rewrite Forall_forall in Hok; apply Hok; eapply nth_error_In; eauto). destruct Hc as (O1 & O2 & O3).
  assert (Aux : forall Q, in_l na Q (p_aux (extracted inst inputs c)) = in_l na Q (x_l c)).
  { intros Q. unfold in_l. cbn [extracted p_aux]. fold na. 
    assert (G : forall n f f' q, (forall i, i < n -> f i = f' i) -> wsum n f q = wsum n f' q) by (induction n as [|n IH]; intros f f' q H; cbn [wsum]; [auto|]; rewrite (IH f f'), H by auto; reflexivity).
    apply G. intros i Hi. now rewrite (nth_map_seq (fun i => nth i (x_l c) fzero)). }
  pose proof (on_domain ni na e inst sel_a U (extracted inst inputs c) k (la, lb, lc)) as PA.
  pose proof (on_domain ni na e inst sel_b V (extracted inst inputs c) k (la, lb, lc)) as PB.
  pose proof (on_domain ni na e inst sel_c W (extracted inst inputs c) k (la, lb, lc)) as PC. rewrite Aux in PA, PB, PC. cbn [extracted p_inputs] in PA, PB, PC.
  unfold sel_a, sel_b, sel_c in PA, PB, PC, O1, O2, O3. cbn [fst snd] in PA, PB, PC, O1, O2, O3.
  unfold Uz, Vz, Wz in Eq. rewrite !hev_padd, hz_eval in Eq.
  rewrite PA, PB, PC in Eq; auto.
  - assert (Zk : fpow (fpow (domain_generator e) k) m = (fone : P)).
    { rewrite <- fpow_mul. apply fpow_mod. rewrite dom_gen_eq by lia. apply prim_pow. now apply root_prim. }
    rewrite Zk in Eq.
    rewrite Eq. ring.
  - intros v. destruct (HQ v) as (_ & _ & H). unfold column_C in H. now rewrite (proj2 (proj2 (map_sel (fun lc => coefficient lc v) _))) in H.
  - intros v. destruct (HQ v) as (_ & H & _). unfold column_B in H. now rewrite (proj1 (proj2 (map_sel (fun lc => coefficient lc v) _))) in H.
  - intros v. destruct (HQ v) as (H & _ & _). unfold column_A in H. now rewrite (proj1 (map_sel (fun lc => coefficient lc v) _)) in H.
Qed.

(** So for inputs without satisfying witness every plan fails for almost all toxic waste. *)
Theorem C62_false_statements (circuit : prog P (res unit)) (inst : KState P) e (D : list P) (a : @plan1 P) (b : @plan2 P) (c : @plan1 P) (inputs : list P) (accepted : list (P * P * P * P * P)) :
  describes circuit inst -> PropDomain.domain_exponent (List.length (k_cons inst)) e ->
  List.length (x_tau a) <= 2 ^ e -> List.length (y_tau b) <= 2 ^ e -> List.length (x_tau c) <= 2 ^ e ->
  (forall wit, p_inputs wit = fone :: inputs -> List.length (p_aux wit) = k_aux inst -> p_cons wit = k_cons inst -> ~ satisfying wit) ->
  NoDup D -> NoDup accepted ->
  (forall alpha beta gamma delta tau, In (alpha, beta, gamma, delta, tau) accepted ->
     In alpha D /\ In beta D /\ In gamma D /\ In delta D /\ In tau D /\
     exists w (g1 : E_G1 E) (g2 : E_G2 E) params, wf_worker w /\ pair g1 g2 <> gzero /\
       generate_parameters w circuit g1 g2 alpha beta gamma delta tau = Done (Ok params) /\
       verify_proof (prepare_verifying_key (p_vk params)) (put_together g1 g2 tau params a b c) inputs = Done (Ok tt)) ->
  List.length accepted <= (3 * 2 ^ e + 5) * List.length D ^ 4.
Proof.
  intros Hinst He LA LB LC Hno HD Hn Hacc. destruct (Nat.le_gt_cases (List.length accepted) ((3 * 2 ^ e + 5) * List.length D ^ 4)) as [|H]; auto. exfalso.
  destruct (C62_witness_known circuit inst e D a b c inputs accepted Hinst He LA LB LC HD Hn Hacc H) as [Hs _].
  refine (Hno _ _ _ _ Hs); try reflexivity. cbn [extracted p_aux]. now rewrite map_length, seq_length.
Qed.

Fixpoint vsum (cs : Var -> P) (Q : Var -> list P) (vs : list Var) : list P :=
  match vs with [] => [] | v :: vs => padd (psc (cs v) (Q v)) (vsum cs Q vs) end.
Lemma vsum_length cs Q vs n : (forall v, List.length (Q v) <= n) -> List.length (vsum cs Q vs) <= n.
Proof. intros H. induction vs as [|v vs IH]; cbn [vsum List.length]; [lia|]. rewrite padd_length, psc_length. specialize (H v). lia. Qed.
Lemma linear_vars {M : FMod P} (g : M) (cs : Var -> P) (Q : Var -> list P) tau vs :
  let vs' := filter (fun v => negb (feqb (PropDomain.eval (Q v) tau) fzero)) vs in
  linear (map cs vs') (map (fun v => PropDomain.eval (Q v) tau *g g) vs') = PropDomain.eval (vsum cs Q vs) tau *g g.
Proof.
  change PropDomain.eval with (peval (P := P)). cbv zeta. rewrite <- hev_peval. induction vs as [|v vs IH]; [cbn; symmetry; apply gmul_0_l|]. cbn [filter vsum].
  rewrite hev_padd, hev_psc, hev_peval, gmul_add_l, <- IH. destruct (feqb_spec (peval (Q v) tau) fzero) as [Z|Z]; cbn [negb map linear].
  - rewrite Z. assert (X : (cs v * 0)%F = fzero) by ring. rewrite X, gmul_0_l. symmetry. apply gadd_0_l.
  - f_equal. symmetry. apply gmul_mul.
Qed.

(** The elements of the queries need no coefficients of their own: taking the element of every variable (if it is not left out) with a
    coefficient of its own is evaluating a polynomial. *)
Theorem C62_queries (circuit : prog P (res unit)) (inst : KState P) e (U V W : Var -> list P) (cs : Var -> P) :
  describes circuit inst -> PropDomain.domain_exponent (List.length (k_cons inst)) e -> qap_polynomials inst e U V W ->
  exists p_U p_V : list P, List.length p_U <= 2 ^ e /\ List.length p_V <= 2 ^ e /\
    forall w (g1 : E_G1 E) (g2 : E_G2 E) alpha beta gamma delta tau params, wf_worker w -> g1 <> gzero -> g2 <> gzero ->
      generate_parameters w circuit g1 g2 alpha beta gamma delta tau = Done (Ok params) ->
      let not_left_out (Q : Var -> list P) := filter (fun v => negb (feqb (PropDomain.eval (Q v) tau) fzero)) (variables (k_inputs inst) (k_aux inst)) in
      linear (map cs (not_left_out U)) (p_a params) = PropDomain.eval p_U tau *g g1 /\
      linear (map cs (not_left_out V)) (p_b_g1 params) = PropDomain.eval p_V tau *g g1 /\
      linear (map cs (not_left_out V)) (p_b_g2 params) = PropDomain.eval p_V tau *g g2.
Proof.
  intros Hinst He HQ. set (vs := variables (k_inputs inst) (k_aux inst)). exists (vsum cs U vs), (vsum cs V vs).
  split; [apply vsum_length; intros v; destruct (HQ v) as ([L _] & _ & _); exact L|]. split; [apply vsum_length; intros v; destruct (HQ v) as (_ & [L _] & _); exact L|].
  intros w g1 g2 alpha beta gamma delta tau params Hw H1 H2 Hgen. cbv zeta.
  destruct (C35_queries g1 g2 alpha beta gamma delta tau w circuit params Hw H1 H2 Hgen) as (inst' & e' & Hi & He' & X).
  unfold describes in Hi, Hinst. rewrite Hinst in Hi. injection Hi as <-.
  assert (e' = e) by (apply (least_pow_unique (List.length (k_cons inst))); now apply PropDomain.domain_exponent_least). subst e'.
  destruct (X U V W HQ) as (-> & -> & ->). split; [|split]; apply linear_vars.
Qed.

(** The prover of the library follows a plan, and the witness read off it is the prover's. *)
Theorem C62_prover_plan (prover_circuit : prog P (res unit)) (inst : KState P) (wit : PState P) e r s :
  assigns prover_circuit wit -> same_circuit inst wit -> addressable wit -> PropDomain.domain_exponent (List.length (k_cons inst)) e -> e < two_adicity P ->
  exists a b c, List.length (x_tau a) <= 2 ^ e /\ List.length (y_tau b) <= 2 ^ e /\ List.length (x_tau c) <= 2 ^ e /\
    extracted inst (public_inputs wit) c = wit /\
    forall (w w' : Worker) (ln_ceil : Z -> nat) (keygen_circuit : prog P (res unit)) (g1 : E_G1 E) (g2 : E_G2 E) alpha beta gamma delta tau params proof,
      wf_worker w -> wf_worker w' -> sane_ln_ceil ln_ceil -> describes keygen_circuit inst ->
      generate_parameters w keygen_circuit g1 g2 alpha beta gamma delta tau = Done (Ok params) ->
      create_proof w' ln_ceil prover_circuit params r s = Done (Ok proof) ->
      proof = put_together g1 g2 tau params a b c.
Proof.
  intros Hwit Hsame Haddr He HS. pose proof Hsame as (S1 & S2 & S3). pose proof He as He0. rewrite S3 in He. pose proof (PropDomain.domain_exponent_least _ _ He) as Hle.
  set (vals := fun sel : Constraint P -> LC P => map (fun c => eval (asgl (p_inputs wit) (p_aux wit)) (sel c)) (p_cons wit)).
  assert (Lv : forall sel, List.length (vals sel) = List.length (p_cons wit)) by (intros sel; apply map_length).
  pose proof (interp_values e (vals sel_a) HS) as IA. pose proof (interp_values e (vals sel_b) HS) as IB.
  pose proof (prover_h_total Single (vals sel_a) (vals sel_b) (vals sel_c) e I) as HT. rewrite !Lv in HT. specialize (HT Hle eq_refl eq_refl).
  apply Nat.ltb_lt in HS as HS'. rewrite HS' in HT. destruct HT as (h & Eh & Lh).
  set (A := interp_poly e (vals sel_a)) in *. set (B := interp_poly e (vals sel_b)) in *. pose proof IA as [LA _]. pose proof IB as [LB _].
  exists (mkPlan1 fone fzero r A [] [] []), (mkPlan2 fone fzero s B), (mkPlan1 s r (r * s)%F (padd (psc s A) (psc r B)) [] (p_aux wit) h).
  cbn [x_tau y_tau]. split; [exact LA|]. split; [exact LB|]. split; [rewrite padd_length, !psc_length; lia|]. split.
  { unfold extracted. cbn [x_l]. destruct (assigns_one _ _ Hwit) as [rest Er]. unfold public_inputs. rewrite Er. cbn [tl]. rewrite <- Er, S2, S3.
    assert (X : map (fun i => nth i (p_aux wit) fzero) (seq 0 (List.length (p_aux wit))) = p_aux wit).
    { clear. generalize (p_aux wit). intros l. apply (nth_ext _ _ fzero fzero); [now rewrite map_length, seq_length|]. rewrite map_length, seq_length. intros i Hi. now rewrite (nth_map_seq (fun i => nth i l fzero)). }
    rewrite X. now destruct wit. }
  intros w w' ln_ceil keygen_circuit g1 g2 alpha beta gamma delta tau params proof Hw Hw' Hln Hinst Hgen Hcr.
  destruct (create_ok_inv g1 g2 alpha beta gamma delta tau w w' ln_ceil keygen_circuit prover_circuit inst wit params Hw Hw' Hln Hgen Hinst Hwit Hsame Haddr r s proof Hcr)
      as (t & e' & h' & Et & PI & Hok & _ & Hle' & _ & Hg & Hd & Ep & Eh' & _ & _ & ->).
  assert (e' = e) by (now apply (least_pow_unique (List.length (p_cons wit)))). subst e'.
  rewrite (prover_h_workers w' Single) in Eh' by (auto; exact I).
  assert (Ea : pa_a t = vals sel_a) by (rewrite (pi_a _ _ PI); reflexivity). assert (Eb : pa_b t = vals sel_b) by (rewrite (pi_b _ _ PI); reflexivity).
  assert (Ec : pa_c t = vals sel_c) by (rewrite (pi_c _ _ PI); reflexivity). rewrite Ea, Eb, Ec, Eh in Eh'. injection Eh' as <-.
  assert (TAe : TA tau t e = hev A tau) by (unfold TA; rewrite Ea, (at_tau_interp e tau _ _ HS IA); symmetry; apply hev_peval).
  assert (TBe : TB tau t e = hev B tau) by (unfold TB; rewrite Eb, (at_tau_interp e tau _ _ HS IB); symmetry; apply hev_peval).
  destruct (polys_exist inst e HS) as (U & V & W & HQ).
  assert (Es : shape_of wit = inst) by (unfold shape_of; rewrite <- S1, <- S2, <- S3; now destruct inst).
  pose proof (params_documented g1 g2 alpha beta gamma delta tau inst e U V W HS (proj1 He0) Hg Hd HQ) as HDoc. rewrite Es in Ep. rewrite <- Ep in HDoc.
  assert (QU : forall v, qap tau e sel_a (p_cons wit) v = PropDomain.eval (U v) tau).
  { intros v. apply qap_eval; auto. apply He. destruct (HQ v) as (H & _ & _). unfold column_A in H. rewrite (proj1 (map_sel (fun lc => coefficient lc v) _)) in H. now rewrite S3 in H. }
  assert (QV : forall v, qap tau e sel_b (p_cons wit) v = PropDomain.eval (V v) tau).
  { intros v. apply qap_eval; auto. apply He. destruct (HQ v) as (_ & H & _). unfold column_B in H. rewrite (proj1 (proj2 (map_sel (fun lc => coefficient lc v) _))) in H. now rewrite S3 in H. }
  assert (QW : forall v, qap tau e sel_c (p_cons wit) v = PropDomain.eval (W v) tau).
  { intros v. apply qap_eval; auto. apply He. destruct (HQ v) as (_ & _ & H). unfold column_C in H. rewrite (proj2 (proj2 (map_sel (fun lc => coefficient lc v) _))) in H. now rewrite S3 in H. }
  assert (ESA : SA wit (ext_of alpha beta tau wit e (finv delta)) =
     ((beta * hev (in_l (k_aux inst) U (p_aux wit)) tau + alpha * hev (in_l (k_aux inst) V (p_aux wit)) tau + hev (in_l (k_aux inst) W (p_aux wit)) tau) * finv delta)%F).
  { rewrite <- l_scalars. unfold SA. rewrite S2. apply fsum_ext. intros i _. unfold ext_of. rewrite QU, QV, QW. ring. }
  unfold put_together. rewrite !(element1_scalar g1 g2 alpha beta gamma delta tau inst e U V W params HDoc Hg Hd).
  rewrite (element2_scalar g1 g2 alpha beta gamma delta tau inst e U V W params HDoc). cbn [x_alpha x_beta x_delta x_tau x_ic x_l x_h y_beta y_gamma y_delta y_tau].
  assert (Z0 : forall n Q, hev (in_ic n Q []) tau = fzero) by (intros n Q; unfold in_ic; rewrite hev_wsum; apply fsum_zero; intros i _; destruct i; cbn [nth]; ring).
  assert (Z1 : forall n Q, hev (in_l n Q []) tau = fzero) by (intros n Q; unfold in_l; rewrite hev_wsum; apply fsum_zero; intros i _; destruct i; cbn [nth]; ring).
  rewrite !Z0, !Z1, !hz_eval, !hev_padd, !hev_psc. rewrite (firstn_all2 h) by lia. rewrite firstn_nil. cbn [hev].
  unfold proof_of, scalar_a, scalar_b, scalar_c. rewrite ESA, TAe, TBe, <- hev_peval. f_equal; apply (f_equal (fun x => x *g _)); field; auto.
Qed.

Lemma c62_nz (b a x y z : P) : b <> fzero -> x <> fzero -> y = fzero -> z = fzero -> (b * x + a * y + z)%F <> fzero /\ (a * y + b * x + z)%F <> fzero.
Proof.
  intros Hb Hx -> ->. assert (X : (b * x)%F <> fzero) by (intros H; apply fmul_0 in H as [H|H]; contradiction).
  split; intros H; apply X; rewrite <- H; ring.
Qed.
End C62.
Print Assumptions C62_witness_known.
Print Assumptions C62_false_statements.
Print Assumptions C62_queries.
Print Assumptions C62_prover_plan.

(** z = 2xy (see [C06_ex]), on the test engine, and the plan its prover follows with r = 17 and s = 19.  Of the 100^5 choices of the toxic
    waste from 1, ..., 100, at least 56 in 100 lead to accepted proofs; 17 in 100 would do. *)
Definition c62_D : list Fr64513 := map ofZ (map Z.of_nat (seq 1 100)).
Definition c62_good (alpha beta gamma delta tau : Fr64513) : bool :=
  match generate_parameters (E := DummyEngine Fr64513) (Multicore 3) (circuit_of c06_calls) fone (ofZ 2) alpha beta gamma delta tau with
  | Done (Ok params) =>
      match create_proof (Multicore 2) (fun _ => 3) (circuit_of c06_calls) params (ofZ 17) (ofZ 19) with
      | Done (Ok proof) => match verify_proof (prepare_verifying_key (p_vk params)) proof [ofZ 30] with Done (Ok _) => true | _ => false end
      | _ => false
      end
  | _ => false
  end.
Definition c62_accepted (D : list Fr64513) : list (Fr64513 * Fr64513 * Fr64513 * Fr64513 * Fr64513) :=
  flat_map (fun q => let '(alpha, beta, gamma, delta) := q in map (fun tau => (alpha, beta, gamma, delta, tau)) (filter (c62_good alpha beta gamma delta) D))
    (list_prod (list_prod (list_prod D D) D) D).
Lemma c62_D_props : NoDup c62_D /\ (forall x, In x c62_D -> x <> fzero) /\ List.length c62_D = 100.
Proof.
  assert (S : forall i, In i (seq 1 100) -> (0 < Z.of_nat i < modulus Fr64513)%Z) by (intros i Hi; apply in_seq in Hi; change (modulus Fr64513) with 64513%Z; lia).
  unfold c62_D. rewrite map_map. split; [|split].
  - assert (G : forall l, NoDup l -> (forall i, In i l -> (0 < Z.of_nat i < modulus Fr64513)%Z) -> NoDup (map (fun i => ofZ (Z.of_nat i) : Fr64513) l)).
    { intros l H Hl. induction H as [|i l Hn H IH]; cbn [map]; constructor.
      - intros Hin. apply in_map_iff in Hin as (j & Hj & Hin). pose proof (Hl i (or_introl eq_refl)). pose proof (Hl j (or_intror Hin)).
        apply ofZ_inj_small in Hj; [|lia|lia]. apply Nat2Z.inj in Hj. now subst j.
      - apply IH. intros j Hj. apply Hl. now right. }
    apply G; auto. apply seq_NoDup.
  - intros x Hx ->. apply in_map_iff in Hx as (i & Hi & Hin). apply S in Hin. rewrite <- ofZ_0 in Hi. apply ofZ_inj_small in Hi; lia.
  - reflexivity.
Qed.

Lemma c62_tau (alpha beta gamma delta : Fr64513) (D : list Fr64513) : NoDup D -> alpha <> fzero -> beta <> fzero -> gamma <> fzero -> delta <> fzero ->
  List.length D - 44 <= List.length (filter (c62_good alpha beta gamma delta) D).
Proof.
  intros HD Ha Hb Hg Hd. set (good := c62_good alpha beta gamma delta).
  assert (Len : List.length D = List.length (filter good D) + List.length (filter (fun x => negb (good x)) D)).
  { clear. induction D as [|x D IH]; [reflexivity|]. cbn [filter List.length]. destruct (good x); cbn [negb List.length]; lia. }
  assert (B : List.length (filter (fun x => negb (good x)) D) <= 44); [|lia].
  destruct C06_ex as [Sc _]. pose proof (honest_synth c06_calls) as A.
  assert (NZ : forall x : Fr64513, toZ x <> 0%Z -> x <> fzero) by (intros x H ->; apply H; reflexivity).
  refine (C54_calls (E := DummyEngine Fr64513) (Multicore 3) (Multicore 2) (fun _ => 3) c06_calls _ 2 (fone : Fr64513) (ofZ 2 : Fr64513) alpha beta gamma delta (filter (fun x => negb (good x)) D) _ _ _ Sc A _ _ _ _ _ _ _ Hg Hd _ _ _).
  1, 2: cbn; lia.
  1: intros z; cbn; lia.
  - unfold addressable. cbn. lia.
  - intros a b c Hin. apply toZ_inj.
    repeat (destruct Hin as [[= <- <- <-]|Hin]; [vm_compute; reflexivity|]). destruct Hin.
  - split; [cbn; lia|]. intros e' He'. assert (e' = 0 \/ e' = 1) as [-> | ->] by lia; cbn; lia.
  - cbn. lia.
  - discriminate.
  - apply NZ; vm_compute; discriminate.
  - apply NZ; vm_compute; discriminate.
  - clear Len HD. set (k0 := ([(Aux 0, fone); (Aux 0, fone)], [(Aux 1, fone)], [(Input 1, fone)]) : Constraint Fr64513).
    set (k1 := ([(Aux 2, fone)], [(Input 0, fone)], [(Input 0, ofZ 7)]) : Constraint Fr64513).
    split; [|split].
    + intros i (k & c & Hk & Hin & _). destruct Hk as [<-|[<-|[<-|[<-|[]]]]]; cbn in Hin;
        repeat (destruct Hin as [Q|Hin]; [try discriminate Q; injection Q as <- <-; first [exists k0; split; [now left|apply NZ; vm_compute; discriminate]|exists k1; split; [right; now left|apply NZ; vm_compute; discriminate]]|]); destruct Hin.
    + intros v (k & c & Hk & Hin & _). destruct Hk as [<-|[<-|[<-|[<-|[]]]]]; cbn in Hin;
        repeat (destruct Hin as [Q|Hin]; [try discriminate Q; injection Q as <- <-; first [exists k0; split; [now left|apply NZ; vm_compute; discriminate]|exists k1; split; [right; now left|apply NZ; vm_compute; discriminate]]|]); destruct Hin.
    + intros i Hi. change (i < 3) in Hi.
      destruct i as [|[|[|i]]]; [exists k0; split; [now left|]|exists k0; split; [now left|]|exists k1; split; [right; now left|]|lia].
      * refine (proj1 (c62_nz beta alpha _ _ _ Hb _ _ _)); [apply NZ; vm_compute; discriminate|apply toZ_inj; vm_compute; reflexivity|apply toZ_inj; vm_compute; reflexivity].
      * refine (proj2 (c62_nz alpha beta _ _ _ Ha _ _ _)); [apply NZ; vm_compute; discriminate|apply toZ_inj; vm_compute; reflexivity|apply toZ_inj; vm_compute; reflexivity].
      * refine (proj1 (c62_nz beta alpha _ _ _ Hb _ _ _)); [apply NZ; vm_compute; discriminate|apply toZ_inj; vm_compute; reflexivity|apply toZ_inj; vm_compute; reflexivity].
  - now apply NoDup_filter.
  - intros tau Ht (params & Hgen & Hall). apply filter_In in Ht as [_ Ht]. destruct (Hall (ofZ 17) (ofZ 19)) as (proof & Hc & Hv).
    unfold good, c62_good in Ht. change (public_inputs _) with [ofZ 30 : Fr64513] in Hv.
    rewrite Hgen, Hc, Hv in Ht. discriminate Ht.
Qed.

Section C62_count.
Context (good : Fr64513 -> Fr64513 -> Fr64513 -> Fr64513 -> Fr64513 -> bool) (D : list Fr64513).
Let some (q : Fr64513 * Fr64513 * Fr64513 * Fr64513) : list (Fr64513 * Fr64513 * Fr64513 * Fr64513 * Fr64513) :=
  let '(alpha, beta, gamma, delta) := q in map (fun tau => (alpha, beta, gamma, delta, tau)) (filter (good alpha beta gamma delta) D).
Let all := flat_map some (list_prod (list_prod (list_prod D D) D) D).
Lemma c62_in al be ga de t : In (al, be, ga, de, t) all -> In al D /\ In be D /\ In ga D /\ In de D /\ In t D /\ good al be ga de t = true.
Proof.
  intros H. apply in_flat_map in H as ([[[al' be'] ga'] de'] & Hq & H). cbn [some] in H. apply in_map_iff in H as (t' & Q & H). injection Q as -> -> -> -> ->.
  apply filter_In in H as [H1 H2]. repeat rewrite in_prod_iff in Hq. tauto.
Qed.
Lemma c62_nodup : NoDup D -> NoDup all.
Proof.
  intros N1. apply NoDup_flat.
  - repeat apply NoDup_prod; exact N1.
  - intros [[[al be] ga] de]. cbn [some]. apply FinFun.Injective_map_NoDup; [|now apply NoDup_filter]. intros x y Q. injection Q as Q. exact Q.
  - intros [[[al be] ga] de] [[[al' be'] ga'] de'] q Hq Hq'. cbn [some] in Hq, Hq'. apply in_map_iff in Hq as (t & <- & _). apply in_map_iff in Hq' as (t' & Q & _). now injection Q as -> -> -> -> ->.
Qed.
Lemma c62_many m : (forall al be ga de, In al D -> In be D -> In ga D -> In de D -> m <= List.length (filter (good al be ga de) D)) ->
  List.length D ^ 4 * m <= List.length all.
Proof.
  intros H. pose proof (flat_long some (list_prod (list_prod (list_prod D D) D) D) m) as FL. repeat rewrite prod_length in FL.
  replace (List.length D ^ 4) with (List.length D * List.length D * List.length D * List.length D) by (generalize (List.length D); clear; intros n; cbn [Nat.pow]; lia).
  apply FL. intros [[[al be] ga] de] Hq. cbn [some]. rewrite map_length. repeat rewrite in_prod_iff in Hq. apply H; tauto.
Qed.
End C62_count.
Lemma c62_acc D al be ga de t : In (al, be, ga, de, t) (c62_accepted D) -> In al D /\ In be D /\ In ga D /\ In de D /\ In t D /\ c62_good al be ga de t = true.
Proof. intros H. exact (c62_in c62_good D al be ga de t H). Qed.

Example C62_ex : exists inst a b c,
  describes (circuit_of c06_calls) inst /\ PropDomain.domain_exponent (List.length (k_cons inst)) 2 /\
  List.length (x_tau a) <= 2 ^ 2 /\ List.length (y_tau b) <= 2 ^ 2 /\ List.length (x_tau c) <= 2 ^ 2 /\
  NoDup c62_D /\ NoDup (c62_accepted c62_D) /\
  (forall alpha beta gamma delta tau, In (alpha, beta, gamma, delta, tau) (c62_accepted c62_D) ->
     In alpha c62_D /\ In beta c62_D /\ In gamma c62_D /\ In delta c62_D /\ In tau c62_D /\
     exists w (g1 : E_G1 (DummyEngine Fr64513)) (g2 : E_G2 (DummyEngine Fr64513)) params, wf_worker w /\ pair g1 g2 <> gzero /\
       generate_parameters w (circuit_of c06_calls) g1 g2 alpha beta gamma delta tau = Done (Ok params) /\
       verify_proof (prepare_verifying_key (p_vk params)) (put_together g1 g2 tau params a b c) [ofZ 30] = Done (Ok tt)) /\
  (3 * 2 ^ 2 + 5) * List.length c62_D ^ 4 < List.length (c62_accepted c62_D).
Proof.
  pose proof (shape_synth c06_calls) as SD. pose proof (honest_synth c06_calls) as SA. unfold synthesize_shape, shape_new in SD. unfold synthesize_honest, honest_new in SA.
  set (inst := {| k_inputs := _; k_aux := _; k_cons := _ |}) in SD at 2. set (wit := {| p_inputs := _; p_aux := _; p_cons := _ |}) in SA at 2.
  assert (He : PropDomain.domain_exponent (List.length (k_cons inst)) 2).
  { split; [cbn; lia|]. intros e' He'. assert (e' = 0 \/ e' = 1) as [-> | ->] by lia; cbn; lia. }
  assert (Hadd : addressable wit) by (unfold addressable; cbn; lia).
  assert (Hsame : same_circuit inst wit) by (repeat split).
  assert (H2 : (2 < two_adicity Fr64513)%nat) by (cbn; lia).
  destruct (C62_prover_plan (E := DummyEngine Fr64513) (circuit_of c06_calls) inst wit 2 (ofZ 17) (ofZ 19) SA Hsame Hadd He H2) as (a & b & c & L1 & L2 & L3 & _ & X).
  exists inst, a, b, c. destruct c62_D_props as (N1 & N2 & N3).
  split; [exact SD|]. split; [exact He|]. split; [exact L1|]. split; [exact L2|]. split; [exact L3|]. split; [exact N1|]. clearbody inst wit.
  clear He Hadd Hsame H2 L1 L2 L3 SA.
  split; [exact (c62_nodup c62_good c62_D N1)|split].
  - intros alpha beta gamma delta tau Hin. pose proof (c62_acc c62_D alpha beta gamma delta tau Hin) as Hq. clear Hin. destruct Hq as (Q1 & Hq).
    destruct Hq as (Q2 & Q3 & Q4 & Ht & Hgood). repeat (split; [assumption|]).
    exists (Multicore 3), (fone : Fr64513), (ofZ 2 : Fr64513). unfold c62_good in Hgood.
    destruct (generate_parameters (Multicore 3) (circuit_of c06_calls) _ _ _ _ _ _ _) as [[params|err]|] eqn:Eg in Hgood; [|discriminate Hgood..].
    destruct (create_proof (Multicore 2) (fun _ => 3) (circuit_of c06_calls) params (ofZ 17) (ofZ 19)) as [[proof|err]|] eqn:Ec in Hgood; [|discriminate Hgood..].
    exists params. split; [cbn; lia|]. split; [|split; [exact Eg|]].
    + intros H. apply (f_equal toZ) in H. vm_compute in H. discriminate H.
    + assert (Hln : sane_ln_ceil (fun _ => 3)) by (intros z; cbn; lia).
      rewrite <- (X (Multicore 3) (Multicore 2) (fun _ => 3) (circuit_of c06_calls) (fone : Fr64513) (ofZ 2 : Fr64513) alpha beta gamma delta tau params proof ltac:(cbn; lia) ltac:(cbn; lia) Hln SD Eg Ec).
      destruct (verify_proof (prepare_verifying_key (p_vk params)) proof [ofZ 30]) as [[[]|err]|] in Hgood |- *; [reflexivity|discriminate Hgood..].
  - clear X SD.
    pose proof (c62_many c62_good c62_D (List.length c62_D - 44)) as Q.
    eapply Nat.lt_le_trans; [|apply Q; intros al be ga de Q1 Q2 Q3 Q4; apply c62_tau; auto]. clear - N3.
    remember (List.length c62_D) as N eqn:EN. clear EN. assert (HN : 62 <= N) by lia. clear N3. assert (0 < N ^ 4) by (cbn [Nat.pow]; nia). revert H. generalize (N ^ 4). intros k Hk. cbn [Nat.pow]. nia.
Qed.
