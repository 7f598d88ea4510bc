(** Properties C25 - C28: evaluation domains, Fourier transforms and the prover's quotient. *)
From Coq Require Import ZArith List Bool Lia.
From Verif Require Import Prelude PrimeField Fields FModule Multicore Domain FFTProof DomainProof Quotient.
Import ListNotations.
Local Open Scope nat_scope.

Notation "'Σ' i '<' n ',' f" := (gsum n (fun i => f)) (at level 60, i at level 0, n at level 50, right associativity).

(** ** C25 *)

(** [e] is the least exponent whose power of two is at least [len]. *)
Definition domain_exponent (len e : nat) : Prop := len <= 2 ^ e /\ forall e', e' < e -> 2 ^ e' < len.
(** The multiplicative order of [w] is exactly [n]. *)
Definition has_order {P : PrimeField} (w : P) (n : nat) : Prop :=
  0 < n /\ fpow w n = fone /\ forall d, 0 < d < n -> fpow w d <> fone.

Lemma domain_exponent_least len e : domain_exponent len e -> least_pow len e.
Proof. intros [H1 H2]. split; auto. intros e' H. destruct (Nat.le_gt_cases e e'); auto. apply H2 in H0. lia. Qed.
Lemma least_domain_exponent len e : least_pow len e -> domain_exponent len e.
Proof. intros [H1 H2]. split; auto. intros e' H. destruct (Nat.le_gt_cases len (2 ^ e')) as [L|]; auto. apply H2 in L. lia. Qed.

Theorem C25_success {P : PrimeField} {M : FMod P} (l : list M) e : domain_exponent (length l) e -> e < two_adicity P ->
  exists d, from_coeffs l = Done (Ok d) /\ d_exp d = e /\
    coeffs d = l ++ repeat gzero (2 ^ e - length l) /\ length (coeffs d) = 2 ^ e /\
    has_order (omega d) (2 ^ e).
Proof.
  intros He HS. pose proof (from_coeffs_spec l e (domain_exponent_least _ _ He)) as H.
  apply Nat.ltb_lt in HS as E. rewrite E in H. destruct H as (d & E1 & O & X & C & W). exists d.
  repeat split; auto.
  - rewrite <- X. apply O.
  - apply pow2_gt0.
  - rewrite <- X. apply prim_pow, O.
  - rewrite <- X. apply prim_order, O.
Qed.
Print Assumptions C25_success.

Theorem C25_failure {P : PrimeField} {M : FMod P} (l : list M) e : domain_exponent (length l) e -> two_adicity P <= e ->
  from_coeffs l = Done (Err PolynomialDegreeTooLarge).
Proof.
  intros He HS. pose proof (from_coeffs_spec l e (domain_exponent_least _ _ He)) as H.
  destruct (Nat.ltb_spec e (two_adicity P)); [lia|auto].
Qed.
Print Assumptions C25_failure.

(** The two cases are exhaustive: every length has its exponent, and only one. *)
Theorem C25_exponent_exists (len : nat) : exists! e, domain_exponent len e.
Proof.
  destruct (least_pow_ex len) as [e H]. exists e. split; [now apply least_domain_exponent|].
  intros e' H'. apply (least_pow_unique len); auto. now apply domain_exponent_least.
Qed.
Print Assumptions C25_exponent_exists.

(** Five coefficients: a domain of eight; and 513 coefficients are too many for the test field (S = 10). *)
Example C25_ex : domain_exponent 5 3 /\ 3 < two_adicity Fr64513 /\ domain_exponent 513 10 /\ two_adicity Fr64513 <= 10 /\
  match from_coeffs (M := ScalarMod Fr64513) (map ofZ [3; 1; 4; 1; 5]%Z) with
  | Done (Ok d) => (map toZ (coeffs d), toZ (omega d)) = ([3; 1; 4; 1; 5; 0; 0; 0]%Z, 20201%Z)
  | _ => False
  end.
Proof.
  split; [|split; [vm_compute; lia|split; [|split; [vm_compute; lia|vm_compute; reflexivity]]]].
  - split; [cbn; lia|]. intros e' H. do 3 (destruct e' as [|e']; [cbn; lia|]). lia.
  - split; [cbn; lia|]. intros e' H. assert (2 ^ e' <= 2 ^ 9) by (apply Nat.pow_le_mono_r; lia). cbn in H0 |- *. lia.
Qed.

(** ** The domains a program can hold: created by [from_coeffs], entries then overwritten at will
    (by the operations, or through [as_mut], src/domain.rs:35-37). *)
Definition reachable_domain {P : PrimeField} {M : FMod P} (d : EvalDomain M) : Prop :=
  exists (l : list M) (d0 : EvalDomain M), from_coeffs l = Done (Ok d0) /\ length (coeffs d) = length (coeffs d0) /\
    d = mkDomain (coeffs d) (d_exp d0) (omega d0) (omegainv d0) (geninv d0) (minv d0).

Lemma reachable_ok {P : PrimeField} {M : FMod P} (d : EvalDomain M) : reachable_domain d -> ok_domain d.
Proof.
  intros (l & d0 & E & L & ->). destruct (least_pow_ex (length l)) as [e He]. pose proof (from_coeffs_spec l e He) as H.
  destruct (Nat.ltb_spec e (two_adicity P)); [|rewrite H in E; discriminate].
  destruct H as (d1 & E1 & O & X & _). rewrite E1 in E. assert (d1 = d0) by congruence. subst d1.
  pose proof (ok_len _ O) as L0. cbn [coeffs] in *. destruct O. split; auto. cbn [coeffs d_exp]. congruence.
Qed.

(** ** C26 *)
Theorem C26_fft {P : PrimeField} {M : FMod P} (wk : Worker) (d : EvalDomain M) : wf_worker wk -> reachable_domain d ->
  exists d', fft wk d = Done d' /\ length (coeffs d') = length (coeffs d) /\
    (forall k, k < length (coeffs d) ->
      nth k (coeffs d') gzero = Σ j < length (coeffs d), fpow (omega d) (j * k) *g nth j (coeffs d) gzero) /\
    (d_exp d', omega d', omegainv d', geninv d', minv d') = (d_exp d, omega d, omegainv d, geninv d, minv d).
Proof.
  intros Hk H. apply reachable_ok in H. rewrite fft_eq by auto. eexists. split; [reflexivity|]. cbn [with_coeffs coeffs].
  pose proof (ok_len _ H) as L. rewrite L. split; [apply dftl_length|]. split; [|reflexivity].
  intros k Hk'. apply nth_dftl. auto.
Qed.
Print Assumptions C26_fft.

(** The choice of algorithm does not matter: serial and parallel agree, whatever split is chosen. *)
Theorem C26_serial_parallel {P : PrimeField} {M : FMod P} (wk : Worker) (d : EvalDomain M) (log_cpus : nat) :
  wf_worker wk -> reachable_domain d -> log_cpus <= d_exp d ->
  serial_fft (coeffs d) (omega d) (d_exp d) = parallel_fft (coeffs d) wk (omega d) (d_exp d) log_cpus.
Proof.
  intros Hk H Hc. apply reachable_ok in H. pose proof (ok_len _ H) as L. pose proof (ok_prim _ H) as Hw.
  destruct (serial_fft_spec (d_exp d) (omega d) (coeffs d) Hw L) as (b & E & Lb & Hb).
  destruct (parallel_fft_spec (d_exp d) log_cpus (omega d) wk (coeffs d) Hw Hc L Hk) as (b' & E' & Lb' & Hb').
  rewrite E, E'. f_equal. apply (nth_ext _ _ gzero gzero); [congruence|]. intros k Hk'. rewrite Hb, Hb' by congruence. reflexivity.
Qed.
Print Assumptions C26_serial_parallel.

(** Eight values, three threads: index 3 holds the value of the polynomial at omega^3. *)
Example C26_ex : wf_worker (Multicore 3) /\
  match from_coeffs (M := ScalarMod Fr64513) (map ofZ [3; 1; 4; 1; 5; 9; 2; 6]%Z) with
  | Done (Ok d) => match fft (Multicore 3) d with
      | Done d' => nth 3 (map toZ (coeffs d')) 0%Z = toZ (gsum (M := ScalarMod Fr64513) 8 (fun j => fmul (fpow (omega d) (j * 3)) (nth j (coeffs d) fzero)))
      | _ => False end
  | _ => False
  end.
Proof. split; [cbn; lia|vm_compute; reflexivity]. Qed.

(** ** C27 *)
Theorem C27_inverse {P : PrimeField} {M : FMod P} (wk wk' : Worker) (d : EvalDomain M) :
  wf_worker wk -> wf_worker wk' -> reachable_domain d ->
  obind (fft wk d) (ifft wk') = Done d /\ obind (ifft wk d) (fft wk') = Done d.
Proof. intros Hk Hk' H. apply reachable_ok in H. split; [now apply ifft_fft|now apply fft_ifft]. Qed.
Print Assumptions C27_inverse.

Theorem C27_coset_inverse {P : PrimeField} {M : FMod P} (wk wk' : Worker) (d : EvalDomain M) :
  wf_worker wk -> wf_worker wk' -> reachable_domain d ->
  obind (coset_fft wk d) (icoset_fft wk') = Done d /\ obind (icoset_fft wk d) (coset_fft wk') = Done d.
Proof. intros Hk Hk' H. apply reachable_ok in H. split; [now apply icoset_coset|now apply coset_icoset]. Qed.
Print Assumptions C27_coset_inverse.

(** [coset_fft] evaluates at [generator * omega^k]. *)
Theorem C27_coset_evaluates {P : PrimeField} {M : FMod P} (wk : Worker) (d : EvalDomain M) :
  wf_worker wk -> reachable_domain d ->
  exists d', coset_fft wk d = Done d' /\ length (coeffs d') = length (coeffs d) /\
    forall k, k < length (coeffs d) ->
      nth k (coeffs d') gzero =
      Σ j < length (coeffs d), fpow (generator P * fpow (omega d) k)%F j *g nth j (coeffs d) gzero.
Proof.
  intros Hk H. apply reachable_ok in H. rewrite coset_fft_eq by auto. eexists. split; [reflexivity|]. cbn [with_coeffs coeffs].
  pose proof (ok_len _ H) as L. rewrite L. split; [apply dftl_length|].
  intros k Hk'. rewrite nth_dftl by auto. unfold dft. apply gsum_ext. intros j Hj.
  rewrite (nth_mapi _ _ gzero) by lia. rewrite <- gmul_mul, fpow_mul_base, <- fpow_mul.
  rewrite (Nat.mul_comm k j). f_equal. apply fmul_comm.
Qed.
Print Assumptions C27_coset_evaluates.

Example C27_ex :
  match from_coeffs (M := ScalarMod Fr64513) (map ofZ [3; 1; 4; 1]%Z) with
  | Done (Ok d) => match coset_fft (Multicore 2) d with
      | Done d' => map toZ (coeffs d') <> [3; 1; 4; 1]%Z /\
          match icoset_fft Single d' with Done d'' => map toZ (coeffs d'') = [3; 1; 4; 1]%Z | _ => False end
      | _ => False end
  | _ => False
  end.
Proof. vm_compute. split; [discriminate|reflexivity]. Qed.

(** ** C28 *)
Theorem C28_z {P : PrimeField} {M : FMod P} (d : EvalDomain M) (tau : P) :
  z d tau = (fpow tau (length (coeffs d)) - 1)%F.
Proof. reflexivity. Qed.
Print Assumptions C28_z.

(** [z] vanishes on the domain. *)
Theorem C28_z_vanishes {P : PrimeField} {M : FMod P} (d : EvalDomain M) (k : nat) : reachable_domain d ->
  z d (fpow (omega d) k) = fzero.
Proof.
  intros H. apply reachable_ok in H. unfold z. rewrite (ok_len _ H), <- fpow_mul, fpow_mod by (apply prim_pow, H).
  apply fsub_0_eq. reflexivity.
Qed.
Print Assumptions C28_z_vanishes.

(** Polynomials: coefficient [n] of [A * B - C]. *)
Definition coeff_ABC {P : PrimeField} (A B C : list P) (n : nat) : P :=
  (gsum (M := ScalarMod P) (S n) (fun i => nth i A fzero * nth (n - i)%nat B fzero)%F - nth n C fzero)%F.
(** Coefficient [n] of [H * (x^m - 1)]. *)
Definition coeff_HZ {P : PrimeField} (m : nat) (H : list P) (n : nat) : P :=
  ((if n <? m then 0 else nth (n - m)%nat H fzero) - nth n H fzero)%F.
Definition eval {P : PrimeField} (l : list P) (x : P) : P :=
  gsum (M := ScalarMod P) (length l) (fun i => nth i l fzero * fpow x i)%F.
(** The polynomial [A] of degree below [m] takes the values [v] (continued by zeros) on the domain. *)
Definition has_values {P : PrimeField} (w : P) (m : nat) (A v : list P) : Prop :=
  length A <= m /\ forall k, k < m -> eval A (fpow w k) = nth k v fzero.

(** The prover's sequence returns the quotient: equality of polynomials, coefficient by coefficient
    (all of them: the quotient is exact and the dropped last coefficient was zero). *)
Theorem C28_quotient {P : PrimeField} (wk : Worker) (pa pb pc : list P) e (d : EvalDomain (ScalarMod P)) :
  wf_worker wk -> domain_exponent (length pa) e -> e < two_adicity P ->
  length pb = length pa -> length pc = length pa ->
  from_coeffs (M := ScalarMod P) pa = Done (Ok d) ->
  (forall k, (nth k pa fzero * nth k pb fzero)%F = nth k pc fzero) ->
  forall A B C, has_values (omega d) (2 ^ e) A pa -> has_values (omega d) (2 ^ e) B pb -> has_values (omega d) (2 ^ e) C pc ->
  exists h, prover_h wk pa pb pc = Done (Ok h) /\ length h = 2 ^ e - 1 /\
    (forall n, coeff_ABC A B C n = coeff_HZ (2 ^ e) h n) /\
    (forall x, (eval A x * eval B x - eval C x)%F = (eval h x * (fpow x (2 ^ e) - 1))%F).
Proof.
  intros Hk He HS Lb Lc Ed Hv A B C HA HB HC. apply domain_exponent_least in He.
  pose proof (from_coeffs_spec (M := ScalarMod P) pa e He) as F. apply Nat.ltb_lt in HS as HS'. rewrite HS' in F.
  destruct F as (d' & E' & _ & _ & _ & W). rewrite Ed in E'. assert (d' = d) by congruence. subst d'. rewrite W in *.
  exact (prover_h_spec wk pa pb pc e Hk HS He Lb Lc Hv A B C HA HB HC).
Qed.
Print Assumptions C28_quotient.

(** The quotient is the only polynomial of that kind. *)
Theorem C28_unique {P : PrimeField} (m : nat) (A B C H H' : list P) : 0 < m ->
  (forall n, coeff_ABC A B C n = coeff_HZ m H n) -> (forall n, coeff_ABC A B C n = coeff_HZ m H' n) ->
  forall n, nth n H fzero = nth n H' fzero.
Proof.
  intros Hm E E' n. induction n as [n IH] using lt_wf_ind. pose proof (eq_trans (eq_sym (E n)) (E' n)) as X. unfold coeff_HZ in X.
  destruct (Nat.ltb_spec n m) as [|Hn].
  - apply fsub_cancel in X. exact X.
  - rewrite (IH (n - m)) in X by lia. apply fsub_cancel in X. exact X.
Qed.
Print Assumptions C28_unique.

(** Polynomials with prescribed values on the domain exist (and [ifft] computes them). *)
Theorem C28_interpolants {P : PrimeField} (wk : Worker) (v : list P) (d : EvalDomain (ScalarMod P)) :
  wf_worker wk -> from_coeffs (M := ScalarMod P) v = Done (Ok d) ->
  exists d', ifft wk d = Done d' /\ has_values (omega d) (length (coeffs d)) (coeffs d') v.
Proof.
  intros Hk E. assert (O : ok_domain d).
  { apply reachable_ok. exists v, d. repeat split; auto. destruct d; reflexivity. }
  destruct (ifft_interp wk d Hk O) as (l & El & Ll & Hi). eexists. split; [exact El|]. rewrite (ok_len _ O).
  destruct (least_pow_ex (length v)) as [e He]. pose proof (from_coeffs_spec (M := ScalarMod P) v e He) as F.
  destruct (Nat.ltb_spec e (two_adicity P)); [|rewrite F in E; discriminate].
  destruct F as (d' & E' & _ & _ & C & _). rewrite E in E'. assert (d' = d) by congruence. subst d'.
  destruct Hi as [H1 H2]. split; [exact H1|]. intros k Hk'. etransitivity; [apply (H2 k Hk')|]. unfold coef. rewrite C.
  destruct (Nat.lt_ge_cases k (length v)); [now rewrite app_nth1|].
  rewrite app_nth2 by auto. rewrite (nth_overflow v) by auto. apply nth_repeat.
Qed.
Print Assumptions C28_interpolants.

(** Values 2*3 = 6, 5*7 = 35, 1*4 = 4 on a domain of four: a quotient with a non-zero coefficient. *)
Example C28_ex :
  (forall k, (nth k (map ofZ [2; 5; 1]%Z) fzero * nth k (map ofZ [3; 7; 4]%Z) fzero : Fr64513)%F = nth k (map ofZ [6; 35; 4]%Z) fzero) /\
  match prover_h (P := Fr64513) (Multicore 2) (map ofZ [2; 5; 1]%Z) (map ofZ [3; 7; 4]%Z) (map ofZ [6; 35; 4]%Z) with
  | Done (Ok h) => length h = 3 /\ existsb (fun c => negb (Z.eqb (toZ c) 0)) h = true
  | _ => False
  end.
Proof.
  split; [|vm_compute; auto]. intros [|[|[|k]]]; cbn [nth map]; rewrite <- ?ofZ_mul; [reflexivity..|].
  destruct k; apply (feqb_eq Fr64513); vm_compute; reflexivity.
Qed.
