(** Facts about evaluation domains: sizing, inverse transforms, cosets. *)
From Coq Require Import ZArith List Bool Lia Field.
From Verif Require Import Prelude PrimeField FModule Multicore Domain FFTProof.
Import ListNotations.
Local Open Scope nat_scope.

Section Scalars.
Context {P : PrimeField}.
Add Field PFfield_dp : (F_field P).

Lemma f_2_neq_0 : (1 + 1 : P)%F <> 0%F.
Proof.
  rewrite <- ofZ_2. intros H. assert (T := f_equal toZ H). rewrite toZ_ofZ, toZ_0 in T.
  pose proof (modulus_odd (P := P)) as O. pose proof (modulus_pos (P := P)).
  apply Z.mod_divide in T; [|lia]. destruct T as [q Hq].
  assert (modulus P = 2)%Z.
  { assert (q = 1 \/ q >= 2 \/ q <= 0)%Z as [->|[|]] by lia; nia. }
  rewrite H1 in O. discriminate.
Qed.
Lemma f_m1_neq_1 : (- (1) : P)%F <> 1%F.
Proof.
  intros H. apply (f_2_neq_0). transitivity (1 + - (1) : P)%F; [rewrite H; reflexivity|ring].
Qed.

Lemma ofnat_pow2 l : (ofZ (Z.of_nat (2 ^ l)) : P) <> 0%F.
Proof.
  induction l; [cbn; rewrite ofZ_1; apply f_1_neq_0|]. rewrite Nat.pow_succ_r', Nat2Z.inj_mul, ofZ_mul.
  change (Z.of_nat 2) with 2%Z. rewrite ofZ_2. intros H. apply fmul_0 in H as [H|H]; [now apply f_2_neq_0|auto].
Qed.

Lemma prim_neq_0 (w : P) l : prim w l -> w <> 0%F.
Proof.
  intros H ->. pose proof (prim_pow _ _ H) as E. destruct (2 ^ l) eqn:E2; [apply Nat.pow_nonzero in E2; auto|].
  cbn in E. apply (f_1_neq_0 (P := P)). rewrite <- E. ring.
Qed.

Lemma fpow_finv (w : P) n : w <> 0%F -> fpow (finv w) n = finv (fpow w n).
Proof.
  intros Hw. apply (fmul_cancel_l (fpow w n)); [now apply fpow_neq_0|]. rewrite <- fpow_mul_base, !finv_r; auto; [apply fpow_one|].
  now apply fpow_neq_0.
Qed.

Lemma prim_inv (w : P) l : prim w l -> prim (finv w) l.
Proof.
  intros H. pose proof (prim_neq_0 _ _ H) as H0. destruct l as [|l]; cbn [prim] in *.
  - subst. rewrite <- (finv_r (1 : P)%F) at 2 by apply f_1_neq_0. ring.
  - rewrite fpow_finv, H by auto.
    assert (Hm : (- (1) : P)%F <> 0%F).
    { intros E. apply (f_1_neq_0 (P := P)). transitivity (- - (1) : P)%F; [ring|]. rewrite E. ring. }
    apply (fmul_cancel_l (- (1))%F); auto. rewrite finv_r by auto. ring.
Qed.

(** A primitive root's smaller powers are not one. *)
Lemma prim_order l : forall (w : P), prim w l -> forall d, 0 < d < 2 ^ l -> fpow w d <> fone.
Proof.
  induction l; intros w H d Hd; [cbn in Hd; lia|]. cbn [prim] in H.
  destruct (Nat.Even_or_Odd d) as [[e ->]|[e ->]].
  - rewrite fpow_mul. apply IHl; [|rewrite Nat.pow_succ_r' in Hd; lia].
    destruct l as [|l]; cbn [prim].
    + cbn in Hd. lia.
    + rewrite <- fpow_mul. rewrite <- Nat.pow_succ_r'. exact H.
  - intros E. apply f_m1_neq_1.
    assert (X : fpow w ((2 * e + 1) * 2 ^ l) = fone) by (rewrite fpow_mul, E; apply fpow_one).
    rewrite Nat.mul_comm, fpow_mul, H, Nat.add_comm, fpow_add, fpow_mul in X.
    assert (Y : fpow (- (1) : P)%F 2 = fone) by (cbn; ring). rewrite Y, fpow_one, fpow_1 in X. idtac. transitivity (- (1) * 1 : P)%F; [ring|exact X].
Qed.

Lemma fsum_ext n (f g : nat -> P) : (forall i, i < n -> f i = g i) -> fsum n f = fsum n g.
Proof. apply (gsum_ext (M := ScalarMod P)). Qed.
Lemma fsum_S n (f : nat -> P) : fsum (S n) f = (fsum n f + f n)%F.
Proof. reflexivity. Qed.
Lemma fsum_mul_l n c (f : nat -> P) : (c * fsum n f)%F = fsum n (fun i => c * f i)%F.
Proof. symmetry. apply (gsum_mul (M := ScalarMod P)). Qed.
Lemma fsum_add n (f g : nat -> P) : fsum n (fun i => f i + g i)%F = (fsum n f + fsum n g)%F.
Proof. apply (gsum_add (M := ScalarMod P)). Qed.
Lemma fsum_sub n (f g : nat -> P) : fsum n (fun i => f i - g i)%F = (fsum n f - fsum n g)%F.
Proof.
  transitivity (fsum n f + (- (1)) * fsum n g)%F; [|ring]. rewrite fsum_mul_l, <- fsum_add. apply fsum_ext. intros. ring.
Qed.
Lemma fsum_mul_r n c (f : nat -> P) : (fsum n f * c)%F = fsum n (fun i => f i * c)%F.
Proof. transitivity (c * fsum n f)%F; [ring|]. rewrite fsum_mul_l. apply fsum_ext. intros. ring. Qed.
Lemma fsum_zero n (f : nat -> P) : (forall i, i < n -> f i = fzero) -> fsum n f = fzero.
Proof. apply (gsum_zero (M := ScalarMod P)). Qed.
Lemma fsum_const n (c : P) : fsum n (fun _ => c) = (ofZ (Z.of_nat n) * c)%F.
Proof.
  induction n; [cbn; rewrite ofZ_0; ring|]. rewrite fsum_S, IHn, Nat2Z.inj_succ, <- Z.add_1_r, ofZ_add, ofZ_1. ring.
Qed.
Lemma fsum_swap n m (f : nat -> nat -> P) : fsum n (fun i => fsum m (fun j => f i j)) = fsum m (fun j => fsum n (fun i => f i j)).
Proof. apply (gsum_swap (M := ScalarMod P)). Qed.
Lemma fsum_split n m (f : nat -> P) : fsum (n + m) f = (fsum n f + fsum m (fun i => f (n + i)%nat))%F.
Proof. apply (gsum_split (M := ScalarMod P)). Qed.

Lemma geometric (x : P) n : ((x - 1) * fsum n (fun k => fpow x k))%F = (fpow x n - 1)%F.
Proof.
  induction n; [cbn; ring|]. rewrite fsum_S. transitivity ((x - 1) * fsum n (fun k => fpow x k) + (x - 1) * fpow x n)%F; [ring|].
  rewrite IHn, fpow_S. ring.
Qed.

(** Orthogonality of the powers of a root of unity. *)
Lemma orthogonal (w : P) l i j : prim w l -> i < 2 ^ l -> j < 2 ^ l ->
  fsum (2 ^ l) (fun k => fpow w (j * k) * fpow (finv w) (k * i))%F = if i =? j then ofZ (Z.of_nat (2 ^ l)) else fzero.
Proof.
  intros Hw Hi Hj. pose proof (prim_neq_0 _ _ Hw) as H0. set (n := 2 ^ l) in *.
  set (x := (fpow w j * fpow (finv w) i)%F).
  assert (Hs : fsum n (fun k => fpow w (j * k) * fpow (finv w) (k * i))%F = fsum n (fun k => fpow x k)).
  { apply fsum_ext. intros k _. unfold x. rewrite fpow_mul_base, <- !fpow_mul. f_equal. f_equal. lia. }
  rewrite Hs. destruct (Nat.eqb_spec i j) as [<-|Hne].
  - assert (Hx : x = fone) by (unfold x; rewrite <- fpow_mul_base, finv_r by auto; apply fpow_one).
    rewrite Hx, (fsum_ext n _ (fun _ => fone)) by (intros; apply fpow_one). rewrite fsum_const. ring.
  - assert (Hxn : fpow x n = fone).
    { unfold x. rewrite fpow_mul_base, <- !fpow_mul, !(fpow_mod _ n); [ring| |].
      - apply prim_pow. now apply prim_inv.
      - now apply prim_pow. }
    assert (Hx1 : x <> fone).
    { unfold x. destruct (Nat.lt_trichotomy i j) as [Hlt|[|Hlt]]; [|lia|].
      - replace j with (j - i + i) by lia. rewrite fpow_add. intros E. apply (prim_order l w Hw (j - i)); [lia|].
        rewrite <- E. transitivity (fpow w (j - i) * (fpow w i * fpow (finv w) i))%F; [|ring].
        rewrite <- (fpow_mul_base w), finv_r, fpow_one by auto. ring.
      - replace i with (i - j + j) by lia. rewrite fpow_add. intros E. apply (prim_order l (finv w) (prim_inv _ _ Hw) (i - j)); [lia|].
        rewrite <- E. transitivity (fpow (finv w) (i - j) * (fpow w j * fpow (finv w) j))%F; [|ring].
        rewrite <- (fpow_mul_base w), finv_r, fpow_one by auto. ring. }
    pose proof (geometric x n) as G. rewrite Hxn in G. replace (1 - 1 : P)%F with (0 : P)%F in G by ring.
    apply fmul_0 in G as [G|G]; auto. exfalso. apply Hx1. now apply fsub_0_eq.
Qed.
End Scalars.

Section DomainProof.
Context {P : PrimeField} {M : FMod P}.
Add Field PFfield_dp2 : (F_field P).

Lemma gsum_scalar n (c : nat -> P) (x : M) : gsum n (fun k => c k *g x) = fsum n c *g x.
Proof.
  induction n; [cbn; now rewrite gmul_0_l|]. cbn [gsum]. rewrite IHn, <- gmul_add_l. reflexivity.
Qed.

(** Inversion of the discrete Fourier transform. *)
Lemma dft_inverse (w : P) l (f : nat -> M) i : prim w l -> i < 2 ^ l ->
  finv (ofZ (Z.of_nat (2 ^ l))) *g dft (finv w) (2 ^ l) (dft w (2 ^ l) f) i = f i.
Proof.
  intros Hw Hi. set (n := 2 ^ l) in *. unfold dft.
  transitivity (finv (ofZ (Z.of_nat n)) *g gsum n (fun j => (if i =? j then ofZ (Z.of_nat n) else fzero) *g f j)).
  - f_equal. transitivity (gsum n (fun k => gsum n (fun j => (fpow w (j * k) * fpow (finv w) (k * i))%F *g f j))).
    + apply gsum_ext. intros k _. rewrite <- gsum_mul. apply gsum_ext. intros j _. rewrite <- gmul_mul. f_equal. ring.
    + rewrite gsum_swap. apply gsum_ext. intros j Hj. rewrite gsum_scalar. f_equal. now apply orthogonal.
  - rewrite (gsum_single n i); auto.
    + rewrite Nat.eqb_refl, <- gmul_mul, finv_l by apply ofnat_pow2. apply gmul_1.
    + intros j _ Hne. apply Nat.eqb_neq in Hne. rewrite Nat.eqb_sym, Hne. apply gmul_0_l.
Qed.

Lemma finv_finv (x : P) : x <> fzero -> finv (finv x) = x.
Proof. intros H. apply (fmul_cancel_l (finv x)); [now apply finv_neq_0|]. rewrite finv_r, finv_l; auto. now apply finv_neq_0. Qed.

Lemma dft_inverse' (w : P) l (f : nat -> M) i : prim w l -> i < 2 ^ l ->
  dft w (2 ^ l) (fun k => finv (ofZ (Z.of_nat (2 ^ l))) *g dft (finv w) (2 ^ l) f k) i = f i.
Proof.
  intros Hw Hi. pose proof (dft_inverse (finv w) l f i (prim_inv _ _ Hw) Hi) as H.
  rewrite finv_finv in H by (eapply prim_neq_0; eauto). etransitivity; [|exact H]. unfold dft at 1.
  change (dft w (2 ^ l) (dft (finv w) (2 ^ l) f) i) with (gsum (2 ^ l) (fun j => fpow w (j * i) *g dft (finv w) (2 ^ l) f j)).
  rewrite <- gsum_mul. apply gsum_ext. intros. apply gmul_comm.
Qed.

(** ** Valid domains *)
Record ok_domain (d : EvalDomain M) : Prop := {
  ok_len : length (coeffs d) = 2 ^ d_exp d;
  ok_exp : d_exp d < two_adicity P;
  ok_prim : prim (omega d) (d_exp d);
  ok_winv : omegainv d = finv (omega d);
  ok_ginv : geninv d = finv (generator P);
  ok_minv : minv d = finv (ofZ (Z.of_nat (2 ^ d_exp d)))
}.

Lemma ok_with d c : ok_domain d -> length c = 2 ^ d_exp d -> ok_domain (with_coeffs d c).
Proof. intros [] ?. split; auto. Qed.
Lemma with_with (d : EvalDomain M) c c' : with_coeffs (with_coeffs d c) c' = with_coeffs d c'.
Proof. reflexivity. Qed.
Lemma with_same (d : EvalDomain M) : with_coeffs d (coeffs d) = d.
Proof. destruct d; reflexivity. Qed.

Lemma with_eq (d : EvalDomain M) c : c = coeffs d -> with_coeffs d c = d.
Proof. intros ->. apply with_same. Qed.

(** ** Sizing *)
Definition least_pow (len e : nat) : Prop := len <= 2 ^ e /\ forall e', len <= 2 ^ e' -> e <= e'.

Lemma least_pow_ex len : exists e, least_pow len e.
Proof.
  exists (Nat.log2_up len). destruct (Nat.le_gt_cases len 1).
  - rewrite Nat.log2_up_eqn0 by auto. split; cbn; lia.
  - destruct (Nat.log2_up_spec len) as [H1 H2]; auto. split; auto. intros e' He.
    apply Nat.log2_up_le_pow2 in He; auto. lia.
Qed.

Lemma least_pow_unique len e e' : least_pow len e -> least_pow len e' -> e = e'.
Proof. intros [A B] [C D]. apply B in C. apply D in A. lia. Qed.

Lemma size_loop_spec len e : least_pow len e -> forall fuel x, x <= e -> x < two_adicity P -> two_adicity P < fuel + x ->
  size_loop (P := P) fuel (2 ^ x) x len = if e <? two_adicity P then Ok (2 ^ e, e) else Err PolynomialDegreeTooLarge.
Proof.
  intros [He Hm]. induction fuel; intros x Hx HS Hf; [lia|]. cbn [size_loop].
  destruct (Nat.ltb_spec (2 ^ x) len) as [Hlt|Hge].
  - assert (Hxe : x + 1 <= e).
    { destruct (Nat.eq_dec x e); [subst; lia|lia]. }
    destruct (Nat.leb_spec (two_adicity P) (x + 1)).
    + destruct (Nat.ltb_spec e (two_adicity P)); [lia|]. reflexivity.
    + replace (2 ^ x * 2) with (2 ^ (x + 1)) by (rewrite Nat.pow_add_r; cbn; lia). apply IHfuel; lia.
  - apply Hm in Hge. assert (x = e) as -> by lia.
    destruct (Nat.ltb_spec e (two_adicity P)); [|lia]. reflexivity.
Qed.

Lemma root_prim e : e < two_adicity P -> prim (sqn fmul (root_of_unity P) (two_adicity P - e)) e.
Proof.
  intros He. pose proof (root_order P) as R. destruct e as [|e]; cbn [prim].
  - rewrite Nat.sub_0_r. destruct (two_adicity P) as [|s]; [lia|]. rewrite sqn_S_out.
    replace (S s - 1) with s in R by lia. rewrite R. ring.
  - rewrite <- sqn_fpow, <- sqn_add. replace (two_adicity P - S e + e) with (two_adicity P - 1) by lia. exact R.
Qed.

Lemma invert_unwrap_ok (x : P) : x <> fzero -> invert_unwrap x = Done (finv x).
Proof.
  intros H. unfold invert_unwrap, finvert. destruct (feqb_spec x fzero); [congruence|]. reflexivity.
Qed.

Lemma from_coeffs_spec (l : list M) e : least_pow (length l) e ->
  if e <? two_adicity P
  then exists d, from_coeffs l = Done (Ok d) /\ ok_domain d /\ d_exp d = e /\ coeffs d = l ++ repeat gzero (2 ^ e - length l)
     /\ omega d = sqn fmul (root_of_unity P) (two_adicity P - e)
  else from_coeffs l = Done (Err PolynomialDegreeTooLarge).
Proof.
  intros He. unfold from_coeffs.
  pose proof (size_loop_spec _ _ He (S (two_adicity P)) 0 ltac:(lia) (two_adicity_pos P) ltac:(lia)) as E. cbn [Nat.pow] in E. rewrite E.
  destruct (Nat.ltb_spec e (two_adicity P)) as [Hlt|Hge]; auto.
  pose proof (root_prim e Hlt) as Hp. rewrite (invert_unwrap_ok _ (prim_neq_0 _ _ Hp)). cbn [obind].
  rewrite (invert_unwrap_ok _ generator_neq_0). cbn [obind]. rewrite (invert_unwrap_ok _ (ofnat_pow2 e)). cbn [obind].
  eexists. split; [reflexivity|]. split; [|repeat split]. split; cbn; auto.
  rewrite app_length, repeat_length. destruct He. lia.
Qed.

(** ** Transforms as lists *)
Definition dftl (w : P) (n : nat) (a : list M) : list M := map (dft w n (fun j => nth j a gzero)) (seq 0 n).
Lemma dftl_length w n a : length (dftl w n a) = n.
Proof. unfold dftl. now rewrite map_length, seq_length. Qed.
Lemma nth_dftl w n a k : k < n -> nth k (dftl w n a) gzero = dft w n (fun j => nth j a gzero) k.
Proof. intros H. unfold dftl. now rewrite nth_map_seq. Qed.

Lemma best_fft_dftl l w (wk : Worker) (a : list M) : prim w l -> length a = 2 ^ l -> wf_worker wk ->
  best_fft a wk w l = Done (dftl w (2 ^ l) a).
Proof.
  intros Hw La Hk. destruct (best_fft_spec l w wk a Hw La Hk) as (b & -> & Lb & Hb). f_equal.
  apply (nth_ext _ _ gzero gzero); [now rewrite dftl_length|]. intros k Hk'. rewrite Hb, nth_dftl by lia. reflexivity.
Qed.

Lemma fft_eq (wk : Worker) d : wf_worker wk -> ok_domain d ->
  fft wk d = Done (with_coeffs d (dftl (omega d) (2 ^ d_exp d) (coeffs d))).
Proof. intros Hk H. unfold fft. rewrite best_fft_dftl; auto; apply H. Qed.

Lemma ifft_eq (wk : Worker) d : wf_worker wk -> ok_domain d ->
  ifft wk d = Done (with_coeffs d (map (fun v => minv d *g v) (dftl (omegainv d) (2 ^ d_exp d) (coeffs d)))).
Proof.
  intros Hk H. unfold ifft. rewrite best_fft_dftl; auto; [|rewrite (ok_winv _ H); apply prim_inv, H|apply H].
  cbn [obind]. rewrite par_map_spec; [reflexivity|]. apply scope_chunk_pos; auto. rewrite dftl_length. apply pow2_gt0.
Qed.

Lemma distribute_eq (wk : Worker) g (d : EvalDomain M) : wf_worker wk -> coeffs d <> [] ->
  distribute_powers wk g d = Done (with_coeffs d (mapi (fun i v => fpow g i *g v) (coeffs d))).
Proof.
  intros Hk H. unfold distribute_powers.
  rewrite (par_for_spec wk _ _ _ (fun _ k u => u = fpow g k) (fun i v => fpow g i *g v)); [reflexivity| | |].
  - apply scope_chunk_pos; auto. destruct (coeffs d); [congruence|cbn; lia].
  - reflexivity.
  - intros i k s a _ ->. eexists. split; [reflexivity|]. now rewrite fpow_S_r.
Qed.

Lemma ok_nonempty d : ok_domain d -> coeffs d <> [].
Proof. intros H E. pose proof (ok_len _ H) as L. rewrite E in L. pose proof (pow2_gt0 (d_exp d)). cbn in L. lia. Qed.

Lemma ifft_fft (wk wk' : Worker) d : wf_worker wk -> wf_worker wk' -> ok_domain d -> obind (fft wk d) (ifft wk') = Done d.
Proof.
  intros Hk Hk' H. rewrite fft_eq by auto. cbn [obind].
  assert (H' : ok_domain (with_coeffs d (dftl (omega d) (2 ^ d_exp d) (coeffs d)))) by (apply ok_with; auto; apply dftl_length).
  rewrite ifft_eq by auto. rewrite with_with. f_equal. apply with_eq. cbn [with_coeffs coeffs d_exp omega omegainv geninv minv].
  apply (nth_ext _ _ gzero gzero); [rewrite map_length, dftl_length; symmetry; apply H|].
  rewrite map_length, dftl_length. intros i Hi.
  rewrite (nth_indep _ _ (minv d *g gzero)) by (now rewrite map_length, dftl_length). rewrite (map_nth (fun v => minv d *g v)).
  rewrite nth_dftl by auto. rewrite (ok_minv _ H), (ok_winv _ H).
  rewrite <- (dft_inverse (omega d) (d_exp d) (fun j => nth j (coeffs d) gzero) i (ok_prim _ H) Hi). f_equal.
  unfold dft at 1 2. apply gsum_ext. intros k Hk0. rewrite nth_dftl by auto. reflexivity.
Qed.

Lemma fft_ifft (wk wk' : Worker) d : wf_worker wk -> wf_worker wk' -> ok_domain d -> obind (ifft wk d) (fft wk') = Done d.
Proof.
  intros Hk Hk' H. rewrite ifft_eq by auto. cbn [obind].
  assert (H' : ok_domain (with_coeffs d (map (fun v => minv d *g v) (dftl (omegainv d) (2 ^ d_exp d) (coeffs d)))))
    by (apply ok_with; auto; rewrite map_length; apply dftl_length).
  rewrite fft_eq by auto. rewrite with_with. f_equal. apply with_eq. cbn [with_coeffs coeffs d_exp omega omegainv geninv minv].
  apply (nth_ext _ _ gzero gzero); [rewrite dftl_length; symmetry; apply H|].
  rewrite dftl_length. intros i Hi. rewrite nth_dftl by auto.
  rewrite <- (dft_inverse' (omega d) (d_exp d) (fun j => nth j (coeffs d) gzero) i (ok_prim _ H) Hi).
  unfold dft at 1 2. apply gsum_ext. intros k Hk0. f_equal. rewrite (ok_minv _ H), (ok_winv _ H).
  rewrite (nth_indep _ _ (finv (ofZ (Z.of_nat (2 ^ d_exp d))) *g gzero)) by (now rewrite map_length, dftl_length).
  rewrite (map_nth (fun v => finv (ofZ (Z.of_nat (2 ^ d_exp d))) *g v)). now rewrite nth_dftl.
Qed.

Lemma distribute_inv (wk wk' : Worker) g (d : EvalDomain M) : wf_worker wk -> wf_worker wk' -> g <> fzero -> coeffs d <> [] ->
  obind (distribute_powers wk g d) (distribute_powers wk' (finv g)) = Done d.
Proof.
  intros Hk Hk' Hg H. rewrite distribute_eq by auto. cbn [obind]. rewrite distribute_eq; auto.
  - rewrite with_with. f_equal. apply with_eq. cbn [with_coeffs coeffs d_exp omega omegainv geninv minv].
    apply (nth_ext _ _ gzero gzero); [now rewrite !mapi_length|]. rewrite !mapi_length. intros i Hi.
    rewrite (nth_mapi _ _ gzero) by now rewrite mapi_length. rewrite (nth_mapi _ _ gzero) by auto.
    rewrite <- gmul_mul, <- fpow_mul_base, finv_l, fpow_one by auto. apply gmul_1.
  - cbn [with_coeffs coeffs]. intros E. apply (f_equal (@length _)) in E. rewrite mapi_length in E. destruct (coeffs d); [auto|discriminate].
Qed.

Lemma ok_distribute (wk : Worker) g (d d' : EvalDomain M) : wf_worker wk -> ok_domain d -> distribute_powers wk g d = Done d' -> ok_domain d' /\ d_exp d' = d_exp d /\ omega d' = omega d /\ geninv d' = geninv d.
Proof.
  intros Hk H E. rewrite distribute_eq in E by (auto; now apply ok_nonempty). injection E as <-. split; [|auto]. apply ok_with; auto. rewrite mapi_length. apply H.
Qed.

Lemma coset_fft_eq (wk : Worker) d : wf_worker wk -> ok_domain d ->
  coset_fft wk d = Done (with_coeffs d (dftl (omega d) (2 ^ d_exp d) (mapi (fun i v => fpow (generator P) i *g v) (coeffs d)))).
Proof.
  intros Hk H. unfold coset_fft. rewrite distribute_eq by (auto; now apply ok_nonempty). cbn [obind].
  rewrite fft_eq; auto. apply ok_with; auto. rewrite mapi_length. apply H.
Qed.

Lemma icoset_coset (wk wk' : Worker) d : wf_worker wk -> wf_worker wk' -> ok_domain d -> obind (coset_fft wk d) (icoset_fft wk') = Done d.
Proof.
  intros Hk Hk' H. unfold coset_fft, icoset_fft.
  destruct (distribute_powers wk (generator P) d) as [d1|] eqn:E1; [|rewrite distribute_eq in E1 by (auto; now apply ok_nonempty); discriminate].
  destruct (ok_distribute _ _ _ _ Hk H E1) as (H1 & _ & _ & G1). cbn [obind].
  pose proof (ifft_fft wk wk' d1 Hk Hk' H1) as I.
  destruct (fft wk d1) as [d2|] eqn:E2; [|discriminate]. cbn [obind] in *. rewrite I. cbn [obind].
  assert (G2 : geninv d2 = finv (generator P)).
  { rewrite fft_eq in E2 by auto. injection E2 as <-. apply H1. }
  rewrite G2. pose proof (distribute_inv wk wk' (generator P) d Hk Hk' generator_neq_0 (ok_nonempty _ H)) as D.
  rewrite E1 in D. exact D.
Qed.

Lemma coset_icoset (wk wk' : Worker) d : wf_worker wk -> wf_worker wk' -> ok_domain d -> obind (icoset_fft wk d) (coset_fft wk') = Done d.
Proof.
  intros Hk Hk' H. unfold coset_fft, icoset_fft.
  pose proof (fft_ifft wk wk' d Hk Hk' H) as I.
  destruct (ifft wk d) as [d1|] eqn:E1; [|discriminate]. cbn [obind] in *.
  assert (H1 : ok_domain d1).
  { rewrite ifft_eq in E1 by auto. injection E1 as <-. apply ok_with; auto. rewrite map_length. apply dftl_length. }
  pose proof (distribute_inv wk wk' (geninv d) d1 Hk Hk') as D. rewrite (ok_ginv _ H) in *.
  rewrite finv_finv in D by apply generator_neq_0.
  specialize (D (finv_neq_0 _ generator_neq_0) (ok_nonempty _ H1)).
  destruct (distribute_powers wk (finv (generator P)) d1) as [d2|]; [|discriminate]. cbn [obind] in *. rewrite D. exact I.
Qed.
End DomainProof.
