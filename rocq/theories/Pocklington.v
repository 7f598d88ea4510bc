(** Primality certificates (Pocklington's criterion), used only to exhibit concrete fields. *)
From Coq Require Import ZArith List Bool Lia Znumtheory Zpow_facts.
From Verif Require Import Prelude Zp.
Import ListNotations.
Open Scope Z_scope.

(** *** Trial division for small numbers *)
Definition no_divisor (n : Z) (bound : nat) : bool :=
  forallb (fun d => negb (n mod Z.of_nat d =? 0)) (seq 2 bound).

Lemma composite_small_divisor n : 1 < n -> ~ prime n -> exists d, prime d /\ (d | n) /\ d * d <= n.
Proof.
  revert n. apply (well_founded_ind (Z.lt_wf 0) (fun n => 1 < n -> ~ prime n -> exists d, prime d /\ (d | n) /\ d * d <= n)).
  intros n IH Hn Hp.
  destruct (not_prime_divide n Hn Hp) as (q & Hq1 & [k Hk]).
  assert (Hkq : 1 < k < n) by nia.
  assert (H : exists a, 1 < a < n /\ (a | n) /\ a * a <= n).
  { destruct (Z_le_gt_dec (q * q) n).
    - exists q. repeat split; try lia. exists k; lia.
    - exists k. repeat split; try lia; [exists q; lia|nia]. }
  destruct H as (a & Ha & Hd & Hs).
  destruct (prime_dec a) as [Hpa|Hpa].
  - exists a; auto.
  - destruct (IH a) as (d & Hd1 & Hd2 & Hd3); auto; try lia.
    exists d. split; [auto|split].
    + eapply Z.divide_trans; eauto.
    + nia.
Qed.

Lemma trial_prime n bound : 1 < n -> n < (2 + Z.of_nat bound) * (2 + Z.of_nat bound) ->
  no_divisor n bound = true -> prime n.
Proof.
  intros Hn Hb H. destruct (prime_dec n) as [|Hp]; auto. exfalso.
  destruct (composite_small_divisor n Hn Hp) as (d & Hd1 & Hd2 & Hd3).
  pose proof (prime_ge_2 d Hd1).
  unfold no_divisor in H. rewrite forallb_forall in H.
  specialize (H (Z.to_nat d)). rewrite Z2Nat.id in H by lia.
  rewrite in_seq in H.
  assert (Hd0 : n mod d = 0) by (apply Z.mod_divide; auto; lia).
  rewrite Hd0 in H. cbn in H. assert (false = true) by (apply H; nia). congruence.
Qed.

Lemma div_prime_power q e d : prime q -> 0 < d -> (d | q ^ Z.of_nat (S e)) ->
  d = q ^ Z.of_nat (S e) \/ (d | q ^ Z.of_nat e).
Proof.
  intros Hq Hd [k Hk]. pose proof (prime_ge_2 q Hq).
  assert (HS : q ^ Z.of_nat (S e) = q * q ^ Z.of_nat e) by (rewrite Nat2Z.inj_succ, Z.pow_succ_r; lia).
  assert (0 < q ^ Z.of_nat e) by (apply Z.pow_pos_nonneg; lia).
  assert (0 < k) by nia.
  destruct (Zdivide_dec q k) as [[k' Hk']|Hn].
  - right. exists k'. nia.
  - left. assert (Hrp : rel_prime k (q ^ Z.of_nat (S e))).
    { apply rel_prime_Zpower_r; [lia|]. apply rel_prime_sym, prime_rel_prime; auto. }
    assert (k = 1); [|nia].
    assert (Hkd : (k | q ^ Z.of_nat (S e))) by (exists d; lia).
    assert (Hk1 : (k | 1)).
    { destruct Hrp as [_ _ Hg]. apply Hg; auto. apply Z.divide_refl. }
    apply Z.divide_1_r in Hk1. lia.
Qed.

Lemma pow_one_mul r a x y : 0 < r -> 0 <= x -> 0 <= y -> a ^ x mod r = 1 mod r -> a ^ (x * y) mod r = 1 mod r.
Proof.
  intros Hr Hx Hy H. rewrite Z.pow_mul_r by lia. rewrite Zpower_mod, H, <- Zpower_mod by lia.
  now rewrite Z.pow_1_l.
Qed.

(** If [b^x = 1] and [b^y = 1] then [b^gcd(x,y) = 1] (mod r). *)
Lemma pow_one_gcd r b x y : 0 < r -> 0 < x -> 0 < y ->
  b ^ x mod r = 1 mod r -> b ^ y mod r = 1 mod r -> b ^ Z.gcd x y mod r = 1 mod r.
Proof.
  intros Hr Hx Hy Ex Ey.
  destruct (Z.gcd_bezout x y (Z.gcd x y) eq_refl) as (u & v & Huv).
  pose proof (Z.gcd_nonneg x y) as Hg.
  (* shift to non-negative coefficients: u' * x = g + v' * y *)
  set (t := Z.abs u + Z.abs v).
  assert (Hu : 0 <= u + t * y) by nia.
  assert (Hv : 0 <= t * x - v) by nia.
  assert (Hsum : (u + t * y) * x = Z.gcd x y + (t * x - v) * y) by lia.
  assert (E1 : b ^ (x * (u + t * y)) mod r = 1 mod r) by (apply pow_one_mul; lia).
  assert (E2 : b ^ (y * (t * x - v)) mod r = 1 mod r) by (apply pow_one_mul; lia).
  replace (x * (u + t * y)) with (Z.gcd x y + y * (t * x - v)) in E1 by lia.
  rewrite Z.pow_add_r in E1 by nia.
  rewrite Zmult_mod, E2, <- Zmult_mod, Z.mul_1_r in E1. auto.
Qed.

(** The order argument for one prime power. *)
Lemma pocklington_factor n r q e a : 1 < n -> prime r -> (r | n) -> prime q ->
  (q ^ Z.of_nat (S e) | n - 1) ->
  a ^ (n - 1) mod n = 1 -> Z.gcd (a ^ ((n - 1) / q) - 1) n = 1 ->
  (q ^ Z.of_nat (S e) | r - 1).
Proof.
  intros Hn Hr Hrn Hq [t Ht] Ha Hg.
  pose proof (prime_ge_2 q Hq) as Hq2. pose proof (prime_ge_2 r Hr) as Hr2.
  assert (HS : q ^ Z.of_nat (S e) = q * q ^ Z.of_nat e) by (rewrite Nat2Z.inj_succ, Z.pow_succ_r; lia).
  assert (Hqe : 0 < q ^ Z.of_nat e) by (apply Z.pow_pos_nonneg; lia).
  assert (Htp : 0 < t) by nia.
  assert (Hdiv : (n - 1) / q = t * q ^ Z.of_nat e).
  { rewrite Ht, HS. replace (t * (q * q ^ Z.of_nat e)) with (t * q ^ Z.of_nat e * q) by ring.
    apply Z.div_mul; lia. }
  set (b := a ^ t).
  assert (Hmodr : forall x, x mod n = 1 -> x mod r = 1 mod r).
  { intros x Hx. destruct Hrn as [k Hk].
    rewrite (Z.div_mod x n) by lia. rewrite Hx, Hk.
    replace (k * r * (x / (k * r)) + 1) with (1 + (k * (x / (k * r))) * r) by ring.
    apply Z.mod_add; lia. }
  assert (E1 : b ^ (q ^ Z.of_nat (S e)) mod r = 1 mod r).
  { unfold b. rewrite <- Z.pow_mul_r by lia. rewrite <- Ht. auto. }
  assert (E2 : b ^ (q ^ Z.of_nat e) mod r <> 1 mod r).
  { unfold b. rewrite <- Z.pow_mul_r by lia. rewrite <- Hdiv. intros E.
    assert (Hd : (r | a ^ ((n - 1) / q) - 1)).
    { apply Z.mod_divide; [lia|]. rewrite Zminus_mod, E, Z.sub_diag. apply Z.mod_0_l; lia. }
    assert (Hd1 : (r | 1)) by (rewrite <- Hg; apply Z.gcd_greatest; auto).
    apply Z.divide_1_r in Hd1. lia. }
  assert (Hrb : ~ (r | b)).
  { intros Hd. assert (b ^ (q ^ Z.of_nat (S e)) mod r = 0).
    { apply Z.mod_divide; [lia|]. replace (q ^ Z.of_nat (S e)) with (Z.succ (q ^ Z.of_nat (S e) - 1)) by lia.
      rewrite Z.pow_succ_r by lia. now apply Z.divide_mul_l. }
    rewrite Z.mod_1_l in E1 by lia. lia. }
  pose proof (fermat_little r b Hr Hrb) as HF.
  assert (E3 : b ^ (r - 1) mod r = 1 mod r) by (rewrite HF; symmetry; apply Z.mod_1_l; lia).
  pose proof (pow_one_gcd r b (q ^ Z.of_nat (S e)) (r - 1)) as HG.
  specialize (HG ltac:(lia) ltac:(lia) ltac:(lia) E1 E3).
  destruct (div_prime_power q e (Z.gcd (q ^ Z.of_nat (S e)) (r - 1)) Hq) as [Hd|Hd].
  - assert (Z.gcd (q ^ Z.of_nat (S e)) (r - 1) <> 0); [|pose proof (Z.gcd_nonneg (q ^ Z.of_nat (S e)) (r - 1)); lia].
    intros E. apply Z.gcd_eq_0_l in E. lia.
  - apply Z.gcd_divide_l.
  - rewrite <- Hd. apply Z.gcd_divide_r.
  - exfalso. apply E2. destruct Hd as [k Hk]. 
    pose proof (Z.gcd_nonneg (q ^ Z.of_nat (S e)) (r - 1)) as Hg0.
    assert (Hk0 : 0 <= k) by (clear - Hk Hqe Hg0; nia).
    rewrite Hk, Z.mul_comm. apply pow_one_mul; auto; lia.
Qed.

(** A certificate: prime powers [q^(e+1)] dividing n-1 with a witness each. *)
Definition cert_entry : Type := Z * nat * Z.

Definition check_entry (n : Z) (c : cert_entry) : bool :=
  let '(q, e, a) := c in
  ((n - 1) mod (q ^ Z.of_nat (S e)) =? 0)
  && (powmod n a (n - 1) =? 1)
  && (Z.gcd (powmod n a ((n - 1) / q) - 1) n =? 1).

Definition cert_prod (l : list cert_entry) : Z :=
  fold_right (fun c acc => let '(q, e, _) := c in q ^ Z.of_nat (S e) * acc) 1 l.

Fixpoint pairwise_neq (l : list cert_entry) : bool :=
  match l with
  | [] => true
  | (q, _, _) :: t => forallb (fun c => negb (fst (fst c) =? q)) t && pairwise_neq t
  end.

Lemma rel_prime_prime_powers q1 q2 e1 e2 : prime q1 -> prime q2 -> q1 <> q2 ->
  rel_prime (q1 ^ Z.of_nat e1) (q2 ^ Z.of_nat e2).
Proof.
  intros H1 H2 Hn. apply rel_prime_Zpower; try lia.
  apply prime_rel_prime; auto. intros Hd. apply prime_div_prime in Hd; auto.
Qed.

Lemma cert_divides n r l : 1 < n -> prime r -> (r | n) ->
  (forall c, In c l -> prime (fst (fst c))) ->
  forallb (check_entry n) l = true -> pairwise_neq l = true ->
  (cert_prod l | r - 1).
Proof.
  intros Hn Hr Hrn Hpr Hck Hpw.
  induction l as [|[[q e] a] t IH]; [apply Z.divide_1_l|].
  cbn [cert_prod fold_right] in *. cbn [forallb] in Hck. apply andb_prop in Hck as [Hc Ht].
  cbn [pairwise_neq] in Hpw. apply andb_prop in Hpw as [Hq Hpw].
  assert (Hqp : prime q) by (apply (Hpr (q, e, a)); now left).
  specialize (IH (fun c Hc => Hpr c (or_intror Hc)) Ht Hpw).
  assert (Hd : (q ^ Z.of_nat (S e) | r - 1)).
  { unfold check_entry in Hc. apply andb_prop in Hc as [Hc Hc3]. apply andb_prop in Hc as [Hc1 Hc2].
    apply Z.eqb_eq in Hc1, Hc2, Hc3. pose proof (prime_ge_2 q Hqp).
    assert (0 < q ^ Z.of_nat (S e)) by (apply Z.pow_pos_nonneg; lia).
    apply Z.mod_divide in Hc1; [|lia].
    rewrite powmod_spec in Hc2 by lia.
    rewrite powmod_spec in Hc3 by (try lia; apply Z.div_pos; lia).
    apply (pocklington_factor n r q e a); auto.
    etransitivity; [|exact Hc3].
    rewrite (Z.gcd_comm (a ^ ((n-1)/q) - 1) n), (Z.gcd_comm (a ^ ((n-1)/q) mod n - 1) n).
    rewrite <- (Z.gcd_mod (a ^ ((n-1)/q) - 1) n) by lia.
    rewrite <- (Z.gcd_mod (a ^ ((n-1)/q) mod n - 1) n) by lia.
    f_equal. rewrite Zminus_mod_idemp_l. reflexivity. }
  assert (Hrp : rel_prime (q ^ Z.of_nat (S e)) (cert_prod t)).
  { clear IH Ht Hpw Hd Hc. induction t as [|[[q' e'] a'] t' IHt]; [apply rel_prime_sym, rel_prime_1|].
    cbn [cert_prod fold_right]. cbn [forallb] in Hq. apply andb_prop in Hq as [Hq1 Hq2].
    cbn in Hq1. apply negb_true_iff, Z.eqb_neq in Hq1.
    apply rel_prime_mult.
    - apply rel_prime_prime_powers; auto. apply (Hpr (q', e', a')). right; now left.
    - apply IHt; auto. intros c [Hc|Hc]; apply Hpr; [now left|right; now right]. }
  change (q ^ Z.of_nat (S e) * cert_prod t | r - 1).
  destruct Hd as [k Hk]. rewrite Hk in IH.
  rewrite Z.mul_comm in IH. apply Gauss in IH as [k' Hk']; [|apply rel_prime_sym; auto].
  exists k'. rewrite Hk, Hk'. ring.
Qed.

Theorem pocklington n l : 1 < n ->
  (forall c, In c l -> prime (fst (fst c))) ->
  forallb (check_entry n) l = true -> pairwise_neq l = true ->
  n < cert_prod l * cert_prod l -> prime n.
Proof.
  intros Hn Hpr Hck Hpw Hbig.
  destruct (prime_dec n) as [|Hc]; auto. exfalso.
  destruct (composite_small_divisor n Hn Hc) as (r & Hr & Hrn & Hsq).
  pose proof (cert_divides n r l Hn Hr Hrn Hpr Hck Hpw) as [k Hk].
  pose proof (prime_ge_2 r Hr).
  assert (0 < cert_prod l).
  { destruct (Z.eq_dec (cert_prod l) 0) as [E|E]; [rewrite E in Hbig; nia|].
    clear - Hpr E. induction l as [|[[q e] a] t IH]; [reflexivity|].
    cbn [cert_prod fold_right] in *. change (fold_right _ 1 t) with (cert_prod t) in *.
    assert (prime q) by (apply (Hpr (q, e, a)); now left). pose proof (prime_ge_2 q H).
    assert (0 < q ^ Z.of_nat (S e)) by (apply Z.pow_pos_nonneg; lia).
    assert (0 < cert_prod t); [|nia]. apply IH; [intros; apply Hpr; now right|nia]. }
  assert (0 < k) by nia. assert (cert_prod l <= r - 1) by nia. nia.
Qed.
