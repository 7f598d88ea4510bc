(** Property theorem C81: the unit tests of src/domain.rs, src/multiexp.rs and src/multicore.rs. *)
From Coq Require Import ZArith List Bool Lia.
From Verif Require Import Prelude PrimeField Fields FModule Multicore Domain FFTProof DomainProof Quotient Multiexp PropDomain PropMultiexp UnitTests LibTests LibTestsProof.
Import ListNotations.
Local Open Scope nat_scope.

(** Coefficient [n] of the product of two polynomials. *)
Definition product_coefficient {P : PrimeField} (a b : list P) (n : nat) : P :=
  gsum (M := ScalarMod P) (S n) (fun i => nth i a fzero * nth (n - i)%nat b fzero)%F.

(** Transforming, multiplying point by point and transforming back multiplies polynomials of any length. *)
Theorem C81_product {P : PrimeField} (wk : Worker) (a b : list P) e : wf_worker wk -> domain_exponent (length a + length b) e ->
  if e <? two_adicity P
  then exists l, product wk a b = Done (Ok l) /\ length l = 2 ^ e /\ forall n, nth n l fzero = product_coefficient a b n
  else product wk a b = Done (Err PolynomialDegreeTooLarge).
Proof. intros Hk He. apply domain_exponent_least in He. exact (product_spec wk a b e Hk He). Qed.
Print Assumptions C81_product.

(** [polynomial_arith] passes, whatever is drawn and however many threads there are, in every field with 2-adicity
    above eight, and panics in every other field. *)
Theorem C81_polynomial_arith {P : PrimeField} (wk : Worker) (a b : nat -> nat -> nat -> P) : wf_worker wk ->
  polynomial_arith wk a b = if 8 <? two_adicity P then Done tt else Panicked.
Proof. apply polynomial_arith_spec. Qed.
Print Assumptions C81_polynomial_arith.

(** [fft_composition], likewise, with nine. *)
Theorem C81_fft_composition {P : PrimeField} (wk : Worker) (v : nat -> nat -> P) : wf_worker wk ->
  fft_composition wk v = if 9 <? two_adicity P then Done tt else Panicked.
Proof. apply fft_composition_spec. Qed.
Print Assumptions C81_fft_composition.

(** The root of unity of the domain of [2^l] elements. *)
Definition root {P : PrimeField} (l : nat) : P := sqn fmul (root_of_unity P) (two_adicity P - l).

(** Exactly what [parallel_fft_consistency] checks of the function in the place of [parallel_fft]: one comparison
    with [serial_fft] in each of the five rounds, for one, two and four elements, with as many tasks as elements. *)
Theorem C81_consistency_exact {P : PrimeField} (pfft : FFT) (wk : Worker) (v : nat -> nat -> nat -> P) :
  parallel_fft_consistency pfft wk v = Done tt <->
  9 < two_adicity P /\ forall r l, r < 5 -> l < 3 ->
    exists out, pfft (drawn (2 ^ l) (v r l)) wk (root l) l l = Done out /\
      serial_fft (M := ScalarMod P) (drawn (2 ^ l) (v r l)) (root l) l = Done out.
Proof.
  unfold parallel_fft_consistency. split.
  - intros E.
    assert (X : forall r l, r < 5 -> l < 10 -> consistency_round pfft wk l (drawn (2 ^ l) (v r l)) = Done tt).
    { intros r l Hr Hl. destruct (consistency_round pfft wk l _) as [[]|] eqn:E'; auto. exfalso.
      rewrite (each_panics 5 _ 0 r) in E; [discriminate|lia|]. apply (each_panics _ _ 0 l); [lia|auto]. }
    split.
    + specialize (X 0 9 ltac:(lia) ltac:(lia)). rewrite consistency_round_spec in X by apply drawn_length.
      destruct (Nat.ltb_spec 9 (two_adicity P)); [auto|discriminate].
    + intros r l Hr Hl. specialize (X r l Hr ltac:(lia)). rewrite consistency_round_spec in X by apply drawn_length.
      destruct (l <? two_adicity P); [|discriminate]. destruct (Nat.ltb_spec l 3); [|lia]. fold (root (P := P) l) in X.
      destruct (pfft (drawn (2 ^ l) (v r l)) wk (root l) l l) as [v1|]; [|discriminate]. cbn [obind] in X.
      destruct (serial_fft (drawn (2 ^ l) (v r l)) (root l) l) as [v2|]; [|discriminate]. cbn [obind] in X.
      destruct (veqb v1 v2) eqn:Ev; [|discriminate]. apply veqb_eq in Ev as ->. exists v2. auto.
  - intros [H9 H]. apply each_done. intros r Hr. apply each_done. intros l Hl. rewrite consistency_round_spec by apply drawn_length.
    destruct (Nat.ltb_spec l (two_adicity P)); [|lia]. destruct (Nat.ltb_spec l 3) as [H3|]; auto.
    destruct (H r l ltac:(lia) H3) as (out & E1 & E2). fold (root (P := P) l). rewrite E1, E2. cbn [obind]. now rewrite veqb_refl.
Qed.
Print Assumptions C81_consistency_exact.

(** With [parallel_fft] itself it passes, in every field with 2-adicity above nine. *)
Theorem C81_consistency {P : PrimeField} (wk : Worker) (v : nat -> nat -> nat -> P) : wf_worker wk -> 9 < two_adicity P ->
  parallel_fft_consistency (parallel_fft (M := ScalarMod P)) wk v = Done tt.
Proof.
  intros Hk H9. apply C81_consistency_exact. split; auto. intros r l Hr Hl.
  pose proof (from_coeffs_pow (drawn (2 ^ l) (v r l)) l (drawn_length _ _)) as X. destruct (Nat.ltb_spec l (two_adicity P)); [|lia].
  destruct X as (d & E & O & Xd & C & W).
  assert (R : reachable_domain d).
  { exists (drawn (2 ^ l) (v r l)), d. repeat split; auto. destruct d; reflexivity. }
  pose proof (C26_serial_parallel wk d l Hk R ltac:(lia)) as S. rewrite C, W, Xd in S. fold (root (P := P) l) in S.
  destruct (serial_fft_spec l (root l) (drawn (2 ^ l) (v r l)) (root_prim l H) (drawn_length _ _)) as (out & Eo & _).
  exists out. split; [|exact Eo]. exact (eq_trans (eq_sym S) Eo).
Qed.
Print Assumptions C81_consistency.

(** The test says nothing of domains of eight elements or more, nor of fewer tasks than elements: whatever the
    function does there, panics included, the test passes. *)
Theorem C81_consistency_blind {P : PrimeField} (pfft : FFT) (wk : Worker) (v : nat -> nat -> nat -> P) :
  wf_worker wk -> 9 < two_adicity P ->
  (forall a w l, l < 3 -> pfft a wk w l l = parallel_fft (M := ScalarMod P) a wk w l l) ->
  parallel_fft_consistency pfft wk v = Done tt.
Proof.
  intros Hk H9 H. pose proof (C81_consistency wk v Hk H9) as X. apply C81_consistency_exact in X as [_ X].
  apply C81_consistency_exact. split; auto. intros r l Hr Hl. destruct (X r l Hr Hl) as (out & E1 & E2). exists out. split; [|auto].
  rewrite H by auto. exact E1.
Qed.
Print Assumptions C81_consistency_blind.

(** What the library uses is what the test does not run: [best_fft] calls the parallel transform only with fewer
    tasks than elements.  So a function which is right only where the library calls it, or only where it does not,
    cannot be told from [parallel_fft] by the library, or by the test. *)
Theorem C81_library_uses {P : PrimeField} {M : FMod P} (wk : Worker) (log_cpus : nat) (a : list M) (w : P) (log_n : nat) :
  log_num_threads wk = Done log_cpus ->
  best_fft a wk w log_n = if log_cpus <? log_n then parallel_fft a wk w log_n log_cpus else serial_fft a w log_n.
Proof.
  intros E. unfold best_fft. rewrite E. cbn [obind]. destruct (Nat.ltb_spec log_cpus log_n), (Nat.leb_spec log_n log_cpus); auto; lia.
Qed.
Print Assumptions C81_library_uses.

(** [test_with_bls12], for any number of samples: it panics exactly when an identity is drawn as a base whose
    exponent is not zero, and otherwise the two results agree. *)
Theorem C81_multiexp {P : PrimeField} {M : FMod P} ln_ceil (g : list M) (v : list P) :
  sane_ln_ceil ln_ceil -> (Z.of_nat (length v) < 2 ^ 32)%Z -> length g = length v ->
  (multiexp_case ln_ceil g v = Panicked <-> exists i, i < length v /\ nth i v fzero <> fzero /\ nth i g gzero = gzero).
Proof. apply multiexp_case_spec. Qed.
Print Assumptions C81_multiexp.

Theorem C81_with_bls12 {P : PrimeField} {M : FMod P} ln_ceil (v : nat -> P) (g : nat -> M) : sane_ln_ceil ln_ceil ->
  (test_with_bls12 ln_ceil v g = Panicked <-> exists i, (Z.of_nat i < 16384)%Z /\ v i <> fzero /\ g i = gzero).
Proof.
  intros Hl. unfold test_with_bls12. set (n := 2 ^ 14).
  assert (Hn : Z.of_nat n = 16384%Z) by (unfold n; now rewrite Nat2Z.inj_pow). clearbody n.
  rewrite multiexp_case_spec by (auto; rewrite ?map_length, ?seq_length; lia). rewrite map_length, seq_length.
  assert (X : forall {A} (f : nat -> A) d i, i < n -> nth i (map f (seq 0 n)) d = f i).
  { intros A f d i Hi. rewrite (nth_indep _ d (f 0)) by (now rewrite map_length, seq_length). now rewrite map_nth, seq_nth. }
  split; intros (i & Hi & Hx & Hz); exists i; rewrite ?X in * by lia; repeat split; auto; lia.
Qed.
Print Assumptions C81_with_bls12.

(** [test_log2_floor] passes. *)
Theorem C81_log2_floor : test_log2_floor = Done tt.
Proof. vm_compute. reflexivity. Qed.
Print Assumptions C81_log2_floor.

(** (3 + X + 4X^2)(1 + 5X) = 3 + 16X + 9X^2 + 20X^3; the field has 2-adicity ten. *)
Example C81_ex_product : wf_worker (Multicore 3) /\ domain_exponent (3 + 2) 3 /\
  match product (P := Fr64513) (Multicore 3) (map ofZ [3; 1; 4]%Z) (map ofZ [1; 5]%Z) with
  | Done (Ok l) => map toZ l = [3; 16; 9; 20; 0; 0; 0; 0]%Z
  | _ => False
  end /\ (9 <? two_adicity Fr64513) = true.
Proof.
  split; [cbn; lia|]. split; [|split; [vm_compute; reflexivity|vm_compute; reflexivity]].
  split; [cbn; lia|]. intros e' H. do 3 (destruct e' as [|e']; [cbn; lia|]). lia.
Qed.

(** A parallel transform that panics whenever there are fewer tasks than elements - wherever [best_fft] uses it -
    passes the test. *)
Definition one_each {P : PrimeField} : FFT (P := P) := fun a wk w log_n log_cpus =>
  if log_cpus <? log_n then Panicked else parallel_fft (M := ScalarMod P) a wk w log_n log_cpus.
Example C81_ex_blind : (forall v, parallel_fft_consistency (P := Fr64513) one_each (Multicore 4) v = Done tt) /\
  forall a w, one_each (P := Fr64513) a (Multicore 4) w 5 2 = Panicked.
Proof.
  split; [|reflexivity]. intros v. apply C81_consistency_blind; [cbn; lia|apply Nat.ltb_lt; vm_compute; reflexivity|].
  intros a w l _. unfold one_each. now rewrite Nat.ltb_irrefl.
Qed.

(** Three samples; and the same with an identity among the bases. *)
Example C81_ex_multiexp :
  multiexp_case (M := ScalarMod Fr64513) (fun _ => 4) (map ofZ [7; 11; 13]%Z) (map (ofZ (p := Fr64513)) [2; 0; 64512]%Z) = Done tt /\
  multiexp_case (M := ScalarMod Fr64513) (fun _ => 4) (map ofZ [7; 0; 13]%Z) (map (ofZ (p := Fr64513)) [2; 0; 64512]%Z) = Done tt /\
  multiexp_case (M := ScalarMod Fr64513) (fun _ => 4) (map ofZ [7; 11; 0]%Z) (map (ofZ (p := Fr64513)) [2; 0; 64512]%Z) = Panicked.
Proof. vm_compute. auto. Qed.
