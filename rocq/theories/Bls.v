(** The scalar field of the curve BLS12-381, which the crate's documentation (src/lib.rs:25), tests (e.g. src/gadgets/sha256.rs:277,
    src/domain.rs:379) and benchmarks use, through the external crate [bls12_381] (Cargo.toml:40); its constants are those of that crate's
    [Scalar]: the modulus, NUM_BITS = 255, S = 32, MULTIPLICATIVE_GENERATOR = 7, ROOT_OF_UNITY = 7^((r-1)/2^32); [to_le_bits] yields 256 bits.
    Used only to exhibit a concrete field. *)
From Coq Require Import ZArith List Bool Lia Znumtheory Zpow_facts.
From Verif Require Import Prelude PrimeField Zp Pocklington Fields.
Import ListNotations.
Open Scope Z_scope.

(** ** Powers modulo [n] with the quotients of all reductions given beforehand *)
Section Chain.
Variable n a : Z.
Fixpoint chain (x : Z) (l : list (bool * Z)) : Z :=
  match l with [] => x | (b, q) :: l => chain ((if b then a * (x * x) else x * x) - q * n) l end.
Fixpoint chain_exp (e : Z) (l : list (bool * Z)) : Z :=
  match l with [] => e | (b, _) :: l => chain_exp (2 * e + (if b then 1 else 0)) l end.
Lemma chain_spec l : 0 < n -> forall x e, 0 <= e -> x mod n = a ^ e mod n -> chain x l mod n = a ^ chain_exp e l mod n /\ 0 <= chain_exp e l.
Proof.
  intros Hn. induction l as [|[b q] l IH]; intros x e He H; cbn [chain chain_exp]; [auto|]. apply IH; [destruct b; lia|].
  rewrite Zminus_mod, Z.mod_mul, Z.sub_0_r, Zmod_mod by lia.
  assert (S : (x * x) mod n = (a ^ e * a ^ e) mod n) by now rewrite Zmult_mod, H, <- Zmult_mod.
  destruct b.
  - rewrite Zmult_mod, S, <- Zmult_mod. replace (2 * e + 1) with (Z.succ (e + e)) by lia. rewrite Z.pow_succ_r, Z.pow_add_r by lia. reflexivity.
  - rewrite S. replace (2 * e + 0) with (e + e) by lia. now rewrite Z.pow_add_r by lia.
Qed.
(** the quotients, for the exponent with these bits, most significant first *)
Fixpoint quotients (x : Z) (bits : list bool) : list (bool * Z) :=
  match bits with
  | [] => []
  | b :: bits => let y := if b then a * (x * x) else x * x in (b, y / n) :: quotients (y mod n) bits
  end.
End Chain.
Fixpoint bits_be (p : positive) (acc : list bool) : list bool :=
  match p with xH => true :: acc | xO q => bits_be q (false :: acc) | xI q => bits_be q (true :: acc) end.

Lemma check_entry_by n q e a v : 1 < n -> 1 < q -> ((n - 1) mod (q ^ Z.of_nat (S e)) =? 0) = true -> a ^ (n - 1) mod n = 1 -> a ^ ((n - 1) / q) mod n = v ->
  (Z.gcd (v - 1) n =? 1) = true -> check_entry n (q, e, a) = true.
Proof.
  intros Hn Hq H1 H2 H3 H4. unfold check_entry. rewrite !powmod_spec by (try lia; apply Z.div_pos; lia). now rewrite H1, H2, H3, H4.
Qed.

(** ** The modulus *)
Definition bls_r : Z := 0x73eda753299d7d483339d80809a1d80553bda402fffe5bfeffffffff00000001.

Definition q1 : Z := 906349.
Definition q2 : Z := 254760293.
Definition cofactor : Z := (bls_r - 1) / (2 * q1 * q2).
Definition hints (a e : Z) : list (bool * Z) := match e with Zpos p => quotients bls_r a 1 (bits_be p []) | _ => [] end.
(** [base] is 7^cofactor, its powers are those of 7 that the certificate needs *)
Definition hints_0 : list (bool * Z) := Eval vm_compute in hints 7 cofactor.
Definition base : Z := Eval vm_compute in chain bls_r 7 1 hints_0.
Definition hints_2 : list (bool * Z) := Eval vm_compute in hints base (q1 * q2).
Definition hints_q1 : list (bool * Z) := Eval vm_compute in hints base (2 * q2).
Definition hints_q2 : list (bool * Z) := Eval vm_compute in hints base (2 * q1).
Definition value_q1 : Z := Eval vm_compute in chain bls_r base 1 hints_q1.
Definition value_q2 : Z := Eval vm_compute in chain bls_r base 1 hints_q2.

Lemma by_chain a l e v : chain_exp 0 l = e -> chain bls_r a 1 l mod bls_r = v -> a ^ e mod bls_r = v.
Proof. intros <- <-. symmetry. apply (chain_spec bls_r a l); [reflexivity|lia|reflexivity]. Qed.

Lemma pow_base : 7 ^ cofactor mod bls_r = base.
Proof. apply (by_chain 7 hints_0); vm_compute; reflexivity. Qed.
Lemma on_base m e v : 0 <= m -> e = cofactor * m -> base ^ m mod bls_r = v -> 7 ^ e mod bls_r = v.
Proof.
  intros Hm -> <-. rewrite Z.pow_mul_r by (assumption || (vm_compute; discriminate)). rewrite Zpower_mod, pow_base by reflexivity. reflexivity.
Qed.
Lemma pow_2 : 7 ^ ((bls_r - 1) / 2) mod bls_r = bls_r - 1.
Proof. apply (on_base (q1 * q2)); [vm_compute; discriminate|vm_compute; reflexivity|]. apply (by_chain base hints_2); vm_compute; reflexivity. Qed.
Lemma pow_q1 : 7 ^ ((bls_r - 1) / q1) mod bls_r = value_q1.
Proof. apply (on_base (2 * q2)); [vm_compute; discriminate|vm_compute; reflexivity|]. apply (by_chain base hints_q1); vm_compute; reflexivity. Qed.
Lemma pow_q2 : 7 ^ ((bls_r - 1) / q2) mod bls_r = value_q2.
Proof. apply (on_base (2 * q1)); [vm_compute; discriminate|vm_compute; reflexivity|]. apply (by_chain base hints_q2); vm_compute; reflexivity. Qed.
Lemma pow_1 : 7 ^ (bls_r - 1) mod bls_r = 1.
Proof.
  replace (bls_r - 1) with ((bls_r - 1) / 2 * 2) by (vm_compute; reflexivity). rewrite Z.pow_mul_r by (vm_compute; discriminate). rewrite Zpower_mod, pow_2 by reflexivity.
  vm_compute. reflexivity.
Qed.

Lemma prime_1607 : prime 1607. Proof. by_trial 39%nat. Qed.
#[local] Hint Resolve prime_1607 : primes.
Lemma prime_q1 : prime q1. Proof. by_cert [(1607, 0%nat, 2)]. Qed.
Lemma prime_2653753 : prime 2653753. Proof. by_trial 1640%nat. Qed.
#[local] Hint Resolve prime_2653753 : primes.
Lemma prime_63690073 : prime 63690073. Proof. by_cert [(2653753, 0%nat, 2)]. Qed.
#[local] Hint Resolve prime_63690073 : primes.
Lemma prime_q2 : prime q2. Proof. by_cert [(63690073, 0%nat, 2)]. Qed.

Lemma prime_bls : prime bls_r.
Proof.
  apply (pocklington _ [(2, 31%nat, 7); (q1, 1%nat, 7); (q2, 1%nat, 7)]).
  - reflexivity.
  - intros c H. destruct H as [<-|[<-|[<-|[]]]]; [exact prime_2|exact prime_q1|exact prime_q2].
  - cbn [forallb].
    assert (E0 : check_entry bls_r (2, 31%nat, 7) = true) by (apply (check_entry_by bls_r 2 31 7 (bls_r - 1) eq_refl eq_refl); [vm_compute; reflexivity|exact pow_1|exact pow_2|vm_compute; reflexivity]).
    assert (E1 : check_entry bls_r (q1, 1%nat, 7) = true) by (apply (check_entry_by bls_r q1 1 7 value_q1 eq_refl eq_refl); [vm_compute; reflexivity|exact pow_1|exact pow_q1|vm_compute; reflexivity]).
    assert (E2 : check_entry bls_r (q2, 1%nat, 7) = true) by (apply (check_entry_by bls_r q2 1 7 value_q2 eq_refl eq_refl); [vm_compute; reflexivity|exact pow_1|exact pow_q2|vm_compute; reflexivity]).
    rewrite E0, E1, E2. reflexivity.
  - vm_compute. reflexivity.
  - vm_compute. reflexivity.
Qed.

Lemma nonresidue_7 : powmod bls_r 7 ((bls_r - 1) / 2) = bls_r - 1.
Proof. rewrite powmod_spec by (vm_compute; (reflexivity || discriminate)). exact pow_2. Qed.
Definition bls_root : Z := 0x16a2a19edfe81f20d09b681922c813b4b63683508c2280b93829971f439f0d2b.
Definition params_bls : ZpParams bls_r.
Proof.
  refine (Build_ZpParams bls_r 255 256 32 bls_root 7 _ _ _ _ _ _ _ nonresidue_7);
    solve [lia | vm_compute; congruence | vm_compute; reflexivity].
Defined.
Definition BlsScalar : PrimeField := ZpField bls_r prime_bls params_bls.
