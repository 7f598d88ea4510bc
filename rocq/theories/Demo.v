(** The circuits and the tests of groth16/src/tests/mod.rs. *)
From Coq Require Import String.
From Coq Require Import ZArith List Bool Lia.
From Verif Require Import Prelude PrimeField Fields FModule Circuit Loops Multicore Domain Assembly AssemblyProof PropAssembly Groth16.
Import ListNotations.
Local Open Scope nat_scope.

Section Circuits.
Context {P : PrimeField}.
Local Open Scope lc_scope.
Local Open Scope prog_scope.
Local Open Scope string_scope.

(** [if x { Ok(Scalar::ONE) } else { Ok(Scalar::ZERO) }]. *)
Definition scalar_of (x : bool) : P := if x then fone else fzero.

(** groth16/src/tests/mod.rs:20-88 [XorDemo::synthesize]. *)
Definition xor_demo (a b : option bool) : prog P (res unit) :=
  let* (a_var, _) := cs_alloc "a" (get (option_map scalar_of a)) in
  cs_enforce "a_boolean_constraint" (lc_zero +v one_var -v a_var) (lc_zero +v a_var) lc_zero ;;;
  let* (b_var, _) := cs_alloc "b" (get (option_map scalar_of b)) in
  cs_enforce "b_boolean_constraint" (lc_zero +v one_var -v b_var) (lc_zero +v b_var) lc_zero ;;;
  let* (c_var, _) := cs_alloc_input "c" (get (match a, b with Some a, Some b => Some (scalar_of (xorb a b)) | _, _ => None end)) in
  cs_enforce "c_xor_constraint" (lc_zero +v a_var +v a_var) (lc_zero +v b_var) (lc_zero +v a_var +v b_var -v c_var) ;;;
  Ret (Ok tt).

(** groth16/src/tests/mod.rs:384-406 [MultWithZeroCoeffs::synthesize].  The three values are always given; had one been left out, its
    closure would panic in the prover. *)
Definition mult_zero (a b c : P) (is_one_var : bool) : prog P (res unit) :=
  let* (a_var, _) := cs_alloc "a" (Ok a) in
  let* (b_var, _) := cs_alloc "b" (Ok b) in
  let* (c_var, _) := cs_alloc "c" (Ok c) in
  (if is_one_var
   then cs_enforce "cs" (lc_zero +v a_var) (lc_zero +t (fzero, one_var) +v b_var) (lc_zero +v c_var)
   else cs_enforce "cs" (lc_zero +v a_var) (lc_zero +t (fzero, a_var) +v b_var) (lc_zero +v c_var)) ;;;
  Ret (Ok tt).
End Circuits.

(** ** The tests *)

(** Every assertion of a test, and [true] in the end if none of them fails. *)
Definition passes (asserts : list bool) : bool := forallb (fun b => b) asserts.
Notation Fr := Fr64513.
Local Notation "x == y" := (feqb (x : Fr) (y : Fr)) (at level 70).
(** [assert_eq] on the elements of two vectors, taken together by [zip]. *)
Definition zip_eq (xs ys : list Fr) : bool := forallb (fun xy => feqb (fst xy) (snd xy)) (combine xs ys).

(** The constants that both tests use, lines 93-99, 274-275, 416-422 and 425-426. *)
Definition t_alpha : Fr := ofZ 48577. Definition t_beta : Fr := ofZ 22580. Definition t_gamma : Fr := ofZ 53332.
Definition t_delta : Fr := ofZ 5481. Definition t_tau : Fr := ofZ 3673. Definition t_r : Fr := ofZ 27134. Definition t_s : Fr := ofZ 17146.
Notation TestEngine := (DummyEngine Fr).

(** groth16/src/tests/mod.rs:91-373 [test_xordemo]; [unwrap] on an error is a failure. *)
Definition test_xordemo (w : Worker) (ln_ceil : Z -> nat) : bool :=
  match generate_parameters (E := TestEngine) w (xor_demo None None) fone fone t_alpha t_beta t_gamma t_delta t_tau with
  | Done (Ok params) =>
      let h : list Fr := p_h params in let l : list Fr := p_l params in let ic_ : list Fr := ic (p_vk params) in
      let a : list Fr := p_a params in let b1 : list Fr := p_b_g1 params in let b2 : list Fr := p_b_g2 params in
      let root := fpow (root_of_unity Fr) (2 ^ 7) in
      let points := map (fun i => fpow root i) (seq 0 8) in
      let t_at_tau := (fpow t_tau 8 - fone)%F in
      let delta_inverse := finv t_delta in let gamma_inverse := finv t_gamma in
      let u_i := map (ofZ (p := Fr)) [59158; 48317; 21767; 10402]%Z in
      let v_i := map (ofZ (p := Fr)) [0; 0; 60619; 30791]%Z in
      let w_i := map (ofZ (p := Fr)) [0; 23320; 41193; 41193]%Z in
      let at_ (l : list Fr) i : Fr := nth i l fzero in
      let v_nonzero := filter (fun e => negb (feqb e fzero)) v_i in
      let pvk := prepare_verifying_key (p_vk params) in
      match create_proof (E := TestEngine) w ln_ceil (xor_demo (Some true) (Some false)) params t_r t_s with
      | Done (Ok proof) =>
          let pa : Fr := proof_a proof in let pb : Fr := proof_b proof in let pc : Fr := proof_c proof in
          let h_coeffs := map (ofZ (p := Fr)) [5040; 11763; 10755; 63633; 128; 9747; 8739]%Z in
          passes
            [ Nat.eqb 7 (List.length h);
              fone == fpow (root_of_unity Fr) (2 ^ 10);
              fone == fpow root (2 ^ 3);
              ofZ 20201 == root;
              fold_left (fun tmp p => (tmp * (t_tau - p))%F) points fone == t_at_tau;
              zip_eq h (map (fun i => (fpow t_tau i * (delta_inverse * t_at_tau))%F) (seq 0 (List.length h)));
              Nat.eqb 2 (List.length ic_); Nat.eqb 2 (List.length l); Nat.eqb 4 (List.length a);
              Nat.eqb 2 (List.length b1); Nat.eqb 2 (List.length b2);
              zip_eq u_i a; zip_eq v_nonzero b1; zip_eq v_nonzero b2;
              forallb (fun i =>
                let tmp1 := (t_beta * at_ u_i i + t_alpha * at_ v_i i + at_ w_i i)%F in
                if Nat.ltb i 2 then (tmp1 * gamma_inverse)%F == at_ ic_ i else (tmp1 * delta_inverse)%F == at_ l (i - 2)) (seq 0 4);
              t_alpha == alpha_g1 (p_vk params); t_beta == beta_g1 (p_vk params); t_beta == beta_g2 (p_vk params);
              t_gamma == gamma_g2 (p_vk params); t_delta == delta_g1 (p_vk params); t_delta == delta_g2 (p_vk params);
              pa == (t_delta * t_r + t_alpha + at_ u_i 0%nat + at_ u_i 1%nat + at_ u_i 2%nat)%F;
              pb == (t_delta * t_s + t_beta + at_ v_i 0%nat + at_ v_i 1%nat + at_ v_i 2%nat)%F;
              fold_left (fun acc i => (acc + at_ h i * at_ h_coeffs i)%F) (seq 0 7)
                (pa * t_s + pb * t_r - t_delta * t_r * t_s + at_ l 0%nat)%F == pc;
              match verify_proof pvk proof [fone] with Done (Ok _) => true | _ => false end ]
      | _ => false
      end
  | _ => false
  end.

(** groth16/src/tests/mod.rs:409-430 [zero_coeff_test]. *)
Definition zero_coeff_test (w : Worker) (ln_ceil : Z -> nat) (is_one_var : bool) : bool :=
  let m := mult_zero (ofZ 5) (ofZ 6) (ofZ 30) is_one_var in
  match generate_parameters (E := TestEngine) w m fone fone t_alpha t_beta t_gamma t_delta t_tau with
  | Done (Ok pk) =>
      match create_proof (E := TestEngine) w ln_ceil m pk t_r t_s with
      | Done (Ok pf) => match verify_proof (prepare_verifying_key (p_vk pk)) pf [] with Done (Ok _) => true | _ => false end
      | _ => false
      end
  | _ => false
  end.
