(** Model of src/multiexp.rs and groth16/src/prover.rs with sources that the user writes: implementors of [SourceBuilder], [Source]
    (src/multiexp.rs:18-31), [QueryDensity] (:88-94) and [ParameterSource] (groth16/src/lib.rs:411-433).  [Multiexp.v] and [Groth16.v] have
    the implementors that the crates provide. *)
From Coq Require Import ZArith List Bool.
From Verif Require Import Prelude PrimeField FModule Circuit Multicore Domain Quotient Multiexp Assembly Groth16.
Import ListNotations.
Local Open Scope nat_scope.

(** src/multiexp.rs:25-31 [Source].  The state after an error is left out: nobody looks at it. *)
Record Source (G : Type) := {
  s_state : Type;
  s_next : s_state -> outcome (res (G * s_state));
  s_skip : s_state -> nat -> outcome (res s_state)
}.
Arguments s_state {G}. Arguments s_next {G}. Arguments s_skip {G}.
(** src/multiexp.rs:18-23 [SourceBuilder].  Every window builds its source from a clone of its own (:238, :293); the clones may behave
    differently, so what is built depends on the window. *)
Record SourceBuilder (G : Type) := { b_source : Source G; b_build : nat -> s_state b_source }.
Arguments b_source {G}. Arguments b_build {G}.
(** src/multiexp.rs:88-94 [QueryDensity]; [q_iter n] is [iter()] as far as a [zip] with [n] exponents looks at it. *)
Record QueryDensity := { q_iter : nat -> list bool; q_size : option nat }.

Section Multiexp.
Context {P : PrimeField} {M : FMod P}.

(** src/multiexp.rs:45-51 [SourceBuilder], :53-86 [Source] for [(Arc<Vec<G>>, usize)]. *)
Definition vec_source (bases : list M) : Source M :=
  {| s_state := nat; s_next := fun pos => Done (src_next bases pos); s_skip := fun pos amt => Done (src_skip bases pos amt) |}.
Definition vec_builder (bases : list M) (start : nat) : SourceBuilder M := {| b_source := vec_source bases; b_build := fun _ => start |}.
(** The two implementors of [QueryDensity]. *)
Definition density_of (d : Density) : QueryDensity := {| q_iter := fun n => density_iter n d; q_size := get_query_size d |}.

(** src/multiexp.rs:241-268; [add_assign_from_source] (:33-43) adds what [next] returns. *)
Fixpoint bucket_loop_of (src : Source M) (chunk : nat) (items : list (ChunkedExponent * bool)) (st : s_state src) (acc : M) (buckets : list M)
  : outcome (res (M * list M)) :=
  match items with
  | [] => Done (Ok (acc, buckets))
  | (_, false) :: t => bucket_loop_of src chunk t st acc buckets
  | (e, true) :: t =>
      let skip := obindr (s_skip src st 1) (fun st => bucket_loop_of src chunk t st acc buckets) in
      match e with
      | CZero => skip
      | COne =>
          if chunk =? 0 then obindr (s_next src st) (fun bs => bucket_loop_of src chunk t (snd bs) (acc +g fst bs) buckets)
          else skip
      | CChunks cs =>
          match nth_error cs chunk with
          | None => Panicked
          | Some exp =>
              if negb (exp =? 0)%Z then
                match nth_error buckets (Z.to_nat (exp - 1)) with
                | None => Panicked
                | Some old => obindr (s_next src st) (fun bs => bucket_loop_of src chunk t (snd bs) acc (upd (Z.to_nat (exp - 1)) (old +g fst bs) buckets))
                end
              else skip
          end
      end
  end.

(** src/multiexp.rs:224-281. *)
Definition window_of (bld : SourceBuilder M) (dens : list bool) (exps : list ChunkedExponent) (c chunk : nat) : outcome (res M) :=
  if 64 <=? c then Panicked else
  obindr (bucket_loop_of (b_source bld) chunk (combine exps dens) (b_build bld chunk) gzero (repeat gzero (2 ^ c - 1))) (fun r =>
  Done (Ok (by_parts (fst r) (snd r)))).

(** src/multiexp.rs:210-301. *)
Definition multiexp_inner_of (bld : SourceBuilder M) (d : QueryDensity) (exps : list Exponent) (c : nat) : outcome (res M) :=
  if c =? 0 then Panicked else
  obind (omap (exp_chunks c) exps) (fun exps =>
  obind (omap (window_of bld (q_iter d (length exps)) exps c) (seq 0 (steps (num_bits P) c))) (fun parts =>
  Done (combine_parts c gzero (rev parts)))).

(** src/multiexp.rs:305-332: the call, and what [wait] returns. *)
Definition multiexp_of (ln_ceil : Z -> nat) (bld : SourceBuilder M) (d : QueryDensity) (exps : list Exponent) : outcome (outcome (res M)) :=
  let c := window_size ln_ceil (length exps) in
  match q_size d with
  | Some n => if n =? length exps then Done (multiexp_inner_of bld d exps c) else Panicked
  | None => Done (multiexp_inner_of bld d exps c)
  end.
End Multiexp.

Section Prover.
Context {P : PrimeField} (E : Engine P).
Notation G1 := (E_G1 E).
Notation G2 := (E_G2 E).

(** groth16/src/lib.rs:411-433 [ParameterSource].  The methods take [&mut self]: the new state also after an error. *)
Record ParameterSource := {
  ps_state : Type;
  get_vk : nat -> ps_state -> outcome (res (VerifyingKey E)) * ps_state;
  get_h : nat -> ps_state -> outcome (res (SourceBuilder G1)) * ps_state;
  get_l : nat -> ps_state -> outcome (res (SourceBuilder G1)) * ps_state;
  get_a : nat -> nat -> ps_state -> outcome (res (SourceBuilder G1 * SourceBuilder G1)) * ps_state;
  get_b_g1 : nat -> nat -> ps_state -> outcome (res (SourceBuilder G1 * SourceBuilder G1)) * ps_state;
  get_b_g2 : nat -> nat -> ps_state -> outcome (res (SourceBuilder G2 * SourceBuilder G2)) * ps_state
}.

(** groth16/src/lib.rs:435-474 [ParameterSource for &Parameters]. *)
Definition from_parameters (params : Parameters E) : ParameterSource :=
  {| ps_state := unit;
     get_vk := fun _ u => (Done (Ok (p_vk params)), u);
     get_h := fun _ u => (Done (Ok (vec_builder (p_h params) 0)), u);
     get_l := fun _ u => (Done (Ok (vec_builder (p_l params) 0)), u);
     get_a := fun num_inputs _ u => (Done (Ok (vec_builder (p_a params) 0, vec_builder (p_a params) num_inputs)), u);
     get_b_g1 := fun num_inputs _ u => (Done (Ok (vec_builder (p_b_g1 params) 0, vec_builder (p_b_g1 params) num_inputs)), u);
     get_b_g2 := fun num_inputs _ u => (Done (Ok (vec_builder (p_b_g2 params) 0, vec_builder (p_b_g2 params) num_inputs)), u) |}.

(** [?] on a call that may change the state of the parameters, on one that does not, and on one that returns no [Result]. *)
Definition ask {S A B} (call : S -> outcome (res A) * S) (k : A -> S -> outcome (res B) * S) (st : S) : outcome (res B) * S :=
  match call st with
  | (Done (Ok a), st) => k a st
  | (Done (Err e), st) => (Done (Err e), st)
  | (Panicked, st) => (Panicked, st)
  end.
Definition pure {S A} (o : outcome (res A)) (st : S) : outcome (res A) * S := (o, st).
Definition sure {S A} (o : outcome A) (st : S) : outcome (res A) * S := (obind o (fun a => Done (Ok a)), st).

(** groth16/src/prover.rs:182-361 [create_proof], with the state in which it leaves the parameters. *)
Definition create_proof_from (ps : ParameterSource) (w : Worker) (ln_ceil : Z -> nat) (circuit : prog P (res unit)) (r s : P)
  : ps_state ps -> outcome (res (Proof_ E)) * ps_state ps :=
  (* :193-216 *)
  ask (pure (synthesize_prover circuit)) (fun prover =>
  (* :220 *)
  ask (get_vk ps (length (input_assignment prover))) (fun vk =>
  (* :222-242 *)
  ask (pure (prover_h w (pa_a prover) (pa_b prover) (pa_c prover))) (fun h_exps =>
  ask (get_h ps (length h_exps)) (fun h_source =>
  ask (sure (multiexp_of ln_ceil h_source (density_of FullDensity) (map exponent_of h_exps))) (fun h =>
  (* :244-257 *)
  let inputs := map exponent_of (input_assignment prover) in
  let aux := map exponent_of (aux_assignment prover) in
  (* :259-264 *)
  ask (get_l ps (length aux)) (fun l_source =>
  ask (sure (multiexp_of ln_ceil l_source (density_of FullDensity) aux)) (fun l =>
  (* :266-282 *)
  ask (get_a ps (length inputs) (dt_get_total_density (a_aux_density prover))) (fun a_sources =>
  ask (sure (multiexp_of ln_ceil (fst a_sources) (density_of FullDensity) inputs)) (fun a_inputs =>
  ask (sure (multiexp_of ln_ceil (snd a_sources) (density_of (Tracked (a_aux_density prover))) aux)) (fun a_aux =>
  (* :284-303 *)
  let b_input_density_total := dt_get_total_density (b_input_density prover) in
  let b_aux_density_total := dt_get_total_density (b_aux_density prover) in
  ask (get_b_g1 ps b_input_density_total b_aux_density_total) (fun b_g1_sources =>
  ask (sure (multiexp_of ln_ceil (fst b_g1_sources) (density_of (Tracked (b_input_density prover))) inputs)) (fun b_g1_inputs =>
  ask (sure (multiexp_of ln_ceil (snd b_g1_sources) (density_of (Tracked (b_aux_density prover))) aux)) (fun b_g1_aux =>
  (* :305-315 *)
  ask (get_b_g2 ps b_input_density_total b_aux_density_total) (fun b_g2_sources =>
  ask (sure (multiexp_of ln_ceil (fst b_g2_sources) (density_of (Tracked (b_input_density prover))) inputs)) (fun b_g2_inputs =>
  ask (sure (multiexp_of ln_ceil (snd b_g2_sources) (density_of (Tracked (b_aux_density prover))) aux)) (fun b_g2_aux =>
  pure (
  (* :317-321 *)
  if (is_identity (delta_g1 vk) || is_identity (delta_g2 vk))%bool then Done (Err UnexpectedIdentity) else
  (* :323-335 *)
  let g_a := (r *g delta_g1 vk) +g alpha_g1 vk in
  let g_b := (s *g delta_g2 vk) +g beta_g2 vk in
  let g_c := (((r * s)%F *g delta_g1 vk) +g (s *g alpha_g1 vk)) +g (r *g beta_g1 vk) in
  (* :336-354 *)
  obindr a_inputs (fun a_answer =>
  obindr a_aux (fun x =>
  let a_answer := a_answer +g x in
  let g_a := g_a +g a_answer in
  let a_answer := s *g a_answer in
  let g_c := g_c +g a_answer in
  obindr b_g1_inputs (fun b1_answer =>
  obindr b_g1_aux (fun x =>
  let b1_answer := b1_answer +g x in
  obindr b_g2_inputs (fun b2_answer =>
  obindr b_g2_aux (fun x =>
  let b2_answer := b2_answer +g x in
  let g_b := g_b +g b2_answer in
  let b1_answer := r *g b1_answer in
  let g_c := g_c +g b1_answer in
  obindr h (fun h =>
  let g_c := g_c +g h in
  obindr l (fun l =>
  let g_c := g_c +g l in
  Done (Ok (mkProof g_a g_b g_c))))))))))))))))))))))))))).
End Prover.
Arguments ps_state {P E}. Arguments get_vk {P E}. Arguments get_h {P E}. Arguments get_l {P E}. Arguments get_a {P E}. Arguments get_b_g1 {P E}. Arguments get_b_g2 {P E}.
Arguments from_parameters {P E}. Arguments create_proof_from {P E}.
