(** What is asked of sources of bases that the user writes (for C75). *)
From Coq Require Import List.
From Verif Require Import Prelude PrimeField FModule Circuit Groth16 Sources.
Import ListNotations.

Section Spec.
Context {G : Type} (src : Source G).
(** From state [st] on, [next] gives the elements of [l] in order, and [skip(1)] leaves one out. *)
Fixpoint supplies (l : list G) (st : s_state src) : Prop :=
  match l with
  | [] => True
  | b :: t => (exists st', s_next src st = Done (Ok (b, st')) /\ supplies t st') /\ (exists st', s_skip src st 1 = Done (Ok st') /\ supplies t st')
  end.
(** The same, and after that both fail with [e]. *)
Fixpoint supplies_only (l : list G) (e : SynthesisError) (st : s_state src) : Prop :=
  match l with
  | [] => s_next src st = Done (Err e) /\ s_skip src st 1 = Done (Err e)
  | b :: t => (exists st', s_next src st = Done (Ok (b, st')) /\ supplies_only t e st') /\ (exists st', s_skip src st 1 = Done (Ok st') /\ supplies_only t e st')
  end.
(** The states that [next] and [skip(1)] lead to. *)
Inductive reach (st0 : s_state src) : s_state src -> Prop :=
| reach_start : reach st0 st0
| reach_next st b st' : reach st0 st -> s_next src st = Done (Ok (b, st')) -> reach st0 st'
| reach_skip st st' : reach st0 st -> s_skip src st 1 = Done (Ok st') -> reach st0 st'.
Definition complains (st0 : s_state src) (e : SynthesisError) : Prop := exists st, reach st0 st /\ (s_next src st = Done (Err e) \/ s_skip src st 1 = Done (Err e)).
Definition never_panics (st0 : s_state src) : Prop := forall st, reach st0 st -> s_next src st <> Panicked /\ s_skip src st 1 <> Panicked.
End Spec.

(** Two builders whose sources cannot be told apart by [next] and [skip(1)]. *)
Definition same_source {G} (src src' : Source G) (R : s_state src -> s_state src' -> Prop) : Prop :=
  forall st st', R st st' ->
    match s_next src st, s_next src' st' with
    | Done (Ok (b, t)), Done (Ok (b', t')) => b = b' /\ R t t'
    | Done (Err e), Done (Err e') => e = e'
    | Panicked, Panicked => True
    | _, _ => False
    end /\
    match s_skip src st 1, s_skip src' st' 1 with
    | Done (Ok t), Done (Ok t') => R t t'
    | Done (Err e), Done (Err e') => e = e'
    | Panicked, Panicked => True
    | _, _ => False
    end.
Definition same_builder {G} (bld bld' : SourceBuilder G) : Prop :=
  exists R, same_source (b_source bld) (b_source bld') R /\ forall j, R (b_build bld j) (b_build bld' j).

Section Parameters.
Context {P : PrimeField} {E : Engine P} (ps : ParameterSource E).

Definition builds {G} (bld : SourceBuilder G) (l : list G) : Prop := forall j, supplies (b_source bld) l (b_build bld j).
(** In the states of [I] the source serves the elements of [params]: of each list as many as it is asked for. *)
Record serves (params : Parameters E) (I : ps_state ps -> Prop) : Prop := {
  serves_vk st n : I st -> exists st', get_vk ps n st = (Done (Ok (p_vk params)), st') /\ I st';
  serves_h st n : I st -> exists b st', get_h ps n st = (Done (Ok b), st') /\ I st' /\ builds b (firstn n (p_h params));
  serves_l st n : I st -> exists b st', get_l ps n st = (Done (Ok b), st') /\ I st' /\ builds b (firstn n (p_l params));
  serves_a st n m : I st -> exists b b' st', get_a ps n m st = (Done (Ok (b, b')), st') /\ I st' /\
    builds b (firstn n (p_a params)) /\ builds b' (firstn m (skipn n (p_a params)));
  serves_b_g1 st n m : I st -> exists b b' st', get_b_g1 ps n m st = (Done (Ok (b, b')), st') /\ I st' /\
    builds b (firstn n (p_b_g1 params)) /\ builds b' (firstn m (skipn n (p_b_g1 params)));
  serves_b_g2 st n m : I st -> exists b b' st', get_b_g2 ps n m st = (Done (Ok (b, b')), st') /\ I st' /\
    builds b (firstn n (p_b_g2 params)) /\ builds b' (firstn m (skipn n (p_b_g2 params)))
}.

(** A source that passes all calls on to [ps] and notes what was asked, and whether the answer was an error or a panic. *)
Inductive Query := AskVk (n : nat) | AskH (n : nat) | AskL (n : nat) | AskA (n m : nat) | AskB1 (n m : nat) | AskB2 (n m : nat).
Definition Note : Type := (Query * outcome (option SynthesisError))%type.
Definition note {A} (q : Query) (call : ps_state ps -> outcome (res A) * ps_state ps) (st : ps_state ps * list Note) : outcome (res A) * (ps_state ps * list Note) :=
  let '(r, st') := call (fst st) in
  (r, (st', snd st ++ [(q, match r with Done (Ok _) => Done None | Done (Err e) => Done (Some e) | Panicked => Panicked end)])).
Definition noting : ParameterSource E :=
  {| ps_state := ps_state ps * list Note;
     get_vk := fun n => note (AskVk n) (get_vk ps n);
     get_h := fun n => note (AskH n) (get_h ps n);
     get_l := fun n => note (AskL n) (get_l ps n);
     get_a := fun n m => note (AskA n m) (get_a ps n m);
     get_b_g1 := fun n m => note (AskB1 n m) (get_b_g1 ps n m);
     get_b_g2 := fun n m => note (AskB2 n m) (get_b_g2 ps n m) |}.

(** The calls of [asks] in order, all answered; or the first of them, then one whose error or panic is the result. *)
Definition fine (q : Query) : Note := (q, Done None).
Definition noted {A} (asks : list Query) (result : outcome (res A)) (log : list Note) : Prop :=
  log = map fine asks \/
  (exists k q e, nth_error asks k = Some q /\ log = map fine (firstn k asks) ++ [(q, Done (Some e))] /\ result = Done (Err e)) \/
  (exists k q, nth_error asks k = Some q /\ log = map fine (firstn k asks) ++ [(q, Panicked)] /\ result = Panicked).

(** Neither the parameters nor what they hand out panics. *)
Definition calm {G} (bld : SourceBuilder G) : Prop := forall j, never_panics (b_source bld) (b_build bld j).
Definition answers {A} (I : ps_state ps -> Prop) (fine : A -> Prop) (call : ps_state ps -> outcome (res A) * ps_state ps) : Prop :=
  forall st, I st -> exists r st', call st = (Done r, st') /\ I st' /\ forall a, r = Ok a -> fine a.
Definition both {G} (bb : SourceBuilder G * SourceBuilder G) : Prop := calm (fst bb) /\ calm (snd bb).
Definition calm_parameters (I : ps_state ps -> Prop) : Prop := forall n m,
  answers I (fun _ => True) (get_vk ps n) /\ answers I calm (get_h ps n) /\ answers I calm (get_l ps n) /\
  answers I both (get_a ps n m) /\ answers I both (get_b_g1 ps n m) /\ answers I both (get_b_g2 ps n m).
End Parameters.
