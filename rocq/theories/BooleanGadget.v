(** Model of src/gadgets/boolean.rs. *)
From Coq Require Import String.
From Coq Require Import ZArith List Bool Lia Field.
From Verif Require Import Prelude PrimeField Circuit Loops.
Import ListNotations.

(** boolean.rs:11-15 *)
Record AllocatedBit := { ab_var : Var; ab_value : option bool }.

(** boolean.rs:361-368 *)
Inductive Boolean :=
| BIs (a : AllocatedBit)
| BNot (a : AllocatedBit)
| BConst (b : bool).

(** boolean.rs:371-373 *)
Definition is_constant (b : Boolean) : bool := match b with BConst _ => true | _ => false end.

(** boolean.rs:421-427 *)
Definition b_value (b : Boolean) : option bool :=
  match b with
  | BConst c => Some c
  | BIs v => ab_value v
  | BNot v => option_map negb (ab_value v)
  end.

(** boolean.rs:455-461 *)
Definition b_not (b : Boolean) : Boolean :=
  match b with
  | BConst c => BConst (negb c)
  | BIs v => BNot v
  | BNot v => BIs v
  end.

(** [value.get()?] twice, in order, then [op]. *)
Definition bit2 (op : bool -> bool -> bool) (a b : AllocatedBit) : res bool :=
  rbind (get (ab_value a)) (fun x => rmap (op x) (get (ab_value b))).

Section Model.
Context {P : PrimeField}.
Local Open Scope F_scope.
Local Open Scope lc_scope.
Local Open Scope prog_scope.
Local Open Scope string_scope.

(** boolean.rs:429-447 *)
Definition b_lc (b : Boolean) (one : Var) (coeff : P) : LC P :=
  match b with
  | BConst c => if c then lc_zero +t (coeff, one) else lc_zero
  | BIs v => lc_zero +t (coeff, ab_var v)
  | BNot v => lc_zero +t (coeff, one) -t (coeff, ab_var v)
  end.

(** boolean.rs:29-66 [AllocatedBit::alloc_conditionally] *)
Definition ab_alloc_conditionally (value : option bool) (must_be_false : AllocatedBit)
  : prog P (res AllocatedBit) :=
  let* (var, _) := cs_alloc "boolean" (rmap fbit (get value)) in
  cs_enforce "boolean constraint"
    (lc_zero +v one_var -v ab_var must_be_false -v var) (lc_zero +v var) lc_zero ;;;
  Ret (Ok {| ab_var := var; ab_value := value |}).

(** boolean.rs:70-99 [AllocatedBit::alloc] *)
Definition ab_alloc (value : option bool) : prog P (res AllocatedBit) :=
  let* (var, _) := cs_alloc "boolean" (rmap fbit (get value)) in
  cs_enforce "boolean constraint" (lc_zero +v one_var -v var) (lc_zero +v var) lc_zero ;;;
  Ret (Ok {| ab_var := var; ab_value := value |}).

(** boolean.rs:103-151 [AllocatedBit::xor] *)
Definition ab_xor (a b : AllocatedBit) : prog P (res AllocatedBit) :=
  let f := bit2 xorb a b in
  let* (var, inv) := cs_alloc "xor result" (rmap fbit f) in
  cs_enforce "xor constraint"
    (lc_zero +v ab_var a +v ab_var a) (lc_zero +v ab_var b) (lc_zero +v ab_var a +v ab_var b -v var) ;;;
  Ret (Ok {| ab_var := var; ab_value := recorded inv f |}).

(** boolean.rs:155-190 [AllocatedBit::and] *)
Definition ab_and (a b : AllocatedBit) : prog P (res AllocatedBit) :=
  let f := bit2 andb a b in
  let* (var, inv) := cs_alloc "and result" (rmap fbit f) in
  cs_enforce "and constraint"
    (lc_zero +v ab_var a) (lc_zero +v ab_var b) (lc_zero +v var) ;;;
  Ret (Ok {| ab_var := var; ab_value := recorded inv f |}).

(** boolean.rs:193-228 [AllocatedBit::and_not] *)
Definition ab_and_not (a b : AllocatedBit) : prog P (res AllocatedBit) :=
  let f := bit2 (fun x y => andb x (negb y)) a b in
  let* (var, inv) := cs_alloc "and not result" (rmap fbit f) in
  cs_enforce "and not constraint"
    (lc_zero +v ab_var a) (lc_zero +v one_var -v ab_var b) (lc_zero +v var) ;;;
  Ret (Ok {| ab_var := var; ab_value := recorded inv f |}).

(** boolean.rs:231-266 [AllocatedBit::nor] *)
Definition ab_nor (a b : AllocatedBit) : prog P (res AllocatedBit) :=
  let f := bit2 (fun x y => andb (negb x) (negb y)) a b in
  let* (var, inv) := cs_alloc "nor result" (rmap fbit f) in
  cs_enforce "nor constraint"
    (lc_zero +v one_var -v ab_var a) (lc_zero +v one_var -v ab_var b) (lc_zero +v var) ;;;
  Ret (Ok {| ab_var := var; ab_value := recorded inv f |}).

(** boolean.rs:375-419 [Boolean::enforce_equal] *)
Definition b_enforce_equal (a b : Boolean) : prog P (res unit) :=
  match a, b with
  | BConst x, BConst y => if eqb x y then Ret (Ok tt) else Ret (Err Unsatisfiable)
  | BConst true, o | o, BConst true =>
      cs_enforce "enforce equal to one" lc_zero lc_zero
        (lc_zero +v one_var -l b_lc o one_var 1) ;;; Ret (Ok tt)
  | BConst false, o | o, BConst false =>
      cs_enforce "enforce equal to zero" lc_zero lc_zero (b_lc o one_var 1) ;;; Ret (Ok tt)
  | a, b =>
      cs_enforce "enforce equal" lc_zero lc_zero (b_lc a one_var 1 -l b_lc b one_var 1) ;;; Ret (Ok tt)
  end.

(** boolean.rs:464-483 [Boolean::xor]; the recursive call for mixed polarities always reaches
    the [Is]/[Is] arm, so it is unfolded once. *)
Definition b_xor_is (a b : AllocatedBit) : prog P (res Boolean) :=
  let* r := ab_xor a b in Ret (Ok (BIs r)).

Definition b_xor (a b : Boolean) : prog P (res Boolean) :=
  match a, b with
  | BConst false, x => Ret (Ok x)
  | x, BConst false => Ret (Ok x)
  | BConst true, x => Ret (Ok (b_not x))
  | x, BConst true => Ret (Ok (b_not x))
  | BIs is, BNot not => let* r := b_xor_is is not in Ret (Ok (b_not r))
  | BNot not, BIs is => let* r := b_xor_is is not in Ret (Ok (b_not r))
  | BIs a, BIs b => b_xor_is a b
  | BNot a, BNot b => b_xor_is a b
  end.

(** boolean.rs:486-512 [Boolean::and] *)
Definition b_and (a b : Boolean) : prog P (res Boolean) :=
  match a, b with
  | BConst false, _ => Ret (Ok (BConst false))
  | _, BConst false => Ret (Ok (BConst false))
  | BConst true, x => Ret (Ok x)
  | x, BConst true => Ret (Ok x)
  | BIs is, BNot not => let* r := ab_and_not is not in Ret (Ok (BIs r))
  | BNot not, BIs is => let* r := ab_and_not is not in Ret (Ok (BIs r))
  | BNot a, BNot b => let* r := ab_nor a b in Ret (Ok (BIs r))
  | BIs a, BIs b => let* r := ab_and a b in Ret (Ok (BIs r))
  end.

Definition ch_bit (a b c : bool) : bool := xorb (andb a b) (andb (negb a) c).
Definition maj_bit (a b c : bool) : bool := xorb (xorb (andb a b) (andb a c)) (andb b c).

(** [match (a.get_value(), b.get_value(), c.get_value()) { (Some(a), Some(b), Some(c)) => Some(f), _ => None }] *)
Definition tri_value (f : bool -> bool -> bool -> bool) (a b c : Boolean) : option bool :=
  match b_value a, b_value b, b_value c with
  | Some x, Some y, Some z => Some (f x y z)
  | _, _, _ => None
  end.

(** boolean.rs:596-618, the general case of [sha256_ch] *)
Definition ch_general (a b c : Boolean) : prog P (res Boolean) :=
  let ch_value := tri_value ch_bit a b c in
  let* (ch, _) := cs_alloc "ch" (rmap fbit (get ch_value)) in
  cs_enforce "ch computation"
    (b_lc b one_var 1 -l b_lc c one_var 1) (b_lc a one_var 1) (lc_zero +v ch -l b_lc c one_var 1) ;;;
  Ret (Ok (BIs {| ab_var := ch; ab_value := ch_value |})).

(** boolean.rs:515-619 [Boolean::sha256_ch] *)
Definition b_ch (a b c : Boolean) : prog P (res Boolean) :=
  match a, b, c with
  | BConst _, BConst _, BConst _ =>
      match tri_value ch_bit a b c with Some v => Ret (Ok (BConst v)) | None => Panic end
  | BConst false, _, c => Ret (Ok c)
  | a, BConst false, c => b_and (b_not a) c
  | a, b, BConst false => b_and a b
  | a, b, BConst true => let* r := b_and a (b_not b) in Ret (Ok (b_not r))
  | a, BConst true, c => let* r := b_and (b_not a) (b_not c) in Ret (Ok (b_not r))
  | BConst true, _, _ => ch_general a b c
  | _, _, _ => ch_general a b c
  end.

(** boolean.rs:693-735, the general case of [sha256_maj] *)
Definition maj_general (a b c : Boolean) : prog P (res Boolean) :=
  let maj_value := tri_value maj_bit a b c in
  let* (maj, _) := cs_alloc "maj" (rmap fbit (get maj_value)) in
  let* bc := ns "b and c" (b_and b c) in
  cs_enforce "maj computation"
    (b_lc bc one_var 1 +l b_lc bc one_var 1 -l b_lc b one_var 1 -l b_lc c one_var 1)
    (b_lc a one_var 1)
    (b_lc bc one_var 1 -v maj) ;;;
  Ret (Ok (BIs {| ab_var := maj; ab_value := maj_value |})).

(** boolean.rs:622-736 [Boolean::sha256_maj] *)
Definition b_maj (a b c : Boolean) : prog P (res Boolean) :=
  match a, b, c with
  | BConst _, BConst _, BConst _ =>
      match tri_value maj_bit a b c with Some v => Ret (Ok (BConst v)) | None => Panic end
  | BConst false, b, c => b_and b c
  | a, BConst false, c => b_and a c
  | a, b, BConst false => b_and a b
  | a, b, BConst true => let* r := b_and (b_not a) (b_not b) in Ret (Ok (b_not r))
  | a, BConst true, c => let* r := b_and (b_not a) (b_not c) in Ret (Ok (b_not r))
  | BConst true, b, c => let* r := b_and (b_not b) (b_not c) in Ret (Ok (b_not r))
  | _, _, _ => maj_general a b c
  end.

(** [AllocatedBit::alloc(cs.namespace(|| format!("bit {}", i)), b)] *)
Definition alloc_bit_at (i : nat) (b : option bool) : prog P (res AllocatedBit) :=
  ns ("bit " ++ nat_str i) (ab_alloc b).

(** boolean.rs:269-298 [u64_into_boolean_vec_le] *)
Definition u64_into_boolean_vec_le (value : option Z) : prog P (res (list Boolean)) :=
  let values :=
    match value with
    | Some v => map (fun i => Some (Z.eqb (Z.land (Z.shiftr v (Z.of_nat i)) 1) 1)) (seq 0 64)
    | None => repeat None 64
    end in
  mapq (fun i b => let* a := alloc_bit_at i b in Ret (Ok (BIs a))) 0 values.

(** The loop of boolean.rs:325-341: [chr] and [vals] are big-endian; bits are kept from the first
    set bit of [chr] on.  [field_char.next().unwrap()] panics if [chr] is exhausted. *)
Fixpoint strip_leading (found_one : bool) (chr vals : list bool) : outcome (list bool) :=
  match vals with
  | [] => Done []
  | b :: t =>
      match chr with
      | [] => Panicked
      | c :: ct =>
          let found := orb found_one c in
          obind (strip_leading found ct t) (fun tmp => Done (if found then b :: tmp else tmp))
      end
  end.

(** boolean.rs:313-356 [field_into_allocated_bits_le]; [Q] is the second field [F]. *)
Definition field_into_allocated_bits_le (Q : PrimeField) (value : option Q)
  : prog P (res (list AllocatedBit)) :=
  match value with
  | Some v =>
      match strip_leading false (rev (char_le_bits Q)) (rev (to_le_bits v)) with
      | Done tmp =>
          if Nat.eqb (length tmp) (num_bits Q)
          then mapq alloc_bit_at 0 (rev (map Some tmp))
          else Panic
      | Panicked => Panic
      end
  | None => mapq alloc_bit_at 0 (rev (repeat None (num_bits Q)))
  end.

(** boolean.rs:300-311 *)
Definition field_into_boolean_vec_le (Q : PrimeField) (value : option Q) : prog P (res (list Boolean)) :=
  let* v := field_into_allocated_bits_le Q value in Ret (Ok (map BIs v)).

End Model.

(** * Semantics *)
Section Proofs.
Context {P : PrimeField}.
Local Open Scope F_scope.
Add Field PFfield_bool : (F_field P).

(** Under [rho], the variable is the bit [b]. *)
Definition var_bit (rho : Var -> P) (v : Var) (b : bool) : Prop := rho v = fbit b.

(** Under [rho], the Boolean has value [b]. *)
Definition bit_is (rho : Var -> P) (x : Boolean) (b : bool) : Prop :=
  match x with
  | BConst c => b = c
  | BIs v => var_bit rho (ab_var v) b
  | BNot v => var_bit rho (ab_var v) (negb b)
  end.

(** [bit_is], and the gadget's own idea of the value is that value. *)
Definition bit_hon (rho : Var -> P) (x : Boolean) (b : bool) : Prop :=
  bit_is rho x b /\ b_value x = Some b.

Definition abit_hon (rho : Var -> P) (x : AllocatedBit) (b : bool) : Prop :=
  var_bit rho (ab_var x) b /\ ab_value x = Some b.

(** Same variables and constants, whatever the known values. *)
Definition absim (a b : AllocatedBit) : Prop := ab_var a = ab_var b.
Definition bsim (a b : Boolean) : Prop :=
  match a, b with
  | BConst x, BConst y => x = y
  | BIs x, BIs y => ab_var x = ab_var y
  | BNot x, BNot y => ab_var x = ab_var y
  | _, _ => False
  end.

Lemma bit_is_fun rho x b c : bit_is rho x b -> bit_is rho x c -> b = c.
Proof.
  destruct x; cbn; unfold var_bit; intros H1 H2; try congruence.
  - apply (fbit_inj (P := P)). congruence.
  - assert (negb b = negb c) by (apply (fbit_inj (P := P)); congruence). destruct b, c; cbn in *; congruence.
Qed.

Lemma bit_is_not rho x b : bit_is rho x b -> bit_is rho (b_not x) (negb b).
Proof. destruct x; cbn; unfold var_bit; rewrite ?negb_involutive; auto. congruence. Qed.

Lemma bit_hon_not rho x b : bit_hon rho x b -> bit_hon rho (b_not x) (negb b).
Proof.
  intros [H1 H2]. split; [now apply bit_is_not|].
  destruct x as [v|v|c]; cbn in *.
  - now rewrite H2.
  - destruct (ab_value v) as [[]|]; cbn in *; try discriminate; inversion H2; reflexivity.
  - congruence.
Qed.

Lemma bsim_not a b : bsim a b -> bsim (b_not a) (b_not b).
Proof. destruct a, b; cbn; auto; congruence. Qed.

Lemma bsim_refl a : bsim a a.
Proof. destruct a; cbn; auto. Qed.

Lemma bsim_lc a b o (c : P) : bsim a b -> b_lc a o c = b_lc b o c.
Proof. destruct a, b; cbn; intros H; try tauto; rewrite ?H; reflexivity. Qed.

Lemma fbit_cases (b : bool) : (fbit b : P) = 1 /\ b = true \/ (fbit b : P) = 0 /\ b = false.
Proof. destruct b; cbn; auto. Qed.

Section Rho.
Variable rho : Var -> P.
Hypothesis Hone : rho one_var = 1.

Lemma eval_b_lc x b c : bit_is rho x b -> eval rho (b_lc x one_var c) = c * fbit b.
Proof.
  destruct x as [v|v|[]]; cbn [b_lc bit_is]; unfold var_bit; intros H;
    lcev; rewrite ?Hone, ?H; subst; try (destruct b); cbn [negb fbit]; ring.
Qed.

Ltac ev := lcev; rewrite ?Hone in *.

(** x*(1-x) = 0 *)
Lemma isbit_of x : (1 - x) * x = 0 -> exists b, x = (fbit b : P).
Proof.
  intros H. apply fmul_0 in H as [H|H].
  - exists true. cbn. symmetry. now apply fsub_0_eq.
  - exists false. exact H.
Qed.

(** ** Soundness of the gates *)
Section Sound.
Variable G : Prop.

Ltac gate := apply wpS_alloc_q;
  let var := fresh "var" in let inv := fresh "inv" in
  intros var inv; apply wpS_enforce; ev.

Lemma ab_alloc_sound v :
  wpS rho G (ab_alloc v) (okP (fun a => exists b, var_bit rho (ab_var a) b)).
Proof.
  unfold ab_alloc. gate. intros H. cbn. apply isbit_of. rewrite <- H. ring.
Qed.

Lemma ab_alloc_conditionally_sound v m mb : var_bit rho (ab_var m) mb ->
  wpS rho G (ab_alloc_conditionally v m)
    (okP (fun a => exists b, var_bit rho (ab_var a) b /\ (mb = true -> b = false))).
Proof.
  unfold ab_alloc_conditionally, var_bit. intros Hm. gate. rewrite Hm. intros H. cbn.
  destruct mb; cbn in H.
  - exists false. split; auto.
    assert (H0 : rho var * rho var = 0) by (transitivity (- (0 : P)); [rewrite <- H|]; ring).
    apply fmul_0 in H0 as [|]; assumption.
  - destruct (isbit_of (rho var)) as [x Hx]; [rewrite <- H; ring|]. exists x. split; auto. discriminate.
Qed.

Lemma ab_xor_sound a b x y : var_bit rho (ab_var a) x -> var_bit rho (ab_var b) y ->
  wpS rho G (ab_xor a b) (okP (fun r => var_bit rho (ab_var r) (xorb x y))).
Proof.
  unfold ab_xor, var_bit. intros Hx Hy. gate. rewrite Hx, Hy. intros H. cbn.
  transitivity (fbit x + fbit y - (0 + fbit x + fbit y - rho var)); [ring|]. rewrite <- H.
  destruct x, y; cbn; ring.
Qed.

Lemma ab_and_sound a b x y : var_bit rho (ab_var a) x -> var_bit rho (ab_var b) y ->
  wpS rho G (ab_and a b) (okP (fun r => var_bit rho (ab_var r) (andb x y))).
Proof.
  unfold ab_and, var_bit. intros Hx Hy. gate. rewrite Hx, Hy. intros H. cbn.
  transitivity (0 + rho var); [ring|]. rewrite <- H. destruct x, y; cbn; ring.
Qed.

Lemma ab_and_not_sound a b x y : var_bit rho (ab_var a) x -> var_bit rho (ab_var b) y ->
  wpS rho G (ab_and_not a b) (okP (fun r => var_bit rho (ab_var r) (andb x (negb y)))).
Proof.
  unfold ab_and_not, var_bit. intros Hx Hy. gate. rewrite Hx, Hy. intros H. cbn.
  transitivity (0 + rho var); [ring|]. rewrite <- H. destruct x, y; cbn; ring.
Qed.

Lemma ab_nor_sound a b x y : var_bit rho (ab_var a) x -> var_bit rho (ab_var b) y ->
  wpS rho G (ab_nor a b) (okP (fun r => var_bit rho (ab_var r) (andb (negb x) (negb y)))).
Proof.
  unfold ab_nor, var_bit. intros Hx Hy. gate. rewrite Hx, Hy. intros H. cbn.
  transitivity (0 + rho var); [ring|]. rewrite <- H. destruct x, y; cbn; ring.
Qed.

Lemma b_enforce_equal_sound a b x y : bit_is rho a x -> bit_is rho b y ->
  wpS rho G (b_enforce_equal a b) (okP (fun _ => x = y)).
Proof.
  intros Ha Hb.
  assert (K : forall l, eval rho lc_zero * eval rho lc_zero = eval rho l -> eval rho l = 0).
  { intros l Hl. rewrite <- Hl, eval_zero. ring. }
  assert (K1 : forall o z, bit_is rho o z ->
     eval rho lc_zero * eval rho lc_zero = eval rho (lc_sub_lc (lc_add_var lc_zero one_var) (b_lc o one_var 1)) -> z = true).
  { intros o z Ho He. apply K in He. revert He. ev. rewrite (eval_b_lc o z 1 Ho). intros He. destruct z; auto.
    exfalso. apply (f_1_neq_0 (P := P)). rewrite <- He. cbn. ring. }
  assert (K0 : forall o z, bit_is rho o z ->
     eval rho lc_zero * eval rho lc_zero = eval rho (b_lc o one_var 1) -> z = false).
  { intros o z Ho He. apply K in He. rewrite (eval_b_lc o z 1 Ho) in He. destruct z; auto.
    exfalso. apply (f_1_neq_0 (P := P)). rewrite <- He. cbn. ring. }
  assert (K2 : forall o o' z z', bit_is rho o z -> bit_is rho o' z' ->
     eval rho lc_zero * eval rho lc_zero = eval rho (lc_sub_lc (b_lc o one_var 1) (b_lc o' one_var 1)) -> z = z').
  { intros o o' z z' Ho Ho' He. apply K in He. revert He. ev. rewrite (eval_b_lc o z 1 Ho), (eval_b_lc o' z' 1 Ho'). intros He.
    apply (fbit_inj (P := P)). apply fsub_0_eq. rewrite <- He. ring. }
  destruct a as [a|a|[]], b as [b|b|[]]; unfold b_enforce_equal; cbn [eqb];
    try (cbn in Ha, Hb |- *; congruence); try exact I;
    apply wpS_enforce; intros He; cbn [wpS okP];
    try (eapply K2; eauto; fail);
    try (cbn in Hb; subst y; eapply K1; [exact Ha|assumption]);
    try (cbn in Hb; subst y; eapply K0; [exact Ha|assumption]);
    try (cbn in Ha; subst x; symmetry; eapply K1; [exact Hb|assumption]);
    try (cbn in Ha; subst x; symmetry; eapply K0; [exact Hb|assumption]).
Qed.

Lemma wpS_map_is p f : wpS rho G p (okP (fun r => var_bit rho (ab_var r) f)) ->
  wpS rho G (bindq p (fun r => Ret (Ok (BIs r)))) (okP (fun r => bit_is rho r f)).
Proof.
  intros H. apply wpS_bindq. eapply wpS_mono; [|exact H]. intros [r|e]; cbn; auto.
Qed.

Lemma wpS_map_not p f : wpS rho G p (okP (fun r => bit_is rho r f)) ->
  wpS rho G (bindq p (fun r => Ret (Ok (b_not r)))) (okP (fun r => bit_is rho r (negb f))).
Proof.
  intros H. apply wpS_bindq. eapply wpS_mono; [|exact H]. intros [r|e]; cbn; auto. apply bit_is_not.
Qed.

Lemma wpS_eqv {A} (Q1 : bool -> A -> Prop) p f g : f = g ->
  wpS rho G p (okP (Q1 f)) -> wpS rho G p (okP (E := SynthesisError) (Q1 g)).
Proof. intros ->; auto. Qed.

Lemma b_xor_sound a b x y : bit_is rho a x -> bit_is rho b y ->
  wpS rho G (b_xor a b) (okP (fun r => bit_is rho r (xorb x y))).
Proof.
  intros Ha Hb.
  destruct a as [a|a|[]], b as [b|b|[]];
    try (cbn in Ha, Hb |- *; subst; unfold var_bit in *; allbools; cbn in *; auto; fail);
    unfold b_xor, b_xor_is.
  - apply wpS_map_is, ab_xor_sound; assumption.
  - eapply (wpS_eqv (fun b r => bit_is rho r b) _ (negb (xorb x (negb y)))); [destruct x, y; reflexivity|].
    apply wpS_map_not, wpS_map_is, ab_xor_sound; assumption.
  - eapply (wpS_eqv (fun b r => bit_is rho r b) _ (negb (xorb y (negb x)))); [destruct x, y; reflexivity|].
    apply wpS_map_not, wpS_map_is, ab_xor_sound; assumption.
  - eapply (wpS_eqv (fun b r => bit_is rho r b) _ (xorb (negb x) (negb y))); [destruct x, y; reflexivity|].
    apply wpS_map_is, ab_xor_sound; assumption.
Qed.

Lemma b_and_sound a b x y : bit_is rho a x -> bit_is rho b y ->
  wpS rho G (b_and a b) (okP (fun r => bit_is rho r (andb x y))).
Proof.
  intros Ha Hb.
  destruct a as [a|a|[]], b as [b|b|[]];
    try (cbn in Ha, Hb |- *; subst; unfold var_bit in *; allbools; cbn in *; auto; fail);
    unfold b_and.
  - apply wpS_map_is, ab_and_sound; assumption.
  - eapply (wpS_eqv (fun b r => bit_is rho r b) _ (andb x (negb (negb y)))); [destruct x, y; reflexivity|].
    apply wpS_map_is, ab_and_not_sound; assumption.
  - eapply (wpS_eqv (fun b r => bit_is rho r b) _ (andb y (negb (negb x)))); [destruct x, y; reflexivity|].
    apply wpS_map_is, ab_and_not_sound; assumption.
  - eapply (wpS_eqv (fun b r => bit_is rho r b) _ (andb (negb (negb x)) (negb (negb y)))); [destruct x, y; reflexivity|].
    apply wpS_map_is, ab_nor_sound; assumption.
Qed.

Lemma ch_general_sound a b c x y z : bit_is rho a x -> bit_is rho b y -> bit_is rho c z ->
  wpS rho G (ch_general a b c) (okP (fun r => bit_is rho r (ch_bit x y z))).
Proof.
  intros Ha Hb Hc. unfold ch_general. gate. rename var into v. rewrite (eval_b_lc _ _ 1 Ha), (eval_b_lc _ _ 1 Hb), (eval_b_lc _ _ 1 Hc). intros H. cbn.
  unfold var_bit. transitivity (0 + rho v - 1 * fbit z + fbit z); [ring|].
  rewrite <- H. destruct x, y, z; cbn; ring.
Qed.

Lemma b_ch_sound a b c x y z : bit_is rho a x -> bit_is rho b y -> bit_is rho c z ->
  wpS rho G (b_ch a b c) (okP (fun r => bit_is rho r (ch_bit x y z))).
Proof.
  intros Ha Hb Hc.
  assert (A1 : wpS rho G (b_and (b_not a) c) (okP (fun r => bit_is rho r (andb (negb x) z))))
    by (apply b_and_sound; auto using bit_is_not).
  assert (A2 : wpS rho G (b_and a b) (okP (fun r => bit_is rho r (andb x y))))
    by (apply b_and_sound; auto using bit_is_not).
  assert (A3 : wpS rho G (bindq (b_and a (b_not b)) (fun r => Ret (Ok (b_not r))))
    (okP (fun r => bit_is rho r (negb (andb x (negb y))))))
    by (apply wpS_map_not, b_and_sound; auto using bit_is_not).
  assert (A4 : wpS rho G (bindq (b_and (b_not a) (b_not c)) (fun r => Ret (Ok (b_not r))))
    (okP (fun r => bit_is rho r (negb (andb (negb x) (negb z))))))
    by (apply wpS_map_not, b_and_sound; auto using bit_is_not).
  pose proof (ch_general_sound a b c x y z Ha Hb Hc) as A5.
  destruct a as [a|a|[]], b as [b|b|[]], c as [c|c|[]]; unfold b_ch;
    try exact A5;
    cbn in Ha, Hb, Hc; subst; 
    try (cbn; unfold ch_bit; cbn; rewrite ?xorb_false_l; (assumption || reflexivity));
    unfold ch_bit;
    first
    [ eapply (wpS_eqv (fun b r => bit_is rho r b)); [|exact A1]
    | eapply (wpS_eqv (fun b r => bit_is rho r b)); [|exact A2]
    | eapply (wpS_eqv (fun b r => bit_is rho r b)); [|exact A3]
    | eapply (wpS_eqv (fun b r => bit_is rho r b)); [|exact A4] ];
    allbools; reflexivity.
Qed.

Lemma maj_general_sound a b c x y z : bit_is rho a x -> bit_is rho b y -> bit_is rho c z ->
  wpS rho G (maj_general a b c) (okP (fun r => bit_is rho r (maj_bit x y z))).
Proof.
  intros Ha Hb Hc. unfold maj_general.
  apply wpS_alloc_q. intros v i.
  eapply wpS_bindq'; [apply wpS_ns, (b_and_sound b c y z Hb Hc)|]. cbv beta. intros bc Hbc.
  apply wpS_enforce. ev. rewrite (eval_b_lc _ _ 1 Ha), (eval_b_lc _ _ 1 Hb), (eval_b_lc _ _ 1 Hc), (eval_b_lc _ _ 1 Hbc). intros H. cbn.
  unfold var_bit. transitivity (fbit (y && z) - (1 * fbit (y && z) - rho v)); [ring|].
  rewrite <- H. destruct x, y, z; cbn; ring.
Qed.

Lemma b_maj_sound a b c x y z : bit_is rho a x -> bit_is rho b y -> bit_is rho c z ->
  wpS rho G (b_maj a b c) (okP (fun r => bit_is rho r (maj_bit x y z))).
Proof.
  intros Ha Hb Hc.
  assert (A1 : wpS rho G (b_and b c) (okP (fun r => bit_is rho r (andb y z))))
    by (apply b_and_sound; auto using bit_is_not).
  assert (A2 : wpS rho G (b_and a c) (okP (fun r => bit_is rho r (andb x z))))
    by (apply b_and_sound; auto using bit_is_not).
  assert (A2' : wpS rho G (b_and a b) (okP (fun r => bit_is rho r (andb x y))))
    by (apply b_and_sound; auto using bit_is_not).
  assert (A3 : wpS rho G (bindq (b_and (b_not a) (b_not b)) (fun r => Ret (Ok (b_not r))))
    (okP (fun r => bit_is rho r (negb (andb (negb x) (negb y))))))
    by (apply wpS_map_not, b_and_sound; auto using bit_is_not).
  assert (A4 : wpS rho G (bindq (b_and (b_not a) (b_not c)) (fun r => Ret (Ok (b_not r))))
    (okP (fun r => bit_is rho r (negb (andb (negb x) (negb z))))))
    by (apply wpS_map_not, b_and_sound; auto using bit_is_not).
  assert (A4' : wpS rho G (bindq (b_and (b_not b) (b_not c)) (fun r => Ret (Ok (b_not r))))
    (okP (fun r => bit_is rho r (negb (andb (negb y) (negb z))))))
    by (apply wpS_map_not, b_and_sound; auto using bit_is_not).
  pose proof (maj_general_sound a b c x y z Ha Hb Hc) as A5.
  destruct a as [a|a|[]], b as [b|b|[]], c as [c|c|[]]; unfold b_maj;
    try exact A5;
    cbn in Ha, Hb, Hc; subst; 
    try (cbn; unfold maj_bit; cbn; rewrite ?xorb_false_l; (assumption || reflexivity));
    unfold maj_bit;
    first
    [ eapply (wpS_eqv (fun b r => bit_is rho r b)); [|exact A1]
    | eapply (wpS_eqv (fun b r => bit_is rho r b)); [|exact A2]
    | eapply (wpS_eqv (fun b r => bit_is rho r b)); [|exact A2']
    | eapply (wpS_eqv (fun b r => bit_is rho r b)); [|exact A3]
    | eapply (wpS_eqv (fun b r => bit_is rho r b)); [|exact A4]
    | eapply (wpS_eqv (fun b r => bit_is rho r b)); [|exact A4'] ];
    allbools; reflexivity.
Qed.

(** Allocated bit vectors are bits, one per requested position. *)
Lemma alloc_bits_sound l : forall i,
  wpS rho G (mapq alloc_bit_at i l)
    (okP (fun r => length r = length l /\ Forall (fun a => exists b, var_bit rho (ab_var a) b) r)).
Proof.
  induction l as [|x t IH]; intros i; cbn [mapq].
  - cbn. auto.
  - apply wpS_bindq. unfold alloc_bit_at at 1. apply wpS_ns.
    eapply wpS_mono; [|apply ab_alloc_sound]. intros [a|e] Ha; cbn in Ha |- *; auto.
    apply wpS_bindq. eapply wpS_mono; [|apply IH]. intros [r|e] Hr; cbn in Hr |- *; auto.
    destruct Hr. split; auto.
Qed.

End Sound.

(** ** Completeness of the gates: honest inputs give honest outputs *)

Ltac cgate y := eapply (wpC_alloc_q rho _ _ y);
  [ | let v := fresh "var" in let H := fresh "Hvar" in intros v H; apply wpC_enforce; [ev|] ].

Lemma ab_alloc_complete b : wpC rho (ab_alloc (Some b)) (isOk (fun a => abit_hon rho a b)).
Proof.
  unfold ab_alloc. cgate (fbit b : P); auto.
  - rewrite Hvar. destruct b; cbn; ring.
  - cbn. split; auto.
Qed.

Lemma ab_alloc_conditionally_complete b m mb : var_bit rho (ab_var m) mb -> (mb = true -> b = false) ->
  wpC rho (ab_alloc_conditionally (Some b) m) (isOk (fun a => abit_hon rho a b)).
Proof.
  unfold ab_alloc_conditionally, var_bit. intros Hm Hmb. cgate (fbit b : P); auto.
  - rewrite Hvar, Hm. destruct mb; [rewrite Hmb by auto|destruct b]; cbn; ring.
  - cbn. split; auto.
Qed.

Lemma bit2_hon op a b x y : ab_value a = Some x -> ab_value b = Some y -> bit2 op a b = Ok (op x y).
Proof. unfold bit2. intros -> ->. reflexivity. Qed.

Ltac cgate2 op := intros [Hx Hxv] [Hy Hyv]; unfold var_bit in *;
  match goal with |- context [bit2 ?o ?a ?b] => rewrite (bit2_hon o a b _ _ Hxv Hyv) end;
  cbn [rmap]; eapply wpC_alloc_q; [reflexivity|]; intros var Hvar; apply wpC_enforce;
  [ ev; rewrite ?Hx, ?Hy, ?Hvar;
    repeat match goal with b : bool |- _ => destruct b end; cbn; ring
  | cbn; split; auto ].

Lemma ab_xor_complete a b x y : abit_hon rho a x -> abit_hon rho b y ->
  wpC rho (ab_xor a b) (isOk (fun r => abit_hon rho r (xorb x y))).
Proof. unfold ab_xor. cgate2 xorb. Qed.

Lemma ab_and_complete a b x y : abit_hon rho a x -> abit_hon rho b y ->
  wpC rho (ab_and a b) (isOk (fun r => abit_hon rho r (andb x y))).
Proof. unfold ab_and. cgate2 xorb. Qed.

Lemma ab_and_not_complete a b x y : abit_hon rho a x -> abit_hon rho b y ->
  wpC rho (ab_and_not a b) (isOk (fun r => abit_hon rho r (andb x (negb y)))).
Proof. unfold ab_and_not. cgate2 xorb. Qed.

Lemma ab_nor_complete a b x y : abit_hon rho a x -> abit_hon rho b y ->
  wpC rho (ab_nor a b) (isOk (fun r => abit_hon rho r (andb (negb x) (negb y)))).
Proof. unfold ab_nor. cgate2 xorb. Qed.

Lemma b_enforce_equal_complete a b x : bit_is rho a x -> bit_is rho b x ->
  wpC rho (b_enforce_equal a b) (isOk (fun _ => True)).
Proof.
  intros Ha Hb.
  assert (Z0 : (0 : P) * 0 = 0) by ring.
  destruct a as [a|a|[]], b as [b|b|[]]; unfold b_enforce_equal; cbn [eqb];
    try (cbn in Ha, Hb |- *; subst; try discriminate; exact I);
    apply wpC_enforce; try exact I;
    ev; rewrite ?(eval_b_lc _ _ 1 Ha), ?(eval_b_lc _ _ 1 Hb); try ring;
    cbn in Ha, Hb; try subst x; cbn [fbit]; ring.
Qed.

Lemma b_hon_is a b : bit_hon rho (BIs a) b <-> abit_hon rho a b.
Proof. reflexivity. Qed.

Lemma b_hon_nega a b : bit_hon rho (BNot a) b -> abit_hon rho a (negb b).
Proof.
  intros [H1 H2]. split; [exact H1|]. cbn in H2. destruct (ab_value a) as [[]|]; cbn in H2; try discriminate;
    inversion H2; reflexivity.
Qed.

Lemma wpC_map_is p f : wpC rho p (isOk (fun r => abit_hon rho r f)) ->
  wpC rho (bindq p (fun r => Ret (Ok (BIs r)))) (isOk (fun r => bit_hon rho r f)).
Proof. intros H. eapply wpC_bindq'; [exact H|]. intros r Hr. exact Hr. Qed.

Lemma wpC_map_not p f : wpC rho p (isOk (fun r => bit_hon rho r f)) ->
  wpC rho (bindq p (fun r => Ret (Ok (b_not r)))) (isOk (fun r => bit_hon rho r (negb f))).
Proof. intros H. eapply wpC_bindq'; [exact H|]. intros r Hr. cbn. now apply bit_hon_not. Qed.

Lemma wpC_eqv {A} (Q1 : bool -> A -> Prop) p f g : f = g ->
  wpC rho p (isOk (Q1 f)) -> wpC rho p (isOk (E := SynthesisError) (Q1 g)).
Proof. intros ->; auto. Qed.

Lemma hon_const c b : bit_hon rho (BConst c) b <-> b = c.
Proof. unfold bit_hon; cbn. split; [tauto|intros ->; auto]. Qed.

Lemma b_xor_complete a b x y : bit_hon rho a x -> bit_hon rho b y ->
  wpC rho (b_xor a b) (isOk (fun r => bit_hon rho r (xorb x y))).
Proof.
  intros Ha Hb. pose proof (bit_hon_not _ _ _ Ha) as Hna. pose proof (bit_hon_not _ _ _ Hb) as Hnb.
  destruct a as [a|a|ca], b as [b|b|cb]; unfold b_xor, b_xor_is; try destruct ca; try destruct cb;
    rewrite ?hon_const in *; subst; rewrite ?xorb_false_l, ?xorb_false_r, ?xorb_true_l, ?xorb_true_r;
    try (cbn in *; solve [auto | split; reflexivity]).
  - apply wpC_map_is, ab_xor_complete; assumption.
  - eapply (wpC_eqv (fun b r => bit_hon rho r b) _ (negb (xorb x (negb y)))); [destruct x, y; reflexivity|].
    apply wpC_map_not, wpC_map_is, ab_xor_complete; auto using b_hon_nega.
  - eapply (wpC_eqv (fun b r => bit_hon rho r b) _ (negb (xorb y (negb x)))); [destruct x, y; reflexivity|].
    apply wpC_map_not, wpC_map_is, ab_xor_complete; auto using b_hon_nega.
  - eapply (wpC_eqv (fun b r => bit_hon rho r b) _ (xorb (negb x) (negb y))); [destruct x, y; reflexivity|].
    apply wpC_map_is, ab_xor_complete; auto using b_hon_nega.
Qed.

Lemma b_and_complete a b x y : bit_hon rho a x -> bit_hon rho b y ->
  wpC rho (b_and a b) (isOk (fun r => bit_hon rho r (andb x y))).
Proof.
  intros Ha Hb.
  destruct a as [a|a|ca], b as [b|b|cb]; unfold b_and; try destruct ca; try destruct cb;
    rewrite ?hon_const in *; subst; rewrite ?andb_false_l, ?andb_false_r, ?andb_true_l, ?andb_true_r;
    try (cbn in *; solve [auto | split; auto; reflexivity]).
  - apply wpC_map_is, ab_and_complete; assumption.
  - eapply (wpC_eqv (fun b r => bit_hon rho r b) _ (andb x (negb (negb y)))); [destruct x, y; reflexivity|].
    apply wpC_map_is, ab_and_not_complete; auto using b_hon_nega.
  - eapply (wpC_eqv (fun b r => bit_hon rho r b) _ (andb y (negb (negb x)))); [destruct x, y; reflexivity|].
    apply wpC_map_is, ab_and_not_complete; auto using b_hon_nega.
  - eapply (wpC_eqv (fun b r => bit_hon rho r b) _ (andb (negb (negb x)) (negb (negb y)))); [destruct x, y; reflexivity|].
    apply wpC_map_is, ab_nor_complete; auto using b_hon_nega.
Qed.

Lemma tri_value_hon f a b c x y z : bit_hon rho a x -> bit_hon rho b y -> bit_hon rho c z ->
  tri_value f a b c = Some (f x y z).
Proof. unfold tri_value. intros [_ ->] [_ ->] [_ ->]. reflexivity. Qed.

Lemma ch_general_complete a b c x y z : bit_hon rho a x -> bit_hon rho b y -> bit_hon rho c z ->
  wpC rho (ch_general a b c) (isOk (fun r => bit_hon rho r (ch_bit x y z))).
Proof.
  intros Ha Hb Hc. unfold ch_general. rewrite (tri_value_hon _ _ _ _ _ _ _ Ha Hb Hc). cbn [get rmap].
  eapply wpC_alloc_q; [reflexivity|]. intros v Hv. apply wpC_enforce; [|cbn; split; auto].
  ev. rewrite (eval_b_lc _ _ 1 (proj1 Ha)), (eval_b_lc _ _ 1 (proj1 Hb)), (eval_b_lc _ _ 1 (proj1 Hc)), Hv.
  destruct x, y, z; cbn; ring.
Qed.

Lemma b_ch_complete a b c x y z : bit_hon rho a x -> bit_hon rho b y -> bit_hon rho c z ->
  wpC rho (b_ch a b c) (isOk (fun r => bit_hon rho r (ch_bit x y z))).
Proof.
  intros Ha Hb Hc.
  assert (A1 : wpC rho (b_and (b_not a) c) (isOk (fun r => bit_hon rho r (andb (negb x) z))))
    by (apply b_and_complete; auto using bit_hon_not).
  assert (A2 : wpC rho (b_and a b) (isOk (fun r => bit_hon rho r (andb x y))))
    by (apply b_and_complete; auto using bit_hon_not).
  assert (A3 : wpC rho (bindq (b_and a (b_not b)) (fun r => Ret (Ok (b_not r))))
    (isOk (fun r => bit_hon rho r (negb (andb x (negb y))))))
    by (apply wpC_map_not, b_and_complete; auto using bit_hon_not).
  assert (A4 : wpC rho (bindq (b_and (b_not a) (b_not c)) (fun r => Ret (Ok (b_not r))))
    (isOk (fun r => bit_hon rho r (negb (andb (negb x) (negb z))))))
    by (apply wpC_map_not, b_and_complete; auto using bit_hon_not).
  pose proof (ch_general_complete a b c x y z Ha Hb Hc) as A5.
  destruct a as [a|a|[]], b as [b|b|[]], c as [c|c|[]]; unfold b_ch;
    try exact A5;
    rewrite ?hon_const in *; subst;
    try (cbn; unfold ch_bit; cbn; rewrite ?xorb_false_l; (assumption || reflexivity || (split; reflexivity)));
    unfold ch_bit;
    first
    [ eapply (wpC_eqv (fun b r => bit_hon rho r b)); [|exact A1]
    | eapply (wpC_eqv (fun b r => bit_hon rho r b)); [|exact A2]
    | eapply (wpC_eqv (fun b r => bit_hon rho r b)); [|exact A3]
    | eapply (wpC_eqv (fun b r => bit_hon rho r b)); [|exact A4] ];
    allbools; reflexivity.
Qed.

Lemma maj_general_complete a b c x y z : bit_hon rho a x -> bit_hon rho b y -> bit_hon rho c z ->
  wpC rho (maj_general a b c) (isOk (fun r => bit_hon rho r (maj_bit x y z))).
Proof.
  intros Ha Hb Hc. unfold maj_general. rewrite (tri_value_hon _ _ _ _ _ _ _ Ha Hb Hc). cbn [get rmap].
  eapply wpC_alloc_q; [reflexivity|]. intros v Hv.
  eapply wpC_bindq'; [apply wpC_ns, (b_and_complete b c y z Hb Hc)|]. cbv beta. intros bc Hbc.
  apply wpC_enforce; [|cbn; split; auto].
  ev. rewrite (eval_b_lc _ _ 1 (proj1 Ha)), (eval_b_lc _ _ 1 (proj1 Hb)), (eval_b_lc _ _ 1 (proj1 Hc)),
    (eval_b_lc _ _ 1 (proj1 Hbc)), Hv.
  destruct x, y, z; cbn; ring.
Qed.

Lemma b_maj_complete a b c x y z : bit_hon rho a x -> bit_hon rho b y -> bit_hon rho c z ->
  wpC rho (b_maj a b c) (isOk (fun r => bit_hon rho r (maj_bit x y z))).
Proof.
  intros Ha Hb Hc.
  assert (A1 : wpC rho (b_and b c) (isOk (fun r => bit_hon rho r (andb y z))))
    by (apply b_and_complete; auto using bit_hon_not).
  assert (A2 : wpC rho (b_and a c) (isOk (fun r => bit_hon rho r (andb x z))))
    by (apply b_and_complete; auto using bit_hon_not).
  assert (A2' : wpC rho (b_and a b) (isOk (fun r => bit_hon rho r (andb x y))))
    by (apply b_and_complete; auto using bit_hon_not).
  assert (A3 : wpC rho (bindq (b_and (b_not a) (b_not b)) (fun r => Ret (Ok (b_not r))))
    (isOk (fun r => bit_hon rho r (negb (andb (negb x) (negb y))))))
    by (apply wpC_map_not, b_and_complete; auto using bit_hon_not).
  assert (A4 : wpC rho (bindq (b_and (b_not a) (b_not c)) (fun r => Ret (Ok (b_not r))))
    (isOk (fun r => bit_hon rho r (negb (andb (negb x) (negb z))))))
    by (apply wpC_map_not, b_and_complete; auto using bit_hon_not).
  assert (A4' : wpC rho (bindq (b_and (b_not b) (b_not c)) (fun r => Ret (Ok (b_not r))))
    (isOk (fun r => bit_hon rho r (negb (andb (negb y) (negb z))))))
    by (apply wpC_map_not, b_and_complete; auto using bit_hon_not).
  pose proof (maj_general_complete a b c x y z Ha Hb Hc) as A5.
  destruct a as [a|a|[]], b as [b|b|[]], c as [c|c|[]]; unfold b_maj;
    try exact A5;
    rewrite ?hon_const in *; subst;
    try (cbn; unfold maj_bit; cbn; rewrite ?xorb_false_l; (assumption || reflexivity || (split; reflexivity)));
    unfold maj_bit;
    first
    [ eapply (wpC_eqv (fun b r => bit_hon rho r b)); [|exact A1]
    | eapply (wpC_eqv (fun b r => bit_hon rho r b)); [|exact A2]
    | eapply (wpC_eqv (fun b r => bit_hon rho r b)); [|exact A2']
    | eapply (wpC_eqv (fun b r => bit_hon rho r b)); [|exact A3]
    | eapply (wpC_eqv (fun b r => bit_hon rho r b)); [|exact A4]
    | eapply (wpC_eqv (fun b r => bit_hon rho r b)); [|exact A4'] ];
    allbools; reflexivity.
Qed.

Lemma alloc_bits_complete bs : forall i,
  wpC rho (mapq alloc_bit_at i (map Some bs)) (isOk (fun r => Forall2 (abit_hon rho) r bs)).
Proof.
  intros i. eapply wpC_okmono; [|eapply wpC_mapq2 with (Q := fun b a => abit_hon rho a b) (I := fun x c => x = Some c) (m := bs)].
  - intros a Ha. clear -Ha. induction Ha; constructor; auto.
  - clear. induction bs; cbn; constructor; auto.
  - intros j x c ->. apply wpC_ns. apply ab_alloc_complete.
Qed.

Lemma shift_and_bit v i : Z.eqb (Z.land (Z.shiftr v (Z.of_nat i)) 1) 1 = Z.testbit v (Z.of_nat i).
Proof.
  change 1%Z with (Z.ones 1) at 1. rewrite Z.land_ones by lia. rewrite Z.shiftr_div_pow2 by lia.
  rewrite Z.pow_1_r, <- Z.testbit_spec' by lia. destruct (Z.testbit v (Z.of_nat i)); reflexivity.
Qed.

Lemma u64_values v :
  map (fun i => Some (Z.eqb (Z.land (Z.shiftr v (Z.of_nat i)) 1) 1)) (seq 0 64) = map Some (z2le 64 v).
Proof.
  rewrite <- (map_map (fun i => Z.eqb (Z.land (Z.shiftr v (Z.of_nat i)) 1) 1) Some). f_equal.
  apply nth_ext with (d := false) (d' := false).
  - rewrite map_length, seq_length, z2le_length. reflexivity.
  - intros n Hn. rewrite map_length, seq_length in Hn.
    rewrite nth_map_seq by lia. rewrite nth_z2le by lia. apply shift_and_bit.
Qed.

Lemma u64_into_boolean_vec_le_sound G v :
  wpS rho G (u64_into_boolean_vec_le v)
    (okP (fun r => exists bs, length bs = 64%nat /\ Forall2 (bit_is rho) r bs)).
Proof.
  unfold u64_into_boolean_vec_le.
  set (l := match v with Some _ => _ | None => _ end).
  assert (Hl : length l = 64%nat) by (destruct v; reflexivity).
  assert (K : forall i, wpS rho G (mapq (fun i b => bindq (alloc_bit_at i b) (fun a => Ret (Ok (BIs a)))) i l)
    (okP (fun r => exists bs, length bs = length l /\ Forall2 (bit_is rho) r bs))).
  { clear Hl. induction l as [|x t IH]; intros i; cbn [mapq].
    - cbn. exists []. auto.
    - eapply wpS_bindq'.
      + eapply wpS_bindq'; [apply wpS_ns, ab_alloc_sound|]. intros a [b Hb].
        instantiate (1 := fun r => exists b, bit_is rho r b). cbn. eauto.
      + intros a [b Hb]. eapply wpS_bindq'; [apply IH|]. intros r (bs & Hlen & HF). cbn.
        exists (b :: bs). cbn. auto. }
  rewrite Hl in K. apply K.
Qed.

Lemma u64_into_boolean_vec_le_complete v :
  wpC rho (u64_into_boolean_vec_le (Some v)) (isOk (fun r => Forall2 (bit_hon rho) r (z2le 64 v))).
Proof.
  unfold u64_into_boolean_vec_le. rewrite u64_values.
  eapply wpC_okmono; [|eapply wpC_mapq2 with (Q := fun b a => bit_hon rho a b) (I := fun x c => x = Some c) (m := z2le 64 v)].
  - intros a Ha. generalize dependent (z2le 64 v). intros l Ha. induction Ha; constructor; auto.
  - generalize (z2le 64 v). intros bs. induction bs; cbn; constructor; auto.
  - intros j x c ->. eapply wpC_bindq'; [apply wpC_ns, ab_alloc_complete|]. intros a Ha. exact Ha.
Qed.

Section OtherField.
Variable F2 : PrimeField.

Lemma z2le_app a b z : z2le (a + b) z = z2le a z ++ z2le b (z / 2 ^ Z.of_nat a)%Z.
Proof.
  revert z; induction a as [|a IH]; intros z.
  - cbn. now rewrite Z.div_1_r.
  - cbn [Nat.add z2le app]. f_equal. rewrite IH. f_equal. f_equal.
    rewrite Z.div2_div, Z.div_div, pow2_S by (try lia; apply pow2_pos). reflexivity.
Qed.

Lemma z2le_1 k : z2le (S k) 1 = true :: repeat false k.
Proof.
  cbn. f_equal. induction k; cbn; auto. now f_equal.
Qed.

Lemma char_bits_shape : exists low, length low = (num_bits F2 - 1)%nat /\
  char_le_bits F2 = low ++ true :: repeat false (repr_bits F2 - num_bits F2).
Proof.
  pose proof (num_bits_pos F2). pose proof (num_bits_lo F2) as Hlo. pose proof (num_bits_hi F2) as Hhi.
  pose proof (repr_bits_ge F2).
  exists (z2le (num_bits F2 - 1) (modulus F2)). split; [apply z2le_length|].
  unfold char_le_bits.
  replace (repr_bits F2) with ((num_bits F2 - 1) + S (repr_bits F2 - num_bits F2))%nat at 1 by lia.
  rewrite z2le_app. f_equal.
  replace (modulus F2 / 2 ^ Z.of_nat (num_bits F2 - 1))%Z with 1%Z; [apply z2le_1|].
  assert (E : (2 ^ Z.of_nat (num_bits F2) = 2 * 2 ^ Z.of_nat (num_bits F2 - 1))%Z)
    by (rewrite <- pow2_S; do 2 f_equal; lia).
  rewrite E in Hhi. pose proof (pow2_pos (num_bits F2 - 1)).
  replace (Z.of_nat (num_bits F2) - 1)%Z with (Z.of_nat (num_bits F2 - 1)) in * by lia.
  apply Z.div_unique with (r := (modulus F2 - 2 ^ Z.of_nat (num_bits F2 - 1))%Z); lia.
Qed.

Lemma strip_found ct t : length ct = length t -> strip_leading true ct t = Done t.
Proof.
  revert ct; induction t as [|b t IH]; intros [|c ct] H; cbn in *; try discriminate; auto.
  rewrite IH by lia. reflexivity.
Qed.

Lemma strip_skip k ct hs t : length hs = k -> length t = S (length ct) ->
  strip_leading false (repeat false k ++ true :: ct) (hs ++ t) = Done t.
Proof.
  revert hs. induction k as [|k IH]; intros [|h hs] H1 H2; try discriminate; cbn in *.
  - destruct t as [|b t]; cbn in *; [discriminate|]. rewrite strip_found by lia. reflexivity.
  - rewrite IH by lia. reflexivity.
Qed.

Lemma rev_repeat {A} (x : A) n : rev (repeat x n) = repeat x n.
Proof.
  induction n as [|n IH]; cbn; auto. rewrite IH. clear. induction n; cbn; auto. now rewrite IHn.
Qed.

Lemma field_bits (x : F2) :
  strip_leading false (rev (char_le_bits F2)) (rev (to_le_bits x)) = Done (rev (z2le (num_bits F2) (toZ x))).
Proof.
  destruct char_bits_shape as (low & Hlow & ->).
  pose proof (num_bits_pos F2). pose proof (repr_bits_ge F2).
  rewrite rev_app_distr. cbn [rev]. rewrite <- app_assoc. cbn [app].
  unfold to_le_bits.
  replace (repr_bits F2) with (num_bits F2 + (repr_bits F2 - num_bits F2))%nat at 2 by lia.
  rewrite z2le_app, rev_app_distr, rev_repeat.
  apply strip_skip; rewrite ?rev_length, ?z2le_length; lia.
Qed.

Lemma field_into_allocated_bits_le_complete (x : F2) :
  wpC rho (field_into_allocated_bits_le F2 (Some x))
    (isOk (fun r => Forall2 (abit_hon rho) r (z2le (num_bits F2) (toZ x)))).
Proof.
  unfold field_into_allocated_bits_le. rewrite field_bits, rev_length, z2le_length, Nat.eqb_refl.
  rewrite <- map_rev, rev_involutive. apply alloc_bits_complete.
Qed.

Lemma abits_exist l : Forall (fun a => exists b, var_bit rho (ab_var a) b) l ->
  exists bs, Forall2 (fun a b => var_bit rho (ab_var a) b) l bs.
Proof.
  induction 1 as [|a l [b Hb] _ [bs IH]]; [exists []; constructor|]. exists (b :: bs). constructor; auto.
Qed.

Lemma field_into_allocated_bits_le_sound G (x : option F2) :
  wpS rho G (field_into_allocated_bits_le F2 x)
    (okP (fun r => length r = num_bits F2 /\ exists bs, Forall2 (fun a b => var_bit rho (ab_var a) b) r bs)).
Proof.
  unfold field_into_allocated_bits_le. destruct x as [x|].
  - rewrite field_bits, rev_length, z2le_length, Nat.eqb_refl.
    eapply wpS_okmono; [|apply alloc_bits_sound]. intros r [Hl HF]. split.
    + now rewrite Hl, rev_length, map_length, rev_length, z2le_length.
    + now apply abits_exist.
  - eapply wpS_okmono; [|apply alloc_bits_sound]. intros r [Hl HF]. split.
    + now rewrite Hl, rev_length, repeat_length.
    + now apply abits_exist.
Qed.

Lemma field_into_boolean_vec_le_complete (x : F2) :
  wpC rho (field_into_boolean_vec_le F2 (Some x))
    (isOk (fun r => Forall2 (bit_hon rho) r (z2le (num_bits F2) (toZ x)))).
Proof.
  eapply wpC_bindq'; [apply field_into_allocated_bits_le_complete|]. cbv beta. intros r Hr. cbn.
  induction Hr; cbn; constructor; auto.
Qed.

Lemma field_into_boolean_vec_le_sound G (x : option F2) :
  wpS rho G (field_into_boolean_vec_le F2 x)
    (okP (fun r => length r = num_bits F2 /\ exists bs, Forall2 (bit_is rho) r bs)).
Proof.
  eapply wpS_bindq'; [apply field_into_allocated_bits_le_sound|]. cbv beta. intros r (Hl & bs & Hr). cbn.
  rewrite map_length. split; auto. exists bs. clear Hl. induction Hr; cbn; constructor; auto.
Qed.

End OtherField.
End Rho.

(** ** Structure *)

Lemma ab_alloc_sim v v' : sim (@ab_alloc P v) (ab_alloc v') (resR absim).
Proof. unfold ab_alloc. apply sim_alloc. intros var x _. apply sim_enforce; auto. cbn. reflexivity. Qed.

Lemma ab_alloc_conditionally_sim v v' m m' : absim m m' ->
  sim (@ab_alloc_conditionally P v m) (ab_alloc_conditionally v' m') (resR absim).
Proof.
  unfold ab_alloc_conditionally, absim. intros H. apply sim_alloc. intros var x _.
  apply sim_enforce; auto; [congruence|]. cbn. reflexivity.
Qed.

Ltac simgate := intros Ha Hb; unfold absim in *; apply sim_alloc; intros var z _;
  apply sim_enforce; auto; try congruence; cbn; reflexivity.

Lemma ab_xor_sim a a' b b' : absim a a' -> absim b b' -> sim (@ab_xor P a b) (ab_xor a' b') (resR absim).
Proof. unfold ab_xor. simgate. Qed.
Lemma ab_and_sim a a' b b' : absim a a' -> absim b b' -> sim (@ab_and P a b) (ab_and a' b') (resR absim).
Proof. unfold ab_and. simgate. Qed.
Lemma ab_and_not_sim a a' b b' : absim a a' -> absim b b' -> sim (@ab_and_not P a b) (ab_and_not a' b') (resR absim).
Proof. unfold ab_and_not. simgate. Qed.
Lemma ab_nor_sim a a' b b' : absim a a' -> absim b b' -> sim (@ab_nor P a b) (ab_nor a' b') (resR absim).
Proof. unfold ab_nor. simgate. Qed.

Lemma b_enforce_equal_sim a a' b b' : bsim a a' -> bsim b b' ->
  sim (@b_enforce_equal P a b) (b_enforce_equal a' b') (resR (fun _ _ => True)).
Proof.
  intros Ha Hb.
  pose proof (bsim_lc _ _ one_var (1 : P) Ha) as La. pose proof (bsim_lc _ _ one_var (1 : P) Hb) as Lb.
  destruct a as [a|a|[]], a' as [a'|a'|[]]; cbn in Ha; try tauto; try discriminate;
  destruct b as [b|b|[]], b' as [b'|b'|[]]; cbn in Hb; try tauto; try discriminate;
  unfold b_enforce_equal; cbn [eqb]; try (cbn; exact I); try (cbn; reflexivity);
  apply sim_enforce; auto; try congruence; cbn; auto.
Qed.

Lemma sim_map_is p p' : sim p p' (resR absim) ->
  sim (bindq p (fun r => Ret (Ok (BIs r)))) (bindq p' (fun r => @Ret P _ (Ok (BIs r)))) (resR bsim).
Proof. intros H. eapply sim_bindq; [exact H|]. intros a a' Ha. exact Ha. Qed.
Lemma sim_map_not p p' : sim p p' (resR bsim) ->
  sim (bindq p (fun r => Ret (Ok (b_not r)))) (bindq p' (fun r => @Ret P _ (Ok (b_not r)))) (resR bsim).
Proof. intros H. eapply sim_bindq; [exact H|]. intros a a' Ha. cbn. now apply bsim_not. Qed.

Lemma b_xor_sim a a' b b' : bsim a a' -> bsim b b' -> sim (@b_xor P a b) (b_xor a' b') (resR bsim).
Proof.
  intros Ha Hb.
  destruct a as [a|a|[]], a' as [a'|a'|[]]; cbn in Ha; try tauto; try discriminate;
  destruct b as [b|b|[]], b' as [b'|b'|[]]; cbn in Hb; try tauto; try discriminate;
  unfold b_xor, b_xor_is; try (cbn; auto; fail);
  auto using sim_map_is, sim_map_not, ab_xor_sim.
Qed.

Lemma b_and_sim a a' b b' : bsim a a' -> bsim b b' -> sim (@b_and P a b) (b_and a' b') (resR bsim).
Proof.
  intros Ha Hb.
  destruct a as [a|a|[]], a' as [a'|a'|[]]; cbn in Ha; try tauto; try discriminate;
  destruct b as [b|b|[]], b' as [b'|b'|[]]; cbn in Hb; try tauto; try discriminate;
  unfold b_and; try (cbn; auto; fail);
  auto using sim_map_is, ab_and_sim, ab_and_not_sim, ab_nor_sim.
Qed.

Lemma ch_general_sim a a' b b' c c' : bsim a a' -> bsim b b' -> bsim c c' ->
  sim (@ch_general P a b c) (ch_general a' b' c') (resR bsim).
Proof.
  intros Ha Hb Hc. unfold ch_general. apply sim_alloc. intros v x _.
  apply sim_enforce; auto; try (rewrite ?(bsim_lc _ _ _ _ Ha), ?(bsim_lc _ _ _ _ Hb), ?(bsim_lc _ _ _ _ Hc); reflexivity).
Qed.

Lemma b_ch_sim a a' b b' c c' : bsim a a' -> bsim b b' -> bsim c c' ->
  sim (@b_ch P a b c) (b_ch a' b' c') (resR bsim).
Proof.
  intros Ha Hb Hc.
  assert (A1 : sim (@b_and P (b_not a) c) (b_and (b_not a') c') (resR bsim)) by auto using b_and_sim, bsim_not.
  assert (A2 : sim (@b_and P a b) (b_and a' b') (resR bsim)) by auto using b_and_sim, bsim_not.
  assert (A3 : sim (bindq (@b_and P a (b_not b)) (fun r => Ret (Ok (b_not r))))
     (bindq (b_and a' (b_not b')) (fun r => Ret (Ok (b_not r)))) (resR bsim)) by auto using sim_map_not, b_and_sim, bsim_not.
  assert (A4 : sim (bindq (@b_and P (b_not a) (b_not c)) (fun r => Ret (Ok (b_not r))))
     (bindq (b_and (b_not a') (b_not c')) (fun r => Ret (Ok (b_not r)))) (resR bsim)) by auto using sim_map_not, b_and_sim, bsim_not.
  pose proof (ch_general_sim _ _ _ _ _ _ Ha Hb Hc) as A5.
  destruct a as [a|a|[]], a' as [a'|a'|[]]; cbn in Ha; try tauto; try discriminate;
  destruct b as [b|b|[]], b' as [b'|b'|[]]; cbn in Hb; try tauto; try discriminate;
  destruct c as [c|c|[]], c' as [c'|c'|[]]; cbn in Hc; try tauto; try discriminate;
  unfold b_ch; try assumption; cbn; auto.
Qed.

Lemma maj_general_sim a a' b b' c c' : bsim a a' -> bsim b b' -> bsim c c' ->
  sim (@maj_general P a b c) (maj_general a' b' c') (resR bsim).
Proof.
  intros Ha Hb Hc. unfold maj_general. apply sim_alloc. intros v x _.
  eapply sim_bindq; [apply sim_ns, b_and_sim; eassumption|]. intros bc bc' Hbc.
  apply sim_enforce; auto; try (rewrite ?(bsim_lc _ _ _ _ Ha), ?(bsim_lc _ _ _ _ Hb), ?(bsim_lc _ _ _ _ Hc), ?(bsim_lc _ _ _ _ Hbc); reflexivity).
Qed.

Lemma b_maj_sim a a' b b' c c' : bsim a a' -> bsim b b' -> bsim c c' ->
  sim (@b_maj P a b c) (b_maj a' b' c') (resR bsim).
Proof.
  intros Ha Hb Hc.
  assert (A1 : sim (@b_and P b c) (b_and b' c') (resR bsim)) by auto using b_and_sim.
  assert (A1' : sim (@b_and P a c) (b_and a' c') (resR bsim)) by auto using b_and_sim.
  assert (A2 : sim (@b_and P a b) (b_and a' b') (resR bsim)) by auto using b_and_sim.
  assert (A3 : sim (bindq (@b_and P (b_not a) (b_not b)) (fun r => Ret (Ok (b_not r))))
     (bindq (b_and (b_not a') (b_not b')) (fun r => Ret (Ok (b_not r)))) (resR bsim)) by auto using sim_map_not, b_and_sim, bsim_not.
  assert (A4 : sim (bindq (@b_and P (b_not a) (b_not c)) (fun r => Ret (Ok (b_not r))))
     (bindq (b_and (b_not a') (b_not c')) (fun r => Ret (Ok (b_not r)))) (resR bsim)) by auto using sim_map_not, b_and_sim, bsim_not.
  assert (A4' : sim (bindq (@b_and P (b_not b) (b_not c)) (fun r => Ret (Ok (b_not r))))
     (bindq (b_and (b_not b') (b_not c')) (fun r => Ret (Ok (b_not r)))) (resR bsim)) by auto using sim_map_not, b_and_sim, bsim_not.
  pose proof (maj_general_sim _ _ _ _ _ _ Ha Hb Hc) as A5.
  destruct a as [a|a|[]], a' as [a'|a'|[]]; cbn in Ha; try tauto; try discriminate;
  destruct b as [b|b|[]], b' as [b'|b'|[]]; cbn in Hb; try tauto; try discriminate;
  destruct c as [c|c|[]], c' as [c'|c'|[]]; cbn in Hc; try tauto; try discriminate;
  unfold b_maj; try assumption; cbn; auto.
Qed.

Lemma Forall2_trivial {A B} (l : list A) (l' : list B) : length l = length l' -> Forall2 (fun _ _ => True) l l'.
Proof. revert l'; induction l; intros [|]; cbn; intros; try discriminate; constructor; auto. Qed.

Lemma alloc_bits_sim i l l' : length l = length l' ->
  sim (mapq (@alloc_bit_at P) i l) (mapq alloc_bit_at i l') (resR (Forall2 absim)).
Proof.
  intros H. eapply sim_mapq; [apply Forall2_trivial, H|]. intros. apply sim_ns, ab_alloc_sim.
Qed.

Lemma u64_into_boolean_vec_le_sim v v' :
  sim (@u64_into_boolean_vec_le P v) (u64_into_boolean_vec_le v') (resR (Forall2 bsim)).
Proof.
  unfold u64_into_boolean_vec_le. eapply sim_mapq; [apply Forall2_trivial; destruct v, v'; reflexivity|].
  intros. apply sim_map_is, sim_ns, ab_alloc_sim.
Qed.

Lemma field_into_allocated_bits_le_sim (F2 : PrimeField) (v v' : option F2) :
  sim (@field_into_allocated_bits_le P F2 v) (field_into_allocated_bits_le F2 v') (resR (Forall2 absim)).
Proof.
  unfold field_into_allocated_bits_le. destruct v, v'; rewrite ?field_bits, ?rev_length, ?z2le_length, ?Nat.eqb_refl;
  apply alloc_bits_sim; now rewrite ?rev_length, ?map_length, ?rev_length, ?repeat_length, ?z2le_length.
Qed.

Lemma field_into_boolean_vec_le_sim (F2 : PrimeField) (v v' : option F2) :
  sim (@field_into_boolean_vec_le P F2 v) (field_into_boolean_vec_le F2 v') (resR (Forall2 bsim)).
Proof.
  eapply sim_bindq; [apply field_into_allocated_bits_le_sim|]. intros a a' Ha. cbn.
  induction Ha; cbn; constructor; auto.
Qed.

(** ** Shape: no MultiEq requests, balanced namespaces, errors propagate *)
Class Gadget {A} (p : prog P (res A)) : Prop := {
  g_noeq : noeq p; g_ns : ns_ok 0 p; g_prop : prop isErr p }.

End Proofs.

#[export] Hint Resolve g_noeq g_ns g_prop : struct_db.
Ltac gadget := constructor; struct.

Section Shape.
Context {P : PrimeField}.
Lemma ab_alloc_gadget v : Gadget (@ab_alloc P v). Proof. unfold ab_alloc. gadget. Qed.
Lemma ab_alloc_conditionally_gadget v m : Gadget (@ab_alloc_conditionally P v m).
Proof. unfold ab_alloc_conditionally. gadget. Qed.
Lemma ab_xor_gadget a b : Gadget (@ab_xor P a b). Proof. unfold ab_xor. gadget. Qed.
Lemma ab_and_gadget a b : Gadget (@ab_and P a b). Proof. unfold ab_and. gadget. Qed.
Lemma ab_and_not_gadget a b : Gadget (@ab_and_not P a b). Proof. unfold ab_and_not. gadget. Qed.
Lemma ab_nor_gadget a b : Gadget (@ab_nor P a b). Proof. unfold ab_nor. gadget. Qed.
Hint Resolve ab_alloc_gadget ab_alloc_conditionally_gadget ab_xor_gadget ab_and_gadget ab_and_not_gadget ab_nor_gadget : struct_db.
Lemma b_enforce_equal_gadget a b : Gadget (@b_enforce_equal P a b).
Proof. unfold b_enforce_equal. destruct a as [a|a|[]], b as [b|b|[]]; gadget. Qed.
Lemma b_xor_gadget a b : Gadget (@b_xor P a b).
Proof. unfold b_xor, b_xor_is. destruct a as [a|a|[]], b as [b|b|[]]; gadget. Qed.
Lemma b_and_gadget a b : Gadget (@b_and P a b).
Proof. unfold b_and. destruct a as [a|a|[]], b as [b|b|[]]; gadget. Qed.
Hint Resolve b_enforce_equal_gadget b_xor_gadget b_and_gadget : struct_db.
Lemma ch_general_gadget a b c : Gadget (@ch_general P a b c). Proof. unfold ch_general. gadget. Qed.
Lemma maj_general_gadget a b c : Gadget (@maj_general P a b c). Proof. unfold maj_general. gadget. Qed.
Hint Resolve ch_general_gadget maj_general_gadget : struct_db.
Lemma b_ch_gadget a b c : Gadget (@b_ch P a b c).
Proof. unfold b_ch. destruct a as [a|a|[]], b as [b|b|[]], c as [c|c|[]]; gadget. Qed.
Lemma b_maj_gadget a b c : Gadget (@b_maj P a b c).
Proof. unfold b_maj. destruct a as [a|a|[]], b as [b|b|[]], c as [c|c|[]]; gadget. Qed.
Lemma alloc_bit_at_gadget i b : Gadget (@alloc_bit_at P i b). Proof. unfold alloc_bit_at. gadget. Qed.
Hint Resolve b_ch_gadget b_maj_gadget alloc_bit_at_gadget : struct_db.
Lemma u64_into_boolean_vec_le_gadget v : Gadget (@u64_into_boolean_vec_le P v).
Proof. unfold u64_into_boolean_vec_le. gadget. Qed.
Lemma field_into_allocated_bits_le_gadget F2 v : Gadget (@field_into_allocated_bits_le P F2 v).
Proof. unfold field_into_allocated_bits_le. gadget. Qed.
Hint Resolve field_into_allocated_bits_le_gadget : struct_db.
Lemma field_into_boolean_vec_le_gadget F2 v : Gadget (@field_into_boolean_vec_le P F2 v).
Proof. unfold field_into_boolean_vec_le. gadget. Qed.
End Shape.

#[export] Hint Resolve ab_alloc_gadget ab_alloc_conditionally_gadget ab_xor_gadget ab_and_gadget ab_and_not_gadget ab_nor_gadget
  b_enforce_equal_gadget b_xor_gadget b_and_gadget b_ch_gadget b_maj_gadget alloc_bit_at_gadget
  u64_into_boolean_vec_le_gadget field_into_allocated_bits_le_gadget field_into_boolean_vec_le_gadget : struct_db.
