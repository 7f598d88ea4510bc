(** Property theorem C67: the example circuit of the crate documentation (src/lib.rs:5-126) proves knowledge of a preimage under SHA-256d. *)
From Coq Require Import String.
From Coq Require Import ZArith List Bool Lia Field.
From Verif Require Import Prelude PrimeField Fields FModule Circuit Multicore Multiexp MultiexpProof PropMultiexp Assembly AssemblyProof PropAssembly Loops Groth16
  Multipack Spec WordLogic Sha256Spec CostSpec GeneratorProof PropGenerator PropGroth16 Sha256d Sha256dProof Scope PropScope PropSound Bls.
From Verif Require PropDomain.
Import Circuit.
Import ListNotations.
Local Open Scope nat_scope.

(** ** Specification: SHA-256 on bytes *)
Definition a_byte (b : Z) : Prop := (0 <= b < 256)%Z.
(** The bits of a byte, most significant first, and back. *)
Definition bits_of_byte (b : Z) : list bool := rev (bits_of 8 b).
Definition byte_of_bits (l : list bool) : Z := le_value (rev l).
Definition SHA256 (message : list Z) : list Z := map byte_of_bits (chunks 8 (sha256_spec (flat_map bits_of_byte message))).
Definition SHA256d (message : list Z) : list Z := SHA256 (SHA256 message).

(** What the verifier does with a hash: [multipack::compute_multipacking(&multipack::bytes_to_bits_le(&hash))] (lib.rs:120-122). *)
Definition packed {P : PrimeField} (hash : list Z) : list P := compute_multipacking (bytes_to_bits_le hash).

(** The public inputs of an assignment to an instance; the bytes that the first auxiliary variables stand for. *)
Definition inputs_of {P : PrimeField} (inst : KState P) (rho : Var -> P) : list P := map (fun i => rho (Input i)) (seq 1 (k_inputs inst - 1)).
Definition read_byte {P : PrimeField} (rho : Var -> P) (i : nat) : Z := le_value (map (fun j => negb (feqb (rho (Aux (8 * i + j))) fzero)) (seq 0 8)).
Definition read_bytes {P : PrimeField} (n : nat) (rho : Var -> P) : list Z := map (read_byte rho) (seq 0 n).
Definition satisfies {P : PrimeField} (inst : KState P) (rho : Var -> P) : Prop :=
  rho (Input 0) = fone /\ forall a b c, In (a, b, c) (k_cons inst) -> (eval rho a * eval rho b)%F = eval rho c.

(** ** Auxiliary *)
Lemma le_bits bytes : byte_bits_le bytes = flat_map (bits_of 8) bytes.
Proof.
  unfold byte_bits_le. apply flat_map_ext. intros b. unfold bits_of. apply map_ext. intros i. now rewrite byte_bit_testbit, bit_of_testbit.
Qed.
Lemma to_le bytes : bytes_to_bits_le bytes = byte_bits_le bytes. Proof. reflexivity. Qed.
Lemma bits_of_len n z : length (bits_of n z) = n. Proof. unfold bits_of. now rewrite map_length, seq_length. Qed.
Lemma flip_le bytes : flip (byte_bits_le bytes) = flat_map bits_of_byte bytes.
Proof. rewrite le_bits. apply flip_flat. intros x. apply bits_of_len. Qed.
Lemma byte_round l : length l = 8 -> bits_of 8 (le_value l) = l.
Proof. intros H. rewrite bits_of_z2le, le_value_le2z, <- H. apply z2le_le2z. Qed.
Lemma byte_again_le c : length c = 8 -> bits_of 8 (byte_of_bits c) = rev c.
Proof. intros H. apply byte_round. now rewrite rev_length. Qed.
Lemma byte_again c : length c = 8 -> bits_of_byte (byte_of_bits c) = c.
Proof. intros H. unfold bits_of_byte. rewrite byte_again_le by exact H. apply rev_involutive. Qed.
Lemma byte_range l : length l = 8 -> a_byte (le_value l).
Proof. intros H. unfold a_byte. rewrite le_value_le2z. pose proof (le2z_bound l) as X. rewrite H in X. change (2 ^ Z.of_nat 8)%Z with 256%Z in X. pose proof (le2z_nonneg l). lia. Qed.
Lemma byte_back b : a_byte b -> le_value (bits_of 8 b) = b.
Proof. intros H. rewrite bits_of_z2le, le_value_le2z. apply le2z_z2le_small. exact H. Qed.
Lemma digest_chunks m : Forall (fun c => length c = 8) (chunks 8 (sha256_spec m)) /\ length (chunks 8 (sha256_spec m)) = 32.
Proof. destruct (WordLogic.chunks_length 8 32 ltac:(lia) (sha256_spec m) (sha256_spec_len m)) as [A B]. split; [exact B|exact A]. Qed.
Lemma SHA256_bits m : flat_map bits_of_byte (SHA256 m) = sha256_spec (flat_map bits_of_byte m) /\ byte_bits_le (SHA256 m) = flip (sha256_spec (flat_map bits_of_byte m)) /\
  Forall a_byte (SHA256 m) /\ length (SHA256 m) = 32.
Proof.
  unfold SHA256. set (D := sha256_spec (flat_map bits_of_byte m)). destruct (digest_chunks (flat_map bits_of_byte m)) as [HF HL]. fold D in HF, HL.
  split; [|split; [|split]].
  - rewrite <- (chunks_concat 8 D ltac:(lia)) at 2. clear HL. induction HF as [|c l Hc _ IH]; [reflexivity|]. cbn [map flat_map concat].
    rewrite (byte_again c Hc), IH. reflexivity.
  - rewrite le_bits. unfold flip. clear HL. induction HF as [|c l Hc _ IH]; [reflexivity|]. cbn [map flat_map]. rewrite (byte_again_le c Hc), IH. reflexivity.
  - apply Forall_map. eapply Forall_impl; [|exact HF]. intros c Hc. apply byte_range. now rewrite rev_length.
  - now rewrite map_length.
Qed.
Lemma SHA256d_bits m : flip (sha256_spec (sha256_spec (flip (byte_bits_le m)))) = bytes_to_bits_le (SHA256d m).
Proof.
  rewrite flip_le, to_le. unfold SHA256d. destruct (SHA256_bits (SHA256 m)) as (_ & -> & _). destruct (SHA256_bits m) as (-> & _). reflexivity.
Qed.
Lemma le_inj a b : Forall a_byte a -> Forall a_byte b -> bytes_to_bits_le a = bytes_to_bits_le b -> a = b.
Proof.
  rewrite !to_le, !le_bits. intros Ha. revert b. induction Ha as [|x a Hx Ha IH]; intros [|y b] Hb E; cbn [flat_map] in E; try reflexivity.
  - apply (f_equal (@length bool)) in E. rewrite app_length, bits_of_len in E. cbn in E. lia.
  - apply (f_equal (@length bool)) in E. rewrite app_length, bits_of_len in E. cbn in E. lia.
  - inversion_clear Hb as [|? ? Hy Hb']. pose proof (f_equal (firstn 8) E) as E1. pose proof (f_equal (skipn 8) E) as E2.
    rewrite !firstn_app, !bits_of_len, !Nat.sub_diag, !firstn_O, !app_nil_r, !firstn_all2 in E1 by (rewrite bits_of_len; lia).
    rewrite !skipn_app, !bits_of_len, !Nat.sub_diag, !skipn_O, !skipn_all2 in E2 by (rewrite bits_of_len; lia). cbn [app] in E2.
    apply (f_equal le_value) in E1. rewrite !byte_back in E1 by assumption. f_equal; auto.
Qed.

Section C67.
Context {P : PrimeField}.
Add Field PFc67 : (F_field P).

Lemma read_bits n (rho : Var -> P) bs : length bs = n * 8 -> (forall i b, nth_error bs i = Some b -> rho (Aux i) = fb b) ->
  byte_bits_le (read_bytes n rho) = bs /\ Forall a_byte (read_bytes n rho) /\ length (read_bytes n rho) = n.
Proof.
  intros Hl H. set (v := fun i => negb (feqb (rho (Aux i)) fzero)).
  assert (Hv : forall i b, nth_error bs i = Some b -> v i = b).
  { intros i b Hb. unfold v. rewrite (H i b Hb). destruct b; cbn [fb].
    - destruct (feqb (fone : P) fzero) eqn:E; [|reflexivity]. apply feqb_eq in E. now apply f_1_neq_0 in E.
    - rewrite (proj2 (feqb_eq P fzero fzero) eq_refl). reflexivity. }
  assert (Eb : bs = map v (seq 0 (n * 8))).
  { apply nth_ext with (d := false) (d' := v 0); [now rewrite map_length, seq_length|]. intros i Hi. rewrite map_nth, seq_nth by lia. cbn [Nat.add].
    symmetry. apply Hv. now apply nth_error_nth'. }
  split; [|split; [|unfold read_bytes; now rewrite map_length, seq_length]].
  - rewrite Eb, le_bits. clear. unfold read_bytes.
    assert (G : forall m a, flat_map (bits_of 8) (map (read_byte rho) (seq a m)) = map v (seq (8 * a) (m * 8))).
    { induction m as [|m IH]; intros a; [reflexivity|]. cbn [seq map flat_map]. rewrite IH. unfold read_byte. rewrite byte_round by now rewrite map_length, seq_length.
      change (S m * 8) with (8 + m * 8). rewrite seq_app, map_app. f_equal; [|f_equal; f_equal; lia].
      replace (seq (8 * a) 8) with (map (fun j => 8 * a + j) (seq 0 8)); [now rewrite map_map|]. cbn [seq map]. repeat (f_equal; [lia|]). repeat f_equal; lia. }
    apply (G n 0).
  - apply Forall_map, Forall_forall. intros i _. apply byte_range. now rewrite map_length, seq_length.
Qed.

Lemma packed_def hash : compute_multipacking (bytes_to_bits_le hash) = (packed hash : list P). Proof. reflexivity. Qed.
(** Both sides, the constraints for the inputs included. *)
Lemma whole n bytes : 64 <= num_bits P -> length bytes = n ->
  exists (inst : KState P) (wit : PState P), describes (my_circuit n None) inst /\ assigns (my_circuit n (Some bytes)) wit /\ same_circuit inst wit /\ satisfying wit /\
    p_inputs wit = fone :: packed (SHA256d bytes) /\
    (forall i b, nth_error (byte_bits_le bytes) i = Some b -> value wit (Aux i) = fb b) /\ length (p_inputs wit) <= length (p_cons wit) /\
    (0 < n -> Z.of_nat (length (p_aux wit)) = (Z.of_nat (n * 8) + p_vars (sha256d_price (capacity P) (n * 8)))%Z /\
      Z.of_nat (length (p_cons wit)) = (Z.of_nat (n * 8) + CostSpec.p_cons (sha256d_price (capacity P) (n * 8)) + Z.of_nat (Nat.div (256 + (capacity P - 1)) (capacity P))
         + Z.of_nat (length (p_inputs wit)))%Z).
Proof.
  intros H64 Hn. destruct (both_runs n bytes H64 Hn) as (s3 & Eh & Es & Hs & Hi & Hk & Hc).
  rewrite SHA256d_bits, packed_def in Hi.
  exists {| k_inputs := length (p_inputs s3); k_aux := length (p_aux s3); k_cons := p_cons s3 ++ map input_constraint (seq 0 (length (p_inputs s3))) |}.
  exists {| p_inputs := p_inputs s3; p_aux := p_aux s3; p_cons := p_cons s3 ++ map input_constraint (seq 0 (length (p_inputs s3))) |}.
  split; [|split; [|split; [|split; [|split; [|split; [|split]]]]]].
  - unfold describes, synthesize. rewrite start_s. unfold start_shape in Es. unfold shape_one. rewrite Es. cbn [obind]. rewrite shape_enforce_inputs. reflexivity.
  - unfold assigns, synthesize. rewrite start_h. unfold start_honest in Eh. unfold honest_one. rewrite Eh. cbn [obind]. rewrite honest_enforce_inputs. reflexivity.
  - repeat split.
  - intros a b c Hin. cbn [p_cons] in Hin. apply in_app_or in Hin as [Hin|Hin].
    + unfold sat in Hs. rewrite Forall_forall in Hs. exact (Hs _ Hin).
    + apply in_map_iff in Hin as (i & [= <- <- <-] & _). rewrite !eval_nil. apply mul_0_r_.
  - exact Hi.
  - exact Hk.
  - cbn [p_cons p_inputs]. rewrite app_length, map_length, seq_length. lia.
  - intros Hp. destruct (Hc Hp) as [C1 C2]. split; [exact C1|]. cbn [p_cons p_inputs]. rewrite app_length, map_length, seq_length. rewrite Nat2Z.inj_add, C2. reflexivity.
Qed.

Lemma satisfying_satisfies (inst : KState P) wit xs : satisfying wit -> p_cons wit = k_cons inst -> p_inputs wit = fone :: xs -> length (p_inputs wit) = k_inputs inst ->
  satisfies inst (value wit) /\ inputs_of inst (value wit) = xs.
Proof.
  intros Hs Hc Hi Hl. split; [split|].
  - unfold value. now rewrite Hi.
  - rewrite <- Hc. exact Hs.
  - unfold inputs_of. rewrite <- Hl, Hi. cbn [length]. rewrite Nat.sub_succ, Nat.sub_0_r. clear - Hi.
    assert (X : map (fun i => value wit (Input i)) (seq 1 (length xs)) = map (fun i => nth i (fone :: xs) fzero) (seq 1 (length xs))).
    { apply map_ext. intros i. unfold value. now rewrite Hi. }
    rewrite X, <- seq_shift, map_map. cbn [nth]. clear. induction xs as [|x xs IH]; [reflexivity|]. cbn [length seq map nth]. f_equal.
    rewrite <- seq_shift, map_map. exact IH.
Qed.

Lemma packed_inj m hash : Forall a_byte hash -> length hash = 32 -> packed (SHA256d m) = (packed hash : list P) -> SHA256d m = hash.
Proof.
  intros Hh Hl. unfold SHA256d. destruct (SHA256_bits (SHA256 m)) as (_ & _ & D1 & D2). generalize dependent (SHA256 (SHA256 m)). intros h D1 D2 Hi.
  unfold packed in Hi. apply compute_multipacking_inj in Hi; [|rewrite !bytes_to_bits_le_length; now rewrite D2, Hl]. now apply le_inj.
Qed.
Lemma public_of (wit : PState P) xs : p_inputs wit = fone :: xs -> public_inputs wit = xs.
Proof. intros H. unfold public_inputs. now rewrite H. Qed.

(** Whatever the preimage, the prover's assignment satisfies the constraints, has the hash as its public inputs and the preimage in its first
    auxiliary variables; and the prover's constraints are those of the keys. *)
Theorem C67_complete n bytes : 64 <= num_bits P -> length bytes = n -> Forall a_byte bytes ->
  exists (inst : KState P) (wit : PState P), describes (my_circuit n None) inst /\ assigns (my_circuit n (Some bytes)) wit /\ same_circuit inst wit /\ satisfying wit /\
    public_inputs wit = packed (SHA256d bytes) /\ read_bytes n (value wit) = bytes.
Proof.
  intros H64 Hn Hb. destruct (whole n bytes H64 Hn) as (inst & wit & A & B & C & D & E & F & _). exists inst, wit. repeat (split; [assumption|]).
  split; [exact (public_of _ _ E)|].
  destruct (read_bits n (value wit) (byte_bits_le bytes)) as (R1 & R2 & _); [unfold byte_bits_le; rewrite bits8; now rewrite Hn|exact F|].
  apply le_inj; [exact R2|exact Hb|exact R1].
Qed.

(** Whatever satisfies the constraints of the keys has as its public inputs the hash of the bytes that can be read off its first auxiliary variables. *)
Theorem C67_sound n (inst : KState P) (rho : Var -> P) : describes (my_circuit n None) inst -> satisfies inst rho ->
  Forall a_byte (read_bytes n rho) /\ length (read_bytes n rho) = n /\ inputs_of inst rho = packed (SHA256d (read_bytes n rho)).
Proof.
  intros Hd [H1 Hs]. unfold describes, synthesize in Hd. rewrite start_s in Hd.
  destruct (run (ShapeCS P) (my_circuit n None) shape_one) as [[[[]|e] k]|] eqn:Ek; cbn [obind] in Hd; try discriminate Hd.
  rewrite shape_enforce_inputs in Hd. cbn [obind] in Hd. apply Done_inj in Hd. injection Hd as <-. cbn [k_cons] in Hs.
  destruct (circuit_sound n k rho Ek H1) as (bs & Hl & Hx & Hi & Hp).
  { unfold sat. apply Forall_forall. intros [[a b] c] Hin. apply Hs, in_or_app. now left. }
  destruct (read_bits n rho bs Hl Hx) as (R1 & R2 & R3). split; [exact R2|]. split; [exact R3|].
  unfold inputs_of, packed. cbn [k_inputs]. rewrite Hi. rewrite Nat.add_sub_swap, Nat.sub_diag by lia. cbn [Nat.add]. rewrite Hp, <- R1, SHA256d_bits. reflexivity.
Qed.

(** So a hash can be proved exactly if it has a preimage of this length. *)
Theorem C67_statement n (inst : KState P) hash : 64 <= num_bits P -> describes (my_circuit n None) inst -> Forall a_byte hash -> length hash = 32 ->
  (exists rho, satisfies inst rho /\ inputs_of inst rho = packed hash) <->
  (exists preimage, Forall a_byte preimage /\ length preimage = n /\ SHA256d preimage = hash).
Proof.
  intros H64 Hd Hh Hl. split.
  - intros (rho & Hs & Hi). destruct (C67_sound n inst rho Hd Hs) as (R1 & R2 & R3). exists (read_bytes n rho). split; [exact R1|]. split; [exact R2|].
    rewrite R3 in Hi. exact (packed_inj _ _ Hh Hl Hi).
  - intros (pre & Hb & Hn & <-). destruct (whole n pre H64 Hn) as (inst' & wit & A & B & C & D & E & F & _).
    assert (inst' = inst) as -> by (unfold describes in *; rewrite A in Hd; congruence). destruct C as (C1 & C2 & C3).
    exists (value wit). exact (satisfying_satisfies inst wit _ D (eq_sym C3) E (eq_sym C1)).
Qed.

Lemma packed_length m : length (@packed P (SHA256d m)) = Nat.div (256 + (capacity P - 1)) (capacity P).
Proof.
  unfold packed, compute_multipacking. rewrite map_length, Multipack.chunks_length by apply capacity_pos. rewrite bytes_to_bits_le_length. unfold SHA256d.
  destruct (SHA256_bits (SHA256 m)) as (_ & _ & _ & ->). reflexivity.
Qed.
Lemma cons_len (wit : PState P) xs : p_inputs wit = fone :: xs -> length (p_inputs wit) = S (length xs).
Proof. intros ->. reflexivity. Qed.
Lemma inputs_len (wit : PState P) m : p_inputs wit = fone :: packed (SHA256d m) -> length (p_inputs wit) = S (Nat.div (256 + (capacity P - 1)) (capacity P)).
Proof. intros H. rewrite (cons_len _ _ H), packed_length. reflexivity. Qed.
Lemma zeros_length n : length (repeat 0%Z n) = n. Proof. apply repeat_length. Qed.
Lemma one_instance (circuit : prog P (res unit)) i i' : describes circuit i -> describes circuit i' -> i = i'.
Proof. unfold describes. intros A B. rewrite A in B. congruence. Qed.

Lemma numbers_254 : (Z.of_nat 640 + p_vars (sha256d_price 254 640) = 76998 /\
  Z.of_nat 640 + CostSpec.p_cons (sha256d_price 254 640) + Z.of_nat (Nat.div (256 + (254 - 1)) 254) + Z.of_nat 3 = 77081)%Z.
Proof. vm_compute. split; reflexivity. Qed.
Lemma bits_80 : 80 * 8 = 640. Proof. reflexivity. Qed.
(** The circuit for block headers of 80 bytes, in a field with room for 254 bits: what is in the keys. *)
Theorem C67_sizes (inst : KState P) : capacity P = 254 -> 64 <= num_bits P -> describes (my_circuit 80 None) inst ->
  k_inputs inst = 3 /\ Z.of_nat (k_aux inst) = 76998%Z /\ Z.of_nat (length (k_cons inst)) = 77081%Z.
Proof.
  intros Hc H64 Hd. destruct (whole 80 (repeat 0%Z 80) H64 (zeros_length 80)) as (inst' & wit & A & _ & C & _ & E & _ & _ & G).
  rewrite (one_instance _ _ _ Hd A). destruct C as (C1 & C2 & C3). destruct (G ltac:(lia)) as [G1 G2].
  assert (L : length (p_inputs wit) = 3). { rewrite (inputs_len _ _ E), Hc. reflexivity. }
  rewrite bits_80, Hc in G1, G2. rewrite L in G2. rewrite C1, C2, C3, G1, G2, L. exact (conj eq_refl numbers_254).
Qed.

Lemma worst_80 : sha256d_worst 640 = (76358, 76907)%Z. Proof. vm_compute. reflexivity. Qed.
Lemma header_addressable bytes : 64 <= num_bits P -> length bytes = 80 -> forall wit : PState P, assigns (my_circuit 80 (Some bytes)) wit -> addressable wit.
Proof.
  intros H64 Hl wit Ha. destruct (whole 80 bytes H64 Hl) as (inst & wit' & _ & B & _ & _ & E & _ & _ & G).
  assert (wit' = wit) as -> by (unfold assigns in *; rewrite B in Ha; congruence).
  destruct (G ltac:(lia)) as [G1 G2]. rewrite bits_80 in G1, G2. destruct (sha256d_bound (capacity P) 640) as [B1 B2]. rewrite worst_80 in B1, B2. cbn [fst snd] in B1, B2.
  pose proof (capacity_pos (P := P)) as Hcap.
  assert (L0 : Nat.div (256 + (capacity P - 1)) (capacity P) <= 256).
  { apply Nat.div_le_upper_bound; [lia|]. nia. }
  assert (L : length (p_inputs wit) <= 257). { rewrite (inputs_len _ _ E). lia. }
  remember (Nat.div (256 + (capacity P - 1)) (capacity P)) as q. clear Heqq. unfold addressable. lia.
Qed.

Lemma my_circuit_in_scope n pre : in_scope [] (@my_circuit P n pre) (fun _ => []).
Proof. apply in_scope_scop. intros K K1 _. eapply scop_mono; [|apply circuit_scop; exact K1]. intros. constructor. Qed.

(** Neither side panics or fails before it comes to the arithmetic. *)
Lemma keys_synthesis n : 64 <= num_bits P -> exists s, synthesize_keypair (@my_circuit P n None) = Done (Ok s).
Proof.
  intros H64. destruct (whole n (repeat 0%Z n) H64 (zeros_length n)) as (inst & wit & A & _). destruct (C66_circuits _ _ (my_circuit_in_scope n None)) as [K _].
  unfold describes in A. destruct (synthesize_keypair _) as [[s|e]|]; [eauto| |]; rewrite A in K; discriminate K.
Qed.
Lemma prover_synthesis n bytes : 64 <= num_bits P -> length bytes = n -> exists t, synthesize_prover (@my_circuit P n (Some bytes)) = Done (Ok t).
Proof.
  intros H64 Hn. destruct (whole n bytes H64 Hn) as (inst & wit & _ & A & _). destruct (C66_circuits _ _ (my_circuit_in_scope n (Some bytes))) as [_ K].
  unfold assigns in A. destruct (synthesize_prover _) as [[s|e]|]; [eauto| |]; rewrite A in K; discriminate K.
Qed.

Section Keys.
Context {E : Engine P} (g1 : E_G1 E) (g2 : E_G2 E) (alpha beta gamma delta tau : P).

(** Generating keys never panics; which errors there can be. *)
Theorem C67_keys n w : 64 <= num_bits P -> 0 < n -> wf_worker w ->
  exists (inst : KState P) e, describes (my_circuit n None) inst /\ PropDomain.domain_exponent (length (k_cons inst)) e /\
    match generate_parameters (E := E) w (my_circuit n None) g1 g2 alpha beta gamma delta tau with
    | Panicked => False
    | Done (Ok params) => e < two_adicity P /\ gamma <> fzero /\ delta <> fzero /\ length (ic (p_vk params)) = k_inputs inst
    | Done (Err err) =>
        (err = PolynomialDegreeTooLarge /\ two_adicity P <= e) \/
        (err = UnexpectedIdentity /\ e < two_adicity P /\ (gamma = fzero \/ delta = fzero)) \/
        (err = UnconstrainedVariable /\ e < two_adicity P /\ gamma <> fzero /\ delta <> fzero)
    end.
Proof.
  intros H64 Hn Hw. destruct (keys_synthesis n H64) as [s Hs].
  destruct (generate_cases g1 g2 alpha beta gamma delta tau w _ s Hw Hs) as (ks & e & D & He & Hl & _ & G & _). exists ks, e. split; [exact D|]. split; [exact He|].
  destruct (whole n (repeat 1%Z n) H64 (repeat_length _ _)) as (inst & wit & A & _ & C & _ & I & B & L & _). rewrite <- (one_instance _ _ _ D A) in C. destruct C as (_ & C2 & C3).
  rewrite G.
  - destruct (Nat.ltb_spec e (two_adicity P)); cbn [negb]; [|auto]. destruct (feqb_spec gamma fzero); cbn [orb]; [auto 10|]. destruct (feqb_spec delta fzero); cbn [orb]; [auto 10|].
    destruct (existsb _ _); [auto 10|]. repeat (split; [assumption|]). unfold params_of. cbn [p_vk ic]. now rewrite map_length, seq_length.
  - intros _. rewrite C2. split.
    + rewrite C3 in Hl. rewrite I in L. cbn [length] in L. rewrite packed_length in L. pose proof (capacity_pos (P := P)).
      assert (1 <= Nat.div (256 + (capacity P - 1)) (capacity P)) by (apply Nat.div_le_lower_bound; lia). lia.
    + destruct n as [|n]; [lia|]. specialize (B 0 true eq_refl). cbn [value fb] in B. destruct (p_aux wit); [|cbn; lia]. cbn in B. symmetry in B. now apply f_1_neq_0 in B.
Qed.

(** Nor does proving a preimage of the right length, with whatever parameters; without a preimage there is an error, and for one of the wrong
    length (which the type in the source excludes) a panic, in both cases without looking at the parameters. *)
Theorem C67_prover w ln_ceil (params : Parameters E) r s : 64 <= num_bits P -> wf_worker w -> sane_ln_ceil ln_ceil ->
  (forall bytes, length bytes = 80 -> exists result, create_proof w ln_ceil (my_circuit 80 (Some bytes)) params r s = Done result) /\
  (forall n, 0 < n -> create_proof w ln_ceil (my_circuit n None) params r s = Done (Err AssignmentMissing)) /\
  (forall n bytes, length bytes <> n -> create_proof w ln_ceil (my_circuit n (Some bytes)) params r s = Panicked).
Proof.
  intros H64 Hw Hln. split; [|split].
  - intros bytes Hl. destruct (prover_synthesis 80 bytes H64 Hl) as [t Ht]. destruct (whole 80 bytes H64 Hl) as (_ & wit & _ & B & _).
    apply (C46_never_panics w ln_ceil _ params r s t wit Hw Hln Ht B). exact (header_addressable bytes H64 Hl wit B).
  - intros n Hn. apply C46_synthesis_error. destruct n as [|n]; [lia|]. unfold synthesize_prover, synthesize, my_circuit, bit_values. rewrite repeat_length, Nat.eqb_refl. reflexivity.
  - intros n bytes Hl. unfold create_proof, synthesize_prover, synthesize, my_circuit, bit_values. rewrite map_length. change (flat_map _ bytes) with (byte_bits_le bytes).
    unfold byte_bits_le. rewrite bits8. destruct (Nat.eqb_spec (length bytes * 8) (n * 8)) as [X|X]; [lia|]. reflexivity.
Qed.

(** Proofs verify against the hash. *)
Theorem C67_proofs_verify w w' ln_ceil (params : Parameters E) preimage r s proof : 64 <= num_bits P -> wf_worker w -> wf_worker w' -> sane_ln_ceil ln_ceil ->
  length preimage = 80 ->
  generate_parameters w (my_circuit 80 None) g1 g2 alpha beta gamma delta tau = Done (Ok params) ->
  create_proof w' ln_ceil (my_circuit 80 (Some preimage)) params r s = Done (Ok proof) ->
  verify_proof (prepare_verifying_key (p_vk params)) proof (packed (SHA256d preimage)) = Done (Ok tt).
Proof.
  intros H64 Hw Hw' Hln Hl Hg Hc. destruct (whole 80 preimage H64 Hl) as (inst & wit & A & B & C & D & I & _).
  pose proof (C37_proofs_verify g1 g2 alpha beta gamma delta tau w w' ln_ceil _ _ inst wit params r s proof Hw Hw' Hln Hg A B C (header_addressable preimage H64 Hl wit B) D Hc) as V.
  rewrite (public_of _ _ I) in V. exact V.
Qed.
End Keys.

(** Who can make proofs for a hash accepted (by a fixed rule, for more of the toxic waste than a fraction of [(3 * 2^e + 5) / N]) has a
    preimage of it: the bytes of the first coefficients in the plan for the third element. *)
Theorem C67_knowledge {E : Engine P} n (inst : KState P) e (D : list P) (a : @plan1 P) (b : @plan2 P) (c : @plan1 P) hash (accepted : list (P * P * P * P * P)) :
  describes (my_circuit n None) inst -> PropDomain.domain_exponent (length (k_cons inst)) e ->
  length (x_tau a) <= 2 ^ e -> length (y_tau b) <= 2 ^ e -> length (x_tau c) <= 2 ^ e ->
  Forall a_byte hash -> length hash = 32 -> NoDup D -> NoDup accepted ->
  (forall alpha beta gamma delta tau, In (alpha, beta, gamma, delta, tau) accepted ->
     In alpha D /\ In beta D /\ In gamma D /\ In delta D /\ In tau D /\
     exists w (g1 : E_G1 E) (g2 : E_G2 E) params, wf_worker w /\ pair g1 g2 <> gzero /\
       generate_parameters w (my_circuit n None) g1 g2 alpha beta gamma delta tau = Done (Ok params) /\
       verify_proof (prepare_verifying_key (p_vk params)) (put_together g1 g2 tau params a b c) (packed hash) = Done (Ok tt)) ->
  (3 * 2 ^ e + 5) * length D ^ 4 < length accepted ->
  let preimage := read_bytes n (value (extracted inst (packed hash) c)) in
  Forall a_byte preimage /\ length preimage = n /\ SHA256d preimage = hash.
Proof.
  intros Hd He La Lb Lc Hb Hl HD Hn Hacc Hmany. destruct (C62_witness_known _ inst e D a b c (packed hash) accepted Hd He La Lb Lc HD Hn Hacc Hmany) as [Hs Hk].
  destruct (satisfying_satisfies inst (extracted inst (packed hash) c) (packed hash) Hs eq_refl eq_refl Hk) as [S1 S2].
  destruct (C67_sound n inst _ Hd S1) as (R1 & R2 & R3). cbv zeta. split; [exact R1|]. split; [exact R2|]. rewrite R3 in S2. exact (packed_inj _ _ Hb Hl S2).
Qed.
End C67.
Print Assumptions C67_complete.
Print Assumptions C67_sound.
Print Assumptions C67_statement.
Print Assumptions C67_sizes.
Print Assumptions C67_keys.
Print Assumptions C67_prover.
Print Assumptions C67_proofs_verify.
Print Assumptions C67_knowledge.

(** The preimage of the documentation (lib.rs:109), in the scalar field of BLS12-381: its hash as bytes and as public inputs, and what keys
    and prover have. *)
Definition c67_preimage : list Z := repeat 42%Z 80.
Definition c67_hash : list Z := [3; 162; 49; 51; 4; 151; 127; 49; 47; 223; 244; 157; 229; 7; 88; 106; 141; 167; 183; 220; 15; 8; 119; 12; 82; 218; 14; 207; 0; 73; 27; 5]%Z.
Lemma c67_hashed : SHA256d c67_preimage = c67_hash. Proof. vm_compute. reflexivity. Qed.
Lemma c67_bytes : Forall a_byte c67_preimage. Proof. apply Forall_forall. intros x Hx. apply repeat_spec in Hx. subst x. unfold a_byte. lia. Qed.
Lemma bls_bits : 64 <= num_bits BlsScalar. Proof. cbn. lia. Qed.
Lemma bls_capacity : capacity BlsScalar = 254. Proof. reflexivity. Qed.
Example C67_ex :
  map toZ (@packed BlsScalar c67_hash) = [2309772962954418498785445295622797752641202155880682173246526639083300692483; 0]%Z /\
  exists (inst : KState BlsScalar) (wit : PState BlsScalar),
    describes (my_circuit 80 None) inst /\ assigns (my_circuit 80 (Some c67_preimage)) wit /\ same_circuit inst wit /\ satisfying wit /\
    public_inputs wit = packed c67_hash /\ read_bytes 80 (value wit) = c67_preimage /\
    k_inputs inst = 3 /\ Z.of_nat (k_aux inst) = 76998%Z /\ Z.of_nat (length (k_cons inst)) = 77081%Z.
Proof.
  split; [vm_compute; reflexivity|]. destruct (C67_complete 80 c67_preimage bls_bits (repeat_length _ _) c67_bytes) as (inst & wit & A & B & C & D & I & R).
  exists inst, wit. rewrite c67_hashed in I. destruct (C67_sizes inst bls_capacity bls_bits A) as (S1 & S2 & S3).
  exact (conj A (conj B (conj C (conj D (conj I (conj R (conj S1 (conj S2 S3)))))))).
Qed.
