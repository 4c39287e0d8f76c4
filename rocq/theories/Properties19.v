(** C99 to C101: soundness errors of the set check, the range check and the linearization of LatticeFold+, interactive and in the random
    oracle model, and the size of the challenge space. *)
From Coq Require Import String List Arith Lia ZArith Bool Ring Znumtheory.
From Verif Require Import Prelude Alg Poly MLE MLE_Proofs Zippel Counting Transcript Interp Sumcheck Sumcheck_Proofs Arith Arith_Proofs
  Linearization_Proofs Folding_Sound Rings PlusRing PlusUtils_Proofs SetCheck SetCheck_Proofs SetCheck_Sound
  RangeCheck RangeCheck_Proofs RangeCheck_Sound Plus Plus_Sound SoundErr RandomOracle PlusErr PlusRO PolyInst Primes Challenge Poseidon_Proofs.
Import ListNotations.
Local Open Scope rs_scope.

Section P.
Context {K R : Type} {PO : POps K R} {p : Z} {PL : PLaws K R p}.
#[local] Existing Instance coin_trans.

(** * C99: the set check
    Whatever the prover does, of the coin vectors with entries in [S] at most [(M * D + 3 * n) * |S|^(N-1)] out of [|S|^N] make the verifier
    accept true evaluations of columns one of which contains an entry that is neither zero nor a power of X; [M] is the number of batching
    challenges. *)
Theorem C99_set_error n (cols : list (list (list R))) vecs nc e (st : set_strategy) (S : list K) :
  NoDup S -> (Nat.max (2 * pdim - 1) (Nat.max nc (length cols + length vecs)) <= length S)%nat -> char_gt K 3 ->
  set_sizes n nc cols vecs -> Exists claim_bad (claims cols vecs) ->
  let M := n_batch (length cols + length vecs) n (length cols) in
  few (fun x => In x (tuples (M + n + e) S) /\ set_fooled n cols vecs (set_play n M st x) x)
    ((M * sc_degree nc (length cols + length vecs) + 3 * n) * length S ^ (M + n + e - 1)).
Proof. exact (set_error (p := p) n cols vecs nc e st S). Qed.
(** The same against an adversary that asks a random oracle [Q] questions. *)
Theorem C99_set_ro n (cols : list (list (list R))) vecs nc l0 (S : list K) Q qry out :
  NoDup S -> (Nat.max (2 * pdim - 1) (Nat.max nc (length cols + length vecs)) <= length S)%nat -> char_gt K 3 ->
  set_sizes n nc cols vecs -> Exists claim_bad (claims cols vecs) ->
  few (fun x => In x (tuples Q S) /\ set_fooled_ro n cols vecs l0 qry out x)
    (Q * Nat.max (sc_degree nc (length cols + length vecs)) 3 * length S ^ (Q - 1)).
Proof. exact (set_ro (p := p) n cols vecs nc l0 S Q qry out). Qed.

(** * C100: the range check
    The same for instances that are not well formed: some digit is not a monomial, the digits do not compose to [f], or [tau] is not the
    vector of the constant terms of [psi * m_tau]. *)
Theorem C100_range_error n N k e insts (st : range_strategy) (S : list K) :
  NoDup S -> (Nat.max (2 * pdim - 1) (length insts * k + length insts) <= length S)%nat -> char_gt K 3 -> (N <= 2 ^ n)%nat ->
  Forall (rg_data N k) insts -> ~ Forall (rg_wf ri_f N k) insts ->
  let m := (length insts * k + length insts)%nat in let M := n_batch m n (length insts * k) in
  few (fun x => In x (tuples (M + n + e) S) /\ range_fooled n k insts (range_play n M st x) x)
    ((M * sc_degree pdim m + 3 * n) * length S ^ (M + n + e - 1)).
Proof. exact (range_error (p := p) n N k e insts st S). Qed.
Theorem C100_range_ro n N k insts l0 (S : list K) Q qry out :
  NoDup S -> (Nat.max (2 * pdim - 1) (length insts * k + length insts) <= length S)%nat -> char_gt K 3 -> (N <= 2 ^ n)%nat ->
  Forall (rg_data N k) insts -> ~ Forall (rg_wf ri_f N k) insts ->
  few (fun x => In x (tuples Q S) /\ range_fooled_ro n k insts l0 qry out x)
    (Q * Nat.max (sc_degree pdim (length insts * k + length insts)) 3 * length S ^ (Q - 1)).
Proof. exact (range_ro (p := p) n N k insts l0 S Q qry out). Qed.

(** * C101: the linearization *)
Theorem C101_lin_error (rc : r1cs R) (f : list R) n e (st : lin_strategy) (S : list K) : char_gt K 3 -> ~ r1cs_holds rc f n ->
  few (fun x => In x (tuples (2 * n + e) S) /\ lin_fooled rc f n (lin_play n st x) x) (4 * n * length S ^ (2 * n + e - 1)).
Proof. exact (lin_error (p := p) rc f n e st S). Qed.
Theorem C101_lin_ro (rc : r1cs R) f n l0 (S : list K) Q qry out : char_gt K 3 -> ~ r1cs_holds rc f n ->
  few (fun x => In x (tuples Q S) /\ lin_fooled_ro rc f n l0 qry out x) (Q * 3 * length S ^ (Q - 1)).
Proof. exact (lin_ro (p := p) rc f n l0 S Q qry out). Qed.
(** The bound is right up to the factor [4n]: a prover that guesses the first challenge of the sumcheck is believed on one coin vector in [|S|],
    whatever the R1CS and the witness. *)
Theorem C101_guess (rc : r1cs R) (f : list R) n (S : list K) c : char_gt K 3 -> (1 <= n)%nat -> NoDup S -> In c S -> 1 - c - c <> 0 ->
  exists st L, NoDup L /\ length L = (length S ^ (2 * n - 1))%nat /\
    Forall (fun x => In x (tuples (2 * n) S) /\ lin_fooled rc f n (lin_play n st x) x) L.
Proof. intros. exists (lin_cheater c rc f n). apply (lin_error_low (p := p)); auto. Qed.
End P.

(** The ring with which latticefold-plus is used (its tests and benches take [frog_ring::RqPoly]): F_p[X]/(X^16+1) over the 64-bit Frog prime; a
    challenge is an element of F_p. *)
Notation FK := (fp frog_p).
Notation FR := (pol (fp frog_p) 16).
#[local] Instance FPO : POps FK FR := poly_ops frog_p 16.
Lemma frog_ge : (2 < frog_p)%Z. Proof. reflexivity. Qed.
#[local] Instance FPL : PLaws FK FR frog_p.
Proof. apply poly_laws; [exact frog_prime|reflexivity|lia|reflexivity]. Qed.
Definition frog_challenges : list FK := fp_all (p := frog_p).
#[local] Existing Instance coin_trans.
Lemma frog_challenges_all : NoDup frog_challenges /\ (forall c, In c frog_challenges) /\ Z.of_nat (length frog_challenges) = frog_p.
Proof.
  split; [apply fp_all_NoDup, frog_prime|]. split; [intros c; apply in_fp_all, frog_prime|].
  unfold frog_challenges. rewrite fp_all_length. apply Z2Nat.id. pose proof frog_ge. lia.
Qed.
(** Every false statement is accepted with probability more than 2^-64. *)
Theorem C101_frog_guess (rc : r1cs FR) (f : list FR) n : (1 <= n)%nat ->
  exists st L, NoDup L /\ Forall (fun x => In x (tuples (2 * n) frog_challenges) /\ lin_fooled rc f n (lin_play n st x) x) L /\
    (Z.of_nat (length frog_challenges) ^ Z.of_nat (2 * n) < 2 ^ 64 * Z.of_nat (length L))%Z.
Proof.
  intros Hn. destruct frog_challenges_all as (H1 & H2 & H3).
  destruct (C101_guess (p := frog_p) rc f n frog_challenges 0) as (st & L & G1 & G2 & G3); auto.
  - apply (poly_char frog_p 16); try reflexivity. lia.
  - intros E. apply (f_equal fpz) in E. vm_compute in E. discriminate.
  - exists st, L. split; auto. split; auto. rewrite G2, Nat2Z.inj_pow, H3. replace (Z.of_nat (2 * n)) with (Z.succ (Z.of_nat (2 * n - 1))) by lia.
    rewrite Z.pow_succ_r by lia. apply Z.mul_lt_mono_pos_r; [|reflexivity]. apply Z.pow_pos_nonneg; [pose proof frog_ge; lia|lia].
Qed.
(** So 2^-128 soundness fails: the system 1 * 1 = 0. *)
Definition bad_r1cs : r1cs FR := R1cs 0 (SMat 2 1 [[(1, 0%nat)]; []]) (SMat 2 1 [[(1, 0%nat)]; []]) (SMat 2 1 [[]; []]).
Theorem C101_128_bits_refuted : exists (rc : r1cs FR) (f : list FR) n st L, ~ r1cs_holds rc f n /\ NoDup L /\
  Forall (fun x => In x (tuples (2 * n) frog_challenges) /\ lin_fooled rc f n (lin_play n st x) x) L /\
  ~ (2 ^ 128 * Z.of_nat (length L) <= Z.of_nat (length frog_challenges) ^ Z.of_nat (2 * n))%Z.
Proof.
  destruct (C101_frog_guess bad_r1cs [1] 1) as (st & L & H1 & H2 & H3); [lia|].
  exists bad_r1cs, [1], 1%nat, st, L. split; [|split; [auto|split; [auto|]]].
  - intros H. specialize (H 0%nat ltac:(cbn; lia)). apply (f_equal (fun x => fpz (co x 0))) in H. vm_compute in H. discriminate.
  - intros H. apply (Z.lt_irrefl (2 ^ 64 * Z.of_nat (length L))). eapply Z.le_lt_trans; [|exact H3]. etransitivity; [|exact H].
    apply Z.mul_le_mono_nonneg_r; [lia|]. vm_compute. discriminate.
Qed.
