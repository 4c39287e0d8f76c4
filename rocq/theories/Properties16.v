(** C88 to C92: soundness errors, by counting the challenges on which a false statement passes. *)
From Coq Require Import String List Arith Lia ZArith Bool Znumtheory.
From Verif Require Import Prelude Alg Poly MLE MLE_Proofs Zippel Counting Transcript Interp Sumcheck Sumcheck_Proofs CombDeg
  Arith Arith_Proofs Balanced Rings Rings_Proofs Linearization Linearization_Proofs Relations LinRel
  Decomposition Decomposition_Proofs Folding Folding_Comb Folding_Proofs Folding_Complete Folding_Sound NIFS NIFS_Proofs Extract
  Challenge Challenge_Proofs PolyInst Primes FieldExt CycInst RealRings ShortDual Sampling Properties9 Properties12
  Shipped Properties13 Poseidon_Proofs PShipped SoundErr RandomOracle NIFS_RO.
Import ListNotations.
Local Open Scope rs_scope.

(** * C88: the sumcheck, interactively *)
(** If the claimed sum is wrong then, whatever messages the prover sends, each depending on the earlier challenges, at most
    [n d |S|^(n-1)] of the [|S|^n] challenge vectors over [S] lead to acceptance with a true final value. *)
Theorem C88_sumcheck_error {R K} {RO : RingOps R} {KO : FieldOps K} {E : Embed K R} {LR : RingLaws R} {LK : FieldLaws K} {EL : EmbedLaws K R}
    n d (g : list R -> R) (claimed : R) (P : list K -> list R) (S : list K) :
  (1 <= d)%nat -> char_gt K d -> var_deg n d g -> claimed <> cube_sum n g ->
  few (fun x => In x (tuples n S) /\
         exists r e ts', sc_verify (TO := coin_trans) x n d claimed (sc_messages P 0 n x) = Ok (r, e, ts') /\ e = g (map emb r))
      (n * d * length S ^ (n - 1)).
Proof. apply sumcheck_error. Qed.

(** * C89: the folding step, interactively *)
(** For every prover strategy, at most this many of the [|S|^(n_coins + e)] coin vectors make the verifier accept although one of the
    input instances is false. *)
Theorem C89_nifs_error {F K C R} {SO : SOps F K C R} {p} {SL : SLaws F K C R p} {HO : ShortOps (list K) C}
    P (A : ajtai R) (cs : ccs R) acc cm_i (opn : list R -> witness C R) w0 (st : strategy) e (S : list K) :
  sizes_ok p P cs -> degree_ok cs -> char_gt K (c_d cs + 1) -> char_gt K (2 * dp_b P) -> (2 * Z.of_nat (dp_b P) <= p + 1)%Z ->
  NoDup S -> (Nat.max tau (c_t cs) < length S)%nat -> length (lc_r acc) = c_s cs ->
  few (fun x => In x (tuples (n_coins P cs + e) S) /\ fooled P A cs acc cm_i opn w0 st x)
    ((c_s cs + c_s cs * (c_d cs + 1) + ((6 * dp_K P - 1 + c_s cs) * Nat.max tau (c_t cs) + c_s cs * (2 * dp_b P)))
     * length S ^ (n_coins P cs + e - 1)).
Proof. apply nifs_error. Qed.

(** * C91: the sumcheck, made non-interactive with a random oracle *)
Theorem C91_sumcheck_ro {R K} {RO : RingOps R} {KO : FieldOps K} {E : Embed K R} {LR : RingLaws R} {LK : FieldLaws K} {EL : EmbedLaws K R}
    n d (g : list R -> R) (claimed : R) (l0 : list (ev R K)) (S : list K) Q (qry : list K -> list (ev R K)) (out : list K -> list (list R)) :
  (1 <= d)%nat -> char_gt K d -> var_deg n d g -> claimed <> cube_sum n g ->
  few (fun x => In x (tuples Q S) /\
         exists r e t', sc_verify (TO := ro_trans (ro_table qry x)) (Ro l0 true) n d claimed (out x) = Ok (r, e, t') /\
           ro_ok t' = true /\ e = g (map emb r))
      (Q * d * length S ^ (Q - 1)).
Proof. apply sumcheck_ro. Qed.

(** * C92: the folding step, made non-interactive with a random oracle *)
Theorem C92_nifs_ro {F K C R} {SO : SOps F K C R} {p} {SL : SLaws F K C R p}
    P (A : ajtai R) (cs : ccs R) acc cm_i (opn : list R -> witness C R) w0 l0 hs (S : list K) Q (qry : list K -> list (ev R K)) (out : list K -> lf_proof R) :
  sizes_ok p P cs -> degree_ok cs -> char_gt K (c_d cs + 1) -> char_gt K (2 * dp_b P) -> (2 * Z.of_nat (dp_b P) <= p + 1)%Z ->
  NoDup S -> (Nat.max tau (c_t cs) < length S)%nat -> length (lc_r acc) = c_s cs ->
  few (fun x => In x (tuples Q S) /\ fooled_ro P A cs acc cm_i opn w0 l0 hs qry out x)
    (Q * Nat.max (c_d cs + 1) (Nat.max (Nat.max tau (c_t cs)) (2 * dp_b P)) * length S ^ (Q - 1)).
Proof. apply nifs_ro. Qed.

(** * C90: the four rings *)
Section Real.
Context {p : Z} {K : Type} (y : cyc p K) (decode : list Z -> result (list Z)) (need : nat) (RR : real_ring p K y decode need).
Notation F := (fp p).
Notation C := (pol F (cy_d y)).
Notation R := (pol K (cy_k y)).
Local Instance SO16 : SOps F K C R := cyc_ops y.
Local Instance SL16 : SLaws F K C R p := real_laws y decode need RR.

(** The challenges made of all tuples of squeezed field elements ([PShipped.challenge_spec]: [get_challenge] squeezes [cy_e] elements and
    puts them together with [cy_of]). *)
Definition all_challenges : list K := map (cy_of y) (tuples (cy_e y) fp_all).

(** Each challenge comes from exactly one tuple, there are [p^e] of them and every element of the field is one. *)
Theorem C90_challenges : NoDup all_challenges /\ (forall k, In k all_challenges) /\
  Z.of_nat (length all_challenges) = (p ^ Z.of_nat (cy_e y))%Z /\ (2 ^ 191 <= p ^ Z.of_nat (cy_e y))%Z.
Proof.
  pose proof (real_of_co y decode need RR) as O. destruct (real_facts y decode need RR) as (Pp & P2 & XL & _).
  split; [|split; [|split]].
  - unfold all_challenges. pose proof (tuples_NoDup (cy_e y) _ (fp_all_NoDup (p := p) Pp)) as HN.
    assert (forall x, In x (tuples (cy_e y) (fp_all (p := p))) -> length x = cy_e y) as Hl by (intros x Hx; apply in_tuples in Hx; tauto).
    apply (map_nodup_on _ (fun x => length x = cy_e y)); auto; [|apply Forall_forall; auto].
    intros x x' H H' E. rewrite <- (O x), <- (O x') by auto. congruence.
  - intros k. unfold all_challenges. apply in_map_iff. exists (cy_co y k). split; [apply (xl_of y XL)|]. apply in_tuples. split; [apply (xl_len y XL)|].
    apply Forall_forall. intros x _. apply in_fp_all. exact Pp.
  - unfold all_challenges. rewrite map_length, tuples_length, fp_all_length, Nat2Z.inj_pow, Z2Nat.id by lia. reflexivity.
  - destruct RR; vm_compute; discriminate.
Qed.
(** From a bound on a count to a probability of at most [2^-128]. *)
Lemma small_error {A} (P : A -> Prop) N m : few P (N * length all_challenges ^ (m - 1)) -> (1 <= m)%nat -> (Z.of_nat N <= 2 ^ 63)%Z ->
  forall L, NoDup L -> Forall P L -> (2 ^ 128 * Z.of_nat (length L) <= Z.of_nat (length all_challenges) ^ Z.of_nat m)%Z.
Proof.
  intros HF Hm HN L H1 H2. apply HF in H2; auto. destruct C90_challenges as (_ & _ & E & H191). rewrite <- E in H191.
  set (q := length all_challenges) in *. apply Nat2Z.inj_le in H2. rewrite Nat2Z.inj_mul, Nat2Z.inj_pow in H2.
  replace m with (Datatypes.S (m - 1)) at 1 by lia. rewrite Nat2Z.inj_succ, Z.pow_succ_r by lia.
  set (w := (Z.of_nat q ^ Z.of_nat (m - 1))%Z) in *. assert (0 <= w)%Z as Hw by (apply Z.pow_nonneg; lia).
  transitivity (2 ^ 128 * (2 ^ 63 * w))%Z.
  - apply Z.mul_le_mono_nonneg_l; [lia|]. etransitivity; [exact H2|]. apply Z.mul_le_mono_nonneg_r; auto.
  - rewrite Z.mul_assoc. apply Z.mul_le_mono_nonneg_r; auto.
Qed.
(** [2^-128] soundness of the interactive folding step. *)
Theorem C90_nifs_error {HO : ShortOps (list K) C} P (A : ajtai R) (cs : ccs R) acc cm_i (opn : list R -> witness C R) w0 (st : strategy) e :
  sizes_ok p P cs -> degree_ok cs -> (Z.of_nat (c_d cs + 1) < p)%Z -> (2 * Z.of_nat (dp_b P) < p)%Z -> length (lc_r acc) = c_s cs ->
  (Z.of_nat (c_s cs + c_s cs * (c_d cs + 1) + ((6 * dp_K P - 1 + c_s cs) * Nat.max tau (c_t cs) + c_s cs * (2 * dp_b P))) <= 2 ^ 63)%Z ->
  forall L, NoDup L -> Forall (fun x => In x (tuples (n_coins P cs + e) all_challenges) /\ fooled P A cs acc cm_i opn w0 st x) L ->
    (2 ^ 128 * Z.of_nat (length L) <= Z.of_nat (length all_challenges) ^ Z.of_nat (n_coins P cs + e))%Z.
Proof.
  intros Hsz Hd Hcd Hcb Hra HN. destruct C90_challenges as (H1 & _ & H3 & H4). pose proof (so_K _ _ _ Hsz) as HK.
  apply (small_error _ (c_s cs + c_s cs * (c_d cs + 1) + ((6 * dp_K P - 1 + c_s cs) * Nat.max tau (c_t cs) + c_s cs * (2 * dp_b P)))); auto; [|unfold n_coins; lia].
  apply (C89_nifs_error (SL := SL16)); auto; [apply (real_char y decode need RR); auto|apply (real_char y decode need RR); lia|lia|].
  apply Nat2Z.inj_lt. rewrite H3. eapply Z.lt_le_trans; [|exact H4]. apply Z.le_lt_trans with (m := (2 ^ 63)%Z); [|reflexivity].
  etransitivity; [|exact HN]. apply Nat2Z.inj_le. nia.
Qed.
(** [2^-128] soundness of the non-interactive folding step against [Q] questions. *)
Theorem C90_nifs_ro P (A : ajtai R) (cs : ccs R) acc cm_i (opn : list R -> witness C R) w0 l0 hs Q (qry : list K -> list (ev R K)) (out : list K -> lf_proof R) :
  sizes_ok p P cs -> degree_ok cs -> (Z.of_nat (c_d cs + 1) < p)%Z -> (2 * Z.of_nat (dp_b P) < p)%Z -> length (lc_r acc) = c_s cs ->
  (1 <= Q)%nat -> (Z.of_nat (Q * Nat.max (c_d cs + 1) (Nat.max (Nat.max tau (c_t cs)) (2 * dp_b P))) <= 2 ^ 63)%Z ->
  forall L, NoDup L -> Forall (fun x => In x (tuples Q all_challenges) /\ fooled_ro P A cs acc cm_i opn w0 l0 hs qry out x) L ->
    (2 ^ 128 * Z.of_nat (length L) <= Z.of_nat (length all_challenges) ^ Z.of_nat Q)%Z.
Proof.
  intros Hsz Hd Hcd Hcb Hra HQ HN. destruct C90_challenges as (H1 & _ & H3 & H4).
  apply (small_error _ (Q * Nat.max (c_d cs + 1) (Nat.max (Nat.max tau (c_t cs)) (2 * dp_b P)))); auto.
  apply (C92_nifs_ro (SL := SL16)); auto; [apply (real_char y decode need RR); auto|apply (real_char y decode need RR); lia|lia|].
  apply Nat2Z.inj_lt. rewrite H3. eapply Z.lt_le_trans; [|exact H4]. apply Z.le_lt_trans with (m := (2 ^ 63)%Z); [|reflexivity].
  etransitivity; [|exact HN]. apply Nat2Z.inj_le. nia.
Qed.
End Real.

(** With the shipped parameters only the CCS matters: if it has degree below 2^13 and at most 2^13 matrices, an adversary with at most
    2^50 questions has probability at most [2^-128]. *)
Theorem C90_shipped {p K} (y : cyc p K) decode need W G (SH : shipped p K y decode need W G) P : In P (W ++ G) ->
  forall (A : ajtai (pol K (cy_k y))) cs acc cm_i (opn : list (pol K (cy_k y)) -> witness (pol (fp p) (cy_d y)) (pol K (cy_k y))) w0 l0 hs Q qry out,
  ccs_good (p := p) y P cs -> (Z.of_nat (c_d cs) < 2 ^ 13)%Z -> (Z.of_nat (c_t cs) <= 2 ^ 13)%Z -> length (lc_r acc) = c_s cs ->
  (1 <= Q)%nat -> (Z.of_nat Q <= 2 ^ 50)%Z ->
  forall L, NoDup L -> Forall (fun x => In x (tuples Q (all_challenges y)) /\ fooled_ro (SO := cyc_ops y)
      P A cs acc cm_i opn w0 l0 hs qry out x) L ->
    (2 ^ 128 * Z.of_nat (length L) <= Z.of_nat (length (all_challenges y)) ^ Z.of_nat Q)%Z.
Proof.
  intros HP A cs acc cm_i opn w0 l0 hs Q qry out HC Hd Ht Hra HQ HQ2. pose proof (shipped_ok y decode need W G SH P cs HP HC) as HO.
  pose proof (dg_bp _ _ (shipped_good y decode need W G P SH HP)) as Hbp.
  assert (Z.of_nat (Nat.max (cy_e y) (2 * dp_b P)) <= 2 ^ 13)%Z as Hs.
  { apply Z.leb_le. revert P HP HC HO Hbp. clear - SH.
    assert (forallb (fun P => Z.of_nat (Nat.max (cy_e y) (2 * dp_b P)) <=? 2 ^ 13)%Z (W ++ G) = true) as H by (destruct SH; vm_compute; reflexivity).
    rewrite forallb_forall in H. intros P HP _ _ _. apply H. exact HP. }
  apply (C90_nifs_ro y decode need (shipped_real y decode need W G SH) P A cs acc cm_i opn w0 l0 hs Q qry out); auto; [apply HO|apply HC|apply HC|].
  rewrite Nat2Z.inj_mul. transitivity (2 ^ 50 * 2 ^ 13)%Z; [|reflexivity]. apply Z.mul_le_mono_nonneg; [lia|exact HQ2|lia|].
  change (Z.of_nat (Nat.max (c_d cs + 1) (Nat.max (Nat.max (cy_e y) (c_t cs)) (2 * dp_b P))) <= 2 ^ 13)%Z. lia.
Qed.
