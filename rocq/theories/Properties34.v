(** C118: adaptively chosen instances and chains of folding steps in the random oracle model. *)
From Coq Require Import String List Arith Lia ZArith Bool Ring.
From Verif Require Import Prelude Alg Poly MLE MLE_Proofs Zippel Counting Transcript Interp Sumcheck Sumcheck_Proofs CombDeg
  Arith Arith_Proofs Balanced Rings Rings_Proofs Linearization Linearization_Proofs Relations LinRel
  Decomposition Decomposition_Proofs Folding Folding_Comb Folding_Proofs Folding_Complete Folding_Sound NIFS NIFS_Proofs
  PolyInst CycInst Sampling Shipped Properties12 Properties13 SoundErr RandomOracle NIFS_RO Extract AdaptRO Properties16.
Import ListNotations.
Local Open Scope rs_scope.

(** * C118
    An adversary asks [Q] questions [qry].  Of the [|S|^Q] vectors of answers at most [Q max(d+1, tau, t, 2b) |S|^(Q-1)] admit any two instances, any
    history before the step and any proof at all, such that the verifier accepts, asks nothing outside the table of answers, and one of the instances
    does not hold.  [opn] and [opw] are the openings of commitments (binding); histories have length [len0] modulo [W]. *)
Theorem C118_adaptive {F K C R} {SO : SOps F K C R} {p} {SL : SLaws F K C R p}
    P (A : ajtai R) (cs : ccs R) (opn : list R -> witness C R) opw hs (S : list K) Q (qry : list K -> list (ev R K)) W len0 :
  sizes_ok p P cs -> degree_ok cs -> char_gt K (c_d cs + 1) -> char_gt K (2 * dp_b P) -> (2 * Z.of_nat (dp_b P) <= p + 1)%Z ->
  NoDup S -> (Nat.max tau (c_t cs) < length S)%nat -> (len_sc P A cs < W)%nat ->
  few (fun x => In x (tuples Q S) /\ exists l0 acc cm_i pf, (exists j, length l0 = len0 + j * W)%nat /\ st_ok A cs acc cm_i /\
         fooled_tab P A cs acc cm_i opn (opw (i_cm cm_i)) l0 hs (ro_table qry x) pf)
    (Q * Nat.max (c_d cs + 1) (Nat.max (Nat.max tau (c_t cs)) (2 * dp_b P)) * length S ^ (Q - 1)).
Proof. apply nifs_ro_any. Qed.

(** Chains of any length, each step folding into the output of the one before, with a fresh transcript in every step ([cont = false]) or one transcript
    for all of them: the bound is that of a single step, for all chains together. *)
Theorem C118_chain {F K C R} {SO : SOps F K C R} {p} {SL : SLaws F K C R p}
    P (A : ajtai R) (cs : ccs R) (opn : list R -> witness C R) opw cont hs (S : list K) Q (qry : list K -> list (ev R K)) l0 :
  sizes_ok p P cs -> degree_ok cs -> char_gt K (c_d cs + 1) -> char_gt K (2 * dp_b P) -> (2 * Z.of_nat (dp_b P) <= p + 1)%Z ->
  NoDup S -> (Nat.max tau (c_t cs) < length S)%nat ->
  few (fun x => In x (tuples Q S) /\ fools_chain P A cs opn opw cont hs qry l0 x)
    (Q * Nat.max (c_d cs + 1) (Nat.max (Nat.max tau (c_t cs)) (2 * dp_b P)) * length S ^ (Q - 1)).
Proof. apply chain_ro. Qed.

(** The shipped rings and parameters: 2^50 questions, probability at most 2^-128, whatever the number of steps. *)
Theorem C118_shipped {p K} (y : cyc p K) decode need W G (SH : shipped p K y decode need W G) P : In P (W ++ G) ->
  forall (A : ajtai (pol K (cy_k y))) cs (opn : list (pol K (cy_k y)) -> witness (pol (fp p) (cy_d y)) (pol K (cy_k y))) opw cont hs Q qry l0,
  ccs_good (p := p) y P cs -> (Z.of_nat (c_d cs) < 2 ^ 13)%Z -> (Z.of_nat (c_t cs) <= 2 ^ 13)%Z -> (1 <= Q)%nat -> (Z.of_nat Q <= 2 ^ 50)%Z ->
  forall L, NoDup L -> Forall (fun x => In x (tuples Q (all_challenges y)) /\ fools_chain (SO := cyc_ops y) P A cs opn opw cont hs qry l0 x) L ->
    (2 ^ 128 * Z.of_nat (length L) <= Z.of_nat (length (all_challenges y)) ^ Z.of_nat Q)%Z.
Proof.
  intros HP A cs opn opw cont hs Q qry l0 HC Hd Ht HQ HQ2. pose proof (shipped_ok y decode need W G SH P cs HP HC) as HO.
  pose proof (dg_bp _ _ (shipped_good y decode need W G P SH HP)) as Hbp. pose proof (shipped_real y decode need W G SH) as RR.
  destruct (C90_challenges y decode need RR) as (H1 & _ & H3 & H4).
  assert (Z.of_nat (Nat.max (cy_e y) (2 * dp_b P)) <= 2 ^ 13)%Z as Hs.
  { apply Z.leb_le. revert P HP HC HO Hbp. clear - SH.
    assert (forallb (fun P => Z.of_nat (Nat.max (cy_e y) (2 * dp_b P)) <=? 2 ^ 13)%Z (W ++ G) = true) as H by (destruct SH; vm_compute; reflexivity).
    rewrite forallb_forall in H. intros P HP _ _ _. apply H. exact HP. }
  apply (small_error y decode need RR _ (Q * Nat.max (c_d cs + 1) (Nat.max (Nat.max (cy_e y) (c_t cs)) (2 * dp_b P)))); auto.
  - refine (C118_chain (SL := real_laws y decode need RR) P A cs opn opw cont hs _ Q qry l0 _ _ _ _ _ H1 _); [apply HO|apply HC|apply (real_char y decode need RR); apply HC|apply (real_char y decode need RR); lia|lia|].
    apply Nat2Z.inj_lt. rewrite H3. eapply Z.lt_le_trans; [|exact H4]. change (Z.of_nat (Nat.max (cy_e y) (c_t cs)) < 2 ^ 191)%Z. apply Z.le_lt_trans with (m := (2 ^ 13)%Z); [lia|reflexivity].
  - rewrite Nat2Z.inj_mul. transitivity (2 ^ 50 * 2 ^ 13)%Z; [|reflexivity]. apply Z.mul_le_mono_nonneg; [lia|exact HQ2|lia|].
    change (Z.of_nat (Nat.max (c_d cs + 1) (Nat.max (Nat.max (cy_e y) (c_t cs)) (2 * dp_b P))) <= 2 ^ 13)%Z. lia.
Qed.
