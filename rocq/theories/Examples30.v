(** Concrete cases for the theorems of Properties34.v. *)
From Coq Require Import String List Arith Lia ZArith Bool Ring.
From Verif Require Import Prelude Alg Poly MLE MLE_Proofs Zippel Counting Transcript Interp Sumcheck Sumcheck_Proofs CombDeg
  Arith Arith_Proofs Balanced Rings Rings_Proofs Linearization Linearization_Proofs Relations LinRel
  Decomposition Decomposition_Proofs Folding Folding_Comb Folding_Proofs Folding_Complete Folding_Sound NIFS NIFS_Proofs
  Inst5 Toy Properties1 Examples1 Properties2 Examples2 PolyInst CycInst Sampling Shipped Properties13 Examples13 SoundErr RandomOracle NIFS_RO Extract AdaptRO
  Properties16 Examples15 Properties34.
Import ListNotations.
Local Open Scope rs_scope.

(** ** C118: the false instance of Examples15.v, as a chain of one step *)
Lemma ex_step : exists lc t', step_passed exP exA exCs ex_opn (fun _ => liarW) ex_hs (ro_table liarQry ex_coins) [] exAcc liarI liarPf lc t'.
Proof.
  unfold step_passed. cbv zeta. set (tab := ro_table liarQry ex_coins).
  destruct (ok_some (nifs_verify (TO := ro_trans tab) (HO := ro_short ex_hs) exP exAcc liarI liarPf (Ro [] true) exCs)
    (fun r => ro_ok (snd r) && leqb (lc_r (fst r)) (map emb (skipn 17 ex_coins)))) as ([lc t'] & E & HV); [vm_compute; reflexivity|].
  cbn [fst snd] in HV. apply andb_true_iff in HV as [Hok Er]. apply leqb_true in Er.
  destruct (ok_some (lin_verify (TO := ro_trans tab) liarI (lf_lin liarPf) (absorb_public_input (TO := ro_trans tab) exAcc liarI (Ro [] true)) exCs)
    (fun r => leqb (lc_r (fst r)) (map emb (firstn 2 (skipn 2 ex_coins))))) as ([lin t1] & EL & HL); [vm_compute; reflexivity|].
  cbn [fst] in HL. apply leqb_true in HL.
  exists lc, t'. split; [exact E|]. split; [exact Hok|]. split; [shape|]. split; [shape|]. exists lin, t1. split; [exact EL|].
  split; [shape|]. split; [shape|]. rewrite HL. split; [apply ex_opens|]. rewrite Er.
  split; [vm_compute; reflexivity|]. split; vm_compute; reflexivity.
Qed.
Example ex_C118 cont : sizes_ok 5 exP exCs /\ degree_ok exCs /\ char_gt f25 (c_d exCs + 1) /\ char_gt f25 (2 * dp_b exP) /\ (2 * Z.of_nat (dp_b exP) <= 5 + 1)%Z /\
  (Nat.max tau (c_t exCs) < 25)%nat /\ fools_chain exP exA exCs ex_opn (fun _ => liarW) cont ex_hs liarQry [] ex_coins.
Proof.
  split; [apply ex_sizes|]. split; [apply ex_in_order|]. split; [apply char5_le; cbn; lia|]. split; [apply char5_le; cbn; lia|]. split; [cbn; lia|]. split; [cbn; lia|].
  exists exAcc, [(liarI, liarPf)]. split.
  - destruct ex_step as (lc & t' & H). exists lc, t'. split; [exact H|exact I].
  - left. intros (_ & H & _). revert H. apply liar_false. vm_compute. reflexivity.
Qed.
(** The instances of the step are of the stated sizes, and the histories of a fresh transcript and of one that has been through a step are allowed. *)
Example ex_C118_any : st_ok exA exCs exAcc liarI /\ (len_sc exP exA exCs < len_step exP exA exCs)%nat.
Proof. split; [shape|unfold len_step; lia]. Qed.
(** Over the shipped rings, with the system of squares and all shipped parameters. *)
Example ex_C118_shipped {p K} (y : cyc p K) decode need W G P Q : forall SH : shipped p K y decode need W G, In P (W ++ G) -> (1 <= Q)%nat -> (Z.of_nat Q <= 2 ^ 50)%Z ->
  forall A opn opw cont hs qry l0 L, NoDup L -> Forall (fun x => In x (tuples Q (all_challenges y)) /\ fools_chain (SO := cyc_ops y)
      P A (sq_cs y P) opn opw cont hs qry l0 x) L ->
    (2 ^ 128 * Z.of_nat (length L) <= Z.of_nat (length (all_challenges y)) ^ Z.of_nat Q)%Z.
Proof.
  intros SH HP HQ HQ2 A opn opw cont hs qry l0.
  apply (C118_shipped y decode need W G SH P HP A (sq_cs y P)); auto; try (cbn [sq_cs c_d c_t]; lia).
  apply (sq_good y decode need W G SH P HP). apply (ex_L y decode need W G P SH HP).
Qed.
