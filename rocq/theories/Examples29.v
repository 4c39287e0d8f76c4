(** C117 on F257[X]/(X^4+1). *)
From Coq Require Import String List Arith Lia ZArith Bool Ring.
From Verif Require Import Prelude Alg MLE MLE_Proofs Zippel Counting Transcript Sumcheck Sumcheck_Proofs Arith Arith_Proofs Linearization_Proofs Folding_Sound
  Rings Rings_Proofs PlusRing PlusUtils_Proofs Toy Inst257 SetCheck SetCheck_Proofs SetCheck_Sound RangeCheck RangeCheck_Proofs RangeCheck_Sound
  Cm Cm_Proofs Plus_Range SoundErr PlusErr CmErr LateB Properties33 Properties4 Examples4 Properties5 Examples5 Properties6 Examples6 Properties10 Examples10.
Import ListNotations.
Local Open Scope rs_scope.

(** The witness [cf 1] with the constant coefficient of its second entry replaced by 100. *)
Definition lbig : list q4 := match cf 1 with a :: Q4 _ b c d :: l => a :: Q4 (zq 100) b c d :: l | l => l end.
Lemma cf1_split : exists a b l, cf 1 = a :: b :: l.
Proof. pose proof (cf_length 1) as H. destruct (cf 1) as [|a [|b l]]; [discriminate H|discriminate H|eauto]. Qed.
Lemma lbig_length : length lbig = (2 ^ 9)%nat.
Proof. rewrite <- (cf_length 1). unfold lbig. destruct cf1_split as (a & [b0 b c d] & l & ->). reflexivity. Qed.
Lemma lbig_psi i : psi_ct (nth i lbig 0) = psi_ct (nth i (cf 1) 0).
Proof.
  destruct cf1_split as (a & [b0 b c d] & l & E). unfold lbig. rewrite E.
  destruct i as [|[|i]]; cbn [nth]; auto.
Qed.
Lemma ex_cm_setting3 : cm_setting (p := 257) [cf 1; cf 2] cA cP 9 [eM; cM].
Proof.
  destruct ex_cm_setting as [H1 H2 H3 H4 H5 H6 H7 H8 H9 H10 H11 H12 H13 H14 H15]. constructor; auto. apply Forall_cons; [apply eM_ok|]. apply Forall_cons; [|apply Forall_nil]. apply cM_ok.
Qed.
Lemma ex_late : Forall2 (fun f f0 : list q4 => length f = (2 ^ 9)%nat /\ forall i, psi_ct (nth i f 0) = psi_ct (nth i f0 0)) [lbig; cf 2] [cf 1; cf 2].
Proof. apply Forall2_cons; [split; [exact lbig_length|exact lbig_psi]|]. apply Forall2_cons; [split; [apply cf_length|auto]|apply Forall2_nil]. Qed.

(** The challenges: all 1, except the second batching challenge. *)
Definition lbpos : nat := (n_batch (2 * 2 + 2) 9 (2 * 2) + 9 + 2 * ark_log2 1)%nat.
Definition lcoins : list fq := map (fun i => if (i =? lbpos + (1 + 9))%nat then zq 2 else zq 1) (seq 0 (lbpos + (1 + 9) + (1 + 9))).
(** A witness with a coefficient outside the range gets through. *)
Theorem C117_order_refuted : exists (fs0 fs : list (list q4)) A P nv M x by_ insts pf rc0 rc1,
  late_prove (TO := tape_trans) A fs0 fs P nv M (x, by_) = Ok (pf, rc0, rc1) /\ cm_passed (TO := tape_trans) A fs P nv M insts pf (x, by_) /\
  exists f y c, In f fs /\ In y f /\ In c (pcoeffs y) /\ (rp_b P ^ Z.of_nat (rp_k P) <= Z.abs (psigned c))%Z.
Proof.
  destruct (C117_late_b (TO := tape_trans) (p := 257) [cf 1; cf 2] [lbig; cf 2] cA cP 9 [eM; cM] (lcoins, []) ex_cm_setting3 ltac:(cbn; lia) ex_late) as (insts & pf & rc0 & rc1 & E1 & E2 & E3 & E4 & E5).
  exists [cf 1; cf 2], [lbig; cf 2], cA, cP, 9%nat, [eM; cM], lcoins, [], insts, pf, rc0, rc1. split; [exact E1|]. split.
  - destruct (tape_batching 9 (kappa cA) (2 * 2 + 2) (2 * 2) 2 pf lcoins [] rc0 rc1 E4 ltac:(lia) ltac:(vm_compute; lia) E3) as [-> ->].
    apply E5; intros H; apply (f_equal fz) in H; vm_compute in H; discriminate H.
  - exists lbig, (nth 1 lbig 0), (zq 100). split; [left; reflexivity|]. split; [apply nth_In; rewrite lbig_length; apply Nat.ltb_lt; reflexivity|].
    split; [|vm_compute; discriminate].
    destruct cf1_split as (a & [b0 b c d] & l & E). unfold lbig. rewrite E. left. reflexivity.
Qed.
(** It is not an accident: at most 6 challenges in 257 resist. *)
Example ex_C117 by_ : let S := map (fun i => zq (Z.of_nat i)) (seq 0 257) in let N := (lbpos + (1 + 9) + (1 + 9))%nat in
  few (fun x => In x (tuples N S) /\ ~ exists insts pf rc0 rc1, late_prove (TO := tape_trans) cA [cf 1; cf 2] [lbig; cf 2] cP 9 [eM; cM] (x, by_) = Ok (pf, rc0, rc1) /\
    cm_passed (TO := tape_trans) cA [lbig; cf 2] cP 9 [eM; cM] insts pf (x, by_)) (6 * length S ^ (N - 1)).
Proof. exact (C117_late_count (p := 257) [cf 1; cf 2] [lbig; cf 2] cA cP 9 [eM; cM] by_ _ ex_cm_setting3 ltac:(cbn; lia) ex_late). Qed.
