(** Concrete cases and a refutation for Properties23.v and Properties24.v (F257[X]/(X^4+1)). *)
From Coq Require Import String List Arith Lia ZArith Bool.
From Verif Require Import Prelude Alg MLE MLE_Proofs Transcript Sumcheck Sumcheck_Proofs Arith Arith_Proofs Linearization_Proofs Folding_Sound
  Rings Rings_Proofs PlusRing PlusUtils_Proofs Toy Inst257 SetCheck SetCheck_Proofs SetCheck_Sound RangeCheck RangeCheck_Proofs Cm Cm_Proofs Plus Plus_Proofs Plus_Norm Plus_Forge Properties5 Examples5 Properties6 Examples6 Properties7 Examples7 Properties23 Properties24.
Import ListNotations.
Local Open Scope rs_scope.

(** Two witnesses of 512 entries with one matrix: the hypotheses of C107 are met, and its conclusions hold with these numbers. *)
Example ex_C107 : exists insts res, mapM (fun f => from_f f cA cP) [cf 1; cf 2] = Ok insts /\ cm_prove (Rg 9 insts cP) [cM] 5%Z = Ok res /\
  a_ncols cA = (2 ^ 9)%nat /\ (kappa cA * (rp_k cP * 4) * rp_l cP * 4 < 2 ^ 9)%nat.
Proof.
  destruct ex_C48_hypotheses as (insts & gs & x & proof & ts' & E1 & E2 & _). exists insts, (gs, x, proof, ts'). split; [exact E1|]. split; [exact E2|].
  destruct (C107_needs (p := 257) [cf 1; cf 2] cA cP insts 9 [cM] 5%Z _ ltac:(apply Nat.leb_le; reflexivity) ltac:(apply Nat.leb_le; reflexivity) E1 E2) as (_ & _ & N1 & _ & N2). destruct N2 as [N2 _]; [discriminate|]. split; [exact N2|]. rewrite <- N2. exact N1.
Qed.
(** * C107: witnesses of 400 entries (nvars = log2(400) = 9, the digits of the commitment fit) with the identity matrix: the instances are
    made, but the transformation answers on no transcript. *)
Definition n400 : nat := 400.
Definition f400 (e : nat) : list q4 := firstn n400 (cf e).
Definition A400 : ajtai q4 := Ajtai n400 [repeat 1 n400].
Definition M400 : smat q4 := SMat n400 n400 (map (fun i => [(1, i)]) (seq 0 n400)).
Theorem C107_length_refuted : ark_log2 n400 = 9%nat /\ wf_mat n400 M400 /\
  exists insts, mapM (fun f => from_f f A400 cP) [f400 1; f400 2] = Ok insts /\
    forall T (TO : TransOps T q4 fq) (ts : T) res, cm_prove (Rg (ark_log2 n400) insts cP) [M400] ts <> Ok res.
Proof.
  split; [reflexivity|]. split.
  { unfold wf_mat, M400. cbn [m_nrows m_ncols m_coeffs]. rewrite map_length, seq_length. repeat split; auto. apply Forall_map, Forall_forall. intros i Hi. apply in_seq in Hi. apply Forall_cons; [|apply Forall_nil]. cbn [snd]. lia. }
  assert (forall e, (e = 1 \/ e = 2)%nat -> exists x : rg_inst fq q4, from_f (f400 e) A400 cP = Ok x) as HF.
  { intros e He. destruct (from_f_ok (p := 257) (f400 e) A400 cP n400) as (x & Ex & _); [ | | | | | | | |exists x; exact Ex].
    - destruct He as [-> | ->]; vm_compute; reflexivity.
    - reflexivity.
    - apply Nat.leb_le. reflexivity.
    - reflexivity.
    - reflexivity.
    - apply Nat.leb_le. reflexivity.
    - destruct He as [-> | ->]; apply in_rangeb_ok; vm_compute; reflexivity.
    - apply Nat.ltb_lt. vm_compute. reflexivity. }
  destruct (HF 1%nat ltac:(auto)) as [x1 H1]. destruct (HF 2%nat ltac:(auto)) as [x2 H2]. exists [x1; x2].
  assert (mapM (fun f => from_f f A400 cP) [f400 1; f400 2] = Ok [x1; x2]) as HM. { cbn [mapM]. rewrite H1. cbn [bind]. rewrite H2. reflexivity. }
  split; [exact HM|]. intros T TO ts res E.
  destruct (C107_needs (p := 257) _ A400 cP _ _ _ ts res ltac:(apply Nat.leb_le; reflexivity) ltac:(apply Nat.leb_le; reflexivity) HM E) as (_ & _ & _ & _ & N). destruct N as [N _]; [discriminate|]. apply (f_equal (fun n => Nat.eqb n 512)) in N. vm_compute in N. discriminate N.
Qed.

(** * C108: a step of the honest prover meets all hypotheses of the theorem about steps. *)
Example ex_C108 : forall ts : Z, exists (pf : plus_proof fq q4) lb0 lb1 res, plus_verify [diagM (2 ^ 10)] ppq pf ts = Ok res /\ lb_r lb0 = lb_r lb1 /\
  pp_d pf = DecProof (lb_cm lb0) (lb_cm lb1) (lb_v lb0) (lb_v lb1) /\ true_linb (bitA (2 ^ 10)) [diagM (2 ^ 10)] 10 (pl_B ppq) lb0 /\ true_linb (bitA (2 ^ 10)) [diagM (2 ^ 10)] 10 (pl_B ppq) lb1 /\
  true_linb (bitA (2 ^ 10)) [diagM (2 ^ 10)] 10 (pl_B ppq + pl_B ppq ^ 2) (LinB (lin2 (pl_B ppq) (lb_f lb0) (lb_f lb1)) (l2_cm (pp_x pf)) (lb_r lb0) (l2_vo (pp_x pf))).
Proof.
  intros ts.
  destruct (C51_run_large_base (p := 257) (bitA (2 ^ 10)) [diagM (2 ^ 10)] ppq 10 [bitf (2 ^ 10)] [[bit_com (2 ^ 10) []]] ts [bit_lin 10 (repeat (zq 5) 10) (repeat (zq 7) 10)]) as (ps & acc' & ts' & E1 & E2 & _ & E4).
  - exact ex_settingq.
  - reflexivity.
  - vm_compute. discriminate.
  - reflexivity.
  - vm_compute. discriminate.
  - vm_compute. discriminate.
  - apply Forall_cons; [|apply Forall_nil]. apply (bit_lin_true (p := 257)); auto. vm_compute. discriminate.
  - apply Forall_cons; [apply Forall_cons; [|apply Forall_nil]|apply Forall_nil]. split; [apply (bit_comp_ok (p := 257))|]. apply (bitf_within (p := 257)). vm_compute. discriminate.
  - apply Nat.leb_le. reflexivity.
  - apply (honest_step (p := 257) _ _ _ _ _ _ _ _ _ 10) with (4 := E1) (5 := E2) (6 := E4); [vm_compute; discriminate|apply bitA_wf|reflexivity].
Qed.
