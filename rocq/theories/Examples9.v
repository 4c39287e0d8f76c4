(** Concrete cases for the theorems of Properties9.v. *)
From Coq Require Import String List Arith Lia ZArith Bool Ring.
From Verif Require Import Prelude Alg Poly MLE MLE_Proofs Transcript Interp Sumcheck Sumcheck_Proofs
  Arith Arith_Proofs Balanced Rings Rings_Proofs Linearization Linearization_Proofs Relations LinRel
  Decomposition Decomposition_Proofs Folding Folding_Comb Folding_Proofs Folding_Complete Folding_Sound NIFS NIFS_Proofs Extract
  Inst5 Toy Properties1 Examples1 Properties2 Examples2 Properties9.
Import ListNotations.
Local Open Scope rs_scope.

(** ** C73: four forked runs of the honest proof of Examples2.v *)
Definition exPf : lf_proof r2 := Eval vm_compute in match honestRun with Some (_, pf, _, _, _, _) => pf | None => LFProof (LinProof [] [] []) (DecProof [] [] [] []) (DecProof [] [] [] []) (FoldProof [] [] []) end.
Definition exCms : list (lcccs r2) * Z := Eval vm_compute in match honestRun with Some (_, _, _, _, (ll, _), (lr, t)) => (ll ++ lr, t) | None => ([], 0%Z) end.
(** The state before the folding challenges. *)
Definition exTr : Z := Eval vm_compute in match rho_state exP (fst exCms) (lf_fold exPf) (snd exCms) exCs with Ok t => t | _ => 0%Z end.
(** Run 0 draws X, 1, -1; run [j] adds X^2 to the challenge [j-1]. *)
Definition exFork (j : nat) : ShortOps Z c4 := fun s =>
  let k := Z.to_nat (s - exTr) in
  (nth k [C4 0 1 0 0; 1; - (1)] 0 + (if (S k =? j)%nat then C4 0 0 1 0 else 0), (s + 1)%Z).
Lemma ex_special : special (2 * dp_K exP - 1) (fun j k => nth k (rhos (exFork j) exP exTr) 0) (fun _ => C4 0 0 (- (1)) 0 : c4).
Proof.
  split; [|split].
  - intros j Hj. change (2 * dp_K exP - 1)%nat with 3%nat in *. do 4 (destruct j as [|j]; [vm_compute; reflexivity|]). lia.
  - intros i k Hi Hk Hn. change (2 * dp_K exP - 1)%nat with 3%nat in *.
    do 3 (destruct i as [|i]; [do 3 (destruct k as [|k]; [first [lia|vm_compute; reflexivity]|]); lia|]). lia.
  - intros i Hi. change (2 * dp_K exP - 1)%nat with 3%nat in *. do 3 (destruct i as [|i]; [vm_compute; reflexivity|]). lia.
Qed.
Lemma ex_forked_run j : (j < 4)%nat -> exists lc ts' w,
  nifs_verify (HO := exFork j) exP exAcc (exI exY) exPf 11%Z exCs = Ok (lc, ts') /\ lcccs_rel exP exA exCs lc w.
Proof.
  intros Hj. destruct (C34_nifs_complete (SL := slaws5) (HO := exFork j) exP exA exCs exAcc (exWit xi) (exI exY) (exWit exY) 11%Z
    ex_params ex_acc (all_in_range _) (ex_cccs _) (all_in_range _)) as (lc & w & pf & ts' & rho & ws & H1 & H2 & H3 & _).
  assert (match nifs_prove (HO := exFork j) exP exAcc (exWit xi) (exI exY) (exWit exY) 11%Z exCs exA with Ok (_, _, q, _) => Some q | _ => None end = Some exPf) as E.
  { do 4 (destruct j as [|j]; [vm_compute; reflexivity|]). lia. }
  rewrite H1 in E. injection E as ->. exists lc, ts', w. auto.
Qed.
Example ex_C73 : exists lin lcs_l lcs_r ts1 ts2 ts3 lc ts' (w : nat -> witness c4 r2),
  let ws_l := decompose_witness exP (exWit xi) in
  let ws_r := decompose_witness exP (exWit exY) in
  sizes_ok 5 exP exCs /\ degree_ok exCs /\ char_gt f25 (c_d exCs + 1) /\ char_gt f25 (2 * dp_b exP) /\
  (2 * Z.of_nat (dp_b exP) <= 5 + 1)%Z /\
  NoDup [K2 a0 a0; K2 a1 a0; K2 a2 a0; K2 a0 a1] /\ (Nat.max tau (c_t exCs) < 4)%nat /\ length (lc_r exAcc) = c_s exCs /\
  Forall2 (fun c w => opens exP exA exCs (lc_cm c) w) lcs_l ws_l /\ Forall2 (fun c w => opens exP exA exCs (lc_cm c) w) lcs_r ws_r /\
  dec_shape exP exCs (lf_dec_l exPf) /\ dec_shape exP exCs (lf_dec_r exPf) /\ fold_shape exP exCs (lf_fold exPf) /\
  lin_verify (exI exY) (lf_lin exPf) (absorb_public_input exAcc (exI exY) 11%Z) exCs = Ok (lin, ts1) /\
  dec_verify exP exAcc (lf_dec_l exPf) ts1 = Ok (lcs_l, ts2) /\
  dec_verify exP lin (lf_dec_r exPf) ts2 = Ok (lcs_r, ts3) /\
  rho_state exP (lcs_l ++ lcs_r) (lf_fold exPf) ts3 exCs = Ok exTr /\
  special (2 * dp_K exP - 1) (fun j k => nth k (rhos (exFork j) exP exTr) 0) (fun _ => C4 0 0 (- (1)) 0 : c4) /\
  (forall j, (j < 2 * dp_K exP)%nat ->
     nifs_verify (HO := exFork j) exP exAcc (exI exY) exPf 11%Z exCs = Ok (lc j, ts' j) /\ lcccs_rel exP exA exCs (lc j) (w j)).
Proof.
  destruct (ex_forked_run 0 ltac:(lia)) as (l0 & t0 & w0 & V0 & R0). destruct (ex_forked_run 1 ltac:(lia)) as (l1 & t1 & w1 & V1 & R1).
  destruct (ex_forked_run 2 ltac:(lia)) as (l2 & t2 & w2 & V2 & R2). destruct (ex_forked_run 3 ltac:(lia)) as (l3 & t3 & w3 & V3 & R3).
  match eval unfold honestRun in honestRun with
  | Some (?lc, ?pf, ?ts', (?lin, ?ts1), (?ll, ?ts2), (?lr, ?ts3)) => exists lin, ll, lr, ts1, ts2, ts3
  end.
  exists (fun j => nth j [l0; l1; l2; l3] l0), (fun j => nth j [t0; t1; t2; t3] t0), (fun j => nth j [w0; w1; w2; w3] w0).
  cbv zeta. split; [apply ex_sizes|]. split; [apply ex_in_order|]. split; [apply char5_le; cbn; lia|].
  split; [apply char5_le; cbn; lia|]. split; [cbn; lia|].
  split. { repeat (constructor; [cbn; intuition discriminate|]). constructor. }
  split; [cbn; lia|]. split; [reflexivity|].
  assert (forall c f, length f = 4%nat -> commit exA (w_f (wit_from_f_coeff exP f : witness c4 r2)) = Ok c ->
    opens exP exA exCs c (wit_from_f_coeff exP f)) as Ho.
  { intros c f Hf Hc. split; [apply from_f_coeff_consistent|cbn [wit_from_f_coeff w_f]; rewrite map_length; exact Hf|exact Hc]. }
  split. { constructor; [apply Ho; vm_compute; reflexivity|]. constructor; [apply Ho; vm_compute; reflexivity|constructor]. }
  split. { constructor; [apply Ho; vm_compute; reflexivity|]. constructor; [apply Ho; vm_compute; reflexivity|constructor]. }
  split; [repeat split; repeat constructor|]. split; [repeat split; repeat constructor|]. split; [repeat split; repeat constructor|].
  split; [vm_compute; reflexivity|]. split; [vm_compute; reflexivity|]. split; [vm_compute; reflexivity|]. split; [vm_compute; reflexivity|].
  split; [apply ex_special|]. intros j Hj. change (2 * dp_K exP)%nat with 4%nat in Hj.
  do 4 (destruct j as [|j]; [cbn [nth]; auto|]). lia.
Qed.
