(** Final statements about knowledge soundness (witness extraction) of the LatticeFold verifier.  The verifier's transcript is
    run [2K] times on one statement and one proof; the runs differ only in how the short folding challenges are drawn ([HO j]
    in run [j]).  This is all of the proof there is: the prover sends nothing after these challenges. *)
From Coq Require Import String List Arith Lia ZArith Bool Ring.
From Verif Require Import Prelude Alg Poly MLE MLE_Proofs Transcript Interp Sumcheck Sumcheck_Proofs
  Arith Arith_Proofs Balanced Rings Rings_Proofs Linearization Linearization_Proofs Relations LinRel
  Decomposition Decomposition_Proofs Folding Folding_Comb Folding_Proofs Folding_Complete Folding_Sound NIFS NIFS_Proofs Extract.
Import ListNotations.
Local Open Scope rs_scope.

Section C73.
Context {F K C R : Type} {SO : SOps F K C R} {p : Z} {SL : SLaws F K C R p} {T : Type} {TO : TransOps T R K}.

(** * C73
    Folding: runs [1 .. 2K-1] change one challenge of run 0 each, by an invertible difference ([special]).  Then openings of
    all commitments are computed from the [2K] output witnesses, and the evaluations [theta], [eta] in the proof are the
    evaluations of these openings. *)
Theorem C73_folding_extract P (A : ajtai R) (cs : ccs R) cms pf (ts tr : T) (HO : nat -> ShortOps T C) d lc ts' (w : nat -> witness C R) :
  sizes_ok p P cs -> length cms = (2 * dp_K P)%nat -> Forall (fun c => length (lc_cm c) = kappa A /\ length (lc_x c) = c_l cs) cms ->
  fold_shape P cs pf -> rho_state P cms pf ts cs = Ok tr ->
  special (2 * dp_K P - 1) (fun j k => nth k (rhos (HO j) P tr) 0) d ->
  (forall j, (j < 2 * dp_K P)%nat -> fold_verify (HO := HO j) P cms pf ts cs = Ok (lc j, ts' j) /\ lcccs_rel P A cs (lc j) (w j)) ->
  exists ws, Forall2 (fun c w => opens P A cs (lc_cm c) w) cms ws /\
    (forall j, (j < 2 * dp_K P)%nat ->
      fp_theta pf = evs (map w_fhat ws) (lc_r (lc j)) /\
      fp_eta pf = evs (zipw (fun c w => map (Mz_mle (c_s cs) (lcccs_z c (w_ccs w))) (c_M cs)) cms ws) (lc_r (lc j)) /\
      is_lin (2 * dp_K P) (fun k => nth k (rhos (HO j) P tr) 0) (fun k => w_fc (nth k ws (Witness [] [] [] []))) (w_fc (w j))).
Proof. exact (fold_verify_extract P A cs cms pf ts tr HO d lc ts' w). Qed.

(** The whole step: fix openings of the component commitments.  There is a reference point such that whenever the forked runs
    all end in true instances, the accumulator and the incoming instance hold for the recomposed openings, or one of the two
    bad events happens, or the extraction gives another opening of one of the commitments. *)
Theorem C73_nifs_knowledge P (A : ajtai R) (cs : ccs R) acc cm_i lin lcs_l lcs_r (ws_l ws_r : list (witness C R)) (xs : list K) :
  sizes_ok p P cs -> degree_ok cs -> char_gt K (c_d cs + 1) -> char_gt K (2 * dp_b P) -> (2 * Z.of_nat (dp_b P) <= p + 1)%Z ->
  NoDup xs -> (Nat.max tau (c_t cs) < length xs)%nat -> length (lc_r acc) = c_s cs ->
  Forall2 (fun c w => opens P A cs (lc_cm c) w) lcs_l ws_l -> Forall2 (fun c w => opens P A cs (lc_cm c) w) lcs_r ws_r ->
  let cms := lcs_l ++ lcs_r in
  let ws := ws_l ++ ws_r in
  let fhs := map w_fhat ws in
  let mzs := zipw (fun c w => map (Mz_mle (c_s cs) (lcccs_z c (w_ccs w))) (c_M cs)) cms ws in
  let n := ((c_n cs - c_l cs - 1) * dp_L P)%nat in
  exists ref : list K, forall pf (ts ts1 ts2 ts3 tr : T) (HO : nat -> ShortOps T C) d lc ts' (w : nat -> witness C R),
    dec_shape P cs (lf_dec_l pf) -> dec_shape P cs (lf_dec_r pf) -> fold_shape P cs (lf_fold pf) ->
    lin_verify cm_i (lf_lin pf) (absorb_public_input acc cm_i ts) cs = Ok (lin, ts1) ->
    dec_verify P acc (lf_dec_l pf) ts1 = Ok (lcs_l, ts2) ->
    dec_verify P lin (lf_dec_r pf) ts2 = Ok (lcs_r, ts3) ->
    rho_state P cms (lf_fold pf) ts3 cs = Ok tr ->
    special (2 * dp_K P - 1) (fun j k => nth k (rhos (HO j) P tr) 0) d ->
    (forall j, (j < 2 * dp_K P)%nat ->
       nifs_verify (HO := HO j) P acc cm_i pf ts cs = Ok (lc j, ts' j) /\ lcccs_rel P A cs (lc j) (w j)) ->
    (lcccs_rel P A cs acc (wsum P n ws_l) /\ cccs_rel P A cs cm_i (wsum P n ws_r) /\
     forall i w, nth_error ws i = Some w -> (i < 2 * dp_K P - 1)%nat \/ tau = 1%nat -> wit_norm (Z.of_nat (dp_b P) - 1) w) \/
    fold_bad P cs cms fhs mzs (lc_r acc) (lc_r lin) (Nat.max tau (c_t cs)) ref ts3 (lf_fold pf) (lc 0%nat) \/
    lin_bad cs (i_x cm_i ++ 1 :: w_ccs (wsum P n ws_r)) (absorb_public_input acc cm_i ts) (lf_lin pf) lin \/
    relaxed_collision P A cs cms ws (fun j => rhos (HO j) P tr) w.
Proof. exact (nifs_knowledge P A cs acc cm_i lin lcs_l lcs_r ws_l ws_r xs). Qed.
End C73.
