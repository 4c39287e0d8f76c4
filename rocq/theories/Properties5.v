(** Final statements, part 5: the LatticeFold+ range check. *)
From Coq Require Import String List Arith Lia ZArith Bool.
From Verif Require Import Prelude Alg MLE MLE_Proofs Transcript Sumcheck Sumcheck_Proofs Arith Arith_Proofs Linearization_Proofs Folding_Sound
  Rings PlusRing PlusUtils_Proofs SetCheck SetCheck_Proofs SetCheck_Sound RangeCheck RangeCheck_Proofs.
Import ListNotations.
Local Open Scope rs_scope.

Section P.
Context {K R T : Type} {PO : POps K R} {TO : TransOps T R K} {p : Z} {PL : PLaws K R p}.

(** * C47
    Every list of witnesses whose coefficients have [k] balanced digits in base [d/2] gives instances
    whose range check is accepted on the same transcript; the recorded evaluations are the true ones. *)
Theorem C47_range_check_complete (fs : list (list R)) (A : ajtai R) P n nv (M : list (smat R)) (ts : T) :
  nv = ark_log2 (next_pow2 n) -> (1 <= nv)%nat -> char_gt K 3 -> (4 <= pdim)%nat -> (Z.of_nat (pdim / 2) < p)%Z ->
  a_ncols A = n -> rp_b P = Z.of_nat (pdim / 2) -> (1 <= rp_k P)%nat -> (2 <= length fs * rp_k P)%nat ->
  (kappa A * (rp_k P * pdim) * rp_l P * pdim < n)%nat ->
  Forall (fun f => length f = n /\
    Forall (fun x => Forall (fun c => (2 * Z.abs (psigned c) <= rp_b P ^ Z.of_nat (rp_k P))%Z) (pcoeffs x)) f) fs ->
  Forall (fun Mi : smat R => wf_mat n Mi /\ (length (m_coeffs Mi) <= 2 ^ nv)%nat /\ base_mat Mi) M ->
  exists insts dc ts', mapM (fun f => from_f f A P) fs = Ok insts /\ map ri_f insts = fs /\
    range_check (Rg nv insts P) M ts = Ok (dc, ts') /\ rg_verify dc ts = Ok ts' /\
    dc_evals dc = map (true_evals M (so_r (dc_out dc))) insts /\
    Forall2 (fun f x => commit A f = Ok (fc_f (ri_coms x)) /\ commit A (map emb (ri_tau x)) = Ok (fc_Mf (ri_coms x)) /\
       commit A (ri_mtau x) = Ok (fc_mtau (ri_coms x))) fs insts /\ dc_coms dc = map ri_coms insts.
Proof. exact (range_check_from_f fs A P n nv M ts). Qed.
End P.
