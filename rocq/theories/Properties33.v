(** C117: the claims of the commitment transformation and its batching challenges. *)
From Coq Require Import String List Arith Lia ZArith Bool Ring.
From Verif Require Import Prelude Alg Poly MLE MLE_Proofs Zippel Counting Transcript Sumcheck Sumcheck_Proofs CombDeg Arith Arith_Proofs Balanced
  Linearization_Proofs Folding_Sound Rings Rings_Proofs PlusRing PlusUtils_Proofs SetCheck SetCheck_Proofs SetCheck_Sound
  RangeCheck RangeCheck_Proofs RangeCheck_Sound Cm Cm_Proofs Plus Plus_Sound Plus_Range SoundErr PlusErr CmErr LateB.
Import ListNotations.
Local Open Scope rs_scope.

Section P.
Context {K R T : Type} {PO : POps K R} {TO : TransOps T R K} {p : Z} {PL : PLaws K R p}.
(** * C117
    For every transcript: the prover [late_prove] gets a proof past the verifier of cm.rs, with the three comparisons of C79 added, whose witnesses
    [fs] are any vectors that agree with witnesses [fs0] in the range on the single coefficient [psi_ct].  It fails only if the two batching
    challenges [rc0], [rc1] (those that the verifier draws for this proof) are 0 or have the same fourth power.  At least two matrices are needed. *)
Theorem C117_late_b fs0 fs A P nv M (ts : T) : cm_setting (p := p) fs0 A P nv M -> (2 <= length M)%nat ->
  Forall2 (fun f f0 => length f = (2 ^ nv)%nat /\ forall i, psi_ct (nth i f 0) = psi_ct (nth i f0 0)) fs fs0 ->
  exists insts pf rc0 rc1, late_prove A fs0 fs P nv M ts = Ok (pf, rc0, rc1) /\ map ri_f insts = fs /\ batching nv pf ts rc0 rc1 /\
    cm_shape nv (kappa A) (length fs * rp_k P + length fs) (length fs * rp_k P) (length fs) pf /\
    (rc0 <> 0 -> rc1 <> 0 -> rpow rc0 4 <> rpow rc1 4 -> cm_passed A fs P nv M insts pf ts).
Proof. exact (late_b (p := p) fs0 fs A P nv M ts). Qed.
End P.

Section Q.
Context {K R : Type} {PO : POps K R} {p : Z} {PL : PLaws K R p}.
(** Of the [|S|^N] vectors of challenges at most [6 |S|^(N-1)] resist. *)
Theorem C117_late_count fs0 fs A P nv M by_ (S : list K) : cm_setting (p := p) fs0 A P nv M -> (2 <= length M)%nat ->
  Forall2 (fun f f0 => length f = (2 ^ nv)%nat /\ forall i, psi_ct (nth i f 0) = psi_ct (nth i f0 0)) fs fs0 ->
  let L := length fs in let a := (n_batch (L * rp_k P + L) nv (L * rp_k P) + nv)%nat in let N := (a + 2 * ark_log2 (kappa A) + (1 + nv) + (1 + nv))%nat in
  few (fun x => In x (tuples N S) /\
    ~ exists insts pf rc0 rc1, late_prove (TO := tape_trans) A fs0 fs P nv M (x, by_) = Ok (pf, rc0, rc1) /\
        cm_passed (TO := tape_trans) A fs P nv M insts pf (x, by_)) (6 * length S ^ (N - 1)).
Proof. exact (late_count (p := p) fs0 fs A P nv M by_ S). Qed.
End Q.
