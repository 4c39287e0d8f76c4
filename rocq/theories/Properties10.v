(** Final statements about the range check of LatticeFold+ (rgchk.rs): what an accepted check proves about the tables when
    the openings are theirs (C74), and what it leaves open because two openings are not compared (C75, C76).
    [open r v], [open_mul r M v]: the multilinear extension of [v] (resp. [M v]) at [r]. *)
From Coq Require Import String List Arith Lia ZArith Bool Ring.
From Verif Require Import Prelude Alg Poly MLE MLE_Proofs Transcript Sumcheck Sumcheck_Proofs CombDeg Arith Arith_Proofs Balanced
  Linearization_Proofs Folding_Sound Rings Rings_Proofs PlusRing PlusUtils_Proofs SetCheck SetCheck_Proofs SetCheck_Sound
  RangeCheck RangeCheck_Proofs RangeCheck_Sound Cm Cm_Proofs Plus_Range.
Import ListNotations.
Local Open Scope rs_scope.

Section P.
Context {K R T : Type} {PO : POps K R} {TO : TransOps T R K} {p : Z} {PL : PLaws K R p}.

(** * C74
    If the verifier of the range check accepts, its sumcheck gave a point; if the openings in the proof are those of the
    tables at that point, then every digit matrix and every [mtau] consists of zeros and unit monomials, the digits are
    digits of the coefficients of [f] and [mtau] encodes [tau] -- or a challenge hit a value fixed before it was drawn. *)
Theorem C74_range_check_sound n N k insts (pts : list K) : let L := length insts in
  NoDup pts -> (Nat.max (2 * pdim - 1) (L * k + L) <= length pts)%nat -> char_gt K 3 -> (N <= 2 ^ n)%nat ->
  Forall (rg_data N k) insts ->
  exists ref, forall (dc : dcom K R) (ts ts' : T),
    so_nvars (dc_out dc) = n -> rp_k (dc_params dc) = k -> length (nth 0 (so_e (dc_out dc)) []) = (L * k)%nat -> length (so_b (dc_out dc)) = L ->
    rg_verify dc ts = Ok ts' ->
    let '(cba, ts1) := cba_loop (L * k + L) n ts in
    let '(rc, ts2) := opt_challenge (L * k) ts1 in
    exists point v ts3, sc_verify ts2 n 3 0 (so_sc (dc_out dc)) = Ok (point, v, ts3) /\ length point = n /\
    (rg_opens dc insts point ->
      Forall (rg_wf ri_f N k) insts \/
      bad_batch (sc_degree pdim (L * k + L)) (sc_G n (1 <? L * k)%nat (claims (range_cols insts) (range_vecs insts))) ref (sc_cvec cba rc) \/
      sc_bad n 3 (sc_g (claims (range_cols insts) (range_vecs insts)) cba rc) ts2 (so_sc (dc_out dc)) point \/
      exists x, In x insts /\ ((exists c, (c < pdim)%nat /\ bad_coord (fun b => emb (digit_gap k x c b) : R) point) \/ bad_coord (fun b => emb (tau_gap x b) : R) point)).
Proof. exact (range_check_sound (p := p) n N k insts pts). Qed.
(** What the first alternative says about sizes: coefficients of [f] below (d/2)^k, entries of [tau] below d/2. *)
Theorem C74_range_bounds N k (x : rg_inst K R) : Nat.even pdim = true -> (2 * Z.of_nat (pdim / 2) ^ Z.of_nat k <= p + 1)%Z -> (Z.of_nat pdim <= p)%Z -> rg_wf ri_f N k x ->
  Forall (fun y => Forall (fun c => (Z.abs (psigned c) < Z.of_nat (pdim / 2) ^ Z.of_nat k)%Z) (pcoeffs y)) (ri_f x) /\
  Forall (fun c => (2 * Z.abs (psigned c) < Z.of_nat pdim)%Z) (ri_tau x).
Proof. exact (rg_wf_bounds (p := p) N k x). Qed.

(** * C75
    Take in-range witnesses [fs0] and any vectors [fs], of any size, that the matrices map to the same values.  On every
    transcript there is a proof that the commitment transformation accepts, with the commitments of [fs], with the true
    openings of [fs] and of everything derived, and with a reduced instance that is true of the folding of [fs]: only the
    coefficient openings [v], which nothing compares with [c[0]], are those of [fs0]. *)
Theorem C75_witness_unranged fs0 fs A P nv M (ts : T) : cm_setting (p := p) fs0 A P nv M ->
  Forall2 (fun f f0 => length f = (2 ^ nv)%nat /\ Forall (fun Mi => forall i, mz Mi f i = mz Mi f0 i) M) fs fs0 ->
  exists insts s s' (ro0 ro1 : list K) gs x proof ts',
    map ri_f insts = fs /\ dc_params (cp_dcom proof) = P /\ cm_verify proof M ts = Ok (x, ts') /\
    Forall2 (fun f c => commit A f = Ok (fc_f c)) fs (dc_coms (cp_dcom proof)) /\
    cm_openings M (cp_dcom proof) insts /\
    Forall2 (folded (2 ^ nv) s s') insts gs /\
    Forall2 (fun g c => commit A g = Ok c) gs (cx_cm x) /\
    cx_ro x = combine (map emb ro0) (map emb ro1) /\ cx_vo x = map (evaluations M ro0 ro1) gs.
Proof. exact (cm_unranged (p := p) fs0 fs A P nv M ts). Qed.

(** * C76
    The range check accepts, on every transcript, instances whose [mtau] is any vector at all, with all evaluations
    [v], [a], [b], [c] and all openings [e] the true ones: the set check may be run on zeros. *)
Theorem C76_tau_unranged n nv insts P M (ts : T) :
  (1 <= nv)%nat -> nv = ark_log2 (next_pow2 n) -> char_gt K 3 -> (2 <= length insts * rp_k P)%nat ->
  Forall (rg_pre ri_f n (rp_k P)) insts ->
  Forall (fun Mi : smat R => wf_mat n Mi /\ (length (m_coeffs Mi) <= 2 ^ nv)%nat /\ base_mat Mi) M ->
  exists dc ts', rg_verify dc ts = Ok ts' /\ so_nvars (dc_out dc) = nv /\ dc_params dc = P /\
    dc_evals dc = map (true_evals M (so_r (dc_out dc))) insts /\ so_e (dc_out dc) = true_e M (so_r (dc_out dc)) insts /\ dc_coms dc = map ri_coms insts.
Proof. exact (range_check_tau_unranged (p := p) n nv insts P M ts). Qed.
End P.
