(** Final statements about soundness of the remaining verifiers of LatticeFold+: the linearization of r1cs.rs (C77), the
    commitment transformation of cm.rs (C78), and what the latter gives together with the range check once the three
    missing comparisons are made (C79).
    [bad_coord], [sc_bad], [bad_root], [bad_linear], [half_bad]: a challenge hit one of a bounded number of values fixed
    before it was drawn. *)
From Coq Require Import String List Arith Lia ZArith Bool Ring.
From Verif Require Import Prelude Alg Poly MLE MLE_Proofs Transcript Sumcheck Sumcheck_Proofs CombDeg Arith Arith_Proofs Balanced
  Linearization_Proofs Folding_Sound Rings Rings_Proofs PlusRing PlusUtils_Proofs SetCheck SetCheck_Proofs SetCheck_Sound
  RangeCheck RangeCheck_Proofs RangeCheck_Sound Cm Cm_Proofs Plus Plus_Sound.
Import ListNotations.
Local Open Scope rs_scope.

Section P.
Context {K R T : Type} {PO : POps K R} {TO : TransOps T R K} {p : Z} {PL : PLaws K R p}.

(** * C77
    If the verifier of the linearization accepts and the three values in the proof are the evaluations of A f, B f, C f at
    the point of its sumcheck, then f satisfies the R1CS, or a challenge was bad. *)
Theorem C77_linearization_sound (rc : r1cs R) (f : list R) (pf : r1cs_proof R) (ts ts' : T) : let n := rp_nvars pf in
  char_gt K 3 -> Plus.lin_verify pf ts = Ok (true, ts') ->
  let '(r, ts1) := get_challenges ts n in
  exists point s ts2, sc_verify ts1 n 3 0 (rp_sc pf) = Ok (point, s, ts2) /\ length point = n /\
  (rp_va pf = open_mul point (r_A rc) f -> rp_vb pf = open_mul point (r_B rc) f -> rp_vc pf = open_mul point (r_C rc) f ->
    (forall i, (i < 2 ^ n)%nat -> mz (r_A rc) f i * mz (r_B rc) f i = mz (r_C rc) f i) \/
    bad_coord (r1cs_gap rc f) r \/
    sc_bad n 3 (lin_poly rc f r) ts1 (rp_sc pf) point).
Proof. exact (plus_lin_sound (p := p) rc f pf ts ts'). Qed.

(** * C78
    If the verifier of the commitment transformation accepts and the evaluations in the proof are those of vectors
    [tau], [m_tau], [f], [h] at the points of its two sumchecks, then the evaluations claimed at the stored point are
    theirs and the commitments of [h] have the right sum ([cm_true]), or both halves hit bad challenges. *)
Theorem C78_cm_sound n nv kap insts hs M proof (ts ts' : T) x : let dc := cp_dcom proof in let P := dc_params dc in let r := so_r (dc_out dc) in let L := length insts in
  char_gt K 2 -> (128 / pdim < 64)%nat -> so_nvars (dc_out dc) = nv -> length r = nv -> (n <= 2 ^ nv)%nat -> (1 <= L)%nat -> length hs = L ->
  length (dc_evals dc) = L -> length (fst (cp_evals proof)) = L -> length (cp_comh proof) = L -> Forall (fun ch => length ch = kap) (cp_comh proof) ->
  (1 <= rp_k P)%nat -> (1 <= rp_l P)%nat -> Forall (m_ok n nv) M -> Forall (x_ok n) (combine insts hs) ->
  cm_verify proof M ts = Ok (x, ts') ->
  exists ts1 s s' ts2 c0 c1 ts3 point0 point1 ts4,
    rg_verify dc ts = Ok ts1 /\ cm_challenges (rp_k P) ts1 = Ok (s, s', ts2) /\
    c_challenges (cp_comh proof) (absorb_comh (cp_comh proof) ts2) = Ok (map emb c0, map emb c1, ts3) /\
    halves_at M proof s' c0 c1 point0 point1 ts3 ts4 ts' /\
    cx_ro x = combine (map emb point0) (map emb point1) /\ length point0 = nv /\ length point1 = nv /\
    (fst (cp_evals proof) = map (true_ev4 M point0) (combine insts hs) -> snd (cp_evals proof) = map (true_ev4 M point1) (combine insts hs) ->
      cm_true M proof s' insts hs \/
      (let u := map (fun l => cm_u (rp_k P) l (concat s') (so_e (dc_out dc))) (seq 0 L) in
       let tz c := calculate_t_z (map emb c) (concat s') (dp_pows (rp_l P)) x_pows in
       let bad := half_bad nv L (4 + 4 * length M) (dc_evals dc) u (cm_tcch (map emb c0) (cp_comh proof)) (cm_tcch (map emb c1) (cp_comh proof))
          (VSof M (combine insts hs)) r (tz c0) (tz c1) in
       bad ts3 (fst (cp_sc proof)) point0 /\ bad ts4 (snd (cp_sc proof)) point1) \/
      (let gap := com_gap (rp_l P) (rp_k P * pdim) insts (cp_comh proof) (concat s') in bad_coord gap (rev c0) /\ bad_coord gap (rev c1))).
Proof. exact (cm_sound (p := p) n nv kap insts hs M proof ts ts' x). Qed.

(** * C79
    Add the three comparisons ([compared]) to the verifier.  Then, for true evaluations at the final points with
    [h] the combination of the digit matrices by [s'], the instances are well formed -- digits, range of [f] and of
    [tau] -- and [cm_true] holds, or a challenge was bad. *)
Theorem C79_compared_sound n nv kap k insts M (pts : list K) : let L := length insts in
  NoDup pts -> (Nat.max (2 * pdim - 1) (L * k + L) <= length pts)%nat -> char_gt K 3 -> (128 / pdim < 64)%nat -> (n <= 2 ^ nv)%nat -> (1 <= L)%nat -> (1 <= k)%nat ->
  Forall (m_ok n nv) M -> Forall (rg_data n k) insts ->
  exists ref, forall (proof : cm_proof K R) (ts ts' : T) x, let dc := cp_dcom proof in let P := dc_params dc in
    so_nvars (dc_out dc) = nv -> length (so_r (dc_out dc)) = nv -> rp_k P = k -> (1 <= rp_l P)%nat -> length (so_b (dc_out dc)) = L ->
    length (nth 0 (so_e (dc_out dc)) []) = (L * k)%nat -> Forall (fun e => length e = pdim) (nth 0 (so_e (dc_out dc)) []) ->
    length (dc_evals dc) = L -> length (fst (cp_evals proof)) = L -> length (cp_comh proof) = L -> Forall (fun ch => length ch = kap) (cp_comh proof) ->
    cm_verify proof M ts = Ok (x, ts') ->
    exists ts1 s s' ts2 c0 c1 ts3 point point0 point1 ts4,
      rg_verify dc ts = Ok ts1 /\ range_point nv (L * k + L) (L * k) dc ts point /\ cm_challenges k ts1 = Ok (s, s', ts2) /\
      c_challenges (cp_comh proof) (absorb_comh (cp_comh proof) ts2) = Ok (map emb c0, map emb c1, ts3) /\
      halves_at M proof s' c0 c1 point0 point1 ts3 ts4 ts' /\
      cx_ro x = combine (map emb point0) (map emb point1) /\
      let hs := map (fun x => hvec n (ri_Mf x) s') insts in
      (compared dc point -> fst (cp_evals proof) = map (true_ev4 M point0) (combine insts hs) -> snd (cp_evals proof) = map (true_ev4 M point1) (combine insts hs) ->
        (Forall (rg_wf ri_f n k) insts /\ cm_true M proof s' insts hs) \/
        range_bad nv k insts ref dc ts point \/
        (exists l, (l < L)%nat /\ bad_linear (e_gap dc insts point l) (concat s')) \/
        (let u := map (fun l => cm_u k l (concat s') (so_e (dc_out dc))) (seq 0 L) in
         let tz c := calculate_t_z (map emb c) (concat s') (dp_pows (rp_l P)) x_pows in
         let bad := half_bad nv L (4 + 4 * length M) (dc_evals dc) u (cm_tcch (map emb c0) (cp_comh proof)) (cm_tcch (map emb c1) (cp_comh proof))
            (VSof M (combine insts hs)) point (tz c0) (tz c1) in
         bad ts3 (fst (cp_sc proof)) point0 /\ bad ts4 (snd (cp_sc proof)) point1) \/
        (let gap := com_gap (rp_l P) (k * pdim) insts (cp_comh proof) (concat s') in bad_coord gap (rev c0) /\ bad_coord gap (rev c1))).
Proof. exact (cm_compared_sound (p := p) n nv kap k insts M pts). Qed.
End P.
