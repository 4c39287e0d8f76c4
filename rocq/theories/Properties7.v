(** Final statements about LatticeFold+ as a whole: r1cs.rs, mlin.rs, decomp.rs, plus.rs and the norm bounds of utils.rs.
    [within c f]: every coefficient [a] of every entry of [f] has 2|a| <= c.  [evaluations M r0 r1 f]: the multilinear
    extensions of [f] and of the [M f] at [r0] and [r1].  [true_linb]: a linear instance whose commitment, evaluations
    and norm are those of its witness.  [r1cs_holds rc f]: (A f)_i (B f)_i = (C f)_i for every row. *)
From Coq Require Import String List Arith Lia ZArith Bool Ring.
From Verif Require Import Prelude Alg MLE MLE_Proofs Transcript Sumcheck Sumcheck_Proofs Arith Arith_Proofs Balanced
  Rings Rings_Proofs PlusRing PlusUtils_Proofs SetCheck SetCheck_Proofs RangeCheck RangeCheck_Proofs Cm Cm_Proofs Plus Plus_Proofs Plus_Norm Plus_Forge.
Import ListNotations.
Local Open Scope rs_scope.

Section P.
Context {K R T : Type} {PO : POps K R} {TO : TransOps T R K} {p : Z} {PL : PLaws K R p}.

(** * C49 *)
Theorem C49_decompose f r0 r1 M A B n nv : wf_ajtai A -> a_ncols A = n -> nv = ark_log2 n -> (1 <= n)%nat -> length f = n ->
  length r0 = nv -> length r1 = nv -> Forall (fun m : smat R => wf_mat n m /\ (length (m_coeffs m) <= 2 ^ nv)%nat) M ->
  (2 <= B)%Z -> (B < p)%Z -> within (B ^ 2) f ->
  let r := combine (map emb r0) (map emb r1) in
  exists F0 F1 C0 C1 d,
    decompose f r M A B = Ok (LinB F0 C0 r (evaluations M r0 r1 F0), LinB F1 C1 r (evaluations M r0 r1 F1), d) /\
    length F0 = n /\ length F1 = n /\ within B F0 /\ within B F1 /\ (forall i, nth i f 0 = nth i F0 0 + rofZ B * nth i F1 0) /\
    commit A F0 = Ok C0 /\ commit A F1 = Ok C1 /\
    forall cm, commit A f = Ok cm -> dec_verify d cm (evaluations M r0 r1 f) B = Ok tt.
Proof. exact (decompose_complete (p := p) f r0 r1 M A B n nv). Qed.

(** * C50 *)
Theorem C50_linearize c (ts : T) n nv : length (cr_f c) = n -> nv = ark_log2 (next_pow2 n) -> (1 <= nv)%nat -> char_gt K 3 ->
  r1cs_wf n nv (cr_r1cs c) -> r1cs_holds (cr_r1cs c) (cr_f c) ->
  exists ro prf ts', length ro = nv /\
    linearize c ts = Ok (LinB (cr_f c) (cr_cm c) (combine (map emb ro) (map emb ro)) (evaluations (r1cs_mats (cr_r1cs c)) ro ro (cr_f c)), prf, ts') /\
    lin_verify prf ts = Ok (true, ts').
Proof. exact (linearize_complete (p := p) c ts n nv). Qed.

(** * C51
    One step, given that the folded witness [g] fits in two digits. *)
Theorem C51_step acc A M pp comps nv (ts : T) :
  cm_setting (p := p) (map lb_f acc ++ map cr_f comps) A (pl_dec pp) nv M -> pl_kappa pp = kappa A ->
  Forall (comp_ok nv) comps -> (2 <= pl_B pp)%Z -> (pl_B pp < p)%Z ->
  exists g, folds_to acc A M pp comps ts g /\
    (within (pl_B pp ^ 2) g -> exists proof lb0 lb1 ts',
       plus_prove acc A M pp comps ts = Ok (proof, [lb0; lb1], ts') /\ plus_verify M pp proof ts = Ok (true, ts') /\
       true_linb A M nv (pl_B pp) lb0 /\ true_linb A M nv (pl_B pp) lb1 /\
       (forall i, nth i g 0 = nth i (lb_f lb0) 0 + rofZ (pl_B pp) * nth i (lb_f lb1) 0)).
Proof. exact (plus_complete (p := p) acc A M pp comps nv ts). Qed.
(** The folded witness is bounded: [L] instances with coefficients up to [F] give coefficients up to
    L (h (d/2 + 1 + k d) + sop F), where challenges have coefficients up to h = [short_max] and expand norms by at
    most [sop]. *)
Theorem C51_folded_norm sop F acc A M pp comps nv (ts : T) g :
  cm_setting (p := p) (map lb_f acc ++ map cr_f comps) A (pl_dec pp) nv M -> pl_kappa pp = kappa A -> Forall (comp_ok nv) comps ->
  good_bytes (T := T) -> mono_isometry -> expansion sop -> (0 <= sop)%Z -> (0 <= F)%Z -> Forall (within (2 * F)) (map lb_f acc ++ map cr_f comps) ->
  folds_to acc A M pp comps ts g ->
  within (2 * (Z.of_nat (length acc + length comps) * (short_max * (Z.of_nat (pdim / 2) + 1 + Z.of_nat (rp_k (pl_dec pp) * pdim)) + sop * F))) g.
Proof. exact (folds_bounded (p := p) sop F acc A M pp comps nv ts g). Qed.
(** Any number of steps from true accumulated instances, with parameters for which the bound fits in two digits: every
    proof is accepted and every accumulated instance is true again. *)
Theorem C51_run sop L A M pp nv fs steps (ts : T) acc :
  good_params (p := p) sop L pp -> mono_isometry -> expansion sop -> good_bytes (T := T) ->
  cm_setting (p := p) fs A (pl_dec pp) nv M -> pl_kappa pp = kappa A ->
  Forall (true_linb A M nv (pl_B pp)) acc ->
  Forall (fun comps => Forall (fun c => comp_ok nv c /\ within (pl_B pp) (cr_f c)) comps /\ (2 + length comps <= L)%nat) steps ->
  (2 <= (length acc + length (hd [] steps)) * rp_k (pl_dec pp))%nat -> (length acc <= 2)%nat ->
  exists ps acc' ts', plus_chain acc A M pp steps ts = Ok (ps, acc', ts') /\ verify_chain M pp ps ts = Ok (true, ts') /\
    length ps = length steps /\ Forall (true_linb A M nv (pl_B pp)) acc'.
Proof. exact (plus_run_complete (p := p) sop L A M pp nv fs steps ts acc). Qed.
(** The same when two base-[B] digits hold every field element. *)
Theorem C51_run_large_base A M pp nv fs steps (ts : T) acc :
  cm_setting (p := p) fs A (pl_dec pp) nv M -> pl_kappa pp = kappa A -> (2 <= pl_B pp)%Z -> (pl_B pp < p)%Z ->
  (p - 1 <= pl_B pp ^ 2)%Z -> (pl_B pp <= rp_b (pl_dec pp) ^ Z.of_nat (rp_k (pl_dec pp)))%Z ->
  Forall (true_linb A M nv (pl_B pp)) acc -> Forall (Forall (small_comp (pl_dec pp) nv)) steps ->
  (2 <= (length acc + length (hd [] steps)) * rp_k (pl_dec pp))%nat ->
  exists ps acc' ts', plus_chain acc A M pp steps ts = Ok (ps, acc', ts') /\ verify_chain M pp ps ts = Ok (true, ts') /\
    length ps = length steps /\ Forall (true_linb A M nv (pl_B pp)) acc'.
Proof. exact (plus_chain_complete (p := p) A M pp nv fs steps ts acc). Qed.

(** * C52 *)
Theorem C52_cm_commitments_unbound (M : list (smat R)) pr coms x (ts ts' : T) : cm_verify pr M ts = Ok (x, ts') -> length coms = length (dc_coms (cp_dcom pr)) ->
  exists x', cm_verify (with_coms coms pr) M ts = Ok (x', ts') /\ cx_ro x' = cx_ro x /\ cx_vo x' = cx_vo x.
Proof. exact (coms_unbound_cm M pr coms x ts ts'). Qed.
Theorem C52_commitments_unbound (M : list (smat R)) pp pr coms (ts ts' : T) : plus_verify M pp pr ts = Ok (true, ts') ->
  length coms = length (dc_coms (cp_dcom (pp_cm pr))) ->
  plus_verify M pp (PlusProof (pp_x pr) (pp_l pr) (with_coms coms (pp_cm pr)) (pp_d pr)) ts = Ok (true, ts').
Proof. exact (coms_unbound_plus M pp pr coms ts ts'). Qed.

(** * C53
    A proof assembled from zeros, for any claimed folded instance, any witness commitments and any points, is accepted
    on every transcript. *)
Theorem C53_forgery (M : list (smat R)) pp P nv kap x coms r ros : (1 <= nv)%nat -> char_gt K 3 -> (128 / pdim < 64)%nat ->
  (1 <= rp_k P)%nat -> (1 <= rp_l P)%nat -> (2 ^ ark_log2 kap * (rp_k P * pdim) * rp_l P * pdim <= 2 ^ nv)%nat ->
  coms <> [] -> length r = nv ->
  exists proof : plus_proof K R, pp_x proof = x /\ dc_coms (cp_dcom (pp_cm proof)) = coms /\ map rp_r (pp_l proof) = ros /\ so_r (dc_out (cp_dcom (pp_cm proof))) = r /\
    forall ts : T, exists ts', plus_verify M pp proof ts = Ok (true, ts').
Proof.
  intros H1 H2 H3 H4 H5 H6 H7 H8. exists (forged_plus M P nv kap x coms r ros). split; [reflexivity|]. split; [reflexivity|].
  split; [cbn [forged_plus pp_l]; rewrite map_map; apply map_id|]. split; [reflexivity|]. intros ts. apply (forged_plus_accepted (p := p)); auto.
Qed.

(** * C54 *)
Theorem C54_linearization_point pr ro (ts : T) :
  lin_verify (R1csProof (rp_sc pr) (rp_nvars pr) ro (rp_v pr) (rp_va pr) (rp_vb pr) (rp_vc pr) : r1cs_proof R) ts = lin_verify pr ts.
Proof. reflexivity. Qed.

(** * C57 *)
Theorem C57_decomposed_square rc z n b k : (2 <= b)%Z -> Forall (wf_mat (length z)) (r1cs_mats rc) -> within (b ^ Z.of_nat k) z ->
  (r1cs_holds (r1cs_decomposed_square rc n b k) (pgadget b k z) <-> r1cs_holds rc z).
Proof. exact (gadget_r1cs (p := p) rc z n b k). Qed.
(** So [ComR1CS::new] on the squared system gives an instance that can be folded in. *)
Theorem C57_instance rc z nv b k A l_in c : (2 <= b)%Z -> Forall (wf_mat (length z)) (r1cs_mats rc) ->
  Forall (fun M => (length (m_coeffs M) <= 2 ^ nv)%nat) (r1cs_mats rc) -> within (b ^ Z.of_nat k) z -> (length z * k = 2 ^ nv)%nat ->
  r1cs_holds rc z -> com_r1cs_new (r1cs_decomposed_square rc (2 ^ nv) b k) z l_in b k A = Ok c -> comp_ok nv c.
Proof. exact (gadget_comp_ok (p := p) rc z nv b k A l_in c). Qed.

(** * C67 *)
Theorem C67_folded_instance_unbound (M : list (smat R)) pp pr x (ts ts' : T) : plus_verify M pp pr ts = Ok (true, ts') ->
  exists d, plus_verify M pp (PlusProof x (pp_l pr) (pp_cm pr) d) ts = Ok (true, ts').
Proof. intros H. eexists. exact (folded_unbound (p := p) M pp pr x ts ts' H). Qed.

(** * C68 *)
Theorem C68_claims_unused acc acc' A M pp comps (ts : T) : map lb_f acc = map lb_f acc' -> plus_prove acc A M pp comps ts = plus_prove acc' A M pp comps ts.
Proof. exact (plus_claims acc acc' A M pp comps ts). Qed.

(** * C69
    Any number of steps folding at most [L] instances each, with a base of at least [estimate_bound]. *)
Theorem C69_run L A M pp nv fs steps (ts : T) acc : let h := (2 ^ Z.of_nat (128 / pdim) / 2)%Z in
  (2 <= pdim)%nat -> (1 <= h)%Z -> (1 <= L)%nat -> (pl_B pp < p)%Z ->
  (estimate_bound (Z.of_nat pdim * h) (Z.of_nat L) (Z.of_nat pdim) (Z.of_nat (rp_k (pl_dec pp))) <= pl_B pp)%Z ->
  (pl_B pp <= rp_b (pl_dec pp) ^ Z.of_nat (rp_k (pl_dec pp)))%Z ->
  mono_isometry -> good_bytes (T := T) ->
  cm_setting (p := p) fs A (pl_dec pp) nv M -> pl_kappa pp = kappa A ->
  Forall (true_linb A M nv (pl_B pp)) acc ->
  Forall (fun comps => Forall (fun c => comp_ok nv c /\ within (pl_B pp) (cr_f c)) comps /\ (2 + length comps <= L)%nat) steps ->
  (2 <= (length acc + length (hd [] steps)) * rp_k (pl_dec pp))%nat -> (length acc <= 2)%nat ->
  exists ps acc' ts', plus_chain acc A M pp steps ts = Ok (ps, acc', ts') /\ verify_chain M pp ps ts = Ok (true, ts') /\
    length ps = length steps /\ Forall (true_linb A M nv (pl_B pp)) acc'.
Proof.
  cbv zeta. intros H1 H2 H3 H4 H5 H6 H7 H8. apply (plus_run_complete (p := p) (Z.of_nat pdim * short_max) L); auto.
  - apply (estimate_bound_fits (p := p)); auto.
  - apply (isometry_expansion (p := p)). auto.
Qed.
End P.

(** [estimate_bound] is the least [b] with sop L (b + d/2 + d k + 1) <= b^2. *)
Theorem C69_estimate_bound sop L d k b : (0 < sop * L)%Z -> (0 < d / 2 + d * k + 1)%Z -> (0 <= b)%Z ->
  ((estimate_bound sop L d k <= b)%Z <-> (sop * L * (b + (d / 2 + d * k + 1)) <= b * b)%Z).
Proof. exact (estimate_bound_least sop L d k b). Qed.
