(** Final statements about the LatticeFold+ commitment transformation (cm.rs).
    [open r v], [open_mul r M v]: the multilinear extension of [v] (resp. [M v]) at [r]. *)
From Coq Require Import String List Arith Lia ZArith Bool Ring.
From Verif Require Import Prelude Alg MLE MLE_Proofs Transcript Sumcheck Sumcheck_Proofs Arith Arith_Proofs
  Rings Rings_Proofs PlusRing PlusUtils_Proofs SetCheck SetCheck_Proofs SetCheck_Sound RangeCheck RangeCheck_Proofs Cm Cm_Proofs.
Import ListNotations.
Local Open Scope rs_scope.

Section P.
Context {K R T : Type} {PO : POps K R} {TO : TransOps T R K} {p : Z} {PL : PLaws K R p}.
Add Ring Rring48 : (@rlaws_th R _ (pl_R (p := p))).

(** * C48
    The honest prover's proof is accepted on the same transcript, prover and verifier output the same reduced
    instance and transcript, and that instance is true: its commitments are the commitments of the folded
    witnesses and its evaluations are theirs (and those of the products with the matrices) at both points. *)
Theorem C48_cm_complete fs A P nv M (ts : T) : cm_setting (p := p) fs A P nv M ->
  exists insts s s' (ro0 ro1 : list K) gs x proof ts',
    mapM (fun f => from_f f A P) fs = Ok insts /\ map ri_f insts = fs /\ (length s = 3%nat /\ exists tsa tsb : T, cm_challenges (rp_k P) tsa = Ok (s, s', tsb)) /\ length s' = rp_k P /\ length ro0 = nv /\ length ro1 = nv /\
    cm_prove (Rg nv insts P) M ts = Ok (gs, x, proof, ts') /\ cm_verify proof M ts = Ok (x, ts') /\
    Forall2 (folded (2 ^ nv) s s') insts gs /\
    Forall2 (fun g c => commit A g = Ok c) gs (cx_cm x) /\
    cx_ro x = combine (map emb ro0) (map emb ro1) /\ cx_vo x = map (evaluations M ro0 ro1) gs.
Proof.
  intros HS. destruct (cm_setting_complete (p := p) (fun c => c) fs A P nv M ts HS) as (insts & s & s' & ro0 & ro1 & gs & x & proof & ts' & hon & C).
  { intros c Hc. auto. }
  cbv zeta in C. destruct C as (C1 & C2 & C3 & C4 & C5 & C6 & C7 & C8 & C9 & C10 & C11 & C12 & C13 & C14 & _).
  exists insts, s, s', ro0, ro1, gs, x, proof, ts'. rewrite cm_prove_with_id in C7. rewrite C14, <- C12. repeat (split; [assumption|]). auto.
Qed.

(** * C66
    A prover that adds any [d] to the commitment of [h] of the first instance and subtracts it from that of the
    second is accepted on every transcript; the reduced instance then carries the commitments of the folded
    witnesses shifted by [d] and [-d], with unchanged evaluations. *)
Theorem C66_commitments_shifted fs A P nv M (ts : T) (d : list R) : cm_setting (p := p) fs A P nv M -> (2 <= length fs)%nat -> length d = kappa A ->
  exists insts s s' (ro0 ro1 : list K) gs x proof ts' c0 c1 rest,
    mapM (fun f => from_f f A P) fs = Ok insts /\ map ri_f insts = fs /\
    cm_prove_with (shift d) (Rg nv insts P) M ts = Ok (gs, x, proof, ts') /\ cm_verify proof M ts = Ok (x, ts') /\
    Forall2 (folded (2 ^ nv) s s') insts gs /\ cx_vo x = map (evaluations M ro0 ro1) gs /\
    Forall2 (fun g c => commit A g = Ok c) gs (c0 :: c1 :: rest) /\
    cx_cm x = vadd c0 d :: vsub c1 d :: rest.
Proof.
  intros HS H2 Hd. destruct (cm_setting_complete (p := p) (shift d) fs A P nv M ts HS (shift_keeps (p := p) _ d)) as (insts & s & s' & ro0 & ro1 & gs & x & proof & ts' & hon & C).
  cbv zeta in C. destruct C as (C1 & C2 & C3 & C4 & C5 & C6 & C7 & C8 & C9 & C10 & C11 & C12 & C13 & C14 & C15 & C16 & _).
  destruct insts as [|i0 [|i1 rest]]; try (cbn [length] in C15; lia).
  cbn [length seq map nth] in C12, C14. rewrite <- !seq_shift, !map_map in C12, C14. cbn [nth shift] in C12, C14.
  exists (i0 :: i1 :: rest), s, s', ro0, ro1, gs, x, proof, ts'.
  rewrite C12 in C13. do 3 eexists. do 6 (split; [eassumption|]). split; [exact C13|]. rewrite C14.
  inversion C16 as [|? ? (L1 & L2 & L3) C16']. inversion C16' as [|? ? (L4 & L5 & L6) _]. subst.
  f_equal; [|f_equal].
  - unfold vadd at 2. rewrite (linv_length s _ _ _ _ (kappa A)) by (auto; unfold hvec; rewrite map_length, seq_length; auto).
    apply (list_ext 0); [rewrite map_length, seq_length; apply linv_length; auto; unfold vadd, hvec; rewrite !map_length, !seq_length, ?map_length, ?seq_length; auto|].
    intros i Hi. rewrite (linv_length s _ _ _ _ (kappa A)) in Hi by (auto; unfold vadd, hvec; rewrite !map_length, !seq_length, ?map_length, ?seq_length; auto).
    rewrite nth_seq_map by auto. rewrite !(linv_nth s _ _ _ _ (kappa A)) by (auto; unfold vadd, hvec; rewrite !map_length, !seq_length, ?map_length, ?seq_length; auto).
    unfold lin3, vadd. rewrite nth_seq_map by (unfold hvec; rewrite !map_length, !seq_length; auto). ring.
  - unfold vsub at 2. rewrite (linv_length s _ _ _ _ (kappa A)) by (auto; unfold hvec; rewrite map_length, seq_length; auto).
    apply (list_ext 0); [rewrite map_length, seq_length; apply linv_length; auto; unfold vsub, hvec; rewrite !map_length, !seq_length, ?map_length, ?seq_length; auto|].
    intros i Hi. rewrite (linv_length s _ _ _ _ (kappa A)) in Hi by (auto; unfold vsub, hvec; rewrite !map_length, !seq_length, ?map_length, ?seq_length; auto).
    rewrite nth_seq_map by auto. rewrite !(linv_nth s _ _ _ _ (kappa A)) by (auto; unfold vsub, hvec; rewrite !map_length, !seq_length, ?map_length, ?seq_length; auto).
    unfold lin3, vsub. rewrite nth_seq_map by (unfold hvec; rewrite !map_length, !seq_length; auto). ring.
Qed.
End P.
