(** Linearization phrased with the relations: a satisfied committed instance becomes an opened
    linearized instance. *)
From Coq Require Import String List Arith Lia ZArith Bool Ring.
From Verif Require Import Prelude Alg Poly MLE MLE_Proofs Transcript Interp Sumcheck Sumcheck_Proofs CombDeg
  Arith Arith_Proofs Balanced Rings Rings_Proofs Linearization Linearization_Proofs Relations.
Import ListNotations.
Local Open Scope rs_scope.

Section L.
Context {F K C R T : Type} {SO : SOps F K C R} {p : Z} {SL : SLaws F K C R p} {TO : TransOps T R K}.
Add Ring Rring14 : (@rlaws_th R _ _).

Lemma R_1_neq_0 : (1 : R) <> 0.
Proof.
  intros H. apply (f_equal (sl 0)) in H. pose proof (dimN_pos (SLaws := SL)).
  rewrite sl_1, sl_0 in H by lia. revert H. apply f_1_neq_0.
Qed.

(** The CCS of an R1CS uses its matrices in order, whatever padding was applied. *)
Lemma from_r1cs_in_order (cs : ccs R) :
  c_S cs = [[0; 1]; [2]]%nat -> c_c cs = [1; - (1)] -> c_d cs = 2%nat -> in_order cs /\ degree_ok cs.
Proof.
  intros HS Hc Hd.
  assert ((1 =? (0 : R)) = false) as E1 by (apply req_false; apply R_1_neq_0).
  assert ((- (1) =? (0 : R)) = false) as E2.
  { apply req_false. intros H. apply R_1_neq_0. replace (1 : R) with (- - (1 : R)) by ring. rewrite H. ring. }
  assert (flat_S cs = [0; 1; 2]%nat) as Hf.
  { unfold flat_S, nonzero_idx. rewrite HS, Hc. cbn [length seq filter nth]. rewrite E1, E2. reflexivity. }
  split.
  - unfold in_order. rewrite Hf. repeat constructor.
  - intros i Hi Hn. rewrite HS, Hd. destruct i as [|[|i]]; cbn [nth length]; try lia. destruct i; cbn; lia.
Qed.
Lemma padded_in_order (r : r1cs R) W L cs : ccs_from_r1cs_padded r W L = Ok cs -> in_order cs /\ degree_ok cs.
Proof.
  unfold ccs_from_r1cs_padded. destruct (_ <=? _)%nat; [discriminate|]. intros [= <-].
  apply from_r1cs_in_order; unfold pad_rows_to; destruct (_ <? _)%nat; reflexivity.
Qed.

Lemma fhat_eval P (w : witness C R) r : wit_consistent P w ->
  map (fun m => mle_spec (mle_get m) r) (w_fhat w) =
  map (fun j => mle_spec (fun b => hat j (nth b (w_fc w) 0)) r) (seq 0 tau).
Proof.
  intros (_ & _ & -> & _). apply (list_ext 0).
  - rewrite !map_length, get_fhat_length, seq_length. auto.
  - intros j Hj. rewrite map_length, get_fhat_length in Hj. rewrite nth_seq_map by auto.
    rewrite (nth_map_lt _ _ _ (Mle 0 [])) by (rewrite get_fhat_length; auto).
    apply mle_spec_ext. intros. apply get_fhat_get. auto.
Qed.

Theorem linearization_complete (P : dparams) (A : ajtai R) (cs : ccs R) (i : cccs R) (w : witness C R) (ts : T) :
  sizes_ok p P cs -> in_order cs -> degree_ok cs -> char_gt K (c_d cs + 1) -> cccs_rel P A cs i w ->
  exists lc pf ts',
    lin_prove i w ts cs = Ok (lc, pf, ts') /\
    lin_verify i pf ts cs = Ok (lc, ts') /\
    lcccs_rel P A cs lc w /\
    lcccs_z lc (w_ccs w) = cccs_z i (w_ccs w) /\
    (exists rs, lc_r lc = map emb rs).
Proof.
  intros Hs Ho Hd Hc [Hop Hx Hsat].
  destruct (opens_w_len P A cs (i_cm i) w) as [Hw Hwf]; auto. { apply (so_cov _ _ _ Hs). }
  assert (length (cccs_z i (w_ccs w)) = c_n cs) as Hz.
  { unfold cccs_z. rewrite app_length. cbn [length]. rewrite Hw, Hx. pose proof (so_n _ _ _ Hs). lia. }
  destruct (lin_complete i w ts cs) as (lc & pf & ts' & rs & H1 & H2 & H3 & H4 & H5 & H6 & H7 & H8 & H9 & _); auto.
  - apply (so_wf _ _ _ Hs).
  - apply (so_sized _ _ _ Hs).
  - destruct (op_wit _ _ _ _ _ Hop) as (_ & _ & -> & _). apply (sizes_fhat_nv (p := p) P); auto.
  - destruct (ccs_check_spec cs (cccs_z i (w_ccs w)) (so_wf _ _ _ Hs) Hz) as [[E _]|(b & _ & Hb & Hn & _)]; auto.
    exfalso. apply Hn. apply Hsat. auto.
  - exists lc, pf, ts'. split; auto. split; auto. split; [|split].
    + split.
      * rewrite H7. auto.
      * rewrite H4, map_length. auto.
      * rewrite H8. auto.
      * rewrite H5. apply (fhat_eval P). apply Hop.
      * rewrite H6 at 1. reflexivity.
    + unfold lcccs_z, cccs_z. rewrite H8, H9. auto.
    + eauto.
Qed.
End L.
