(** What happens to the honest proof when the witness of the accumulator cannot be represented by K digits: the part lost by the
    decomposition must vanish at the evaluation point of the accumulator for the proof to be accepted. *)
From Coq Require Import String List Arith Lia ZArith Bool Ring.
From Verif Require Import Prelude Alg Poly MLE MLE_Proofs Transcript Interp Sumcheck Sumcheck_Proofs
  Arith Arith_Proofs Balanced Rings Rings_Proofs Linearization Linearization_Proofs Relations LinRel
  Decomposition Decomposition_Proofs Folding Folding_Comb Folding_Proofs Folding_Complete Folding_Sound NIFS NIFS_Proofs Zippel.
Import ListNotations.
Local Open Scope rs_scope.

(** What is left of an integer after [k] digits. *)
Fixpoint rest_z (k : nat) (b v : Z) : Z := match k with O => v | S k' => rest_z k' b (snd (dec1 b v)) end.
Lemma rest_value k b v : (2 <= b)%Z -> v = (digits_value b (decompose_z k b v) + b ^ Z.of_nat k * rest_z k b v)%Z.
Proof.
  intros Hb. revert v; induction k as [|k IH]; intros v; [cbn [decompose_z digits_value rest_z]; change (b ^ Z.of_nat 0)%Z with 1%Z; lia|]. rewrite Nat2Z.inj_succ, Z.pow_succ_r by lia. cbn [decompose_z rest_z].
  pose proof (dec1_spec b v Hb) as H1. destruct (dec1 b v) as [d v']. cbn [snd digits_value]. specialize (IH v'). destruct H1 as [H1 _]. nia.
Qed.
Lemma rest_0 k b v : (2 <= b)%Z -> rest_z k b v = 0%Z <-> (Z.abs v <= reach k b)%Z.
Proof.
  intros Hb. rewrite <- (decompose_z_iff k b v Hb). pose proof (rest_value k b v Hb) as E.
  assert (0 < b ^ Z.of_nat k)%Z by (apply Z.pow_pos_nonneg; lia). split; intros H1; nia.
Qed.
Lemma rest_le k b v : (2 <= b)%Z -> (Z.abs (rest_z k b v) <= Z.abs v)%Z.
Proof.
  intros Hb. revert v; induction k as [|k IH]; intros v; cbn [rest_z]; [lia|]. eapply Z.le_trans; [apply IH|]. clear IH. unfold dec1.
  pose proof (Z.quot_rem' v b) as E. pose proof (Z.rem_bound_abs v b ltac:(lia)) as Hr.
  pose proof (Z.div_mod b 2 ltac:(lia)) as Hh. pose proof (Z.mod_pos_bound b 2 ltac:(lia)) as Hm.
  assert (b * Z.abs (Z.quot v b) + Z.abs (Z.rem v b) = Z.abs v)%Z as EA.
  { destruct (Z.le_ge_cases 0 v).
    - pose proof (Z.rem_nonneg v b ltac:(lia) ltac:(lia)). pose proof (Z.quot_pos v b ltac:(lia) ltac:(lia)). nia.
    - pose proof (Z.rem_nonpos v b ltac:(lia) ltac:(lia)). pose proof (Z.quot_pos (- v) b ltac:(lia) ltac:(lia)) as Hq.
      rewrite Z.quot_opp_l in Hq by lia. nia. }
  set (r := Z.rem v b) in *. set (q := Z.quot v b) in *.
  destruct (Z.leb_spec (Z.abs r) (b / 2)); [cbn [snd]; nia|]. destruct (Z.ltb_spec r 0); cbn [snd]; nia.
Qed.

Section Rj.
Context {F K C R T : Type} {SO : SOps F K C R} {p : Z} {SL : SLaws F K C R p} {TO : TransOps T R K} {HO : ShortOps T C}.
Add Ring Cring76 : (@rlaws_th C _ _).
Add Ring Rring76 : (@rlaws_th R _ _).
(** The part of a ring element that K digits do not represent. *)
Definition rest_c (P : dparams) (c : C) : C :=
  of_coeffs (map (fun x => rofZ (rest_z (dp_K P) (Z.of_nat (dp_b P)) (signed x))) (coeffs c)).
Lemma cf_rest P c j : (j < dimC)%nat -> cf j (rest_c P c) = rofZ (rest_z (dp_K P) (Z.of_nat (dp_b P)) (signed (cf j c))).
Proof.
  intros Hj. unfold rest_c. rewrite cf_of_coeffs by (rewrite map_length, coeffs_length; auto).
  rewrite (nth_map_lt _ _ _ 0) by (rewrite coeffs_length; auto). reflexivity.
Qed.
Lemma rest_c_0 P c : (2 <= dp_b P)%nat -> rest_c P c = 0 <-> in_range P c.
Proof.
  intros Hb. split.
  - intros E j. destruct (Nat.lt_ge_cases j dimC) as [Hj|Hj].
    + apply rest_0; [lia|]. assert (rofZ (rest_z (dp_K P) (Z.of_nat (dp_b P)) (signed (cf j c))) = (rofZ 0 : F)) as E1 by (rewrite <- cf_rest, E, rofZ_0 by auto; apply cf_0).
      pose proof (signed_bound (cf j c)) as HB. pose proof (rest_le (dp_K P) (Z.of_nat (dp_b P)) (signed (cf j c)) ltac:(lia)) as HR.
      pose proof (Z.abs_nonneg (signed (cf j c))). pose proof p_odd as Hp. apply (rofZ_inj_small (p := p)) in E1; [exact E1|lia|rewrite Z.abs_0; lia].
    + rewrite cf_out, signed_0 by auto. pose proof (reach_nonneg (dp_K P) (Z.of_nat (dp_b P)) ltac:(lia)). cbn. lia.
  - intros H. apply cf_ext. intros j Hj. rewrite cf_rest by auto. rewrite (proj2 (rest_0 (dp_K P) (Z.of_nat (dp_b P)) _ ltac:(lia)) (H j)), rofZ_0, cf_0. reflexivity.
Qed.
Lemma digit_rest P c : (2 <= dp_b P)%nat ->
  c = sumn (dp_K P) (fun i => bw P i * digit P i c) + bw P (dp_K P) * rest_c P c.
Proof.
  intros Hb. rewrite (sumn_ext (dp_K P) _ (fun i => nth i (decompose_c (Z.of_nat (dp_b P)) (dp_K P) c) 0 * rpow (rofZ (Z.of_nat (dp_b P))) i))
    by (intros i Hi; unfold bw, digit; rewrite rofZ_pow; ring).
  rewrite <- (recompose_nth (dp_K P)) by (rewrite decompose_c_length; auto).
  apply cf_ext. intros j Hj. unfold bw. rewrite cf_add, cf_ofZ, cf_rest, cf_recompose by auto.
  assert (map (cf j) (decompose_c (Z.of_nat (dp_b P)) (dp_K P) c) = map rofZ (decompose_z (dp_K P) (Z.of_nat (dp_b P)) (signed (cf j c)))) as ->.
  { apply (list_ext 0); rewrite !map_length, decompose_c_length; [rewrite decompose_z_length; auto|].
    intros i Hi. rewrite (nth_map_lt _ _ _ 0) by (rewrite decompose_c_length; auto).
    rewrite (nth_map_lt _ _ _ 0%Z) by (rewrite decompose_z_length; auto). apply cf_decompose; auto. }
  rewrite recompose_ofZ, <- rofZ_mul, <- rofZ_add, <- rest_value by lia. symmetry. apply signed_val.
Qed.
(** The lost part of a witness, evaluated as the evaluation claims of the witness are. *)
Definition lost (P : dparams) (w : witness C R) (r : list R) : Prop :=
  forall j, (j < tau)%nat -> mle_spec (fun i => hat j (nth i (map (rest_c P) (w_fc w)) 0)) r = (0 : R).
Lemma rest_c_zero P : (2 <= dp_b P)%nat -> rest_c P 0 = 0.
Proof. intros Hb. apply rest_c_0; auto. intros j. rewrite cf_0, signed_0. pose proof (reach_nonneg (dp_K P) (Z.of_nat (dp_b P)) ltac:(lia)). cbn. lia. Qed.
Lemma bw_cancel P k (x : R) : (2 <= dp_b P)%nat -> char_gt K (dp_b P) -> bw P k * x = 0 -> x = 0.
Proof.
  intros Hb Hc E. apply sl_ext. intros j Hj. apply (f_equal (sl j)) in E. rewrite sl_mul, sl_0 in E. unfold bw in E. rewrite sl_ofZ, rofZ_pow in E by auto.
  rewrite sl_0. apply fmul_eq_0 in E as [E|E]; auto. exfalso. revert E. apply fpow_neq_0. apply (Hc (dp_b P)). lia.
Qed.
Lemma digit_zero P i : (2 <= dp_b P)%nat -> (i < dp_K P)%nat -> digit P i 0 = 0.
Proof.
  intros Hb Hi. unfold digit. apply cf_ext. intros l Hl'. rewrite cf_decompose, !cf_0, signed_0 by auto.
  assert (forall k, nth i (decompose_z k (Z.of_nat (dp_b P)) 0) 0%Z = 0%Z) as ->; [|apply rofZ_0].
  intros k. clear - Hb. revert i. induction k as [|k IH]; intros i; cbn [decompose_z]; [destruct i; reflexivity|].
  unfold dec1. rewrite Z.rem_0_l, Z.quot_0_l by lia. pose proof (Z.div_pos (Z.of_nat (dp_b P)) 2 ltac:(lia) ltac:(lia)) as H2.
  destruct (Z.leb_spec (Z.abs 0) (Z.of_nat (dp_b P) / 2)) as [_|H]; [|cbn in H; lia]. destruct i; [reflexivity|apply IH].
Qed.
Theorem dec_lost (P : dparams) (A : ajtai R) (cs : ccs R) (lc : lcccs R) (w : witness C R) (ts ts1 : T) mzs lcs wits pf ts' res :
  sizes_ok p P cs -> char_gt K (dp_b P) -> lcccs_rel P A cs lc w ->
  dec_prove P lc w ts cs A = Ok (mzs, lcs, wits, pf, ts') -> dec_verify P lc pf ts1 = Ok res -> lost P w (lc_r lc).
Proof.
  intros Hs Hc Hr HP HV. pose proof (so_b _ _ _ Hs) as Hb. pose proof (so_K _ _ _ Hs) as HK. pose proof (so_cov _ _ _ Hs) as (HB & HL & Hp).
  destruct (opens_w_len P A cs (lc_cm lc) w HL (lr_open _ _ _ _ _ Hr)) as [Hwl Hfl]. pose proof (so_n _ _ _ Hs) as Hn.
  pose proof (lr_r _ _ _ _ _ Hr) as Hlr. pose proof (lr_v _ _ _ _ _ Hr) as Hv.
  assert (w_fc w <> []) as Hne. { intros E. rewrite E in Hfl. cbn in Hfl. nia. }
  unfold dec_prove in HP. apply bind_ok_inv in HP as (? & _ & HP).
  assert (decompose_witness P w = map (dw P w) (seq 0 (dp_K P))) as E1.
  { unfold decompose_witness. rewrite decompose_B_vec_map, map_map by auto. auto. }
  rewrite E1 in HP. apply bind_ok_inv in HP as (ys & _ & HP). apply bind_ok_inv in HP as (vs & EV & HP).
  set (V := fun i => map (fun j => mle_spec (fun b => hat j (nth b (map (digit P i) (w_fc w)) 0)) (lc_r lc)) (seq 0 tau)).
  assert (compute_v_s (map (dw P w) (seq 0 (dp_K P))) (lc_r lc) = Ok (map V (seq 0 (dp_K P)))) as E4.
  { unfold compute_v_s. rewrite mapM_map. apply mapM_ok. intros i _. rewrite evaluate_mles_ok.
    - f_equal. rewrite (fhat_eval P) by apply from_f_coeff_consistent. reflexivity.
    - rewrite Hlr. unfold dw, wit_from_f_coeff. cbn [w_fhat]. apply (sizes_fhat_nv (p := p) P); auto. rewrite map_length. auto. }
  rewrite E4 in EV. apply ok_inj in EV. subst vs.
  apply bind_ok_inv in HP as (mz & _ & HP). apply bind_ok_inv in HP as (us & _ & HP). apply bind_ok_inv in HP as (rs & _ & HP).
  apply ok_inj in HP. assert (dp_vs pf = map V (seq 0 (dp_K P))) as EV by (injection HP as <- <- <- <- <-; reflexivity). clear HP.
  unfold dec_verify in HV. apply bind_ok_inv in HV as (? & _ & HV). apply bind_ok_inv in HV as (y & _ & HV).
  destruct (negb (leqb y (lc_cm lc))); [discriminate|]. apply bind_ok_inv in HV as (v & EVV & HV).
  destruct (leqb v (lc_v lc)) eqn:Ev; cbn [negb] in HV; [|discriminate]. apply leqb_true in Ev. subst v. clear HV.
  rewrite EV in EVV. apply recompose_vecs_inv in EVV as [EL EVV].
  intros j Hj. assert (length (lc_v lc) = tau) as Hl by (rewrite Hv, map_length, seq_length; auto).
  destruct (EVV j ltac:(lia)) as [_ EJ]. rewrite calculate_b_s_length, map_length, seq_length, Nat.min_id in EJ.
  rewrite Hv, nth_seq_map in EJ by auto.
  rewrite (sumn_ext _ _ (fun i => bw P i * mle_spec (fun b => hat j (nth b (map (digit P i) (w_fc w)) 0)) (lc_r lc))) in EJ.
  2:{ intros i Hi. rewrite nth_calculate_b_s by auto. rewrite (nth_seq_map V) by auto. unfold V. rewrite nth_seq_map by auto. reflexivity. }
  apply (bw_cancel P (dp_K P)); auto. rewrite <- mle_spec_scale.
  rewrite (mle_spec_ext (fun b => hat j (nth b (w_fc w) 0))
    (fun b => sumn (dp_K P) (fun i => bw P i * hat j (nth b (map (digit P i) (w_fc w)) 0)) + bw P (dp_K P) * hat j (nth b (map (rest_c P) (w_fc w)) 0))) in EJ.
  - rewrite mle_spec_add, (mle_spec_sumn (dp_K P) (fun i b => bw P i * hat j (nth b (map (digit P i) (w_fc w)) 0))) in EJ.
    rewrite (sumn_ext _ (fun i => mle_spec _ _) (fun i => bw P i * mle_spec (fun b => hat j (nth b (map (digit P i) (w_fc w)) 0)) (lc_r lc))) in EJ
      by (intros i Hi; apply mle_spec_scale).
    apply (radd_cancel_l (sumn (dp_K P) (fun i => bw P i * mle_spec (fun b => hat j (nth b (map (digit P i) (w_fc w)) 0)) (lc_r lc)))).
    rewrite EJ. ring.
  - intros b _. assert (forall f : C -> C, f 0 = 0 -> nth b (map f (w_fc w)) 0 = f (nth b (w_fc w) 0)) as HN.
    { intros f Hf. rewrite <- Hf at 1. apply map_nth. }
    rewrite (HN (rest_c P)) by (apply rest_c_zero; auto).
    rewrite (sumn_ext _ _ (fun i => bw P i * hat j (digit P i (nth b (w_fc w) 0)))).
    + rewrite (digit_rest P (nth b (w_fc w) 0) Hb) at 1. rewrite hat_add, hat_sumn. unfold bw at 2. rewrite hat_ofZ. f_equal.
      apply sumn_ext. intros i Hi. apply hat_ofZ.
    + intros i Hi. rewrite HN; auto. apply digit_zero; auto.
Qed.
(** The honest proof of a whole step. *)
Theorem nifs_lost P (A : ajtai R) (cs : ccs R) acc (w_acc : witness C R) cm_i w_i (ts ts1 : T) lc w pf ts' res :
  sizes_ok p P cs -> char_gt K (dp_b P) -> lcccs_rel P A cs acc w_acc ->
  nifs_prove P acc w_acc cm_i w_i ts cs A = Ok (lc, w, pf, ts') -> nifs_verify P acc cm_i pf ts1 cs = Ok res -> lost P w_acc (lc_r acc).
Proof.
  intros Hs Hc Hr HP HV. unfold nifs_prove in HP. apply bind_ok_inv in HP as (? & _ & HP). apply bind_ok_inv in HP as ([[lin pfl] t1] & _ & HP).
  apply bind_ok_inv in HP as ([[[[mz_l lc_l] wit_l] pf_l] t2] & ED & HP). apply bind_ok_inv in HP as ([[[[mz_r lc_r'] wit_r] pf_r] t3] & _ & HP).
  apply bind_ok_inv in HP as ([[[lc0 w0] pff] t4] & _ & HP). apply ok_inj in HP. injection HP as <- <- <- <-.
  unfold nifs_verify in HV. cbn [lf_lin lf_dec_l lf_dec_r lf_fold] in HV. apply bind_ok_inv in HV as (? & _ & HV). apply bind_ok_inv in HV as ([lin' t1'] & _ & HV).
  apply bind_ok_inv in HV as ([lcl' t2'] & EV & HV). exact (dec_lost P A cs acc w_acc _ _ _ _ _ _ _ _ Hs Hc Hr ED EV).
Qed.
Lemma hat_neq_0 (c : C) : c <> 0 -> exists j s, (j < tau)%nat /\ (s < dimN)%nat /\ sl s (hat j c : R) <> 0.
Proof.
  intros Hc. destruct (Forall_Exists_dec (fun j => cf j c = 0) (fun j => req_dec (cf j c) 0) (seq 0 dimC)) as [HF|HE].
  - exfalso. apply Hc. apply cf_ext. intros j Hj. rewrite cf_0. rewrite Forall_forall in HF. apply HF, in_seq. lia.
  - apply Exists_exists in HE as (i & Hi & Hn). apply in_seq in Hi. pose proof dimN_pos as HN.
    exists (i / dimN)%nat, (i mod dimN)%nat. split; [apply Nat.div_lt_upper_bound; unfold dimC in Hi; lia|].
    split; [apply Nat.mod_upper_bound; lia|]. rewrite sl_hat by (apply Nat.mod_upper_bound; lia).
    replace (i / dimN * dimN + i mod dimN)%nat with i by (rewrite Nat.mul_comm; apply Nat.div_mod; lia).
    intros E. apply Hn. apply embFK_inj. rewrite E. symmetry. apply (hom_0 _ embFK_hom).
Qed.
(** Out of range, only few points hide the lost part. *)
Theorem lost_count P (w : witness C R) s (S : list K) : (2 <= dp_b P)%nat -> NoDup S -> (length (w_fc w) <= 2 ^ s)%nat ->
  ~ Forall (in_range P) (w_fc w) ->
  exists bad : list (list K), NoDup bad /\ (length S * length bad <= s * length S ^ s)%nat /\
    forall r, length r = s -> Forall (fun x => In x S) r -> lost P w (map emb r) -> In r bad.
Proof.
  intros Hb HS Hl Hn.
  destruct (Forall_Exists_dec (fun c => rest_c P c = 0) (fun c => req_dec (rest_c P c) 0) (w_fc w)) as [HF|HE].
  - exfalso. apply Hn. eapply Forall_impl; [|exact HF]. intros c. apply rest_c_0. auto.
  - apply Exists_exists in HE as (c & Hc & Hr). apply In_nth with (d := 0) in Hc as (i & Hi & <-).
    destruct (hat_neq_0 _ Hr) as (j & sl0 & Hj & Hs0 & Hne).
    set (t := fun b => sl sl0 (hat j (nth b (map (rest_c P) (w_fc w)) 0) : R)).
    exists (filter (fun x => mle_spec t x =? 0) (tuples s S)). split; [apply NoDup_filter, tuples_NoDup; auto|]. split.
    + apply zippel; auto. exists i. split; [lia|]. unfold t. rewrite (nth_map_lt _ _ _ 0) by auto. exact Hne.
    + intros r Hrl HrS HL. apply filter_In. split; [apply in_tuples; auto|]. apply req_true. specialize (HL j Hj). apply (f_equal (sl sl0)) in HL.
      rewrite sl_0 in HL. rewrite <- HL. symmetry. unfold t.
      rewrite (hom_mle_spec (sl sl0) (sl_hom sl0 Hs0)). rewrite map_sl_emb by auto. reflexivity.
Qed.

(** One step with the decomposed witnesses and the new point exposed. *)
Theorem nifs_step_shape P A cs acc (w_acc : witness C R) cm_i w_i ts :
  params_ok (p := p) P cs ->
  lcccs_rel P A cs acc w_acc -> Forall (in_range P) (w_fc w_acc) ->
  cccs_rel P A cs cm_i w_i -> Forall (in_range P) (w_fc w_i) ->
  exists lc w pf ts' rho,
    nifs_prove P acc w_acc cm_i w_i ts cs A = Ok (lc, w, pf, ts') /\
    nifs_verify P acc cm_i pf ts cs = Ok (lc, ts') /\
    lcccs_rel P A cs lc w /\
    length rho = (2 * dp_K P - 1)%nat /\ Forall drawn rho /\
    is_lin (2 * dp_K P) (fun i => nth i (rho ++ [1]) 0)
      (fun i => map (digit P (i mod dp_K P)) (w_fc (if (i <? dp_K P)%nat then w_acc else w_i))) (w_fc w).
Proof.
  intros [Hs Ho Hd Hcd Hcb Hbp] Hacc Hra Hcm Hri. pose proof (so_b _ _ _ Hs) as Hb2. pose proof (so_K _ _ _ Hs) as HK.
  pose proof (so_cov _ _ _ Hs) as (_ & HL & _). pose proof (so_n _ _ _ Hs) as Hn'.
  unfold nifs_prove, nifs_verify. rewrite (sizes_sanity (p := p) P cs Hs). cbn [bind].
  set (ts0 := absorb_public_input acc cm_i ts).
  destruct (linearization_complete P A cs cm_i w_i ts0) as (lin & pfl & ts1 & L1 & L2 & L3 & _ & _); auto.
  rewrite L1. cbn [bind].
  destruct (decomposition_complete P A cs acc w_acc ts1) as (mz1 & lc1 & wt1 & pf1 & ts2 & A1 & A2 & A3 & A4 & A5 & A6 & A7 & A8 & _); auto.
  rewrite A1. cbn [bind].
  destruct (decomposition_complete P A cs lin w_i ts2) as (mz2 & lc2 & wt2 & pf2 & ts3 & B1 & B2 & B3 & B4 & B5 & B6 & B7 & B8 & _); auto.
  rewrite B1. cbn [bind].
  assert (forall lc w t mzs lcs wits pf t', w_fc w <> [] -> dec_prove P lc w t cs A = Ok (mzs, lcs, wits, pf, t') ->
    wits = map (dw P w) (seq 0 (dp_K P))) as HDW.
  { clear. intros lc w t mzs lcs wits pf t' Hne HP. unfold dec_prove in HP. apply bind_ok_inv in HP as (? & _ & HP).
    apply bind_ok_inv in HP as (ys & _ & HP). apply bind_ok_inv in HP as (vs & _ & HP).
    apply bind_ok_inv in HP as (mz & _ & HP). apply bind_ok_inv in HP as (us & _ & HP). apply bind_ok_inv in HP as (rs & _ & HP).
    apply ok_inj in HP. assert (wits = decompose_witness P w) as -> by (injection HP as <- <- <- <- <-; reflexivity).
    unfold decompose_witness. rewrite decompose_B_vec_map, map_map by auto. auto. }
  assert (forall cm w, opens P A cs cm w -> w_fc w <> []) as HNE.
  { intros cm w HO' E. destruct (opens_w_len P A cs cm w HL HO') as [_ Hfl]. rewrite E in Hfl. cbn in Hfl. nia. }
  apply HDW in A1; [|eapply HNE; apply (lr_open _ _ _ _ _ Hacc)]. apply HDW in B1; [|eapply HNE; apply (cr_open _ _ _ _ _ Hcm)].
  assert (Forall (wit_norm (Z.of_nat (dp_b P) / 2)) (wt1 ++ wt2)) as Hn by (apply Forall_app; auto).
  destruct (folding_complete P A cs (lc1 ++ lc2) (wt1 ++ wt2) ts3 (lc_r acc) (lc_r lin)) as
    (lc & w & pff & ts4 & rs & rho & F1 & F2 & F3 & _ & (F5 & F6) & F7); auto.
  - unfold halves. rewrite map_app, (map_const_repeat lc_r lc1 (lc_r acc)), (map_const_repeat lc_r lc2 (lc_r lin)) by auto.
    rewrite A3, B3. auto.
  - apply Forall2_app'; auto.
  - eapply Forall_impl; [|exact Hn]. intros w'. apply wit_norm_mono.
    pose proof (Z.div_le_upper_bound (Z.of_nat (dp_b P)) 2 (Z.of_nat (dp_b P) - 1)). lia.
  - rewrite A8, B8. rewrite <- zipw_app by lia. rewrite F1. cbn [bind].
    exists lc, w, (LFProof pfl pf1 pf2 pff), ts4, rho. split; auto.
    cbn [lf_lin lf_dec_l lf_dec_r lf_fold]. rewrite L2. cbn [bind]. rewrite A2. cbn [bind]. rewrite B2. cbn [bind].
    split; auto. split; auto. split; auto. split; auto.
    eapply is_lin_ext; [|exact F7]. intros i Hi. cbn beta. destruct (Nat.ltb_spec i (dp_K P)).
    + rewrite app_nth1 by lia. rewrite A1, nth_seq_map by auto. rewrite Nat.mod_small by auto. reflexivity.
    + rewrite app_nth2 by lia. rewrite A4. rewrite B1, nth_seq_map by lia.
      replace (i mod dp_K P)%nat with (i - dp_K P)%nat by (apply (Nat.mod_unique _ _ 1); lia). reflexivity.
Qed.
End Rj.
