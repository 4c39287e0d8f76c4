(** C107: the sizes without which the commitment transformation of LatticeFold+ panics. *)
From Coq Require Import String List Arith Lia ZArith Bool Ring.
From Verif Require Import Prelude Alg MLE MLE_Proofs Transcript Sumcheck Sumcheck_Proofs Arith Arith_Proofs Linearization_Proofs
  Rings Rings_Proofs PlusRing PlusUtils_Proofs SetCheck SetCheck_Proofs SetCheck_Sound RangeCheck RangeCheck_Proofs Cm Cm_Proofs.
Import ListNotations.
Local Open Scope rs_scope.

Section N.
Context {K R T : Type} {PO : POps K R} {TO : TransOps T R K} {p : Z} {PL : PLaws K R p}.

(** * C107
    An instance of the range check is made only if the matrix has one column per entry of the witness and the kappa k l d^2 base-p
    digits of the commitments are fewer than those entries. *)
Theorem C107_range_needs (f : list R) (A : ajtai R) P (x : rg_inst K R) : from_f f A P = Ok x ->
  (1 <= rp_k P)%nat /\ a_ncols A = length f /\ (kappa A * (rp_k P * pdim) * rp_l P * pdim < length f)%nat /\
  length (ri_tau x) = length f /\ length (ri_mtau x) = length f /\ ri_f x = f /\ length (nth 0 (ri_comMf x) []) = kappa A /\ ri_comMf x <> [].
Proof.
  unfold from_f. intros H. apply bind_ok_inv in H as (Mf & E1 & H). apply bind_ok_inv in H as (cMf & E2 & H). apply bind_ok_inv in H as (com & E3 & H).
  apply bind_ok_inv in H as (tau & E4 & H). apply bind_ok_inv in H as (mtau & E5 & H). apply bind_ok_inv in H as (cf & E6 & H). apply bind_ok_inv in H as (cM & E7 & H). apply bind_ok_inv in H as (cm & E8 & H).
  apply ok_inj in H. subst x. cbn [ri_tau ri_mtau ri_f ri_comMf].
  assert (length Mf = rp_k P) as LM. { rewrite (mapM_length _ _ _ E1). unfold digit_mats. rewrite map_length, seq_length. reflexivity. }
  pose proof (mapM_length _ _ _ E2) as Lc.
  assert (a_ncols A = length f) as HA.
  { unfold dm_mul_vec, checked_mul_vec in E6. destruct (Nat.eqb_spec (a_ncols A) (length f)) as [Q|Q]; [exact Q|discriminate]. }
  assert (cMf <> []) as Hne by (intros ->; discriminate E3).
  assert (1 <= rp_k P)%nat as Hk. { destruct cMf; [congruence|]. cbn [length] in Lc. lia. }
  assert (Forall (fun M => length M = kappa A /\ Forall (fun row => length row = pdim) M) cMf) as HF.
  { apply mapM_inv in E2. clear - E2. induction E2 as [|a b la lb Hab _ IH]; constructor; [|exact IH]. unfold dm_mul_mat in Hab.
    destruct (_ =? _)%nat; [|discriminate]. apply ok_inj in Hab. subst b. split; [apply map_length|]. apply Forall_map, Forall_forall. intros r _. rewrite map_length. apply seq_length. }
  rewrite (hconcat_ok (kappa A) cMf Hne (Forall_impl _ (fun M Q => proj1 Q) HF)) in E3. apply ok_inj in E3. subst com.
  set (com := hrows (kappa A) cMf) in *.
  assert (length com = kappa A) as Lcom by (unfold com, hrows; rewrite map_length, seq_length; auto).
  assert (Forall (fun row => length row = (rp_k P * pdim)%nat) com) as Wcom.
  { unfold com, hrows. apply Forall_map, Forall_forall. intros r Hr. apply in_seq in Hr. rewrite <- LM, <- Lc. clear - HF Hr.
    induction HF as [|M Ms [H1 H2] _ IH]; auto. cbn [map concat length]. rewrite app_length, IH. rewrite Forall_forall in H2. rewrite (H2 (nth r M [])) by (apply nth_In; lia). lia. }
  assert (kappa A * (rp_k P * pdim) * rp_l P * pdim < length f)%nat as HS.
  { rewrite <- Lcom, <- (split_data_length com (Z.of_nat (pdim / 2)) (rp_l P) _ Wcom). destruct (Nat.lt_ge_cases (length (split_data com (Z.of_nat (pdim / 2)) (rp_l P))) (length f)) as [Q|Q]; [exact Q|].
    rewrite (split_panics _ _ _ _ Q) in E4. discriminate. }
  assert (length tau = length f) as Lt.
  { unfold split in E4. destruct (_ <? _)%nat; [|discriminate]. apply ok_inj in E4. subst tau. apply resize_length. }
  repeat split; auto; [rewrite (mapM_length _ _ _ E5); exact Lt|]. destruct HF as [|M Ms [Q _] _]; [congruence|exact Q].
Qed.

Lemma mapT_length {A B} (f : A -> T -> result (B * T)) l ts bs ts' : mapT f l ts = Ok (bs, ts') -> length bs = length l.
Proof.
  revert ts bs ts'; induction l as [|a l IH]; intros ts bs ts' H; cbn [mapT] in H; [apply ok_inj in H; injection H as <- _; reflexivity|].
  apply bind_ok_inv in H as ([b t1] & _ & H). apply bind_ok_inv in H as ([bs' t2] & E & H). apply ok_inj in H. injection H as <- _. cbn [length]. f_equal. eapply IH, E.
Qed.
Lemma mapT_Forall {A B} (f : A -> T -> result (B * T)) (Q : B -> Prop) l ts bs ts' : (forall a t b t', f a t = Ok (b, t') -> Q b) -> mapT f l ts = Ok (bs, ts') -> Forall Q bs.
Proof.
  intros HQ. revert ts bs ts'; induction l as [|a l IH]; intros ts bs ts' H; cbn [mapT] in H; [apply ok_inj in H; injection H as <- _; constructor|].
  apply bind_ok_inv in H as ([b t1] & E1 & H). apply bind_ok_inv in H as ([bs' t2] & E & H). apply ok_inj in H. injection H as <- _. constructor; eauto.
Qed.
Lemma cm_challenges_shape k (ts : T) s s' ts' : cm_challenges k ts = Ok (s, s', ts') -> sp_ok k s'.
Proof.
  unfold cm_challenges. intros H. apply bind_ok_inv in H as ([a t1] & _ & H). apply bind_ok_inv in H as ([b t2] & E & H). apply ok_inj in H. injection H as _ <- _.
  split; [rewrite (mapT_length _ _ _ _ _ E); apply seq_length|]. eapply mapT_Forall; [|exact E]. intros i t q t' Hq. unfold short_challenges in Hq. rewrite (mapT_length _ _ _ _ _ Hq). apply seq_length.
Qed.
Lemma cm_h_length nv s' (i : rg_inst K R) h : cm_h nv s' i = Ok h -> length h = (2 ^ nv)%nat.
Proof.
  unfold cm_h, sum_into. intros H. apply bind_ok_inv in H as (vs & _ & H). destruct (forallb _ vs); [|discriminate]. apply ok_inj in H. subst h.
  assert (forall acc : list R, length (fold_left (fun acc v => zipl radd acc v) vs acc) = length acc) as Q. { induction vs as [|v vs IH]; intros acc; cbn [fold_left]; [reflexivity|]. rewrite IH, zipl_length. reflexivity. }
  rewrite Q, repeat_length. reflexivity.
Qed.
Lemma sm_mul_vec_cols (m : smat R) v w : sm_mul_vec m v = Ok w -> m_ncols m = length v.
Proof. unfold sm_mul_vec, mat_vec_mul. destruct (Nat.eqb_spec (m_ncols m) (length v)) as [Q|Q]; [auto|discriminate]. Qed.
Lemma inst_vecs_needs (M : list (smat R)) i h vs m : inst_vecs M i h = Ok vs -> In m M ->
  m_ncols m = length h /\ length (ri_tau i) = length h /\ length (ri_mtau i) = length h /\ length (ri_f i) = length h.
Proof.
  unfold inst_vecs. intros H Hm. apply bind_ok_inv in H as (ms & E & _). apply mapM_inv in E. 
  assert (exists r, mapM (sm_mul_vec m) [map emb (ri_tau i); ri_mtau i; ri_f i; h] = Ok r) as [r Hr].
  { induction E as [|a b la lb Hab _ IH]; [destruct Hm|]. destruct Hm as [<-|Hm]; [eauto|auto]. }
  cbn [mapM] in Hr. apply bind_ok_inv in Hr as (? & A1 & Hr). apply bind_ok_inv in Hr as (? & Hr & _). apply bind_ok_inv in Hr as (? & A2 & Hr). apply bind_ok_inv in Hr as (? & Hr & _).
  apply bind_ok_inv in Hr as (? & A3 & Hr). apply bind_ok_inv in Hr as (? & Hr & _). apply bind_ok_inv in Hr as (? & A4 & _).
  apply sm_mul_vec_cols in A1, A2, A3, A4. rewrite map_length in A1. repeat split; congruence.
Qed.

(** The transformation answers only if: with any matrix at all, the vectors of every instance and the columns of every matrix number
    exactly 2^nvars; and the first instance has room for the tensor of challenges, next_power_of_two(kappa) k l d^2 entries. *)
Theorem C107_cm_needs nv (insts : list (rg_inst K R)) P (M : list (smat R)) (ts : T) res : cm_prove (Rg nv insts P) M ts = Ok res ->
  (forall m x, In m M -> In x insts -> m_ncols m = (2 ^ nv)%nat /\ length (ri_tau x) = (2 ^ nv)%nat /\ length (ri_mtau x) = (2 ^ nv)%nat /\ length (ri_f x) = (2 ^ nv)%nat) /\
  insts <> [] /\ forall x rest, insts = x :: rest -> (1 <= pdim)%nat -> (1 <= rp_k P)%nat -> (1 <= rp_l P)%nat ->
    (next_pow2 (length (nth 0 (ri_comMf x) [])) * (rp_k P * pdim) * rp_l P * pdim <= length (ri_tau x))%nat.
Proof.
  unfold cm_prove. cbn [rg_insts rg_nvars rg_params]. destruct insts as [|i0 insts]; [discriminate|]. intros H.
  apply bind_ok_inv in H as ([dc t1] & _ & H). apply bind_ok_inv in H as ([[s s'] t2] & E1 & H). apply bind_ok_inv in H as (hs & E2 & H). apply bind_ok_inv in H as (comh & E3 & H).
  apply bind_ok_inv in H as ([[c0 c1] t3] & E4 & H). apply bind_ok_inv in H as (u & E5 & H). apply bind_ok_inv in H as (u' & _ & H). apply bind_ok_inv in H as (sa & E6 & _).
  apply cm_challenges_shape in E1 as [L1 F1]. split; [|split; [discriminate|]].
  - intros m x Hm Hx. unfold sumchecker in E6. destruct (get_challenge t3) as [rc t4]. apply bind_ok_inv in E6 as (eq & _ & E6). apply bind_ok_inv in E6 as (vs & E7 & _).
    pose proof (mapM_length _ _ _ E2) as Lh. apply mapM_inv in E2, E7. revert Hx Lh E2 E7. generalize (i0 :: insts) as l. clear - Hm. intros l Hx _ E2. revert vs Hx.
    induction E2 as [|a h la lh Hah _ IH]; intros vs Hx E7; [destruct Hx|]. cbn [combine] in E7. inversion E7 as [|? v ? vs' V1 V2]; subst. cbn [fst snd] in V1.
    destruct Hx as [<-|Hx]; [|eauto]. pose proof (inst_vecs_needs _ _ _ _ _ V1 Hm) as Q. rewrite (cm_h_length _ _ _ _ Hah) in Q. exact Q.
  - intros x rest [= <- <-] Hd Hk Hl. unfold guard in E5. destruct (Nat.leb_spec (length (calculate_t_z c0 (concat s') (dp_pows (rp_l P)) x_pows)) (length (ri_tau i0))) as [Q|Q]; [|discriminate]. 
    assert (length (concat s') = (rp_k P * pdim)%nat) as Lc. { rewrite <- L1. clear - F1. induction F1 as [|v s' Hv _ IH]; [reflexivity|]. cbn [concat length]. rewrite app_length, IH, Hv. lia. }
    rewrite (t_length (p := p)) in Q by (rewrite ?Lc; nia). rewrite Lc in Q.
    assert (2 ^ length c0 = next_pow2 (length (nth 0 (ri_comMf i0) [])))%nat as HE; [|rewrite HE in Q; exact Q].
    unfold c_challenges in E4. apply bind_ok_inv in E4 as (ch0 & E8 & E4). cbn [mapM] in E3. apply bind_ok_inv in E3 as (ch & E9 & E3). apply bind_ok_inv in E3 as (chs & _ & E3). apply ok_inj in E3. subst comh.
    unfold index in E8. cbn [nth_error] in E8. apply ok_inj in E8. subst ch0.
    unfold cm_comh, sum_into in E9. apply bind_ok_inv in E9 as (vs & _ & E9). apply bind_ok_inv in E9 as (M0 & E10 & E9). destruct (forallb _ vs); [|discriminate]. apply ok_inj in E9.
    assert (length ch = length M0) as Lch. { subst ch. assert (forall acc : list R, length (fold_left (fun acc v => zipl radd acc v) vs acc) = length acc) as Z0. { clear. induction vs as [|v vs IH]; intros acc; cbn [fold_left]; [reflexivity|]. rewrite IH, zipl_length. reflexivity. } rewrite Z0. apply repeat_length. }
    assert (nth 0 (ri_comMf i0) [] = M0) as ->. { unfold index in E10. destruct (ri_comMf i0); [discriminate|]. apply ok_inj in E10. exact E10. }
    pose proof (get_challenges_length (absorb_comh (ch :: chs) t2) (ark_log2 (length ch))) as G. destruct (get_challenges _ (ark_log2 (length ch))) as [a t4]. destruct (get_challenges t4 _) as [b t5]. apply ok_inj in E4. injection E4 as <- _ _.
    cbn [fst] in G. rewrite map_length, G, Lch. reflexivity.
Qed.
(** From witnesses: the conditions on sizes in the completeness theorem C48 cannot be dropped. *)
Theorem C107_needs fs A P (insts : list (rg_inst K R)) nv (M : list (smat R)) (ts : T) res : (1 <= pdim)%nat -> (1 <= rp_l P)%nat ->
  mapM (fun f => from_f f A P) fs = Ok insts -> cm_prove (Rg nv insts P) M ts = Ok res ->
  fs <> [] /\ Forall (fun f => length f = a_ncols A) fs /\ (kappa A * (rp_k P * pdim) * rp_l P * pdim < a_ncols A)%nat /\
  (next_pow2 (kappa A) * (rp_k P * pdim) * rp_l P * pdim <= a_ncols A)%nat /\ (M <> [] -> a_ncols A = (2 ^ nv)%nat /\ Forall (fun m => m_ncols m = (2 ^ nv)%nat) M).
Proof.
  intros Hd Hl Hm Hp. apply C107_cm_needs in Hp as (N1 & N2 & N3). apply mapM_inv in Hm.
  destruct Hm as [|f x fs insts Hf Hr]; [congruence|]. pose proof (C107_range_needs _ _ _ _ Hf) as (R1 & R2 & R3 & R4 & R5 & R6 & R7 & R8).
  split; [discriminate|]. split; [|split; [lia|split]].
  - constructor; [auto|]. clear - Hr PL. induction Hr as [|a b la lb Hab _ IH]; constructor; [|exact IH]. apply C107_range_needs in Hab. destruct Hab as (_ & Q & _). auto.
  - specialize (N3 x insts eq_refl Hd R1 Hl). rewrite R7, R4 in N3. lia.
  - intros HM. destruct M as [|m M]; [congruence|]. split.
    + destruct (N1 m x (or_introl eq_refl) (or_introl eq_refl)) as (_ & Q & _). lia.
    + apply Forall_forall. intros m' Hm'. apply (N1 m' x Hm' (or_introl eq_refl)).
Qed.
End N.
