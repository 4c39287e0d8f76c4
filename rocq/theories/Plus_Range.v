(** What the range check guarantees when its openings are right, and what it does not guarantee because the verifier of
    rgchk.rs (193-241) compares neither [v] with [c[0]] nor [b[0]] with the opening used by the set check. *)
From Coq Require Import String List Arith Lia ZArith Bool Ring.
From Verif Require Import Prelude Alg Poly MLE MLE_Proofs Transcript Sumcheck Sumcheck_Proofs CombDeg Arith Arith_Proofs Balanced
  Linearization_Proofs Folding_Sound Rings Rings_Proofs PlusRing PlusUtils_Proofs SetCheck SetCheck_Proofs SetCheck_Sound
  RangeCheck RangeCheck_Proofs RangeCheck_Sound Cm Cm_Proofs.
Import ListNotations.
Local Open Scope rs_scope.

Section Bounds.
Context {K R : Type} {PO : POps K R} {p : Z} {PL : PLaws K R p}.
Add Ring Rring66 : (@rlaws_th R _ (pl_R (p := p))).
Add Ring Kring66 : (@rlaws_th K _ (fld_laws (FieldLaws := pl_K (p := p)))).

Lemma psi_mono_small (x : R) : in_monos x -> exists z, (2 * Z.abs z < Z.of_nat pdim)%Z /\ psi_ct x = rofZ z.
Proof.
  intros [->|(i & Hi & ->)].
  - exists 0%Z. pose proof (pdim_pos (p := p)). split; [lia|]. rewrite (klin_0 (p := p)) by apply klin_psi. symmetry. apply rofZ_0.
  - unfold psi_ct. destruct (ppsi_mono i Hi) as (z & Hz & E). exists z. auto.
Qed.
Lemma rofn_ofZ n : (rofn n : K) = rofZ (Z.of_nat n).
Proof. reflexivity. Qed.
Lemma digits_bound k (m : nat -> R) : Nat.even pdim = true -> (forall i, (i < k)%nat -> in_monos (m i)) ->
  exists z, (Z.abs z < Z.of_nat (pdim / 2) ^ Z.of_nat k)%Z /\ sumn k (fun i => psi_ct (m i) * rpow (rofn (pdim / 2)) i) = (rofZ z : K).
Proof.
  intros He. pose proof (pdim_pos (p := p)) as Hd. apply Nat.even_spec in He as [h Hh].
  assert (pdim / 2 = h)%nat as -> by (rewrite Hh, Nat.mul_comm; apply Nat.div_mul; auto).
  assert (1 <= h)%nat as H1 by lia.
  induction k as [|k IH]; intros Hm; cbn [sumn].
  - exists 0%Z. rewrite Z.pow_0_r, rofZ_0. split; [lia|auto].
  - destruct IH as (z & Hz & E); [intros; apply Hm; lia|]. destruct (psi_mono_small (m k) (Hm k ltac:(lia))) as (y & Hy & Ey).
    exists (z + y * Z.of_nat h ^ Z.of_nat k)%Z. split.
    + rewrite Nat2Z.inj_succ, Z.pow_succ_r by lia. assert (Z.abs y <= Z.of_nat h - 1)%Z by lia.
      pose proof (Z.abs_triangle z (y * Z.of_nat h ^ Z.of_nat k)). rewrite Z.abs_mul, (Z.abs_eq (_ ^ _)) in H0 by (apply Z.pow_nonneg; lia). nia.
    + rewrite E, Ey, rofZ_add, rofZ_mul, rofn_ofZ. rewrite rofZ_pow. reflexivity.
Qed.
(** Bounds on the witness and on [tau] that follow from the specification of an instance. *)
Theorem rg_wf_bounds N k (x : rg_inst K R) : Nat.even pdim = true -> (2 * Z.of_nat (pdim / 2) ^ Z.of_nat k <= p + 1)%Z -> (Z.of_nat pdim <= p)%Z -> rg_wf ri_f N k x ->
  Forall (fun y => Forall (fun c => (Z.abs (psigned c) < Z.of_nat (pdim / 2) ^ Z.of_nat k)%Z) (pcoeffs y)) (ri_f x) /\
  Forall (fun c => (2 * Z.abs (psigned c) < Z.of_nat pdim)%Z) (ri_tau x).
Proof.
  intros He Hp Hp' [W1 W2 W3 [W0 W4] W5 W6 W7]. split.
  - apply Forall_forall. intros y Hy. apply (In_nth _ _ 0) in Hy as (r & Hr & <-). apply Forall_forall. intros c Hc.
    apply (In_nth _ _ 0) in Hc as (j & Hj & <-). rewrite pcoeffs_length in Hj. rewrite <- W4 by lia.
    destruct (digits_bound k (fun i => nth j (nth r (nth i (ri_Mf x) []) []) 0) He) as (z & Hz & ->).
    + intros i Hi. rewrite Forall_forall in W3. destruct (W3 (nth i (ri_Mf x) [])) as [LM FM]; [apply nth_In; lia|].
      rewrite Forall_forall in FM. destruct (FM (nth r (nth i (ri_Mf x) []) [])) as [Lr Fr]; [apply nth_In; lia|].
      rewrite Forall_forall in Fr. apply Fr, nth_In. lia.
    + set (B := (_ ^ Z.of_nat k)%Z) in *. clearbody B. rewrite psigned_small; lia.
  - rewrite <- W7. apply Forall_map. eapply Forall_impl; [|exact W6]. intros m Hm. destruct (psi_mono_small m Hm) as (z & Hz & ->).
    rewrite psigned_small; lia.
Qed.
End Bounds.

Section Forge.
Context {K R T : Type} {PO : POps K R} {TO : TransOps T R K} {p : Z} {PL : PLaws K R p}.
Add Ring Rring67 : (@rlaws_th R _ (pl_R (p := p))).
Add Ring Kring67 : (@rlaws_th K _ (fld_laws (FieldLaws := pl_K (p := p)))).

(** The witness whose digits the matrices hold. *)
Definition decoded (n k : nat) (Mf : list (list (list R))) : list R :=
  map (fun r => pof_coeffs (map (fun c => sumn k (fun i => psi_ct (nth c (nth r (nth i Mf []) []) 0) * rpow (rofn (pdim / 2)) i)) (seq 0 pdim))) (seq 0 n).
Lemma decoded_digits n k Mf f : digits_of n k Mf f -> decoded n k Mf = f.
Proof.
  intros [L H]. apply (list_ext 0); unfold decoded; rewrite map_length, seq_length; [auto|]. intros r Hr. rewrite nth_seq_map by auto.
  rewrite <- (pof_coeffs_coeffs (nth r f 0)). f_equal. apply (list_ext 0); rewrite map_length, seq_length; [rewrite pcoeffs_length; auto|].
  intros c Hc. rewrite nth_seq_map by auto. apply H; auto.
Qed.

(** An instance with the witness (and its commitment) replaced, everything else kept. *)
Definition with_f (A : ajtai R) (f : list R) (x : rg_inst K R) : rg_inst K R :=
  RgInst (ri_Mf x) (ri_tau x) (ri_mtau x) f (ri_comMf x)
    (FComs (map (fun row => lsum (zipw rmul row f)) (a_rows A)) (fc_Mf (ri_coms x)) (fc_mtau (ri_coms x))).

(** The openings of the witness data, except [v]: those that the sumchecks of cm.rs are about. *)
Definition cm_openings (M : list (smat R)) (dc : dcom K R) (insts : list (rg_inst K R)) : Prop :=
  let r := so_r (dc_out dc) in
  so_e (dc_out dc) = true_e M r insts /\
  Forall2 (fun ev x => de_a ev = de_a (true_evals M r x) /\ de_b ev = de_b (true_evals M r x) /\ de_c ev = de_c (true_evals M r x)) (dc_evals dc) insts.

Theorem cm_unranged fs0 fs A P nv M (ts : T) : cm_setting (p := p) fs0 A P nv M ->
  Forall2 (fun f f0 => length f = (2 ^ nv)%nat /\ Forall (fun Mi => forall i, mz Mi f i = mz Mi f0 i) M) fs fs0 ->
  exists insts s s' (ro0 ro1 : list K) gs x proof ts',
    map ri_f insts = fs /\ dc_params (cp_dcom proof) = P /\ cm_verify proof M ts = Ok (x, ts') /\
    Forall2 (fun f c => commit A f = Ok (fc_f c)) fs (dc_coms (cp_dcom proof)) /\
    cm_openings M (cp_dcom proof) insts /\
    Forall2 (folded (2 ^ nv) s s') insts gs /\
    Forall2 (fun g c => commit A g = Ok c) gs (cx_cm x) /\
    cx_ro x = combine (map emb ro0) (map emb ro1) /\ cx_vo x = map (evaluations M ro0 ro1) gs.
Proof.
  intros [H1 H2 H3 H4 H5 H6 H7 H8 H9 H10 H11 H12 H13 H14 H15] HF.
  destruct (insts_from_f fs0 A P (2 ^ nv)) as (insts0 & E1 & E2 & E3 & E4); auto.
  set (fv := fun x : rg_inst K R => decoded (2 ^ nv) (rp_k P) (ri_Mf x)).
  set (insts := map (fun fx => with_f A (fst fx) (snd fx)) (combine fs insts0)).
  assert (length fs = length insts0) as Lfs by (rewrite E3; apply (proj1 (proj1 (Forall2_nth _ _ _ [] []) HF))).
  assert (map ri_f insts = fs) as Ef.
  { unfold insts. rewrite map_map. cbn [with_f ri_f]. revert Lfs. clear. revert insts0. induction fs as [|f fs IH]; intros [|x l] H; cbn [length combine map fst] in *; try lia; auto. f_equal. auto. }
  assert (Forall (cm_inst fv A P (2 ^ nv)) insts /\ Forall (same_images M fv) insts) as [HI HSI].
  { unfold insts. rewrite <- E2 in HF. clear - HF E4 H6 PL. revert insts0 HF E4. induction fs as [|f fs IH]; intros [|x l] HF HI; cbn [combine map]; try (split; apply Forall_nil).
    cbn [map] in HF. inversion HF as [|? ? ? ? [Lf Hf] HF']. subst. inversion HI as [|? ? Hx HI']. subst. destruct (IH l HF' HI') as [I1 I2].
    destruct Hx as [[W1 W2 W3 W4 W5 W6 W7] X2 X3 X4 X5 X6].
    assert (fv (with_f A f x) = ri_f x) as Efv by (unfold fv; cbn [with_f ri_Mf]; apply decoded_digits; auto).
    split; apply Forall_cons; auto; cbn [fst snd].
    - split; cbn [with_f ri_f ri_Mf ri_tau ri_mtau ri_comMf ri_coms fc_f fc_Mf fc_mtau]; auto.
      + split; cbn [with_f ri_f ri_Mf ri_tau ri_mtau]; auto. rewrite Efv. auto.
      + apply commit_ok. lia.
    - unfold same_images. rewrite Efv. exact Hf. }
  assert (length insts = length fs0) as Li by (unfold insts; rewrite map_length, combine_length; lia).
  destruct (cm_claim_complete fv (fun c => c) A nv M (Rg nv insts P) ts) as (s & s' & ro0 & ro1 & x & proof & ts' & C); cbn [rg_nvars rg_params rg_insts]; auto.
  { rewrite Li. auto. }
  { split; auto. assert (2 <= pdim / 2)%nat by (apply Nat.div_le_lower_bound; lia). lia. }
  { intros c Hc. auto. }
  cbv zeta in C. destruct C as (C1 & C2 & C3 & C4 & C5 & C6 & CE & CP & CC & CO & CR & C7 & C8 & C9 & C10 & C11 & C12 & C13 & C14). cbn [rg_insts rg_params] in *.
  exists insts, s, s', ro0, ro1, (map (fun xh => gvec s (fst xh) (snd xh)) (combine insts (map (fun x => hvec (2 ^ nv) (ri_Mf x) s') insts))), x, (claim_v fv M insts proof), ts'. split; [exact Ef|]. split; [exact CP|]. split; [exact C6|]. split; [|split; [|split; [|split; [|split; [exact C8|]]]]].
  - cbn [claim_v cp_dcom dc_coms]. rewrite CC. rewrite <- Ef. clear - HI. induction HI as [|y l Hy _ IH]; cbn [map]; [apply Forall2_nil|].
    apply Forall2_cons; auto. apply (ci_f _ _ _ _ _ Hy).
  - unfold cm_openings. cbn [claim_v cp_dcom dc_out dc_evals]. split; [exact CO|]. clear. induction insts as [|y l IH]; cbn [map]; [apply Forall2_nil|]. apply Forall2_cons; auto.
  - apply (Forall2_nth _ _ _ inst0 []). rewrite map_length, combine_length, map_length, Nat.min_id. split; auto. intros l Hl.
    rewrite (nth_map_lt _ _ _ (inst0, [])) by (rewrite combine_length, map_length; lia). rewrite combine_nth by (rewrite map_length; auto). cbn [fst snd].
    rewrite (nth_map_lt _ _ _ inst0) by auto. rewrite Forall_forall in HI. specialize (HI _ (nth_In _ inst0 Hl)). destruct HI as [[W1 W2 W3 W4 W5 W6 W7] X2 X3 X4 X5 X6].
    set (y := nth l insts inst0) in *.
    assert (length (map emb (ri_tau y) : list R) = (2 ^ nv)%nat) as La by (rewrite <- W7, !map_length; auto).
    assert (length (hvec (2 ^ nv) (ri_Mf y) s') = (2 ^ nv)%nat) as Lh by (unfold hvec; rewrite map_length, seq_length; auto).
    split; [apply linv_length; auto|]. intros a Ha. unfold gvec. rewrite (linv_nth s _ _ _ _ (2 ^ nv)) by auto.
    rewrite (nth_map_emb (p := p)). unfold lin3, hvec, hval. rewrite nth_seq_map by auto. reflexivity.
  - rewrite C14. exact C13.
  - rewrite C9. apply map_ext. intros g. apply evaluations_rowop.
Qed.

(** An instance as the set check sees it when its exponent vector is replaced by zeros. *)
Definition zero_mtau (n : nat) (x : rg_inst K R) : rg_inst K R :=
  RgInst (ri_Mf x) (map psi_ct (repeat (0 : R) n)) (repeat 0 n) (ri_f x) (ri_comMf x) (ri_coms x).
(** A prover that runs the set check on zeros and opens any [mtau] afterwards. *)
Theorem range_check_tau_unranged n nv insts P M (ts : T) :
  (1 <= nv)%nat -> nv = ark_log2 (next_pow2 n) -> char_gt K 3 -> (2 <= length insts * rp_k P)%nat ->
  Forall (rg_pre ri_f n (rp_k P)) insts ->
  Forall (fun Mi : smat R => wf_mat n Mi /\ (length (m_coeffs Mi) <= 2 ^ nv)%nat /\ base_mat Mi) M ->
  exists dc ts', rg_verify dc ts = Ok ts' /\ so_nvars (dc_out dc) = nv /\ dc_params dc = P /\
    dc_evals dc = map (true_evals M (so_r (dc_out dc))) insts /\ so_e (dc_out dc) = true_e M (so_r (dc_out dc)) insts /\ dc_coms dc = map ri_coms insts.
Proof.
  intros Hnv En Hc H2 HW HM.
  assert (forall v, length (repeat (0 : R) v) = v) as LR by (intros; apply repeat_length).
  destruct (range_check_complete (p := p) n (Rg nv (map (zero_mtau n) insts) P) M ts) as (o & ts1 & S1 & S2 & S3 & S4 & S5 & S6); cbn [rg_nvars rg_insts rg_params] in *; auto.
  { rewrite map_length. auto. }
  { apply Forall_map. eapply Forall_impl; [|exact HW]. intros x [W1 W2 W3 W4 W5 W7]. split; cbn [zero_mtau ri_Mf ri_f ri_mtau ri_tau]; auto.
    - apply Forall_forall. intros y Hy. apply repeat_spec in Hy as ->. left. auto. }
  assert (true_e M (so_r o) (map (zero_mtau n) insts) = true_e M (so_r o) insts) as Ete.
  { unfold true_e. assert (flat_map inst_cols (map (zero_mtau n) insts) = flat_map inst_cols insts) as ->; auto. clear. induction insts as [|y l IH]; cbn [map flat_map]; [auto|]. rewrite IH. reflexivity. }
  rewrite Ete in S4.
  exists (Dcom (map (true_evals M (so_r o)) insts) (map ri_coms insts) o P). 
  unfold rg_verify in S6. apply bind_ok_inv in S6 as (tsa & HS & _). eexists. split; [|cbn [dc_out dc_params dc_evals dc_coms]; auto].
  unfold rg_verify. cbn [dc_out dc_evals dc_params]. cbn [dc_out] in HS. rewrite HS. cbn [bind]. rewrite S4.
  rewrite (mapM_ok _ (fun _ => tt)); [reflexivity|]. intros [l e] Hle.
  apply (in_combine_seq _ _ (true_evals M (so_r o) inst0)) in Hle as [Hl Ee]. cbn [fst snd] in Hl, Ee |- *. rewrite map_length in Hl.
  rewrite Ee. rewrite (map_nth (true_evals M (so_r o))). rewrite <- claim_evals_f. apply (check_eval_ok ri_f n (rp_k P)); auto.
  - rewrite S3, En, ark_log2_next_pow2. apply next_pow2_ge.
  - eapply Forall_impl; [|exact HM]. intros ? (_ & _ & ?); auto.
  - apply same_images_f.
Qed.
End Forge.
