(** C121: from a constraint system made with the builder to a folded instance. *)
From Coq Require Import String List Arith Lia ZArith Bool Ring.
From Verif Require Import Prelude Alg Poly MLE MLE_Proofs Transcript Interp Sumcheck Sumcheck_Proofs
  Arith Arith_Proofs Balanced Rings Rings_Proofs Linearization Linearization_Proofs Relations LinRel
  Decomposition Decomposition_Proofs Folding Folding_Comb Folding_Proofs Folding_Complete Folding_Sound NIFS NIFS_Proofs
  PolyInst CycInst RealRings Sampling Shipped Properties12 Properties13.
Import ListNotations.
Local Open Scope rs_scope.

Lemma first_bad_ok n bad res : first_bad n bad res -> (res = Ok tt <-> forall i, (i < n)%nat -> ~ bad i).
Proof.
  intros [[E H]|(i & E & Hi & Hb & _)]; split; intros HH; auto; [congruence|destruct (HH i Hi Hb)].
Qed.
Section B.
Context {F K C R : Type} {SO : SOps F K C R} {p : Z} {SL : SLaws F K C R p}.
Lemma csys_wf (s : csys R) : csys_valid s = true -> wf_r1cs (s_nvars s) (length (s_cons s)) (csys_to_r1cs s).
Proof.
  intros H. unfold csys_valid in H. apply andb_prop in H as [_ H]. rewrite forallb_forall in H.
  assert (forall f : constr R -> lincomb R, (forall k, In k (s_cons s) -> lc_valid (f k) (s_nvars s) = true) ->
    wf_mat (s_nvars s) (SMat (length (s_cons s)) (s_nvars s) (map f (s_cons s)))) as HM.
  { intros f Hf. split; [reflexivity|]. split; [cbn [m_nrows m_coeffs]; rewrite map_length; reflexivity|]. cbn [m_coeffs]. apply Forall_map, Forall_forall. intros k Hk.
    specialize (Hf k Hk). unfold lc_valid in Hf. rewrite forallb_forall in Hf. apply Forall_forall. intros t Ht. apply Nat.ltb_lt, Hf, Ht. }
  unfold csys_to_r1cs. cbv zeta. split; [|split; [|split; [|split; [|split]]]]; try reflexivity; apply HM; intros k Hk; specialize (H k Hk); apply andb_prop in H as [H H3]; apply andb_prop in H as [H1 H2]; assumption.
Qed.
Lemma padded_shape (r : r1cs R) W L cs n rows : wf_r1cs n rows r -> (r_l r < n)%nat -> (rows <= W)%nat -> ccs_from_r1cs_padded r W L = Ok cs ->
  c_m cs = next_pow2 (Nat.max ((n - r_l r - 1) * L) W) /\ Forall (fun M => (m_nrows M <= c_m cs)%nat) (c_M cs) /\ c_d cs = 2%nat /\ c_t cs = 3%nat.
Proof.
  intros ((HA & _) & _ & _ & EA & EB & EC) Hl Hr. unfold ccs_from_r1cs_padded, ccs_from_r1cs. cbn [c_n c_l c_m]. rewrite HA.
  destruct (Nat.leb_spec n (r_l r)); [lia|]. intros [= <-]. set (mx := Nat.max _ W). pose proof (next_pow2_ge mx) as Hge. assert (W <= mx)%nat by (unfold mx; lia).
  unfold pad_rows_to. cbn [c_m c_M c_n c_l c_t c_q c_d c_sp c_S c_c]. rewrite next_pow2_idem. destruct (Nat.ltb_spec W (next_pow2 mx)) as [Hlt|Hle]; cbn [c_m c_M c_d c_t].
  - split; [reflexivity|]. split; [|auto]. cbn [map]. assert (forall M : smat R, m_nrows M = rows -> (m_nrows (pad_rows (next_pow2 mx) M) <= next_pow2 mx)%nat) as HM.
    { intros M HM. unfold pad_rows. destruct (_ <? _)%nat; cbn [m_nrows]; lia. }
    repeat constructor; apply HM; assumption.
  - assert (W = next_pow2 mx) as E by lia. split; [exact E|]. split; [|auto]. repeat constructor; lia.
Qed.
(** The instance with public input [x] and witness [w] holds exactly when the system is satisfied by [x] and [1 :: w]: the first private
    variable must be the constant 1. *)
Theorem C121_instance P (A : ajtai R) (s : csys R) (x w : list R) W :
  csys_valid s = true -> length x = s_ninputs s -> s_nauxs s = (1 + length w)%nat -> (length (s_cons s) <= W)%nat -> covers (p := p) P ->
  exists cs, ccs_from_r1cs_padded (csys_to_r1cs s) W (dp_L P) = Ok cs /\ sanity_check cs (dp_L P) = Ok tt /\
    forall cm, commit A (w_f (wit_from_w_ccs P w : witness C R)) = Ok cm ->
      (cccs_rel P A cs (Cccs cm x) (wit_from_w_ccs P w : witness C R) <-> csys_satisfied s x (1 :: w) = Ok tt).
Proof.
  intros HV Hx Ha HW HP. set (z := x ++ 1 :: w). assert (length z = s_nvars s) as Hz by (unfold z, s_nvars; rewrite app_length; cbn [length]; lia).
  pose proof (csys_wf s HV) as Hwf. rewrite <- Hz in Hwf.
  destruct (from_r1cs_padded_spec (csys_to_r1cs s) z (length (s_cons s)) W (dp_L P) Hwf) as (cs & E & Hc & Hn & Hl & _ & HWm & _ & Hs & _ & HCk).
  { change (s_ninputs s < length z)%nat. rewrite Hz. unfold s_nvars. lia. }
  exists cs. split; [exact E|]. split; [exact Hs|]. intros cm Hcm.
  rewrite (csys_r1cs_equiv s x (1 :: w) HV Hx) by (cbn [length]; lia). fold z. rewrite <- HCk by lia.
  rewrite (first_bad_ok _ _ _ (ccs_check_spec cs z Hc (eq_sym Hn))). change (c_l cs = s_ninputs s) in Hl. split.
  - intros [_ _ H3] i Hi Hb. apply Hb. exact (H3 i Hi).
  - intros H. split.
    + split; [apply from_w_ccs_consistent; exact HP| |exact Hcm]. rewrite from_w_ccs_length. rewrite Hn, Hl, Hz. unfold s_nvars. f_equal. lia.
    + cbn [i_x]. congruence.
    + intros b Hb. cbn [i_x w_ccs wit_from_w_ccs]. fold z. destruct (req_dec (ccs_row cs z b) 0) as [E0|N]; [exact E0|]. destruct (H b Hb N).
Qed.
End B.

(** The shipped rings and parameters: an instance made in this way is folded, if the rows do not outnumber the decomposed witness. *)
Section Shipped.
Context {p : Z} {K : Type} (y : cyc p K) (decode : list Z -> result (list Z)) (need : nat) (WW G : list dparams) (SH : shipped p K y decode need WW G).
Notation C := (pol (fp p) (cy_d y)).
Notation R := (pol K (cy_k y)).
Local Instance SO37 : SOps (fp p) K C R := cyc_ops y.
Local Instance SL37 : SLaws (fp p) K C R p := real_laws y decode need (shipped_real y decode need WW G SH).
Theorem C121_folded {T} {TO : TransOps T R K} (sq : T -> list Z * T) P (A : ajtai R) (s : csys R) (x w : list R) W cm :
  In P (WW ++ G) -> csys_valid s = true -> length x = s_ninputs s -> s_nauxs s = (1 + length w)%nat -> (1 <= length w)%nat -> (2 <= length w * dp_L P)%nat ->
  (length (s_cons s) <= W)%nat -> (W <= next_pow2 (length w * dp_L P))%nat -> commit A (w_f (wit_from_w_ccs P w : witness C R)) = Ok cm ->
  csys_satisfied s x (1 :: w) = Ok tt ->
  exists cs, ccs_from_r1cs_padded (csys_to_r1cs s) W (dp_L P) = Ok cs /\ params_ok (p := p) P cs /\
    forall acc (w_acc : list R) (ts : T), lcccs_rel P A cs acc (wit_from_w_ccs P w_acc) ->
    exists lc w' pf ts',
      nifs_prove (HO := short_of y decode sq) P acc (wit_from_w_ccs P w_acc) (Cccs cm x) (wit_from_w_ccs P w) ts cs A = Ok (lc, w', pf, ts') /\
      nifs_verify (HO := short_of y decode sq) P acc (Cccs cm x) pf ts cs = Ok (lc, ts') /\ lcccs_rel P A cs lc w'.
Proof.
  intros HP HV Hx Ha Hw HwL HW HW2 Hcm HS. assert (covers (p := p) P) as Hcov.
  { destruct (shipped_good y decode need WW G P SH HP) as [G1 G2 G3 G4 G5 G6 G7]. unfold covers. repeat split; auto. lia. }
  destruct (C121_instance (SL := SL37) P A s x w W HV Hx Ha HW Hcov) as (cs & E & Hsan & Hiff).
  set (z := x ++ 1 :: w). assert (length z = s_nvars s) as Hz by (unfold z, s_nvars; rewrite app_length; cbn [length]; lia).
  pose proof (csys_wf s HV) as Hwf. assert (r_l (csys_to_r1cs s) < s_nvars s)%nat as Hl by (change (s_ninputs s < s_nvars s)%nat; unfold s_nvars; lia).
  destruct (padded_shape _ W (dp_L P) cs _ _ Hwf Hl HW E) as (Em & HM & Ed & Et). change (r_l (csys_to_r1cs s)) with (s_ninputs s) in *.
  assert (s_nvars s - s_ninputs s - 1 = length w)%nat as Enl by (unfold s_nvars; lia). rewrite Enl in Em.
  assert (next_pow2 (Nat.max (length w * dp_L P) W) = next_pow2 (length w * dp_L P)) as Emx.
  { apply Nat.le_antisymm; unfold next_pow2; apply Nat.pow_le_mono_r; try lia.
    - rewrite <- (Nat.log2_up_pow2 (Nat.log2_up (length w * dp_L P))) by lia. apply Nat.log2_up_le_mono. fold (next_pow2 (length w * dp_L P)). pose proof (next_pow2_ge (length w * dp_L P)). lia.
    - apply Nat.log2_up_le_mono. lia. }
  rewrite Emx in Em. rewrite <- Hz in Hwf.
  destruct (from_r1cs_padded_spec (csys_to_r1cs s) z (length (s_cons s)) W (dp_L P) Hwf) as (cs' & E' & Hc & Hn & Hl' & (k & Ek & Es) & _); [rewrite Hz; exact Hl|].
  rewrite E in E'. injection E' as <-. change (c_l cs = s_ninputs s) in Hl'. rewrite Hz in Hn.
  destruct (padded_in_order (SL := SL37) _ _ _ _ E) as [Ho Hd].
  assert (1 <= k)%nat as Hk. { destruct k; [|lia]. exfalso. pose proof (next_pow2_ge (length w * dp_L P)) as Q. rewrite Em in Ek. cbn in Ek. lia. }
  pose proof (dg_bp _ _ (shipped_good y decode need WW G P SH HP)) as Hbp. pose proof (dg_b _ _ (shipped_good y decode need WW G P SH HP)) as Hb2.
  assert (ccs_good (p := p) y P cs) as HC.
  { split; auto.
    - split; [rewrite Es; exact Ek|]. split; [rewrite Es; exact Hk|exact HM].
    - rewrite Ed. lia.
    - rewrite Hn, Hl'. unfold s_nvars. lia.
    - rewrite Hn, Hl', Enl. symmetry. exact Em. }
  exists cs. split; [exact E|]. split; [exact (shipped_ok y decode need WW G SH P cs HP HC)|]. intros acc w_acc ts HA.
  apply (C83_step_complete y decode need WW G SH sq P A cs acc w_acc (Cccs cm x) w ts HP HC HA). apply Hiff; [exact Hcm|exact HS].
Qed.
End Shipped.

(** Without the constant 1 in that place a satisfied system gives an instance that no witness satisfies: one private variable with z0 z0 = 0. *)
Definition zero_sys {R} {RO : RingOps R} : csys R := Csys 0 1 [Constr [(1, 0%nat)] [(1, 0%nat)] []].
Section Refuted.
Context {F K C R : Type} {SO : SOps F K C R} {p : Z} {SL : SLaws F K C R p}.
Add Ring Rring107 : (@rlaws_th R _ _).
Theorem C121_one_refuted P (A : ajtai R) W : (1 <= W)%nat -> covers (p := p) P ->
  exists (s : csys R) aux cs, csys_valid s = true /\ csys_satisfied s [] aux = Ok tt /\ ccs_from_r1cs_padded (csys_to_r1cs s) W (dp_L P) = Ok cs /\
    forall cm w, commit A (w_f (wit_from_w_ccs P w : witness C R)) = Ok cm -> length w = (c_n cs - c_l cs - 1)%nat ->
      ~ cccs_rel P A cs (Cccs cm []) (wit_from_w_ccs P w : witness C R).
Proof.
  intros HW HP. pose proof (R_1_neq_0 (SL := SL)) as H10.
  assert (csys_valid (zero_sys (R := R)) = true) as HV by reflexivity.
  destruct (C121_instance (SL := SL) P A zero_sys [] [] W HV eq_refl eq_refl HW HP) as (cs & E & _ & Hiff).
  exists zero_sys, [0], cs. split; [exact HV|].
  assert (forall a : R, csys_satisfied zero_sys [] [a] = if negb ((0 + 1 * a) * (0 + 1 * a) =? 0) then Err (NotSatisfied 0) else Ok tt) as Es by reflexivity.
  split. { rewrite Es. assert (((0 + 1 * 0) * (0 + 1 * 0) : R) = 0) as -> by ring. rewrite (proj2 (req_true (0 : R) 0) eq_refl). reflexivity. }
  split; [exact E|]. intros cm w Hcm Hlw HR.
  assert (w = []) as ->.
  { unfold ccs_from_r1cs_padded in E. cbn [c_n c_l ccs_from_r1cs csys_to_r1cs zero_sys r_A r_l m_ncols s_nvars s_ninputs s_nauxs Nat.add Nat.leb] in E. injection E as <-.
    unfold pad_rows_to in Hlw. destruct (_ <? _)%nat; destruct w; try reflexivity; discriminate Hlw. }
  apply (Hiff cm Hcm) in HR. rewrite Es in HR. destruct (((0 + 1 * 1) * (0 + 1 * 1) : R) =? 0) eqn:Q; [|discriminate HR]. apply req_true in Q. apply H10. rewrite <- Q. ring.
Qed.
End Refuted.
