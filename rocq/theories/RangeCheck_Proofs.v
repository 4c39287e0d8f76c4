(** Proofs about the range check (latticefold-plus/src/rgchk.rs). *)
From Coq Require Import String List Arith Lia ZArith Bool Ring.
From Verif Require Import Prelude Alg Poly MLE MLE_Proofs Transcript Sumcheck Sumcheck_Proofs CombDeg Arith Arith_Proofs Balanced
  Linearization_Proofs Rings Rings_Proofs PlusRing PlusUtils_Proofs SetCheck SetCheck_Proofs RangeCheck.
Import ListNotations.
Local Open Scope rs_scope.

Lemma firstn_skipn_flat_map {A B} (G : A -> list B) k L l d :
  (forall a, In a L -> length (G a) = k) -> (l < length L)%nat ->
  firstn k (skipn (k * l) (flat_map G L)) = G (nth l L d).
Proof.
  revert l; induction L as [|a L IH]; intros l H Hl; cbn [length] in Hl; [lia|]. cbn [flat_map].
  assert (length (G a) = k) as Ha by (apply H; left; auto).
  destruct l as [|l].
  - rewrite Nat.mul_0_r. cbn [skipn nth]. rewrite firstn_app, Ha, Nat.sub_diag, firstn_all2 by lia. cbn [firstn]. apply app_nil_r.
  - rewrite skipn_app, Ha, skipn_all2 by lia. cbn [app nth]. replace (k * S l - k)%nat with (k * l)%nat by lia.
    apply IH; [|lia]. intros; apply H; right; auto.
Qed.

Lemma eval_vec_gen {A} {AO : RingOps A} {AL : RingLaws A} nv (v : list A) (pt : list A) : (length v <= 2 ^ nv)%nat -> length pt = nv ->
  eval_vec nv v pt = Ok (mle_spec (fun i => nth i v 0) pt).
Proof.
  intros H1 H2. unfold eval_vec. rewrite (proj2 (mle_from_vec_ok nv v _) (conj H1 eq_refl)). cbn [bind].
  assert (mle_evaluate (Mle nv (resize (2 ^ nv) 0 v)) pt = Some (mle_spec (fun i => nth i v 0) pt)) as ->.
  { apply mle_evaluate_spec. split; auto. apply mle_spec_ext. intros. rewrite mle_get_from_vec; auto. }
  reflexivity.
Qed.

Section KLin.
Context {K R : Type} {PO : POps K R} {p : Z} {PL : PLaws K R p}.
Add Ring Rring40 : (@rlaws_th R _ (pl_R (p := p))).
Add Ring Kring40 : (@rlaws_th K _ (fld_laws (FieldLaws := pl_K (p := p)))).

(** Linear maps from the ring to the base field. *)
Definition klin (phi : R -> K) : Prop :=
  (forall x y, phi (x + y) = phi x + phi y) /\ (forall k x, phi (emb k * x) = k * phi x).
Lemma klin_0 phi : klin phi -> phi 0 = 0.
Proof. intros [_ H]. assert (0 = emb (0 : K) * (0 : R)) as E by ring. rewrite E, H. ring. Qed.
Lemma klin_sumn phi n f : klin phi -> phi (sumn n f) = sumn n (fun i => phi (f i)).
Proof. intros H. induction n; cbn [sumn]. apply klin_0; auto. destruct H as [H _]. rewrite H, IHn. auto. Qed.
Lemma klin_mle phi (t : nat -> R) (r : list K) : klin phi -> phi (mle_spec t (map emb r)) = mle_spec (fun b => phi (t b)) r.
Proof.
  intros H. unfold mle_spec. rewrite klin_sumn, map_length by auto. apply sumn_ext. intros b Hb.
  rewrite <- (hom_eqw emb emb_hom). replace (t b * emb (eqw r b)) with (emb (eqw r b) * t b) by ring.
  destruct H as [_ H]. rewrite H. ring.
Qed.
Lemma klin_coeff j : klin (fun x => nth j (pcoeffs x) 0).
Proof. split; intros; [apply (nth_pcoeffs_add (p := p))|apply (nth_pcoeffs_scale (p := p))]. Qed.
Lemma klin_pct : klin pct.
Proof. exact (klin_coeff 0). Qed.
Lemma klin_psi : klin psi_ct.
Proof.
  destruct klin_pct as [H1 H2]. split; intros; unfold psi_ct.
  - rewrite <- H1. f_equal. ring.
  - rewrite <- H2. f_equal. ring.
Qed.
Lemma pct_emb (k : K) : pct (emb k) = k.
Proof.
  replace (emb k) with (emb k * 1) by ring. destruct klin_pct as [_ H]. rewrite H. unfold pct. rewrite pcoeffs_one.
  rewrite (nth_unit_vec (R := R)) by apply pdim_pos. cbn [Nat.eqb]. ring.
Qed.
Lemma klin_open phi r col : klin phi -> phi (open r col) = mle_spec (fun i => phi (nth i col 0)) r.
Proof. intros H. unfold open. apply klin_mle; auto. Qed.

(** All entries of the matrix are base-field constants. *)
Definition base_mat (M : smat R) : Prop :=
  Forall (Forall (fun vc : R * nat => exists k : K, fst vc = emb k)) (m_coeffs M).
Lemma mat_entry_base M i j : base_mat M -> mat_entry M i j = emb (pct (mat_entry M i j)).
Proof.
  intros H. assert (exists k : K, mat_entry M i j = emb k) as [k ->]; [|rewrite pct_emb; auto].
  unfold mat_entry. assert (Forall (fun vc : R * nat => exists k : K, fst vc = emb k) (nth i (m_coeffs M) [])) as HF.
  { destruct (Nat.lt_ge_cases i (length (m_coeffs M))).
    - unfold base_mat in H. rewrite Forall_forall in H. apply H, nth_In; auto.
    - rewrite nth_overflow by auto. apply Forall_nil. }
  clear H. induction HF as [|vc row [k E] _ [k' IH]].
  - exists 0. symmetry. apply (hom_0 _ emb_hom).
  - cbn [filter]. destruct (snd vc =? j)%nat; [|exists k'; auto]. cbn [map]. exists (k + k').
    rewrite (lsum_cons (fst vc)), IH, E. symmetry. apply (hom_add _ emb_hom).
Qed.
Definition kmz (M : smat R) (w : list K) (i : nat) : K := sumn (length w) (fun c => pct (mat_entry M i c) * nth c w 0).
Lemma klin_mz phi M v i : klin phi -> base_mat M -> phi (mz M v i) = kmz M (map phi v) i.
Proof.
  intros H HB. unfold mz, kmz. rewrite klin_sumn, map_length by auto. apply sumn_ext. intros c Hc.
  rewrite mat_entry_base by auto. destruct H as [H1 H2]. rewrite H2. rewrite pct_emb. f_equal.
  rewrite (nth_map_lt _ _ _ 0) by auto. reflexivity.
Qed.
Lemma klin_open_mul phi r M v : klin phi -> base_mat M -> phi (open_mul r M v) = mle_spec (kmz M (map phi v)) r.
Proof.
  intros H HB. unfold open_mul. rewrite klin_mle by auto. apply mle_spec_ext. intros i _. apply klin_mz; auto.
Qed.
Lemma kmz_sumn M n (w : nat -> list K) (a : nat -> K) N i : (forall k, (k < n)%nat -> length (w k) = N) ->
  sumn n (fun k => kmz M (w k) i * a k) = kmz M (map (fun c => sumn n (fun k => nth c (w k) 0 * a k)) (seq 0 N)) i.
Proof.
  intros H. unfold kmz. rewrite map_length, seq_length.
  transitivity (sumn n (fun k => sumn N (fun c => pct (mat_entry M i c) * (nth c (w k) 0 * a k)))).
  { apply sumn_ext. intros k Hk. rewrite H by auto. rewrite <- sumn_mul_r. apply sumn_ext. intros; ring. }
  rewrite sumn_swap. apply sumn_ext. intros c Hc. rewrite nth_seq_map by auto. rewrite sumn_mul_l. reflexivity.
Qed.

(** Columns of a dense matrix. *)
Definition dcols (nc : nat) (rows : list (list R)) : list (list R) :=
  map (fun j => map (fun row => nth j row 0) rows) (seq 0 nc).
Lemma sm_cols_from_dense nc rows : Forall (fun row => length row = nc) rows -> sm_cols (sm_from_dense nc rows) = dcols nc rows.
Proof.
  intros H. unfold sm_cols, dcols, sm_from_dense. cbn [m_ncols]. apply map_ext. intros j. unfold sm_col. cbn [m_coeffs].
  rewrite map_map. apply map_ext_in. intros row Hr.
  assert (forall s acc, fold_left (fun acc vc => if (snd vc =? j)%nat then fst vc else acc)
     (filter (fun vc => negb (fst vc =? 0)) (combine row (seq s (length row)))) acc
     = if (s <=? j)%nat && (j <? s + length row)%nat then (if nth (j - s) row 0 =? 0 then acc else nth (j - s) row 0) else acc) as HH.
  { clear - PL. induction row as [|x row IH]; intros s acc; cbn [length seq combine filter].
    - destruct (Nat.leb_spec s j); cbn [andb fold_left]; auto. destruct (Nat.ltb_spec j (s + 0)); auto. lia.
    - cbn [fst]. destruct (x =? 0) eqn:E; cbn [negb fold_left fst snd]; rewrite IH.
      + destruct (Nat.leb_spec (S s) j); destruct (Nat.leb_spec s j); cbn [andb]; try lia.
        * replace (j - s)%nat with (S (j - S s)) by lia. cbn [nth].
          destruct (Nat.ltb_spec j (S s + length row)); destruct (Nat.ltb_spec j (s + S (length row))); auto; lia.
        * replace (j - s)%nat with 0%nat by lia. cbn [nth]. rewrite E. destruct (j <? _)%nat; auto.
        * reflexivity.
      + destruct (Nat.leb_spec (S s) j); destruct (Nat.leb_spec s j); cbn [andb]; try lia.
        * replace (j - s)%nat with (S (j - S s)) by lia. cbn [nth].
          destruct (Nat.eqb_spec s j); [lia|].
          destruct (Nat.ltb_spec j (S s + length row)); destruct (Nat.ltb_spec j (s + S (length row))); auto; lia.
        * assert (s = j) as -> by lia. rewrite Nat.eqb_refl, Nat.sub_diag. cbn [nth]. rewrite E.
          destruct (Nat.ltb_spec j (j + S (length row))); auto; lia.
        * destruct (Nat.eqb_spec s j); auto; lia. }
  rewrite HH. cbn [Nat.leb andb Nat.add]. rewrite Nat.sub_0_r.
  destruct (Nat.ltb_spec j (length row)).
  - destruct (nth j row 0 =? 0) eqn:E; auto. apply req_true in E. auto.
  - rewrite nth_overflow by auto. auto.
Qed.
Lemma mono_set_from_dense n nc rows : length rows = n -> Forall (fun row => length row = nc /\ Forall in_monos row) rows ->
  mono_set n nc (MMat (sm_from_dense nc rows)).
Proof.
  intros H1 H2. unfold mono_set, sm_from_dense. cbn [m_nrows m_coeffs m_ncols]. rewrite map_length. repeat split; auto.
  apply Forall_map. eapply Forall_impl; [|exact H2]. intros row [_ HF]. apply Forall_forall. intros vc Hvc.
  apply filter_In in Hvc as [Hvc _]. destruct vc as [x j]. apply in_combine_l in Hvc. rewrite Forall_forall in HF. auto.
Qed.
End KLin.

Section RC.
Context {K R T : Type} {PO : POps K R} {TO : TransOps T R K} {p : Z} {PL : PLaws K R p}.
Add Ring Rring41 : (@rlaws_th R _ (pl_R (p := p))).
Add Ring Kring41 : (@rlaws_th K _ (fld_laws (FieldLaws := pl_K (p := p)))).

(** The images of the entries of the matrices under [ct (psi .)] are base-(d/2) digits of the
    coefficients of [f]. *)
Definition digits_of (n k : nat) (Mf : list (list (list R))) (f : list R) : Prop :=
  length f = n /\ forall r c, (r < n)%nat -> (c < pdim)%nat ->
    sumn k (fun i => psi_ct (nth c (nth r (nth i Mf []) []) 0) * rpow (rofn (pdim / 2)) i) = nth c (pcoeffs (nth r f 0)) 0.
(** Specification of a range-check instance of [k] digit matrices over [n] entries: monomials whose
    images under [ct (psi .)] are base-(d/2) digits of the coefficients of [f], and a monomial vector
    whose images are [tau].  [fv] names the witness the digits belong to: it is [ri_f] for an honest
    prover, another one for a prover that commits to a witness it has no digits of. *)
Record rg_wf (fv : rg_inst K R -> list R) (n k : nat) (x : rg_inst K R) : Prop := RgWf {
  rw_f : length (ri_f x) = n;
  rw_k : length (ri_Mf x) = k;
  rw_mono : Forall (fun M => length M = n /\ Forall (fun row => length row = pdim /\ Forall in_monos row) M) (ri_Mf x);
  rw_dec : digits_of n k (ri_Mf x) (fv x);
  rw_tau : length (ri_mtau x) = n;
  rw_mtau : Forall in_monos (ri_mtau x);
  rw_psi : map psi_ct (ri_mtau x) = ri_tau x }.
(** The same without the condition that [mtau] consists of monomials. *)
Record rg_pre (fv : rg_inst K R -> list R) (n k : nat) (x : rg_inst K R) : Prop := RgPre {
  rq_f : length (ri_f x) = n;
  rq_k : length (ri_Mf x) = k;
  rq_mono : Forall (fun M => length M = n /\ Forall (fun row => length row = pdim /\ Forall in_monos row) M) (ri_Mf x);
  rq_dec : digits_of n k (ri_Mf x) (fv x);
  rq_tau : length (ri_mtau x) = n;
  rq_psi : map psi_ct (ri_mtau x) = ri_tau x }.
Lemma rg_wf_pre fv n k x : rg_wf fv n k x -> rg_pre fv n k x.
Proof. intros []. split; auto. Qed.

Definition inst0 : rg_inst K R := RgInst [] [] [] [] [] (FComs [] [] []).
(** The true evaluations of an instance. *)
Definition true_evals (M : list (smat R)) (r : list K) (x : rg_inst K R) : dcom_evals K R :=
  DcomEvals (map (fun j => mle_spec (fun i => nth j (pcoeffs (nth i (ri_f x) 0)) 0) r) (seq 0 pdim))
    (mle_spec (fun i => nth i (ri_tau x) 0) r :: map (fun m => pct (open_mul r m (map emb (ri_tau x)))) M)
    (open r (ri_mtau x) :: map (fun m => open_mul r m (ri_mtau x)) M)
    (open r (ri_f x) :: map (fun m => open_mul r m (ri_f x)) M).
(** The evaluations of a prover that claims the coefficients of [fv x] instead of those of [ri_f x]. *)
Definition claim_evals (fv : rg_inst K R -> list R) (M : list (smat R)) (r : list K) (x : rg_inst K R) : dcom_evals K R :=
  DcomEvals (map (fun j => mle_spec (fun i => nth j (pcoeffs (nth i (fv x) 0)) 0) r) (seq 0 pdim))
    (de_a (true_evals M r x)) (de_b (true_evals M r x)) (de_c (true_evals M r x)).
Lemma claim_evals_f M r x : claim_evals ri_f M r x = true_evals M r x.
Proof. reflexivity. Qed.
(** No matrix sees the difference between the two witnesses. *)
Definition same_images (M : list (smat R)) (fv : rg_inst K R -> list R) (x : rg_inst K R) : Prop :=
  Forall (fun Mi => forall i, mz Mi (ri_f x) i = mz Mi (fv x) i) M.
Lemma same_images_f M insts : Forall (same_images M ri_f) insts.
Proof. apply Forall_forall. intros x _. apply Forall_forall. auto. Qed.
Definition inst_cols (x : rg_inst K R) : list (list (list R)) := map (dcols pdim) (ri_Mf x).
Definition true_e (M : list (smat R)) (r : list K) (insts : list (rg_inst K R)) : list (list (list R)) :=
  map (map (open r)) (flat_map inst_cols insts)
  :: map (fun Mi => map (map (open_mul r Mi)) (flat_map inst_cols insts)) M.

Lemma u_fold (us : list (list R)) s acc j : Forall (fun u => length u = pdim) us -> length acc = pdim -> (j < pdim)%nat ->
  let z := fold_left (fun acc iu => zipl (fun a x => a + x * emb (rpow (rofn (pdim / 2)) (fst iu) : K)) acc (snd iu))
            (combine (seq s (length us)) us) acc in
  length z = pdim /\
  nth j z 0 = nth j acc 0 + sumn (length us) (fun i => nth j (nth i us []) 0 * emb (rpow (rofn (pdim / 2)) (s + i) : K)).
Proof.
  intros HF. revert s acc; induction HF as [|u us Hu _ IH]; intros s acc Ha Hj; cbn [length seq combine fold_left fst snd].
  - cbn [sumn]. split; [auto|ring].
  - specialize (IH (S s) (zipl (fun a x => a + x * emb (rpow (rofn (pdim / 2)) s : K)) acc u)).
    rewrite zipl_length in IH. destruct (IH Ha Hj) as [L E]. split; [exact L|]. etransitivity; [exact E|].
    rewrite sumn_S_first. cbn [nth]. rewrite (nth_zipl _ _ _ _ 0 0) by congruence. rewrite Nat.add_0_r.
    rewrite (sumn_ext (length us) _ (fun i => nth j (nth i us []) 0 * emb (rpow (rofn (pdim / 2)) (s + S i) : K))).
    + ring.
    + intros i _. replace (S s + i)%nat with (s + S i)%nat by lia. reflexivity.
Qed.
Lemma u_comb_spec k l (us : list (list R)) (F : list R -> R) Mfs insts d0 :
  us = map (map F) (flat_map inst_cols insts) -> (forall x, In x insts -> length (ri_Mf x) = k) ->
  (l < length insts)%nat -> Mfs = ri_Mf (nth l insts d0) ->
  u_comb k l us = map (fun j => sumn k (fun i => F (map (fun row => nth j row 0) (nth i Mfs [])) * emb (rpow (rofn (pdim / 2)) i : K))) (seq 0 pdim).
Proof.
  intros -> Hk Hl ->. unfold u_comb.
  rewrite skipn_map, firstn_map.
  rewrite (firstn_skipn_flat_map _ _ _ _ d0); auto.
  2:{ intros a Ha. unfold inst_cols. rewrite map_length. auto. }
  set (x := nth l insts d0). assert (length (ri_Mf x) = k) as Lk by (apply Hk, nth_In; auto).
  set (us := map (map F) (inst_cols x)).
  assert (length us = k) as Lus by (unfold us, inst_cols; rewrite !map_length; auto).
  assert (Forall (fun u => length u = pdim) us) as HF.
  { unfold us, inst_cols. rewrite map_map. apply Forall_map, Forall_forall. intros M _. unfold dcols. rewrite !map_length, seq_length. auto. }
  rewrite <- Lus at 1. apply (list_ext 0).
  - rewrite map_length, seq_length. apply (u_fold us 0 (repeat 0 pdim) 0); auto. apply repeat_length. apply pdim_pos.
  - intros j Hj. assert (j < pdim)%nat as Hj'.
    { revert Hj. rewrite (proj1 (u_fold us 0 (repeat 0 pdim) 0 HF (repeat_length _ _) pdim_pos)). auto. }
    rewrite (proj2 (u_fold us 0 (repeat 0 pdim) j HF (repeat_length _ _) Hj')). rewrite nth_repeat, nth_seq_map by auto.
    rewrite Lus. transitivity (sumn k (fun i => nth j (nth i us []) 0 * emb (rpow (rofn (pdim / 2)) (0 + i) : K))); [ring|].
    apply sumn_ext. intros i Hi. cbn [Nat.add]. f_equal. unfold us, inst_cols.
    rewrite map_map, (nth_map_lt _ _ _ []) by congruence. rewrite (nth_map_lt _ _ _ []) by (unfold dcols; rewrite map_length, seq_length; auto).
    unfold dcols. rewrite nth_seq_map by auto. reflexivity.
Qed.

(** A map from vectors to the ring that every linear functional sees as a fixed linear form. *)
Definition klinF (n : nat) (F : list R -> R) (h : nat -> K) : Prop :=
  forall phi v, klin phi -> length v = n -> phi (F v) = sumn n (fun c => h c * phi (nth c v 0)).
Lemma klinF_open n r : (n <= 2 ^ length r)%nat -> klinF n (open r) (eqw r).
Proof.
  intros Hn phi v H Hv. rewrite (klin_open (p := p)) by auto. unfold mle_spec.
  replace (2 ^ length r)%nat with (n + (2 ^ length r - n))%nat by lia. rewrite sumn_split.
  assert (sumn (2 ^ length r - n) (fun i => phi (nth (n + i) v 0) * eqw r (n + i)) = 0) as ->.
  { apply sumn_0. intros i _. rewrite nth_overflow by lia. rewrite (klin_0 (p := p)) by auto. ring. }
  transitivity (sumn n (fun i => phi (nth i v 0) * eqw r i)); [ring|]. apply sumn_ext. intros; ring.
Qed.
Lemma klinF_open_mul n r M : base_mat M -> klinF n (open_mul r M) (fun c => mle_spec (fun i => pct (mat_entry M i c)) r).
Proof.
  intros HB phi v H Hv. rewrite (klin_open_mul (p := p)) by auto. unfold kmz. rewrite map_length, Hv.
  rewrite mle_spec_sumn. apply sumn_ext. intros c Hc. rewrite (nth_map_lt _ _ _ 0) by lia.
  unfold mle_spec. rewrite <- sumn_mul_r. apply sumn_ext. intros; ring.
Qed.
Lemma digits_rec fv n k x F h j : rg_pre fv n k x -> klinF n F h -> (j < pdim)%nat ->
  psi_ct (sumn k (fun i => F (map (fun row => nth j row 0) (nth i (ri_Mf x) [])) * emb (rpow (rofn (pdim / 2)) i : K)))
  = nth j (pcoeffs (F (fv x))) 0.
Proof.
  intros [W1 W2 W3 [W0 W4] W5 W7] HF Hj. rewrite (klin_sumn (p := p)) by apply klin_psi.
  rewrite (HF (fun y => nth j (pcoeffs y) 0) (fv x) (klin_coeff j) W0).
  transitivity (sumn k (fun i => sumn n (fun c => h c * (psi_ct (nth j (nth c (nth i (ri_Mf x) []) []) 0) * rpow (rofn (pdim / 2)) i)))).
  - apply sumn_ext. intros i Hi. rewrite Forall_forall in W3. destruct (W3 (nth i (ri_Mf x) [])) as [L _]; [apply nth_In; lia|].
    transitivity (psi_ct (emb (rpow (rofn (pdim / 2)) i : K) * F (map (fun row => nth j row 0) (nth i (ri_Mf x) [])))).
    { f_equal. ring. }
    rewrite (proj2 klin_psi). rewrite (HF psi_ct) by (try apply klin_psi; rewrite map_length; auto).
    rewrite <- sumn_mul_l. apply sumn_ext. intros c Hc. rewrite (nth_map_lt _ _ _ []) by lia. ring.
  - rewrite sumn_swap. apply sumn_ext. intros c Hc. rewrite sumn_mul_l. f_equal. apply W4; auto.
Qed.

Lemma check_eval_ok fv n k P M r insts l d0 : rp_k P = k -> Forall (rg_pre fv n k) insts -> (l < length insts)%nat -> (n <= 2 ^ length r)%nat ->
  Forall (fun Mi => base_mat Mi) M -> Forall (same_images M fv) insts ->
  check_eval P (true_e M r insts) l (claim_evals fv M r (nth l insts d0)) = Ok tt.
Proof.
  intros HP HI Hl Hn HM HS. unfold check_eval. set (x := nth l insts d0).
  assert (rg_pre fv n k x) as W by (rewrite Forall_forall in HI; apply HI, nth_In; auto).
  assert (same_images M fv x) as SI by (rewrite Forall_forall in HS; apply HS, nth_In; auto). unfold same_images in SI. rewrite Forall_forall in SI.
  destruct W as [W1 W2 W3 W4 W5 W7].
  assert (forall i, psi_ct (nth i (ri_mtau x) 0) = nth i (ri_tau x) 0) as Hpsi.
  { intros i. rewrite <- W7. rewrite <- (klin_0 psi_ct klin_psi). symmetry. apply map_nth. }
  assert (forall y, In y insts -> length (ri_Mf y) = k) as Hk.
  { intros y Hy. rewrite Forall_forall in HI. apply (HI y Hy). }
  assert (map (fun x => pct (emb x : R)) (ri_tau x) = ri_tau x) as Hpe.
  { transitivity (map (fun y : K => y) (ri_tau x)); [|apply map_id]. apply map_ext. intros; apply (pct_emb (p := p)). }
  (* ct (psi b) = a *)
  assert (forallb (fun ab => psi_ct (snd ab) =? fst ab) (combine (de_a (claim_evals fv M r x)) (de_b (claim_evals fv M r x))) = true) as ->.
  { unfold claim_evals, true_evals. cbn [de_a de_b combine forallb fst snd]. apply andb_true_iff. split.
    - apply req_true. rewrite (klin_open (p := p)) by apply klin_psi. apply mle_spec_ext. auto.
    - apply forallb_forall. intros [a b] Hab. cbn [fst snd]. apply req_true.
      assert (exists Mi, In Mi M /\ a = pct (open_mul r Mi (map emb (ri_tau x))) /\ b = open_mul r Mi (ri_mtau x)) as (Mi & HMi & -> & ->).
      { clear - Hab. induction M as [|Mi M IH]; cbn [map combine] in Hab; [destruct Hab|destruct Hab as [E|Hab]].
        - exists Mi. injection E as <- <-. split; [left|]; auto.
        - destruct (IH Hab) as (Mj & H & E). exists Mj. split; [right|]; auto. }
      rewrite Forall_forall in HM. specialize (HM _ HMi).
      rewrite (klin_open_mul (p := p)) by (auto; apply klin_psi). rewrite (klin_open_mul (p := p)) by (auto; apply klin_pct).
      rewrite map_map, W7, Hpe. reflexivity. }
  cbn [guard bind].
  (* coefficients *)
  assert (forall F h, klinF n F h -> map psi_ct (u_comb k l (map (map F) (flat_map inst_cols insts))) = pcoeffs (F (fv x))) as HU.
  { intros F h HF. rewrite (u_comb_spec k l _ F (ri_Mf x) insts d0) by auto. rewrite map_map.
    apply (list_ext 0); rewrite map_length, seq_length; [rewrite pcoeffs_length; auto|]. intros j Hj.
    rewrite nth_seq_map by auto. apply (digits_rec fv n k x F h j); auto. split; auto. }
  rewrite (mapM_ok _ (fun _ => tt)); [reflexivity|].
  intros [ni en] Hne. cbn [fst snd]. unfold true_e in Hne.
  assert (nth_error (true_e M r insts) ni = Some en) as Hen.
  { fold (true_e M r insts) in Hne. apply (in_combine_seq _ _ []) in Hne as [H1 H2]. cbn [fst snd] in H1, H2. rewrite H2.
    apply nth_error_nth'. exact H1. }
  unfold true_e in Hen. destruct ni as [|ni]; cbn [nth_error] in Hen.
  - assert (map (map (open r)) (flat_map inst_cols insts) = en) as <- by congruence. rewrite HP, (HU _ _ (klinF_open n r Hn)).
    assert (leqb (de_v (claim_evals fv M r x)) (pcoeffs (open r (fv x))) = true) as ->; [|reflexivity].
    apply leqb_true. unfold claim_evals; cbn [de_v]. apply (list_ext 0); rewrite map_length, seq_length; [rewrite pcoeffs_length; auto|].
    intros j Hj. rewrite nth_seq_map by auto. symmetry. apply (klin_open (p := p) (fun y => nth j (pcoeffs y) 0)). apply klin_coeff.
  - rewrite nth_error_map in Hen. destruct (nth_error M ni) as [Mi|] eqn:EM; [|discriminate Hen].
    cbn [option_map] in Hen. assert (map (map (open_mul r Mi)) (flat_map inst_cols insts) = en) as <- by congruence.
    assert (base_mat Mi) as HB by (rewrite Forall_forall in HM; apply HM, (nth_error_In _ _ EM)).
    unfold claim_evals at 1. unfold true_evals at 3. cbn [de_c]. unfold index. cbn [nth_error]. rewrite nth_error_map, EM. cbn [option_map of_option bind].
    rewrite HP, (HU _ _ (klinF_open_mul n r Mi HB)).
    assert (open_mul r Mi (ri_f x) = open_mul r Mi (fv x)) as ->.
    { unfold open_mul. apply mle_spec_ext. intros i _. apply (SI Mi), (nth_error_In _ _ EM). }
    rewrite leqb_refl. reflexivity.
Qed.

Lemma rg_sets_mats insts : set_mats (rg_sets insts) = flat_map (fun i => map (sm_from_dense pdim) (ri_Mf i)) insts.
Proof.
  unfold rg_sets, set_mats. rewrite flat_map_app.
  assert (forall l : list (rg_inst K R), flat_map (fun s : mset R => match s with MMat M => [M] | MVec _ => [] end) (map (fun i => MVec (ri_mtau i)) l) = []) as E2.
  { induction l; auto. }
  rewrite E2, app_nil_r. clear E2. induction insts as [|x l IH]; auto. cbn [flat_map]. rewrite flat_map_app, IH. f_equal.
  generalize (ri_Mf x). induction l0; auto. cbn [map flat_map app]. congruence.
Qed.
Lemma rg_sets_vecs insts : set_vecs (rg_sets insts) = map ri_mtau insts.
Proof.
  unfold rg_sets, set_vecs. rewrite flat_map_app.
  assert (forall l : list (rg_inst K R), flat_map (fun s : mset R => match s with MMat _ => [] | MVec v => [v] end)
     (flat_map (fun i => map (fun m => MMat (sm_from_dense pdim m)) (ri_Mf i)) l) = []) as E1.
  { induction l as [|x l IH]; auto. cbn [flat_map]. rewrite flat_map_app, IH, app_nil_r. induction (ri_Mf x); auto. }
  rewrite E1. cbn [app]. clear E1. induction insts as [|x l IH]; auto. cbn [flat_map map app]. congruence.
Qed.
Lemma rg_sets_mono fv n k insts : Forall (rg_wf fv n k) insts -> Forall (mono_set n pdim) (rg_sets insts).
Proof.
  intros H. unfold rg_sets. apply Forall_app. split.
  - apply Forall_forall. intros s Hs. apply in_flat_map in Hs as (x & Hx & Hs). apply in_map_iff in Hs as (m & <- & Hm).
    rewrite Forall_forall in H. destruct (H x Hx) as [_ _ W _ _ _ _]. rewrite Forall_forall in W. destruct (W m Hm) as [E1 E2].
    apply mono_set_from_dense; auto.
  - apply Forall_map. eapply Forall_impl; [|exact H]. intros x [_ _ _ _ W5 W6 _]. split; auto.
Qed.
Lemma rg_sets_cols fv n k insts : Forall (rg_wf fv n k) insts ->
  map sm_cols (flat_map (fun i => map (sm_from_dense pdim) (ri_Mf i)) insts) = flat_map inst_cols insts.
Proof.
  induction 1 as [|x l W _ IH]; auto. cbn [flat_map]. rewrite map_app, IH. f_equal. unfold inst_cols. rewrite map_map.
  apply map_ext_in. intros m Hm. destruct W as [_ _ W _ _ _ _]. rewrite Forall_forall in W. destruct (W m Hm) as [_ E].
  apply (sm_cols_from_dense (p := p)). eapply Forall_impl; [|exact E]. intros ? []; auto.
Qed.
Lemma fold_left_map_gen {A B C} (f : A -> B -> A) (g : C -> B) l a : fold_left f (map g l) a = fold_left (fun a c => f a (g c)) l a.
Proof. revert a; induction l; intros a'; cbn [map fold_left]; auto. Qed.
Lemma eval_sm_mul nv n (Mi : smat R) v r : wf_mat n Mi -> (length (m_coeffs Mi) <= 2 ^ nv)%nat -> length v = n -> length r = nv ->
  sm_mul_vec Mi v = Ok (map (mz Mi v) (seq 0 (length (m_coeffs Mi)))) /\
  eval_vec nv (map (mz Mi v) (seq 0 (length (m_coeffs Mi)))) (map emb r) = Ok (open_mul r Mi v).
Proof.
  intros HW HL Hv Hr. split.
  - unfold sm_mul_vec. rewrite mat_vec_mul_ok by (rewrite Hv; auto). reflexivity.
  - rewrite eval_vec_ok; [|rewrite map_length, seq_length; auto|rewrite map_length; auto].
    f_equal. unfold open_mul. apply mle_spec_ext. intros i Hi.
    destruct (Nat.lt_ge_cases i (length (m_coeffs Mi))).
    + apply nth_seq_map. auto.
    + rewrite nth_overflow by (rewrite map_length, seq_length; auto). rewrite mz_out; auto.
Qed.

Theorem range_check_claim fv n g M (ts : T) :
  (1 <= rg_nvars g)%nat -> rg_nvars g = ark_log2 (next_pow2 n) -> char_gt K 3 ->
  (2 <= length (rg_insts g) * rp_k (rg_params g))%nat ->
  Forall (rg_wf fv n (rp_k (rg_params g))) (rg_insts g) -> Forall (same_images M fv) (rg_insts g) ->
  Forall (fun Mi : smat R => wf_mat n Mi /\ (length (m_coeffs Mi) <= 2 ^ rg_nvars g)%nat /\ base_mat Mi) M ->
  exists o ts1, set_check (rg_nvars g) (rg_sets (rg_insts g)) M ts = Ok (o, ts1) /\
    so_nvars o = rg_nvars g /\ length (so_r o) = rg_nvars g /\ so_e o = true_e M (so_r o) (rg_insts g) /\
    let dc := Dcom (map (true_evals M (so_r o)) (rg_insts g)) (map ri_coms (rg_insts g)) o (rg_params g) in
    let dc' := Dcom (map (claim_evals fv M (so_r o)) (rg_insts g)) (map ri_coms (rg_insts g)) o (rg_params g) in
    range_check g M ts = Ok (dc, rg_absorb (dc_evals dc) ts1) /\ rg_verify dc' ts = Ok (rg_absorb (dc_evals dc) ts1).
Proof.
  intros Hnv En Hc H2 HW HSI HM.
  assert (n <= 2 ^ rg_nvars g)%nat as Hn by (rewrite En, ark_log2_next_pow2; apply next_pow2_ge).
  assert (length (set_mats (rg_sets (rg_insts g))) = (length (rg_insts g) * rp_k (rg_params g))%nat) as LM.
  { rewrite rg_sets_mats. clear - HW. induction HW as [|x l W _ IH]; auto. cbn [flat_map length]. rewrite app_length, map_length, IH.
    rewrite (rw_k _ _ _ _ W). lia. }
  destruct (set_check_complete (p := p) (rg_nvars g) n pdim (rg_sets (rg_insts g)) M ts) as (o & ts1 & S1 & S2 & S3 & S4 & S5 & S6 & S7); auto.
  { apply (rg_sets_mono fv n (rp_k (rg_params g))); auto. }
  { intros E. rewrite E in LM. cbn [length] in LM. lia. }
  { left. rewrite LM. auto. }
  { eapply Forall_impl; [|exact HM]. intros a (H & H' & _). auto. }
  exists o, ts1. split; auto. split; auto. split; auto.
  rewrite rg_sets_mats, (rg_sets_cols fv n (rp_k (rg_params g))) in S6 by auto. rewrite rg_sets_vecs, map_map in S7.
  split; [exact S6|]. cbn zeta. cbn [dc_evals]. split.
  - unfold range_check. destruct (rg_insts g) as [|x0 insts] eqn:EI; [cbn [length] in H2; lia|]. rewrite <- EI in *. clear EI x0 insts.
    rewrite S1. cbn [bind].
    rewrite (mapM_ok _ (fun li => true_evals M (so_r o) (snd li))).
    + cbn [bind]. rewrite <- (map_map snd (true_evals M (so_r o))).
      assert (map snd (combine (seq 0 (length (rg_insts g))) (rg_insts g)) = rg_insts g) as ->; [|reflexivity].
      generalize (rg_insts g). intros l. generalize 0%nat. induction l as [|x l IH]; intros s; cbn [length seq combine map snd]; [auto|]. f_equal. apply IH.
    + intros [l x] Hlx. apply (in_combine_seq _ _ inst0) in Hlx as [Hl Ex]. cbn [fst snd] in *.
      assert (rg_wf fv n (rp_k (rg_params g)) x) as [W1 W2 W3 W4 W5 W6 W7].
      { rewrite Forall_forall in HW. rewrite Ex. apply HW, nth_In. auto. }
      unfold rg_evals.
      assert (forall v : list K, (length v <= n)%nat -> eval_vec (rg_nvars g) v (so_r o) = Ok (mle_spec (fun i => nth i v 0) (so_r o))) as HK.
      { intros v Hv. apply eval_vec_gen; [lia|auto]. }
      rewrite (mapM_ok _ (fun j => mle_spec (fun i => nth j (pcoeffs (nth i (ri_f x) 0)) 0) (so_r o))).
      2:{ intros j Hj. rewrite HK by (rewrite map_length; lia). f_equal. apply mle_spec_ext. intros i _.
          etransitivity; [|apply (map_nth (fun y => nth j (pcoeffs y) (0 : K)))]. f_equal.
          symmetry. apply (nth_pcoeffs_0 (p := p)). }
      cbn [bind]. rewrite HK by (rewrite <- W7, map_length; lia). cbn [bind].
      rewrite S7. unfold index. rewrite (nth_error_nth' _ 0) by (rewrite map_length; auto). cbn [of_option bind].
      rewrite (nth_map_lt _ _ _ inst0) by auto. rewrite <- Ex.
      rewrite eval_vec_ok by (rewrite ?map_length; lia). cbn [bind].
      assert (length (map emb (ri_tau x) : list R) = n) as Lt by (rewrite map_length, <- W7, map_length; auto).
      assert (forall v Mi, length v = n -> In Mi M -> sm_mul_vec Mi v = Ok (map (mz Mi v) (seq 0 (length (m_coeffs Mi)))) /\
         eval_vec (rg_nvars g) (map (mz Mi v) (seq 0 (length (m_coeffs Mi)))) (map emb (so_r o)) = Ok (open_mul (so_r o) Mi v)) as HE.
      { intros v Mi Hv HMi. rewrite Forall_forall in HM. destruct (HM Mi HMi) as (E1 & E2 & _). apply eval_sm_mul with n; auto. }
      rewrite (mapM_ok _ (fun m => pct (open_mul (so_r o) m (map emb (ri_tau x))))).
      2:{ intros Mi HMi. destruct (HE _ Mi Lt HMi) as [E1 E2]. rewrite E1. cbn [bind]. rewrite E2. reflexivity. }
      cbn [bind]. rewrite (mapM_ok _ (fun m => open_mul (so_r o) m (ri_mtau x))).
      2:{ intros Mi HMi. destruct (HE _ Mi W5 HMi) as [E1 E2]. rewrite E1. exact E2. }
      cbn [bind]. rewrite (mapM_ok _ (fun m => open_mul (so_r o) m (ri_f x))).
      2:{ intros Mi HMi. destruct (HE _ Mi W1 HMi) as [E1 E2]. rewrite E1. exact E2. }
      reflexivity.
  - unfold rg_verify. cbn [dc_out dc_evals dc_params]. rewrite S2. cbn [unwrap bind]. rewrite S6.
    rewrite (mapM_ok _ (fun _ => tt)).
    { cbn [bind]. f_equal. unfold rg_absorb. rewrite !fold_left_map_gen. reflexivity. } intros [l e] Hle.
    apply (in_combine_seq _ _ (claim_evals fv M (so_r o) inst0)) in Hle as [Hl Ee]. cbn [fst snd] in Hl, Ee |- *. rewrite map_length in Hl.
    rewrite Ee. rewrite (map_nth (claim_evals fv M (so_r o))). apply (check_eval_ok fv n (rp_k (rg_params g))); auto.
    + eapply Forall_impl; [|exact HW]. apply rg_wf_pre.
    + rewrite S4. auto.
    + eapply Forall_impl; [|exact HM]. intros ? (_ & _ & ?); auto.
Qed.
Theorem range_check_complete n g M (ts : T) :
  (1 <= rg_nvars g)%nat -> rg_nvars g = ark_log2 (next_pow2 n) -> char_gt K 3 ->
  (2 <= length (rg_insts g) * rp_k (rg_params g))%nat ->
  Forall (rg_wf ri_f n (rp_k (rg_params g))) (rg_insts g) ->
  Forall (fun Mi : smat R => wf_mat n Mi /\ (length (m_coeffs Mi) <= 2 ^ rg_nvars g)%nat /\ base_mat Mi) M ->
  exists o ts1, set_check (rg_nvars g) (rg_sets (rg_insts g)) M ts = Ok (o, ts1) /\
    so_nvars o = rg_nvars g /\ length (so_r o) = rg_nvars g /\ so_e o = true_e M (so_r o) (rg_insts g) /\
    let dc := Dcom (map (true_evals M (so_r o)) (rg_insts g)) (map ri_coms (rg_insts g)) o (rg_params g) in
    range_check g M ts = Ok (dc, rg_absorb (dc_evals dc) ts1) /\ rg_verify dc ts = Ok (rg_absorb (dc_evals dc) ts1).
Proof.
  intros Hnv En Hc H2 HW HM. apply (range_check_claim ri_f n g M ts Hnv En Hc H2 HW (same_images_f _ _) HM).
Qed.
End RC.

Section FromF.
Context {K R T : Type} {PO : POps K R} {TO : TransOps T R K} {p : Z} {PL : PLaws K R p}.
Add Ring Rring42 : (@rlaws_th R _ (pl_R (p := p))).
Add Ring Kring42 : (@rlaws_th K _ (fld_laws (FieldLaws := pl_K (p := p)))).

Definition expd (c : K) : R := match pexp c with Some m => m | None => 0 end.
Definition exp_dom (c : K) : Prop := (2 * Z.abs (psigned c) < Z.of_nat pdim)%Z.
Lemma expd_ok c : exp_dom c -> exp_unwrap c = Ok (expd c) /\ in_monos (expd c) /\ psi_ct (expd c) = c.
Proof.
  intros H. destruct (pexp_ok c H) as (m & E1 & E2 & E3). unfold exp_unwrap, expd. rewrite E1. cbn [of_option]. repeat split; auto.
Qed.
(** Digits in base d/2 are in the domain of [exp]. *)
Lemma digit_dom k v i : (4 <= pdim)%nat -> (Z.of_nat (pdim / 2) < p)%Z ->
  exp_dom (rofZ (nth i (decompose_z k (Z.of_nat (pdim / 2)) v) 0%Z)).
Proof.
  intros Hd Hp. set (b := Z.of_nat (pdim / 2)) in *.
  assert (2 <= pdim / 2)%nat as Hb by (apply Nat.div_le_lower_bound; lia).
  assert (pdim / 2 * 2 <= pdim)%nat as Hb2 by (pose proof (Nat.div_mod pdim 2 ltac:(lia)); lia).
  assert (Z.abs (nth i (decompose_z k b v) 0%Z) <= b / 2)%Z as H.
  { destruct (Nat.lt_ge_cases i k).
    - pose proof (decompose_z_short k b v ltac:(lia)) as HF. rewrite Forall_forall in HF. apply HF, nth_In. rewrite decompose_z_length; auto.
    - rewrite nth_overflow by (rewrite decompose_z_length; auto). cbn [Z.abs]. apply Z.div_pos; lia. }
  assert (2 * (b / 2) <= b)%Z by (pose proof (Z.div_mod b 2 ltac:(lia)); pose proof (Z.mod_pos_bound b 2 ltac:(lia)); lia).
  unfold exp_dom. rewrite psigned_small by lia. lia.
Qed.

Lemma pdecompose_length b k x : length (pdecompose b k x) = k.
Proof. unfold pdecompose. rewrite map_length, seq_length. auto. Qed.
Lemma pcoeffs_pdecompose b k x i : (i < k)%nat ->
  pcoeffs (nth i (pdecompose b k x) 0) = map (fun c => rofZ (nth i (decompose_z k b (psigned c)) 0%Z)) (pcoeffs x) :> list K.
Proof.
  intros Hi. unfold pdecompose. rewrite nth_seq_map by auto. rewrite map_map, pcoeffs_of by (rewrite map_length; apply pcoeffs_length). auto.
Qed.
Lemma split_data_dom (com : list (list R)) l : (4 <= pdim)%nat -> (Z.of_nat (pdim / 2) < p)%Z ->
  Forall exp_dom (split_data com (Z.of_nat (pdim / 2)) l).
Proof.
  intros Hd Hp. unfold split_data. apply Forall_forall. intros c Hc. apply in_flat_map in Hc as (y & Hy & Hc).
  apply in_concat in Hy as (row & Hr & Hy). apply in_map_iff in Hr as (v & <- & Hv). unfold pgadget in Hy.
  apply in_flat_map in Hy as (x & Hx & Hy). apply (In_nth _ _ 0) in Hy as (i & Hi & <-). rewrite pdecompose_length in Hi.
  rewrite pcoeffs_pdecompose in Hc by auto. apply in_map_iff in Hc as (a & <- & _). apply digit_dom; auto.
Qed.
Lemma split_data_length (com : list (list R)) b l m : Forall (fun row => length row = m) com ->
  length (split_data com b l) = (length com * m * l * pdim)%nat.
Proof.
  intros H. unfold split_data. rewrite (flat_map_length _ _ pdim) by apply pcoeffs_length. f_equal.
  induction H as [|row com Hr _ IH]; auto. cbn [map concat length]. rewrite app_length, IH. unfold pgadget.
  rewrite (flat_map_length _ _ l) by apply pdecompose_length. lia.
Qed.

(** The commitment of a digit matrix: matrix product with the rows of [A]. *)
Definition mmul (A : ajtai R) (M : list (list R)) : list (list R) :=
  map (fun row => map (fun j => lsum (zipw rmul row (map (fun mr => nth j mr 0) M))) (seq 0 pdim)) (a_rows A).
(** Rows of a horizontal concatenation. *)
Definition hrows (kap : nat) (Ms : list (list (list R))) : list (list R) :=
  map (fun r => concat (map (fun M => nth r M []) Ms)) (seq 0 kap).
Lemma hconcat_ok kap Ms : Ms <> [] -> Forall (fun M => length M = kap) Ms -> hconcat Ms = Ok (hrows kap Ms).
Proof.
  intros Hne HF. destruct Ms as [|M0 Ms]; [congruence|]. unfold hconcat. f_equal. clear Hne.
  inversion HF as [|? ? H0 H1]; subst x l. clear HF.
  assert (forall acc, length acc = kap -> fold_left (fun acc M => zipw (app (A := R)) acc M) Ms acc
     = map (fun r => nth r acc [] ++ concat (map (fun M => nth r M []) Ms)) (seq 0 kap)) as HH.
  { clear M0 H0. induction H1 as [|M Ms HM _ IH]; intros acc Ha; cbn [fold_left].
    - apply (list_ext []); [rewrite map_length, seq_length; auto|]. rewrite Ha. intros r Hr. rewrite nth_seq_map by auto.
      cbn [map concat]. rewrite app_nil_r. auto.
    - rewrite IH by (rewrite zipw_length; lia). apply map_ext_in. intros r Hr. apply in_seq in Hr.
      rewrite (nth_zipw _ _ _ _ [] []) by lia. cbn [map concat]. rewrite app_assoc. auto. }
  rewrite HH by auto. unfold hrows. reflexivity.
Qed.

Theorem from_f_ok f A P n : length f = n -> a_ncols A = n -> (4 <= pdim)%nat -> (Z.of_nat (pdim / 2) < p)%Z ->
  rp_b P = Z.of_nat (pdim / 2) -> (1 <= rp_k P)%nat ->
  Forall (fun x => Forall (fun c => (2 * Z.abs (psigned c) <= rp_b P ^ Z.of_nat (rp_k P))%Z) (pcoeffs x)) f ->
  (kappa A * (rp_k P * pdim) * rp_l P * pdim < n)%nat ->
  exists x : rg_inst K R, from_f f A P = Ok x /\ rg_wf ri_f n (rp_k P) x /\ ri_f x = f /\
    ri_comMf x = map (mmul A) (ri_Mf x) /\
    ri_tau x = resize n 0 (split_data (hrows (kappa A) (ri_comMf x)) (Z.of_nat (pdim / 2)) (rp_l P)) /\
    commit A f = Ok (fc_f (ri_coms x)) /\ commit A (map emb (ri_tau x)) = Ok (fc_Mf (ri_coms x)) /\
    commit A (ri_mtau x) = Ok (fc_mtau (ri_coms x)).
Proof.
  intros Hf HA Hd Hp Hb Hk Hr Hn. unfold from_f. rewrite Hf, Hb.
  set (b := Z.of_nat (pdim / 2)) in *.
  set (D := digit_mats b (rp_k P) f).
  assert (Forall (Forall (Forall exp_dom)) D) as HD.
  { apply Forall_map, Forall_forall. intros i _. apply Forall_map, Forall_forall. intros x _. apply Forall_map, Forall_forall. intros c _.
    apply digit_dom; auto. }
  rewrite (mapM_ok _ (map (map expd))).
  2:{ intros M HM. apply mapM_ok. intros row Hrow. apply mapM_ok. intros c Hc.
      rewrite Forall_forall in HD. specialize (HD M HM). rewrite Forall_forall in HD. specialize (HD row Hrow). rewrite Forall_forall in HD.
      apply expd_ok. auto. }
  cbn [bind]. set (Mf := map (map (map expd)) D).
  assert (length Mf = rp_k P) as LMf by (unfold Mf, D, digit_mats; rewrite !map_length, seq_length; auto).
  assert (forall i, (i < rp_k P)%nat -> nth i Mf [] = map (fun x => map (fun c => expd (rofZ (nth i (decompose_z (rp_k P) b (psigned c)) 0%Z))) (pcoeffs x)) f) as NMf.
  { intros i Hi. unfold Mf, D, digit_mats. rewrite map_map, nth_seq_map by auto. rewrite map_map. apply map_ext. intros x. rewrite map_map. auto. }
  assert (Forall (fun M => length M = n /\ Forall (fun row => length row = pdim /\ Forall in_monos row) M) Mf) as WMf.
  { apply Forall_forall. intros M HM. apply (In_nth _ _ []) in HM as (i & Hi & <-). rewrite NMf by lia. split; [rewrite map_length; auto|].
    apply Forall_map, Forall_forall. intros x _. split; [rewrite map_length; apply pcoeffs_length|].
    apply Forall_map, Forall_forall. intros c _. apply expd_ok, digit_dom; auto. }
  rewrite (mapM_ok _ (mmul A)).
  2:{ intros M HM. rewrite Forall_forall in WMf. destruct (WMf M HM) as [L _]. unfold dm_mul_mat. rewrite HA, L, Nat.eqb_refl. reflexivity. }
  cbn [bind]. rewrite (hconcat_ok (kappa A)).
  2:{ destruct Mf; [cbn in LMf; lia|discriminate]. }
  2:{ apply Forall_map, Forall_forall. intros M _. unfold mmul. rewrite map_length. auto. }
  cbn [bind]. set (com := hrows (kappa A) (map (mmul A) Mf)).
  assert (length com = kappa A) as Lcom by (unfold com, hrows; rewrite map_length, seq_length; auto).
  assert (Forall (fun row => length row = (rp_k P * pdim)%nat) com) as Wcom.
  { unfold com, hrows. apply Forall_map, Forall_forall. intros r Hr'. apply in_seq in Hr'. rewrite map_map.
    rewrite <- LMf. clear - Hr'. induction Mf as [|M Mf IH]; auto. cbn [map concat length]. rewrite app_length, IH.
    unfold mmul. rewrite (nth_map_lt _ _ _ []) by (unfold kappa in Hr'; lia). rewrite map_length, seq_length. lia. }
  rewrite split_ok by (rewrite (split_data_length _ _ _ _ Wcom), Lcom; auto).
  rewrite (split_data_length _ _ _ _ Wcom), Lcom. cbn [bind].
  set (sd := split_data com b (rp_l P)).
  assert (length sd = (kappa A * (rp_k P * pdim) * rp_l P * pdim)%nat) as Lsd.
  { unfold sd. rewrite (split_data_length _ _ _ _ Wcom), Lcom. auto. }
  assert (sd ++ repeat 0 (n - kappa A * (rp_k P * pdim) * rp_l P * pdim) = resize n 0 sd) as ->.
  { unfold resize. rewrite firstn_all2 by lia. rewrite Lsd. auto. }
  set (tau := resize n 0 sd).
  assert (length tau = n) as Ltau by apply resize_length.
  assert (Forall exp_dom tau) as HT.
  { unfold tau, resize. apply Forall_app. split.
    - rewrite firstn_all2 by lia. apply split_data_dom; auto.
    - apply Forall_forall. intros c Hc. apply repeat_spec in Hc as ->. unfold exp_dom. rewrite <- rofZ_0, psigned_small by (cbn; lia). cbn. lia. }
  rewrite (mapM_ok _ expd).
  2:{ intros c Hc. rewrite Forall_forall in HT. apply expd_ok. auto. }
  cbn [bind]. unfold dm_mul_vec, checked_mul_vec. rewrite !map_length, Hf, Ltau, HA, Nat.eqb_refl. cbn [of_option bind].
  eexists. split; [reflexivity|]. cbn [ri_f ri_comMf ri_tau ri_mtau ri_Mf ri_coms fc_f fc_Mf fc_mtau].
  split; [|repeat split; auto; apply commit_ok; rewrite ?map_length; congruence].
  split; cbn [ri_f ri_comMf ri_tau ri_mtau ri_Mf ri_coms]; auto.
  - split; [exact Hf|]. intros r c Hr' Hc.
    set (a := nth c (pcoeffs (nth r f 0)) 0).
    transitivity (recompose (map (rofZ : Z -> K) (decompose_z (rp_k P) b (psigned a))) (rofZ b)).
    + rewrite recompose_sum, map_length, decompose_z_length. apply sumn_ext. intros i Hi.
      rewrite NMf by auto. rewrite (nth_map_lt _ _ _ 0) by lia. rewrite (nth_map_lt _ _ _ 0) by (rewrite pcoeffs_length; auto).
      fold a. rewrite (proj2 (proj2 (expd_ok _ (digit_dom (rp_k P) (psigned a) i Hd Hp)))). f_equal.
      rewrite (nth_map_lt _ _ _ 0%Z) by (rewrite decompose_z_length; auto). auto.
    + rewrite recompose_ofZ, decompose_z_exact; [apply psigned_val|unfold b; assert (2 <= pdim / 2)%nat by (apply Nat.div_le_lower_bound; lia); lia|].
      rewrite Forall_forall in Hr. assert (r < length f)%nat as Hrf by lia. specialize (Hr (nth r f 0) (nth_In _ _ Hrf)). rewrite Forall_forall in Hr.
      rewrite <- Hb. apply Hr. apply nth_In. rewrite pcoeffs_length. auto.
  - rewrite map_length. auto.
  - apply Forall_map. eapply Forall_impl; [|exact HT]. intros c Hc. apply expd_ok. auto.
  - rewrite map_map. rewrite <- (map_id tau) at 2. apply map_ext_in. intros c Hc. rewrite Forall_forall in HT. apply expd_ok. auto.
Qed.
(** Both together. *)
Theorem range_check_from_f (fs : list (list R)) (A : ajtai R) P n nv (M : list (smat R)) (ts : T) :
  nv = ark_log2 (next_pow2 n) -> (1 <= nv)%nat -> char_gt K 3 -> (4 <= pdim)%nat -> (Z.of_nat (pdim / 2) < p)%Z ->
  a_ncols A = n -> rp_b P = Z.of_nat (pdim / 2) -> (1 <= rp_k P)%nat -> (2 <= length fs * rp_k P)%nat ->
  (kappa A * (rp_k P * pdim) * rp_l P * pdim < n)%nat ->
  Forall (fun f => length f = n /\
    Forall (fun x => Forall (fun c => (2 * Z.abs (psigned c) <= rp_b P ^ Z.of_nat (rp_k P))%Z) (pcoeffs x)) f) fs ->
  Forall (fun Mi : smat R => wf_mat n Mi /\ (length (m_coeffs Mi) <= 2 ^ nv)%nat /\ base_mat Mi) M ->
  exists insts dc ts', mapM (fun f => from_f f A P) fs = Ok insts /\ map ri_f insts = fs /\
    range_check (Rg nv insts P) M ts = Ok (dc, ts') /\ rg_verify dc ts = Ok ts' /\
    dc_evals dc = map (true_evals M (so_r (dc_out dc))) insts /\
    Forall2 (fun f x => commit A f = Ok (fc_f (ri_coms x)) /\ commit A (map emb (ri_tau x)) = Ok (fc_Mf (ri_coms x)) /\
       commit A (ri_mtau x) = Ok (fc_mtau (ri_coms x))) fs insts /\ dc_coms dc = map ri_coms insts.
Proof.
  intros Env Hnv Hc Hd Hp HA Hb Hk H2 Hn Hfs HM.
  assert (exists insts : list (rg_inst K R), mapM (fun f => from_f f A P) fs = Ok insts /\ map ri_f insts = fs /\
    Forall (rg_wf ri_f n (rp_k P)) insts /\ length insts = length fs /\
    Forall2 (fun f x => commit A f = Ok (fc_f (ri_coms x)) /\ commit A (map emb (ri_tau x)) = Ok (fc_Mf (ri_coms x)) /\
       commit A (ri_mtau x) = Ok (fc_mtau (ri_coms x))) fs insts) as (insts & E1 & E2 & E3 & E4 & E5).
  { clear H2. induction Hfs as [|f fs [Lf Rf] _ IH].
    - exists []. cbn [mapM map]. repeat split; auto.
    - destruct IH as (insts & E1 & E2 & E3 & E4 & E5).
      destruct (from_f_ok f A P n) as (x & F1 & F2 & F3 & F4 & F5 & F6 & F7 & F8); auto.
      exists (x :: insts). cbn [mapM]. rewrite F1. cbn [bind]. rewrite E1. cbn [bind map length]. rewrite F3, E2, E4. repeat split; auto. }
  destruct (range_check_complete (p := p) n (Rg nv insts P) M ts) as (o & ts1 & S1 & S2 & S3 & S4 & S5 & S6); cbn [rg_nvars rg_insts rg_params]; auto.
  { rewrite E4. auto. }
  cbn [rg_insts rg_params] in *. eexists insts, _, _. split; [exact E1|]. split; [exact E2|]. split; [exact S5|]. split; [exact S6|].
  cbn [dc_evals dc_out dc_coms]. auto.
Qed.
End FromF.
