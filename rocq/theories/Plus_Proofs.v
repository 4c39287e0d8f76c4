(** Proofs about Plus.v: linearization, folding, decomposition and the whole LatticeFold+ step. *)
From Coq Require Import String List Arith Lia ZArith Bool Ring.
From Verif Require Import Prelude Alg Poly MLE MLE_Proofs Transcript Sumcheck Sumcheck_Proofs CombDeg Arith Arith_Proofs Balanced
  Rings Rings_Proofs PlusRing PlusUtils_Proofs SetCheck SetCheck_Proofs SetCheck_Sound RangeCheck RangeCheck_Proofs Cm Cm_Proofs Plus.
Import ListNotations.
Local Open Scope rs_scope.

Lemma map_fst_combine {A B} (a : list A) (b : list B) : length a = length b -> map fst (combine a b) = a.
Proof. revert b; induction a as [|x a IH]; intros [|y b] H; try discriminate H; auto. cbn. f_equal. auto. Qed.
Lemma map_snd_combine {A B} (a : list A) (b : list B) : length a = length b -> map snd (combine a b) = b.
Proof. revert b; induction a as [|x a IH]; intros [|y b] H; try discriminate H; auto. cbn. f_equal. auto. Qed.

Section Dec.
Context {K R T : Type} {PO : POps K R} {TO : TransOps T R K} {p : Z} {PL : PLaws K R p}.
Add Ring Rring49 : (@rlaws_th R _ (pl_R (p := p))).
Add Ring Kring49 : (@rlaws_th K _ (fld_laws (FieldLaws := pl_K (p := p)))).

(** All coefficients of all entries lie in [-c/2, c/2]. *)
Definition within (c : Z) (f : list R) : Prop := Forall (fun x => Forall (fun a => (2 * Z.abs (psigned a) <= c)%Z) (pcoeffs x)) f.

Lemma pdec_exact b l (x : R) : (2 <= b)%Z -> Forall (fun a => (2 * Z.abs (psigned a) <= b ^ Z.of_nat l)%Z) (pcoeffs x) ->
  sumn l (fun i => emb (rpow (rofZ b : K) i) * nth i (pdecompose b l x) 0) = x.
Proof.
  intros Hb Hl. apply (pcoeffs_ext (p := p)). intros c Hc. rewrite (nth_pcoeffs_sumn (p := p)).
  transitivity (recompose (map (rofZ : Z -> K) (decompose_z l b (psigned (nth c (pcoeffs x) 0)))) (rofZ b)).
  - rewrite recompose_sum, map_length, decompose_z_length. apply sumn_ext. intros i Hi.
    rewrite (nth_pcoeffs_scale (p := p)), (pcoeffs_pdecompose (p := p)) by auto.
    rewrite (nth_map_lt _ _ _ 0) by (rewrite pcoeffs_length; auto). rewrite (nth_map_lt _ _ _ 0%Z) by (rewrite decompose_z_length; auto). ring.
  - rewrite recompose_ofZ, decompose_z_exact; [apply psigned_val|auto|]. rewrite Forall_forall in Hl. apply Hl, nth_In. rewrite pcoeffs_length. auto.
Qed.
Lemma pdec_short b l (x : R) i : (2 <= b)%Z -> (b < p)%Z -> (i < l)%nat ->
  Forall (fun a => (2 * Z.abs (psigned a) <= b)%Z) (pcoeffs (nth i (pdecompose b l x) 0)).
Proof.
  intros Hb Hp Hi. rewrite (pcoeffs_pdecompose (p := p)) by auto. apply Forall_map, Forall_forall. intros c _.
  pose proof (decompose_z_short l b (psigned c) Hb) as HF. rewrite Forall_forall in HF.
  assert (Z.abs (nth i (decompose_z l b (psigned c)) 0) <= b / 2)%Z as H by (apply HF, nth_In; rewrite decompose_z_length; auto).
  assert (2 * (b / 2) <= b)%Z by (pose proof (Z.div_mod b 2 ltac:(lia)); pose proof (Z.mod_pos_bound b 2 ltac:(lia)); lia).
  rewrite psigned_small by lia. lia.
Qed.

Definition half (B : Z) (i : nat) (f : list R) : list R := map (fun x => nth i (pdecompose B 2 x) 0) f.
Lemma half_length B i f : length (half B i f) = length f.
Proof. apply map_length. Qed.
Lemma half_within B i f : (2 <= B)%Z -> (B < p)%Z -> (i < 2)%nat -> within B (half B i f).
Proof. intros. apply Forall_map, Forall_forall. intros x _. apply pdec_short; auto. Qed.
Lemma half_sum B f r : (2 <= B)%Z -> within (B ^ 2) f -> nth r (half B 0 f) 0 + rofZ B * nth r (half B 1 f) 0 = nth r f 0.
Proof.
  intros HB Hf. destruct (Nat.lt_ge_cases r (length f)) as [Hr|Hr].
  2:{ rewrite !nth_overflow by (rewrite ?half_length; auto). ring. }
  unfold half. rewrite !(nth_map_lt _ _ _ 0) by auto. unfold within in Hf. rewrite Forall_forall in Hf.
  rewrite <- (pdec_exact B 2 (nth r f 0)) at 3; [|auto|apply Hf, nth_In; auto].
  rewrite !sumn_S_first. cbn [sumn]. rewrite <- (hom_ofZ _ emb_hom). cbn [rpow]. rewrite !(hom_mul _ emb_hom), !(hom_1 _ emb_hom). ring.
Qed.
Lemma half_rlin B f n F : (2 <= B)%Z -> within (B ^ 2) f -> length f = n -> rlin n F -> F (half B 0 f) + rofZ B * F (half B 1 f) = F f.
Proof.
  intros HB Hf Hn [w Hw]. rewrite !Hw by (rewrite ?half_length; auto). rewrite <- sumn_mul_l, <- sumn_add. apply sumn_ext. intros r Hr.
  rewrite <- (half_sum B f r) by auto. ring.
Qed.
Lemma commit_rlin (A : ajtai R) n (v : list R) : wf_ajtai A -> a_ncols A = n -> length v = n -> dm_mul_vec A v = commit A v /\
  commit A v = Ok (map (fun row => sumn n (fun r => nth r row 0 * nth r v 0)) (a_rows A)).
Proof.
  intros WA HA Hv. split.
  - unfold dm_mul_vec, commit, checked_mul_vec. rewrite Hv, HA, Nat.eqb_refl. reflexivity.
  - rewrite commit_ok by congruence. f_equal. apply map_ext_in. intros row Hrow. unfold wf_ajtai in WA. rewrite Forall_forall in WA.
    rewrite lsum_nth, zipw_length, Hv, (WA _ Hrow), HA, Nat.min_id. apply sumn_ext.
    intros r Hr. apply nth_zipw; rewrite ?(WA _ Hrow), ?HA, ?Hv; auto.
Qed.
Lemma recompose2 (a b c : R) : recompose [a; b] c = a + c * b.
Proof. unfold recompose. cbn [fold_right]. ring. Qed.
Lemma leqb2_refl (l : list (R * R)) : leqb2 l l = true.
Proof. induction l as [|x l IH]; auto. cbn [leqb2]. rewrite !req_refl, IH. auto. Qed.
Lemma vi_calc_ok n nv M r0 r1 F : Forall (fun m : smat R => wf_mat n m /\ (length (m_coeffs m) <= 2 ^ nv)%nat) M -> (n <= 2 ^ nv)%nat -> length F = n ->
  length r0 = nv -> length r1 = nv -> vi_calc nv (combine (map emb r0) (map emb r1)) M F = Ok (evaluations M r0 r1 F).
Proof.
  intros HM Hn HF H0 H1. unfold vi_calc.
  assert (map fst (combine (map emb r0) (map emb r1)) = map emb r0 :> list R) as -> by (apply map_fst_combine; rewrite !map_length; lia).
  assert (map snd (combine (map emb r0) (map emb r1)) = map emb r1 :> list R) as -> by (apply map_snd_combine; rewrite !map_length; lia).
  rewrite !eval_vec_ok by (rewrite ?map_length; lia). cbn [bind].
  rewrite (mapM_ok _ (fun m => (open_mul r0 m F, open_mul r1 m F))); [reflexivity|].
  intros m Hm. rewrite Forall_forall in HM. destruct (HM m Hm) as [W1 W2].
  destruct (eval_sm_mul (p := p) nv n m F r0 W1 W2 HF H0) as [E1 E2]. destruct (eval_sm_mul (p := p) nv n m F r1 W1 W2 HF H1) as [_ E3].
  rewrite E1. cbn [bind]. rewrite E2. cbn [bind]. rewrite E3. reflexivity.
Qed.

Theorem decompose_complete f r0 r1 M A B n nv : wf_ajtai A -> a_ncols A = n -> nv = ark_log2 n -> (1 <= n)%nat -> length f = n ->
  length r0 = nv -> length r1 = nv -> Forall (fun m : smat R => wf_mat n m /\ (length (m_coeffs m) <= 2 ^ nv)%nat) M ->
  (2 <= B)%Z -> (B < p)%Z -> within (B ^ 2) f ->
  let r := combine (map emb r0) (map emb r1) in
  exists F0 F1 C0 C1 d,
    decompose f r M A B = Ok (LinB F0 C0 r (evaluations M r0 r1 F0), LinB F1 C1 r (evaluations M r0 r1 F1), d) /\
    length F0 = n /\ length F1 = n /\ within B F0 /\ within B F1 /\ (forall i, nth i f 0 = nth i F0 0 + rofZ B * nth i F1 0) /\
    commit A F0 = Ok C0 /\ commit A F1 = Ok C1 /\
    forall cm, commit A f = Ok cm -> dec_verify d cm (evaluations M r0 r1 f) B = Ok tt.
Proof.
  intros WA HA Env Hn1 Hf H0 H1 HM HB HBp Hr r.
  assert (n <= 2 ^ nv)%nat as Hn by (rewrite Env; apply ark_log2_ge).
  destruct (commit_rlin A n (half B 0 f) WA HA ltac:(rewrite half_length; auto)) as [E0 E0'].
  destruct (commit_rlin A n (half B 1 f) WA HA ltac:(rewrite half_length; auto)) as [E1 E1'].
  exists (half B 0 f), (half B 1 f). eexists. eexists. eexists. split; [|split; [|split; [|split; [|split; [|split; [|split; [|split]]]]]]].
  - unfold decompose. destruct f as [|x f']; [cbn in Hf; lia|]. set (f := x :: f') in *. fold (half B 0 f) (half B 1 f).
    rewrite HA, <- Env. unfold r. rewrite !(vi_calc_ok n) by (auto; rewrite half_length; auto). cbn [bind].
    rewrite E0, E0'. cbn [bind]. rewrite E1, E1'. cbn [bind]. reflexivity.
  - rewrite half_length; auto.
  - rewrite half_length; auto.
  - apply half_within; auto.
  - apply half_within; auto.
  - intros i. symmetry. apply half_sum; auto.
  - exact E0'.
  - exact E1'.
  - intros cm Ecm. destruct (commit_rlin A n f WA HA Hf) as [_ Ef]. rewrite Ef in Ecm. apply ok_inj in Ecm. subst cm.
    unfold dec_verify. cbn [dp_C0 dp_C1 dp_v0 dp_v1].
    rewrite zipw_map, zipw_same. rewrite (map_ext _ (fun row => sumn n (fun r => nth r row 0 * nth r f 0))).
    2:{ intros row. rewrite recompose2. apply (half_rlin B f n (fun v => sumn n (fun r => nth r row 0 * nth r v 0))); auto. exists (fun r => nth r row 0). auto. }
    rewrite leqb_refl. cbn [guard bind].
    unfold evaluations at 1 2. cbn [zipw]. rewrite zipw_map, zipw_same. cbn [fst snd]. rewrite !recompose2.
    rewrite (half_rlin B f n (open r0)), (half_rlin B f n (open r1)) by (auto; apply (rlin_open (p := p)); rewrite ?H0, ?H1; auto).
    rewrite (map_ext _ (fun Mi => (open_mul r0 Mi f, open_mul r1 Mi f))).
    2:{ intros Mi. rewrite !recompose2. rewrite (half_rlin B f n (open_mul r0 Mi)), (half_rlin B f n (open_mul r1 Mi)) by (auto; apply (rlin_open_mul (p := p))). auto. }
    fold (evaluations M r0 r1 f). rewrite leqb2_refl. reflexivity.
Qed.
End Dec.

Section LinS.
Context {K R T : Type} {PO : POps K R} {TO : TransOps T R K} {p : Z} {PL : PLaws K R p}.
Add Ring Rring50 : (@rlaws_th R _ (pl_R (p := p))).
Add Ring Kring50 : (@rlaws_th K _ (fld_laws (FieldLaws := pl_K (p := p)))).

(** Every row of the R1CS holds for [f] (rows past the end of a matrix are zero). *)
Definition r1cs_holds (rc : r1cs R) (f : list R) : Prop := forall i, mz (r_A rc) f i * mz (r_B rc) f i = mz (r_C rc) f i.
Definition r1cs_wf (n nv : nat) (rc : r1cs R) : Prop := Forall (fun m : smat R => wf_mat n m /\ (length (m_coeffs m) <= 2 ^ nv)%nat) (r1cs_mats rc).

Lemma r1cs_comb_deg n : comb_deg n 3 (r1cs_comb : list R -> R).
Proof.
  unfold r1cs_comb. apply (comb_deg_mul n 1 2); [apply comb_deg_nth|]. apply comb_deg_sub.
  - apply (comb_deg_mul n 1 1); apply comb_deg_nth.
  - apply (comb_deg_mono n 1 2); [lia|]. apply comb_deg_nth.
Qed.
Definition mvc (m : smat R) (f : list R) : list R := map (mz m f) (seq 0 (length (m_coeffs m))).
Lemma mvc_nth m f i : nth i (mvc m f) 0 = mz m f i.
Proof.
  unfold mvc. destruct (Nat.lt_ge_cases i (length (m_coeffs m))).
  - apply nth_seq_map. auto.
  - rewrite nth_overflow by (rewrite map_length, seq_length; auto). rewrite (mz_out); auto.
Qed.
Lemma mvc_open m f ro : vat (mvc m f) (map emb ro) = open_mul ro m f.
Proof. unfold vat, open_mul. apply mle_spec_ext. intros i _. apply mvc_nth. Qed.

Theorem linearize_complete c (ts : T) n nv : length (cr_f c) = n -> nv = ark_log2 (next_pow2 n) -> (1 <= nv)%nat -> char_gt K 3 ->
  r1cs_wf n nv (cr_r1cs c) -> r1cs_holds (cr_r1cs c) (cr_f c) ->
  exists ro prf ts', length ro = nv /\
    linearize c ts = Ok (LinB (cr_f c) (cr_cm c) (combine (map emb ro) (map emb ro)) (evaluations (r1cs_mats (cr_r1cs c)) ro ro (cr_f c)), prf, ts') /\
    lin_verify prf ts = Ok (true, ts').
Proof.
  intros Hf Env Hnv Hc HW HS. set (f := cr_f c) in *. set (rc := cr_r1cs c) in *.
  assert (n <= 2 ^ nv)%nat as Hn by (rewrite Env, ark_log2_next_pow2; apply next_pow2_ge).
  pose proof (get_challenges_length ts nv) as Lr. destruct (get_challenges ts nv) as [r ts1] eqn:Er. cbn [fst] in Lr.
  assert (forall m, In m (r1cs_mats rc) -> sm_mul_vec m f = Ok (mvc m f) /\ (length (mvc m f) <= 2 ^ nv)%nat) as HV.
  { intros m Hm. unfold r1cs_wf in HW. rewrite Forall_forall in HW. destruct (HW m Hm) as [W1 W2]. split.
    - unfold sm_mul_vec. rewrite mat_vec_mul_ok by (rewrite Hf; auto). reflexivity.
    - unfold mvc. rewrite map_length, seq_length. auto. }
  destruct (HV (r_A rc)) as [VA LA]; [cbn; auto|]. destruct (HV (r_B rc)) as [VB LB]; [cbn; auto|]. destruct (HV (r_C rc)) as [VC LC]; [cbn; auto|].
  assert (forall v : list R, (length v <= 2 ^ nv)%nat -> mle_from_vec nv v = Ok (vtab nv v)) as HT.
  { intros v Hv. apply mle_from_vec_ok. auto. }
  set (tabs := [eqtab r; vtab nv (mvc (r_A rc) f); vtab nv (mvc (r_B rc) f); vtab nv (mvc (r_C rc) f)]).
  destruct (sumcheck_complete ts1 tabs nv 3 r1cs_comb) as (proof & ro & ts2 & E1 & E2 & E3 & E4); auto.
  { apply r1cs_comb_deg. }
  { unfold tabs. repeat (apply Forall_cons; [try exact Lr; reflexivity|]). apply Forall_nil. }
  assert (forall pt, length pt = nv -> r1cs_comb (mles_at tabs pt) =
     mle_spec (eqw (map emb r)) pt * (vat (mvc (r_A rc) f) pt * vat (mvc (r_B rc) f) pt - vat (mvc (r_C rc) f) pt)) as HC.
  { intros pt Hpt. unfold r1cs_comb, tabs, mles_at. cbn [map nth]. rewrite eqtab_at by congruence. rewrite !vtab_at by auto. reflexivity. }
  assert (cube_sum nv (fun pt => r1cs_comb (mles_at tabs pt)) = 0) as H0.
  { unfold cube_sum. apply sumn_0. intros b Hb. rewrite HC by apply bits_length. unfold vat. rewrite !(mle_spec_bits _ nv) by auto.
    rewrite !mvc_nth, HS. ring. }
  rewrite H0, HC in E4 by (rewrite map_length; auto). rewrite !mvc_open in E4.
  assert (forall v, (length v <= 2 ^ nv)%nat -> mle_evaluate (vtab nv v) (map emb ro) = Some (vat v (map emb ro))) as HEv.
  { intros v Hv. apply mle_evaluate_spec. rewrite map_length. split; [exact E2|]. symmetry. apply vtab_at. auto. }
  exists ro. eexists. eexists. split; [exact E2|]. split.
  - unfold linearize. fold f rc. rewrite Hf, <- Env. rewrite VA, VB, VC. cbn [bind]. rewrite Er.
    rewrite build_eq_mle by (intros E; apply (f_equal (@length R)) in E; rewrite map_length in E; cbn in E; lia).
    rewrite map_length. fold (eqtab r). cbn [unwrap bind]. rewrite !HT by (auto; lia). cbn [bind]. fold tabs. rewrite E1. cbn [bind].
    rewrite !HEv by (auto; lia). cbn [of_option bind]. rewrite !mvc_open. fold (open ro f).
    replace (map (fun x : R => (x, x)) (map emb ro)) with (combine (map emb ro) (map emb ro : list R)) by (clear; induction ro; cbn; f_equal; auto).
    reflexivity.
  - unfold lin_verify. cbn [rp_nvars rp_sc rp_v rp_va rp_vb rp_vc]. rewrite Er, E4. cbn [unwrap bind].
    rewrite eq_eval_spec, !map_length, Lr, E2, Nat.eqb_refl. cbn [unwrap bind].
    rewrite mle_spec_eqw by (rewrite !map_length; congruence). rewrite eqp_sym by (rewrite !map_length; congruence). rewrite req_refl. reflexivity.
Qed.
End LinS.

Section Fold.
Context {K R T : Type} {PO : POps K R} {TO : TransOps T R K} {p : Z} {PL : PLaws K R p}.
Add Ring Rring51 : (@rlaws_th R _ (pl_R (p := p))).

(** Sum of vectors of length [n]. *)
Definition vsum (n : nat) (vs : list (list R)) : list R := fold_left (fun acc v => zipl radd acc v) vs (repeat 0 n).
Lemma zipl_add_nth (a b : list R) i : length a = length b -> nth i (zipl radd a b) 0 = nth i a 0 + nth i b 0.
Proof.
  revert b i; induction a as [|x a IH]; intros [|y b] [|i] H; try discriminate H; cbn [zipl nth]; auto; try ring.
Qed.
Lemma zipl_rlin n F (a b : list R) : rlin n F -> length a = n -> length b = n -> F (zipl radd a b) = F a + F b.
Proof.
  intros [w Hw] Ha Hb. rewrite !Hw by (rewrite ?zipl_length; auto). rewrite <- sumn_add. apply sumn_ext. intros r Hr.
  rewrite zipl_add_nth by congruence. ring.
Qed.
Lemma rlin_zero n F : rlin n F -> F (repeat 0 n) = 0.
Proof.
  intros [w Hw]. rewrite Hw by apply repeat_length. apply sumn_0. intros i _. rewrite nth_repeat. ring.
Qed.
Lemma vsum_length n vs : length (vsum n vs) = n.
Proof.
  unfold vsum. assert (forall acc : list R, length (fold_left (fun acc v => zipl radd acc v) vs acc) = length acc) as H.
  { induction vs as [|v vs IH]; intros acc; auto. cbn [fold_left]. rewrite IH, zipl_length. auto. }
  rewrite H, repeat_length. auto.
Qed.
Lemma fold_hom {A B} (h : A -> B) (P : A -> Prop) (f : A -> A -> A) (g : B -> B -> B) (l : list A) (a : A) :
  (forall x y, P x -> P y -> P (f x y) /\ h (f x y) = g (h x) (h y)) -> P a -> Forall P l ->
  fold_left g (map h l) (h a) = h (fold_left f l a).
Proof.
  intros H. revert a; induction l as [|x l IH]; intros a Ha Hl; auto. cbn [map fold_left]. inversion Hl as [|? ? Hx Hl']. subst.
  destruct (H a x Ha Hx) as [H1 H2]. rewrite <- H2. apply IH; auto.
Qed.
Lemma vsum_evaluations n nv M r0 r1 gs : (n <= 2 ^ nv)%nat -> length r0 = nv -> length r1 = nv -> Forall (fun g => length g = n) gs -> gs <> [] ->
  sum_vo (map (evaluations M r0 r1) gs) = Ok (evaluations M r0 r1 (vsum n gs)).
Proof.
  intros Hn H0 H1 Hg Hne. unfold sum_vo. destruct gs as [|g gs']; [congruence|]. set (gs := g :: gs') in *.
  assert (forall v, length (evaluations M r0 r1 v) = S (length M)) as LE by (intros; unfold evaluations; cbn [length]; rewrite map_length; auto).
  change (index (map (evaluations M r0 r1) gs) 0) with (Ok (evaluations M r0 r1 g)). cbn [bind]. rewrite LE.
  assert (forallb (fun v => (length v <=? S (length M))%nat) (map (evaluations M r0 r1) gs) = true) as ->.
  { apply forallb_forall. intros v Hv. apply in_map_iff in Hv as (w & <- & _). rewrite LE. apply Nat.leb_refl. }
  f_equal. unfold vsum.
  assert (repeat (0, 0) (S (length M)) = evaluations M r0 r1 (repeat 0 n)) as ->.
  { unfold evaluations. cbn [repeat]. f_equal.
    - rewrite !(rlin_zero n) by (apply (rlin_open (p := p)); rewrite ?H0, ?H1; auto). auto.
    - clear - PL. induction M as [|m M IH]; auto. cbn [length repeat map]. rewrite !(rlin_zero n) by apply (rlin_open_mul (p := p)). f_equal; auto. }
  apply (fold_hom (evaluations M r0 r1) (fun v => length v = n)); auto; [|apply repeat_length].
  intros x y Hx Hy. split; [rewrite zipl_length; auto|]. unfold evaluations. cbn [zipl]. f_equal.
  - unfold add2. cbn [fst snd]. rewrite !(zipl_rlin n) by (auto; apply (rlin_open (p := p)); rewrite ?H0, ?H1; auto). auto.
  - clear - PL Hx Hy. induction M as [|m M IH]; auto. cbn [map zipl]. unfold add2 at 1. cbn [fst snd].
    rewrite !(zipl_rlin n) by (auto; apply (rlin_open_mul (p := p))). f_equal; auto.
Qed.
Lemma vsum_commit A n gs cs : wf_ajtai A -> a_ncols A = n -> Forall (fun g => length g = n) gs -> Forall2 (fun g c => commit A g = Ok c) gs cs ->
  commit A (vsum n gs) = Ok (fold_left (fun acc c => zipl radd acc c) cs (repeat 0 (kappa A))).
Proof.
  intros WA HA Hg HC. set (h := fun v => map (fun row => sumn n (fun r => nth r row 0 * nth r v 0)) (a_rows A)).
  assert (cs = map h gs) as ->.
  { clear - PL WA HA Hg HC. induction HC as [|g c gs cs E _ IH]; auto. inversion Hg as [|? ? Hg1 Hg2]. subst x l. cbn [map]. f_equal; auto.
    destruct (commit_rlin (p := p) A n g WA HA Hg1) as [_ E']. rewrite E' in E. apply ok_inj in E. auto. }
  destruct (commit_rlin (p := p) A n (vsum n gs) WA HA (vsum_length n gs)) as [_ ->]. f_equal. fold (h (vsum n gs)). unfold vsum.
  assert (repeat 0 (kappa A) = h (repeat 0 n)) as ->.
  { unfold h, kappa. clear - PL. induction (a_rows A) as [|row rows IH]; auto. cbn [length repeat map]. f_equal; auto. symmetry. apply sumn_0. intros i _. rewrite nth_repeat. ring. }
  symmetry. apply (fold_hom h (fun v => length v = n)); auto; [|apply repeat_length].
  intros x y Hx Hy. split; [rewrite zipl_length; auto|]. unfold h. clear - PL Hx Hy. induction (a_rows A) as [|row rows IH]; auto. cbn [map zipl]. f_equal; auto.
  rewrite <- sumn_add. apply sumn_ext. intros r Hr. rewrite zipl_add_nth by congruence. ring.
Qed.

Theorem mlin_complete lins pp A M nv (ts : T) : cm_setting (p := p) (map lb_f lins) A (pl_dec pp) nv M -> pl_kappa pp = kappa A ->
  exists g x proof ts' (ro0 ro1 : list K) x', mlin lins pp A M ts = Ok (g, x, proof, ts') /\ cm_verify proof M ts = Ok (x', ts') /\
    length ro0 = nv /\ length ro1 = nv /\ length g = (2 ^ nv)%nat /\ commit A g = Ok (l2_cm x) /\
    l2_ro x = combine (map emb ro0) (map emb ro1) /\ l2_vo x = evaluations M ro0 ro1 g /\
    exists insts s s' gs (tsa tsb : T), map ri_f insts = map lb_f lins /\ Forall (cm_inst ri_f A (pl_dec pp) (2 ^ nv)) insts /\
      cm_challenges (rp_k (pl_dec pp)) tsa = Ok (s, s', tsb) /\ length s = 3%nat /\ length s' = rp_k (pl_dec pp) /\
      Forall2 (folded (2 ^ nv) s s') insts gs /\ g = vsum (2 ^ nv) gs.
Proof.
  intros HS Hk. destruct (cm_setting_complete (p := p) (fun c => c) _ A (pl_dec pp) nv M ts HS) as (insts & s & s' & ro0 & ro1 & gs & x & proof & ts' & hon & C).
  { intros c Hc. auto. }
  cbv zeta in C. destruct C as (C1 & C2 & C3 & C4 & C5 & C6 & C7 & C8 & C9 & C10 & C11 & C12 & C13 & C14 & C15 & C16 & C17). rewrite cm_prove_with_id in C7.
  destruct HS as [H1 H2 H3 H4 H5 H6 H7 H8 H9 H10 H11 H12 H13 H14 H15].
  assert (Forall (fun g => length g = (2 ^ nv)%nat) gs) as Lg.
  { clear - C9. induction C9 as [|i g insts gs [E _] _ IH]; auto. }
  assert (length gs = length lins) as LL.
  { assert (length insts = length gs) by (clear - C9; induction C9; cbn [length]; congruence). rewrite map_length in C15. congruence. }
  destruct lins as [|l0 lins']; [cbn in H10; lia|]. set (lins := l0 :: lins') in *.
  assert (length (lb_f l0) = (2 ^ nv)%nat) as Hl0 by (unfold lins in H14; cbn [map] in H14; apply (Forall_inv H14)).
  assert (gs <> []) as Hne by (intros ->; discriminate LL).
  assert ((2 ^ nv <= 2 ^ nv)%nat) as Hle by auto.
  pose proof (vsum_evaluations (2 ^ nv) nv M ro0 ro1 gs Hle C5 C6 Lg Hne) as EV.
  assert (commit A (vsum (2 ^ nv) gs) = Ok (fold_left (fun acc c => zipl radd acc c) (cx_cm x) (repeat 0 (kappa A)))) as EC.
  { apply vsum_commit; auto. rewrite C14. cbv beta. rewrite <- C12. exact C13. }
  exists (vsum (2 ^ nv) gs), (LinB2X (fold_left (fun acc c => zipl radd acc c) (cx_cm x) (repeat 0 (kappa A))) (cx_ro x) (evaluations M ro0 ro1 (vsum (2 ^ nv) gs))), proof, ts', ro0, ro1, x.
  split; [|split; [exact C8|]].
  - unfold mlin. fold lins. cbv iota beta. unfold lins at 1. cbv iota. fold lins. rewrite Hl0.
    assert (mapM (fun l => from_f (lb_f l) A (pl_dec pp)) lins = Ok insts) as -> by (rewrite <- C1; clear; induction lins as [|l L IH]; auto; cbn [mapM map]; rewrite IH; auto).
    cbn [bind]. assert (ark_log2 (2 ^ nv) = nv) as -> by (unfold ark_log2; apply Nat.log2_up_pow2; lia).
    rewrite C7. cbn [bind]. rewrite C11, EV, Hk. cbn [bind]. reflexivity.
  - cbn [l2_cm l2_ro l2_vo]. split; [auto|]. split; [auto|]. split; [apply vsum_length|]. split; [auto|]. split; [auto|]. split; [auto|].
    destruct C3 as (C3 & tsa & tsb & C3'). exists insts, s, s', gs, tsa, tsb. repeat (split; [assumption|]). auto.
Qed.
End Fold.

Section Whole.
Context {K R T : Type} {PO : POps K R} {TO : TransOps T R K} {p : Z} {PL : PLaws K R p}.

(** An accumulated instance is true: its commitment and its evaluations are those of its witness,
    whose coefficients are small. *)
Definition true_linb (A : ajtai R) (M : list (smat R)) (nv : nat) (B : Z) (l : linb R) : Prop :=
  length (lb_f l) = (2 ^ nv)%nat /\ within B (lb_f l) /\ commit A (lb_f l) = Ok (lb_cm l) /\
  exists r0 r1 : list K, length r0 = nv /\ length r1 = nv /\ lb_r l = combine (map emb r0) (map emb r1) /\
    lb_v l = evaluations M r0 r1 (lb_f l).
(** A committed R1CS instance to be folded in. *)
Definition comp_ok (nv : nat) (c : com_r1cs R) : Prop :=
  length (cr_f c) = (2 ^ nv)%nat /\ r1cs_wf (2 ^ nv) nv (cr_r1cs c) /\ r1cs_holds (cr_r1cs c) (cr_f c).

Lemma ark_log2_pow2 nv : ark_log2 (2 ^ nv) = nv.
Proof. unfold ark_log2. apply Nat.log2_up_pow2. lia. Qed.
Lemma ark_log2_pow2_pad nv : ark_log2 (next_pow2 (2 ^ nv)) = nv.
Proof. rewrite next_pow2_pow2. apply ark_log2_pow2. Qed.
Lemma linearize_all nv comps (ts : T) : (1 <= nv)%nat -> char_gt K 3 -> Forall (comp_ok nv) comps ->
  exists ls bs ts', mapT (fun c ts => do x <- linearize c ts; let '(lb, lp, ts) := x in Ok ((lb, lp), ts)) comps ts = Ok (ls, ts') /\
    mapT lin_verify (map snd ls) ts = Ok (bs, ts') /\ map (fun x => lb_f (fst x)) ls = map cr_f comps.
Proof.
  intros Hnv Hc HF. revert ts; induction HF as [|c comps (H1 & H2 & H3) HF IH]; intros ts.
  { exists [], [], ts. auto. }
  destruct (linearize_complete (p := p) c ts (2 ^ nv) nv H1) as (ro & prf & ts1 & L1 & L2 & L3); auto.
  { symmetry. apply ark_log2_pow2_pad. }
  destruct (IH ts1) as (ls & bs & ts2 & I1 & I2 & I3). cbn [mapT]. rewrite L2. cbn [bind]. rewrite I1. cbn [bind].
  eexists (_ :: ls), (_ :: bs), ts2. split; [reflexivity|]. cbn [map snd mapT]. rewrite L3. cbn [bind]. rewrite I2. cbn [bind].
  split; [reflexivity|]. cbn [fst lb_f]. f_equal. exact I3.
Qed.

(** [folds_to acc A M pp comps ts g]: the witness the prover's run folds everything into. *)
Definition folds_to (acc : list (linb R)) (A : ajtai R) (M : list (smat R)) (pp : plus_params) (comps : list (com_r1cs R)) (ts : T) (g : list R) : Prop :=
  exists ls ts1 x proof ts2, mapT (fun c ts => do x <- linearize c ts; let '(lb, lp, ts) := x in Ok ((lb, lp), ts)) comps ts = Ok (ls, ts1) /\
    mlin (acc ++ map fst ls) pp A M ts1 = Ok (g, x, proof, ts2).

Theorem plus_complete acc A M pp comps nv (ts : T) :
  cm_setting (p := p) (map lb_f acc ++ map cr_f comps) A (pl_dec pp) nv M -> pl_kappa pp = kappa A ->
  Forall (comp_ok nv) comps -> (2 <= pl_B pp)%Z -> (pl_B pp < p)%Z ->
  exists g, folds_to acc A M pp comps ts g /\
    (within (pl_B pp ^ 2) g -> exists proof lb0 lb1 ts',
       plus_prove acc A M pp comps ts = Ok (proof, [lb0; lb1], ts') /\ plus_verify M pp proof ts = Ok (true, ts') /\
       true_linb A M nv (pl_B pp) lb0 /\ true_linb A M nv (pl_B pp) lb1 /\
       (forall i, nth i g 0 = nth i (lb_f lb0) 0 + rofZ (pl_B pp) * nth i (lb_f lb1) 0)).
Proof.
  intros HS Hk HC HB HBp. pose proof HS as [H1 H2 H3 H4 H5 H6 H7 H8 H9 H10 H11 H12 H13 H14 H15].
  destruct (linearize_all nv comps ts H1 H2 HC) as (ls & bs & ts1 & L1 & L2 & L3).
  assert (cm_setting (p := p) (map lb_f (acc ++ map fst ls)) A (pl_dec pp) nv M) as HS'.
  { rewrite map_app, map_map, L3. exact HS. }
  destruct (mlin_complete (p := p) (acc ++ map fst ls) pp A M nv ts1 HS' Hk) as (g & x & cmp & ts2 & ro0 & ro1 & x' & M1 & M2 & M3 & M4 & M5 & M6 & M7 & M8 & _).
  exists g. split. { exists ls, ts1, x, cmp, ts2. auto. }
  intros HW. assert (Forall (fun m : smat R => wf_mat (2 ^ nv) m /\ (length (m_coeffs m) <= 2 ^ nv)%nat) M) as HM.
  { eapply Forall_impl; [|exact H15]. intros m (? & ? & ?). auto. }
  assert (1 <= 2 ^ nv)%nat as Hn by (pose proof (Nat.pow_nonzero 2 nv); lia).
  destruct (decompose_complete (p := p) g ro0 ro1 M A (pl_B pp) (2 ^ nv) nv H5 H6 (eq_sym (ark_log2_pow2 nv)) Hn M5 M3 M4 HM HB HBp HW)
    as (F0 & F1 & C0 & C1 & d & D1 & D2 & D3 & D4 & D5 & D6 & D7 & D8 & D9).
  eexists _, _, _, ts2. split; [|split; [|split; [|split]]].
  - unfold plus_prove. rewrite L1. cbn [bind]. rewrite M1. cbn [bind]. rewrite M7, D1. cbn [bind]. reflexivity.
  - unfold plus_verify. cbn [pp_l pp_cm pp_d pp_x]. rewrite L2. cbn [bind]. rewrite M2. cbn [unwrap bind]. rewrite M8, (D9 _ M6). reflexivity.
  - unfold true_linb. cbn [lb_f lb_cm lb_r lb_v]. split; [auto|]. split; [auto|]. split; [auto|]. exists ro0, ro1. auto.
  - unfold true_linb. cbn [lb_f lb_cm lb_r lb_v]. split; [auto|]. split; [auto|]. split; [auto|]. exists ro0, ro1. auto.
  - cbn [lb_f]. exact D6.
Qed.

Lemma within_all c f : (p - 1 <= c)%Z -> within c f.
Proof.
  intros Hc. unfold within. apply Forall_forall. intros x _. apply Forall_forall. intros a _. pose proof (psigned_bound (p := p) a). lia.
Qed.

(** Repeated folding: the accumulator of one call is the next call's (plus.rs 77-108, [self.acc]). *)
Fixpoint plus_chain (acc : list (linb R)) (A : ajtai R) (M : list (smat R)) (pp : plus_params) (steps : list (list (com_r1cs R))) (ts : T)
  : result (list (plus_proof K R) * list (linb R) * T) :=
  match steps with
  | [] => Ok ([], acc, ts)
  | comps :: steps' => do x <- plus_prove acc A M pp comps ts; let '(prf, acc1, ts1) := x in
                       do y <- plus_chain acc1 A M pp steps' ts1; let '(ps, acc2, ts2) := y in Ok (prf :: ps, acc2, ts2)
  end.
Fixpoint verify_chain (M : list (smat R)) (pp : plus_params) (ps : list (plus_proof K R)) (ts : T) : result (bool * T) :=
  match ps with
  | [] => Ok (true, ts)
  | prf :: ps' => do x <- plus_verify M pp prf ts; let '(b, ts1) := x in
                do y <- verify_chain M pp ps' ts1; let '(b', ts2) := y in Ok (b && b', ts2)
  end.
Definition small_comp (P : rparams) (nv : nat) (c : com_r1cs R) : Prop := comp_ok nv c /\ within (rp_b P ^ Z.of_nat (rp_k P)) (cr_f c).

Lemma cm_setting_other fs fs' A P nv M : cm_setting (p := p) fs A P nv M -> (2 <= length fs' * rp_k P)%nat ->
  Forall (fun f => length f = (2 ^ nv)%nat /\ within (rp_b P ^ Z.of_nat (rp_k P)) f) fs' -> cm_setting (p := p) fs' A P nv M.
Proof. intros [H1 H2 H3 H4 H5 H6 H7 H8 H9 H10 H11 H12 H13 H14 H15] H H'. split; auto. Qed.

Theorem plus_chain_complete A M pp nv fs steps (ts : T) acc :
  cm_setting (p := p) fs A (pl_dec pp) nv M -> pl_kappa pp = kappa A -> (2 <= pl_B pp)%Z -> (pl_B pp < p)%Z ->
  (p - 1 <= pl_B pp ^ 2)%Z -> (pl_B pp <= rp_b (pl_dec pp) ^ Z.of_nat (rp_k (pl_dec pp)))%Z ->
  Forall (true_linb A M nv (pl_B pp)) acc -> Forall (Forall (small_comp (pl_dec pp) nv)) steps ->
  (2 <= (length acc + length (hd [] steps)) * rp_k (pl_dec pp))%nat ->
  exists ps acc' ts', plus_chain acc A M pp steps ts = Ok (ps, acc', ts') /\ verify_chain M pp ps ts = Ok (true, ts') /\
    length ps = length steps /\ Forall (true_linb A M nv (pl_B pp)) acc'.
Proof.
  intros HS Hk HB HBp Hall Hcap. revert acc ts; induction steps as [|comps steps IH]; intros acc ts Hacc Hst H2.
  { exists [], acc, ts. auto. }
  inversion Hst as [|? ? Hc Hst']. subst x l. cbn [hd] in H2.
  assert (cm_setting (p := p) (map lb_f acc ++ map cr_f comps) A (pl_dec pp) nv M) as HS'.
  { apply (cm_setting_other fs); auto.
    - rewrite app_length, !map_length. auto.
    - apply Forall_app. split; apply Forall_map.
      + eapply Forall_impl; [|exact Hacc]. intros l (E1 & E2 & _). split; auto. unfold within in *. eapply Forall_impl; [|exact E2].
        intros z Hz. eapply Forall_impl; [|exact Hz]. intros a Ha. cbv beta in Ha. lia.
      + eapply Forall_impl; [|exact Hc]. intros c [(E1 & _) E2]. auto. }
  assert (Forall (comp_ok nv) comps) as Hc' by (eapply Forall_impl; [|exact Hc]; intros c [? _]; auto).
  destruct (plus_complete acc A M pp comps nv ts HS' Hk Hc' HB HBp) as (g & _ & P).
  destruct (P (within_all _ g Hall)) as (prf & lb0 & lb1 & ts1 & P1 & P2 & P3 & P4 & _).
  destruct (IH [lb0; lb1] ts1) as (ps & acc' & ts' & I1 & I2 & I3 & I4); auto.
  { cbn [length]. pose proof (cs_k _ _ _ _ _ HS). nia. }
  exists (prf :: ps), acc', ts'. cbn [plus_chain verify_chain length]. rewrite P1. cbn [bind]. rewrite I1, P2. cbn [bind]. rewrite I2. cbn [bind andb].
  auto.
Qed.
End Whole.

Section Gadget.
Context {K R T : Type} {PO : POps K R} {TO : TransOps T R K} {p : Z} {PL : PLaws K R p}.
Add Ring Rring52 : (@rlaws_th R _ (pl_R (p := p))).

Lemma pgadget_length b k (z : list R) : length (pgadget b k z) = (length z * k)%nat.
Proof. apply flat_map_length. intros. apply pdecompose_length. Qed.
Lemma mz_row (M : smat R) (z : list R) i : Forall (fun vc => (snd vc < length z)%nat) (nth i (m_coeffs M) []) ->
  mz M z i = lsum (map (fun vc => fst vc * nth (snd vc) z 0) (nth i (m_coeffs M) [])).
Proof. intros H. symmetry. exact (row_entries _ _ H). Qed.
Lemma gadget_nth b k (z : list R) c : (2 <= b)%Z -> within (b ^ Z.of_nat k) z -> (c < length z)%nat ->
  sumn k (fun i => rofZ (b ^ Z.of_nat i)%Z * nth (c * k + i) (pgadget b k z) 0) = nth c z 0.
Proof.
  intros Hb HW Hc. unfold within in HW. rewrite Forall_forall in HW. rewrite <- (pdec_exact (p := p) b k (nth c z 0) Hb (HW _ (nth_In _ 0 Hc))).
  apply sumn_ext. intros i Hi. unfold pgadget. rewrite (nth_flat_map _ _ _ _ _ 0) by (auto using pdecompose_length).
  rewrite <- (rofZ_pow (L := fld_laws (FieldLaws := pl_K (p := p)))), (hom_ofZ _ emb_hom). reflexivity.
Qed.
Lemma nth_m_gadget b k (M : smat R) i : nth i (m_coeffs (sm_gadget b k M)) [] =
  flat_map (fun vc => map (fun i => (fst vc * rofZ (b ^ Z.of_nat i)%Z, (snd vc * k + i)%nat)) (seq 0 k)) (nth i (m_coeffs M) []).
Proof.
  unfold sm_gadget. cbn [m_coeffs]. destruct (Nat.lt_ge_cases i (length (m_coeffs M))) as [Hi|Hi].
  - rewrite (nth_map_lt _ _ _ []) by auto. reflexivity.
  - rewrite !nth_overflow by (rewrite ?map_length; auto). reflexivity.
Qed.
Lemma gadget_row_range k n (row : list (R * nat)) b : Forall (fun vc => (snd vc < n)%nat) row ->
  Forall (fun vc => (snd vc < n * k)%nat) (flat_map (fun vc => map (fun i => (fst vc * rofZ (b ^ Z.of_nat i)%Z, (snd vc * k + i)%nat)) (seq 0 k)) row).
Proof.
  intros H. apply Forall_forall. intros y Hy. apply in_flat_map in Hy as (vc & Hvc & Hy). apply in_map_iff in Hy as (i & <- & Hi). apply in_seq in Hi.
  rewrite Forall_forall in H. specialize (H _ Hvc). cbn [snd]. nia.
Qed.
Lemma wf_gadget b k n (M : smat R) : wf_mat n M -> wf_mat (n * k) (sm_gadget b k M).
Proof.
  intros (H1 & H2 & H3). unfold sm_gadget, wf_mat. cbn [m_ncols m_nrows m_coeffs]. rewrite map_length. split; [congruence|]. split; [auto|].
  apply Forall_map. eapply Forall_impl; [|exact H3]. intros row Hr. apply gadget_row_range. auto.
Qed.
Lemma wf_mat_row n (M : smat R) i : wf_mat n M -> Forall (fun vc => (snd vc < n)%nat) (nth i (m_coeffs M) []).
Proof.
  intros (H1 & H2 & H3). destruct (Nat.lt_ge_cases i (length (m_coeffs M))) as [Hi|Hi].
  - rewrite Forall_forall in H3. apply H3, nth_In. auto.
  - rewrite nth_overflow by auto. auto.
Qed.
Lemma gadget_mz b k n (M : smat R) z i : (2 <= b)%Z -> length z = n -> wf_mat n M -> within (b ^ Z.of_nat k) z ->
  mz (sm_gadget b k M) (pgadget b k z) i = mz M z i.
Proof.
  intros Hb Hz WM HW. pose proof (wf_mat_row n M i WM) as Hrow.
  rewrite mz_row by (rewrite nth_m_gadget, pgadget_length, Hz; apply gadget_row_range; auto).
  rewrite mz_row by (rewrite Hz; auto). rewrite nth_m_gadget. revert Hrow. generalize (nth i (m_coeffs M) []). intros row Hrow.
  induction Hrow as [|[v c] row Hc Hrow IH]; auto. cbn [flat_map]. rewrite map_app, lsum_app, IH. cbn [map fst snd] in *.
  rewrite map_map. cbn [fst snd]. rewrite lsum_map_seq, (lsum_cons (R := R)). f_equal.
  rewrite <- (gadget_nth b k z c) by (auto; rewrite Hz; auto). rewrite <- sumn_mul_l. apply sumn_ext. intros j Hj. ring.
Qed.
Theorem gadget_r1cs rc z n b k : (2 <= b)%Z -> Forall (wf_mat (length z)) (r1cs_mats rc) -> within (b ^ Z.of_nat k) z ->
  (r1cs_holds (r1cs_decomposed_square rc n b k) (pgadget b k z) <-> r1cs_holds rc z).
Proof.
  intros Hb HM HW. unfold r1cs_holds, r1cs_decomposed_square. cbn [r_A r_B r_C]. unfold r1cs_mats in HM.
  inversion_clear HM as [|? ? HA HM']. inversion_clear HM' as [|? ? HB HM'']. inversion_clear HM'' as [|? ? HC _].
  split; intros H i; specialize (H i); rewrite !mz_pad_rows in *; rewrite !(gadget_mz b k (length z)) in * by auto; auto.
Qed.
Lemma gadget_comp_ok rc z nv b k A l_in c : (2 <= b)%Z -> Forall (wf_mat (length z)) (r1cs_mats rc) ->
  Forall (fun M => (length (m_coeffs M) <= 2 ^ nv)%nat) (r1cs_mats rc) -> within (b ^ Z.of_nat k) z -> (length z * k = 2 ^ nv)%nat ->
  r1cs_holds rc z -> com_r1cs_new (r1cs_decomposed_square rc (2 ^ nv) b k) z l_in b k A = Ok c -> comp_ok nv c.
Proof.
  intros Hb HM HL HW Hn HS. unfold com_r1cs_new. destruct (dm_mul_vec A (pgadget b k z)) as [cm|e|] eqn:E; cbn [bind]; intros H; try discriminate H. apply ok_inj in H. subst c.
  unfold comp_ok. cbn [cr_f cr_r1cs]. split; [rewrite pgadget_length; auto|]. split.
  - assert (forall M, wf_mat (length z) M -> (length (m_coeffs M) <= 2 ^ nv)%nat ->
      wf_mat (2 ^ nv) (pad_rows (2 ^ nv) (sm_gadget b k M)) /\ (length (m_coeffs (pad_rows (2 ^ nv) (sm_gadget b k M))) <= 2 ^ nv)%nat) as H.
    { intros M W L. split. { apply wf_pad_rows. rewrite <- Hn. apply wf_gadget. auto. }
      unfold pad_rows. destruct (Nat.ltb_spec (m_nrows (sm_gadget b k M)) (2 ^ nv)); cbn [m_coeffs]; rewrite ?app_length, ?repeat_length;
        assert (length (m_coeffs (sm_gadget b k M)) = length (m_coeffs M)) as -> by (unfold sm_gadget; cbn [m_coeffs]; apply map_length); lia. }
    unfold r1cs_wf, r1cs_mats, r1cs_decomposed_square in *. cbn [r_A r_B r_C].
    inversion_clear HM as [|? ? HA HM']. inversion_clear HM' as [|? ? HB HM'']. inversion_clear HM'' as [|? ? HC _].
    inversion_clear HL as [|? ? LA HL']. inversion_clear HL' as [|? ? LB HL'']. inversion_clear HL'' as [|? ? LC _].
    repeat apply Forall_cons; auto.
  - apply gadget_r1cs; auto.
Qed.
End Gadget.
