(** Completeness of the folding step: an honest run is accepted and the folded instance is opened by
    the folded witness. *)
From Coq Require Import String List Arith Lia ZArith Bool Ring.
From Verif Require Import Prelude Alg Poly MLE MLE_Proofs Transcript Interp Sumcheck Sumcheck_Proofs CombDeg
  Arith Arith_Proofs Balanced Rings Rings_Proofs Linearization Linearization_Proofs Relations LinRel
  Decomposition_Proofs Folding Folding_Comb Folding_Proofs.
Import ListNotations.
Local Open Scope rs_scope.

Section Run.
Context {F K C R T : Type} {SO : SOps F K C R} {p : Z} {SL : SLaws F K C R p} {TO : TransOps T R K} {HO : ShortOps T C}.
Add Ring Rring21 : (@rlaws_th R _ _).
Add Ring Kring21 : (@rlaws_th K _ _).
Add Ring Cring21 : (@rlaws_th C _ _).

Lemma get_small_challenges_length (ts : T) n : length (fst (get_small_challenges ts n)) = n.
Proof.
  revert ts; induction n as [|n IH]; intros ts; cbn [get_small_challenges]; auto.
  destruct (get_short_challenge ts) as [c ts1]. specialize (IH ts1).
  destruct (get_small_challenges ts1 n) as [cs ts2]. cbn [fst length] in *. lia.
Qed.
(** A value the transcript can give as a short challenge. *)
Definition drawn (c : C) : Prop := exists ts : T, c = fst (get_short_challenge ts).
Lemma get_small_challenges_drawn (ts : T) n : Forall drawn (fst (get_small_challenges ts n)).
Proof.
  revert ts; induction n as [|n IH]; intros ts; cbn [get_small_challenges]; [constructor|].
  destruct (get_short_challenge ts) as [c ts1] eqn:E. specialize (IH ts1).
  destruct (get_small_challenges ts1 n) as [cs ts2]. cbn [fst] in *. constructor; auto. exists ts. rewrite E. auto.
Qed.
(** The challenges of the folding step. *)
Lemma squeeze_abzm_spec P ts s : exists a b z m ts',
  squeeze_abzm P ts s = (map emb a, map emb b, map emb z, map emb m ++ [1], ts') /\
  length a = (2 * dp_K P)%nat /\ length b = s /\ length z = (2 * dp_K P)%nat /\ length m = (2 * dp_K P - 1)%nat.
Proof.
  unfold squeeze_abzm.
  pose proof (get_challenges_length (absorb_tag ts "alpha_s") (2 * dp_K P)) as H1. destruct (get_challenges (absorb_tag ts "alpha_s") _) as [a t1].
  pose proof (get_challenges_length (absorb_tag t1 "zeta_s") (2 * dp_K P)) as H2. destruct (get_challenges (absorb_tag t1 "zeta_s") _) as [z t2].
  pose proof (get_challenges_length (absorb_tag t2 "mu_s") (2 * dp_K P - 1)) as H3. destruct (get_challenges (absorb_tag t2 "mu_s") _) as [m t3].
  pose proof (get_challenges_length (absorb_tag t3 "beta_s") s) as H4. destruct (get_challenges (absorb_tag t3 "beta_s") _) as [b t4].
  cbn [fst] in *. exists a, b, z, m, t4. repeat split; auto.
Qed.
Lemma get_rhos_spec P ts : exists rho ts', get_rhos P ts = (rho ++ [1], map crt (rho ++ [1]), ts') /\ (length rho = (2 * dp_K P - 1)%nat /\ Forall drawn rho).
Proof.
  unfold get_rhos. pose proof (get_small_challenges_length (absorb_tag ts "rho_s") (2 * dp_K P - 1)) as H.
  pose proof (get_small_challenges_drawn (absorb_tag ts "rho_s") (2 * dp_K P - 1)) as H2.
  destruct (get_small_challenges _ _) as [rho t]. cbn [fst] in H, H2. exists rho, t. auto.
Qed.

Lemma lsum_zipw {X Y} (f : X -> Y -> R) l m dx dy n : length l = n -> length m = n ->
  lsum (zipw f l m) = sumn n (fun i => f (nth i l dx) (nth i m dy)).
Proof.
  intros Hl Hm. rewrite lsum_nth, zipw_length, Hl, Hm, Nat.min_id. apply sumn_ext. intros i Hi.
  apply nth_zipw; lia.
Qed.
Lemma claim_sum_spec P alpha zeta (cms : list (lcccs R)) :
  length alpha = (2 * dp_K P)%nat -> length zeta = (2 * dp_K P)%nat -> length cms = (2 * dp_K P)%nat ->
  claim_sum alpha zeta cms = claim_of P alpha zeta (map lc_v cms) (map lc_u cms).
Proof.
  intros H1 H2 H3. unfold claim_sum, claim_of.
  rewrite (lsum_zipw pow_sum alpha (map lc_v cms) 0 [] (2 * dp_K P)) by (rewrite ?map_length; auto).
  rewrite (lsum_zipw pow_sum zeta (map lc_u cms) 0 [] (2 * dp_K P)) by (rewrite ?map_length; auto).
  rewrite <- sumn_add. auto.
Qed.
Lemma map_repeat {A B} (f : A -> B) x n : map f (repeat x n) = repeat (f x) n.
Proof. induction n as [|n IH]; cbn [repeat map]; f_equal; auto. Qed.
Definition halves {A B} (f : A -> B) (k : nat) (l : list A) (b1 b2 : B) : Prop := map f l = repeat b1 k ++ repeat b2 k.
Lemma halves_length {A B} (f : A -> B) k l b1 b2 : halves f k l b1 b2 -> length l = (2 * k)%nat.
Proof. intros H. apply (f_equal (@length B)) in H. rewrite map_length, app_length, !repeat_length in H. lia. Qed.
Lemma eq_evals (cms : list (lcccs R)) k r1 r2 r0 : halves lc_r k cms r1 r2 -> length r1 = length r0 -> length r2 = length r0 ->
  mapM (fun c => eq_eval (lc_r c) r0) cms = Ok (repeat (eqp r0 r1) k ++ repeat (eqp r0 r2) k).
Proof.
  intros H H1 H2. rewrite <- (mapM_map (fun r => eq_eval r r0) lc_r). rewrite H.
  rewrite (mapM_ok _ (fun r => eqp r0 r)).
  - rewrite map_app, !map_repeat. auto.
  - intros r Hr. rewrite eq_eval_spec.
    assert (length r = length r0) as E. { apply in_app_iff in Hr as [Hr|Hr]; apply repeat_spec in Hr; subst; auto. }
    rewrite E, Nat.eqb_refl. f_equal. apply eqp_sym. auto.
Qed.

Lemma zipw_ext_eq {X Y Z} (f g : X -> Y -> Z) l m : (forall x y, f x y = g x y) -> zipw f l m = zipw g l m.
Proof. intros H. revert m; induction l as [|x l IH]; intros [|y m]; cbn [zipw]; f_equal; auto. Qed.

(** An honest run of both sides, up to the computation of the public output.  The only thing asked
    of the witnesses besides the claimed evaluations is that the batched range term vanishes. *)
Theorem fold_run P cs cms (ws : list (witness C R)) mzs ts t r1 r2 :
  sanity_check cs (dp_L P) = Ok tt -> (1 <= dp_K P)%nat -> (1 <= dp_b P)%nat -> (1 <= c_s cs)%nat -> char_gt K (2 * dp_b P) ->
  tables_ok (c_s cs) (2 * dp_K P) tau (map w_fhat ws) -> tables_ok (c_s cs) (2 * dp_K P) t mzs ->
  halves lc_r (dp_K P) cms r1 r2 -> length r1 = c_s cs -> length r2 = c_s cs ->
  map lc_v cms = evs2 (dp_K P) (map w_fhat ws) r1 r2 -> map lc_u cms = evs2 (dp_K P) mzs r1 r2 ->
  (forall mu i, length mu = (2 * dp_K P)%nat -> nth (2 * dp_K P - 1) mu 0 = 1 -> (i < 2 ^ c_s cs)%nat ->
    range_table (dp_b P) mu (map w_fhat ws) i = 0) ->
  exists sc rs rho ts',
    let r0 := map emb rs in
    let theta := evs (map w_fhat ws) r0 in
    let eta := evs mzs r0 in
    length rs = c_s cs /\ (length rho = (2 * dp_K P - 1)%nat /\ Forall drawn rho) /\
    fold_prove P cms ws ts cs mzs =
      (do f0 <- compute_f_0 (map crt (rho ++ [1])) ws;
       do pub <- fold_public (rho ++ [1]) (map crt (rho ++ [1])) theta cms eta cs;
       let '(v0, cm0, u0, x0) := pub in
       do lc <- public_output r0 v0 cm0 u0 x0;
       Ok (lc, wit_from_f P f0, FoldProof sc theta eta, ts')) /\
    fold_verify P cms (FoldProof sc theta eta) ts cs =
      (do pub <- fold_public (rho ++ [1]) (map crt (rho ++ [1])) theta cms eta cs;
       let '(v0, cm0, u0, x0) := pub in
       do lc <- public_output r0 v0 cm0 u0 x0;
       Ok (lc, ts')).
Proof.
  intros Hsan HK Hb Hs Hchar Hft Hzt Hhalf Hr1 Hr2 Hv Hu Hrange.
  pose proof (halves_length _ _ _ _ _ Hhalf) as Hlc.
  unfold fold_prove, fold_verify. rewrite Hsan, Hlc, Nat.eqb_refl. cbn [bind negb].
  destruct (squeeze_abzm_spec P ts (c_s cs)) as (a & b & z & m & ts1 & -> & Ha & Hbl & Hz & Hm).
  set (alpha := map emb a). set (beta := map emb b). set (zeta := map emb z). set (mu := map emb m ++ [1]).
  assert (length alpha = (2 * dp_K P)%nat) as Hla by (unfold alpha; rewrite map_length; auto).
  assert (length beta = c_s cs) as Hlb by (unfold beta; rewrite map_length; auto).
  assert (length zeta = (2 * dp_K P)%nat) as Hlz by (unfold zeta; rewrite map_length; auto).
  assert (length mu = (2 * dp_K P)%nat) as Hlm by (unfold mu; rewrite app_length, map_length; cbn [length]; lia).
  assert (nth (2 * dp_K P - 1) mu 0 = 1) as Hm1.
  { unfold mu. rewrite app_nth2; rewrite map_length; [|lia]. rewrite Hm, Nat.sub_diag. auto. }
  assert (length mzs = (2 * dp_K P)%nat) as Hlmz by apply Hzt.
  rewrite Hlmz, Nat.leb_refl. cbn [guard bind].
  destruct (fold_poly_ok P (c_s cs) (map w_fhat ws) mzs t alpha beta zeta mu (map lc_r cms) r1 r2) as
    (chM1 & chM2 & mles & Q1 & Q2 & Q3 & Hml & Hnv & Hat); auto.
  { rewrite map_length. auto. }
  { unfold halves in Hhalf. rewrite Hhalf. rewrite app_nth1 by (rewrite repeat_length; lia).
    rewrite (nth_indep _ [] r1) by (rewrite repeat_length; lia). apply nth_repeat. }
  { unfold halves in Hhalf. rewrite Hhalf. rewrite app_nth2; rewrite repeat_length; [|lia]. rewrite Nat.sub_diag.
    rewrite (nth_indep _ [] r2) by (rewrite repeat_length; lia). apply nth_repeat. }
  rewrite Q1. cbn [bind]. rewrite Q2. cbn [bind]. rewrite Q3. cbn [bind]. rewrite Hml, Nat.leb_refl. cbn [guard bind].
  destruct (sumcheck_complete ts1 mles (c_s cs) (2 * dp_b P) (fold_comb P mu)) as (sc & rs & ts2 & Hp & Hrl & _ & HV); auto.
  { lia. } { apply fold_comb_deg. auto. }
  rewrite Hp. cbn [bind]. set (r0 := map emb rs).
  assert (length r0 = c_s cs) as Hr0 by (unfold r0; rewrite map_length; auto).
  pose proof (tables_nv _ _ _ _ Hft) as Hfn. pose proof (tables_nv _ _ _ _ Hzt) as Hzn.
  assert (forall mss, Forall (Forall (fun m : mle R => mle_nv m = c_s cs)) mss ->
     mapM (fun ms => evaluate_mles_dml ms r0) mss = Ok (evs mss r0)) as Hev.
  { intros mss HF. apply mapM_ok. intros ms Hms. apply evaluate_mles_ok. rewrite Hr0. rewrite Forall_forall in HF. auto. }
  rewrite !Hev by auto. cbn [bind fp_sc fp_theta fp_eta].
  destruct (get_rhos_spec P (absorb_slices (absorb_slices ts2 (evs (map w_fhat ws) r0)) (evs mzs r0))) as (rho & ts' & Hrho & Hrhol & Hrd).
  exists sc, rs, rho, ts'. cbn zeta. fold r0. split; auto. split; [auto|]. rewrite Hrho. split; [reflexivity|].
  assert (claim_sum alpha zeta cms = cube_sum (c_s cs) (fun q => fold_comb P mu (mles_at mles q))) as ->.
  { rewrite (claim_sum_spec P) by auto.
    transitivity (cube_sum (c_s cs) (gfold P alpha beta zeta mu r1 r2 (map w_fhat ws) mzs)).
    - rewrite (gfold_sum P (c_s cs) alpha beta zeta mu r1 r2 (map w_fhat ws) mzs t) by auto.
      rewrite Hv, Hu. rewrite (mle_spec_ext _ (fun _ => 0)).
      + rewrite mle_spec_zero. ring.
      + intros i Hi. apply Hrange; auto. rewrite <- Hlb. auto.
    - unfold cube_sum. apply sumn_ext. intros i Hi. unfold gfold. rewrite Hat by (apply bits_length). auto. }
  rewrite HV. cbn [bind]. fold r0. rewrite Hat by auto.
  unfold verify_evaluation. cbn [fp_theta fp_eta]. rewrite eq_eval_spec, Hlb, Hr0, Nat.eqb_refl. cbn [bind].
  rewrite (eq_evals cms (dp_K P) r1 r2 r0) by (auto; lia). cbn [bind].
  rewrite final_check_agrees; auto.
  - cbn [bind]. rewrite (eqp_sym beta r0) by lia. unfold gvals, gpart. rewrite req_refl. cbn [bind].
    rewrite Hrho. reflexivity.
  - rewrite evs_length. apply Hft.
  - rewrite evs_length. auto.
  - unfold evs. rewrite Forall_map. eapply Forall_impl; [|apply Hft]. intros ms [HL _]. rewrite map_length. auto.
Qed.

(** ** The public output is opened by the folded witness *)
Lemma compute_f_0_lin k n rho (ws : list (witness C R)) : (1 <= k)%nat -> length rho = k -> length ws = k ->
  (forall w, In w ws -> length (w_f w) = n) ->
  exists f0, compute_f_0 rho ws = Ok f0 /\ length f0 = n /\
    is_lin k (fun i => nth i rho 0) (fun i => w_f (nth i ws (Witness [] [] [] []))) f0.
Proof.
  intros Hk Hr Hw Hn. destruct ws as [|w0 ws']; [cbn in Hw; lia|]. set (ws := w0 :: ws') in *.
  assert (length (w_f w0) = n) as E0 by (apply Hn; left; auto).
  destruct (fold_zip_lin n k rho (map w_f ws)) as [H1 H2]; auto.
  { rewrite map_length. auto. } { intros v Hv. apply in_map_iff in Hv as (w & <- & Hin). auto. }
  assert (forall l (ws1 : list (witness C R)) acc, (forall w, In w ws1 -> length (w_f w) = n) -> length acc = n ->
    fold_left (fun acc rw => zipw (fun a x => a + fst rw * x) acc (w_f (snd rw))) (combine l ws1) acc =
    fold_left cm_add (zipw (fun r v => map (rmul r) v) l (map w_f ws1)) acc) as HE.
  { induction l as [|r l IH]; intros ws1 acc H3 H4; [reflexivity|]. destruct ws1 as [|w ws1]; [reflexivity|].
    cbn [combine fold_left map zipw fst snd]. rewrite zipw_add_map by (rewrite H3 by (left; auto); auto).
    apply IH; [intros; apply H3; right; auto|]. rewrite cm_add_length. auto. }
  eexists. split; [unfold ws, compute_f_0; rewrite E0; fold ws; reflexivity|].
  rewrite HE by (auto; apply repeat_length). split; auto.
  eapply is_lin_ext; [|exact H2]. intros i Hi. cbn beta. rewrite (nth_map_lt _ _ _ (Witness [] [] [] [])) by lia. auto.
Qed.

Definition vvec (w : witness C R) (r : list R) : list R :=
  map (fun j => mle_spec (fun b => hat j (nth b (w_fc w) 0)) r) (seq 0 tau).
Definition uvec (cs : ccs R) (lc : lcccs R) (w : witness C R) (r : list R) : list R :=
  map (fun M => mle_spec (mz M (lc_x lc ++ lc_h lc :: w_ccs w)) r) (c_M cs).

Lemma sl_hom s : (s < dimN)%nat -> ring_hom (sl s : R -> K).
Proof.
  intros Hs. split; intros.
  - apply sl_0. - apply sl_1; auto. - apply sl_add. - apply sl_mul. - apply sl_opp. - apply sl_sub.
Qed.
Lemma map_sl_emb s (rs : list K) : (s < dimN)%nat -> map (sl s) (map (emb : K -> R) rs) = rs.
Proof. intros Hs. rewrite map_map. rewrite <- (map_id rs) at 2. apply map_ext. intros. apply sl_emb. auto. Qed.
(** Slots of evaluations at embedded points are evaluations in K. *)
Lemma sl_mle_spec s t (rs : list K) : (s < dimN)%nat ->
  sl s (mle_spec t (map emb rs) : R) = mle_spec (fun b => sl s (t b)) rs.
Proof. intros Hs. rewrite (hom_mle_spec (sl s) (sl_hom s Hs)). rewrite map_sl_emb by auto. auto. Qed.
Lemma flatten_vvec w rs i : (i < dimC)%nat ->
  nth i (flatten_to_coeffs (vvec w (map emb rs))) 0 = mle_spec (fun b => embFK (cf i (nth b (w_fc w) 0))) rs.
Proof.
  intros Hi. pose proof dimN_pos as HN. unfold dimC in Hi.
  pose proof (Nat.div_mod i dimN). pose proof (Nat.mod_upper_bound i dimN).
  assert (i / dimN < tau)%nat as Ht by (apply Nat.div_lt_upper_bound; lia).
  replace i with (i / dimN * dimN + i mod dimN)%nat at 1 by lia.
  rewrite flatten_nth; [|unfold vvec; rewrite map_length, seq_length; auto|lia].
  unfold vvec. rewrite (nth_seq_map (fun j => _)) by auto. rewrite sl_mle_spec by lia.
  apply mle_spec_ext. intros b Hb. rewrite sl_hat by lia. do 2 f_equal. lia.
Qed.

Lemma fold_v_ok (rhos : list C) (ws : list (witness C R)) f0 rs k :
  (1 <= k)%nat -> length rhos = k -> length ws = k ->
  is_lin k (fun i => nth i rhos 0) (fun i => w_fc (nth i ws (Witness [] [] [] []))) f0 ->
  rot_lin_combination rhos (map (fun w => vvec w (map emb rs)) ws) =
  Ok (map (fun j => mle_spec (fun b => hat j (nth b f0 0)) (map emb rs)) (seq 0 tau)).
Proof.
  intros Hk Hr Hw [_ Hlin].
  destruct (rot_lin_combination_ok rhos (map (fun w => vvec w (map emb rs)) ws)) as (v & -> & Hvl & Hv).
  { rewrite map_length. lia. } { destruct ws; [cbn in Hw; lia|discriminate]. }
  { intros th Hth. apply in_map_iff in Hth as (w & <- & _). unfold vvec. rewrite map_length, seq_length. auto. }
  f_equal. apply (list_ext 0); [rewrite map_length, seq_length; auto|]. intros t Ht. rewrite Hvl in Ht.
  rewrite (nth_seq_map (fun j => _)) by auto. apply sl_ext. intros s Hs. rewrite Hv by auto.
  rewrite sl_mle_spec by auto.
  rewrite (mle_spec_ext _ (fun b => sumn k (fun m => sumn dimC (fun i =>
     embFK (cf (t * dimN + s) (xpow i (nth m rhos 0))) * embFK (cf i (nth b (w_fc (nth m ws (Witness [] [] [] []))) 0)))))).
  - rewrite Hr. rewrite (mle_spec_sumn k (fun m b => _)). apply sumn_ext. intros m Hm.
    rewrite (mle_spec_sumn dimC (fun i b => _)). apply sumn_ext. intros i Hi.
    rewrite mle_spec_scale. rewrite (nth_map_lt _ _ _ (Witness [] [] [] [])) by lia. rewrite flatten_vvec by auto. ring.
  - intros b Hb. rewrite sl_hat by auto. rewrite Hlin, cf_sumn, (hom_sumn _ embFK_hom). apply sumn_ext. intros m Hm.
    rewrite cf_mul, (hom_sumn _ embFK_hom). apply sumn_ext. intros i Hi. rewrite (hom_mul _ embFK_hom). ring.
Qed.

Lemma last_opt_last (x : list R) : x <> [] -> last_opt x = Some (last x 0).
Proof.
  intros H. rewrite (app_removelast_last 0 H) at 1. apply last_opt_app.
Qed.

(** C31: whatever the short challenges, folding opened instances gives an opened instance. *)
Theorem fold_output P A cs cms (ws : list (witness C R)) (rho_c : list C) (rs : list K) k :
  (1 <= k)%nat -> (1 <= dp_L P)%nat -> wf_ccs cs -> (c_l cs + 1 < c_n cs)%nat -> length rs = c_s cs ->
  length rho_c = k -> length cms = k -> length ws = k ->
  Forall2 (fun lc w => opens P A cs (lc_cm lc) w /\ length (lc_x lc) = c_l cs) cms ws ->
  let r0 := map emb rs in
  exists f0 v0 cm0 u0 x0 lc,
    compute_f_0 (map crt rho_c) ws = Ok f0 /\
    fold_public rho_c (map crt rho_c) (map (fun w => vvec w r0) ws) cms (zipw (fun lc w => uvec cs lc w r0) cms ws) cs = Ok (v0, cm0, u0, x0) /\
    public_output r0 v0 cm0 u0 x0 = Ok lc /\
    lc_r lc = r0 /\ lcccs_rel P A cs lc (wit_from_f P f0) /\
    is_lin k (fun i => nth i rho_c 0) (fun i => w_fc (nth i ws (Witness [] [] [] []))) (w_fc (wit_from_f P f0 : witness C R)) /\
    is_lin k (fun i => nth i (map crt rho_c) 0) (fun i => lc_cm (nth i cms (Lcccs [] [] [] [] [] 0))) (lc_cm lc) /\
    is_lin k (fun i => nth i (map crt rho_c) 0)
      (fun i => lc_x (nth i cms (Lcccs [] [] [] [] [] 0)) ++ [lc_h (nth i cms (Lcccs [] [] [] [] [] 0))]) (lc_x lc ++ [lc_h lc]).
Proof.
  intros Hk HL Hwf Hn Hrs Hlr Hlc Hlw HF r0.
  set (dlc := Lcccs [] [] [] [] [] 0 : lcccs R). set (dw := Witness [] [] [] [] : witness C R).
  pose proof (proj2 (proj1 (Forall2_nth (fun lc w => opens P A cs (lc_cm lc) w /\ length (lc_x lc) = c_l cs) cms ws dlc dw) HF)) as Hop.
  rewrite Hlc in Hop.
  set (N := ((c_n cs - c_l cs - 1) * dp_L P)%nat).
  destruct (compute_f_0_lin k N (map crt rho_c) ws Hk) as (f0 & Hf0 & Hfl & Hflin); auto.
  { rewrite map_length. auto. }
  { intros w Hw. apply In_nth with (d := dw) in Hw as (i & Hi & <-). apply (Hop i). lia. }
  fold dw in Hflin.
  assert (is_lin k (fun i => nth i rho_c 0) (fun i => w_fc (nth i ws dw)) (map icrt f0)) as Hclin.
  { eapply is_lin_coef; [|eapply is_lin_ext; [|apply (is_lin_hom icrt icrt_hom _ _ _ _ Hflin)]].
    - intros i Hi. cbn beta. rewrite (nth_map_lt _ _ _ 0) by lia. apply icrt_crt.
    - intros i Hi. cbn beta. destruct (Hop i Hi) as [[(_ & H2 & _ & _) _ _] _]. auto. }
  assert (length f0 = a_ncols A) as Hcols.
  { destruct (Hop 0%nat) as [[_ H2 H3] _]; [lia|]. unfold commit in H3. rewrite H2 in H3. fold N in H3.
    destruct (Nat.eqb_spec N (a_ncols A)); [lia|discriminate]. }
  destruct (is_lin_commit k _ _ f0 A (fun i => lc_cm (nth i cms dlc)) Hflin Hcols) as (cm & Hcm & Hcml & Hcmlin).
  { intros i Hi. cbn beta. apply (op_cm _ _ _ _ _ (proj1 (Hop i Hi))). }
  destruct (fold_zip_lin (length cm) k (map crt rho_c) (map lc_cm cms)) as [HC1 HC2].
  { rewrite map_length. auto. } { rewrite map_length. auto. }
  { intros v Hv. apply in_map_iff in Hv as (lc & <- & Hin). apply In_nth with (d := dlc) in Hin as (i & Hi & <-).
    apply (proj1 Hcmlin i). lia. }
  assert (fold_left cm_add (zipw (fun r c => cm_scale (lc_cm c) r) (map crt rho_c) cms) (cm_zeroed (length cm)) = cm) as Ecm.
  { eapply is_lin_unique; [|exact Hcmlin|].
    - eapply is_lin_ext; [|].
      2:{ erewrite (zipw_ext_eq _ (fun r c => map (rmul r) (lc_cm c))); [|intros; apply cm_scale_comm].
          rewrite <- (zipw_map_r (fun r v => map (rmul r) v) lc_cm). exact HC2. }
      intros i Hi. cbn beta. rewrite (nth_map_lt _ _ _ dlc) by lia. auto.
    - erewrite (zipw_ext_eq _ (fun r c => map (rmul r) (lc_cm c))); [|intros; apply cm_scale_comm].
      rewrite <- (zipw_map_r (fun r v => map (rmul r) v) lc_cm). exact HC1. }
  set (xs := map (fun c : lcccs R => lc_x c ++ [lc_h c]) cms).
  set (us := zipw (fun lc w => uvec cs lc w r0) cms ws).
  destruct (fold_vecs_lin (c_l cs + 1) k (map crt rho_c) xs) as [HX1 HX2].
  { rewrite map_length. auto. } { unfold xs. rewrite map_length. auto. }
  { intros v Hv. apply in_map_iff in Hv as (lc & <- & Hin). apply In_nth with (d := dlc) in Hin as (i & Hi & <-).
    rewrite app_length. cbn [length]. rewrite (proj2 (Hop i ltac:(lia))). auto. }
  destruct (fold_vecs_lin (c_t cs) k (map crt rho_c) us) as [HU1 HU2].
  { rewrite map_length. auto. } { unfold us. rewrite zipw_length. lia. }
  { intros v Hv. apply In_nth with (d := []) in Hv as (i & Hi & <-). unfold us in *. rewrite zipw_length in Hi.
    rewrite (nth_zipw _ _ _ _ dlc dw) by lia. unfold uvec. rewrite map_length. apply Hwf. }
  set (x0 := fold_vecs (c_l cs + 1) (map crt rho_c) xs) in *. set (u0 := fold_vecs (c_t cs) (map crt rho_c) us) in *.
  assert (x0 <> []) as Hxne. { intros E. rewrite E in HX1. cbn in HX1. lia. }
  pose proof (app_removelast_last' x0 Hxne) as Ex.
  assert (is_lin k (fun i => nth i (map crt rho_c) 0) (fun i => lc_x (nth i cms dlc) ++ [lc_h (nth i cms dlc)]) x0) as HXL.
  { eapply is_lin_ext; [|exact HX2]. intros i Hi. cbn beta. unfold xs. rewrite (nth_map_lt _ _ _ dlc) by lia. auto. }
  exists f0. eexists _, cm, u0, x0, (Lcccs r0 _ cm u0 (removelast x0) (last x0 0)).
  split; [auto|]. split.
  { unfold fold_public. unfold r0. rewrite (fold_v_ok rho_c ws (map icrt f0) rs k) by auto. cbn [bind].
    assert (match cms with [] => 0%nat | c :: _ => length (lc_cm c) end = length cm) as ->.
    { destruct cms as [|c cms']; [cbn in Hlc; lia|]. apply (proj1 Hcmlin 0%nat). lia. }
    rewrite Ecm. reflexivity. }
  split; [unfold public_output; rewrite last_opt_last by auto; reflexivity|].
  cbn [lc_r lc_cm lc_x lc_h]. split; [auto|]. split; [|split; [exact Hclin|split; [exact Hcmlin|]]].
  2:{ rewrite <- Ex. exact HXL. }
  split; cbn [lc_r lc_cm lc_x lc_h lc_v lc_u].
  - split; [apply from_f_consistent|exact Hfl|exact Hcm].
  - unfold r0. rewrite map_length. auto.
  - rewrite removelast_length. lia.
  - reflexivity.
  - eapply is_lin_unique; [exact HU2| |].
    + eapply is_lin_ext; [|apply (is_lin_map k (fun i => nth i (map crt rho_c) 0) (c_M cs)
        (fun i M => mle_spec (mz M ((lc_x (nth i cms dlc) ++ [lc_h (nth i cms dlc)]) ++ w_ccs (nth i ws dw))) r0))].
      * intros i Hi. cbn beta. unfold us. rewrite (nth_zipw _ _ _ _ dlc dw) by lia. unfold uvec.
        apply map_ext. intros M. rewrite <- app_assoc. auto.
      * intros M HM. apply is_lin_mle_mz.
        replace (removelast x0 ++ last x0 0 :: w_ccs (wit_from_f P f0 : witness C R)) with (x0 ++ w_ccs (wit_from_f P f0 : witness C R)).
        2:{ rewrite Ex at 1. rewrite <- app_assoc. auto. }
        apply is_lin_app; [exact HXL|]. cbn [wit_from_f w_ccs].
        eapply is_lin_ext; [|apply is_lin_gadget; [auto|exact Hflin]].
        intros i Hi. cbn beta. destruct (Hop i Hi) as [[(_ & _ & _ & H4) _ _] _]. auto.
    + rewrite HU1, map_length. symmetry. apply Hwf.
Qed.

(** *** Range term of honest witnesses *)
Lemma range_table_zero b mu (ws : list (witness C R)) P i s : (1 <= b)%nat -> (2 * Z.of_nat b <= p + 1)%Z ->
  length mu = length ws -> Forall (wit_consistent P) ws -> Forall (wit_norm (Z.of_nat b - 1)) ws -> (i < 2 ^ s)%nat ->
  range_table b mu (map w_fhat ws) i = 0.
Proof.
  intros Hb Hbp Hl Hc Hn Hi. unfold range_table. apply sumn_0. intros k Hk. apply sumn_0. intros d Hd.
  set (dw := Witness [] [] [] [] : witness C R).
  rewrite (nth_map_lt _ _ _ dw) by lia.
  assert (In (nth k ws dw) ws) as Hin by (apply nth_In; lia).
  rewrite Forall_forall in Hc, Hn. destruct (Hc _ Hin) as (_ & _ & -> & _). specialize (Hn _ Hin).
  rewrite get_fhat_get by auto.
  assert (range_poly b (hat d (nth i (w_fc (nth k ws dw)) 0)) = 0) as ->; [|ring].
  apply range_poly_hat; auto. unfold wit_norm in Hn. rewrite Forall_forall in Hn.
  destruct (Nat.lt_ge_cases i (length (w_fc (nth k ws dw)))) as [Hlt|Hge].
  - apply Hn. apply nth_In. auto.
  - rewrite nth_overflow by auto. intros j. rewrite cf_0, signed_0. cbn. lia.
Qed.
Lemma wit_tables P (A : ajtai R) (cs : ccs R) cm (w : witness C R) : sizes_ok p P cs -> opens P A cs cm w ->
  length (w_fhat w) = tau /\ Forall (fun m => mle_nv m = c_s cs) (w_fhat w).
Proof.
  intros Hs Ho. destruct (opens_w_len P A cs cm w) as [_ Hl]; auto. { apply (so_cov _ _ _ Hs). }
  destruct (op_wit _ _ _ _ _ Ho) as (_ & _ & -> & _). split; [apply get_fhat_length|].
  apply (sizes_fhat_nv (p := p) P); auto.
Qed.
Lemma sizes_sanity P (cs : ccs R) : sizes_ok p P cs -> sanity_check cs (dp_L P) = Ok tt.
Proof.
  intros Hs. pose proof (so_n _ _ _ Hs). apply (sanity_check_spec cs (dp_L P)); [lia|]. split.
  - destruct (so_sized _ _ _ Hs) as (Hm & _). eauto.
  - rewrite <- (so_m _ _ _ Hs). apply next_pow2_ge.
Qed.
Lemma map_zipw_const {A B D} (f : A -> B -> D) (g : B -> D) l m : length l = length m ->
  (forall a b, In (a, b) (combine l m) -> f a b = g b) -> zipw f l m = map g m.
Proof.
  revert m; induction l as [|a l IH]; intros [|b m] H1 H2; try discriminate; auto.
  cbn [zipw map]. f_equal; [apply H2; left; auto|]. apply IH; [cbn in H1; lia|]. intros; apply H2; right; auto.
Qed.

(** Folding with the only demand on the witnesses that the batched range terms vanish. *)
Theorem folding_run_rel P A cs cms (ws : list (witness C R)) ts r1 r2 :
  sizes_ok p P cs -> char_gt K (2 * dp_b P) ->
  halves lc_r (dp_K P) cms r1 r2 -> Forall2 (lcccs_rel P A cs) cms ws ->
  (forall mu i, length mu = (2 * dp_K P)%nat -> nth (2 * dp_K P - 1) mu 0 = 1 -> (i < 2 ^ c_s cs)%nat ->
    range_table (dp_b P) mu (map w_fhat ws) i = 0) ->
  let mzs := zipw (fun lc w => map (Mz_mle (c_s cs) (lcccs_z lc (w_ccs w))) (c_M cs)) cms ws in
  exists lc w pf ts' rs rho,
    fold_prove P cms ws ts cs mzs = Ok (lc, w, pf, ts') /\
    fold_verify P cms pf ts cs = Ok (lc, ts') /\
    lcccs_rel P A cs lc w /\ lc_r lc = map emb rs /\
    (length rho = (2 * dp_K P - 1)%nat /\ Forall drawn rho) /\
    is_lin (2 * dp_K P) (fun i => nth i (rho ++ [1]) 0) (fun i => w_fc (nth i ws (Witness [] [] [] []))) (w_fc w).
Proof.
  intros Hs Hchar Hhalf HR Hrange mzs. pose proof (halves_length _ _ _ _ _ Hhalf) as Hlc.
  pose proof (so_b _ _ _ Hs) as Hb. pose proof (so_K _ _ _ Hs) as HK. pose proof (so_cov _ _ _ Hs) as (_ & HL & _).
  set (dlc := Lcccs [] [] [] [] [] 0 : lcccs R). set (dw := Witness [] [] [] [] : witness C R).
  destruct (proj1 (Forall2_nth (lcccs_rel P A cs) cms ws dlc dw) HR) as [Hlw Hri]. rewrite Hlc in Hlw, Hri.
  destruct (so_sized _ _ _ Hs) as (Hm & Hs1 & _).
  assert (forall i, (i < 2 * dp_K P)%nat -> lc_r (nth i cms dlc) = if (i <? dp_K P)%nat then r1 else r2) as Hr.
  { intros i Hi. unfold halves in Hhalf. rewrite <- (nth_map_lt lc_r _ _ dlc []) by lia. rewrite Hhalf.
    destruct (Nat.ltb_spec i (dp_K P)).
    - rewrite app_nth1 by (rewrite repeat_length; lia). rewrite (nth_indep _ [] r1) by (rewrite repeat_length; lia). apply nth_repeat.
    - rewrite app_nth2; rewrite repeat_length; [|lia]. rewrite (nth_indep _ [] r2) by (rewrite repeat_length; lia). apply nth_repeat. }
  assert (length r1 = c_s cs) as Hr1.
  { pose proof (lr_r _ _ _ _ _ (Hri 0%nat ltac:(lia))) as E. rewrite Hr in E by lia.
    destruct (Nat.ltb_spec 0 (dp_K P)); [auto|lia]. }
  assert (length r2 = c_s cs) as Hr2.
  { pose proof (lr_r _ _ _ _ _ (Hri (dp_K P) ltac:(lia))) as E. rewrite Hr in E by lia.
    destruct (Nat.ltb_spec (dp_K P) (dp_K P)); [lia|auto]. }
  assert (tables_ok (c_s cs) (2 * dp_K P) tau (map w_fhat ws)) as Hft.
  { split; [rewrite map_length; auto|]. rewrite Forall_map. apply Forall_forall. intros w Hw.
    apply In_nth with (d := dw) in Hw as (i & Hi & <-). apply (wit_tables P A cs (lc_cm (nth i cms dlc))); auto.
    apply (lr_open _ _ _ _ _ (Hri i ltac:(lia))). }
  assert (tables_ok (c_s cs) (2 * dp_K P) (c_t cs) mzs) as Hzt.
  { split; [unfold mzs; rewrite zipw_length; lia|]. apply Forall_forall. intros ms Hms.
    apply In_nth with (d := []) in Hms as (i & Hi & <-). unfold mzs in *. rewrite zipw_length in Hi.
    rewrite (nth_zipw _ _ _ _ dlc dw) by lia. rewrite map_length. split; [apply (so_wf _ _ _ Hs)|].
    rewrite Forall_map. apply Forall_forall. auto. }
  assert (forall i r, (i < 2 * dp_K P)%nat -> length r = c_s cs ->
    map (fun m => mle_spec (mle_get m) r) (nth i mzs []) = uvec cs (nth i cms dlc) (nth i ws dw) r) as Huv.
  { intros i r Hi Hrl. unfold mzs. rewrite (nth_zipw _ _ _ _ dlc dw) by lia. unfold uvec. rewrite map_map.
    apply map_ext. intros M. apply Mz_mle_eval. auto. }
  assert (forall i r, (i < 2 * dp_K P)%nat ->
    map (fun m => mle_spec (mle_get m) r) (nth i (map w_fhat ws) []) = vvec (nth i ws dw) r) as Hvv.
  { intros i r Hi. rewrite (nth_map_lt _ _ _ dw) by lia. apply (fhat_eval P).
    apply (op_wit _ _ _ _ _ (lr_open _ _ _ _ _ (Hri i Hi))). }
  destruct (fold_run P cs cms ws mzs ts (c_t cs) r1 r2) as (sc & rs & rho & ts' & Hrs & (Hrl & Hrd) & HP & HV); auto.
  { apply sizes_sanity. auto. } { lia. }
  { apply (list_ext []).
    - rewrite map_length. unfold evs2. rewrite app_length, !evs_length, firstn_length, skipn_length, map_length. lia.
    - intros i Hi. rewrite map_length, Hlc in Hi. rewrite (nth_map_lt _ _ _ dlc) by lia.
      rewrite nth_evs2 by (rewrite map_length; lia). rewrite Hvv by lia. rewrite (lr_v _ _ _ _ _ (Hri i Hi)), Hr by auto. auto. }
  { apply (list_ext []).
    - rewrite map_length. unfold evs2. rewrite app_length, !evs_length, firstn_length, skipn_length.
      rewrite (proj1 Hzt). lia.
    - intros i Hi. rewrite map_length, Hlc in Hi. rewrite (nth_map_lt _ _ _ dlc) by lia.
      rewrite nth_evs2 by (rewrite (proj1 Hzt); lia). rewrite Huv by (auto; destruct (i <? dp_K P)%nat; auto).
      rewrite (lr_u _ _ _ _ _ (Hri i Hi)), Hr by auto. auto. }
  cbn zeta in HP, HV. set (r0 := map emb rs) in *.
  assert (length r0 = c_s cs) as Hr0 by (unfold r0; rewrite map_length; auto).
  assert (evs (map w_fhat ws) r0 = map (fun w => vvec w r0) ws) as Eth.
  { apply (list_ext []); [rewrite evs_length, !map_length; auto|]. intros i Hi. rewrite evs_length, map_length in Hi.
    rewrite nth_evs, Hvv by lia. rewrite (nth_map_lt _ _ _ dw) by lia. auto. }
  assert (evs mzs r0 = zipw (fun lc w => uvec cs lc w r0) cms ws) as Eet.
  { apply (list_ext []); [rewrite evs_length, zipw_length, (proj1 Hzt); lia|]. intros i Hi. rewrite evs_length, (proj1 Hzt) in Hi.
    rewrite nth_evs, Huv by auto. rewrite (nth_zipw _ _ _ _ dlc dw) by lia. auto. }
  rewrite Eth, Eet in HP, HV.
  destruct (fold_output P A cs cms ws (rho ++ [1]) rs (2 * dp_K P)) as (f0 & v0 & cm0 & u0 & x0 & lc & E1 & E2 & E3 & E4 & E5 & E6 & _); auto.
  { lia. } { apply (so_wf _ _ _ Hs). } { apply (so_n _ _ _ Hs). } { rewrite app_length. cbn [length]. lia. }
  { clear - HR. induction HR as [|lc w l l' Hrel HR IH]; constructor; auto.
    split; [apply (lr_open _ _ _ _ _ Hrel)|apply (lr_x _ _ _ _ _ Hrel)]. }
  fold r0 in E2, E3, E4. rewrite E1 in HP. cbn [bind] in HP. rewrite E2 in HP, HV. cbn [bind] in HP, HV.
  rewrite E3 in HP, HV. cbn [bind] in HP, HV.
  do 6 eexists. split; [exact HP|]. split; [exact HV|]. split; [exact E5|]. split; [exact E4|]. split; [split; [exact Hrl|exact Hrd]|exact E6].
Qed.

(** C30 *)
Theorem folding_complete P A cs cms (ws : list (witness C R)) ts r1 r2 :
  sizes_ok p P cs -> char_gt K (2 * dp_b P) -> (2 * Z.of_nat (dp_b P) <= p + 1)%Z ->
  halves lc_r (dp_K P) cms r1 r2 -> Forall2 (lcccs_rel P A cs) cms ws ->
  Forall (wit_norm (Z.of_nat (dp_b P) - 1)) ws ->
  let mzs := zipw (fun lc w => map (Mz_mle (c_s cs) (lcccs_z lc (w_ccs w))) (c_M cs)) cms ws in
  exists lc w pf ts' rs rho,
    fold_prove P cms ws ts cs mzs = Ok (lc, w, pf, ts') /\
    fold_verify P cms pf ts cs = Ok (lc, ts') /\
    lcccs_rel P A cs lc w /\ lc_r lc = map emb rs /\
    (length rho = (2 * dp_K P - 1)%nat /\ Forall drawn rho) /\
    is_lin (2 * dp_K P) (fun i => nth i (rho ++ [1]) 0) (fun i => w_fc (nth i ws (Witness [] [] [] []))) (w_fc w).
Proof.
  intros Hs Hchar Hbp Hhalf HR Hn. apply (folding_run_rel P A cs cms ws ts r1 r2); auto.
  intros mu i Hmu _ Hi. pose proof (halves_length _ _ _ _ _ Hhalf) as Hlc. assert (length cms = length ws) as Hl.
  { clear - HR. induction HR; cbn [length]; auto. }
  pose proof (so_b _ _ _ Hs).
  apply (range_table_zero (dp_b P) mu ws P i (c_s cs)); auto; try lia.
  clear - HR. induction HR; constructor; auto. apply (op_wit _ _ _ _ _ (lr_open _ _ _ _ _ H)).
Qed.
End Run.
