(** Error over the short folding challenges: wrong theta or eta lead to a true output instance for few of them. *)
From Coq Require Import String List Arith Lia ZArith Bool Ring.
From Verif Require Import Prelude Alg Poly MLE MLE_Proofs Transcript Interp Sumcheck Sumcheck_Proofs
  Arith Arith_Proofs Balanced Rings Rings_Proofs Linearization Linearization_Proofs Relations LinRel
  Decomposition Decomposition_Proofs Folding Folding_Comb Folding_Proofs Folding_Complete Folding_Sound NIFS NIFS_Proofs Extract Zippel Counting Fork.
Import ListNotations.
Local Open Scope rs_scope.

Section Sys2.
Context {F K C R : Type} {SO : SOps F K C R} {p : Z} {SL : SLaws F K C R p}.
Add Ring Cring93 : (@rlaws_th C _ _).
Add Ring Rring94 : (@rlaws_th R _ _).
Add Ring Kring95 : (@rlaws_th K _ _).

(** Two challenge vectors that differ at [i] only, by an invertible element. *)
Definition unit_at (m i : nat) (rho rho' : list C) : Prop :=
  (forall k, (k <= m)%nat -> k <> i -> nth k rho' 0 = nth k rho 0) /\ exists d, d * (nth i rho' 0 - nth i rho 0) = 1.
Lemma pair_inj m i rho rho' (delta : nat -> R) : (i < m)%nat -> unit_at m i rho rho' ->
  sumn (S m) (fun k => crt (nth k rho 0) * delta k) = 0 -> sumn (S m) (fun k => crt (nth k rho' 0) * delta k) = 0 -> delta i = 0.
Proof.
  intros Hi [H1 [d Hd]] E E'.
  pose proof (sum_diffR m (fun k => crt (nth k rho' 0) * delta k) (fun k => crt (nth k rho 0) * delta k) i Hi) as Q.
  rewrite E, E' in Q. cbn beta in Q.
  assert (0 - 0 = crt (nth i rho' 0) * delta i - crt (nth i rho 0) * delta i) as Q'. { apply Q. intros k Hk Hn. rewrite H1 by (auto; lia). auto. }
  transitivity (crt (d * (nth i rho' 0 - nth i rho 0)) * delta i).
  - rewrite Hd, (hom_1 _ crt_hom). ring.
  - rewrite (hom_mul _ crt_hom), (hom_sub _ crt_hom).
    transitivity (crt d * (crt (nth i rho' 0) * delta i - crt (nth i rho 0) * delta i)); [ring|]. rewrite <- Q'. ring.
Qed.
Lemma pair_inj_K m i rho rho' (delta : nat -> nat -> K) : (i < m)%nat -> unit_at m i rho rho' ->
  (forall t, (t < dimC)%nat -> sumn (S m) (fun k => sumn dimC (fun j => delta k j * rotm (nth k rho 0) j t)) = 0) ->
  (forall t, (t < dimC)%nat -> sumn (S m) (fun k => sumn dimC (fun j => delta k j * rotm (nth k rho' 0) j t)) = 0) ->
  forall j, (j < dimC)%nat -> delta i j = 0.
Proof.
  intros Hi [H1 [d Hd]] E E' j Hj.
  assert (forall t, (t < dimC)%nat -> sumn dimC (fun j => delta i j * rotm (nth i rho' 0 - nth i rho 0) j t) = 0) as Q.
  { intros t Ht. pose proof (sum_diffK m (fun k => sumn dimC (fun j => delta k j * rotm (nth k rho' 0) j t)) (fun k => sumn dimC (fun j => delta k j * rotm (nth k rho 0) j t)) i Hi) as Q.
    rewrite E, E' in Q by auto. cbn beta in Q.
    rewrite (sumn_ext dimC _ (fun j => delta i j * rotm (nth i rho' 0) j t - delta i j * rotm (nth i rho 0) j t)) by (intros; rewrite rotm_sub; ring).
    rewrite sumn_sub, <- Q; [ring|]. intros k Hk Hn. apply sumn_ext. intros. rewrite H1 by (auto; lia). auto. }
  rewrite <- (rotm_1 j (delta i)) by auto. rewrite <- Hd.
  rewrite (sumn_ext dimC _ (fun a => sumn dimC (fun t => delta i a * rotm (nth i rho' 0 - nth i rho 0) a t * rotm d t j))).
  - rewrite sumn_swap. apply sumn_0. intros t Ht. rewrite sumn_mul_r, Q by auto. ring.
  - intros a Ha. rewrite <- rotm_mul, <- sumn_mul_l. apply sumn_ext. intros. ring.
Qed.
Lemma last_inj m rho (delta : nat -> R) : nth m rho 0 = 1 -> sumn (S m) (fun k => crt (nth k rho 0) * delta k) = 0 ->
  (forall k, (k < m)%nat -> delta k = 0) -> delta m = 0.
Proof.
  intros H1 H Hd. cbn [sumn] in H. rewrite (sumn_0 m) in H by (intros i Hi; rewrite Hd by auto; ring).
  rewrite H1, (hom_1 _ crt_hom) in H. rewrite <- H. ring.
Qed.
Lemma last_inj_K m rho (delta : nat -> nat -> K) : nth m rho 0 = 1 ->
  (forall t, (t < dimC)%nat -> sumn (S m) (fun k => sumn dimC (fun j => delta k j * rotm (nth k rho 0) j t)) = 0) ->
  (forall k j, (k < m)%nat -> (j < dimC)%nat -> delta k j = 0) -> forall j, (j < dimC)%nat -> delta m j = 0.
Proof.
  intros H1 H Hd j Hj. specialize (H j Hj). cbn [sumn] in H.
  rewrite (sumn_0 m) in H by (intros a Ha; apply sumn_0; intros i Hi; rewrite Hd by auto; ring).
  rewrite H1 in H. rewrite rotm_1 in H by auto. rewrite <- H. ring.
Qed.
End Sys2.

Section Fold2.
Context {F K C R : Type} {SO : SOps F K C R} {p : Z} {SL : SLaws F K C R p}.
Add Ring Rring96 : (@rlaws_th R _ _).
Add Ring Kring97 : (@rlaws_th K _ _).
Notation dw := (Witness [] [] [] [] : witness C R).

(** The output instance is the combination of what goes in. *)
Lemma fold_pub_lin (A : ajtai R) (cs : ccs R) cms (theta eta : list (list R)) r0 m (rho : list C) lc v0 cm0 u0 x0 :
  length cms = S m -> Forall (fun c => length (lc_cm c) = kappa A /\ length (lc_x c) = c_l cs) cms ->
  length eta = S m -> Forall (fun v => length v = c_t cs) eta -> length rho = S m ->
  fold_public rho (map crt rho) theta cms eta cs = Ok (v0, cm0, u0, x0) -> public_output r0 v0 cm0 u0 x0 = Ok lc ->
  rot_lin_combination rho theta = Ok (lc_v lc) /\ lc_r lc = r0 /\
  is_lin (S m) (fun k => crt (nth k rho 0)) (fun k => lc_cm (nth k cms dlc0)) (lc_cm lc) /\
  is_lin (S m) (fun k => crt (nth k rho 0)) (fun k => nth k eta []) (lc_u lc) /\
  is_lin (S m) (fun k => crt (nth k rho 0)) (fun k => lc_x (nth k cms dlc0) ++ [lc_h (nth k cms dlc0)]) (lc_x lc ++ [lc_h lc]).
Proof.
  intros Lc Sc Le Se Lr E1 E2. rewrite Forall_forall in Sc, Se.
  unfold fold_public in E1. apply bind_ok_inv in E1 as (v0' & Ev & E1). apply ok_inj in E1. injection E1 as -> Ecm Eu Ex.
  unfold public_output in E2. apply bind_ok_inv in E2 as (h & Eh & E2). apply ok_inj in E2.
  assert (length (map (crt : C -> R) rho) = S m) as Lm by (rewrite map_length; auto).
  assert (forall k, (k < S m)%nat -> nth k (map crt rho) 0 = crt (nth k rho 0 : C)) as Nc by (intros k Hk; rewrite (nth_map_lt _ _ _ 0) by lia; auto).
  split; [rewrite <- E2; exact Ev|]. split; [rewrite <- E2; auto|]. split; [|split].
  - rewrite <- E2. cbn [lc_cm]. rewrite <- Ecm.
    replace (match cms with [] => 0%nat | c :: _ => length (lc_cm c) end) with (kappa A).
    2: { destruct cms as [|c l]; [discriminate|]. symmetry. apply Sc. left. auto. }
    rewrite (zipw_ext_eq _ (fun r c => map (rmul r) (lc_cm c))) by (intros; apply cm_scale_comm).
    rewrite <- (zipw_map_r (fun r v => map (rmul r) v) lc_cm).
    destruct (fold_zip_lin (kappa A) (S m) (map crt rho) (map lc_cm cms)) as [_ E]; auto; [rewrite map_length; auto| |].
    { intros v Hv. apply in_map_iff in Hv as (c & <- & Hc). apply Sc. auto. }
    eapply is_lin_coef; [|eapply is_lin_ext; [|exact E]]; intros k Hk; cbn beta; auto. rewrite (nth_map_lt _ _ _ dlc0) by lia. auto.
  - rewrite <- E2. cbn [lc_u]. rewrite <- Eu. destruct (fold_vecs_lin (c_t cs) (S m) (map crt rho) eta) as [_ E]; auto.
    eapply is_lin_coef; [|exact E]. intros k Hk; cbn beta; auto.
  - rewrite <- E2. cbn [lc_x lc_h].
    destruct (fold_vecs_lin (c_l cs + 1) (S m) (map crt rho) (map (fun c => lc_x c ++ [lc_h c]) cms)) as [Lx E]; auto; [rewrite map_length; auto| |].
    { intros v Hv. apply in_map_iff in Hv as (c & <- & Hc). rewrite app_length. cbn [length]. rewrite (proj2 (Sc c Hc)). auto. }
    rewrite Ex in Lx, E. assert (x0 <> []) as Hne by (intros ->; cbn [length] in Lx; lia).
    rewrite last_opt_last in Eh by auto. apply ok_inj in Eh. subst h.
    rewrite <- (app_removelast_last' x0 Hne).
    eapply is_lin_coef; [|eapply is_lin_ext; [|exact E]]; intros k Hk; cbn beta; auto. rewrite (nth_map_lt _ _ _ dlc0) by lia. auto.
Qed.

(** Component [k] of theta and eta is what the opening says. *)
Definition right_at (cs : ccs R) cms (ws : list (witness C R)) (theta eta : list (list R)) r0 (k : nat) : Prop :=
  nth k theta [] = vvec (nth k ws dw) r0 /\ nth k eta [] = uvec cs (nth k cms dlc0) (nth k ws dw) r0.
Lemma right_at_dec cs cms ws theta eta r0 k : {right_at cs cms ws theta eta r0 k} + {~ right_at cs cms ws theta eta r0 k}.
Proof.
  unfold right_at. destruct (list_eq_dec req_dec (nth k theta []) (vvec (nth k ws dw) r0)) as [E|E]; [|right; tauto].
  destruct (list_eq_dec req_dec (nth k eta []) (uvec cs (nth k cms dlc0) (nth k ws dw) r0)) as [E'|E']; [left; auto|right; tauto].
Qed.
Definition du cs cms ws (eta : list (list R)) r0 (j k : nat) : R := nth j (nth k eta []) 0 - nth j (uvec cs (nth k cms dlc0) (nth k ws dw) r0) 0.
Definition dv (ws : list (witness C R)) (theta : list (list R)) r0 (k i : nat) : K :=
  nth i (flatten_to_coeffs (nth k theta [])) 0 - nth i (flatten_to_coeffs (vvec (nth k ws dw) r0)) 0.
Lemma right_delta cs cms ws (theta eta : list (list R)) r0 k : length (nth k theta []) = tau -> length (nth k eta []) = c_t cs -> length (c_M cs) = c_t cs ->
  (forall j, du cs cms ws eta r0 j k = 0) -> (forall i, (i < dimC)%nat -> dv ws theta r0 k i = 0) -> right_at cs cms ws theta eta r0 k.
Proof.
  intros L1 L2 L3 HU HV. split.
  - apply (list_ext 0); [rewrite L1; unfold vvec; rewrite map_length, seq_length; auto|]. intros t Ht. rewrite L1 in Ht.
    apply sl_ext. intros s Hs. pose proof dimN_pos as HN.
    rewrite <- !flatten_nth by (auto; try (rewrite L1; auto); try (unfold vvec; rewrite map_length, seq_length; auto)).
    apply (proj1 (rsub_0_iff _ _)). apply (HV (t * dimN + s)%nat). unfold dimC. nia.
  - apply (list_ext 0); [unfold uvec; rewrite map_length; lia|]. intros j Hj. apply (proj1 (rsub_0_iff _ _)). apply HU.
Qed.
Lemma delta_right cs cms ws (theta eta : list (list R)) r0 k : right_at cs cms ws theta eta r0 k ->
  (forall j, du cs cms ws eta r0 j k = 0) /\ (forall i, dv ws theta r0 k i = 0).
Proof. intros [E1 E2]. unfold du, dv. rewrite E1, E2. split; intros; ring. Qed.

(** One folding whose output holds for the combination of the openings. *)
Lemma run_delta P A cs cms (theta eta : list (list R)) (rs : list K) m (rho : list C) lc v0 cm0 u0 x0 (ws : list (witness C R)) w :
  (1 <= dp_L P)%nat -> wf_ccs cs ->
  length cms = S m -> Forall (fun c => length (lc_cm c) = kappa A /\ length (lc_x c) = c_l cs) cms ->
  length theta = S m -> Forall (fun v => length v = tau) theta -> length eta = S m -> Forall (fun v => length v = c_t cs) eta -> length rho = S m ->
  fold_public rho (map crt rho) theta cms eta cs = Ok (v0, cm0, u0, x0) -> public_output (map emb rs) v0 cm0 u0 x0 = Ok lc ->
  Forall2 (fun c w => opens P A cs (lc_cm c) w) cms ws -> lcccs_rel P A cs lc w ->
  is_lin (S m) (fun k => nth k rho 0) (fun k => w_fc (nth k ws dw)) (w_fc w) ->
  (forall j, sumn (S m) (fun k => crt (nth k rho 0) * du cs cms ws eta (map emb rs) j k) = 0) /\
  (forall t, (t < dimC)%nat -> sumn (S m) (fun k => sumn dimC (fun i => dv ws theta (map emb rs) k i * rotm (nth k rho 0) i t)) = 0).
Proof.
  intros HL Hwf Lc Sc Lt St Le Se Lr E1 E2 Hop HR Lin. set (r0 := map emb rs) in *.
  destruct (fold_pub_lin A cs cms theta eta r0 m rho lc v0 cm0 u0 x0 Lc Sc Le Se Lr E1 E2) as (Ev & Er & _ & Eu & Ex).
  destruct (proj1 (Forall2_nth _ cms ws dlc0 dw) Hop) as [Lw Ow]. destruct HR as [O _ _ V U].
  assert (forall k, (k < S m)%nat -> wit_consistent P (nth k ws dw)) as Cw by (intros k Hk; apply (op_wit _ _ _ _ _ (Ow k ltac:(lia)))).
  assert (is_lin (S m) (fun k => crt (nth k rho 0)) (fun k => w_f (nth k ws dw)) (w_f w)) as LinR.
  { pose proof (is_lin_hom crt crt_hom _ _ _ _ Lin) as E. destruct (op_wit _ _ _ _ _ O) as (C1 & _). rewrite <- C1 in E.
    eapply is_lin_ext; [|exact E]. intros k Hk. cbn beta. symmetry. apply (Cw k Hk). }
  assert (is_lin (S m) (fun k => crt (nth k rho 0)) (fun k => lc_x (nth k cms dlc0) ++ lc_h (nth k cms dlc0) :: w_ccs (nth k ws dw)) (lc_x lc ++ lc_h lc :: w_ccs w)) as Hz.
  { assert (forall (a : list R) b c, a ++ b :: c = (a ++ [b]) ++ c) as AA by (intros; rewrite <- app_assoc; auto). rewrite AA.
    apply (is_lin_ext _ _ (fun k => (lc_x (nth k cms dlc0) ++ [lc_h (nth k cms dlc0)]) ++ w_ccs (nth k ws dw))); [intros k Hk; rewrite <- app_assoc; reflexivity|].
    apply is_lin_app; [exact Ex|].
    destruct (op_wit _ _ _ _ _ O) as (_ & _ & _ & C4). rewrite C4.
    eapply is_lin_ext; [|apply is_lin_gadget; [exact HL|exact LinR]]. intros k Hk. cbn beta. symmetry. apply (Cw k Hk). }
  split.
  - intros j. unfold du. apply (lin_inj (S m) _ (fun k => crt (nth k rho 0)) (fun k => nth k eta []) (fun k => uvec cs (nth k cms dlc0) (nth k ws dw) r0) (lc_u lc)); [exact Eu| |auto].
    rewrite U, Er. unfold uvec.
    apply (is_lin_map (S m) (fun k => crt (nth k rho 0)) (c_M cs) (fun k M => mle_spec (mz M (lc_x (nth k cms dlc0) ++ lc_h (nth k cms dlc0) :: w_ccs (nth k ws dw))) r0)).
    intros M _. apply is_lin_mle_mz. exact Hz.
  - intros t Ht. unfold dv. rewrite Forall_forall in St.
    rewrite (sumn_ext (S m) _ (fun k => sumn dimC (fun i => nth i (flatten_to_coeffs (nth k theta [])) 0 * rotm (nth k rho 0) i t) -
                               sumn dimC (fun i => nth i (flatten_to_coeffs (vvec (nth k ws dw) r0)) 0 * rotm (nth k rho 0) i t))).
    2: { intros k Hk. rewrite <- sumn_sub. apply sumn_ext. intros. ring. }
    rewrite sumn_sub. apply (proj2 (rsub_0_iff _ _)).
    pose proof dimN_pos as HN. unfold dimC in Ht. pose proof (Nat.div_mod t dimN ltac:(lia)) as Et. pose proof (Nat.mod_upper_bound t dimN ltac:(lia)) as Em.
    assert (t / dimN < tau)%nat as Hd by (apply Nat.div_lt_upper_bound; lia).
    destruct (rot_lin_combination_ok rho theta) as (v & Q1 & _ & Q3); [lia|destruct theta; [discriminate|discriminate]|exact St|].
    destruct (rot_lin_combination_ok rho (map (fun w => vvec w r0) ws)) as (v' & Q1' & _ & Q3').
    { rewrite map_length. lia. } { destruct ws; cbn in Lw; [lia|discriminate]. } { intros th Hth. apply in_map_iff in Hth as (w' & <- & _). unfold vvec. rewrite map_length, seq_length. auto. }
    assert (v = v') as ->.
    { rewrite Ev in Q1. apply ok_inj in Q1. rewrite <- Q1, V, Er. unfold r0 in Q1'.
      rewrite (fold_v_ok rho ws (w_fc w) rs (S m)) in Q1' by (auto; lia). apply ok_inj in Q1'. exact Q1'. }
    specialize (Q3 (t / dimN) (t mod dimN) Hd Em). specialize (Q3' (t / dimN) (t mod dimN) Hd Em). rewrite Q3 in Q3'. rewrite Lr in Q3'.
    replace (t / dimN * dimN + t mod dimN)%nat with t in Q3' by lia. unfold rotm. rewrite Q3'. apply sumn_ext. intros k Hk.
    rewrite (nth_map_lt _ _ _ dw) by lia. auto.
Qed.
End Fold2.

Section Run2.
Context {F K C R : Type} {SO : SOps F K C R} {p : Z} {SL : SLaws F K C R p} {T : Type} {TO : TransOps T R K}.
Notation dw := (Witness [] [] [] [] : witness C R).
Add Ring Cring98 : (@rlaws_th C _ _).

(** The combination of openings with the folding coefficients. *)
Definition comb_wit (P : dparams) (N : nat) (rho : list C) (ws : list (witness C R)) : witness C R :=
  wit_from_f_coeff P (map (fun b => sumn (length ws) (fun k => nth k rho 0 * nth b (w_fc (nth k ws dw)) 0)) (seq 0 N)).
Lemma comb_lin P N rho ws : (forall w, In w ws -> length (w_fc w) = N) ->
  is_lin (length ws) (fun k => nth k rho 0) (fun k => w_fc (nth k ws dw)) (w_fc (comb_wit P N rho ws)).
Proof.
  intros H. cbn [comb_wit wit_from_f_coeff w_fc]. apply is_lin_intro.
  - intros k Hk. rewrite map_length, seq_length. apply H, nth_In, Hk.
  - intros b Hb. rewrite map_length, seq_length in Hb. rewrite (nth_seq_map (fun b => _)) by auto. reflexivity.
Qed.
Lemma cms_lens P (A : ajtai R) cs cms (ws : list (witness C R)) : Forall2 (fun c w => opens P A cs (lc_cm c) w) cms ws ->
  Forall (fun c => length (lc_x c) = c_l cs) cms -> Forall (fun c => length (lc_cm c) = kappa A /\ length (lc_x c) = c_l cs) cms.
Proof.
  intros Hop. induction Hop as [|c w l l' O H IH]; intros Scx; constructor; inversion Scx; subst; auto. split; auto. pose proof (op_cm _ _ _ _ _ O) as E.
  destruct (Nat.eqb_spec (length (w_f w)) (a_ncols A)) as [Q|Q]; [|unfold commit in E; apply Nat.eqb_neq in Q; rewrite Q in E; discriminate].
  rewrite commit_ok in E by auto. apply ok_inj in E. rewrite <- E, map_length. auto.
Qed.
Lemma opens_wit_eq P A cs cm (w w' : witness C R) : opens P A cs cm w -> opens P A cs cm w' -> w_f w = w_f w' -> w = w'.
Proof.
  intros O O' E1. destruct (op_wit _ _ _ _ _ O') as (B1 & B2 & B3 & B4). destruct (op_wit _ _ _ _ _ O) as (A1 & A2 & A3 & A4).
  destruct w as [a1 a2 a3 a4]. destruct w' as [b1 b2 b3 b4]. cbn [w_f w_fc w_fhat w_ccs] in *. rewrite E1 in *. congruence.
Qed.
Lemma rhos_len (HO : ShortOps T C) P tr : (1 <= dp_K P)%nat -> length (rhos HO P tr) = S (2 * dp_K P - 1).
Proof. intros. unfold rhos. rewrite app_length, get_small_challenges_length. cbn [length]. lia. Qed.
Lemma rhos_last (HO : ShortOps T C) P tr : nth (2 * dp_K P - 1) (rhos HO P tr) 0 = 1.
Proof. unfold rhos. rewrite app_nth2; rewrite get_small_challenges_length; [|lia]. rewrite Nat.sub_diag. reflexivity. Qed.

(** An accepted folding: the combination of the openings opens the output commitment. *)
Lemma comb_opens (HO : ShortOps T C) P A cs cms (ws : list (witness C R)) pf ts tr lc ts' :
  (1 <= dp_K P)%nat -> (1 <= dp_L P)%nat -> length cms = (2 * dp_K P)%nat -> Forall (fun c => length (lc_x c) = c_l cs) cms ->
  fold_shape P cs pf -> rho_state P cms pf ts cs = Ok tr -> Forall2 (fun c w => opens P A cs (lc_cm c) w) cms ws ->
  fold_verify P cms pf ts cs = Ok (lc, ts') ->
  opens P A cs (lc_cm lc) (comb_wit P ((c_n cs - c_l cs - 1) * dp_L P) (rhos HO P tr) ws).
Proof.
  intros HK HL Lc Scx (T1 & T2 & E1 & E2) HT Hop HV. set (N := ((c_n cs - c_l cs - 1) * dp_L P)%nat). set (m := (2 * dp_K P - 1)%nat).
  destruct (fold_verify_rho _ _ _ _ _ _ _ _ _ HV HT) as (rs & s & ts2 & v0 & cm0 & u0 & x0 & _ & Q1 & Q2).
  pose proof (rhos_len HO P tr HK) as Lr. fold m in Lr.
  assert (2 * dp_K P = S m)%nat as Em by (unfold m; lia). rewrite Em in *.
  destruct (fold_pub_lin A cs cms (fp_theta pf) (fp_eta pf) (map emb rs) m (rhos HO P tr) lc v0 cm0 u0 x0) as (_ & _ & Ecm & _); auto.
  { eapply cms_lens; eauto. }
  destruct (proj1 (Forall2_nth _ cms ws dlc0 dw) Hop) as [Lw Ow].
  assert (forall w, In w ws -> length (w_fc w) = N) as Lf.
  { intros w Hw. destruct (In_nth _ _ dw Hw) as (k & Hk & <-). apply (opens_w_len P A cs (lc_cm (nth k cms dlc0)) _ HL). apply Ow. lia. }
  pose proof (comb_lin P N (rhos HO P tr) ws Lf) as Lin. set (w := comb_wit P N (rhos HO P tr) ws) in *.
  replace (length ws) with (S m) in Lin by lia.
  assert (wit_consistent P w) as Cw by apply from_f_coeff_consistent.
  assert (is_lin (S m) (fun k => crt (nth k (rhos HO P tr) 0)) (fun k => w_f (nth k ws dw)) (w_f w)) as LinR.
  { pose proof (is_lin_hom crt crt_hom _ _ _ _ Lin) as E. destruct Cw as (C1 & _). rewrite <- C1 in E.
    eapply is_lin_ext; [|exact E]. intros k Hk. cbn beta. symmetry. apply (op_wit _ _ _ _ _ (Ow k ltac:(lia))). }
  assert (length (w_f w) = N) as Lwf by (unfold w, comb_wit; cbn [wit_from_f_coeff w_f]; rewrite !map_length, seq_length; auto).
  assert (a_ncols A = N) as HA.
  { destruct (Ow 0%nat ltac:(lia)) as [_ O2 O3]. unfold commit in O3. rewrite O2 in O3. fold N in O3. destruct (Nat.eqb_spec N (a_ncols A)); [auto|discriminate]. }
  destruct (is_lin_commit (S m) _ _ (w_f w) A (fun k => lc_cm (nth k cms dlc0)) LinR) as (cm & Hcm & _ & E).
  { rewrite HA. exact Lwf. } { intros k Hk. apply (op_cm _ _ _ _ _ (Ow k ltac:(lia))). }
  split; [exact Cw|exact Lwf|]. rewrite Hcm. f_equal. destruct E as [L1 V1], Ecm as [L2 V2].
  apply (list_ext 0); [rewrite <- (L1 0%nat), <- (L2 0%nat) by lia; auto|]. intros j Hj. rewrite V1, V2. reflexivity.
Qed.

(** The openings are right about theta and eta. *)
Definition evals_right (cs : ccs R) cms (ws : list (witness C R)) pf r : Prop :=
  fp_theta pf = evs (map w_fhat ws) r /\ fp_eta pf = evs (zipw (fun c w => map (Mz_mle (c_s cs) (lcccs_z c (w_ccs w))) (c_M cs)) cms ws) r.

(** [rho_fooled HO]: the folding is accepted and its output holds for the combination of the openings, although theta or eta is wrong. *)
Definition rho_fooled P (A : ajtai R) cs cms (ws : list (witness C R)) pf (ts tr : T) (HO : ShortOps T C) : Prop :=
  exists lc ts', fold_verify P cms pf ts cs = Ok (lc, ts') /\
    lcccs_rel P A cs lc (comb_wit P ((c_n cs - c_l cs - 1) * dp_L P) (rhos HO P tr) ws) /\ ~ evals_right cs cms ws pf (lc_r lc).

(** The equations that a true output says about the errors of theta and eta, with at least one error. *)
Definition delta_bad (cs : ccs R) cms (ws : list (witness C R)) (theta eta : list (list R)) r0 m (rho : list C) : Prop :=
  (forall j, sumn (S m) (fun k => crt (nth k rho 0) * du cs cms ws eta r0 j k) = 0) /\
  (forall t, (t < dimC)%nat -> sumn (S m) (fun k => sumn dimC (fun i => dv ws theta r0 k i * rotm (nth k rho 0) i t)) = 0) /\
  exists k, (k <= m)%nat /\ ~ right_at cs cms ws theta eta r0 k.
Lemma some_wrong cs cms (ws : list (witness C R)) theta eta r0 n : ~ (forall k, (k < n)%nat -> right_at cs cms ws theta eta r0 k) ->
  exists k, (k < n)%nat /\ ~ right_at cs cms ws theta eta r0 k.
Proof.
  induction n as [|n IH]; intros H; [exfalso; apply H; lia|]. destruct (right_at_dec cs cms ws theta eta r0 n) as [G|G]; [|exists n; auto].
  destruct IH as (k & Hk & Nk); [|exists k; auto]. intros Q. apply H. intros k Hk. destruct (Nat.eq_dec k n) as [->|]; [exact G|apply Q; lia].
Qed.
Lemma fooled_delta (HO : ShortOps T C) P A cs cms (ws : list (witness C R)) pf (ts tr : T) lc ts' rs :
  let m := (2 * dp_K P - 1)%nat in
  sizes_ok p P cs -> length cms = (2 * dp_K P)%nat -> Forall (fun c => length (lc_x c) = c_l cs) cms ->
  fold_shape P cs pf -> rho_state P cms pf ts cs = Ok tr -> Forall2 (fun c w => opens P A cs (lc_cm c) w) cms ws ->
  fold_verify P cms pf ts cs = Ok (lc, ts') ->
  (let '(alpha, _, zeta, _, ts1) := squeeze_abzm P ts (c_s cs) in exists s ts2, sc_verify ts1 (c_s cs) (2 * dp_b P) (claim_sum alpha zeta cms) (fp_sc pf) = Ok (rs, s, ts2)) ->
  lcccs_rel P A cs lc (comb_wit P ((c_n cs - c_l cs - 1) * dp_L P) (rhos HO P tr) ws) -> ~ evals_right cs cms ws pf (lc_r lc) ->
  delta_bad cs cms ws (fp_theta pf) (fp_eta pf) (map emb rs) m (rhos HO P tr).
Proof.
  intros m Hsz Lc Scx (T1 & T2 & E1 & E2) HT Hop HV ES HR HN. pose proof (so_K _ _ _ Hsz) as HK. pose proof (so_cov _ _ _ Hsz) as (_ & HL & _).
  pose proof (so_wf _ _ _ Hsz) as Hwf. pose proof (cms_lens P A cs cms ws Hop Scx) as Sc.
  assert (2 * dp_K P = S m)%nat as Em by (unfold m; lia).
  destruct (proj1 (Forall2_nth _ cms ws dlc0 dw) Hop) as [Lw Ow].
  set (r0 := map emb rs : list R).
  assert (forall w, In w ws -> length (w_fc w) = ((c_n cs - c_l cs - 1) * dp_L P)%nat) as Lf.
  { intros w Hw. destruct (In_nth _ _ dw Hw) as (k & Hk & <-). apply (opens_w_len P A cs (lc_cm (nth k cms dlc0)) _ HL). apply Ow. lia. }
  destruct (fold_verify_rho _ _ _ _ _ _ _ _ _ HV HT) as (rs' & s' & ts2' & v0 & cm0 & u0 & x0 & ES' & Q1 & Q2).
  destruct (squeeze_abzm P ts (c_s cs)) as [[[[alpha beta] zeta] mu] ts1]. destruct ES as (s & ts2 & ES). rewrite ES in ES'. apply ok_inj in ES'. injection ES' as <- <- <-.
  pose proof (comb_lin P _ (rhos HO P tr) ws Lf) as Lin.
  replace (length ws) with (S m) in Lin by lia.
  destruct (run_delta P A cs cms (fp_theta pf) (fp_eta pf) rs m (rhos HO P tr) lc v0 cm0 u0 x0 ws _ HL Hwf ltac:(lia) Sc ltac:(lia) T2 ltac:(lia) E2 ltac:(apply rhos_len; auto) Q1 Q2 Hop HR Lin) as [D1 D2].
  split; [exact D1|]. split; [exact D2|].
  assert (lc_r lc = r0) as Er. { unfold public_output in Q2. apply bind_ok_inv in Q2 as (h & _ & Q). apply ok_inj in Q. rewrite <- Q. auto. }
  destruct (some_wrong cs cms ws (fp_theta pf) (fp_eta pf) r0 (S m)) as (k & Hk & Nk); [|exists k; split; [lia|exact Nk]].
  intros RA. apply HN. unfold evals_right. rewrite Er. split.
  + rewrite <- (evs_vvec P) by (apply Forall_forall; intros w Hw; destruct (In_nth _ _ dw Hw) as (k & Hk & <-); apply (op_wit _ _ _ _ _ (Ow k ltac:(lia)))).
    apply (list_ext []); [rewrite map_length; lia|]. intros k Hk. rewrite (nth_map_lt _ _ _ dw) by lia. apply RA. lia.
  + rewrite <- evs_uvec by (rewrite <- Er; apply (lr_r _ _ _ _ _ HR)).
    apply (list_ext []); [rewrite zipw_length; lia|]. intros k Hk. rewrite (nth_zipw _ _ _ _ dlc0 dw) by lia. apply RA. lia.
Qed.
Theorem delta_error {X : Type} (d0 : X) (eqX : forall a b : X, {a = b} + {a <> b}) (S0 : list X) (rho : list X -> list C)
    (cs : ccs R) cms (ws : list (witness C R)) theta eta r0 m :
  length theta = S m -> Forall (fun v => length v = tau) theta -> length eta = S m -> Forall (fun v => length v = c_t cs) eta -> length (c_M cs) = c_t cs ->
  (forall bs, nth m (rho bs) 0 = 1) ->
  (forall i bs bs', (i < m)%nat -> In bs (tuples m S0) -> In bs' (tuples m S0) -> varies d0 m i bs bs' -> unit_at m i (rho bs) (rho bs')) ->
  few (fun bs => In bs (tuples m S0) /\ delta_bad cs cms ws theta eta r0 m (rho bs)) (length S0 ^ (m - 1)).
Proof.
  intros T1 T2 E1 E2 HM H1 HU. apply few_if. intros bs0 [Hb0 (D1 & D2 & k & Hk & Nk)].
  rewrite Forall_forall in T2, E2.
  assert (forall k, (k <= m)%nat -> length (nth k theta []) = tau /\ length (nth k eta []) = c_t cs) as SH.
  { intros a Ha. split; [apply T2, nth_In; lia|apply E2, nth_In; lia]. }
  (* the wrong component is before the last one *)
  assert (exists i, (i < m)%nat /\ ~ right_at cs cms ws theta eta r0 i) as (i & Hi & Ni).
  { apply some_wrong. intros RA. destruct (Nat.eq_dec k m) as [->|]; [|apply Nk, RA; lia]. apply Nk. destruct (SH m ltac:(lia)). apply right_delta; auto.
    + intros j. apply (last_inj m (rho bs0)); [apply H1|apply D1|]. intros a Ha. apply (proj1 (delta_right _ _ _ _ _ _ _ (RA a Ha))).
    + apply (last_inj_K m (rho bs0)); [apply H1|apply D2|]. intros a j Ha _. apply (proj2 (delta_right _ _ _ _ _ _ _ (RA a Ha))). }
  rewrite <- tuples_length. apply (few_inj (drop i) _ (fun z => In z (tuples (m - 1) S0))).
  - intros bs [Hb _]. apply drop_in; auto.
  - intros bs bs' [Hb (F1 & F2 & _)] [Hb' (F1' & F2' & _)] Ed. pose proof Hb as Lb. pose proof Hb' as Lb'. apply in_tuples in Lb as [Lb _], Lb' as [Lb' _].
    destruct (drop_same d0 eqX m i bs bs' Hi Lb Lb' Ed) as [|V]; auto. exfalso. apply Ni.
    pose proof (HU i bs bs' Hi Hb Hb' V) as Hu.
    destruct (SH i ltac:(lia)). apply right_delta; auto.
    + intros j. apply (pair_inj m i _ _ _ Hi Hu (F1 j) (F1' j)).
    + apply (pair_inj_K m i _ _ _ Hi Hu F2 F2').
  - apply few_in. auto.
Qed.

Theorem rho_error {X : Type} (d0 : X) (eqX : forall a b : X, {a = b} + {a <> b}) (S0 : list X) (HO : list X -> ShortOps T C)
    P A cs cms (ws : list (witness C R)) pf (ts tr : T) :
  let m := (2 * dp_K P - 1)%nat in
  sizes_ok p P cs -> length cms = (2 * dp_K P)%nat -> Forall (fun c => length (lc_x c) = c_l cs) cms ->
  fold_shape P cs pf -> rho_state P cms pf ts cs = Ok tr -> Forall2 (fun c w => opens P A cs (lc_cm c) w) cms ws ->
  (forall i bs bs', (i < m)%nat -> In bs (tuples m S0) -> In bs' (tuples m S0) -> varies d0 m i bs bs' -> unit_at m i (rhos (HO bs) P tr) (rhos (HO bs') P tr)) ->
  few (fun bs => In bs (tuples m S0) /\ rho_fooled P A cs cms ws pf ts tr (HO bs)) (length S0 ^ (m - 1)).
Proof.
  intros m Hsz Lc Scx Sh HT Hop HU. pose proof Sh as (T1 & T2 & E1 & E2). pose proof (so_K _ _ _ Hsz) as HK.
  assert (2 * dp_K P = S m)%nat as Em by (unfold m; lia).
  apply few_if. intros bs0 [Hb0 (lc0 & ts0 & HV0 & _)].
  destruct (fold_verify_rho _ _ _ _ _ _ _ _ _ HV0 HT) as (rs & s & ts2 & _ & _ & _ & _ & ES & _).
  eapply few_weaken; [|apply le_n|apply (delta_error d0 eqX S0 (fun bs => rhos (HO bs) P tr) cs cms ws (fp_theta pf) (fp_eta pf) (map emb rs) m); auto; try lia].
  - intros bs [Hb (lc & ts' & HV & HR & HN)]. split; [exact Hb|].
    apply (fooled_delta (HO bs) P A cs cms ws pf ts tr lc ts' rs); auto.
    destruct (squeeze_abzm P ts (c_s cs)) as [[[[alpha beta] zeta] mu] ts1]. eauto.
  - apply (so_wf _ _ _ Hsz).
  - intros bs. apply rhos_last.
Qed.
End Run2.
