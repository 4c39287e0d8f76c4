(** Extraction: from runs of the folding verifier that agree up to the short challenges and differ in one challenge each,
    witnesses of all folded components are computed. *)
From Coq Require Import String List Arith Lia ZArith Bool Ring.
From Verif Require Import Prelude Alg Poly MLE MLE_Proofs Transcript Interp Sumcheck Sumcheck_Proofs
  Arith Arith_Proofs Balanced Rings Rings_Proofs Linearization Linearization_Proofs Relations LinRel
  Decomposition Decomposition_Proofs Folding Folding_Comb Folding_Proofs Folding_Complete Folding_Sound NIFS NIFS_Proofs.
Import ListNotations.
Local Open Scope rs_scope.

Section Sys.
Context {F K C R : Type} {SO : SOps F K C R} {p : Z} {SL : SLaws F K C R p}.
Add Ring Cring58 : (@rlaws_th C _ _).
Add Ring Rring59 : (@rlaws_th R _ _).
Add Ring Kring60 : (@rlaws_th K _ _).
Add Ring Fring61 : (@rlaws_th F _ _).

(** Challenge vectors of [m+1] runs: the last coefficient is 1, run [i+1] differs from run 0 in position [i] only, and the
    difference there is invertible. *)
Definition special (m : nat) (rho : nat -> nat -> C) (d : nat -> C) : Prop :=
  (forall j, (j <= m)%nat -> rho j m = 1) /\
  (forall i k, (i < m)%nat -> (k < m)%nat -> k <> i -> rho (S i) k = rho 0%nat k) /\
  (forall i, (i < m)%nat -> d i * (rho (S i) i - rho 0%nat i) = 1).

Lemma sum_diffR m (x y : nat -> R) i : (i < m)%nat ->
  (forall k, (k < S m)%nat -> k <> i -> x k = y k) -> sumn (S m) x - sumn (S m) y = x i - y i.
Proof.
  intros Hi H. rewrite <- sumn_sub. apply (sumn_single (S m) i); [lia|]. intros k Hk Hn. rewrite (H k) by auto. ring.
Qed.
Lemma sum_diffK m (x y : nat -> K) i : (i < m)%nat ->
  (forall k, (k < S m)%nat -> k <> i -> x k = y k) -> sumn (S m) x - sumn (S m) y = x i - y i.
Proof.
  intros Hi H. rewrite <- sumn_sub. apply (sumn_single (S m) i); [lia|]. intros k Hk Hn. rewrite (H k) by auto. ring.
Qed.
Lemma special_same m rho d i k : special m rho d -> (i < m)%nat -> (k < S m)%nat -> k <> i -> rho (S i) k = rho 0%nat k.
Proof.
  intros (H1 & H2 & _) Hi Hk Hn. destruct (Nat.eq_dec k m) as [->|]; [rewrite !H1 by lia; auto|apply H2; auto; lia].
Qed.
(** The system has at most one solution in [R]. *)
Lemma sys_inj m rho d (delta : nat -> R) : special m rho d ->
  (forall j, (j <= m)%nat -> sumn (S m) (fun k => crt (rho j k) * delta k) = 0) -> forall k, (k <= m)%nat -> delta k = 0.
Proof.
  intros Hs H. pose proof Hs as (H1 & _ & H3).
  assert (forall i, (i < m)%nat -> delta i = 0) as Hd.
  { intros i Hi. pose proof (sum_diffR m (fun k => crt (rho (S i) k) * delta k) (fun k => crt (rho 0%nat k) * delta k) i Hi) as E.
    rewrite !H in E by lia. cbn beta in E.
    assert (0 - 0 = crt (rho (S i) i) * delta i - crt (rho 0%nat i) * delta i) as E'.
    { apply E. intros k Hk Hn. rewrite (special_same m rho d) by auto. auto. }
    transitivity (crt (d i * (rho (S i) i - rho 0%nat i)) * delta i).
    - rewrite H3 by auto. rewrite (hom_1 _ crt_hom). ring.
    - rewrite (hom_mul _ crt_hom), (hom_sub _ crt_hom).
      transitivity (crt (d i) * (crt (rho (S i) i) * delta i - crt (rho 0%nat i) * delta i)); [ring|]. rewrite <- E'. ring. }
  intros k Hk. destruct (Nat.eq_dec k m) as [->|]; [|apply Hd; lia].
  specialize (H 0%nat ltac:(lia)). cbn [sumn] in H. rewrite (sumn_0 m) in H by (intros i Hi; rewrite Hd by auto; ring).
  rewrite H1, (hom_1 _ crt_hom) in H by lia. rewrite <- H. ring.
Qed.

(** Multiplication by [a] on coefficient vectors over [K], as a matrix. *)
Definition rotm (a : C) (i t : nat) : K := embFK (cf t (xpow i a)).
Lemma xpow_1 i a : xpow i a = xpow i 1 * a.
Proof. rewrite <- xpow_mul. f_equal. ring. Qed.
Lemma cf_sub j (a b : C) : cf j (a - b) = cf j a - cf j b.
Proof. assert (cf j a = cf j (a - b) + cf j b) as -> by (rewrite <- cf_add; f_equal; ring). ring. Qed.
Lemma rotm_sub a b i t : rotm (a - b) i t = rotm a i t - rotm b i t.
Proof.
  unfold rotm. rewrite <- (hom_sub _ embFK_hom), <- cf_sub. do 2 f_equal. rewrite (xpow_1 i (a - b)), (xpow_1 i a), (xpow_1 i b). ring.
Qed.
Lemma rotm_mul a b i l : sumn dimC (fun t => rotm a i t * rotm b t l) = rotm (b * a) i l.
Proof.
  unfold rotm. rewrite (xpow_1 i (b * a)). replace (xpow i 1 * (b * a)) with (b * xpow i a) by (rewrite (xpow_1 i a); ring).
  rewrite cf_mul, (hom_sumn _ embFK_hom). apply sumn_ext. intros t Ht. rewrite (hom_mul _ embFK_hom). auto.
Qed.
Lemma cf_xpow_1 i t : (i < dimC)%nat -> cf t (xpow i (1 : C)) = if (t =? i)%nat then 1 else 0.
Proof.
  intros Hi. set (e := map (fun t => if (t =? i)%nat then 1 else 0 : F) (seq 0 dimC)).
  assert (length e = dimC) as He by (unfold e; rewrite map_length, seq_length; auto).
  assert (xpow i (1 : C) = of_coeffs e) as ->.
  { rewrite (coeffs_X (of_coeffs e)). rewrite (sumn_single dimC i); [|auto|].
    - rewrite coeffs_of by auto. unfold e. rewrite nth_seq_map by auto. rewrite Nat.eqb_refl, (hom_1 _ embFC_hom). unfold xpow. ring.
    - intros j Hj Hn. rewrite coeffs_of by auto. unfold e. rewrite nth_seq_map by auto. destruct (Nat.eqb_spec j i); [contradiction|]. rewrite (hom_0 _ embFC_hom). ring. }
  rewrite cf_of_coeffs by auto. destruct (Nat.lt_ge_cases t dimC) as [Ht|Ht].
  - unfold e. rewrite nth_seq_map by auto. auto.
  - rewrite nth_overflow by lia. destruct (Nat.eqb_spec t i); [lia|auto].
Qed.
Lemma rotm_1 l (x : nat -> K) : (l < dimC)%nat -> sumn dimC (fun i => x i * rotm 1 i l) = x l.
Proof.
  intros Hl. rewrite (sumn_single dimC l); auto.
  - unfold rotm. rewrite cf_xpow_1, Nat.eqb_refl, (hom_1 _ embFK_hom) by auto. ring.
  - intros j Hj Hn. unfold rotm. rewrite cf_xpow_1 by auto. destruct (Nat.eqb_spec l j); [congruence|]. rewrite (hom_0 _ embFK_hom). ring.
Qed.
(** The system has at most one solution in coefficient vectors over [K]. *)
Lemma sys_inj_K m rho d (delta : nat -> nat -> K) : special m rho d ->
  (forall j t, (j <= m)%nat -> (t < dimC)%nat -> sumn (S m) (fun k => sumn dimC (fun i => delta k i * rotm (rho j k) i t)) = 0) ->
  forall k i, (k <= m)%nat -> (i < dimC)%nat -> delta k i = 0.
Proof.
  intros Hs H. pose proof Hs as (H1 & _ & H3).
  assert (forall a, (a < m)%nat -> forall i, (i < dimC)%nat -> delta a i = 0) as Hd.
  { intros a Ha i Hi.
    assert (forall t, (t < dimC)%nat -> sumn dimC (fun i => delta a i * rotm (rho (S a) a - rho 0%nat a) i t) = 0) as E.
    { intros t Ht. pose proof (sum_diffK m (fun k => sumn dimC (fun i => delta k i * rotm (rho (S a) k) i t)) (fun k => sumn dimC (fun i => delta k i * rotm (rho 0%nat k) i t)) a Ha) as E.
      rewrite !H in E by (auto; lia). cbn beta in E.
      rewrite (sumn_ext dimC _ (fun i => delta a i * rotm (rho (S a) a) i t - delta a i * rotm (rho 0%nat a) i t)) by (intros; rewrite rotm_sub; ring).
      rewrite sumn_sub, <- E; [ring|]. intros k Hk Hn. apply sumn_ext. intros. rewrite (special_same m rho d) by auto. auto. }
    rewrite <- (rotm_1 i (delta a)) by auto. rewrite <- (H3 a) by auto.
    rewrite (sumn_ext dimC _ (fun j => sumn dimC (fun t => delta a j * rotm (rho (S a) a - rho 0%nat a) j t * rotm (d a) t i))).
    - rewrite sumn_swap. apply sumn_0. intros t Ht. rewrite sumn_mul_r, E by auto. ring.
    - intros j Hj. rewrite <- rotm_mul, <- sumn_mul_l. apply sumn_ext. intros. ring. }
  intros k i Hk Hi. destruct (Nat.eq_dec k m) as [->|]; [|apply Hd; auto; lia].
  specialize (H 0%nat i ltac:(lia) Hi). cbn [sumn] in H.
  rewrite (sumn_0 m) in H by (intros a Ha; apply sumn_0; intros j Hj; rewrite Hd by auto; ring).
  rewrite H1 in H by lia. rewrite rotm_1 in H by auto. rewrite <- H. ring.
Qed.
(** The solution. *)
Definition sol (m : nat) (rho : nat -> nat -> C) (d : nat -> C) (w : nat -> C) (k : nat) : C :=
  if (k <? m)%nat then d k * (w (S k) - w 0%nat) else w 0%nat - sumn m (fun k => rho 0%nat k * (d k * (w (S k) - w 0%nat))).
Lemma sol_ok m rho d w j : special m rho d -> (j <= m)%nat -> w j = sumn (S m) (fun k => rho j k * sol m rho d w k).
Proof.
  intros Hs Hj. pose proof Hs as (H1 & _ & H3). 
  assert (forall j, (j <= m)%nat -> sumn (S m) (fun k => rho j k * sol m rho d w k) =
     sumn m (fun k => rho j k * (d k * (w (S k) - w 0%nat))) + (w 0%nat - sumn m (fun k => rho 0%nat k * (d k * (w (S k) - w 0%nat))))) as E.
  { intros j' Hj'. cbn [sumn]. rewrite (H1 j') by auto. unfold sol at 2. destruct (Nat.ltb_spec m m); [lia|].
    rewrite (sumn_ext m _ (fun k => rho j' k * (d k * (w (S k) - w 0%nat)))); [ring|]. intros k Hk. unfold sol. destruct (Nat.ltb_spec k m); [auto|lia]. }
  rewrite E by auto. destruct j as [|i]; [ring|].
  assert (sumn m (fun k => rho (S i) k * (d k * (w (S k) - w 0%nat))) - sumn m (fun k => rho 0%nat k * (d k * (w (S k) - w 0%nat))) = w (S i) - w 0%nat) as D.
  { rewrite <- sumn_sub. rewrite (sumn_single m i); [|lia|].
    - transitivity (d i * (rho (S i) i - rho 0%nat i) * (w (S i) - w 0%nat)); [ring|]. rewrite H3 by lia. ring.
    - intros k Hk Hn. rewrite (special_same m rho d) by (auto; lia). ring. }
  transitivity (w 0%nat + (w (S i) - w 0%nat)); [ring|]. rewrite <- D. ring.
Qed.
End Sys.

Section Fold.
Context {F K C R : Type} {SO : SOps F K C R} {p : Z} {SL : SLaws F K C R p}.
Add Ring Rring62 : (@rlaws_th R _ _).
Add Ring Kring63 : (@rlaws_th K _ _).

Lemma lin_inj n (c c' : nat -> R) vs vs' v j : is_lin n c vs v -> is_lin n c' vs' v -> (forall i, (i < n)%nat -> c i = c' i) ->
  sumn n (fun i => c i * (nth j (vs i) 0 - nth j (vs' i) 0)) = 0.
Proof.
  intros [_ H1] [_ H2] Hc. rewrite (sumn_ext n _ (fun i => c i * nth j (vs i) 0 - c i * nth j (vs' i) 0)) by (intros; ring).
  rewrite sumn_sub, <- H1. rewrite (sumn_ext n _ (fun i => c' i * nth j (vs' i) 0)) by (intros; rewrite Hc by auto; auto). rewrite <- H2. ring.
Qed.
Lemma lin_vecs_eq m rho d (vs vs' : nat -> list R) (v : nat -> list R) : special m rho d ->
  (forall j, (j <= m)%nat -> is_lin (S m) (fun k => crt (rho j k)) vs (v j)) -> (forall j, (j <= m)%nat -> is_lin (S m) (fun k => crt (rho j k)) vs' (v j)) ->
  forall k, (k <= m)%nat -> vs k = vs' k.
Proof.
  intros Hs H H' k Hk. apply (list_ext 0).
  - rewrite (proj1 (H 0%nat ltac:(lia)) k), (proj1 (H' 0%nat ltac:(lia)) k) by lia. auto.
  - intros j Hj. apply (proj1 (rsub_0_iff _ _)). apply (sys_inj m rho d (fun k => nth j (vs k) 0 - nth j (vs' k) 0) Hs); auto.
    intros a Ha. apply (lin_inj (S m) _ _ vs vs' (v a) j (H a Ha) (H' a Ha)). auto.
Qed.

Definition dlc0 : lcccs R := Lcccs [] [] [] [] [] 0.
(** Witnesses of all components from the witnesses [w j] of the folded instances [lc j] of [m+1] foldings of the same
    components [cms] and evaluations [theta], [eta] with special challenge vectors. *)
Theorem fold_extract P A cs cms (theta eta : list (list R)) (rs : list K) m (rho : nat -> list C) d lc (w : nat -> witness C R) :
  (1 <= dp_L P)%nat -> wf_ccs cs -> (c_l cs + 1 < c_n cs)%nat ->
  length cms = S m -> Forall (fun c => length (lc_cm c) = kappa A /\ length (lc_x c) = c_l cs) cms ->
  length theta = S m -> Forall (fun v => length v = tau) theta -> length eta = S m -> Forall (fun v => length v = c_t cs) eta ->
  special m (fun j k => nth k (rho j) 0) d ->
  (forall j, (j <= m)%nat -> length (rho j) = S m /\ exists v0 cm0 u0 x0,
     fold_public (rho j) (map crt (rho j)) theta cms eta cs = Ok (v0, cm0, u0, x0) /\ public_output (map emb rs) v0 cm0 u0 x0 = Ok (lc j) /\
     lcccs_rel P A cs (lc j) (w j)) ->
  exists ws : list (witness C R),
    Forall2 (fun c w => opens P A cs (lc_cm c) w) cms ws /\
    theta = map (fun w => vvec w (map emb rs)) ws /\ eta = zipw (fun c w => uvec cs c w (map emb rs)) cms ws /\
    forall j, (j <= m)%nat -> is_lin (S m) (fun i => nth i (rho j) 0) (fun i => w_fc (nth i ws (Witness [] [] [] []))) (w_fc (w j)).
Proof.
  intros HL Hwf Hn Lc Sc Lt St Le Se Hs H. set (r0 := map emb rs) in *. set (N := ((c_n cs - c_l cs - 1) * dp_L P)%nat). set (dw := Witness [] [] [] [] : witness C R).
  set (fc := fun k => map (fun b => sol m (fun j k => nth k (rho j) 0) d (fun j => nth b (w_fc (w j)) 0) k) (seq 0 N)).
  set (ws := map (fun k => wit_from_f_coeff P (fc k) : witness C R) (seq 0 (S m))).
  assert (length ws = S m) as Lw by (unfold ws; rewrite map_length, seq_length; auto).
  assert (forall k, (k <= m)%nat -> nth k ws dw = wit_from_f_coeff P (fc k)) as Nw.
  { intros k Hk. unfold ws. rewrite (nth_seq_map (fun k => _)) by lia. auto. }
  assert (forall j, (j <= m)%nat -> opens P A cs (lc_cm (lc j)) (w j) /\ lc_r (lc j) = r0) as Ho.
  { intros j Hj. destruct (H j Hj) as (_ & v0 & cm0 & u0 & x0 & _ & E & [O _ _ _ _]). split; [exact O|].
    unfold public_output in E. apply bind_ok_inv in E as (h & _ & E). apply ok_inj in E. rewrite <- E. reflexivity. }
  assert (forall j, (j <= m)%nat -> length (w_fc (w j)) = N) as Lfc by (intros j Hj; apply (opens_w_len P A cs (lc_cm (lc j)) (w j) HL (proj1 (Ho j Hj)))).
  assert (forall k, length (fc k) = N) as Lf by (intros k; unfold fc; rewrite map_length, seq_length; auto).
  (* coefficients *)
  assert (forall j, (j <= m)%nat -> is_lin (S m) (fun k => nth k (rho j) 0) (fun k => w_fc (nth k ws dw)) (w_fc (w j))) as Lin.
  { intros j Hj. apply (is_lin_ext _ _ (fun k => fc k)); [intros k Hk; rewrite Nw by lia; reflexivity|]. apply is_lin_intro.
    - intros k Hk. rewrite Lf, Lfc; auto.
    - intros b Hb. rewrite Lfc in Hb by auto. rewrite (sol_ok m (fun j k => nth k (rho j) 0) d (fun j => nth b (w_fc (w j)) 0) j Hs Hj).
      apply sumn_ext. intros k Hk. unfold fc. rewrite (nth_seq_map (fun b => _)) by auto. auto. }
  assert (forall j, (j <= m)%nat -> is_lin (S m) (fun k => crt (nth k (rho j) 0)) (fun k => w_f (nth k ws dw)) (w_f (w j))) as LinR.
  { intros j Hj. pose proof (is_lin_hom crt crt_hom _ _ _ _ (Lin j Hj)) as E.
    destruct (op_wit _ _ _ _ _ (proj1 (Ho j Hj))) as (C1 & _). rewrite <- C1 in E. eapply is_lin_ext; [|exact E]. intros k Hk. cbn beta. rewrite Nw by lia. reflexivity. }
  (* commitments *)
  assert (a_ncols A = N) as HA.
  { destruct (Ho 0%nat ltac:(lia)) as [[_ O2 O3] _]. unfold commit in O3. rewrite O2 in O3. fold N in O3. destruct (Nat.eqb_spec N (a_ncols A)); [auto|discriminate]. }
  assert (forall k, (k <= m)%nat -> length (w_f (nth k ws dw)) = N) as Lwf.
  { intros k Hk. rewrite Nw by auto. cbn [wit_from_f_coeff w_f]. rewrite map_length. auto. }
  set (cmk := fun k => map (fun row => lsum (zipw rmul row (w_f (nth k ws dw)))) (a_rows A)).
  assert (forall k, (k <= m)%nat -> commit A (w_f (nth k ws dw)) = Ok (cmk k)) as Hck by (intros k Hk; apply commit_ok; rewrite Lwf by auto; auto).
  assert (forall j v0 cm0 u0 x0, (j <= m)%nat -> fold_public (rho j) (map crt (rho j)) theta cms eta cs = Ok (v0, cm0, u0, x0) -> public_output r0 v0 cm0 u0 x0 = Ok (lc j) ->
     rot_lin_combination (rho j) theta = Ok (lc_v (lc j)) /\
     is_lin (S m) (fun k => crt (nth k (rho j) 0)) (fun k => lc_cm (nth k cms dlc0)) (lc_cm (lc j)) /\
     is_lin (S m) (fun k => crt (nth k (rho j) 0)) (fun k => nth k eta []) (lc_u (lc j)) /\
     is_lin (S m) (fun k => crt (nth k (rho j) 0)) (fun k => lc_x (nth k cms dlc0) ++ [lc_h (nth k cms dlc0)]) (lc_x (lc j) ++ [lc_h (lc j)])) as Hpub.
  { intros j v0 cm0 u0 x0 Hj E1 E2. destruct (H j Hj) as (Lr & _). rewrite Forall_forall in Sc, Se.
    unfold fold_public in E1. apply bind_ok_inv in E1 as (v0' & Ev & E1). apply ok_inj in E1. injection E1 as -> Ecm Eu Ex.
    unfold public_output in E2. apply bind_ok_inv in E2 as (h & Eh & E2). apply ok_inj in E2.
    assert (length (map (crt : C -> R) (rho j)) = S m) as Lm by (rewrite map_length; auto).
    assert (forall k, (k < S m)%nat -> nth k (map crt (rho j)) 0 = crt (nth k (rho j) 0 : C)) as Nc by (intros k Hk; rewrite (nth_map_lt _ _ _ 0) by lia; auto).
    split; [rewrite <- E2; exact Ev|]. split; [|split].
    - rewrite <- E2. cbn [lc_cm]. rewrite <- Ecm.
      replace (match cms with [] => 0%nat | c :: _ => length (lc_cm c) end) with (kappa A).
      2: { destruct cms as [|c l]; [discriminate|]. symmetry. apply Sc. left. auto. }
      rewrite (zipw_ext_eq _ (fun r c => map (rmul r) (lc_cm c))) by (intros; apply cm_scale_comm).
      rewrite <- (zipw_map_r (fun r v => map (rmul r) v) lc_cm).
      destruct (fold_zip_lin (kappa A) (S m) (map crt (rho j)) (map lc_cm cms)) as [_ E]; auto; [rewrite map_length; auto| |].
      { intros v Hv. apply in_map_iff in Hv as (c & <- & Hc). apply Sc. auto. }
      eapply is_lin_coef; [|eapply is_lin_ext; [|exact E]]; intros k Hk; cbn beta; auto. rewrite (nth_map_lt _ _ _ dlc0) by lia. auto.
    - rewrite <- E2. cbn [lc_u]. rewrite <- Eu. destruct (fold_vecs_lin (c_t cs) (S m) (map crt (rho j)) eta) as [_ E]; auto.
      eapply is_lin_coef; [|exact E]. intros k Hk; cbn beta; auto.
    - rewrite <- E2. cbn [lc_x lc_h].
      destruct (fold_vecs_lin (c_l cs + 1) (S m) (map crt (rho j)) (map (fun c => lc_x c ++ [lc_h c]) cms)) as [Lx E]; auto; [rewrite map_length; auto| |].
      { intros v Hv. apply in_map_iff in Hv as (c & <- & Hc). rewrite app_length. cbn [length]. rewrite (proj2 (Sc c Hc)). auto. }
      rewrite Ex in Lx, E. assert (x0 <> []) as Hne by (intros ->; cbn [length] in Lx; lia).
      rewrite last_opt_last in Eh by auto. apply ok_inj in Eh. subst h.
      rewrite <- (app_removelast_last' x0 Hne).
      eapply is_lin_coef; [|eapply is_lin_ext; [|exact E]]; intros k Hk; cbn beta; auto. rewrite (nth_map_lt _ _ _ dlc0) by lia. auto. }
  assert (forall k, (k <= m)%nat -> lc_cm (nth k cms dlc0) = cmk k) as Ecm.
  { apply (lin_vecs_eq m (fun j k => nth k (rho j) 0) d _ _ (fun j => lc_cm (lc j)) Hs).
    - intros j Hj. destruct (H j Hj) as (_ & v0 & cm0 & u0 & x0 & E1 & E2 & _). apply (Hpub j v0 cm0 u0 x0 Hj E1 E2).
    - intros j Hj. destruct (is_lin_commit (S m) _ _ (w_f (w j)) A cmk (LinR j Hj)) as (cm & Hcm & _ & E).
      + rewrite HA. apply (op_len _ _ _ _ _ (proj1 (Ho j Hj))).
      + intros k Hk. apply Hck. lia.
      + rewrite (op_cm _ _ _ _ _ (proj1 (Ho j Hj))) in Hcm. apply ok_inj in Hcm. rewrite Hcm. exact E. }
  assert (forall j, (j <= m)%nat -> is_lin (S m) (fun k => crt (nth k (rho j) 0)) (fun k => lc_x (nth k cms dlc0) ++ lc_h (nth k cms dlc0) :: w_ccs (nth k ws dw)) (lc_x (lc j) ++ lc_h (lc j) :: w_ccs (w j))) as Hz.
  { intros j Hj. destruct (H j Hj) as (_ & v0 & cm0 & u0 & x0 & E1 & E2 & _). destruct (Hpub j v0 cm0 u0 x0 Hj E1 E2) as (_ & _ & _ & E).
    assert (forall (a : list R) b c, a ++ b :: c = (a ++ [b]) ++ c) as AA by (intros; rewrite <- app_assoc; auto). rewrite AA.
    apply (is_lin_ext _ _ (fun k => (lc_x (nth k cms dlc0) ++ [lc_h (nth k cms dlc0)]) ++ w_ccs (nth k ws dw))); [intros k Hk; rewrite <- app_assoc; reflexivity|].
    apply is_lin_app; [exact E|].
    destruct (op_wit _ _ _ _ _ (proj1 (Ho j Hj))) as (_ & _ & _ & C4). rewrite C4.
    eapply is_lin_ext; [|apply is_lin_gadget; [exact HL|exact (LinR j Hj)]]. intros k Hk. cbn beta. rewrite Nw by lia. reflexivity. }
  assert (forall k, (k <= m)%nat -> nth k eta [] = uvec cs (nth k cms dlc0) (nth k ws dw) r0) as Eu.
  { apply (lin_vecs_eq m (fun j k => nth k (rho j) 0) d _ _ (fun j => lc_u (lc j)) Hs).
    - intros j Hj. destruct (H j Hj) as (_ & v0 & cm0 & u0 & x0 & E1 & E2 & _). apply (Hpub j v0 cm0 u0 x0 Hj E1 E2).
    - intros j Hj. destruct (H j Hj) as (_ & v0 & cm0 & u0 & x0 & _ & _ & [_ _ _ _ U]). rewrite U, (proj2 (Ho j Hj)). unfold uvec.
      apply (is_lin_map (S m) (fun k => crt (nth k (rho j) 0)) (c_M cs) (fun k M => mle_spec (mz M (lc_x (nth k cms dlc0) ++ lc_h (nth k cms dlc0) :: w_ccs (nth k ws dw))) r0)).
      intros M _. apply is_lin_mle_mz. apply Hz. auto. }
  assert (forall k, (k <= m)%nat -> nth k theta [] = vvec (nth k ws dw) r0) as Ev.
  { rewrite Forall_forall in St.
    assert (forall k, (k <= m)%nat -> length (nth k theta []) = tau) as Stk by (intros k Hk; apply St, nth_In; lia).
    assert (forall k i, (k <= m)%nat -> (i < dimC)%nat -> nth i (flatten_to_coeffs (nth k theta [])) 0 - nth i (flatten_to_coeffs (vvec (nth k ws dw) r0)) 0 = 0) as E.
    { apply (sys_inj_K m (fun j k => nth k (rho j) 0) d _ Hs). intros j t Hj Ht.
      destruct (H j Hj) as (Lr & v0 & cm0 & u0 & x0 & E1 & E2 & [_ _ _ V _]). destruct (Hpub j v0 cm0 u0 x0 Hj E1 E2) as (E & _).
      rewrite (sumn_ext (S m) _ (fun k => sumn dimC (fun i => nth i (flatten_to_coeffs (nth k theta [])) 0 * rotm (nth k (rho j) 0) i t) -
                                 sumn dimC (fun i => nth i (flatten_to_coeffs (vvec (nth k ws dw) r0)) 0 * rotm (nth k (rho j) 0) i t))).
      2: { intros k Hk. rewrite <- sumn_sub. apply sumn_ext. intros. ring. }
      rewrite sumn_sub. apply (proj2 (rsub_0_iff _ _)).
      pose proof dimN_pos as HN. unfold dimC in Ht. pose proof (Nat.div_mod t dimN ltac:(lia)) as Et. pose proof (Nat.mod_upper_bound t dimN ltac:(lia)) as Em.
      assert (t / dimN < tau)%nat as Hd by (apply Nat.div_lt_upper_bound; lia).
      destruct (rot_lin_combination_ok (rho j) theta) as (v & Q1 & _ & Q3); [lia|destruct theta; [discriminate|discriminate]|exact St|].
      destruct (rot_lin_combination_ok (rho j) (map (fun w => vvec w r0) ws)) as (v' & Q1' & _ & Q3').
      { rewrite map_length. lia. } { destruct ws; discriminate. } { intros th Hth. apply in_map_iff in Hth as (w' & <- & _). unfold vvec. rewrite map_length, seq_length. auto. }
      assert (v = v') as ->.
      { rewrite E in Q1. apply ok_inj in Q1. rewrite <- Q1, V, (proj2 (Ho j Hj)). unfold r0 in Q1'.
        rewrite (fold_v_ok (rho j) ws (w_fc (w j)) rs (S m)) in Q1' by (auto; lia). apply ok_inj in Q1'. exact Q1'. }
      specialize (Q3 (t / dimN) (t mod dimN) Hd Em). specialize (Q3' (t / dimN) (t mod dimN) Hd Em). rewrite Q3 in Q3'. rewrite Lr in Q3'.
      replace (t / dimN * dimN + t mod dimN)%nat with t in Q3' by lia. unfold rotm. rewrite Q3'. apply sumn_ext. intros k Hk.
      rewrite (nth_map_lt _ _ _ dw) by lia. auto. }
    intros k Hk. apply (list_ext 0); [rewrite Stk by auto; unfold vvec; rewrite map_length, seq_length; auto|]. intros t Ht. rewrite Stk in Ht by auto.
    apply sl_ext. intros s Hs'. pose proof dimN_pos as HN.
    rewrite <- !flatten_nth by (auto; try (rewrite Stk by auto; auto); try (unfold vvec; rewrite map_length, seq_length; auto)).
    apply (proj1 (rsub_0_iff _ _)). apply E; auto. unfold dimC. nia. }
  exists ws. split; [|split; [|split]].
  - apply (proj2 (Forall2_nth _ cms ws dlc0 dw)). split; [lia|]. intros k Hk. rewrite Ecm by lia. split.
    + rewrite Nw by lia. apply from_f_coeff_consistent.
    + apply Lwf. lia.
    + apply Hck. lia.
  - apply (list_ext []); [rewrite map_length; lia|]. intros k Hk. rewrite (nth_map_lt _ _ _ dw) by lia. apply Ev. lia.
  - apply (list_ext []); [rewrite zipw_length; lia|]. intros k Hk. rewrite (nth_zipw _ _ _ _ dlc0 dw) by lia. apply Eu. lia.
  - intros j Hj. exact (Lin j Hj).
Qed.
End Fold.

(** ** Extraction from the NIFS verifier *)
Section Nifs.
Context {F K C R : Type} {SO : SOps F K C R} {p : Z} {SL : SLaws F K C R p} {T : Type} {TO : TransOps T R K}.
Add Ring Cring64 : (@rlaws_th C _ _).

(** The state the transcript is in when the folding verifier draws the short challenges.  No short challenge was
    drawn before, so the definition does not depend on how they are drawn. *)
Definition rho_state (P : dparams) (cms : list (lcccs R)) (pf : fold_proof R) (ts : T) (cs : ccs R) : result T :=
  let '(alpha, _, zeta, _, ts) := squeeze_abzm P ts (c_s cs) in
  do sub <- sc_verify ts (c_s cs) (2 * dp_b P) (claim_sum alpha zeta cms) (fp_sc pf);
  Ok (absorb_tag (absorb_slices (absorb_slices (snd sub) (fp_theta pf)) (fp_eta pf)) "rho_s").
(** The folding coefficients drawn from state [tr] by [HO]. *)
Definition rhos (HO : ShortOps T C) (P : dparams) (tr : T) : list C :=
  fst (get_small_challenges (HO := HO) tr (2 * dp_K P - 1)) ++ [1].

Lemma fold_verify_rho (HO : ShortOps T C) P cms pf ts cs lc ts' tr : fold_verify P cms pf ts cs = Ok (lc, ts') -> rho_state P cms pf ts cs = Ok tr ->
  exists rs s ts2 v0 cm0 u0 x0, (let '(alpha, _, zeta, _, ts1) := squeeze_abzm P ts (c_s cs) in
      sc_verify ts1 (c_s cs) (2 * dp_b P) (claim_sum alpha zeta cms) (fp_sc pf) = Ok (rs, s, ts2)) /\
    fold_public (rhos HO P tr) (map crt (rhos HO P tr)) (fp_theta pf) cms (fp_eta pf) cs = Ok (v0, cm0, u0, x0) /\
    public_output (map emb rs) v0 cm0 u0 x0 = Ok lc.
Proof.
  intros HV HT. unfold fold_verify in HV. apply bind_ok_inv in HV as (u & _ & HV). unfold rho_state in HT.
  destruct (squeeze_abzm P ts (c_s cs)) as [[[[alpha beta] zeta] mu] ts1].
  apply bind_ok_inv in HV as ([[rs s] ts2] & ES & HV). rewrite ES in HT. cbn [bind snd] in HT. apply ok_inj in HT.
  apply bind_ok_inv in HV as (u' & _ & HV). unfold get_rhos in HV. rewrite HT in HV. unfold rhos.
  destruct (get_small_challenges tr (2 * dp_K P - 1)) as [rho tx]. cbn [fst].
  apply bind_ok_inv in HV as ([[[v0 cm0] u0] x0] & EP & HV). apply bind_ok_inv in HV as (lc' & EO & HV). apply ok_inj in HV. injection HV as -> _.
  exists rs, s, ts2, v0, cm0, u0, x0. auto.
Qed.

(** The proof carries the right numbers of values. *)
Definition fold_shape (P : dparams) (cs : ccs R) (pf : fold_proof R) : Prop :=
  length (fp_theta pf) = (2 * dp_K P)%nat /\ Forall (fun v => length v = tau) (fp_theta pf) /\
  length (fp_eta pf) = (2 * dp_K P)%nat /\ Forall (fun v => length v = c_t cs) (fp_eta pf).

Lemma evs_vvec P ws r : Forall (wit_consistent P) ws -> map (fun w : witness C R => vvec w r) ws = evs (map w_fhat ws) r.
Proof.
  intros H. unfold evs. rewrite map_map. apply map_ext_in. intros w Hw. rewrite Forall_forall in H. unfold vvec.
  rewrite <- (fhat_eval P w r) by auto. reflexivity.
Qed.
Lemma evs_uvec (cs : ccs R) cms (ws : list (witness C R)) r : length r = c_s cs ->
  zipw (fun c w => uvec cs c w r) cms ws = evs (zipw (fun c w => map (Mz_mle (c_s cs) (lcccs_z c (w_ccs w))) (c_M cs)) cms ws) r.
Proof.
  intros Hr. revert ws. induction cms as [|c cms IH]; intros [|w ws]; cbn [zipw]; auto. unfold evs. cbn [map]. f_equal.
  - unfold uvec. rewrite map_map. apply map_ext. intros M. rewrite Mz_mle_eval by auto. reflexivity.
  - exact (IH ws).
Qed.

(** Folding: witnesses of all components from [2K] accepted runs that differ in the folding coefficients. *)
Theorem fold_verify_extract P A cs cms pf ts tr (HO : nat -> ShortOps T C) d lc ts' (w : nat -> witness C R) :
  sizes_ok p P cs -> length cms = (2 * dp_K P)%nat -> Forall (fun c => length (lc_cm c) = kappa A /\ length (lc_x c) = c_l cs) cms ->
  fold_shape P cs pf -> rho_state P cms pf ts cs = Ok tr ->
  special (2 * dp_K P - 1) (fun j k => nth k (rhos (HO j) P tr) 0) d ->
  (forall j, (j < 2 * dp_K P)%nat -> fold_verify (HO := HO j) P cms pf ts cs = Ok (lc j, ts' j) /\ lcccs_rel P A cs (lc j) (w j)) ->
  exists ws, Forall2 (fun c w => opens P A cs (lc_cm c) w) cms ws /\
    (forall j, (j < 2 * dp_K P)%nat ->
      fp_theta pf = evs (map w_fhat ws) (lc_r (lc j)) /\
      fp_eta pf = evs (zipw (fun c w => map (Mz_mle (c_s cs) (lcccs_z c (w_ccs w))) (c_M cs)) cms ws) (lc_r (lc j)) /\
      is_lin (2 * dp_K P) (fun k => nth k (rhos (HO j) P tr) 0) (fun k => w_fc (nth k ws (Witness [] [] [] []))) (w_fc (w j))).
Proof.
  intros Hsz Lc Sc (T1 & T2 & E1 & E2) HT Hsp H. pose proof (so_K _ _ _ Hsz) as HK. pose proof (so_cov _ _ _ Hsz) as (_ & HL & _).
  set (m := (2 * dp_K P - 1)%nat) in *. assert (2 * dp_K P = S m)%nat as Em by (unfold m; lia). rewrite Em in *.
  destruct (squeeze_abzm P ts (c_s cs)) as [[[[alpha beta] zeta] mu] ts1] eqn:EQ.
  assert (exists rs s ts2, sc_verify ts1 (c_s cs) (2 * dp_b P) (claim_sum alpha zeta cms) (fp_sc pf) = Ok (rs, s, ts2)) as (rs & s & ts2 & ES).
  { destruct (H 0%nat ltac:(lia)) as [HV _]. destruct (fold_verify_rho _ _ _ _ _ _ _ _ _ HV HT) as (rs & s & ts2 & ? & ? & ? & ? & ES & _). rewrite EQ in ES. eauto. }
  assert (forall j, (j <= m)%nat -> exists v0 cm0 u0 x0,
     fold_public (rhos (HO j) P tr) (map crt (rhos (HO j) P tr)) (fp_theta pf) cms (fp_eta pf) cs = Ok (v0, cm0, u0, x0) /\ public_output (map emb rs) v0 cm0 u0 x0 = Ok (lc j)) as HP.
  { intros j Hj. destruct (H j ltac:(lia)) as [HV _]. destruct (fold_verify_rho _ _ _ _ _ _ _ _ _ HV HT) as (rs' & s' & ts2' & v0 & cm0 & u0 & x0 & ES' & Q1 & Q2).
    rewrite EQ, ES in ES'. apply ok_inj in ES'. injection ES' as <- <- <-. eauto 6. }
  destruct (fold_extract P A cs cms (fp_theta pf) (fp_eta pf) rs m (fun j => rhos (HO j) P tr) d lc w) as (ws & W1 & W2 & W3 & W4); auto.
  { apply (so_wf _ _ _ Hsz). } { apply (so_n _ _ _ Hsz). }
  { intros j Hj. split.
    - unfold rhos. rewrite app_length, get_small_challenges_length. cbn [length]. fold m. lia.
    - destruct (HP j Hj) as (v0 & cm0 & u0 & x0 & Q1 & Q2). exists v0, cm0, u0, x0. split; auto. split; auto. apply H. lia. }
  exists ws. split; auto. intros j Hj.
  assert (lc_r (lc j) = map emb rs) as Er.
  { destruct (HP j ltac:(lia)) as (v0 & cm0 & u0 & x0 & _ & Q). unfold public_output in Q. apply bind_ok_inv in Q as (h & _ & Q). apply ok_inj in Q. rewrite <- Q. auto. }
  rewrite Er. split; [|split].
  - rewrite W2 at 1. apply (evs_vvec P). clear - W1. induction W1 as [|c w l l' O W IH]; constructor; auto. apply (op_wit _ _ _ _ _ O).
  - rewrite W3 at 1. apply evs_uvec. rewrite <- Er. destruct (H j Hj) as [_ HR]. apply (lr_r _ _ _ _ _ HR).
  - apply W4. lia.
Qed.

(** Two openings of the same commitment; a multiple of the first by a difference of folding coefficients is the
    difference of two output witnesses, or the commitment is the last one. *)
Definition relaxed_collision (P : dparams) (A : ajtai R) (cs : ccs R) (cms : list (lcccs R)) (ws0 : list (witness C R))
    (rho : nat -> list C) (w : nat -> witness C R) : Prop :=
  exists k c v0 v, nth_error cms k = Some c /\ nth_error ws0 k = Some v0 /\ w_f v <> w_f v0 /\
    opens P A cs (lc_cm c) v /\ opens P A cs (lc_cm c) v0 /\
    ((k < length cms - 1)%nat ->
       map (rmul (nth k (rho (S k)) 0 - nth k (rho 0%nat) 0)) (w_fc v) = zipw rsub (w_fc (w (S k))) (w_fc (w 0%nat))).

Lemma wits_eq P A cs cms (ws ws' : list (witness C R)) : Forall2 (fun c w => opens P A cs (lc_cm c) w) cms ws ->
  Forall2 (fun c w => opens P A cs (lc_cm c) w) cms ws' -> map w_f ws = map w_f ws' -> ws = ws'.
Proof.
  intros H. revert ws'. induction H as [|c w l l' O H IH]; intros ws' H' E; inversion H'; subst; auto.
  cbn [map] in E. injection E as E1 E2. f_equal; [|apply IH; auto].
  match goal with X : opens _ _ _ _ ?y |- _ = ?y => rename X into O' end.
  destruct (op_wit _ _ _ _ _ O') as (B1 & B2 & B3 & B4). destruct (op_wit _ _ _ _ _ O) as (A1 & A2 & A3 & A4). clear - A2 A3 A4 B2 B3 B4 E1.
  destruct w as [a1 a2 a3 a4]. destruct y as [b1 b2 b3 b4]. cbn [w_f w_fc w_fhat w_ccs] in *. rewrite E1 in *. congruence.
Qed.

(** Acceptance does not depend on the short challenges. *)
Lemma fold_verify_any (HO HO' : ShortOps T C) P cs cms pf ts lc ts' :
  (1 <= dp_K P)%nat -> length cms = (2 * dp_K P)%nat -> Forall (fun c => length (lc_x c) = c_l cs) cms -> fold_shape P cs pf ->
  fold_verify (HO := HO) P cms pf ts cs = Ok (lc, ts') ->
  exists lc' ts'', fold_verify (HO := HO') P cms pf ts cs = Ok (lc', ts'') /\ lc_r lc' = lc_r lc.
Proof.
  intros HK Lc Sc (T1 & T2 & E1 & E2) HV. unfold fold_verify in *. rewrite Forall_forall in Sc, T2.
  apply bind_ok_inv in HV as (u & E0 & HV). rewrite E0. cbn [bind]. destruct (squeeze_abzm P ts (c_s cs)) as [[[[alpha beta] zeta] mu] ts1].
  apply bind_ok_inv in HV as ([[rs s] ts2] & ES & HV). rewrite ES. cbn [bind].
  apply bind_ok_inv in HV as (u' & EV & HV). rewrite EV. cbn [bind].
  destruct (get_rhos_spec (HO := HO') P (absorb_slices (absorb_slices ts2 (fp_theta pf)) (fp_eta pf))) as (rho' & tx' & -> & Lr' & _).
  destruct (get_rhos P _) as [[rho rhoR] tx] eqn:ER.
  apply bind_ok_inv in HV as ([[[v0 cm0] u0] x0] & _ & HV). apply bind_ok_inv in HV as (lc1 & EO & HV). apply ok_inj in HV. injection HV as -> _.
  unfold public_output in EO. apply bind_ok_inv in EO as (h & _ & EO). apply ok_inj in EO. rewrite <- EO. cbn [lc_r].
  assert (length (rho' ++ [1]) = (2 * dp_K P)%nat) as LR by (rewrite app_length, Lr'; cbn [length]; lia).
  unfold fold_public. destruct (rot_lin_combination_ok (rho' ++ [1]) (fp_theta pf)) as (v & Q & _ & _); [lia|destruct (fp_theta pf); [cbn in T1; lia|discriminate]|exact T2|].
  rewrite Q. cbn [bind]. unfold public_output.
  destruct (fold_vecs_lin (c_l cs + 1) (2 * dp_K P) (map crt (rho' ++ [1])) (map (fun c => lc_x c ++ [lc_h c]) cms)) as [Lx _]; auto.
  { rewrite map_length. auto. } { rewrite map_length. auto. }
  { intros y Hy. apply in_map_iff in Hy as (c & <- & Hc). rewrite app_length. cbn [length]. rewrite (Sc c Hc). auto. }
  match type of Lx with length ?x = _ => set (x1 := x) in *; assert (x1 <> []) as Hne by (intros E; rewrite E in Lx; cbn [length] in Lx; lia) end.
  rewrite last_opt_last by auto. cbn [bind]. do 2 eexists. split; reflexivity.
Qed.

(** Knowledge soundness of the NIFS verifier up to the two bad events and collisions. *)
Theorem nifs_knowledge P A cs acc cm_i lin lcs_l lcs_r (ws_l ws_r : list (witness C R)) (xs : list K) :
  sizes_ok p P cs -> degree_ok cs -> char_gt K (c_d cs + 1) -> char_gt K (2 * dp_b P) -> (2 * Z.of_nat (dp_b P) <= p + 1)%Z ->
  NoDup xs -> (Nat.max tau (c_t cs) < length xs)%nat -> length (lc_r acc) = c_s cs ->
  Forall2 (fun c w => opens P A cs (lc_cm c) w) lcs_l ws_l -> Forall2 (fun c w => opens P A cs (lc_cm c) w) lcs_r ws_r ->
  let cms := lcs_l ++ lcs_r in
  let ws := ws_l ++ ws_r in
  let fhs := map w_fhat ws in
  let mzs := zipw (fun c w => map (Mz_mle (c_s cs) (lcccs_z c (w_ccs w))) (c_M cs)) cms ws in
  let n := ((c_n cs - c_l cs - 1) * dp_L P)%nat in
  exists ref : list K, forall pf (ts ts1 ts2 ts3 tr : T) (HO : nat -> ShortOps T C) d lc ts' (w : nat -> witness C R),
    dec_shape P cs (lf_dec_l pf) -> dec_shape P cs (lf_dec_r pf) -> fold_shape P cs (lf_fold pf) ->
    lin_verify cm_i (lf_lin pf) (absorb_public_input acc cm_i ts) cs = Ok (lin, ts1) ->
    dec_verify P acc (lf_dec_l pf) ts1 = Ok (lcs_l, ts2) ->
    dec_verify P lin (lf_dec_r pf) ts2 = Ok (lcs_r, ts3) ->
    rho_state P cms (lf_fold pf) ts3 cs = Ok tr ->
    special (2 * dp_K P - 1) (fun j k => nth k (rhos (HO j) P tr) 0) d ->
    (forall j, (j < 2 * dp_K P)%nat ->
       nifs_verify (HO := HO j) P acc cm_i pf ts cs = Ok (lc j, ts' j) /\ lcccs_rel P A cs (lc j) (w j)) ->
    (lcccs_rel P A cs acc (wsum P n ws_l) /\ cccs_rel P A cs cm_i (wsum P n ws_r) /\
     forall i w, nth_error ws i = Some w -> (i < 2 * dp_K P - 1)%nat \/ tau = 1%nat -> wit_norm (Z.of_nat (dp_b P) - 1) w) \/
    fold_bad P cs cms fhs mzs (lc_r acc) (lc_r lin) (Nat.max tau (c_t cs)) ref ts3 (lf_fold pf) (lc 0%nat) \/
    lin_bad cs (i_x cm_i ++ 1 :: w_ccs (wsum P n ws_r)) (absorb_public_input acc cm_i ts) (lf_lin pf) lin \/
    relaxed_collision P A cs cms ws (fun j => rhos (HO j) P tr) w.
Proof.
  intros Hsz Hd Hcd Hcb Hbp Hnd Hxs Hra Hwl Hwr cms ws fhs mzs n.
  destruct (nifs_sound (HO := fun t : T => (0 : C, t)) P A cs acc cm_i lin lcs_l lcs_r ws_l ws_r xs) as (ref & Hs); auto.
  exists ref. intros pf ts ts1 ts2 ts3 tr HO d lc ts' w Shl Shr Shf EL EDl EDr ET Hsp H. pose proof (so_K _ _ _ Hsz) as HK.
  destruct (dec_verify_shape P cs _ _ _ _ _ Shl EDl) as [Ll Sl]. destruct (dec_verify_shape P cs _ _ _ _ _ Shr EDr) as [Lr Sr].
  assert (length cms = (2 * dp_K P)%nat) as Lc by (unfold cms; rewrite app_length; lia).
  assert (Forall2 (fun c w => opens P A cs (lc_cm c) w) cms ws) as Hop by (apply Forall2_app'; auto).
  assert (Forall (fun c => length (lc_x c) = c_l cs) cms) as Scx by (apply Forall_app; split; (eapply Forall_impl; [|eassumption]); cbn beta; tauto).
  assert (Forall (fun c => length (lc_cm c) = kappa A /\ length (lc_x c) = c_l cs) cms) as Sc.
  { clear - Hop Scx. induction Hop as [|c w l l' O H IH]; constructor; inversion Scx; subst; auto. split; auto. pose proof (op_cm _ _ _ _ _ O) as E.
    destruct (Nat.eqb_spec (length (w_f w)) (a_ncols A)) as [Q|Q]; [|unfold commit in E; apply Nat.eqb_neq in Q; rewrite Q in E; discriminate].
    rewrite commit_ok in E by auto. apply ok_inj in E. rewrite <- E, map_length. auto. }
  assert (forall j, (j < 2 * dp_K P)%nat -> fold_verify (HO := HO j) P cms (lf_fold pf) ts3 cs = Ok (lc j, ts' j)) as HF.
  { intros j Hj. destruct (H j Hj) as [HV _]. unfold nifs_verify in HV. apply bind_ok_inv in HV as (u & _ & HV).
    rewrite EL in HV. cbn [bind] in HV. rewrite EDl in HV. cbn [bind] in HV. rewrite EDr in HV. cbn [bind] in HV. exact HV. }
  destruct (fold_verify_extract P A cs cms (lf_fold pf) ts3 tr HO d lc ts' w) as (ws' & Hop' & Hext); auto.
  { intros j Hj. split; auto. apply H. auto. }
  destruct (list_eq_dec (list_eq_dec req_dec) (map w_f ws') (map w_f ws)) as [Eq|Ne].
  - pose proof (wits_eq _ _ _ _ _ _ Hop' Hop Eq) as ->. destruct (Hext 0%nat ltac:(lia)) as (Th & Et & _).
    destruct (fold_verify_any (HO 0%nat) (fun t : T => (0 : C, t)) P cs cms (lf_fold pf) ts3 (lc 0%nat) (ts' 0%nat)) as (lc0 & ts0 & HV0 & Er); auto.
    { apply HF. lia. }
    rewrite <- Er in Th, Et.
    destruct (Hs pf ts lc0 ts0 ts1 ts2 ts3) as [G|[G|G]]; auto.
    + destruct (H 0%nat ltac:(lia)) as [HV _]. unfold nifs_verify in HV |- *. apply bind_ok_inv in HV as (u & E0 & HV). rewrite E0. cbn [bind].
      rewrite EL. cbn [bind]. rewrite EDl. cbn [bind]. rewrite EDr. cbn [bind]. exact HV0.
    + right. left. unfold fold_bad in G |- *. rewrite <- Er. exact G.
  - right. right. right. set (dw := Witness [] [] [] [] : witness C R).
    destruct (proj1 (Forall2_nth _ cms ws' dlc0 dw) Hop') as [L1 O1]. destruct (proj1 (Forall2_nth _ cms ws dlc0 dw) Hop) as [L2 O2].
    assert (exists k, (k < length cms)%nat /\ w_f (nth k ws' dw) <> w_f (nth k ws dw)) as (k & Hk & Hne).
    { clearbody cms ws. clear - L1 L2 Ne SL. revert ws ws' L1 L2 Ne. induction cms as [|c l IH]; intros [|a ws] [|b ws'] L1 L2 Ne; try discriminate; [contradiction|].
      destruct (list_eq_dec req_dec (w_f b) (w_f a)) as [E|E]; [|exists 0%nat; cbn; split; [lia|exact E]].
      destruct (IH ws ws') as (k & Hk & Hn); try (cbn [length] in *; lia). { intros E'. apply Ne. cbn [map]. rewrite E, E'. auto. }
      exists (S k). cbn [length nth]. split; [lia|exact Hn]. }
    exists k, (nth k cms dlc0), (nth k ws dw), (nth k ws' dw).
    split; [apply nth_error_nth'; auto|]. split; [apply nth_error_nth'; exact (Nat.lt_le_trans _ _ _ Hk (Nat.eq_le_incl _ _ L2))|]. split; [exact Hne|].
    split; [apply O1; auto|]. split; [apply O2; auto|].
    { intros Hk'. destruct (Hext 0%nat ltac:(lia)) as (_ & _ & [A1 A2]). destruct (Hext (S k) ltac:(lia)) as (_ & _ & [B1 B2]).
      assert (length (w_fc (nth k ws' dw)) = length (w_fc (w 0%nat))) as X1 by (apply (A1 k); lia).
      assert (length (w_fc (nth k ws' dw)) = length (w_fc (w (S k)))) as X2 by (apply (B1 k); lia).
      apply (list_ext 0); [rewrite map_length, zipw_length; lia|]. intros b Hb. rewrite map_length in Hb.
      rewrite (nth_map_lt _ _ _ 0) by auto. rewrite (nth_zipw _ _ _ _ 0 0) by lia. rewrite A2, B2. rewrite <- sumn_sub.
      symmetry. rewrite (sumn_single (2 * dp_K P) k); [fold dw; ring|lia|]. intros i Hi Hik. rewrite (special_same _ _ _ k i Hsp) by lia. ring. }
Qed.
End Nifs.
