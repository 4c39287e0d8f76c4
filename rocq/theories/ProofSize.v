(** How large the proofs of the honest prover are. *)
From Coq Require Import String List Arith Lia ZArith Bool Ring.
From Verif Require Import Prelude Alg Poly MLE MLE_Proofs Transcript Interp Sumcheck Sumcheck_Proofs CombDeg
  Arith Arith_Proofs Balanced Rings Rings_Proofs Linearization Linearization_Proofs Relations LinRel
  Decomposition Decomposition_Proofs Folding Folding_Comb Folding_Proofs Folding_Complete Folding_Sound NIFS NIFS_Proofs.
Import ListNotations.
Local Open Scope rs_scope.

Lemma mapM_out {A B} (f : A -> result B) (Q : B -> Prop) l : (forall a b, In a l -> f a = Ok b -> Q b) -> forall r, mapM f l = Ok r -> Forall Q r.
Proof.
  induction l as [|a l IH]; intros H r E; cbn [mapM] in E; [apply ok_inj in E; subst; constructor|].
  apply bind_ok_inv in E as (b & E1 & E). apply bind_ok_inv in E as (bs & E2 & E). apply ok_inj in E. subst r. constructor; [apply (H a); [left; auto|auto]|].
  apply IH; auto. intros a' b' Ha. apply H. right. auto.
Qed.
Definition all_len {A} (n m : nat) (l : list (list A)) : Prop := length l = n /\ Forall (fun x => length x = m) l.
Lemma all_len_size {A} n m (l : list (list A)) : all_len n m l -> length (concat l) = (n * m)%nat.
Proof. intros [<- H]. induction H as [|x l H _ IH]; auto. cbn [concat length]. rewrite app_length, H, IH. lia. Qed.
Lemma all_len_eq {A} n m (l l' : list (list A)) : all_len n m l -> all_len n m l' -> map (@length A) l = map (@length A) l'.
Proof.
  intros [H1 H2] [H1' H2']. assert (forall l : list (list A), Forall (fun x => length x = m) l -> map (@length A) l = repeat m (length l)) as E.
  { clear. induction 1; cbn [map repeat length]; congruence. }
  rewrite !E by auto. congruence.
Qed.

Section Size.
Context {F K C R T : Type} {SO : SOps F K C R} {p : Z} {SL : SLaws F K C R p} {TO : TransOps T R K} {HO : ShortOps T C}.

Lemma evaluate_len (ms : list (mle R)) r l : evaluate_mles_dml ms r = Ok l -> length l = length ms.
Proof. apply mapM_length. Qed.
Lemma prove_loop_shape k d comb : forall ts mles msgs cs ts', prove_loop k d comb ts mles = Ok (msgs, cs, ts') ->
  length cs = k /\ all_len k (d + 1) msgs.
Proof.
  induction k as [|k IH]; intros ts mles msgs cs ts' H; cbn [prove_loop] in H; [apply ok_inj in H; injection H as <- <- _; repeat split; constructor|].
  apply bind_ok_inv in H as (msg & E1 & H). destruct (get_challenge (absorb_slice ts msg)) as [c t]. apply bind_ok_inv in H as (ml' & _ & H).
  apply bind_ok_inv in H as ([[ms cs1] t1] & E2 & H). apply ok_inj in H. injection H as <- <- _. apply IH in E2 as (L1 & L2 & F2). cbn [length].
  split; [lia|]. split; [cbn [length]; lia|]. constructor; [|exact F2].
  assert (d <> 0%nat) as Hd by (unfold prove_round in E1; destruct (Nat.eqb_spec d 0); [discriminate|auto]).
  rewrite (prove_round_spec d) in E1 by lia. apply ok_inj in E1. rewrite <- E1, map_length, seq_length. auto.
Qed.
Lemma sc_prove_shape ts mles n d comb msgs cs ts' : sc_prove ts mles n d comb = Ok (msgs, cs, ts') -> length cs = n /\ all_len n (d + 1) msgs.
Proof. unfold sc_prove. destruct (n =? 0)%nat; [discriminate|]. apply prove_loop_shape. Qed.
Lemma to_mles_len n (ms : list (result (list R))) l : to_mles_err n ms = Ok l -> length l = length ms.
Proof. apply mapM_length. Qed.

Record lin_sized (cs : ccs R) (pf : lin_proof R) : Prop := {
  ls_sc : all_len (c_s cs) (c_d cs + 2) (lp_sc pf); ls_v : length (lp_v pf) = tau; ls_u : length (lp_u pf) = length (c_M cs) }.
Lemma lin_prove_sized cm_i (w : witness C R) ts cs lc pf ts' : length (w_fhat w) = tau -> lin_prove cm_i w ts cs = Ok (lc, pf, ts') ->
  lin_sized cs pf /\ lc_x lc = i_x cm_i /\ lc_cm lc = i_cm cm_i.
Proof.
  intros Hw H. unfold lin_prove, construct_polynomial_g, squeeze_beta in H. destruct (get_challenges (absorb_tag ts "beta_s") (c_s cs)) as [b t1].
  apply bind_ok_inv in H as ([[[mles d] Mz] t2] & E1 & H). apply bind_ok_inv in E1 as (Mz' & E2 & E1). apply bind_ok_inv in E1 as ([g1 g2] & E3 & E1). cbn [fst snd] in E1. apply ok_inj in E1. injection E1 as <- <- <- <-.
  apply bind_ok_inv in H as (_ & _ & H). apply bind_ok_inv in H as ([[proof rs] t3] & E4 & H). apply bind_ok_inv in H as (v & E5 & H). apply bind_ok_inv in H as (u & E6 & H).
  apply ok_inj in H. injection H as <- <- _. cbn [lc_x lc_cm]. split; [|auto]. apply sc_prove_shape in E4 as [_ E4].
  assert (g2 = (c_d cs + 1)%nat) as Hd.
  { unfold prepare_lin_poly in E3. apply bind_ok_inv in E3 as (? & _ & E3). apply bind_ok_inv in E3 as (? & _ & E3). apply bind_ok_inv in E3 as (? & _ & E3). apply ok_inj in E3. congruence. }
  rewrite Hd in E4. split; cbn [lp_sc lp_v lp_u].
  - replace (c_d cs + 2)%nat with (c_d cs + 1 + 1)%nat by lia. exact E4.
  - rewrite (evaluate_len _ _ _ E5). auto.
  - rewrite (evaluate_len _ _ _ E6). unfold calculate_Mz_mles in E2. rewrite (to_mles_len _ _ _ E2), map_length. auto.
Qed.

Record dec_sized (P : dparams) (A : ajtai R) (cs : ccs R) (pf : dec_proof R) : Prop := {
  ds_xs : all_len (dp_K P) (c_l cs + 1) (dp_xs pf); ds_ys : all_len (dp_K P) (kappa A) (dp_ys pf);
  ds_us : all_len (dp_K P) (length (c_M cs)) (dp_us pf); ds_vs : all_len (dp_K P) tau (dp_vs pf) }.
Lemma commit_len (A : ajtai R) f c : commit A f = Ok c -> length c = kappa A.
Proof.
  unfold commit. destruct (Nat.eqb_spec (length f) (a_ncols A)) as [E|]; cbn [negb]; [|discriminate]. intros H.
  assert (commit A f = Ok c) as H' by (unfold commit; rewrite E, Nat.eqb_refl; cbn [negb]; rewrite E in H; exact H).
  rewrite commit_ok in H' by auto. apply ok_inj in H'. rewrite <- H', map_length. auto.
Qed.
Lemma dec_prove_sized P lc (w : witness C R) ts cs (A : ajtai R) mzs lcs wits pf ts' : (1 <= dp_L P)%nat -> w_fc w <> [] -> length (lc_x lc) = c_l cs -> length (lc_cm lc) = kappa A ->
  dec_prove P lc w ts cs A = Ok (mzs, lcs, wits, pf, ts') ->
  dec_sized P A cs pf /\ length mzs = dp_K P /\ Forall (fun ms => length ms = length (c_M cs)) mzs /\ length wits = dp_K P /\ Forall (fun w => length (w_fhat w) = tau) wits.
Proof.
  intros HL Hf Hx Hc H. unfold dec_prove in H. apply bind_ok_inv in H as (_ & _ & H). apply bind_ok_inv in H as (ys & E1 & H). apply bind_ok_inv in H as (vs & E2 & H).
  apply bind_ok_inv in H as (mz & E3 & H). apply bind_ok_inv in H as (us & E4 & H). apply bind_ok_inv in H as ([l1 t1] & _ & H). cbn [fst snd] in H. apply ok_inj in H. injection H as <- _ <- <- _.
  assert (length (decompose_witness P w) = dp_K P) as LW by (unfold decompose_witness; rewrite decompose_B_vec_map, !map_length, seq_length by auto; auto).
  assert (Forall (fun w0 : witness C R => length (w_fhat w0) = tau) (decompose_witness P w)) as FW.
  { apply Forall_forall. intros w0 Hw. unfold decompose_witness in Hw. apply in_map_iff in Hw as (x & <- & _). apply get_fhat_length. }
  assert (length mz = dp_K P /\ Forall (fun ms => length ms = length (c_M cs)) mz) as [LM FM].
  { unfold compute_mz_mles in E3. split; [rewrite (mapM_length _ _ _ E3), combine_length, seq_length; lia|].
    eapply mapM_out; [|exact E3]. cbn beta. intros a b _ Hb. apply bind_ok_inv in Hb as (x & _ & Hb). rewrite (to_mles_len _ _ _ Hb), map_length. auto. }
  split; [|auto]. split; cbn [dp_xs dp_ys dp_us dp_vs].
  - unfold compute_x_s. rewrite decompose_big_vec_map by (auto; intros E; apply app_eq_nil in E as [_ E]; discriminate). split; [rewrite map_length, seq_length; auto|].
    apply Forall_forall. intros x Hin. apply in_map_iff in Hin as (i & <- & _). unfold xdig. apply gadget_recompose_length; auto.
    rewrite !map_length, gadget_decompose_length, map_length, app_length, Hx. cbn [length]. auto.
  - unfold commit_witnesses in E1. destruct (decompose_witness P w) as [|w0 rest]; [discriminate|]. apply bind_ok_inv in E1 as (cms & E1 & H). apply ok_inj in H. subst ys. cbn [length] in LW.
    split; [cbn [length]; rewrite (mapM_length _ _ _ E1); auto|]. constructor; [rewrite cm_sub_length; auto|].
    eapply mapM_out; [|exact E1]. intros a b _ Hb. apply commit_len in Hb. auto.
  - unfold compute_u_s in E4. split; [rewrite (mapM_length _ _ _ E4); auto|]. eapply mapM_out; [|exact E4]. cbn beta. intros a b Ha Hb. rewrite (evaluate_len _ _ _ Hb).
    rewrite Forall_forall in FM. auto.
  - unfold compute_v_s in E2. split; [rewrite (mapM_length _ _ _ E2); auto|]. eapply mapM_out; [|exact E2]. cbn beta. intros a b Ha Hb. rewrite (evaluate_len _ _ _ Hb).
    rewrite Forall_forall in FW. auto.
Qed.

Record fold_sized (P : dparams) (cs : ccs R) (pf : fold_proof R) : Prop := {
  fs_sc : all_len (c_s cs) (2 * dp_b P + 1) (fp_sc pf); fs_theta : all_len (2 * dp_K P) tau (fp_theta pf); fs_eta : all_len (2 * dp_K P) (length (c_M cs)) (fp_eta pf) }.
Lemma fold_prove_sized P cms (ws : list (witness C R)) ts cs mzs lc w pf ts' : length ws = (2 * dp_K P)%nat -> Forall (fun w => length (w_fhat w) = tau) ws ->
  length mzs = (2 * dp_K P)%nat -> Forall (fun ms => length ms = length (c_M cs)) mzs ->
  fold_prove P cms ws ts cs mzs = Ok (lc, w, pf, ts') -> fold_sized P cs pf.
Proof.
  intros HW FW HM FM H. unfold fold_prove in H. apply bind_ok_inv in H as (_ & _ & H). destruct (negb _); [discriminate|].
  destruct (squeeze_abzm P ts (c_s cs)) as [[[[al be] ze] mu] t1]. apply bind_ok_inv in H as (_ & _ & H). apply bind_ok_inv in H as (c1 & _ & H). apply bind_ok_inv in H as (c2 & _ & H).
  apply bind_ok_inv in H as ([mles d] & EG & H). apply bind_ok_inv in H as (_ & _ & H). apply bind_ok_inv in H as ([[proof rs] t2] & E1 & H).
  apply bind_ok_inv in H as (theta & E2 & H). apply bind_ok_inv in H as (eta & E3 & H).
  destruct (get_rhos P (absorb_slices (absorb_slices t2 theta) eta)) as [[rc rr] t3]. apply bind_ok_inv in H as (f0 & _ & H). apply bind_ok_inv in H as ([[[v0 cm0] u0] x0] & _ & H).
  apply bind_ok_inv in H as (lc1 & _ & H). apply ok_inj in H. injection H as _ _ <- _. apply sc_prove_shape in E1 as [_ E1].
  assert (d = (2 * dp_b P)%nat) as ->.
  { unfold create_sumcheck_polynomial in EG. destruct (_ || _); [discriminate|]. repeat (apply bind_ok_inv in EG as (? & _ & EG)). apply ok_inj in EG. congruence. }
  split; cbn [fp_sc fp_theta fp_eta]; [exact E1| |].
  - split; [rewrite (mapM_length _ _ _ E2), map_length; auto|]. eapply mapM_out; [|exact E2]. cbn beta. intros a b Ha Hb. rewrite (evaluate_len _ _ _ Hb).
    apply in_map_iff in Ha as (x & <- & Hx). rewrite Forall_forall in FW. auto.
  - split; [rewrite (mapM_length _ _ _ E3); auto|]. eapply mapM_out; [|exact E3]. cbn beta. intros a b Ha Hb. rewrite (evaluate_len _ _ _ Hb). rewrite Forall_forall in FM. auto.
Qed.

Record nifs_sized (P : dparams) (A : ajtai R) (cs : ccs R) (pf : lf_proof R) : Prop := {
  ns_lin : lin_sized cs (lf_lin pf); ns_l : dec_sized P A cs (lf_dec_l pf); ns_r : dec_sized P A cs (lf_dec_r pf); ns_fold : fold_sized P cs (lf_fold pf) }.
Lemma opens_facts P A cs y (w : witness C R) : sizes_ok p P cs -> opens P A cs y w -> length y = kappa A /\ w_fc w <> [] /\ length (w_fhat w) = tau.
Proof.
  intros [_ _ (_ & HL & _) _ _ _ Hn _] [(_ & Hfc & Hfh & _) Hl Hc]. split; [exact (commit_len _ _ _ Hc)|]. split.
  - intros E. apply (f_equal (@length C)) in E. rewrite Hfc, map_length, Hl in E. cbn [length] in E. nia.
  - rewrite Hfh. apply get_fhat_length.
Qed.
Theorem nifs_prove_sized P acc (w_acc : witness C R) cm_i w_i ts cs (A : ajtai R) lc w pf ts' : sizes_ok p P cs ->
  lcccs_rel P A cs acc w_acc -> cccs_rel P A cs cm_i w_i ->
  nifs_prove P acc w_acc cm_i w_i ts cs A = Ok (lc, w, pf, ts') -> nifs_sized P A cs pf.
Proof.
  intros HS Ra Ri H. unfold nifs_prove in H. apply bind_ok_inv in H as (_ & _ & H). apply bind_ok_inv in H as ([[lin pl] t1] & E1 & H).
  apply bind_ok_inv in H as ([[[[mzl lcl] wl] pdl] t2] & E2 & H). apply bind_ok_inv in H as ([[[[mzr lcr] wr] pdr] t3] & E3 & H).
  apply bind_ok_inv in H as ([[[lc' w'] pff] t4] & E4 & H). apply ok_inj in H. injection H as _ _ <- _.
  destruct (opens_facts _ _ _ _ _ HS (lr_open _ _ _ _ _ Ra)) as (A1 & A2 & _). destruct (opens_facts _ _ _ _ _ HS (cr_open _ _ _ _ _ Ri)) as (I1 & I2 & I3).
  assert (1 <= dp_L P)%nat as HL by apply HS.
  apply lin_prove_sized in E1 as (S1 & X1 & C1); auto.
  apply dec_prove_sized in E2 as (S2 & M2 & FM2 & W2 & FW2); auto; [|apply Ra].
  apply dec_prove_sized in E3 as (S3 & M3 & FM3 & W3 & FW3); auto; [|rewrite X1; apply Ri|rewrite C1; auto].
  apply fold_prove_sized in E4; [|rewrite app_length; lia|apply Forall_app; auto|rewrite app_length; lia|apply Forall_app; auto]. split; auto.
Qed.
(** The number of ring elements in a proof. *)
Definition dec_size (pf : dec_proof R) : nat := (length (concat (dp_xs pf)) + length (concat (dp_ys pf)) + length (concat (dp_us pf)) + length (concat (dp_vs pf)))%nat.
Definition lf_size (pf : lf_proof R) : nat :=
  (length (concat (lp_sc (lf_lin pf))) + length (lp_v (lf_lin pf)) + length (lp_u (lf_lin pf)) + dec_size (lf_dec_l pf) + dec_size (lf_dec_r pf) +
   length (concat (fp_sc (lf_fold pf))) + length (concat (fp_theta (lf_fold pf))) + length (concat (fp_eta (lf_fold pf))))%nat.
Lemma sized_size P A cs pf : length (c_M cs) = c_t cs -> nifs_sized P A cs pf ->
  lf_size pf = (c_s cs * (c_d cs + 2 * dp_b P + 3) + (2 * dp_K P) * (c_l cs + 1 + kappa A) + (4 * dp_K P + 1) * (tau + c_t cs))%nat.
Proof.
  intros Ht [[L1 L2 L3] [X1 X2 X3 X4] [Y1 Y2 Y3 Y4] [F1 F2 F3]]. unfold lf_size, dec_size.
  rewrite (all_len_size _ _ _ L1), L2, L3, (all_len_size _ _ _ X1), (all_len_size _ _ _ X2), (all_len_size _ _ _ X3), (all_len_size _ _ _ X4),
    (all_len_size _ _ _ Y1), (all_len_size _ _ _ Y2), (all_len_size _ _ _ Y3), (all_len_size _ _ _ Y4), (all_len_size _ _ _ F1), (all_len_size _ _ _ F2), (all_len_size _ _ _ F3), Ht. nia.
Qed.
End Size.
