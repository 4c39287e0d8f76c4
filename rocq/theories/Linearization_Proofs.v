From Coq Require Import String List Arith Lia ZArith Bool Ring.
From Verif Require Import Prelude Alg Poly MLE MLE_Proofs Transcript Interp Interp_Proofs
  Sumcheck Sumcheck_Proofs CombDeg Arith Arith_Proofs Rings Linearization.
Import ListNotations.
Local Open Scope rs_scope.

(** ** Specification *)
Section Spec.
Context {R : Type} {RO : RingOps R}.
(** Matrices of the terms with nonzero coefficient, in the order of the terms. *)
Definition flat_S (cs : ccs R) : list nat := concat (map (fun i => nth i (c_S cs) []) (nonzero_idx (c_c cs))).
(** Every used matrix index is at the position of its own number in that list. *)
Definition in_order (cs : ccs R) : Prop := Forall (fun j => nth_error (flat_S cs) j = Some j) (flat_S cs).
Definition degree_ok (cs : ccs R) : Prop :=
  forall i, (i < c_q cs)%nat -> nth i (c_c cs) 0 <> 0 -> (length (nth i (c_S cs) []) <= c_d cs)%nat.
(** m is a power of two with s its logarithm, and no matrix has more than m rows. *)
Definition sized_ccs (cs : ccs R) : Prop :=
  c_m cs = (2 ^ c_s cs)%nat /\ (1 <= c_s cs)%nat /\ Forall (fun M => (m_nrows M <= c_m cs)%nat) (c_M cs).
(** The CCS polynomial in the values of the matrices. *)
Definition ccs_poly (cs : ccs R) (vals : list R) : R :=
  sumn (c_q cs) (fun i => nth i (c_c cs) 0 * lprod (map (fun j => nth j vals 0) (nth i (c_S cs) []))).
End Spec.

Section P.
Context {C R K T : Type} {RO : RingOps R} {KO : FieldOps K} {E : Embed K R} {TO : TransOps T R K}.
Context {LR : RingLaws R} {LK : FieldLaws K} {LE : EmbedLaws K R}.
Add Ring Rring11 : (@rlaws_th R RO LR).

Lemma mapM_index_ok {A} (l : list A) js d :
  Forall (fun j => (j < length l)%nat) js -> mapM (index l) js = Ok (map (fun j => nth j l d) js).
Proof.
  intros H. apply mapM_ok. intros j Hj. apply index_ok. rewrite Forall_forall in H. auto.
Qed.
Lemma mapM_index_inv {A} (l : list A) js r d :
  mapM (index l) js = Ok r -> r = map (fun j => nth j l d) js /\ Forall (fun j => (j < length l)%nat) js.
Proof.
  revert r; induction js as [|j js IH]; intros r H; cbn [mapM] in H.
  - injection H as <-. split; auto.
  - destruct (index l j) eqn:Ej; cbn [bind] in H; try discriminate.
    destruct (mapM (index l) js) eqn:Em; cbn [bind] in H; try discriminate.
    injection H as <-. destruct (IH _ eq_refl) as [-> HF]. unfold index in Ej.
    destruct (nth_error l j) eqn:En; try discriminate. cbn in Ej. injection Ej as ->.
    split.
    + cbn [map]. f_equal. symmetry. apply nth_error_nth. auto.
    + constructor; auto. apply nth_error_Some. congruence.
Qed.

Lemma lin_term_spec c Si vals :
  match lin_term c Si vals with Some t => t | None => 0 end =
  c * lprod (map (fun j => nth j vals 0) Si).
Proof.
  revert c; induction Si as [|j Si IH]; intros c; cbn [lin_term map].
  - unfold lprod. cbn [fold_right]. ring.
  - destruct (req_dec (nth j vals 0) 0) as [H|H].
    + rewrite H, req_refl. unfold lprod. cbn [fold_right]. ring.
    + rewrite (proj2 (req_false _ _) H). rewrite IH. unfold lprod. cbn [fold_right]. ring.
Qed.
Lemma lin_comb_spec cs vals : wf_ccs cs ->
  lin_comb cs vals = ccs_poly cs vals * nth (length vals - 1) vals 0.
Proof.
  intros (_ & _ & Hc & _). unfold lin_comb, ccs_poly. f_equal. rewrite Hc.
  assert (forall l a, fold_left (fun result i =>
      let c := nth i (c_c cs) 0 in
      if c =? 0 then result
      else match lin_term c (nth i (c_S cs) []) vals with
           | Some term => result + term
           | None => result
           end) l a = a + lsum (map (fun i => nth i (c_c cs) 0 * lprod (map (fun j => nth j vals 0) (nth i (c_S cs) []))) l)) as H.
  { induction l as [|i l IH]; intros a; cbn [fold_left map].
    - change (lsum []) with (0 : R). ring.
    - rewrite IH. change (lsum (?x :: ?l)) with (x + lsum l).
      rewrite <- (lin_term_spec (nth i (c_c cs) 0)). cbv zeta.
      destruct (req_dec (nth i (c_c cs) 0) 0) as [H|H].
      + rewrite H, req_refl. rewrite lin_term_spec. ring.
      + rewrite (proj2 (req_false _ _) H). destruct (lin_term _ _ _); ring. }
  rewrite H, lsum_map_seq. ring.
Qed.
Lemma ccs_poly_deg cs n : degree_ok cs -> comb_deg n (c_d cs) (ccs_poly cs).
Proof.
  intros Hd. unfold ccs_poly. apply comb_deg_sumn. intros i Hi.
  destruct (req_dec (nth i (c_c cs) 0) 0) as [H|H].
  - eapply comb_deg_ext; [|apply (comb_deg_const n _ 0)]. intros. cbn beta. rewrite H. ring.
  - apply comb_deg_scale. eapply comb_deg_mono; [|apply (comb_deg_lprod n 1 (nth i (c_S cs) []) (fun j v => nth j v 0))].
    + rewrite Nat.mul_1_r. auto.
    + intros. apply comb_deg_nth.
Qed.
Lemma lin_comb_deg cs n : wf_ccs cs -> degree_ok cs -> comb_deg n (c_d cs + 1) (lin_comb cs).
Proof.
  intros Hw Hd. eapply comb_deg_ext; [|apply comb_deg_mul; [apply (ccs_poly_deg cs n Hd)|apply (comb_deg_nth n (n - 1))]].
  intros v Hv. cbn beta. rewrite lin_comb_spec by auto. rewrite Hv. auto.
Qed.
Lemma mz_empty z r : mz (SMat 0 0 []) z r = (0 : R).
Proof. apply mz_out. cbn. lia. Qed.
Lemma ccs_row_poly cs z r : ccs_row cs z r = ccs_poly cs (map (fun M => mz M z r) (c_M cs)).
Proof.
  unfold ccs_row, ccs_poly. apply sumn_ext. intros i Hi. do 2 f_equal. apply map_ext. intros j.
  rewrite <- (mz_empty z r). rewrite (map_nth (fun M => mz M z r)). auto.
Qed.

(** Table of M z. *)
Definition Mz_mle (s : nat) (z : list R) (M : smat R) : mle R := Mle s (map (mz M z) (seq 0 (2 ^ s))).
Lemma Mz_mle_get s z M b : (b < 2 ^ s)%nat -> mle_get (Mz_mle s z M) b = mz M z b.
Proof. intros. unfold mle_get, Mz_mle. cbn [mle_evals]. apply nth_seq_map. auto. Qed.
Lemma Mz_mle_eval s z M r : length r = s -> mle_spec (mle_get (Mz_mle s z M)) r = mle_spec (mz M z) r.
Proof. intros H. apply mle_spec_ext. intros b Hb. apply Mz_mle_get. rewrite <- H. auto. Qed.
Lemma calculate_Mz_ok cs z : wf_ccs cs -> sized_ccs cs -> length z = c_n cs ->
  calculate_Mz_mles cs z = Ok (map (Mz_mle (c_s cs) z) (c_M cs)).
Proof.
  intros (_ & _ & _ & HM & _) (Hm & _ & Hr) Hz. unfold calculate_Mz_mles, to_mles_err.
  assert (forall l, Forall (wf_mat (c_n cs)) l -> Forall (fun M => (m_nrows M <= c_m cs)%nat) l ->
    mapM (fun rm => do m <- rm; if (2 ^ c_s cs <? length m)%nat
        then Err (MleIncorrectLength (2 ^ c_s cs) (length m)) else mle_from_vec (c_s cs) m)
      (map (fun M => mat_vec_mul M z) l) = Ok (map (Mz_mle (c_s cs) z) l)) as HH; [|apply HH; auto].
  induction l as [|M l IH]; intros H1 H2; [reflexivity|]. inversion_clear H1. inversion_clear H2.
  cbn [map mapM]. rewrite mat_vec_mul_ok by (rewrite Hz; auto). cbn [bind].
  rewrite map_length, seq_length. destruct H as (_ & Hrows & _). rewrite <- Hrows.
  destruct (Nat.ltb_spec (2 ^ c_s cs) (m_nrows M)); [lia|].
  rewrite IH by auto. unfold mle_from_vec. rewrite map_length, seq_length.
  destruct (Nat.leb_spec (m_nrows M) (2 ^ c_s cs)); [|lia]. cbn [bind]. do 2 f_equal. unfold Mz_mle. f_equal. rewrite Hrows. apply resize_mz.
Qed.
Lemma evaluate_mles_ok ms (r : list R) : Forall (fun m => mle_nv m = length r) ms ->
  evaluate_mles_dml ms r = Ok (map (fun m => mle_spec (mle_get m) r) ms).
Proof.
  intros H. apply mapM_ok. intros m Hm. rewrite Forall_forall in H. rewrite dml_evaluate_spec, (H m Hm), Nat.eqb_refl. auto.
Qed.

Lemma flat_lt cs : wf_ccs cs -> Forall (fun j => (j < c_t cs)%nat) (flat_S cs).
Proof.
  intros (_ & HS & _ & _ & HSt). apply Forall_concat. rewrite Forall_map. apply Forall_forall. intros i _.
  destruct (Nat.lt_ge_cases i (length (c_S cs))).
  - rewrite Forall_forall in HSt. apply HSt. apply nth_In. auto.
  - rewrite nth_overflow by auto. constructor.
Qed.
Lemma nonzero_idx_lt (c : list R) i : In i (nonzero_idx c) -> (i < length c)%nat /\ nth i c 0 <> 0.
Proof.
  unfold nonzero_idx. rewrite filter_In, in_seq, negb_true_iff, req_false. lia || intros [H1 H2]; split; [lia|auto].
Qed.
Lemma nonzero_idx_in (c : list R) i : (i < length c)%nat -> nth i c 0 <> 0 -> In i (nonzero_idx c).
Proof.
  intros. unfold nonzero_idx. rewrite filter_In, in_seq, negb_true_iff, req_false. split; [lia|auto].
Qed.
Lemma prepare_lin_poly_ok cs (ms : list (mle R)) beta : wf_ccs cs -> length ms = c_t cs -> beta <> [] ->
  prepare_lin_poly (c_c cs) (c_d cs) ms (c_S cs) beta =
  Ok (map (fun j => nth j ms (Mle 0 [])) (flat_S cs) ++ [Mle (length beta) (map (eqw beta) (seq 0 (2 ^ length beta)))],
      (c_d cs + 1)%nat).
Proof.
  intros Hw Hms Hb. unfold prepare_lin_poly.
  rewrite (mapM_index_ok _ _ []).
  2:{ apply Forall_forall. intros i Hi. apply nonzero_idx_lt in Hi as [Hi _].
      destruct Hw as (_ & -> & Hc & _). rewrite Hc in Hi. auto. }
  cbn [bind]. fold (flat_S cs).
  rewrite (mapM_index_ok ms _ (Mle 0 [])) by (rewrite Hms; apply flat_lt; auto).
  cbn [bind]. rewrite build_eq_mle by auto. reflexivity.
Qed.

(** The values the combination function sees are those of the matrices. *)
Lemma in_order_vals cs (f : nat -> R) e : in_order cs ->
  ccs_poly cs (map f (flat_S cs) ++ [e]) = sumn (c_q cs) (fun i => nth i (c_c cs) 0 *
     lprod (map f (nth i (c_S cs) []))) \/ length (c_c cs) <> c_q cs.
Proof.
  intros Ho. destruct (Nat.eq_dec (length (c_c cs)) (c_q cs)) as [Hc|]; [left|right; auto].
  unfold ccs_poly. apply sumn_ext. intros i Hi.
  destruct (req_dec (nth i (c_c cs) 0) 0) as [H|H]; [rewrite H; ring|].
  do 2 f_equal. apply map_ext_in. intros j Hj.
  unfold in_order in Ho. rewrite Forall_forall in Ho.
  assert (In j (flat_S cs)) as Hin.
  { unfold flat_S. apply in_concat. exists (nth i (c_S cs) []). split; auto.
    apply in_map_iff. exists i. split; auto. apply nonzero_idx_in; auto. rewrite Hc. auto. }
  apply Ho in Hin. assert (j < length (flat_S cs))%nat as Hlt by (apply nth_error_Some; congruence).
  rewrite app_nth1 by (rewrite map_length; auto).
  rewrite (nth_map_lt _ _ _ 0%nat) by auto. f_equal. apply nth_error_nth. auto.
Qed.
Lemma in_order_vals' cs (f : nat -> R) e : wf_ccs cs -> in_order cs ->
  ccs_poly cs (map f (flat_S cs) ++ [e]) = sumn (c_q cs) (fun i => nth i (c_c cs) 0 *
     lprod (map f (nth i (c_S cs) []))).
Proof.
  intros (_ & _ & Hc & _) Ho. destruct (in_order_vals cs f e Ho); auto. contradiction.
Qed.

Lemma squeeze_beta_eq (ts : T) n : squeeze_beta ts n =
  (map emb (fst (get_challenges (absorb_tag ts "beta_s") n)), snd (get_challenges (absorb_tag ts "beta_s") n)).
Proof. unfold squeeze_beta. destruct (get_challenges _ _). reflexivity. Qed.

Lemma lin_check_claim_ok beta r s (pf : lin_proof R) cs :
  wf_ccs cs -> length r = length beta -> length (lp_u pf) = c_t cs ->
  lin_check_claim beta r s pf cs =
  (if eqp r beta * ccs_poly cs (lp_u pf) =? s then Ok tt else Err SumCheckFailed).
Proof.
  intros (HMt & HS & Hc & _ & HSt) Hr Hu. unfold lin_check_claim.
  rewrite eq_eval_spec, Hr, Nat.eqb_refl. cbn [bind].
  rewrite (mapM_ok _ (fun ic : nat * R => snd ic * lprod (map (fun j => nth j (lp_u pf) 0) (nth (fst ic) (c_S cs) [])))).
  - cbn [bind].
    match goal with |- (if eqp r beta * ?a =? s then _ else _) = (if eqp r beta * ?b =? s then _ else _) =>
      assert (a = b) as Hab; [|rewrite Hab; reflexivity] end.
    unfold ccs_poly. rewrite lsum_nth, map_length, combine_length, seq_length, Hc, Nat.min_id.
    apply sumn_ext. intros i Hi.
    rewrite (nth_map_lt _ _ _ (0%nat, 0)) by (rewrite combine_length, seq_length, Hc; lia).
    rewrite combine_nth by (rewrite seq_length; auto). cbn [fst snd]. rewrite seq_nth by lia. auto.
  - intros [i c] Hin. apply in_combine_l in Hin. apply in_seq in Hin. cbn [fst snd].
    rewrite (index_ok (c_S cs) i []) by lia. cbn [bind].
    rewrite (mapM_index_ok _ _ 0); [reflexivity|]. rewrite Hu.
    rewrite Forall_forall in HSt. apply HSt. apply nth_In. lia.
Qed.

Theorem lin_complete (cm_i : cccs R) (wit : witness C R) (ts : T) (cs : ccs R) :
  wf_ccs cs -> sized_ccs cs -> in_order cs -> degree_ok cs -> char_gt K (c_d cs + 1) ->
  Forall (fun m => mle_nv m = c_s cs) (w_fhat wit) ->
  length (cccs_z cm_i (w_ccs wit)) = c_n cs -> ccs_check cs (cccs_z cm_i (w_ccs wit)) = Ok tt ->
  exists lc pf ts' rs,
    lin_prove cm_i wit ts cs = Ok (lc, pf, ts') /\
    lin_verify cm_i pf ts cs = Ok (lc, ts') /\
    length rs = c_s cs /\ lc_r lc = map emb rs /\
    lc_v lc = map (fun m => mle_spec (mle_get m) (lc_r lc)) (w_fhat wit) /\
    lc_u lc = map (fun M => mle_spec (mz M (lcccs_z lc (w_ccs wit))) (lc_r lc)) (c_M cs) /\
    lc_cm lc = i_cm cm_i /\ lc_x lc = i_x cm_i /\ lc_h lc = 1 /\
    lp_v pf = lc_v lc /\ lp_u pf = lc_u lc /\ length (lp_sc pf) = c_s cs.
Proof.
  intros Hw Hsz Ho Hd Hch Hfh Hz Hsat. set (z := cccs_z cm_i (w_ccs wit)) in *.
  unfold lin_prove, lin_verify, construct_polynomial_g. fold z. rewrite squeeze_beta_eq.
  set (betas := fst (get_challenges (absorb_tag ts "beta_s") (c_s cs))).
  set (ts1 := snd (get_challenges (absorb_tag ts "beta_s") (c_s cs))).
  assert (length betas = c_s cs) as Hbl by apply get_challenges_length.
  set (beta := map emb betas : list R).
  assert (length beta = c_s cs) as Hbl' by (unfold beta; rewrite map_length; auto).
  pose proof Hsz as (Hm & Hs1 & Hrows).
  assert (beta <> []) as Hbne by (intros E0; rewrite E0 in Hbl'; cbn in Hbl'; lia).
  rewrite calculate_Mz_ok by auto. cbn [bind].
  assert (length (c_M cs) = c_t cs) as HMt by apply Hw.
  set (Mz := map (Mz_mle (c_s cs) z) (c_M cs)).
  rewrite prepare_lin_poly_ok; auto; [|unfold Mz; rewrite map_length; auto]. cbn [bind fst snd].
  rewrite Hbl'. set (eqm := Mle (c_s cs) (map (eqw beta) (seq 0 (2 ^ c_s cs)))).
  set (mles := map (fun j => nth j Mz (Mle 0 [])) (flat_S cs) ++ [eqm]).
  assert (lin_comb_safe cs (length mles) = true) as ->.
  { unfold lin_comb_safe. apply forallb_forall. intros i Hi. apply forallb_forall. intros j Hj.
    apply Nat.ltb_lt. unfold mles. rewrite app_length, map_length. cbn [length].
    assert (In j (flat_S cs)) as Hin.
    { unfold flat_S. apply in_concat. exists (nth i (c_S cs) []). split; auto. apply in_map_iff. exists i. auto. }
    unfold in_order in Ho. rewrite Forall_forall in Ho. apply Ho in Hin.
    assert (j < length (flat_S cs))%nat by (apply nth_error_Some; congruence). lia. }
  cbn [guard bind].
  assert (Forall (fun m => mle_nv m = c_s cs) mles) as Hnv.
  { unfold mles. apply Forall_app. split; [|repeat constructor]. rewrite Forall_map.
    eapply Forall_impl; [|apply (flat_lt cs Hw)]. intros j Hj. cbn beta in *.
    unfold Mz. rewrite (nth_map_lt _ _ _ (SMat 0 0 [])) by lia. reflexivity. }
  (* values at a point *)
  assert (forall p, length p = c_s cs -> mles_at mles p =
     map (fun j => mle_spec (mz (nth j (c_M cs) (SMat 0 0 [])) z) p) (flat_S cs) ++ [eqp p beta]) as Hat.
  { intros p Hp. unfold mles_at, mles. rewrite map_app, map_map. cbn [map]. f_equal.
    - apply map_ext_in. intros j Hj. pose proof (flat_lt cs Hw) as Hf. rewrite Forall_forall in Hf. specialize (Hf j Hj).
      unfold Mz. rewrite (nth_map_lt _ _ _ (SMat 0 0 [])) by lia. apply Mz_mle_eval. auto.
    - f_equal. rewrite <- mle_spec_eqw by lia. apply mle_spec_ext. intros b Hb. rewrite Hp in Hb.
      unfold mle_get, eqm. cbn [mle_evals]. apply nth_seq_map. auto. }
  assert (forall p, length p = c_s cs -> lin_comb cs (mles_at mles p) =
     ccs_poly cs (map (fun M => mle_spec (mz M z) p) (c_M cs)) * eqp p beta) as Hcomb.
  { intros p Hp. rewrite lin_comb_spec by auto. rewrite Hat by auto.
    rewrite app_length, map_length. cbn [length].
    replace (length (flat_S cs) + 1 - 1)%nat with (length (flat_S cs)) by lia.
    rewrite app_nth2 by (rewrite map_length; lia). rewrite map_length, Nat.sub_diag. cbn [nth].
    f_equal. rewrite in_order_vals' by auto. unfold ccs_poly. apply sumn_ext. intros i Hi.
    do 2 f_equal. apply map_ext. intros j.
    assert (mle_spec (mz (SMat 0 0 []) z) p = (0 : R)) as H0.
    { rewrite (mle_spec_ext _ (fun _ => 0)) by (intros; apply mz_empty). apply mle_spec_zero. }
    rewrite <- H0. rewrite (map_nth (fun M => mle_spec (mz M z) p)). auto. }
  destruct (sumcheck_complete ts1 mles (c_s cs) (c_d cs + 1) (lin_comb cs)) as (proof & rs & ts' & Hp & Hlr & Hlp & Hv); auto; try lia.
  { apply lin_comb_deg; auto. }
  rewrite Hp. cbn [bind].
  assert (cube_sum (c_s cs) (fun p => lin_comb cs (mles_at mles p)) = 0) as Hsum.
  { unfold cube_sum. apply sumn_0. intros b Hb. rewrite Hcomb by apply bits_length.
    transitivity (ccs_row cs z b * eqp (bits (c_s cs) b) beta).
    - f_equal. rewrite ccs_row_poly. f_equal. apply map_ext. intros M. apply mle_spec_bits. auto.
    - pose proof (ccs_check_spec cs z Hw Hz) as HS. apply first_bad_ok in HS. rewrite HS in Hsat.
      destruct (req_dec (ccs_row cs z b) 0) as [->|Hne]; [ring|]. exfalso.
      apply (Hsat b); auto. rewrite Hm. auto. }
  rewrite Hsum in Hv. set (r := map emb rs) in *.
  assert (length r = c_s cs) as Hrl by (unfold r; rewrite map_length; auto).
  rewrite !evaluate_mles_ok.
  2:{ unfold Mz. rewrite Forall_map. apply Forall_forall. intros M _. rewrite Hrl. reflexivity. }
  2:{ rewrite Hrl. auto. }
  cbn [bind].
  set (v := map (fun m => mle_spec (mle_get m) r) (w_fhat wit)).
  set (u := map (fun m => mle_spec (mle_get m) r) Mz).
  assert (u = map (fun M => mle_spec (mz M z) r) (c_M cs)) as Hu.
  { unfold u, Mz. rewrite map_map. apply map_ext. intros M. apply Mz_mle_eval. auto. }
  exists (Lcccs r v (i_cm cm_i) u (i_x cm_i) 1), (LinProof proof v u),
    (absorb_slice (absorb_slice ts' v) u), rs.
  split; [reflexivity|]. cbn [lp_sc lp_v lp_u lc_r lc_v lc_u lc_cm lc_x lc_h].
  split; [|repeat split; auto].
  rewrite Hv. cbn [bind]. fold r. rewrite Hcomb by auto.
  rewrite lin_check_claim_ok; cbn [lp_u]; auto; [|lia|rewrite Hu, map_length; auto].
  rewrite Hu. rewrite (proj2 (req_true _ _)); [reflexivity|]. ring.
Qed.

(** ** Soundness *)
Lemma all_zero_dec (t : nat -> R) n : (forall b, (b < n)%nat -> t b = 0) \/ (exists b, (b < n)%nat /\ t b <> 0).
Proof.
  induction n as [|n [IH|(b & Hb & H)]].
  - left. intros; lia.
  - destruct (req_dec (t n) 0).
    + left. intros b Hb. destruct (Nat.eq_dec b n); [subst; auto|apply IH; lia].
    + right. exists n. split; auto.
  - right. exists b. split; auto.
Qed.
(** Table [t], after fixing its first variables to [pre], vanishes identically when the next
    variable is set to [y] ([n] variables remain). *)
Definition vanishes_at (t : nat -> R) (pre : list R) (n : nat) (y : R) : Prop :=
  forall b, (b < 2 ^ n)%nat -> mle_spec t (pre ++ y :: bits n b) = 0.
(** A coordinate of [betas] that kills a table which, fixed at the earlier coordinates, is not yet
    zero.  Which values do this is determined by the table and the earlier coordinates, and there
    is at most one such value. *)
Definition bad_coord (t : nat -> R) (betas : list K) : Prop :=
  exists i, (i < length betas)%nat /\
    let n := (length betas - 1 - i)%nat in
    let pre := map emb (firstn i betas) in
    ~ (forall y, vanishes_at t pre n y) /\ vanishes_at t pre n (emb (nth i betas 0)) /\
    forall bad : list K, NoDup bad -> (forall c, In c bad -> vanishes_at t pre n (emb c)) -> (length bad <= 1)%nat.
Lemma zero_mle_bad_coord (t : nat -> R) (betas : list K) b :
  (b < 2 ^ length betas)%nat -> t b <> 0 -> mle_spec t (map emb betas) = 0 -> bad_coord t betas.
Proof.
  revert t b; induction betas as [|k betas IH]; intros t b Hb Ht H0.
  - cbn in Hb. assert (b = 0)%nat as -> by lia. cbn [map] in H0. rewrite mle_spec_nil in H0. contradiction.
  - cbn [map] in H0. rewrite mle_spec_cons in H0.
    set (t' := fun i => t (2 * i)%nat + emb k * (t (2 * i + 1)%nat - t (2 * i)%nat)) in H0.
    destruct (all_zero_dec t' (2 ^ length betas)) as [Hz|(b' & Hb' & Hne)].
    + exists 0%nat. cbn [length firstn map app nth]. split; [lia|].
      replace (S (length betas) - 1 - 0)%nat with (length betas) by lia. cbv zeta.
      assert (forall y b', (b' < 2 ^ length betas)%nat ->
        mle_spec t (y :: bits (length betas) b') = t (2 * b')%nat + y * (t (2 * b' + 1)%nat - t (2 * b')%nat)) as Hh.
      { intros y b' Hb'. rewrite mle_spec_cons. apply mle_spec_bits with (t := fun i => _). auto. }
      set (b' := Nat.div2 b).
      assert (b' < 2 ^ length betas)%nat as Hb'.
      { unfold b'. cbn [length] in Hb. rewrite pow2_S in Hb. pose proof (Nat.div2_odd b). destruct (Nat.odd b); cbn in *; lia. }
      assert (deg_le 1 (fun y => mle_spec t (y :: bits (length betas) b'))) as Hdeg.
      { eapply deg_le_ext; [|apply deg_le_affine]. intros. symmetry. apply Hh; auto. }
      assert (exists y, mle_spec t (y :: bits (length betas) b') <> 0) as [y Hy].
      { pose proof (Nat.div2_odd b) as Hodd. fold b' in Hodd. destruct (Nat.odd b); cbn [Nat.b2n] in Hodd.
        - exists 1. rewrite Hh by auto. replace (t (2 * b')%nat + 1 * (t (2 * b' + 1)%nat - t (2 * b')%nat)) with (t (2 * b' + 1)%nat) by ring.
          rewrite <- Hodd. auto.
        - exists 0. rewrite Hh by auto. replace (t (2 * b')%nat + 0 * (t (2 * b' + 1)%nat - t (2 * b')%nat)) with (t (2 * b')%nat) by ring.
          rewrite Nat.add_0_r in Hodd. rewrite <- Hodd. auto. }
      split; [intros Hall; apply Hy; apply (Hall y b' Hb')|]. split.
      * intros b2 Hb2. cbn [app]. rewrite Hh by auto. apply (Hz b2 Hb2).
      * intros bad Hnd Hr. eapply (deg_le_agree_count emb emb_hom 1 _ (fun _ => 0) bad y Hdeg (deg_le_const 0 1)); eauto.
        intros c Hc. apply (Hr c Hc b' Hb').
    + destruct (IH t' b' Hb' Hne H0) as (i & Hi & Hd & Hr & Hc).
      exists (S i). cbn [length firstn map app nth]. split; [lia|].
      replace (S (length betas) - 1 - S i)%nat with (length betas - 1 - i)%nat by lia.
      assert (forall y, vanishes_at t (emb k :: map emb (firstn i betas)) (length betas - 1 - i) y <->
                        vanishes_at t' (map emb (firstn i betas)) (length betas - 1 - i) y) as He.
      { intros y. unfold vanishes_at. cbn [app]. split; intros H b2 Hb2; specialize (H b2 Hb2);
        rewrite mle_spec_cons in *; exact H. }
      cbv zeta in *. split; [intros H; apply Hd; intros y; apply He; apply H|].
      split; [apply He; auto|].
      intros bad Hnd Hb2. apply Hc; auto. intros c Hc'. apply He. auto.
Qed.

Definition sc_bad (n d : nat) (g : list R -> R) (ts : T) (proof : list (list R)) (r : list K) : Prop :=
  exists i, (i < n)%nat /\
    let msg := nth i proof [] in
    let h := true_round g (map emb (firstn i r)) (n - 1 - i) in
    length msg = (d + 1)%nat /\
    nth i r 0 = fs_challenge (absorb (absorb ts (rofn n)) (rofn d)) (firstn i proof) msg /\
    bad_challenge msg h (nth i r 0) /\
    deg_le d h /\
    forall bad : list K, NoDup bad -> (forall c, In c bad -> bad_challenge msg h c) -> (length bad <= d)%nat.

(** Shape of an accepting run. *)
Lemma lin_verify_inv cm_i pf ts cs lc ts' : wf_ccs cs ->
  lin_verify cm_i pf ts cs = Ok (lc, ts') ->
  let betas := fst (get_challenges (absorb_tag ts "beta_s") (c_s cs)) in
  let ts1 := snd (get_challenges (absorb_tag ts "beta_s") (c_s cs)) in
  exists rs e ts2,
    sc_verify ts1 (c_s cs) (c_d cs + 1) 0 (lp_sc pf) = Ok (rs, e, ts2) /\ length rs = c_s cs /\
    lc = Lcccs (map emb rs) (lp_v pf) (i_cm cm_i) (lp_u pf) (i_x cm_i) 1 /\
    e = eqp (map emb rs) (map emb betas) * ccs_poly cs (lp_u pf) /\
    ts' = absorb_slice (absorb_slice ts2 (lp_v pf)) (lp_u pf).
Proof.
  intros Hw H. cbv zeta. unfold lin_verify in H. rewrite squeeze_beta_eq in H.
  set (betas := fst (get_challenges (absorb_tag ts "beta_s") (c_s cs))) in *.
  set (ts1 := snd (get_challenges (absorb_tag ts "beta_s") (c_s cs))) in *.
  destruct (sc_verify ts1 (c_s cs) (c_d cs + 1) 0 (lp_sc pf)) as [[[rs e] ts2]| |] eqn:Hsc; cbn [bind] in H; try discriminate.
  assert (length rs = c_s cs) as Hrs.
  { unfold sc_verify in Hsc. apply bind_ok_inv in Hsc as ([[ms cs'] tt'] & H1 & H2).
    apply verify_loop_inv in H1 as (_ & _ & H1). destruct (c_s cs =? 0)%nat; [discriminate|].
    apply bind_ok_inv in H2 as (e' & _ & H2). injection H2 as <- _ _. auto. }
  exists rs, e, ts2. split; auto. split; auto.
  destruct (lin_check_claim _ _ _ _ _) eqn:Hck; cbn [bind] in H; try discriminate.
  injection H as <- <-. split; auto. split; [|auto].
  unfold lin_check_claim in Hck. rewrite eq_eval_spec, !map_length in Hck.
  rewrite Hrs in Hck. unfold betas at 1 in Hck. rewrite get_challenges_length, Nat.eqb_refl in Hck. cbn [bind] in Hck.
  apply bind_ok_inv in Hck as (terms & Ht & Hck).
  destruct (_ =? e) eqn:He; [|discriminate]. apply req_true in He. rewrite <- He. f_equal.
  destruct Hw as (_ & HS & Hc & _).
  unfold ccs_poly. rewrite lsum_nth.
  assert (length terms = c_q cs) as Htl.
  { apply mapM_length in Ht. rewrite Ht, combine_length, seq_length, Hc. lia. }
  rewrite Htl. apply sumn_ext. intros i Hi.
  pose proof (proj2 (proj1 (Forall2_nth _ _ _ (0%nat, 0) 0) (mapM_inv _ _ _ Ht)) i) as Hti. cbv beta in Hti.
  rewrite combine_length, seq_length, Hc, Nat.min_id in Hti. specialize (Hti Hi). rewrite combine_nth in Hti by (rewrite seq_length; auto). cbn [fst snd] in Hti.
  rewrite seq_nth in Hti by lia. cbn [Nat.add] in Hti. rewrite (index_ok (c_S cs) i []) in Hti by lia. cbn [bind] in Hti.
  apply bind_ok_inv in Hti as (us & Hus & Hti). injection Hti as <-.
  apply (mapM_index_inv _ _ _ 0) in Hus as [-> _]. auto.
Qed.

Theorem lin_sound (cm_i : cccs R) (pf : lin_proof R) (ts : T) (cs : ccs R) lc ts' (z : list R) :
  wf_ccs cs -> degree_ok cs -> char_gt K (c_d cs + 1) ->
  lin_verify cm_i pf ts cs = Ok (lc, ts') ->
  (forall j, (j < c_t cs)%nat -> nth j (lc_u lc) 0 = mle_spec (mz (nth j (c_M cs) (SMat 0 0 [])) z) (lc_r lc)) ->
  let betas := fst (get_challenges (absorb_tag ts "beta_s") (c_s cs)) in
  let ts1 := snd (get_challenges (absorb_tag ts "beta_s") (c_s cs)) in
  (forall b, (b < 2 ^ c_s cs)%nat -> ccs_row cs z b = 0) \/
  bad_coord (ccs_row cs z) betas \/
  (exists rs, lc_r lc = map emb rs /\
     sc_bad (c_s cs) (c_d cs + 1)
       (fun x => ccs_poly cs (map (fun M => mle_spec (mz M z) x) (c_M cs)) * eqp x (map emb betas))
       ts1 (lp_sc pf) rs).
Proof.
  intros Hw Hd Hch Hv Hu betas ts1.
  destruct (lin_verify_inv _ _ _ _ _ _ Hw Hv) as (rs & e & ts2 & Hsc & Hrs & -> & He & _).
  fold betas in He. fold ts1 in Hsc. cbn [lc_u lc_r] in *.
  destruct (all_zero_dec (ccs_row cs z) (2 ^ c_s cs)) as [Hz|(b & Hb & Hne)]; [left; auto|right].
  assert (length betas = c_s cs) as Hbl by apply get_challenges_length.
  destruct (req_dec (mle_spec (ccs_row cs z) (map emb betas)) 0) as [Hq|Hq].
  { left. eapply zero_mle_bad_coord; eauto. rewrite Hbl. auto. }
  right. exists rs. split; auto.
  set (g := fun x => ccs_poly cs (map (fun M => mle_spec (mz M z) x) (c_M cs)) * eqp x (map emb betas)).
  assert (length (map emb betas : list R) = c_s cs) as Hbl' by (rewrite map_length; auto).
  set (mles := map (Mz_mle (c_s cs) z) (c_M cs) ++ [Mle (c_s cs) (map (eqw (map emb betas)) (seq 0 (2 ^ c_s cs)))]).
  set (comb := fun v : list R => ccs_poly cs (firstn (length v - 1) v) * nth (length v - 1) v 0).
  assert (forall x, length x = c_s cs -> g x = comb (mles_at mles x)) as Hg.
  { intros x Hx. unfold comb, mles_at, mles. rewrite map_app, map_map. cbn [map].
    rewrite app_length, map_length. cbn [length]. rewrite Nat.add_sub.
    rewrite firstn_app, map_length, Nat.sub_diag, firstn_O, app_nil_r, firstn_all2 by (rewrite map_length; auto).
    rewrite app_nth2 by (rewrite map_length; lia). rewrite map_length, Nat.sub_diag. cbn [nth]. unfold g. f_equal.
    - f_equal. apply map_ext. intros M. symmetry. apply Mz_mle_eval. auto.
    - rewrite <- mle_spec_eqw by lia. apply mle_spec_ext. intros b' Hb'. rewrite Hx in Hb'.
      unfold mle_get. cbn [mle_evals]. symmetry. apply nth_seq_map. auto. }
  assert (var_deg (c_s cs) (c_d cs + 1) g) as Hvd.
  { intros pre suf Hl. eapply deg_le_ext; [|apply (var_deg_mles comb mles (c_s cs) (c_d cs + 1)); [|exact Hl]].
    - intros y. cbn beta. symmetry. apply Hg. rewrite app_length. cbn [length]. auto.
    - set (n := length mles). unfold comb.
      eapply (comb_deg_ext n _ (fun v => ccs_poly cs (firstn (n - 1) v) * nth (n - 1) v 0)).
      + intros v Hv'. rewrite Hv'. auto.
      + apply comb_deg_mul; [|apply comb_deg_nth].
        intros a s Ha Hs. eapply deg_le_ext; [|apply (ccs_poly_deg cs (Nat.min (n-1) n) Hd (firstn (n - 1) a) (firstn (n - 1) s))].
        * intros y. cbn beta. f_equal. clear. revert a s. induction (n - 1)%nat as [|k IH]; intros [|x a] [|y' s]; cbn [firstn zipw]; auto. f_equal. auto.
        * rewrite firstn_length. lia.
        * rewrite firstn_length. lia. }
  destruct (sumcheck_sound (c_s cs) (c_d cs + 1) g ts1 0 (lp_sc pf) rs e ts2) as (_ & HH); auto; try lia.
  - rewrite He. unfold g.
    match goal with |- ?a * ?b = ?c * ?a => assert (b = c) as Hbc; [|rewrite Hbc; ring] end.
    unfold ccs_poly. apply sumn_ext. intros i Hi. do 2 f_equal. apply map_ext_in. intros j Hj.
    destruct Hw as (HMt & HS & Hc & _ & HSt).
    assert (j < c_t cs)%nat as Hjt.
    { rewrite Forall_forall in HSt. assert (In (nth i (c_S cs) []) (c_S cs)) as Hin by (apply nth_In; lia).
      specialize (HSt _ Hin). rewrite Forall_forall in HSt. auto. }
    rewrite Hu by auto. rewrite (nth_map_lt _ _ _ (SMat 0 0 [])) by lia. auto.
  - intros E0. apply Hq. symmetry. rewrite E0. unfold cube_sum, mle_spec. rewrite map_length, Hbl.
    apply sumn_ext. intros b' Hb'. unfold g. rewrite eqp_bits by auto. f_equal.
    rewrite ccs_row_poly. f_equal. apply map_ext. intros M. apply mle_spec_bits. auto.
Qed.
End P.
