(** Proofs about the commitment transformation (latticefold-plus/src/cm.rs). *)
From Coq Require Import String List Arith Lia ZArith Bool Ring.
From Verif Require Import Prelude Alg Poly MLE MLE_Proofs Transcript Sumcheck Sumcheck_Proofs CombDeg Arith Arith_Proofs Balanced
  Linearization_Proofs Rings Rings_Proofs PlusRing PlusUtils_Proofs SetCheck SetCheck_Proofs RangeCheck RangeCheck_Proofs Cm.
Import ListNotations.
Local Open Scope rs_scope.

Section SC.
Context {K R T : Type} {PO : POps K R} {TO : TransOps T R K} {p : Z} {PL : PLaws K R p}.
Add Ring Rring43 : (@rlaws_th R _ (pl_R (p := p))).
Add Ring Kring43 : (@rlaws_th K _ (fld_laws (FieldLaws := pl_K (p := p)))).

(** Table of a vector. *)
Definition vtab (nv : nat) (v : list R) : mle R := Mle nv (resize (2 ^ nv) 0 v).
Definition vat (v : list R) (pt : list R) : R := mle_spec (fun i => nth i v 0) pt.
Definition eqtab (r : list K) : mle R := Mle (length r) (map (eqw (map emb r)) (seq 0 (2 ^ length r))).
Lemma vtab_at nv v pt : (length v <= 2 ^ nv)%nat -> mle_spec (mle_get (vtab nv v)) pt = vat v pt.
Proof. intros H. apply mle_spec_ext. intros i _. apply mle_get_from_vec; auto. Qed.
Lemma eqtab_at r pt : length pt = length r -> mle_spec (mle_get (eqtab r)) pt = mle_spec (eqw (map emb r)) pt.
Proof.
  intros E. apply mle_spec_ext. intros i Hi. unfold mle_get, eqtab. cbn [mle_evals]. rewrite nth_seq_map by (rewrite <- E; auto). auto.
Qed.

(** The polynomial of the sumcheck, from the vectors [VS] (one list of [w] vectors per instance). *)
Definition cm_val (L w : nat) (rc : K) (VS : list (list (list R))) (r : list K) (t0 t1 : list R) (pt : list R) : R :=
  sumn L (fun l =>
    mle_spec (eqw (map emb r)) pt * sumn w (fun j => vat (nth j (nth l VS []) []) pt * emb (rpow rc (l * w + j)))
    + vat (nth 0 (nth l VS []) []) pt * vat t0 pt * emb (rpow rc (L * w))
    + vat (nth 0 (nth l VS []) []) pt * vat t1 pt * emb (rpow rc (L * w + 1))).
Definition cm_tabs (nv : nat) (VS : list (list (list R))) (r : list K) (t0 t1 : list R) : list (mle R) :=
  eqtab r :: concat (map (map (vtab nv)) VS) ++ [vtab nv t0; vtab nv t1].

Lemma cm_comb_val nv L Ml rc VS r t0 t1 pt : length VS = L -> Forall (fun vs => length vs = (4 + 4 * Ml)%nat /\ Forall (fun v => (length v <= 2 ^ nv)%nat) vs) VS ->
  (length t0 <= 2 ^ nv)%nat -> (length t1 <= 2 ^ nv)%nat -> length r = nv -> length pt = nv ->
  cm_comb L Ml rc (mles_at (cm_tabs nv VS r t0 t1) pt) = cm_val L (4 + 4 * Ml) rc VS r t0 t1 pt.
Proof.
  intros LV HV H0 H1 Hr Hpt. unfold cm_comb, cm_val. rewrite lsum_map_seq.
  set (w := (4 + 4 * Ml)%nat). set (vals := mles_at _ _).
  assert (length (concat (map (map (vtab nv)) VS)) = (L * w)%nat) as LC.
  { rewrite (concat_length_const w), map_length; [lia|]. intros c Hc. apply in_map_iff in Hc as (vs & <- & Hvs). rewrite map_length.
    rewrite Forall_forall in HV. apply HV; auto. }
  assert (nth 0 vals 0 = mle_spec (eqw (map emb r)) pt) as E0.
  { unfold vals, mles_at, cm_tabs. cbn [map nth]. apply eqtab_at. congruence. }
  assert (forall i, (i < length (concat (map (map (vtab nv)) VS) ++ [vtab nv t0; vtab nv t1]))%nat ->
     nth (1 + i) vals 0 = mle_spec (mle_get (nth i (concat (map (map (vtab nv)) VS) ++ [vtab nv t0; vtab nv t1]) (vtab nv []))) pt) as EI.
  { intros i Hi. unfold vals, mles_at, cm_tabs. cbn [map]. change (1 + i)%nat with (S i). cbn [nth].
    apply (nth_map_lt (fun m : mle R => mle_spec (mle_get m) pt)). auto. }
  rewrite app_length, LC in EI. cbn [length] in EI.
  assert (forall l j, (l < L)%nat -> (j < w)%nat -> nth (1 + (l * w + j)) vals 0 = vat (nth j (nth l VS []) []) pt) as EV.
  { intros l j Hl Hj. assert (l * w + j < L * w)%nat as Hlt by nia.
    assert (length (nth l VS []) = w /\ Forall (fun v => (length v <= 2 ^ nv)%nat) (nth l VS [])) as [LW FW].
    { rewrite Forall_forall in HV. apply HV, nth_In. lia. }
    rewrite EI by lia. rewrite app_nth1 by lia. 
    rewrite (nth_concat_const w) by (rewrite ?map_length; try lia; intros c Hc; apply in_map_iff in Hc as (vs & <- & Hvs); rewrite map_length;
      rewrite Forall_forall in HV; apply HV; auto).
    rewrite (nth_map_lt _ _ _ []) by lia. rewrite (nth_map_lt _ _ _ []) by lia. apply vtab_at.
    rewrite Forall_forall in FW. apply FW, nth_In. lia. }
  assert (nth (1 + L * w) vals 0 = vat t0 pt) as ET0.
  { rewrite EI by lia. rewrite app_nth2 by lia. rewrite LC, Nat.sub_diag. apply vtab_at; auto. }
  assert (nth (2 + L * w) vals 0 = vat t1 pt) as ET1.
  { change (2 + L * w)%nat with (1 + (1 + L * w))%nat. rewrite EI by lia. rewrite app_nth2 by lia. rewrite LC.
    replace (1 + L * w - L * w)%nat with 1%nat by lia. apply vtab_at; auto. }
  apply sumn_ext. intros l Hl. rewrite lsum_map_seq, E0, ET0, ET1.
  pose proof (EV l 0%nat Hl ltac:(unfold w; lia)) as E1. rewrite Nat.add_0_r in E1. rewrite E1.
  f_equal. f_equal. f_equal. apply sumn_ext. intros j Hj. replace (1 + l * w + j)%nat with (1 + (l * w + j))%nat by lia. rewrite EV by auto. auto.
Qed.

Lemma cm_comb_deg L Ml rc n : comb_deg n 2 (cm_comb L Ml rc : list R -> R).
Proof.
  unfold cm_comb. set (w := (4 + 4 * Ml)%nat).
  apply (comb_deg_ext n 2 (fun vals => sumn L (fun l =>
     nth 0 vals 0 * sumn w (fun j => nth (1 + l * w + j) vals 0 * emb (rpow rc (l * w + j)))
     + nth (1 + l * w) vals 0 * nth (1 + L * w) vals 0 * emb (rpow rc (L * w))
     + nth (1 + l * w) vals 0 * nth (2 + L * w) vals 0 * emb (rpow rc (L * w + 1))))).
  { intros v _. rewrite lsum_map_seq. apply sumn_ext. intros l _. rewrite lsum_map_seq. reflexivity. }
  apply comb_deg_sumn. intros l _. apply comb_deg_add; [apply comb_deg_add|].
  - apply (comb_deg_mul n 1 1); [apply comb_deg_nth|]. apply comb_deg_sumn. intros j _. apply (comb_deg_scale_r (p := p)), comb_deg_nth.
  - apply (comb_deg_scale_r (p := p)). apply (comb_deg_mul n 1 1); apply comb_deg_nth.
  - apply (comb_deg_scale_r (p := p)). apply (comb_deg_mul n 1 1); apply comb_deg_nth.
Qed.

(** The sum over the cube: openings at [r], and inner products. *)
Definition dot (a b : list R) (n : nat) : R := sumn n (fun i => nth i a 0 * nth i b 0).
Definition cm_sum (nv L w : nat) (rc : K) (VS : list (list (list R))) (r : list K) (t0 t1 : list R) : R :=
  sumn L (fun l => sumn w (fun j => open r (nth j (nth l VS []) []) * emb (rpow rc (l * w + j)))
    + dot (nth 0 (nth l VS []) []) t0 (2 ^ nv) * emb (rpow rc (L * w))
    + dot (nth 0 (nth l VS []) []) t1 (2 ^ nv) * emb (rpow rc (L * w + 1))).
Lemma cm_cube nv L w rc VS r t0 t1 : length r = nv -> cube_sum nv (cm_val L w rc VS r t0 t1) = cm_sum nv L w rc VS r t0 t1.
Proof.
  intros Hr. unfold cube_sum, cm_val, cm_sum. rewrite sumn_swap. apply sumn_ext. intros l _.
  rewrite !sumn_add. f_equal; [f_equal|].
  - transitivity (sumn (2 ^ nv) (fun b => sumn w (fun j => eqw (map emb r) b * nth b (nth j (nth l VS []) []) 0 * emb (rpow rc (l * w + j))))).
    { apply sumn_ext. intros b Hb. rewrite (mle_spec_bits _ nv) by auto. rewrite <- sumn_mul_l. apply sumn_ext. intros j _.
      unfold vat. rewrite (mle_spec_bits _ nv) by auto. ring. }
    rewrite sumn_swap. apply sumn_ext. intros j _. rewrite sumn_mul_r. f_equal. unfold open, mle_spec. rewrite map_length, Hr.
    apply sumn_ext. intros; ring.
  - unfold dot. rewrite <- sumn_mul_r. apply sumn_ext. intros b Hb. unfold vat. rewrite !(mle_spec_bits _ nv) by auto. auto.
  - unfold dot. rewrite <- sumn_mul_r. apply sumn_ext. intros b Hb. unfold vat. rewrite !(mle_spec_bits _ nv) by auto. auto.
Qed.
End SC.

Section Layout.
Context {K R T : Type} {PO : POps K R} {TO : TransOps T R K} {p : Z} {PL : PLaws K R p}.
Add Ring Rring44 : (@rlaws_th R _ (pl_R (p := p))).
Add Ring Kring44 : (@rlaws_th K _ (fld_laws (FieldLaws := pl_K (p := p)))).

Lemma emb_0 : emb (0 : K) = (0 : R).
Proof. apply (hom_0 _ emb_hom). Qed.
(** A ring element is the sum of its coefficients times powers of [X]. *)
Lemma pcoeffs_ext (x y : R) : (forall c, (c < pdim)%nat -> nth c (pcoeffs x) 0 = nth c (pcoeffs y) 0 :> K) -> x = y.
Proof.
  intros H. rewrite <- (pof_coeffs_coeffs x), <- (pof_coeffs_coeffs y). f_equal. apply (list_ext 0); [rewrite !pcoeffs_length; auto|].
  intros i Hi. rewrite pcoeffs_length in Hi. auto.
Qed.
Lemma nth_pcoeffs_sumn n (f : nat -> R) c : nth c (pcoeffs (sumn n f)) 0 = sumn n (fun i => nth c (pcoeffs (f i)) 0) :> K.
Proof. apply (klin_sumn (p := p) (fun x => nth c (pcoeffs x) 0)). apply (klin_coeff (p := p)). Qed.
Lemma pexpand (x : R) : sumn pdim (fun c => emb (nth c (pcoeffs x) (0 : K)) * pmono c) = x.
Proof.
  apply pcoeffs_ext. intros c Hc. rewrite nth_pcoeffs_sumn.
  rewrite (sumn_single _ c); auto.
  2:{ intros i Hi Hne. rewrite (nth_pcoeffs_scale (p := p)). unfold pmono.
      rewrite pcoeffs_of by (unfold unit_vec; rewrite map_length, seq_length; auto). unfold unit_vec. rewrite nth_seq_map by auto.
      destruct (Nat.eqb_spec c i); [congruence|]. ring. }
  rewrite (nth_pcoeffs_scale (p := p)). unfold pmono. rewrite pcoeffs_of by (unfold unit_vec; rewrite map_length, seq_length; auto).
  unfold unit_vec. rewrite nth_seq_map by auto. rewrite Nat.eqb_refl. ring.
Qed.

(** Digits of a ring element recompose to it when [l] digits are enough for every field element. *)
Definition enough (b : Z) (l : nat) : Prop := (2 <= b)%Z /\ (p - 1 <= b ^ Z.of_nat l)%Z.
Lemma pdec_rec b l (x : R) : enough b l -> sumn l (fun i => emb (rpow (rofZ b : K) i) * nth i (pdecompose b l x) 0) = x.
Proof.
  intros [Hb Hl]. apply pcoeffs_ext. intros c Hc. rewrite nth_pcoeffs_sumn.
  transitivity (recompose (map (rofZ : Z -> K) (decompose_z l b (psigned (nth c (pcoeffs x) 0)))) (rofZ b)).
  - rewrite recompose_sum, map_length, decompose_z_length. apply sumn_ext. intros i Hi.
    rewrite (nth_pcoeffs_scale (p := p)), (pcoeffs_pdecompose (p := p)) by auto.
    rewrite (nth_map_lt _ _ _ 0) by (rewrite pcoeffs_length; auto). rewrite (nth_map_lt _ _ _ 0%Z) by (rewrite decompose_z_length; auto). ring.
  - rewrite recompose_ofZ, decompose_z_exact; [apply psigned_val|auto|]. pose proof (psigned_bound (nth c (pcoeffs x) 0)). lia.
Qed.

(** Layout of [t] and of [tau]. *)
Lemma dp_pows_length l : length (dp_pows l : list R) = l.
Proof. unfold dp_pows. rewrite map_length, seq_length. auto. Qed.
Lemma x_pows_length : length (x_pows : list R) = pdim.
Proof. unfold x_pows. rewrite map_length, seq_length. auto. Qed.
Lemma ne_len {A} (l : list A) : (1 <= length l)%nat -> l <> [].
Proof. intros H E. rewrite E in H. cbn in H. lia. Qed.
Lemma t_length c S l : (1 <= length S)%nat -> (1 <= l)%nat ->
  length (calculate_t_z c S (dp_pows l) x_pows : list R) = (2 ^ length c * length S * l * pdim)%nat.
Proof.
  intros HS Hl. pose proof (pdim_pos (p := p)). pose proof (Nat.pow_nonzero 2 (length c)).
  assert (length (tensor_product (tensor c) S) = (2 ^ length c * length S)%nat) as L1.
  { rewrite tp_length, tensor_length; auto; apply ne_len; rewrite ?tensor_length; lia. }
  assert (length (tensor_product (tensor_product (tensor c) S) (dp_pows l)) = (2 ^ length c * length S * l)%nat) as L2.
  { rewrite tp_length, L1, dp_pows_length; auto; apply ne_len; rewrite ?L1, ?dp_pows_length; nia. }
  unfold calculate_t_z. rewrite tp_length, L2, x_pows_length; auto; apply ne_len; rewrite ?L2, ?x_pows_length; nia.
Qed.
Lemma t_nth c S l r j i e : (r < 2 ^ length c)%nat -> (j < length S)%nat -> (i < l)%nat -> (e < pdim)%nat ->
  nth (((r * length S + j) * l + i) * pdim + e) (calculate_t_z c S (dp_pows l) x_pows : list R) 0
  = nth r (tensor c) 0 * nth j S 0 * emb (rpow (rofn (pdim / 2) : K) i) * pmono e.
Proof.
  intros Hr Hj Hi He.
  assert (length (tensor_product (tensor c) S) = (2 ^ length c * length S)%nat) as L1.
  { rewrite tp_length, tensor_length; auto; apply ne_len; rewrite ?tensor_length; lia. }
  assert (length (tensor_product (tensor_product (tensor c) S) (dp_pows l)) = (2 ^ length c * length S * l)%nat) as L2.
  { rewrite tp_length, L1, dp_pows_length; auto; apply ne_len; rewrite ?L1, ?dp_pows_length; nia. }
  assert (r * length S + j < 2 ^ length c * length S)%nat as H1 by nia.
  assert ((r * length S + j) * l + i < 2 ^ length c * length S * l)%nat as H2 by nia.
  unfold calculate_t_z.
  pose proof (tp_nth (tensor_product (tensor_product (tensor c) S) (dp_pows l)) x_pows ((r * length S + j) * l + i) e) as E.
  rewrite x_pows_length in E. rewrite E by (rewrite ?L2; auto). clear E.
  pose proof (tp_nth (tensor_product (tensor c) S) (dp_pows l) (r * length S + j) i) as E.
  rewrite dp_pows_length in E. rewrite E by (rewrite ?L1; auto). clear E.
  rewrite tp_nth by (rewrite ?tensor_length; auto). unfold dp_pows, x_pows. rewrite !nth_seq_map by auto. auto.
Qed.
Lemma concat_map_flat {A B} (f : A -> list B) (ll : list (list A)) : concat (map (flat_map f) ll) = flat_map f (concat ll).
Proof. induction ll as [|x ll IH]; auto. cbn [map concat]. rewrite flat_map_app, IH. auto. Qed.
Lemma tau_nth com b l m r j i e : (1 <= m)%nat -> Forall (fun row => length row = m) com ->
  (r < length com)%nat -> (j < m)%nat -> (i < l)%nat -> (e < pdim)%nat ->
  nth (((r * m + j) * l + i) * pdim + e) (split_data com b l) (0 : K)
  = nth e (pcoeffs (nth i (pdecompose b l (nth j (nth r com []) 0 : R)) 0)) 0.
Proof.
  intros Hm HF Hr Hj Hi He. rewrite Forall_forall in HF.
  assert (length (concat com) = length com * m)%nat as LC by (apply concat_length_const; auto).
  assert (r * m + j < length com * m)%nat as H1 by nia.
  assert ((r * m + j) * l + i < length com * m * l)%nat as H2 by nia.
  unfold split_data, pgadget. rewrite concat_map_flat.
  rewrite (nth_flat_map _ _ _ _ _ 0) by (auto using pcoeffs_length; rewrite (flat_map_length _ _ l) by apply pdecompose_length; lia).
  rewrite (nth_flat_map _ _ _ _ _ 0) by (auto using pdecompose_length; lia).
  rewrite (nth_concat_const m) by auto. auto.
Qed.
Lemma nth_map_emb i (v : list K) : nth i (map emb v) 0 = emb (nth i v 0) :> R.
Proof. rewrite <- (map_nth (emb : K -> R)). f_equal. symmetry. apply emb_0. Qed.
Lemma t_tau com l S (c : list R) n : let m := length S in let b := Z.of_nat (pdim / 2) in
  (1 <= m)%nat -> (1 <= l)%nat -> Forall (fun row => length row = m) com -> (length com <= 2 ^ length c)%nat ->
  (2 ^ length c * m * l * pdim <= n)%nat -> enough b l ->
  dot (map emb (resize n 0 (split_data com b l))) (resize n 0 (calculate_t_z c S (dp_pows l) x_pows)) n
  = sumn (length com) (fun r => nth r (tensor c) 0 * sumn m (fun j => nth j (nth r com []) 0 * nth j S 0)).
Proof.
  intros m b Hm Hl HF Hc Hn HE. unfold dot.
  pose proof (t_length c S l Hm Hl) as Lt. fold m in Lt.
  pose proof (split_data_length com b l m HF) as Ls.
  set (N := (length com * m * l * pdim)%nat).
  assert (N <= 2 ^ length c * m * l * pdim)%nat as HN by (unfold N; repeat apply Nat.mul_le_mono_r; auto).
  replace n with (N + (n - N))%nat at 1 by lia. rewrite sumn_split.
  rewrite (sumn_0 (n - N)).
  2:{ intros i Hi. rewrite nth_map_emb, nth_resize by lia. rewrite (nth_overflow (split_data _ _ _)) by (fold N in Ls; lia). rewrite emb_0. ring. }
  transitivity (sumn N (fun i => emb (nth i (split_data com b l) (0 : K)) * nth i (calculate_t_z c S (dp_pows l) x_pows) 0)).
  { rewrite (sumn_ext N _ (fun i => emb (nth i (split_data com b l) (0 : K)) * nth i (calculate_t_z c S (dp_pows l) x_pows) 0)).
    - ring.
    - intros i Hi. rewrite nth_map_emb, !nth_resize by lia. auto. }
  unfold N. rewrite sumn_blocks, sumn_blocks, sumn_blocks. apply sumn_ext. intros r Hr. rewrite <- sumn_mul_l. apply sumn_ext. intros j Hj.
  transitivity (nth r (tensor c) 0 * nth j S 0 *
     sumn l (fun i => emb (rpow (rofZ b : K) i) * nth i (pdecompose b l (nth j (nth r com []) 0)) 0)).
  2:{ rewrite pdec_rec by auto. ring. }
  rewrite <- sumn_mul_l. apply sumn_ext. intros i Hi.
  transitivity (nth r (tensor c) 0 * nth j S 0 * emb (rpow (rofZ b : K) i) *
     sumn pdim (fun e => emb (nth e (pcoeffs (nth i (pdecompose b l (nth j (nth r com []) 0)) 0)) (0 : K)) * pmono e)).
  2:{ rewrite pexpand. ring. }
  rewrite <- sumn_mul_l. apply sumn_ext. intros e He.
  rewrite tau_nth by auto. unfold m. rewrite t_nth by (auto; lia). unfold rofn, b. ring.
Qed.
End Layout.

Section Hvec.
Context {K R T : Type} {PO : POps K R} {TO : TransOps T R K} {p : Z} {PL : PLaws K R p}.
Add Ring Rring45 : (@rlaws_th R _ (pl_R (p := p))).
Add Ring Kring45 : (@rlaws_th K _ (fld_laws (FieldLaws := pl_K (p := p)))).

(** Shape of the challenge matrix, and the sum of the products with the columns of the matrices. *)
Definition sp_ok (k : nat) (s' : list (list R)) : Prop := length s' = k /\ Forall (fun s => length s = pdim) s'.
Definition hval (Ms : list (list (list R))) (s' : list (list R)) (r : nat) : R :=
  sumn (length s') (fun i => sumn pdim (fun j => nth j (nth r (nth i Ms []) []) 0 * nth j (nth i s' []) 0)).
Definition hvec (N : nat) (Ms : list (list (list R))) (s' : list (list R)) : list R := map (hval Ms s') (seq 0 N).

Lemma sum_into_spec N (vs : list (list R)) : Forall (fun v => (length v <= N)%nat) vs ->
  sum_into N vs = Ok (map (fun r => sumn (length vs) (fun i => nth r (nth i vs []) 0)) (seq 0 N)).
Proof.
  intros HF. unfold sum_into.
  assert (forallb (fun v => (length v <=? N)%nat) vs = true) as ->.
  { apply forallb_forall. intros v Hv. rewrite Forall_forall in HF. apply Nat.leb_le. auto. }
  f_equal.
  assert (forall acc, length acc = N -> length (fold_left (fun acc v => zipl radd acc v) vs acc) = N /\
     forall r, (r < N)%nat -> nth r (fold_left (fun acc v => zipl radd acc v) vs acc) 0 = nth r acc 0 + sumn (length vs) (fun i => nth r (nth i vs []) 0)) as H.
  { induction HF as [|v vs Hv _ IH]; intros acc Ha; cbn [fold_left length].
    - split; auto. intros. cbn [sumn]. ring.
    - destruct (IH (zipl radd acc v)) as [L E]; [rewrite zipl_length; auto|]. split; auto. intros r Hr. rewrite E by auto.
      rewrite sumn_S_first. cbn [nth].
      assert (nth r (zipl radd acc v) 0 = nth r acc 0 + nth r v 0) as ->; [|ring].
      destruct (Nat.lt_ge_cases r (length v)).
      + apply nth_zipl; lia.
      + rewrite (nth_overflow v) by auto. clear - Hr Ha H PL. revert r v N Hr Ha H. induction acc as [|a acc IH]; intros r v N Hr Ha H; cbn [length] in Ha; [lia|].
        destruct v as [|b v]; cbn [zipl]; [ring|]. cbn [length] in H. destruct r as [|r]; [lia|]. cbn [nth]. apply (IH r v (N - 1)%nat); lia. }
  destruct (H (repeat 0 N)) as [L E]; [apply repeat_length|]. apply (list_ext 0); [rewrite map_length, seq_length; auto|].
  intros r Hr. rewrite L in Hr. rewrite E by auto. rewrite nth_repeat, nth_seq_map by auto. ring.
Qed.
Lemma rows_mul_ok (M : list (list R)) s : length s = pdim -> Forall (fun row => length row = pdim) M ->
  rows_mul_vec M s = Ok (map (fun row => sumn pdim (fun j => nth j row 0 * nth j s 0)) M).
Proof.
  intros Hs HF. unfold rows_mul_vec, dm_mul_vec, checked_mul_vec. cbn [a_ncols a_rows]. rewrite Hs, Nat.eqb_refl. cbn [of_option]. f_equal.
  apply map_ext_in. intros row Hrow. rewrite Forall_forall in HF. rewrite lsum_nth, zipw_length, (HF _ Hrow), Hs, Nat.min_id.
  apply sumn_ext. intros j Hj. apply nth_zipw; [rewrite HF; auto|rewrite Hs; auto].
Qed.
(** The vector computed from matrices with at most [N] rows. *)
Lemma mats_sum_ok N Ms s' : sp_ok (length Ms) s' -> Forall (fun M => (length M <= N)%nat /\ Forall (fun row => length row = pdim) M) Ms ->
  (do vs <- mapM (fun q => rows_mul_vec (fst q) (snd q)) (combine Ms s'); sum_into N vs) = Ok (hvec N Ms s').
Proof.
  intros [Ls Hs] HM. rewrite Forall_forall in Hs, HM.
  rewrite (mapM_ok _ (fun q => map (fun row => sumn pdim (fun j => nth j row 0 * nth j (snd q) 0)) (fst q))).
  2:{ intros [M s] Hq. pose proof (in_combine_l _ _ _ _ Hq). pose proof (in_combine_r _ _ _ _ Hq). cbn [fst snd]. apply rows_mul_ok; auto. apply HM. auto. }
  cbn [bind]. rewrite sum_into_spec.
  2:{ apply Forall_map, Forall_forall. intros [M s] Hq. pose proof (in_combine_l _ _ _ _ Hq). cbn [fst]. rewrite map_length. apply HM; auto. }
  f_equal. unfold hvec. apply map_ext. intros r. rewrite map_length, combine_length, Ls, Nat.min_id. unfold hval. rewrite Ls. apply sumn_ext. intros i Hi.
  rewrite (nth_map_lt _ _ _ ([], [])) by (rewrite combine_length; lia). rewrite combine_nth by auto. cbn [fst snd].
  destruct (Nat.lt_ge_cases r (length (nth i Ms []))).
  - rewrite (nth_map_lt _ _ _ []) by auto. auto.
  - rewrite nth_overflow by (rewrite map_length; auto). symmetry. apply sumn_0. intros j _. rewrite (nth_overflow (nth i Ms [])) by auto.
    destruct j; cbn [nth]; ring.
Qed.
Lemma cm_h_ok fv nv n k s' x : rg_wf fv n k x -> sp_ok k s' -> (n <= 2 ^ nv)%nat -> cm_h nv s' x = Ok (hvec (2 ^ nv) (ri_Mf x) s').
Proof.
  intros W HS Hn. unfold cm_h. apply mats_sum_ok; [rewrite (rw_k _ _ _ _ W); auto|].
  eapply Forall_impl; [|exact (rw_mono _ _ _ _ W)]. intros M [L F]. split; [lia|]. eapply Forall_impl; [|exact F]. intros row [? _]. auto.
Qed.
Lemma mmul_length (A : ajtai R) M : length (mmul A M) = kappa A.
Proof. unfold mmul. apply map_length. Qed.
Lemma mmul_rows (A : ajtai R) M : Forall (fun row => length row = pdim) (mmul A M).
Proof. unfold mmul. apply Forall_map, Forall_forall. intros. rewrite map_length, seq_length. auto. Qed.
Lemma cm_comh_ok fv A n k s' x : (1 <= k)%nat -> rg_wf fv n k x -> ri_comMf x = map (mmul A) (ri_Mf x) -> sp_ok k s' ->
  cm_comh s' x = Ok (hvec (kappa A) (ri_comMf x) s').
Proof.
  intros Hk W E HS. unfold cm_comh.
  assert (length (ri_comMf x) = k) as Lk by (rewrite E, map_length; apply (rw_k _ _ _ _ W)).
  assert (exists M0, index (ri_comMf x) 0 = Ok M0 /\ length M0 = kappa A) as (M0 & E0 & L0).
  { unfold index. rewrite (nth_error_nth' _ []) by lia. eexists; split; [reflexivity|].
    rewrite E. rewrite (nth_map_lt _ _ _ []) by (rewrite (rw_k _ _ _ _ W); lia). apply mmul_length. }
  pose proof (mats_sum_ok (kappa A) (ri_comMf x) s') as H. rewrite Lk in H. specialize (H HS).
  assert (Forall (fun M => (length M <= kappa A)%nat /\ Forall (fun row => length row = pdim) M) (ri_comMf x)) as HF.
  { rewrite E. apply Forall_map, Forall_forall. intros M _. rewrite mmul_length. split; auto using mmul_rows. }
  specialize (H HF). destruct (mapM _ _) as [vs| |]; cbn [bind] in *; try discriminate H. rewrite E0. cbn [bind]. rewrite L0. exact H.
Qed.

(** The commitment of [h] is [comh]. *)
Lemma commit_h fv A n k s' x : wf_ajtai A -> a_ncols A = n -> rg_wf fv n k x -> ri_comMf x = map (mmul A) (ri_Mf x) -> sp_ok k s' ->
  commit A (hvec n (ri_Mf x) s') = Ok (hvec (kappa A) (ri_comMf x) s').
Proof.
  intros WA HA W E [Ls HS]. rewrite commit_ok by (unfold hvec; rewrite map_length, seq_length; auto). f_equal.
  apply (list_ext 0); [unfold hvec; rewrite !map_length, seq_length; auto|]. intros a Ha. rewrite map_length in Ha.
  rewrite (nth_map_lt _ _ _ []) by auto. unfold hvec at 2. rewrite nth_seq_map by auto.
  set (row := nth a (a_rows A) []).
  assert (length row = n) as Lr. { unfold wf_ajtai in WA. rewrite Forall_forall in WA. rewrite <- HA. apply WA, nth_In. auto. }
  rewrite lsum_nth, zipw_length. unfold hvec at 1. rewrite map_length, seq_length, Lr, Nat.min_id.
  transitivity (sumn n (fun r => nth r row 0 * hval (ri_Mf x) s' r)).
  { apply sumn_ext. intros r Hr. rewrite (nth_zipw _ _ _ _ 0 0) by (unfold hvec; rewrite ?map_length, ?seq_length; lia). unfold hvec. rewrite nth_seq_map by auto. auto. }
  unfold hval. rewrite Ls.
  transitivity (sumn k (fun i => sumn pdim (fun j => sumn n (fun r => nth r row 0 * nth j (nth r (nth i (ri_Mf x) []) []) 0) * nth j (nth i s' []) 0))).
  { transitivity (sumn n (fun r => sumn k (fun i => sumn pdim (fun j => nth r row 0 * nth j (nth r (nth i (ri_Mf x) []) []) 0 * nth j (nth i s' []) 0)))).
    - apply sumn_ext. intros r Hr. rewrite <- sumn_mul_l. apply sumn_ext. intros i Hi. rewrite <- sumn_mul_l. apply sumn_ext. intros; ring.
    - rewrite sumn_swap. apply sumn_ext. intros i Hi. rewrite sumn_swap. apply sumn_ext. intros j Hj. rewrite sumn_mul_r. auto. }
  apply sumn_ext. intros i Hi. apply sumn_ext. intros j Hj. f_equal.
  assert (i < length (ri_Mf x))%nat as Hi' by (rewrite (rw_k _ _ _ _ W); auto).
  rewrite E. rewrite (nth_map_lt _ _ _ []) by auto. unfold mmul. rewrite (nth_map_lt _ _ _ []) by auto. fold row.
  rewrite nth_seq_map by auto. set (Mi := nth i (ri_Mf x) []).
  assert (length Mi = n) as LMi. { pose proof (rw_mono _ _ _ _ W) as HM. rewrite Forall_forall in HM. apply HM, nth_In. auto. }
  rewrite lsum_nth, zipw_length, map_length, Lr, LMi, Nat.min_id. apply sumn_ext. intros r Hr.
  rewrite (nth_zipw _ _ _ _ 0 0) by (rewrite ?map_length; lia). rewrite (nth_map_lt _ _ _ []) by lia. auto.
Qed.

(** Linear functionals of column vectors over [R], and the folded openings [u]. *)
Definition rlin (n : nat) (F : list R -> R) : Prop := exists w : nat -> R, forall v, length v = n -> F v = sumn n (fun r => w r * nth r v 0).
Lemma rlin_open n r : (n <= 2 ^ length r)%nat -> rlin n (open r).
Proof.
  intros Hn. exists (eqw (map emb r)). intros v Hv. unfold open, mle_spec. rewrite map_length.
  replace (2 ^ length r)%nat with (n + (2 ^ length r - n))%nat by lia. rewrite sumn_split, (sumn_0 (2 ^ length r - n)).
  - rewrite (sumn_ext n _ (fun i => eqw (map emb r) i * nth i v 0)) by (intros; ring). ring.
  - intros i Hi. rewrite nth_overflow by lia. ring.
Qed.
Lemma rlin_open_mul n r M : rlin n (open_mul r M).
Proof.
  exists (fun c => mle_spec (fun i => mat_entry M i c) (map emb r)). intros v Hv. unfold open_mul, mz, mle_spec. rewrite Hv.
  transitivity (sumn (2 ^ length (map (emb : K -> R) r)) (fun b => sumn n (fun c => mat_entry M b c * nth c v 0 * eqw (map emb r) b))).
  { apply sumn_ext. intros b _. rewrite sumn_mul_r. ring. }
  rewrite sumn_swap. apply sumn_ext. intros c _. rewrite <- sumn_mul_r. apply sumn_ext. intros; ring.
Qed.
Lemma sp_concat k s' i j : sp_ok k s' -> (i < k)%nat -> (j < pdim)%nat -> nth (i * pdim + j) (concat s') 0 = nth j (nth i s' []) 0.
Proof. intros [L F] Hi Hj. rewrite Forall_forall in F. apply nth_concat_const; auto; lia. Qed.
Lemma sp_concat_length k s' : sp_ok k s' -> length (concat s') = (k * pdim)%nat.
Proof. intros [L F]. rewrite Forall_forall in F. rewrite (concat_length_const pdim); auto. Qed.
Definition mf_shape (n k : nat) (x : rg_inst K R) : Prop := length (ri_Mf x) = k /\ Forall (fun M => length M = n) (ri_Mf x).
Lemma cm_u_gen n k insts s' F l d0 : Forall (mf_shape n k) insts -> sp_ok k s' -> (l < length insts)%nat -> rlin n F ->
  lsum (zipw rmul (concat (firstn k (skipn (l * k) (map (map F) (flat_map inst_cols insts))))) (concat s'))
  = F (hvec n (ri_Mf (nth l insts d0)) s').
Proof.
  intros HW HS Hl [w Hw]. rewrite Forall_forall in HW.
  rewrite skipn_map, firstn_map. replace (l * k)%nat with (k * l)%nat by lia. rewrite (firstn_skipn_flat_map _ _ _ _ d0); auto.
  2:{ intros a Ha. unfold inst_cols. rewrite map_length. apply (HW a Ha). }
  set (x := nth l insts d0). assert (mf_shape n k x) as [Wk WM] by (apply HW, nth_In; auto).
  assert (length (map (map F) (inst_cols x)) = k) as L1 by (unfold inst_cols; rewrite !map_length; auto).
  assert (forall c, In c (map (map F) (inst_cols x)) -> length c = pdim) as L2.
  { intros c Hc. apply in_map_iff in Hc as (c' & <- & Hc). unfold inst_cols in Hc. apply in_map_iff in Hc as (M & <- & _).
    unfold dcols. rewrite !map_length, seq_length. auto. }
  assert (length (concat (map (map F) (inst_cols x))) = (k * pdim)%nat) as L3 by (rewrite (concat_length_const pdim), L1; auto).
  pose proof (sp_concat_length k s' HS) as L4.
  rewrite lsum_nth, zipw_length, L3, L4, Nat.min_id.
  rewrite Hw by (unfold hvec; rewrite map_length, seq_length; auto).
  rewrite sumn_blocks.
  transitivity (sumn k (fun i => sumn pdim (fun j => sumn n (fun r => w r * nth j (nth r (nth i (ri_Mf x) []) []) 0) * nth j (nth i s' []) 0))).
  - apply sumn_ext. intros i Hi. apply sumn_ext. intros j Hj.
    assert (i * pdim + j < k * pdim)%nat by nia.
    rewrite (nth_zipw _ _ _ _ 0 0) by (rewrite ?L3, ?L4; auto).
    rewrite (sp_concat k s') by auto. f_equal. rewrite (nth_concat_const pdim) by (auto; lia).
    unfold inst_cols. rewrite map_map. assert (i < length (ri_Mf x))%nat as Hi' by (rewrite Wk; auto).
    rewrite (nth_map_lt _ _ _ []) by auto. unfold dcols. rewrite map_map, nth_seq_map by auto.
    assert (length (nth i (ri_Mf x) []) = n) as LM. { rewrite Forall_forall in WM. apply WM, nth_In. auto. }
    rewrite Hw by (rewrite map_length; auto). apply sumn_ext. intros r Hr. rewrite (nth_map_lt _ _ _ []) by lia. auto.
  - transitivity (sumn n (fun r => sumn k (fun i => sumn pdim (fun j => w r * nth j (nth r (nth i (ri_Mf x) []) []) 0 * nth j (nth i s' []) 0)))).
    + symmetry. rewrite sumn_swap. apply sumn_ext. intros i Hi. rewrite sumn_swap. apply sumn_ext. intros j Hj. rewrite sumn_mul_r. auto.
    + apply sumn_ext. intros r Hr. unfold hvec. rewrite nth_seq_map by auto. unfold hval. destruct HS as [-> _]. rewrite <- sumn_mul_l. apply sumn_ext. intros i Hi.
      rewrite <- sumn_mul_l. apply sumn_ext. intros; ring.
Qed.
Lemma cm_u_ok fv n k insts s' F l d0 : Forall (rg_wf fv n k) insts -> sp_ok k s' -> (l < length insts)%nat -> rlin n F ->
  lsum (zipw rmul (concat (firstn k (skipn (l * k) (map (map F) (flat_map inst_cols insts))))) (concat s'))
  = F (hvec n (ri_Mf (nth l insts d0)) s').
Proof.
  intros HW. apply cm_u_gen. eapply Forall_impl; [|exact HW]. intros x W. split; [apply (rw_k _ _ _ _ W)|].
  eapply Forall_impl; [|exact (rw_mono _ _ _ _ W)]. intros M []; auto.
Qed.

(** The claim about [t]: its inner product with [tau] is the combination of the rows of [comh]. *)
Lemma tcch_ok fv A n k l s' x c : (1 <= k)%nat -> (1 <= l)%nat -> rg_wf fv n k x -> ri_comMf x = map (mmul A) (ri_Mf x) -> sp_ok k s' ->
  ri_tau x = resize n 0 (split_data (hrows (kappa A) (ri_comMf x)) (Z.of_nat (pdim / 2)) l) ->
  (kappa A <= 2 ^ length c)%nat -> (2 ^ length c * (k * pdim) * l * pdim <= n)%nat -> enough (p := p) (Z.of_nat (pdim / 2)) l ->
  dot (map emb (ri_tau x)) (resize n 0 (calculate_t_z c (concat s') (dp_pows l) x_pows)) n
  = lsum (zipw rmul (tensor c) (hvec (kappa A) (ri_comMf x) s')).
Proof.
  intros Hk Hl W E HS Et Hc Hn HE. rewrite Et.
  assert (length (ri_comMf x) = k) as Lk by (rewrite E, map_length; apply (rw_k _ _ _ _ W)).
  assert (Forall (fun M => length M = kappa A /\ Forall (fun row => length row = pdim) M) (ri_comMf x)) as HM.
  { rewrite E. apply Forall_map, Forall_forall. intros M _. split; [apply mmul_length|apply mmul_rows]. }
  rewrite Forall_forall in HM. pose proof (pdim_pos (p := p)) as Hd.
  assert (length (concat s') = (k * pdim)%nat) as LS by (apply sp_concat_length; auto).
  assert (forall r, (r < kappa A)%nat -> nth r (hrows (kappa A) (ri_comMf x)) [] = concat (map (fun M => nth r M []) (ri_comMf x))) as Hrow.
  { intros r Hr. unfold hrows. rewrite nth_seq_map by auto. auto. }
  assert (forall r c, (r < kappa A)%nat -> In c (map (fun M => nth r M []) (ri_comMf x)) -> length c = pdim) as Hrc.
  { intros r cc Hr Hcc. apply in_map_iff in Hcc as (M & <- & HMi). destruct (HM M HMi) as [L F]. rewrite Forall_forall in F. apply F, nth_In. lia. }
  assert (length (hrows (kappa A) (ri_comMf x)) = kappa A) as Lh by (unfold hrows; rewrite map_length, seq_length; auto).
  rewrite (t_tau (p := p)); rewrite ?LS, ?Lh; auto; try nia.
  2:{ unfold hrows. apply Forall_map, Forall_forall. intros r Hr. apply in_seq in Hr. rewrite (concat_length_const pdim), map_length, Lk; auto. intros cc Hcc. apply (Hrc r); auto. lia. }
  rewrite lsum_nth, zipw_length, tensor_length. unfold hvec at 1. rewrite map_length, seq_length, Nat.min_r by auto.
  apply sumn_ext. intros r Hr. rewrite (nth_zipw _ _ _ _ 0 0) by (unfold hvec; rewrite ?tensor_length, ?map_length, ?seq_length; lia).
  f_equal. unfold hvec. rewrite nth_seq_map by auto. unfold hval. pose proof HS as [Ls _]. rewrite Ls. rewrite sumn_blocks.
  apply sumn_ext. intros i Hi. apply sumn_ext. intros j Hj. rewrite (sp_concat k s') by auto. f_equal.
  rewrite Hrow by auto. rewrite (nth_concat_const pdim); rewrite ?map_length; auto; try lia.
  - rewrite (nth_map_lt _ _ _ []) by lia. auto.
  - intros cc. apply Hrc. auto.
Qed.
End Hvec.

Section Run.
Context {K R T : Type} {PO : POps K R} {TO : TransOps T R K} {p : Z} {PL : PLaws K R p}.
Add Ring Rring46 : (@rlaws_th R _ (pl_R (p := p))).
Add Ring Kring46 : (@rlaws_th K _ (fld_laws (FieldLaws := pl_K (p := p)))).

(** The vectors of an instance, in groups of four: [tau, m_tau, f, h] and each matrix times them. *)
Definition mvec (m : smat R) (v : list R) : list R := map (mz m v) (seq 0 (length (m_coeffs m))).
Definition vs4 (x : rg_inst K R) (h : list R) : list (list R) := [map emb (ri_tau x); ri_mtau x; ri_f x; h].
Definition ivs (M : list (smat R)) (x : rg_inst K R) (h : list R) : list (list (list R)) :=
  vs4 x h :: map (fun m => map (mvec m) (vs4 x h)) M.
Definition mat0 : smat R := SMat 0 0 [].
(** Row operator: opening of the vector, or of a matrix times it. *)
Definition rowop (M : list (smat R)) (r : list K) (i : nat) (v : list R) : R :=
  match i with O => open r v | S i => open_mul r (nth i M mat0) v end.
Definition m_ok (n nv : nat) (m : smat R) : Prop := wf_mat n m /\ (length (m_coeffs m) <= 2 ^ nv)%nat /\ base_mat m.
Definition x_ok (n : nat) (xh : rg_inst K R * list R) : Prop :=
  length (ri_tau (fst xh)) = n /\ length (ri_mtau (fst xh)) = n /\ length (ri_f (fst xh)) = n /\ length (snd xh) = n.

Lemma vs4_len n xh v : x_ok n xh -> In v (vs4 (fst xh) (snd xh)) -> length v = n.
Proof. intros (H1 & H2 & H3 & H4) Hv. unfold vs4 in Hv. cbn [In] in Hv. destruct Hv as [<-|[<-|[<-|[<-|[]]]]]; rewrite ?map_length; auto. Qed.
Lemma mvec_open n nv m v r : m_ok n nv m -> length r = nv -> length v = n -> open r (mvec m v) = open_mul r m v.
Proof.
  intros (_ & H & _) Hr Hv. unfold open, open_mul. apply mle_spec_ext. intros i Hi. unfold mvec.
  destruct (Nat.lt_ge_cases i (length (m_coeffs m))).
  - apply nth_seq_map. auto.
  - rewrite nth_overflow by (rewrite map_length, seq_length; auto). rewrite mz_out; auto.
Qed.
Lemma inst_vecs_ok n nv M xh : Forall (m_ok n nv) M -> x_ok n xh -> inst_vecs M (fst xh) (snd xh) = Ok (concat (ivs M (fst xh) (snd xh))).
Proof.
  intros HM HX. unfold inst_vecs, ivs. fold (vs4 (fst xh) (snd xh)).
  rewrite (mapM_ok _ (fun m => map (mvec m) (vs4 (fst xh) (snd xh)))); [reflexivity|].
  intros m Hm. rewrite Forall_forall in HM. destruct (HM m Hm) as (W & _ & _). apply mapM_ok. intros v Hv. pose proof (vs4_len n _ _ HX Hv) as Lv.
  unfold sm_mul_vec. rewrite mat_vec_mul_ok by (rewrite Lv; auto). reflexivity.
Qed.
Lemma ivs_length M x h : length (ivs M x h) = (1 + length M)%nat.
Proof. unfold ivs. cbn [length]. rewrite map_length. auto. Qed.
Lemma ivs_group M x h g : In g (ivs M x h) -> length g = 4%nat.
Proof. intros [<-|H]; [reflexivity|]. apply in_map_iff in H as (m & <- & _). rewrite map_length. reflexivity. Qed.
Lemma ivs_total M x h : length (concat (ivs M x h)) = (4 + 4 * length M)%nat.
Proof. rewrite (concat_length_const 4), ivs_length; [lia|apply ivs_group]. Qed.
Lemma ivs_vec_len n nv M xh : (n <= 2 ^ nv)%nat -> Forall (m_ok n nv) M -> x_ok n xh -> Forall (fun v => (length v <= 2 ^ nv)%nat) (concat (ivs M (fst xh) (snd xh))).
Proof.
  intros Hn HM HX. apply Forall_forall. intros v Hv. apply in_concat in Hv as (g & Hg & Hv). destruct Hg as [<-|Hg].
  - rewrite (vs4_len n xh) by auto. auto.
  - apply in_map_iff in Hg as (m & <- & Hm). apply in_map_iff in Hv as (w & <- & _). unfold mvec. rewrite map_length, seq_length.
    rewrite Forall_forall in HM. apply HM. auto.
Qed.
Lemma ivs_open n nv M xh r i j : Forall (m_ok n nv) M -> x_ok n xh -> length r = nv -> (i < 1 + length M)%nat -> (j < 4)%nat ->
  open r (nth j (nth i (ivs M (fst xh) (snd xh)) []) []) = rowop M r i (nth j (vs4 (fst xh) (snd xh)) []).
Proof.
  intros HM HX Hr Hi Hj. unfold ivs. destruct i as [|i]; cbn [nth rowop]; [reflexivity|].
  rewrite (nth_map_lt _ _ _ mat0) by lia. rewrite (nth_map_lt _ _ _ []) by (cbn [vs4 length]; auto).
  apply (mvec_open n nv); auto.
  - rewrite Forall_forall in HM. apply HM, nth_In. lia.
  - apply (vs4_len n xh); auto. apply nth_In. auto.
Qed.
Lemma group4_concat {A} (f : A -> R) (gs : list (list A)) d : (forall g, In g gs -> length g = 4%nat) ->
  group4 (map f (concat gs)) = map (fun g => (f (nth 0 g d), f (nth 1 g d), f (nth 2 g d), f (nth 3 g d))) gs.
Proof.
  induction gs as [|g gs IH]; intros H; [reflexivity|]. specialize (H g (or_introl eq_refl)) as Hg.
  destruct g as [|a [|b [|c [|e [|? ?]]]]]; try discriminate Hg. cbn [concat app map group4 nth]. f_equal. apply IH. intros. apply H. right. auto.
Qed.

(** Evaluations reported for one instance at a point. *)
Definition true_ev4 (M : list (smat R)) (ro : list K) (xh : rg_inst K R * list R) : list (ev4 R) :=
  map (fun i => let E j := rowop M ro i (nth j (vs4 (fst xh) (snd xh)) []) in (E 0%nat, E 1%nat, E 2%nat, E 3%nat)) (seq 0 (1 + length M)).
Lemma true_ev4_length M ro xh : length (true_ev4 M ro xh) = (1 + length M)%nat.
Proof. unfold true_ev4. rewrite map_length, seq_length. auto. Qed.
Definition VSof (M : list (smat R)) (ihs : list (rg_inst K R * list R)) : list (list (list R)) :=
  map (fun xh => concat (ivs M (fst xh) (snd xh))) ihs.

Lemma group4_true n nv M xh ro : Forall (m_ok n nv) M -> x_ok n xh -> length ro = nv ->
  group4 (map (open ro) (concat (ivs M (fst xh) (snd xh)))) = true_ev4 M ro xh.
Proof.
  intros HM HX Hr. rewrite (group4_concat _ _ []) by apply ivs_group. unfold true_ev4.
  apply (list_ext (0, 0, 0, 0)); [rewrite !map_length, seq_length; apply ivs_length|]. intros i Hi. rewrite map_length, ivs_length in Hi.
  rewrite (nth_map_lt _ _ _ []) by (rewrite ivs_length; auto). rewrite nth_seq_map by auto. cbv zeta.
  rewrite !(ivs_open n nv) by (auto; lia). auto.
Qed.

Theorem sumchecker_ok n nv M insts hs dc (t0 t1 : list R) (ts : T) : let r := so_r (dc_out dc) in
  (1 <= nv)%nat -> char_gt K 2 -> length r = nv -> (n <= 2 ^ nv)%nat -> length hs = length insts ->
  Forall (m_ok n nv) M -> Forall (x_ok n) (combine insts hs) -> (length t0 <= 2 ^ nv)%nat -> (length t1 <= 2 ^ nv)%nat ->
  let '(rc, ts1) := get_challenge ts in
  let VS := VSof M (combine insts hs) in let w := (4 + 4 * length M)%nat in let L := length insts in
  exists proof ro ts2,
    sumchecker nv insts dc hs t0 t1 M ts = Ok (proof, map (true_ev4 M ro) (combine insts hs), map emb ro, absorb_evals (map (true_ev4 M ro) (combine insts hs)) ts2) /\
    length ro = nv /\ length proof = nv /\
    sc_verify ts1 nv 2 (cm_sum nv L w rc VS r t0 t1) proof = Ok (ro, cm_val L w rc VS r t0 t1 (map emb ro), ts2).
Proof.
  intros r Hnv Hc Hr Hn Lh HM HX H0 H1. destruct (get_challenge ts) as [rc ts1] eqn:Erc. intros VS w L.
  assert (length VS = L) as LVS by (unfold VS, VSof, L; rewrite map_length, combine_length; lia).
  assert (Forall (fun vs => length vs = w /\ Forall (fun v => (length v <= 2 ^ nv)%nat) vs) VS) as HVS.
  { unfold VS, VSof. apply Forall_map. eapply Forall_impl; [|exact HX]. intros xh Hxh. split; [apply ivs_total|apply (ivs_vec_len n); auto]. }
  destruct (sumcheck_complete ts1 (cm_tabs nv VS r t0 t1) nv 2 (cm_comb L (length M) rc)) as (proof & ro & ts2 & E1 & E2 & E3 & E4); auto.
  { apply (cm_comb_deg (p := p)). }
  { unfold cm_tabs. apply Forall_cons; [exact Hr|]. apply Forall_app. split; [|repeat (apply Forall_cons; [reflexivity|]); apply Forall_nil].
    apply Forall_forall. intros m Hm. apply in_concat in Hm as (c & Hc' & Hm). apply in_map_iff in Hc' as (vs & <- & _).
    apply in_map_iff in Hm as (v & <- & _). reflexivity. }
  exists proof, ro, ts2. split; [|split; [auto|split; [auto|]]].
  - unfold sumchecker. fold r. rewrite Erc. rewrite build_eq_mle by (intros E; apply (f_equal (@length R)) in E; rewrite map_length in E; cbn in E; lia).
    rewrite map_length. fold (eqtab r). cbn [unwrap bind].
    rewrite (mapM_ok _ (fun xh => concat (ivs M (fst xh) (snd xh)))).
    2:{ intros xh Hxh. rewrite Forall_forall in HX. apply (inst_vecs_ok n nv); auto. }
    cbn [bind]. fold (VSof M (combine insts hs)). fold VS.
    assert (forall v : list R, (length v <= 2 ^ nv)%nat -> mle_from_vec nv v = Ok (vtab nv v)) as HV.
    { intros v Hv. apply mle_from_vec_ok. auto. }
    rewrite (mapM_ok _ (map (vtab nv))).
    2:{ intros vs Hvs. apply mapM_ok. intros v Hv. apply HV. rewrite Forall_forall in HVS. destruct (HVS vs Hvs) as [_ F]. rewrite Forall_forall in F. auto. }
    cbn [bind]. rewrite !HV by auto. cbn [bind]. fold (cm_tabs nv VS r t0 t1). fold L. rewrite E1. cbn [bind].
    rewrite (mapM_ok _ (map (fun m => mle_spec (mle_get m) (map emb ro)))).
    2:{ intros ms Hms. apply mapM_ok. intros m Hm. apply in_map_iff in Hms as (vs & <- & _). apply in_map_iff in Hm as (v & <- & _).
        assert (mle_evaluate (vtab nv v) (map emb ro) = Some (mle_spec (mle_get (vtab nv v)) (map emb ro))) as ->; [|reflexivity].
        apply mle_evaluate_spec. rewrite map_length. split; [exact E2|reflexivity]. }
    cbn [bind]. rewrite !map_map.
    assert (map (fun x => group4 (map (fun m => mle_spec (mle_get m) (map emb ro)) (map (vtab nv) x))) VS = map (true_ev4 M ro) (combine insts hs)) as ->; [|reflexivity].
    unfold VS, VSof. rewrite map_map. apply map_ext_in. intros xh Hxh. rewrite Forall_forall in HX. specialize (HX xh Hxh).
    rewrite map_map. rewrite <- (group4_true n nv) by auto. f_equal. apply map_ext_in. intros v Hv. apply vtab_at.
    pose proof (ivs_vec_len n nv M xh Hn HM HX) as F. rewrite Forall_forall in F. auto.
  - rewrite (cm_comb_val (p := p)) in E4; auto; [|rewrite map_length; auto].
    etransitivity; [|exact E4]. f_equal. rewrite <- (cm_cube (p := p)) by auto. apply sumn_ext. intros b Hb. symmetry. apply (cm_comb_val (p := p)); auto. apply bits_length.
Qed.

(** Claimed sum of the verifier. *)
Lemma emb_open r (v : list K) : emb (mle_spec (fun i => nth i v 0) r) = open r (map emb v).
Proof.
  unfold open. rewrite (hom_mle_spec _ emb_hom). apply mle_spec_ext. intros i _. symmetry. apply (nth_map_emb (p := p)).
Qed.
Lemma emb_open_mul r m (v : list K) : base_mat m -> emb (pct (open_mul r m (map emb v))) = open_mul r m (map emb v).
Proof.
  intros HB. assert (open_mul r m (map emb v) = emb (mle_spec (kmz m v) r)) as ->; [|rewrite (pct_emb (p := p)); auto].
  unfold open_mul. rewrite (hom_mle_spec _ emb_hom). apply mle_spec_ext. intros i _. unfold mz, kmz. rewrite map_length, (hom_sumn _ emb_hom).
  apply sumn_ext. intros c Hc. rewrite (hom_mul _ emb_hom), (nth_map_emb (p := p)). f_equal. apply (mat_entry_base (p := p)). auto.
Qed.
Lemma claimed_ok n nv M r insts hs rck (u : list (list R)) tc0 tc1 : let L := length insts in let w := (4 + 4 * length M)%nat in
  length r = nv -> Forall (m_ok n nv) M -> Forall (x_ok n) (combine insts hs) -> length hs = L -> length tc0 = L -> length tc1 = L ->
  u = map (fun h => map (fun i => rowop M r i h) (seq 0 (1 + length M))) hs ->
  cm_claimed L (length M) (emb rck) (map (true_evals M r) insts) u tc0 tc1
  = Ok (sumn L (fun l => sumn w (fun j => open r (nth j (nth l (VSof M (combine insts hs)) []) []) * emb (rpow rck (l * w + j)))
          + nth l tc0 0 * emb (rpow rck (L * w)) + nth l tc1 0 * emb (rpow rck (L * w + 1)))).
Proof.
  intros L w Hr HM HX Lh L0 L1 Eu. unfold cm_claimed. fold w.
  set (V := fun l => sumn w (fun j => open r (nth j (nth l (VSof M (combine insts hs)) []) []) * emb (rpow rck (l * w + j)))
          + nth l tc0 0 * emb (rpow rck (L * w)) + nth l tc1 0 * emb (rpow rck (L * w + 1))).
  rewrite (mapM_ok _ (fun le => V (fst le))).
  - cbn [bind]. f_equal. rewrite map_length. fold L.
    rewrite <- (map_length (true_evals M r) insts : _ = L). rewrite (lsum_combine (p := p) _ _ (true_evals M r inst0)). rewrite map_length. cbn [fst]. reflexivity.
  - intros [l ev] Hle. rewrite map_length in Hle. assert (Hle' := Hle). rewrite <- (map_length (true_evals M r) insts) in Hle'.
    apply (in_combine_seq _ _ (true_evals M r inst0)) in Hle' as [Hl Ee]. cbn [fst snd] in *. rewrite map_length in Hl. fold L in Hl.
    rewrite (map_nth (true_evals M r)) in Ee. set (x := nth l insts inst0) in *. set (h := nth l hs []).
    assert (nth l (combine insts hs) (inst0, []) = (x, h)) as Exh by (apply combine_nth; auto).
    assert (x_ok n (x, h)) as Hxh. { rewrite Forall_forall in HX. rewrite <- Exh. apply HX, nth_In. rewrite combine_length. lia. }
    rewrite (mapM_ok _ (fun i => sumn 4 (fun j => rowop M r i (nth j (vs4 x h) []) * emb (rpow rck (l * w + 4 * i + j))))).
    + cbn [bind]. rewrite !(index_ok _ _ 0) by lia. cbn [bind]. unfold V. rewrite lsum_map_seq. rewrite <- !(hom_pow _ emb_hom). f_equal. f_equal. f_equal.
      replace w with ((1 + length M) * 4)%nat at 1 by (unfold w; lia). rewrite sumn_blocks. apply sumn_ext. intros i Hi. apply sumn_ext. intros j Hj.
      unfold VSof. rewrite (nth_map_lt _ _ _ (inst0, [])) by (rewrite combine_length; lia). rewrite Exh. cbn [fst snd].
      rewrite (nth_concat_const 4) by (try apply ivs_group; rewrite ?ivs_length; auto; lia).
      rewrite (ivs_open n nv M (x, h)) by auto. cbn [fst snd]. do 3 f_equal. lia.
    + intros i Hi. apply in_seq in Hi. rewrite Ee. unfold true_evals. cbn [de_a de_b de_c].
      rewrite !(index_ok _ _ 0) by (cbn [length]; rewrite map_length; lia). cbn [bind].
      rewrite (index_ok _ _ []) by (rewrite Eu, map_length; lia). cbn [bind].
      rewrite Eu. rewrite (nth_map_lt _ _ _ []) by lia. fold h.
      rewrite (index_ok _ _ 0) by (rewrite map_length, seq_length; lia). cbn [bind]. rewrite nth_seq_map by lia. f_equal.
      rewrite <- !(hom_pow _ emb_hom).
      assert (emb (nth i (mle_spec (fun i => nth i (ri_tau x) 0) r :: map (fun m => pct (open_mul r m (map emb (ri_tau x)))) M) (0 : K)) = rowop M r i (map emb (ri_tau x))) as ->.
      { destruct i as [|i]; cbn [nth rowop]; [apply emb_open|]. rewrite (nth_map_lt _ _ _ mat0) by lia. apply emb_open_mul.
        rewrite Forall_forall in HM. apply (HM (nth i M mat0)). apply nth_In. lia. }
      assert (forall v, nth i (open r v :: map (fun m => open_mul r m v) M) 0 = rowop M r i v) as Hrow.
      { intros v. destruct i as [|i]; cbn [nth rowop]; [auto|]. apply (nth_map_lt (fun m => open_mul r m v)). lia. }
      rewrite !Hrow. cbn [sumn]. unfold vs4. cbn [nth]. rewrite !Nat.add_0_r. ring.
Qed.
Lemma expected_ok n nv M r ro insts hs rck (t0 t1 : list R) : let L := length insts in let w := (4 + 4 * length M)%nat in
  length ro = nv -> length r = nv -> Forall (m_ok n nv) M -> Forall (x_ok n) (combine insts hs) -> length hs = L ->
  cm_expected L (length M) (emb rck) (eqp (map emb r) (map emb ro)) (vat t0 (map emb ro)) (vat t1 (map emb ro)) (map (true_ev4 M ro) (combine insts hs))
  = Ok (cm_val L w rck (VSof M (combine insts hs)) r t0 t1 (map emb ro)).
Proof.
  intros L w Hro Hr HM HX Lh. unfold cm_expected, cm_val. fold w.
  set (V := fun l => mle_spec (eqw (map emb r)) (map emb ro) * sumn w (fun j => vat (nth j (nth l (VSof M (combine insts hs)) []) []) (map emb ro) * emb (rpow rck (l * w + j)))
    + vat (nth 0 (nth l (VSof M (combine insts hs)) []) []) (map emb ro) * vat t0 (map emb ro) * emb (rpow rck (L * w))
    + vat (nth 0 (nth l (VSof M (combine insts hs)) []) []) (map emb ro) * vat t1 (map emb ro) * emb (rpow rck (L * w + 1))).
  assert (length (combine insts hs) = L) as LC by (rewrite combine_length; fold L; lia).
  rewrite (mapM_ok _ (fun le => V (fst le))).
  - cbn [bind]. f_equal. rewrite map_length. 
    rewrite <- (map_length (true_ev4 M ro) (combine insts hs)). rewrite (lsum_combine (p := p) _ _ (true_ev4 M ro (inst0, []))). rewrite map_length. cbn [fst]. rewrite LC. reflexivity.
  - intros [l ev] Hle. apply (in_combine_seq _ _ (true_ev4 M ro (inst0, []))) in Hle as [Hl Ee]. cbn [fst snd] in *. rewrite map_length, LC in Hl.
    rewrite (map_nth (true_ev4 M ro)) in Ee. destruct (nth l (combine insts hs) (inst0, [])) as [x h] eqn:Exh.
    assert (x_ok n (x, h)) as Hxh. { rewrite Forall_forall in HX. rewrite <- Exh. apply HX, nth_In. lia. }
    assert (forall i, (i < 1 + length M)%nat -> index ev i = Ok (rowop M ro i (map emb (ri_tau x)), rowop M ro i (ri_mtau x), rowop M ro i (ri_f x), rowop M ro i h)) as HI.
    { intros i Hi. rewrite Ee, (index_ok _ _ (0, 0, 0, 0)) by (rewrite true_ev4_length; auto). unfold true_ev4. rewrite nth_seq_map by auto. reflexivity. }
    rewrite (mapM_ok _ (fun i => sumn 4 (fun j => rowop M ro i (nth j (vs4 x h) []) * emb (rpow rck (l * w + 4 * i + j))))).
    2:{ intros i Hi. apply in_seq in Hi. rewrite HI by lia. cbn [bind]. f_equal. rewrite <- !(hom_pow _ emb_hom). cbn [sumn]. unfold vs4. cbn [nth]. rewrite !Nat.add_0_r. ring. }
    cbn [bind]. rewrite HI by lia. cbn [bind]. f_equal. unfold V. rewrite lsum_map_seq.
    assert (forall i j, (i < 1 + length M)%nat -> (j < 4)%nat -> vat (nth (i * 4 + j) (nth l (VSof M (combine insts hs)) []) []) (map emb ro) = rowop M ro i (nth j (vs4 x h) [])) as HV.
    { intros i j Hi Hj. unfold VSof. rewrite (nth_map_lt _ _ _ (inst0, [])) by lia. rewrite Exh. cbn [fst snd].
      rewrite (nth_concat_const 4) by (try apply ivs_group; rewrite ?ivs_length; auto; lia).
      change (vat ?a (map emb ro)) with (open ro a). rewrite (ivs_open n nv M (x, h)) by auto. auto. }
    pose proof (HV 0%nat 0%nat ltac:(lia) ltac:(lia)) as H00. cbn [Nat.mul Nat.add] in H00. rewrite H00. unfold vs4 at 2 3. cbn [nth].
    rewrite <- !(hom_pow _ emb_hom). rewrite mle_spec_eqw by (rewrite !map_length; congruence). rewrite (eqp_sym (map emb ro)) by (rewrite !map_length; congruence).
    assert (sumn w (fun j => vat (nth j (nth l (VSof M (combine insts hs)) []) []) (map emb ro) * emb (rpow rck (l * w + j)))
       = sumn (1 + length M) (fun i => sumn 4 (fun j => rowop M ro i (nth j (vs4 x h) []) * emb (rpow rck (l * w + 4 * i + j))))) as ->.
    { replace w with ((1 + length M) * 4)%nat at 1 by (unfold w; lia). rewrite sumn_blocks.
      apply sumn_ext. intros i Hi. apply sumn_ext. intros j Hj. rewrite HV by auto. do 3 f_equal. lia. }
    ring.
Qed.
End Run.

Section Complete.
Context {K R T : Type} {PO : POps K R} {TO : TransOps T R K} {p : Z} {PL : PLaws K R p}.
Add Ring Rring47 : (@rlaws_th R _ (pl_R (p := p))).
Add Ring Kring47 : (@rlaws_th K _ (fld_laws (FieldLaws := pl_K (p := p)))).

Lemma short_challenges_ok lam m (ts : T) : (lam / pdim < 64)%nat -> exists s ts', short_challenges lam m ts = Ok (s, ts') /\ length s = m.
Proof.
  intros Hl. unfold short_challenges. generalize 0%nat as a. revert ts; induction m as [|m IH]; intros ts a; cbn [seq mapT].
  - exists [], ts. auto.
  - unfold short_challenge at 1. destruct (Nat.leb_spec 64 (lam / pdim)); [lia|]. destruct (squeeze_bytes ts pdim) as [bytes ts1]. cbn [bind].
    destruct (IH ts1 (S a)) as (s & ts' & E & L). rewrite E. cbn [bind]. eexists. eexists. split; [reflexivity|]. cbn [length]. auto.
Qed.
Lemma cm_challenges_ok k (ts : T) : (128 / pdim < 64)%nat -> exists s s' ts', cm_challenges k ts = Ok (s, s', ts') /\ length s = 3%nat /\ sp_ok k s'.
Proof.
  intros Hl. unfold cm_challenges. destruct (short_challenges_ok 128 3 ts Hl) as (s & ts1 & E1 & L1). rewrite E1. cbn [bind].
  assert (forall a ts, exists s' ts', mapT (fun _ ts => short_challenges 128 pdim ts) (seq a k) ts = Ok (s', ts') /\ sp_ok k s') as H.
  { clear - Hl. induction k as [|k IH]; intros a ts; cbn [seq mapT].
    - exists [], ts. repeat split. apply Forall_nil.
    - destruct (short_challenges_ok 128 pdim ts Hl) as (s & ts1 & E1 & L1). rewrite E1. cbn [bind].
      destruct (IH (S a) ts1) as (s' & ts' & E & [L F]). rewrite E. cbn [bind]. eexists. eexists. split; [reflexivity|]. split; [cbn [length]; auto|].
      apply Forall_cons; auto. }
  destruct (H 0%nat ts1) as (s' & ts' & E & HS). rewrite E. cbn [bind]. exists s, s', ts'. auto.
Qed.

(** The linear combination of four vectors. *)
Definition linv (s : list R) (a b c d : list R) : list R :=
  map (fun q => let '(((a, b), c), d) := q in lin3 s a b c d) (combine (combine (combine a b) c) d).
Lemma linv_length s a b c d n : length a = n -> length b = n -> length c = n -> length d = n -> length (linv s a b c d) = n.
Proof. intros. unfold linv. rewrite map_length, !combine_length. lia. Qed.
Lemma linv_nth s a b c d n i : length a = n -> length b = n -> length c = n -> length d = n -> (i < n)%nat ->
  nth i (linv s a b c d) 0 = lin3 s (nth i a 0) (nth i b 0) (nth i c 0) (nth i d 0).
Proof.
  intros. unfold linv. rewrite (nth_map_lt _ _ _ (0, 0, 0, 0)) by (rewrite !combine_length; lia).
  rewrite !combine_nth by (rewrite ?combine_length; lia). auto.
Qed.
Lemma linv_sum n (w : nat -> R) s a b c d : length a = n -> length b = n -> length c = n -> length d = n ->
  sumn n (fun r => w r * nth r (linv s a b c d) 0) =
  lin3 s (sumn n (fun r => w r * nth r a 0)) (sumn n (fun r => w r * nth r b 0)) (sumn n (fun r => w r * nth r c 0)) (sumn n (fun r => w r * nth r d 0)).
Proof.
  intros. unfold lin3. rewrite <- !sumn_mul_l, <- !sumn_add. apply sumn_ext. intros r Hr. rewrite (linv_nth s a b c d n) by auto. unfold lin3. ring.
Qed.
Lemma linv_rlin n F s a b c d : rlin n F -> length a = n -> length b = n -> length c = n -> length d = n ->
  F (linv s a b c d) = lin3 s (F a) (F b) (F c) (F d).
Proof. intros [w Hw] Ha Hb Hc Hd. rewrite !Hw by auto using linv_length. apply linv_sum; auto. Qed.
Lemma rowop_rlin n nv M r i : (n <= 2 ^ nv)%nat -> length r = nv -> rlin n (rowop M r i).
Proof. intros Hn Hr. destruct i; cbn [rowop]; [apply (rlin_open (p := p)); rewrite Hr; auto|apply (rlin_open_mul (p := p))]. Qed.
Lemma commit_linv A n s a b c d ca cb cc cd : wf_ajtai A -> a_ncols A = n -> length a = n -> length b = n -> length c = n -> length d = n ->
  commit A a = Ok ca -> commit A b = Ok cb -> commit A c = Ok cc -> commit A d = Ok cd ->
  commit A (linv s a b c d) = Ok (linv s ca cb cc cd).
Proof.
  intros WA HA Ha Hb Hc Hd. rewrite !commit_ok by (rewrite ?(linv_length s a b c d n); congruence).
  intros E1 E2 E3 E4. apply ok_inj in E1, E2, E3, E4. subst ca cb cc cd. f_equal.
  assert (forall v, length v = n -> forall row, In row (a_rows A) -> lsum (zipw rmul row v) = sumn n (fun r => nth r row 0 * nth r v 0)) as HR.
  { intros v Hv row Hrow. unfold wf_ajtai in WA. rewrite Forall_forall in WA. rewrite lsum_nth, zipw_length, Hv, (WA _ Hrow), HA, Nat.min_id. apply sumn_ext.
    intros r Hr. apply nth_zipw; rewrite ?(WA _ Hrow), ?HA, ?Hv; auto. }
  apply (list_ext 0).
  - rewrite map_length. symmetry. apply linv_length; apply map_length.
  - intros i Hi. rewrite map_length in Hi. rewrite (linv_nth _ _ _ _ _ (length (a_rows A))) by (rewrite ?map_length; auto).
    rewrite !(nth_map_lt _ _ _ []) by auto. assert (In (nth i (a_rows A) []) (a_rows A)) as HI by (apply nth_In; auto).
    rewrite !HR by auto using linv_length. apply linv_sum; auto.
Qed.

(** The prover with the list of commitments [comh] replaced; with the identity it is the code's prover. *)
Definition cm_prove_with (tamper : list (list R) -> list (list R)) (g : rg K R) (M : list (smat R)) (ts : T)
  : result (list (list R) * comx R * cm_proof K R * T) :=
  match rg_insts g with
  | [] => Panic
  | i0 :: _ =>
    let n := length (ri_tau i0) in
    let P := rg_params g in
    do dt <- range_check g M ts;
    let '(dc, ts) := dt in
    do ch <- cm_challenges (rp_k P) ts;
    let '(s, s', ts) := ch in
    do hs <- mapM (cm_h (rg_nvars g) s') (rg_insts g);
    do comh <- mapM (cm_comh s') (rg_insts g);
    let comh := tamper comh in
    let ts := absorb_comh comh ts in
    do cc <- c_challenges comh ts;
    let '(c0, c1, ts) := cc in
    let t0 := calculate_t_z c0 (concat s') (dp_pows (rp_l P)) x_pows in
    let t1 := calculate_t_z c1 (concat s') (dp_pows (rp_l P)) x_pows in
    do _ <- guard (length t0 <=? n)%nat Panic;
    do _ <- guard (length t1 <=? n)%nat Panic;
    let t0 := resize n 0 t0 in
    let t1 := resize n 0 t1 in
    do sa <- sumchecker (rg_nvars g) (rg_insts g) dc hs t0 t1 M ts;
    let '(proof_a, evals_a, ro_a, ts) := sa in
    do sb <- sumchecker (rg_nvars g) (rg_insts g) dc hs t0 t1 M ts;
    let '(proof_b, evals_b, ro_b, ts) := sb in
    let gs := map (fun ih =>
        map (fun q => let '(((a, b), c), d) := q in lin3 s (emb a) b c d)
            (combine (combine (combine (ri_tau (fst ih)) (ri_mtau (fst ih))) (ri_f (fst ih))) (snd ih)))
      (combine (rg_insts g) hs) in
    let proof := CmProof dc comh (proof_a, proof_b) (evals_a, evals_b) in
    do x <- cm_x proof s (combine ro_a ro_b);
    Ok (gs, x, proof, ts)
  end.
Lemma cm_prove_with_id g M ts : cm_prove_with (fun c => c) g M ts = cm_prove g M ts.
Proof. reflexivity. Qed.

(** Instances produced by [from_f]. *)
Record cm_inst (fv : rg_inst K R -> list R) (A : ajtai R) (P : rparams) (n : nat) (x : rg_inst K R) : Prop := CmInst {
  ci_wf : rg_wf fv n (rp_k P) x;
  ci_com : ri_comMf x = map (mmul A) (ri_Mf x);
  ci_tau : ri_tau x = resize n 0 (split_data (hrows (kappa A) (ri_comMf x)) (Z.of_nat (pdim / 2)) (rp_l P));
  ci_f : commit A (ri_f x) = Ok (fc_f (ri_coms x));
  ci_Mf : commit A (map emb (ri_tau x)) = Ok (fc_Mf (ri_coms x));
  ci_mtau : commit A (ri_mtau x) = Ok (fc_mtau (ri_coms x)) }.
(** Replacements of [comh] that keep its shape and the sum over the instances. *)
Definition sum_keeping (kap : nat) (tamper : list (list R) -> list (list R)) : Prop :=
  forall comh, Forall (fun c => length c = kap) comh ->
    length (tamper comh) = length comh /\ Forall (fun c => length c = kap) (tamper comh) /\
    forall a, (a < kap)%nat -> sumn (length comh) (fun l => nth a (nth l (tamper comh) []) 0) = sumn (length comh) (fun l => nth a (nth l comh []) 0).

Lemma vat_resize nv t pt : length pt = nv -> vat (resize (2 ^ nv) 0 t) pt = vat t pt.
Proof. intros H. apply mle_spec_ext. intros i Hi. apply nth_resize. rewrite <- H. auto. Qed.

(** One of the two sumchecks, prover and verifier. *)
Lemma half_ok fv A P nv M insts hs dc comh (s' : list (list R)) (c0 c1 : list R) (ts : T) : let n := (2 ^ nv)%nat in let r := so_r (dc_out dc) in
  let L := length insts in let t0 := calculate_t_z c0 (concat s') (dp_pows (rp_l P)) x_pows in let t1 := calculate_t_z c1 (concat s') (dp_pows (rp_l P)) x_pows in
  (1 <= nv)%nat -> char_gt K 2 -> so_nvars (dc_out dc) = nv -> length r = nv -> (1 <= rp_k P)%nat -> (1 <= rp_l P)%nat ->
  Forall (m_ok n nv) M -> Forall (cm_inst fv A P n) insts -> sp_ok (rp_k P) s' ->
  dc_evals dc = map (true_evals M r) insts ->
  hs = map (fun x => hvec n (ri_Mf x) s') insts ->
  length comh = L -> Forall (fun c => length c = kappa A) comh ->
  (forall a, (a < kappa A)%nat -> sumn L (fun l => nth a (nth l comh []) 0) = sumn L (fun l => nth a (hvec (kappa A) (ri_comMf (nth l insts inst0)) s') 0)) ->
  length c0 = length c1 -> (kappa A <= 2 ^ length c0)%nat -> (2 ^ length c0 * (rp_k P * pdim) * rp_l P * pdim <= n)%nat ->
  enough (p := p) (Z.of_nat (pdim / 2)) (rp_l P) ->
  exists proof ro ts2, length ro = nv /\
    sumchecker nv insts dc hs (resize n 0 t0) (resize n 0 t1) M ts = Ok (proof, map (true_ev4 M ro) (combine insts hs), map emb ro, ts2) /\
    cm_verify_sc L (length M) dc (map (fun h => map (fun i => rowop M r i h) (seq 0 (1 + length M))) hs) (cm_tcch c0 comh) (cm_tcch c1 comh) t0 t1
      proof (map (true_ev4 M ro) (combine insts hs)) ts = Ok (map emb ro, ts2).
Proof.
  intros n r L t0 t1 Hnv Hc Env Hr Hk Hl HM HI HS Eev Ehs Lch Fch Hsum Lc Hkap Hn HE.
  assert (length hs = L) as Lhs by (rewrite Ehs, map_length; auto).
  assert (Forall (x_ok n) (combine insts hs)) as HX.
  { rewrite Ehs. clear - HI. induction HI as [|x insts Hx _ IH]; cbn [map combine]; [apply Forall_nil|]. apply Forall_cons; auto.
    destruct (ci_wf _ _ _ _ _ Hx) as [W1 W2 W3 W4 W5 W6 W7]. repeat split; cbn [fst snd]; auto.
    - rewrite <- W7, map_length. auto.
    - unfold hvec. rewrite map_length, seq_length. auto. }
  assert (length (concat s') = (rp_k P * pdim)%nat) as LS by (apply sp_concat_length; auto).
  pose proof (pdim_pos (p := p)) as Hd.
  assert (length t0 <= n)%nat as Lt0. { unfold t0. rewrite (t_length (p := p)) by (rewrite ?LS; nia). rewrite LS. auto. }
  assert (length t1 <= n)%nat as Lt1. { unfold t1. rewrite (t_length (p := p)) by (rewrite ?LS; nia). rewrite LS, <- Lc. auto. }
  pose proof (sumchecker_ok (p := p) n nv M insts hs dc (resize n 0 t0) (resize n 0 t1) ts Hnv Hc Hr (le_n _) Lhs HM HX) as H.
  specialize (H ltac:(rewrite resize_length; auto) ltac:(rewrite resize_length; auto)).
  unfold cm_verify_sc. destruct (get_challenge ts) as [rc ts1]. cbv zeta in H. destruct H as (proof & ro & ts2 & E1 & E2 & E3 & E4).
  exists proof, ro. eexists. split; [auto|]. split; [exact E1|].
  rewrite Env, Eev. fold r.
  rewrite (claimed_ok (p := p) n nv M r insts hs rc _ (cm_tcch c0 comh) (cm_tcch c1 comh)); auto; try (unfold cm_tcch; rewrite map_length; auto).
  cbn [bind]. fold L. fold r in E4.
  assert (forall c, length c = length c0 -> forall e : R, sumn L (fun l => nth l (cm_tcch c comh) 0 * e)
      = sumn L (fun l => dot (nth 0 (nth l (VSof M (combine insts hs)) []) []) (resize n 0 (calculate_t_z c (concat s') (dp_pows (rp_l P)) x_pows)) (2 ^ nv) * e)) as HT.
  { intros c Lcc e. rewrite !sumn_mul_r. f_equal.
    transitivity (sumn L (fun l => sumn (kappa A) (fun a => nth a (tensor c) 0 * nth a (nth l comh []) 0))).
    { apply sumn_ext. intros l Hl'. unfold cm_tcch. rewrite (nth_map_lt _ _ _ []) by lia. rewrite Forall_forall in Fch.
      assert (length (nth l comh []) = kappa A) as L1 by (apply Fch, nth_In; lia).
      rewrite lsum_nth, zipw_length, tensor_length, L1, Lcc, Nat.min_r by auto. apply sumn_ext. intros a Ha. apply nth_zipw; rewrite ?tensor_length, ?Lcc; lia. }
    transitivity (sumn L (fun l => sumn (kappa A) (fun a => nth a (tensor c) 0 * nth a (hvec (kappa A) (ri_comMf (nth l insts inst0)) s') 0))).
    { rewrite sumn_swap. rewrite (sumn_swap L). apply sumn_ext. intros a Ha. rewrite !sumn_mul_l, Hsum by auto. auto. }
    apply sumn_ext. intros l Hl'. rewrite Forall_forall in HI. assert (cm_inst fv A P n (nth l insts inst0)) as Hx by (apply HI, nth_In; auto).
    destruct Hx as [X1 X2 X3 _ _ _].
    pose proof (tcch_ok (p := p) fv A n (rp_k P) (rp_l P) s' (nth l insts inst0) c Hk Hl X1 X2 HS X3) as Htc. rewrite Lcc in Htc. specialize (Htc Hkap Hn HE).
    unfold VSof. rewrite (nth_map_lt _ _ _ (inst0, [])) by (rewrite combine_length; fold L; lia). rewrite combine_nth by auto. cbn [fst snd].
    unfold ivs, vs4. cbn [concat app nth]. fold n. rewrite Htc.
    rewrite lsum_nth, zipw_length, tensor_length. unfold hvec at 2. rewrite map_length, seq_length, Nat.min_r by (rewrite Lcc; auto).
    apply sumn_ext. intros a Ha. symmetry. apply nth_zipw; rewrite ?tensor_length, ?Lcc; [lia|]. unfold hvec. rewrite map_length, seq_length. auto. }
  assert (sumn L (fun l => sumn (4 + 4 * length M) (fun j => open r (nth j (nth l (VSof M (combine insts hs)) []) []) * emb (rpow rc (l * (4 + 4 * length M) + j)))
          + nth l (cm_tcch c0 comh) 0 * emb (rpow rc (L * (4 + 4 * length M))) + nth l (cm_tcch c1 comh) 0 * emb (rpow rc (L * (4 + 4 * length M) + 1)))
      = cm_sum nv L (4 + 4 * length M) rc (VSof M (combine insts hs)) r (resize n 0 t0) (resize n 0 t1)) as ->.
  { unfold cm_sum. rewrite !sumn_add, !HT by congruence. reflexivity. }
  fold L in E4. rewrite E4. cbn [unwrap bind].
  rewrite !eval_vec_ok by (rewrite ?map_length; auto). cbn [bind].
  rewrite eq_eval_spec. rewrite !map_length. rewrite E2, Hr, Nat.eqb_refl. cbn [unwrap bind].
  fold (vat t0 (map emb ro)). fold (vat t1 (map emb ro)).
  rewrite <- (vat_resize nv t0), <- (vat_resize nv t1) by (rewrite map_length; auto). fold n.
  unfold L at 1. rewrite (expected_ok (p := p) n nv) by auto. cbn [bind]. fold L.
  rewrite (proj2 (req_true _ _) eq_refl). reflexivity.
Qed.

Definition gvec (s : list R) (x : rg_inst K R) (h : list R) : list R := linv s (map emb (ri_tau x)) (ri_mtau x) (ri_f x) h.
Lemma cm_x_ok M insts hs dc comh prf e0 e1 s ro nv n (ro0 ro1 : list K) : Forall (m_ok n nv) M -> Forall (x_ok n) (combine insts hs) -> (n <= 2 ^ nv)%nat ->
  length hs = length insts -> length comh = length insts -> dc_coms dc = map ri_coms insts -> length ro0 = nv -> length ro1 = nv ->
  e0 = map (true_ev4 M ro0) (combine insts hs) -> e1 = map (true_ev4 M ro1) (combine insts hs) ->
  cm_x (CmProof dc comh prf (e0, e1)) s ro =
  Ok (ComX (map (fun l => let c := ri_coms (nth l insts inst0) in linv s (fc_Mf c) (fc_mtau c) (fc_f c) (nth l comh [])) (seq 0 (length insts))) ro
     (map (fun xh => map (fun i => (rowop M ro0 i (gvec s (fst xh) (snd xh)), rowop M ro1 i (gvec s (fst xh) (snd xh)))) (seq 0 (1 + length M))) (combine insts hs))).
Proof.
  intros HM HX Hn Lh Lc Ec L0 L1 -> ->. unfold cm_x. cbn [cp_dcom cp_comh cp_evals fst snd]. rewrite Ec, map_length.
  set (c0 := FComs [] [] [] : fcoms R).
  rewrite (mapM_ok _ (fun lc => linv s (fc_Mf (snd lc)) (fc_mtau (snd lc)) (fc_f (snd lc)) (nth (fst lc) comh []))).
  2:{ intros [l c] Hlc. assert (Hlc' := Hlc). rewrite <- (map_length ri_coms insts) in Hlc'. apply (in_combine_seq _ _ c0) in Hlc' as [Hl _]. cbn [fst snd] in *.
      rewrite map_length in Hl. rewrite (index_ok _ _ []) by lia. reflexivity. }
  cbn [bind].
  assert (length (combine insts hs) = length insts) as LC by (rewrite combine_length; lia).
  rewrite (mapM_ok _ (fun l => let xh := nth l (combine insts hs) (inst0, []) in
     map (fun i => (rowop M ro0 i (gvec s (fst xh) (snd xh)), rowop M ro1 i (gvec s (fst xh) (snd xh)))) (seq 0 (1 + length M)))).
  2:{ intros l Hl. apply in_seq in Hl. rewrite !(index_ok _ _ (true_ev4 M ro0 (inst0, []))) by (rewrite map_length; lia). cbn [bind]. f_equal. cbv zeta.
      rewrite (map_nth (true_ev4 M ro0)).
      rewrite (nth_indep _ (true_ev4 M ro0 (inst0, [])) (true_ev4 M ro1 (inst0, []))) by (rewrite map_length; lia). rewrite (map_nth (true_ev4 M ro1)).
      set (xh := nth l (combine insts hs) (inst0, [])).
      assert (x_ok n xh) as (X1 & X2 & X3 & X4) by (rewrite Forall_forall in HX; apply HX, nth_In; lia).
      pose proof (true_ev4_length M ro0 xh) as Q0. pose proof (true_ev4_length M ro1 xh) as Q1. unfold ev4 in Q0, Q1.
      apply (list_ext (0, 0)); [rewrite zipw_length, Q0, Q1, map_length, seq_length; lia|].
      intros i Hi. rewrite zipw_length, Q0, Q1, Nat.min_id in Hi.
      rewrite (nth_zipw _ _ _ _ (0, 0, 0, 0) (0, 0, 0, 0)) by (rewrite ?Q0, ?Q1; auto). unfold true_ev4. rewrite !nth_seq_map by auto.
      cbv zeta. unfold vs4. cbn [nth]. unfold gvec.
      rewrite !(linv_rlin n) by (auto; try (apply (rowop_rlin n nv); auto); rewrite map_length; auto). auto. }
  cbn [bind]. f_equal. f_equal.
  - apply (list_ext []); [rewrite !map_length, combine_length, seq_length, map_length; lia|]. intros l Hl.
    rewrite !map_length, combine_length, seq_length, map_length, Nat.min_id in Hl. rewrite nth_seq_map by auto. cbv zeta.
    rewrite (nth_map_lt _ _ _ (0%nat, c0)) by (rewrite combine_length, seq_length, map_length; lia). rewrite combine_nth by (rewrite seq_length, map_length; auto).
    cbn [fst snd]. rewrite seq_nth by auto. rewrite (nth_map_lt _ _ _ inst0) by auto. auto.
  - apply (list_ext []); [rewrite !map_length, seq_length; lia|]. intros l Hl. rewrite !map_length, seq_length in Hl. rewrite nth_seq_map by auto. cbv zeta.
    rewrite (nth_map_lt _ _ _ (inst0, [])) by lia. auto.
Qed.
Lemma gvec_alt s x h n : length (ri_tau x) = n -> length (ri_mtau x) = n -> length (ri_f x) = n -> length h = n ->
  map (fun q => let '(((a, b), c), d) := q in lin3 s (emb a) b c d) (combine (combine (combine (ri_tau x) (ri_mtau x)) (ri_f x)) h) = gvec s x h.
Proof.
  intros. unfold gvec. apply (list_ext 0).
  - rewrite map_length, !combine_length. rewrite (linv_length s _ _ _ _ n) by (rewrite ?map_length; auto). lia.
  - intros i Hi. rewrite map_length, !combine_length in Hi. rewrite (nth_map_lt _ _ _ (0, 0, 0, 0)) by (rewrite !combine_length; lia).
    rewrite !combine_nth by (rewrite ?combine_length; lia). rewrite (linv_nth s _ _ _ _ n) by (rewrite ?map_length; auto; lia). rewrite (nth_map_emb (p := p)). auto.
Qed.

Lemma ark_log2_ge n : (n <= 2 ^ ark_log2 n)%nat.
Proof.
  unfold ark_log2. destruct (Nat.le_gt_cases n 1) as [H|H]; [rewrite Nat.log2_up_eqn0 by auto; cbn; auto|]. apply Nat.log2_up_spec. auto.
Qed.

(** The proof of a prover that runs the protocol on the instances but claims the coefficients of [fv x]. *)
Definition claim_v (fv : rg_inst K R -> list R) (M : list (smat R)) (insts : list (rg_inst K R)) (q : cm_proof K R) : cm_proof K R :=
  let dc := cp_dcom q in
  CmProof (Dcom (map (claim_evals fv M (so_r (dc_out dc))) insts) (dc_coms dc) (dc_out dc) (dc_params dc)) (cp_comh q) (cp_sc q) (cp_evals q).
Lemma cm_claimed_v fv L m rc M r insts u t0 t1 :
  cm_claimed L m rc (map (claim_evals fv M r) insts) u t0 t1 = cm_claimed L m rc (map (true_evals M r) insts) u t0 t1 :> result R.
Proof.
  unfold cm_claimed. rewrite !map_length. f_equal. generalize (seq 0 (length insts)).
  induction insts as [|x insts IH]; intros [|i l]; cbn [map combine mapM]; auto. rewrite IH. reflexivity.
Qed.
Theorem cm_claim_complete fv tamper A nv M g (ts : T) : let n := (2 ^ nv)%nat in let P := rg_params g in let insts := rg_insts g in let L := length insts in
  rg_nvars g = nv -> (1 <= nv)%nat -> char_gt K 3 -> (4 <= pdim)%nat -> (1 <= rp_k P)%nat -> (1 <= rp_l P)%nat -> (2 <= L * rp_k P)%nat ->
  (2 ^ ark_log2 (kappa A) * (rp_k P * pdim) * rp_l P * pdim <= n)%nat -> enough (p := p) (Z.of_nat (pdim / 2)) (rp_l P) ->
  wf_ajtai A -> a_ncols A = n -> Forall (m_ok n nv) M -> Forall (cm_inst fv A P n) insts -> Forall (same_images M fv) insts -> sum_keeping (kappa A) tamper ->
  exists s s' (ro0 ro1 : list K) x proof ts',
    let hs := map (fun x => hvec n (ri_Mf x) s') insts in
    let comh := map (fun x => hvec (kappa A) (ri_comMf x) s') insts in
    let gs := map (fun xh => gvec s (fst xh) (snd xh)) (combine insts hs) in
    (length s = 3%nat /\ exists tsa tsb : T, cm_challenges (rp_k P) tsa = Ok (s, s', tsb)) /\ sp_ok (rp_k P) s' /\ length ro0 = nv /\ length ro1 = nv /\
    cm_prove_with tamper g M ts = Ok (gs, x, proof, ts') /\ cm_verify (claim_v fv M insts proof) M ts = Ok (x, ts') /\
    dc_evals (cp_dcom proof) = map (true_evals M (so_r (dc_out (cp_dcom proof)))) insts /\
    dc_params (cp_dcom proof) = P /\ dc_coms (cp_dcom proof) = map ri_coms insts /\ so_e (dc_out (cp_dcom proof)) = true_e M (so_r (dc_out (cp_dcom proof))) insts /\ length (so_r (dc_out (cp_dcom proof))) = nv /\
    cp_comh proof = tamper comh /\
    cx_ro x = combine (map emb ro0) (map emb ro1) /\
    cx_vo x = map (fun gv => map (fun i => (rowop M ro0 i gv, rowop M ro1 i gv)) (seq 0 (1 + length M))) gs /\
    length (cx_cm x) = L /\ length gs = L /\ Forall (fun gv => length gv = n) gs /\
    Forall2 (fun gv hc => commit A gv = Ok hc) gs (map (fun l => let c := ri_coms (nth l insts inst0) in linv s (fc_Mf c) (fc_mtau c) (fc_f c) (nth l comh [])) (seq 0 L)) /\
    cx_cm x = map (fun l => let c := ri_coms (nth l insts inst0) in linv s (fc_Mf c) (fc_mtau c) (fc_f c) (nth l (tamper comh) [])) (seq 0 L).
Proof.
  intros n P insts L Env Hnv Hc Hd Hk Hl H2 Hn HE WA HA HM HI HSI Htam.
  assert (nv = ark_log2 (next_pow2 n)) as Ent. { unfold n, ark_log2, next_pow2. rewrite !Nat.log2_up_pow2 by lia. auto. }
  assert (Forall (rg_wf fv n (rp_k P)) insts) as HW by (eapply Forall_impl; [|exact HI]; intros ? []; auto).
  destruct (range_check_claim (p := p) fv n g M ts) as (o & ts1 & S1 & S2 & S3 & S4 & S5 & S6); rewrite ?Env; auto.
  set (dc := Dcom (map (true_evals M (so_r o)) (rg_insts g)) _ _ _) in S5, S6. fold P insts in dc. set (dc' := Dcom _ _ _ _) in S6. fold P insts in dc'. rewrite Env in S2, S3. fold insts in S4.
  assert (128 / pdim < 64)%nat as Hlam.
  { apply Nat.div_lt_upper_bound; lia. }
  destruct (cm_challenges_ok (rp_k P) (rg_absorb (dc_evals dc) ts1) Hlam) as (s & s' & ts2 & C1 & C2 & C3).
  set (hs := map (fun x => hvec n (ri_Mf x) s') insts). set (comh := map (fun x => hvec (kappa A) (ri_comMf x) s') insts).
  assert (mapM (cm_h nv s') insts = Ok hs) as Eh.
  { apply mapM_ok. intros x Hx. rewrite Forall_forall in HW. apply (cm_h_ok (p := p) fv nv n (rp_k P)); auto. }
  assert (mapM (cm_comh s') insts = Ok comh) as Ech.
  { apply mapM_ok. intros x Hx. rewrite Forall_forall in HI. destruct (HI x Hx) as [X1 X2 _ _ _ _]. apply (cm_comh_ok (p := p) fv A n (rp_k P)); auto. }
  assert (length comh = L) as Lcomh by (unfold comh; rewrite map_length; auto).
  assert (Forall (fun c => length c = kappa A) comh) as Fcomh.
  { unfold comh. apply Forall_map, Forall_forall. intros x _. unfold hvec. rewrite map_length, seq_length. auto. }
  destruct (Htam comh Fcomh) as (T1 & T2 & T3). rewrite Lcomh in T1, T3. set (comh' := tamper comh) in *.
  assert (1 <= L)%nat as HL by (destruct L; [cbn in H2; lia|lia]).
  set (lk := ark_log2 (kappa A)).
  assert (exists c0 c1 ts3, c_challenges comh' (absorb_comh comh' ts2) = Ok (c0, c1, ts3) /\ length c0 = lk /\ length c1 = lk) as (c0 & c1 & ts3 & D1 & D2 & D3).
  { unfold c_challenges. rewrite (index_ok _ _ []) by lia. cbn [bind].
    assert (length (nth 0 comh' []) = kappa A) as -> by (rewrite Forall_forall in T2; apply T2, nth_In; lia). fold lk.
    pose proof (get_challenges_length (absorb_comh comh' ts2) lk) as G1. destruct (get_challenges (absorb_comh comh' ts2) lk) as [c0 ts3].
    pose proof (get_challenges_length ts3 lk) as G2. destruct (get_challenges ts3 lk) as [c1 ts4]. cbn [fst] in *.
    eexists. eexists. eexists. split; [reflexivity|]. rewrite !map_length. auto. }
  assert (char_gt K 2) as Hc2 by (intros i Hi; apply Hc; lia).
  assert (length hs = L) as Lhs by (unfold hs; rewrite map_length; auto).
  assert (forall a, (a < kappa A)%nat -> sumn L (fun l => nth a (nth l comh' []) 0) = sumn L (fun l => nth a (hvec (kappa A) (ri_comMf (nth l insts inst0)) s') 0)) as Hsum.
  { intros a Ha. rewrite T3 by auto. apply sumn_ext. intros l Hl'. unfold comh. rewrite (nth_map_lt _ _ _ inst0) by auto. auto. }
  assert (forall ts, exists proof ro ts2, length ro = nv /\
    sumchecker nv insts dc hs (resize n 0 (calculate_t_z c0 (concat s') (dp_pows (rp_l P)) x_pows)) (resize n 0 (calculate_t_z c1 (concat s') (dp_pows (rp_l P)) x_pows)) M ts = Ok (proof, map (true_ev4 M ro) (combine insts hs), map emb ro, ts2) /\
    cm_verify_sc L (length M) dc (map (fun h => map (fun i => rowop M (so_r o) i h) (seq 0 (1 + length M))) hs) (cm_tcch c0 comh') (cm_tcch c1 comh')
      (calculate_t_z c0 (concat s') (dp_pows (rp_l P)) x_pows) (calculate_t_z c1 (concat s') (dp_pows (rp_l P)) x_pows)
      proof (map (true_ev4 M ro) (combine insts hs)) ts = Ok (map emb ro, ts2)) as Half.
  { intros tsx. apply (half_ok fv A P nv M insts hs dc comh' s' c0 c1 tsx); auto; rewrite ?D2, ?D3; auto. apply ark_log2_ge. }
  destruct (Half ts3) as (pa & ro0 & ts4 & Lr0 & A1 & A2). destruct (Half ts4) as (pb & ro1 & ts5 & Lr1 & B1 & B2).
  assert (Forall (x_ok n) (combine insts hs)) as HX.
  { unfold hs. clear - HI. induction HI as [|x insts Hx _ IH]; cbn [map combine]; [apply Forall_nil|]. apply Forall_cons; auto.
    destruct (ci_wf _ _ _ _ _ Hx) as [W1 W2 W3 W4 W5 W6 W7]. repeat split; cbn [fst snd]; auto.
    - rewrite <- W7, map_length. auto.
    - unfold hvec. rewrite map_length, seq_length. auto. }
  set (proof := CmProof dc comh' (pa, pb) (map (true_ev4 M ro0) (combine insts hs), map (true_ev4 M ro1) (combine insts hs))).
  pose proof (cm_x_ok M insts hs dc comh' (pa, pb) _ _ s (combine (map emb ro0) (map emb ro1)) nv n ro0 ro1 HM HX (le_n _) Lhs T1 eq_refl Lr0 Lr1 eq_refl eq_refl) as Ex.
  fold proof in Ex. set (x := ComX _ _ _) in Ex.
  assert (map (fun ih => map (fun q => let '(((a, b), c), d) := q in lin3 s (emb a) b c d)
            (combine (combine (combine (ri_tau (fst ih)) (ri_mtau (fst ih))) (ri_f (fst ih))) (snd ih))) (combine insts hs)
          = map (fun xh => gvec s (fst xh) (snd xh)) (combine insts hs)) as Eg.
  { apply map_ext_in. intros xh Hxh. rewrite Forall_forall in HX. destruct (HX xh Hxh) as (X1 & X2 & X3 & X4). apply (gvec_alt s _ _ n); auto. }
  assert (length (concat s') = (rp_k P * pdim)%nat) as LS by (apply sp_concat_length; auto).
  exists s, s', ro0, ro1, x, proof, ts5. cbv zeta. fold hs comh. split; [split; eauto|]. split; [auto|]. split; [auto|]. split; [auto|]. split; [|split].
  - assert (exists i0 rest, rg_insts g = i0 :: rest /\ length (ri_tau i0) = n) as (i0 & rest & EI & Li0).
    { fold insts. unfold hs in HX. revert HL HX. unfold L. generalize insts. intros [|i0 rest]; [cbn [length]; lia|]. intros _ HX. cbn [map combine] in HX.
      exists i0, rest. split; auto. apply Forall_inv in HX. apply HX. }
    unfold cm_prove_with. rewrite EI at 1. fold insts.
    rewrite S5. cbn [bind]. fold P. rewrite C1. cbn [bind]. rewrite Env, Eh. cbn [bind]. rewrite Ech. cbn [bind]. fold comh'. rewrite D1. cbn [bind].
    rewrite Li0. 
    rewrite !(t_length (p := p)) by (rewrite ?LS; nia). rewrite LS, D2, D3.
    assert ((2 ^ lk * (rp_k P * pdim) * rp_l P * pdim <=? n)%nat = true) as -> by (apply Nat.leb_le; auto).
    cbn [guard bind]. rewrite A1. cbn [bind]. rewrite B1. cbn [bind]. fold proof. rewrite Ex. cbn [bind]. rewrite Eg. reflexivity.
  - assert (claim_v fv M insts proof = CmProof dc' comh' (pa, pb) (map (true_ev4 M ro0) (combine insts hs), map (true_ev4 M ro1) (combine insts hs))) as -> by reflexivity.
    unfold cm_verify. cbn [cp_dcom cp_comh cp_sc cp_evals].
    assert (forall u a b c d pf e (t : T), cm_verify_sc L (length M) dc' u a b c d pf e t = cm_verify_sc L (length M) dc u a b c d pf e t) as Esc.
    { intros. unfold cm_verify_sc. destruct (get_challenge t). cbn [dc_evals dc_out dc dc']. rewrite cm_claimed_v. reflexivity. }
    assert (cm_x (CmProof dc' comh' (pa, pb) (map (true_ev4 M ro0) (combine insts hs), map (true_ev4 M ro1) (combine insts hs))) s (combine (map emb ro0) (map emb ro1)) = Ok x) as Ex' by exact Ex.
    cbn [fst snd]. rewrite !map_length, !combine_length, Lhs, Nat.min_id. fold L.
    rewrite S6. cbn [unwrap bind].
    change (dc_params dc') with P. rewrite C1. cbn [bind]. fold comh'. rewrite D1. cbn [bind].
    change (dc_out dc') with o. rewrite S4.
    assert (map (fun l => cm_u (rp_k P) l (concat s') (true_e M (so_r o) insts)) (seq 0 L) = map (fun h => map (fun i => rowop M (so_r o) i h) (seq 0 (1 + length M))) hs) as ->.
    { apply (list_ext []); [rewrite !map_length, seq_length; auto|]. intros l Hl'. rewrite map_length, seq_length in Hl'. rewrite nth_seq_map by auto.
      rewrite (nth_map_lt _ _ _ []) by lia. unfold hs. rewrite (nth_map_lt _ _ _ inst0) by auto.
      unfold cm_u, true_e. change (1 + length M)%nat with (S (length M)). cbn [map seq]. f_equal.
      - rewrite (cm_u_ok (p := p) fv n (rp_k P) insts s' (open (so_r o)) l inst0) by (auto; apply (rlin_open (p := p)); rewrite S3; auto). reflexivity.
      - rewrite map_map. rewrite <- seq_shift, map_map. apply (list_ext 0); [rewrite !map_length, seq_length; auto|]. intros i Hi. rewrite map_length in Hi.
        rewrite nth_seq_map by auto. rewrite (nth_map_lt _ _ _ mat0) by auto. cbn [rowop].
        rewrite (cm_u_ok (p := p) fv n (rp_k P) insts s' (open_mul (so_r o) (nth i M mat0)) l inst0) by (auto; apply (rlin_open_mul (p := p))). reflexivity. }
    rewrite !Esc, A2. cbn [bind]. rewrite Esc, B2. cbn [bind]. rewrite Ex'. reflexivity.
  - split; [reflexivity|]. split; [reflexivity|]. split; [reflexivity|]. split; [exact S4|]. split; [exact S3|]. split; [reflexivity|]. split; [reflexivity|]. split; [unfold x; cbn [cx_vo]; rewrite map_map; reflexivity|].
    assert (length (combine insts hs) = L) as LC by (rewrite combine_length; fold L; lia).
    split; [unfold x; cbn [cx_cm]; rewrite map_length, seq_length; auto|]. split; [rewrite map_length; auto|].
    split. { apply Forall_map. eapply Forall_impl; [|exact HX]. intros xh (X1 & X2 & X3 & X4). apply linv_length; rewrite ?map_length; auto. }
    split; [|reflexivity]. apply (Forall2_nth _ _ _ [] []). split; [rewrite !map_length, seq_length; auto|]. intros l Hl'. rewrite map_length in Hl'. rewrite combine_length in Hl'. assert (l < L)%nat as Hl2 by (unfold L; lia). clear Hl'. rename Hl2 into Hl'.
    rewrite (nth_map_lt _ _ _ (inst0, [])) by lia. rewrite nth_seq_map by auto. rewrite combine_nth by auto. cbn [fst snd]. cbv zeta. unfold hs, comh.
    rewrite !(nth_map_lt _ _ _ inst0) by auto. rewrite Forall_forall in HI. specialize (HI (nth l insts inst0) (nth_In _ _ Hl')).
    destruct HI as [[W1 W2 W3 W4 W5 W6 W7] X2 X3 X4 X5 X6]. unfold gvec. apply (commit_linv A n); auto.
    + rewrite map_length, <- W7, map_length. auto.
    + unfold hvec. rewrite map_length, seq_length. auto.
    + apply (commit_h (p := p) fv A n (rp_k P)); auto. split; auto.
Qed.

Theorem cm_complete tamper A nv M g (ts : T) : let n := (2 ^ nv)%nat in let P := rg_params g in let insts := rg_insts g in let L := length insts in
  rg_nvars g = nv -> (1 <= nv)%nat -> char_gt K 3 -> (4 <= pdim)%nat -> (1 <= rp_k P)%nat -> (1 <= rp_l P)%nat -> (2 <= L * rp_k P)%nat ->
  (2 ^ ark_log2 (kappa A) * (rp_k P * pdim) * rp_l P * pdim <= n)%nat -> enough (p := p) (Z.of_nat (pdim / 2)) (rp_l P) ->
  wf_ajtai A -> a_ncols A = n -> Forall (m_ok n nv) M -> Forall (cm_inst ri_f A P n) insts -> sum_keeping (kappa A) tamper ->
  exists s s' (ro0 ro1 : list K) x proof ts',
    let hs := map (fun x => hvec n (ri_Mf x) s') insts in
    let comh := map (fun x => hvec (kappa A) (ri_comMf x) s') insts in
    let gs := map (fun xh => gvec s (fst xh) (snd xh)) (combine insts hs) in
    (length s = 3%nat /\ exists tsa tsb : T, cm_challenges (rp_k P) tsa = Ok (s, s', tsb)) /\ sp_ok (rp_k P) s' /\ length ro0 = nv /\ length ro1 = nv /\
    cm_prove_with tamper g M ts = Ok (gs, x, proof, ts') /\ cm_verify proof M ts = Ok (x, ts') /\
    cp_comh proof = tamper comh /\
    cx_ro x = combine (map emb ro0) (map emb ro1) /\
    cx_vo x = map (fun gv => map (fun i => (rowop M ro0 i gv, rowop M ro1 i gv)) (seq 0 (1 + length M))) gs /\
    length (cx_cm x) = L /\ length gs = L /\ Forall (fun gv => length gv = n) gs /\
    Forall2 (fun gv hc => commit A gv = Ok hc) gs (map (fun l => let c := ri_coms (nth l insts inst0) in linv s (fc_Mf c) (fc_mtau c) (fc_f c) (nth l comh [])) (seq 0 L)) /\
    cx_cm x = map (fun l => let c := ri_coms (nth l insts inst0) in linv s (fc_Mf c) (fc_mtau c) (fc_f c) (nth l (tamper comh) [])) (seq 0 L).
Proof.
  intros n P insts L Env Hnv Hc Hd Hk Hl H2 Hn HE WA HA HM HI Htam.
  destruct (cm_claim_complete ri_f tamper A nv M g ts Env Hnv Hc Hd Hk Hl H2 Hn HE WA HA HM HI (same_images_f _ _) Htam) as (s & s' & ro0 & ro1 & x & proof & ts' & C).
  cbv zeta in C. destruct C as (C1 & C2 & C3 & C4 & C5 & C6 & CE & _ & _ & _ & _ & C7 & C8).
  exists s, s', ro0, ro1, x, proof, ts'. cbv zeta. repeat (split; [assumption|]). split; [|split; assumption].
  rewrite <- C6. f_equal. unfold claim_v. destruct proof as [[ev co ou pa] ch sc e]. cbn [cp_dcom dc_evals dc_out dc_coms dc_params cp_comh cp_sc cp_evals] in *.
  rewrite CE. reflexivity.
Qed.

(** * From the witnesses *)
Lemma insts_from_f (fs : list (list R)) (A : ajtai R) P n : a_ncols A = n -> (4 <= pdim)%nat -> (Z.of_nat (pdim / 2) < p)%Z ->
  rp_b P = Z.of_nat (pdim / 2) -> (1 <= rp_k P)%nat -> (kappa A * (rp_k P * pdim) * rp_l P * pdim < n)%nat ->
  Forall (fun f => length f = n /\
    Forall (fun x => Forall (fun c => (2 * Z.abs (psigned c) <= rp_b P ^ Z.of_nat (rp_k P))%Z) (pcoeffs x)) f) fs ->
  exists insts : list (rg_inst K R), mapM (fun f => from_f f A P) fs = Ok insts /\ map ri_f insts = fs /\ length insts = length fs /\ Forall (cm_inst ri_f A P n) insts.
Proof.
  intros HA Hd Hp Hb Hk Hn Hfs. induction Hfs as [|f fs [Lf Rf] _ IH].
  - exists []. cbn [mapM map]. repeat split; auto.
  - destruct IH as (insts & E1 & E2 & E4 & E5).
    destruct (from_f_ok f A P n) as (x & F1 & F2 & F3 & F4 & F5 & F6 & F7 & F8); auto.
    exists (x :: insts). cbn [mapM]. rewrite F1. cbn [bind]. rewrite E1. cbn [bind map length]. rewrite F3, E2, E4. repeat split; auto.
    apply Forall_cons; auto. constructor; auto. rewrite F3. auto.
Qed.

Definition vadd (a b : list R) : list R := map (fun i => nth i a 0 + nth i b 0) (seq 0 (length a)).
Definition vsub (a b : list R) : list R := map (fun i => nth i a 0 - nth i b 0) (seq 0 (length a)).
(** Adds [d] to the first commitment of [h] and subtracts it from the second. *)
Definition shift (d : list R) (comh : list (list R)) : list (list R) :=
  match comh with a :: b :: rest => vadd a d :: vsub b d :: rest | _ => comh end.
Lemma shift_keeps kap d : sum_keeping kap (shift d).
Proof.
  intros comh H. destruct comh as [|a [|b rest]]; cbn [shift]; auto.
  assert (Ha := Forall_inv H). assert (Hb := Forall_inv (Forall_inv_tail H)). cbn beta in Ha, Hb.
  split; [reflexivity|]. split.
  - apply Forall_cons; [unfold vadd; rewrite map_length, seq_length; auto|]. apply Forall_cons; [unfold vsub; rewrite map_length, seq_length; auto|].
    exact (Forall_inv_tail (Forall_inv_tail H)).
  - intros i Hi. cbn [length]. rewrite !sumn_S_first. cbn [nth]. unfold vadd, vsub. rewrite !nth_seq_map by lia. ring.
Qed.

(** What the parameters, the commitment matrix, the matrices and the witnesses have to satisfy. *)
Record cm_setting (fs : list (list R)) (A : ajtai R) (P : rparams) (nv : nat) (M : list (smat R)) : Prop := {
  cs_nv : (1 <= nv)%nat; cs_char : char_gt K 3; cs_dim : (4 <= pdim)%nat; cs_p : (Z.of_nat (pdim / 2) < p)%Z;
  cs_wf : wf_ajtai A; cs_ncols : a_ncols A = (2 ^ nv)%nat;
  cs_b : rp_b P = Z.of_nat (pdim / 2); cs_k : (1 <= rp_k P)%nat; cs_l : (1 <= rp_l P)%nat; cs_two : (2 <= length fs * rp_k P)%nat;
  cs_size : (kappa A * (rp_k P * pdim) * rp_l P * pdim < 2 ^ nv)%nat;
  cs_size2 : (2 ^ ark_log2 (kappa A) * (rp_k P * pdim) * rp_l P * pdim <= 2 ^ nv)%nat;
  cs_digits : (p - 1 <= Z.of_nat (pdim / 2) ^ Z.of_nat (rp_l P))%Z;
  cs_fs : Forall (fun f => length f = (2 ^ nv)%nat /\
    Forall (fun x => Forall (fun c => (2 * Z.abs (psigned c) <= rp_b P ^ Z.of_nat (rp_k P))%Z) (pcoeffs x)) f) fs;
  cs_M : Forall (fun Mi : smat R => wf_mat (2 ^ nv) Mi /\ (length (m_coeffs Mi) <= 2 ^ nv)%nat /\ base_mat Mi) M }.

(** The folded witness of one instance: s0 tau + s1 m_tau + s2 f + sum_i M_f,i s'_i, row by row. *)
Definition folded (n : nat) (s : list R) (s' : list (list R)) (x : rg_inst K R) (g : list R) : Prop :=
  length g = n /\ forall a, (a < n)%nat ->
    nth a g 0 = nth 0 s 0 * emb (nth a (ri_tau x) 0) + nth 1 s 0 * nth a (ri_mtau x) 0 + nth 2 s 0 * nth a (ri_f x) 0
                + sumn (length s') (fun i => sumn pdim (fun j => nth j (nth a (nth i (ri_Mf x) []) []) 0 * nth j (nth i s' []) 0)).
(** Evaluations of [g], and of every [M_i g], at the two points. *)
Definition evaluations (M : list (smat R)) (r0 r1 : list K) (g : list R) : list (R * R) :=
  (open r0 g, open r1 g) :: map (fun Mi => (open_mul r0 Mi g, open_mul r1 Mi g)) M.

Lemma evaluations_rowop M r0 r1 g : map (fun i => (rowop M r0 i g, rowop M r1 i g)) (seq 0 (1 + length M)) = evaluations M r0 r1 g.
Proof.
  change (1 + length M)%nat with (S (length M)). cbn [seq map]. unfold evaluations. f_equal. rewrite <- seq_shift, map_map. cbn [rowop].
  apply (list_ext (0, 0)); [rewrite !map_length, seq_length; auto|]. intros i Hi. rewrite map_length, seq_length in Hi.
  rewrite nth_seq_map by auto. rewrite (nth_map_lt _ _ _ mat0) by auto. auto.
Qed.

Lemma cm_setting_complete tamper fs A P nv M (ts : T) : cm_setting fs A P nv M -> sum_keeping (kappa A) tamper ->
  exists insts s s' (ro0 ro1 : list K) gs x proof ts' hon,
    mapM (fun f => from_f f A P) fs = Ok insts /\ map ri_f insts = fs /\ (length s = 3%nat /\ exists tsa tsb : T, cm_challenges (rp_k P) tsa = Ok (s, s', tsb)) /\ length s' = rp_k P /\ length ro0 = nv /\ length ro1 = nv /\
    cm_prove_with tamper (Rg nv insts P) M ts = Ok (gs, x, proof, ts') /\ cm_verify proof M ts = Ok (x, ts') /\
    Forall2 (folded (2 ^ nv) s s') insts gs /\
    cx_ro x = combine (map emb ro0) (map emb ro1) /\ cx_vo x = map (evaluations M ro0 ro1) gs /\
    let comh := map (fun x => hvec (kappa A) (ri_comMf x) s') insts in
    let cm c := map (fun l => let co := ri_coms (nth l insts inst0) in linv s (fc_Mf co) (fc_mtau co) (fc_f co) (nth l c [])) (seq 0 (length insts)) in
    hon = cm comh /\ Forall2 (fun g c => commit A g = Ok c) gs hon /\ cx_cm x = cm (tamper comh) /\ length insts = length fs /\
    Forall (fun i => length (fc_Mf (ri_coms i)) = kappa A /\ length (fc_mtau (ri_coms i)) = kappa A /\ length (fc_f (ri_coms i)) = kappa A) insts /\ Forall (cm_inst ri_f A P (2 ^ nv)) insts.
Proof.
  intros [H1 H2 H3 H4 H5 H6 H7 H8 H9 H10 H11 H12 H13 H14 H15] Ht.
  destruct (insts_from_f fs A P (2 ^ nv)) as (insts & E1 & E2 & E3 & E4); auto.
  destruct (cm_complete tamper A nv M (Rg nv insts P) ts) as (s & s' & ro0 & ro1 & x & proof & ts' & C); cbn [rg_nvars rg_params rg_insts]; auto.
  { rewrite E3. auto. }
  { split; auto. assert (2 <= pdim / 2)%nat by (apply Nat.div_le_lower_bound; lia). lia. }
  cbv zeta in C. destruct C as (C1 & C2 & C3 & C4 & C5 & C6 & C7 & C8 & C9 & C10 & C11 & C12 & C13 & C14). cbn [rg_insts rg_params] in *.
  eexists insts, s, s', ro0, ro1, _, x, proof, ts', _. split; [exact E1|]. split; [exact E2|]. split; [exact C1|]. split; [apply C2|].
  split; [exact C3|]. split; [exact C4|]. split; [exact C5|]. split; [exact C6|]. split.
  - apply (Forall2_nth _ _ _ inst0 []). rewrite map_length, combine_length, map_length, Nat.min_id. split; auto. intros l Hl.
    rewrite (nth_map_lt _ _ _ (inst0, [])) by (rewrite combine_length, map_length; lia). rewrite combine_nth by (rewrite map_length; auto). cbn [fst snd].
    rewrite (nth_map_lt _ _ _ inst0) by auto. rewrite Forall_forall in E4. specialize (E4 _ (nth_In _ inst0 Hl)). destruct E4 as [[W1 W2 W3 W4 W5 W6 W7] X2 X3 X4 X5 X6].
    set (y := nth l insts inst0) in *.
    assert (length (map emb (ri_tau y) : list R) = (2 ^ nv)%nat) as La by (rewrite <- W7, !map_length; auto).
    assert (length (hvec (2 ^ nv) (ri_Mf y) s') = (2 ^ nv)%nat) as Lh by (unfold hvec; rewrite map_length, seq_length; auto).
    split; [apply linv_length; auto|]. intros a Ha. unfold gvec. rewrite (linv_nth s _ _ _ _ (2 ^ nv)) by auto.
    rewrite (nth_map_emb (p := p)). unfold lin3, hvec, hval. rewrite nth_seq_map by auto. reflexivity.
  - split; [exact C8|]. split. { rewrite C9. apply map_ext. intros g. apply evaluations_rowop. }
    cbv zeta. split; [reflexivity|]. split; [exact C13|]. split; [exact C14|]. split; [exact E3|]. split; [|exact E4].
    eapply Forall_impl; [|exact E4]. intros y Y. destruct Y as [W X2 X3 X4 X5 X6].
    
    assert (forall f c, commit A f = Ok c -> length c = kappa A) as Q.
    { intros f c. unfold commit, checked_mul_vec. destruct (length f =? a_ncols A)%nat; cbn [negb of_option]; [|discriminate].
      destruct (a_ncols A =? length f)%nat; cbn [of_option]; [|discriminate]. intros E. apply ok_inj in E. subst c. rewrite map_length. reflexivity. }
    repeat split; eapply Q; eauto.
Qed.
End Complete.
