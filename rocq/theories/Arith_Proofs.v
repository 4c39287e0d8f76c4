From Coq Require Import String List Arith Lia ZArith Bool Ring.
From Verif Require Import Prelude Alg Arith.
Import ListNotations.
Local Open Scope rs_scope.

(** ** Specification of matrices, R1CS and CCS, independent of the code. *)
Section Spec.
Context {R : Type} {RO : RingOps R}.

(** Entry (r, c) of a sparse matrix; repeated entries add up, absent ones are zero. *)
Definition mat_entry (M : smat R) (r c : nat) : R :=
  lsum (map fst (filter (fun vc => (snd vc =? c)%nat) (nth r (m_coeffs M) []))).
(** Component [r] of the matrix-vector product. *)
Definition mz (M : smat R) (z : list R) (r : nat) : R :=
  sumn (length z) (fun c => mat_entry M r c * nth c z 0).

(** A well-formed matrix with [n] columns. *)
Definition wf_mat (n : nat) (M : smat R) : Prop :=
  m_ncols M = n /\ m_nrows M = length (m_coeffs M) /\
  Forall (Forall (fun vc => (snd vc < n)%nat)) (m_coeffs M).

(** Left-hand side of the CCS equation in row [r]. *)
Definition ccs_row (cs : ccs R) (z : list R) (r : nat) : R :=
  sumn (c_q cs) (fun i => nth i (c_c cs) 0 *
     lprod (map (fun j => mz (nth j (c_M cs) (SMat 0 0 [])) z r) (nth i (c_S cs) []))).

Definition wf_ccs (cs : ccs R) : Prop :=
  length (c_M cs) = c_t cs /\ length (c_S cs) = c_q cs /\ length (c_c cs) = c_q cs /\
  Forall (wf_mat (c_n cs)) (c_M cs) /\ Forall (Forall (fun j => (j < c_t cs)%nat)) (c_S cs).

(** The R1CS equation in row [r]. *)
Definition r1cs_row (r : r1cs R) (z : list R) (i : nat) : Prop :=
  mz (r_A r) z i * mz (r_B r) z i = mz (r_C r) z i.
Definition wf_r1cs (n : nat) (rows : nat) (r : r1cs R) : Prop :=
  wf_mat n (r_A r) /\ wf_mat n (r_B r) /\ wf_mat n (r_C r) /\
  m_nrows (r_A r) = rows /\ m_nrows (r_B r) = rows /\ m_nrows (r_C r) = rows.
End Spec.

(** The outcome "first index below [n] at which [bad] holds". *)
Definition first_bad (n : nat) (bad : nat -> Prop) (res : result unit) : Prop :=
  (res = Ok tt /\ forall i, (i < n)%nat -> ~ bad i) \/
  (exists i, res = Err (NotSatisfied i) /\ (i < n)%nat /\ bad i /\ forall j, (j < i)%nat -> ~ bad j).

Lemma first_bad_unique n bad bad' n' r r' :
  first_bad n bad r -> first_bad n' bad' r' ->
  (forall i, (i < n)%nat -> bad i -> (i < n')%nat /\ bad' i) ->
  (forall i, (i < n')%nat -> bad' i -> (i < n)%nat /\ bad i) -> r = r'.
Proof.
  intros [[-> H]|(i & -> & Hi & Hb & Hm)] [[-> H']|(i' & -> & Hi' & Hb' & Hm')] H1 H2; auto.
  - exfalso. destruct (H2 i' Hi' Hb'). apply (H i'); auto.
  - exfalso. destruct (H1 i Hi Hb). apply (H' i); auto.
  - do 2 f_equal. destruct (H1 i Hi Hb), (H2 i' Hi' Hb').
    destruct (Nat.lt_trichotomy i i') as [|[|]]; auto; exfalso.
    + apply (Hm' i); auto.
    + apply (Hm i'); auto.
Qed.
Lemma first_bad_ok n bad r : first_bad n bad r -> (r = Ok tt <-> forall i, (i < n)%nat -> ~ bad i).
Proof.
  intros [[-> H]|(i & -> & Hi & Hb & Hm)]; split; auto; try discriminate.
  intros H. exfalso. apply (H i); auto.
Qed.
Lemma first_bad_err n bad r i : first_bad n bad r ->
  (r = Err (NotSatisfied i) <-> (i < n)%nat /\ bad i /\ forall j, (j < i)%nat -> ~ bad j).
Proof.
  intros [[-> H]|(k & -> & Hi & Hb & Hm)]; split.
  - discriminate.
  - intros (A & B & _). exfalso. apply (H i); auto.
  - intros [= ->]. auto.
  - intros (A & B & C). do 2 f_equal. destruct (Nat.lt_trichotomy i k) as [|[|]]; auto; exfalso.
    + apply (Hm i); auto.
    + apply (C k); auto.
Qed.

Lemma position_spec {A} (f : A -> bool) (d : A) l :
  match position f l with
  | None => forall i, (i < length l)%nat -> f (nth i l d) = false
  | Some i => (i < length l)%nat /\ f (nth i l d) = true /\ forall j, (j < i)%nat -> f (nth j l d) = false
  end.
Proof.
  induction l as [|a l IH]; simpl; [intros; lia|].
  destruct (f a) eqn:Ea; simpl.
  - repeat split; auto; try lia.
  - destruct (position f l) as [i|]; simpl.
    + destruct IH as (H1 & H2 & H3). repeat split; auto; try lia.
      intros [|j] Hj; auto. apply H3. lia.
    + intros [|i] Hi; auto. apply IH. lia.
Qed.

Section P.
Context {R : Type} {RO : RingOps R} {LR : RingLaws R}.
Add Ring Rring7 : (@rlaws_th R RO LR).

Lemma index_ok {A} (l : list A) i d : (i < length l)%nat -> index l i = Ok (nth i l d).
Proof. intros H. unfold index. rewrite (nth_error_nth' l d H). reflexivity. Qed.

Lemma row_mul_ok row z :
  Forall (fun vc => (snd vc < length z)%nat) row ->
  row_mul row z = Ok (lsum (map (fun vc : R * nat => fst vc * nth (snd vc) z 0) row)).
Proof.
  intros H. unfold row_mul.
  rewrite (mapM_ok _ (fun vc => fst vc * nth (snd vc) z 0)).
  - reflexivity.
  - intros vc Hin. rewrite Forall_forall in H. rewrite (index_ok _ _ 0) by auto. reflexivity.
Qed.
Lemma row_entries (row : list (R * nat)) z :
  Forall (fun vc => (snd vc < length z)%nat) row ->
  lsum (map (fun vc => fst vc * nth (snd vc) z 0) row) =
  sumn (length z) (fun c => lsum (map fst (filter (fun vc => (snd vc =? c)%nat) row)) * nth c z 0).
Proof.
  induction 1 as [|[v c] row Hc _ IH]; simpl.
  - symmetry. apply sumn_0. intros; ring.
  - rewrite IH. simpl in Hc.
    transitivity (sumn (length z) (fun i => if (i =? c)%nat then v * nth c z 0 else 0) +
       sumn (length z) (fun c => lsum (map fst (filter (fun vc => (snd vc =? c)%nat) row)) * nth c z 0)).
    + f_equal. rewrite (sumn_single _ c); auto.
      * rewrite Nat.eqb_refl. auto.
      * intros i Hi N. destruct (Nat.eqb_spec i c); congruence.
    + rewrite <- sumn_add. apply sumn_ext. intros i Hi. rewrite (Nat.eqb_sym c i).
      destruct (Nat.eqb_spec i c) as [->|]; simpl; [|ring].
      change (fold_right radd 0 (map fst (filter (fun vc : R * nat => (snd vc =? c)%nat) row)))
        with (lsum (map fst (filter (fun vc : R * nat => (snd vc =? c)%nat) row))). ring.
Qed.

Lemma mat_vec_mul_ok M z : wf_mat (length z) M ->
  mat_vec_mul M z = Ok (map (mz M z) (seq 0 (length (m_coeffs M)))).
Proof.
  intros (H1 & H2 & H3). unfold mat_vec_mul. rewrite H1, Nat.eqb_refl. cbn [negb].
  rewrite (mapM_ok _ (fun row => lsum (map (fun vc : R * nat => fst vc * nth (snd vc) z 0) row))).
  - f_equal. apply (list_ext 0).
    + rewrite !map_length, seq_length. auto.
    + intros i Hi. rewrite map_length in Hi. rewrite nth_seq_map by auto.
      rewrite (nth_map_lt _ _ _ []) by auto. unfold mz, mat_entry. apply row_entries.
      rewrite Forall_forall in H3. apply H3. apply nth_In. auto.
  - intros row Hin. apply row_mul_ok. rewrite Forall_forall in H3. auto.
Qed.
Lemma mz_out M z r : (length (m_coeffs M) <= r)%nat -> mz M z r = 0.
Proof.
  intros H. unfold mz, mat_entry. apply sumn_0. intros.
  rewrite nth_overflow by auto. simpl. ring.
Qed.
Lemma resize_mz M z m :
  resize m 0 (map (mz M z) (seq 0 (length (m_coeffs M)))) = map (mz M z) (seq 0 m).
Proof.
  apply (list_ext 0).
  - rewrite resize_length, map_length, seq_length. auto.
  - intros i Hi. rewrite resize_length in Hi. rewrite nth_resize by auto. rewrite (nth_seq_map _ m) by auto.
    destruct (Nat.lt_ge_cases i (length (m_coeffs M))).
    + rewrite nth_seq_map by auto. auto.
    + rewrite nth_overflow by (rewrite map_length, seq_length; auto). rewrite mz_out; auto.
Qed.
Lemma hadamard_ok f g m : hadamard (map f (seq 0 m)) (map g (seq 0 m)) =
  Ok (map (fun i => f i * g i) (seq 0 m)).
Proof.
  unfold hadamard. rewrite !map_length, Nat.eqb_refl. cbn [negb].
  rewrite zipw_map, zipw_same. reflexivity.
Qed.
Lemma vec_add_ok f g m : vec_add (map f (seq 0 m)) (map g (seq 0 m)) =
  Ok (map (fun i => f i + g i) (seq 0 m)).
Proof.
  unfold vec_add. rewrite !map_length, Nat.eqb_refl. cbn [negb].
  rewrite zipw_map, zipw_same. reflexivity.
Qed.
Lemma repeat_map_seq {A} (a : A) m : repeat a m = map (fun _ => a) (seq 0 m).
Proof.
  assert (forall k, repeat a m = map (fun _ => a) (seq k m)) as H; [|apply H].
  induction m; intros; simpl; f_equal; auto.
Qed.

Lemma ccs_term_ok cs z i : wf_ccs cs -> length z = c_n cs -> (i < c_q cs)%nat ->
  ccs_term cs z i = Ok (map (fun r => nth i (c_c cs) 0 *
     lprod (map (fun j => mz (nth j (c_M cs) (SMat 0 0 [])) z r) (nth i (c_S cs) []))) (seq 0 (c_m cs))).
Proof.
  intros (H1 & H2 & H3 & H4 & H5) Hz Hi. unfold ccs_term.
  rewrite (index_ok _ _ []) by lia. cbn [bind].
  set (Si := nth i (c_S cs) []).
  assert (Forall (fun j => (j < c_t cs)%nat) Si) as HSi.
  { rewrite Forall_forall in H5. apply H5. apply nth_In. lia. }
  rewrite (mapM_ok _ (fun j => nth j (c_M cs) (SMat 0 0 []))).
  2:{ intros j Hj. apply index_ok. rewrite Forall_forall in HSi. rewrite H1. auto. }
  cbn [bind].
  assert (forall l h, Forall (fun j => (j < c_t cs)%nat) l ->
    fold_left (fun acc Mj => do had <- acc; do res <- mat_vec_mul Mj z;
                         hadamard had (resize (c_m cs) 0 res))
      (map (fun j => nth j (c_M cs) (SMat 0 0 [])) l) (Ok (map h (seq 0 (c_m cs)))) =
    Ok (map (fun r => h r * lprod (map (fun j => mz (nth j (c_M cs) (SMat 0 0 [])) z r) l)) (seq 0 (c_m cs)))) as HF.
  { induction l as [|j l IH]; intros h Hl; cbn [map fold_left].
    - f_equal. apply map_ext. intros r. simpl. ring.
    - inversion Hl; subst. cbn [bind].
      rewrite mat_vec_mul_ok.
      + cbn [bind]. rewrite resize_mz, hadamard_ok, IH by auto. f_equal. apply map_ext. intros r.
        simpl. ring.
      + rewrite Hz. rewrite Forall_forall in H4. apply H4. apply nth_In. lia. }
  rewrite repeat_map_seq, HF by auto. cbn [bind].
  rewrite (index_ok _ _ 0) by lia. cbn [bind]. f_equal.
  unfold vec_scalar_mul. rewrite map_map. apply map_ext. intros r. ring.
Qed.

Lemma ccs_sum_ok cs z k f : wf_ccs cs -> length z = c_n cs -> (k <= c_q cs)%nat ->
  fold_left (fun acc i => do result <- acc; do t <- ccs_term cs z i; vec_add result t)
              (seq 0 k) (Ok (map f (seq 0 (c_m cs)))) =
  Ok (map (fun r => f r + sumn k (fun i => nth i (c_c cs) 0 *
     lprod (map (fun j => mz (nth j (c_M cs) (SMat 0 0 [])) z r) (nth i (c_S cs) [])))) (seq 0 (c_m cs))).
Proof.
  intros Hwf Hz. induction k as [|k IH]; intros Hk.
  - simpl. f_equal. apply map_ext. intros. ring.
  - rewrite seq_S, fold_left_app, IH by lia. cbn [fold_left bind].
    change (0 + k)%nat with k. rewrite ccs_term_ok by (auto; lia). cbn [bind].
    rewrite vec_add_ok. f_equal. apply map_ext. intros r. cbn [sumn]. ring.
Qed.

(** C01 *)
Theorem ccs_check_spec cs z : wf_ccs cs -> length z = c_n cs ->
  first_bad (c_m cs) (fun r => ccs_row cs z r <> 0) (ccs_check cs z).
Proof.
  intros Hwf Hz. unfold ccs_check.
  rewrite repeat_map_seq, ccs_sum_ok by auto. cbn [bind].
  set (v := map _ (seq 0 (c_m cs))).
  assert (length v = c_m cs) as Hl by (unfold v; rewrite map_length, seq_length; auto).
  assert (forall i, (i < c_m cs)%nat -> nth i v 0 = ccs_row cs z i) as Hn.
  { intros i Hi. unfold v. rewrite nth_seq_map by auto. unfold ccs_row. ring. }
  pose proof (position_spec (fun x : R => negb (x =? 0)) 0 v) as Hp.
  destruct (position _ v) as [i|].
  - right. exists i. rewrite Hl in Hp. destruct Hp as (H1 & H2 & H3). repeat split; auto.
    + rewrite <- Hn by auto. intros E. rewrite E, req_refl in H2. discriminate.
    + intros j Hj N. apply N. rewrite <- Hn by lia. specialize (H3 j Hj).
      apply negb_false_iff in H3. apply req_true in H3. auto.
  - left. split; auto. intros i Hi N. apply N. rewrite Hl in Hp. specialize (Hp i Hi).
    rewrite Hn in Hp by auto. apply negb_false_iff in Hp. apply req_true in Hp. auto.
Qed.

Lemma pos_pairs (a b : nat -> R) n :
  first_bad n (fun i => a i <> b i)
    (match position (fun p : R * R => negb (fst p =? snd p))
             (combine (map a (seq 0 n)) (map b (seq 0 n))) with
     | None => Ok tt | Some i => Err (NotSatisfied i) end).
Proof.
  set (v := combine _ _).
  assert (length v = n) as Hl by (unfold v; rewrite combine_length, !map_length, seq_length; lia).
  assert (forall i, (i < n)%nat -> nth i v (0, 0) = (a i, b i)) as Hn.
  { intros i Hi. unfold v. rewrite combine_nth by (rewrite !map_length; auto).
    rewrite !nth_seq_map by auto. auto. }
  pose proof (position_spec (fun p : R * R => negb (fst p =? snd p)) (0, 0) v) as Hp.
  destruct (position _ v) as [i|].
  - right. exists i. rewrite Hl in Hp. destruct Hp as (H1 & H2 & H3).
    rewrite Hn in H2 by auto. repeat split; auto.
    + intros E. simpl in H2. rewrite E, req_refl in H2. discriminate.
    + intros j Hj N. apply N. specialize (H3 j Hj). rewrite Hn in H3 by lia.
      apply negb_false_iff in H3. apply req_true in H3. auto.
  - left. split; auto. intros i Hi N. apply N. rewrite Hl in Hp. specialize (Hp i Hi).
    rewrite Hn in Hp by auto. apply negb_false_iff in Hp. apply req_true in Hp. auto.
Qed.

Lemma r1cs_check_spec r z rows : wf_r1cs (length z) rows r ->
  first_bad rows (fun i => ~ r1cs_row r z i) (r1cs_check r z).
Proof.
  intros (HA & HB & HC & rA & rB & rC).
  pose proof HA as (_ & HA' & _). pose proof HB as (_ & HB' & _). pose proof HC as (_ & HC' & _).
  unfold r1cs_check. rewrite !mat_vec_mul_ok by auto. cbn [bind].
  rewrite <- HA', <- HB', <- HC', rA, rB, rC, hadamard_ok. cbn [bind].
  apply (pos_pairs (fun i => mz (r_A r) z i * mz (r_B r) z i) (mz (r_C r) z) rows).
Qed.

Lemma wf_ccs_from_r1cs n rows r W : wf_r1cs n rows r ->
  wf_ccs (ccs_from_r1cs r W) /\ c_n (ccs_from_r1cs r W) = n.
Proof.
  intros (HA & HB & HC & _). assert (m_ncols (r_A r) = n) as Hn by apply HA.
  split; [|exact Hn]. unfold wf_ccs. cbn [ccs_from_r1cs c_M c_t c_S c_q c_c c_n]. rewrite Hn.
  repeat split; auto; repeat (constructor; auto).
Qed.
Lemma ccs_row_from_r1cs r W z i :
  ccs_row (ccs_from_r1cs r W) z i = mz (r_A r) z i * mz (r_B r) z i - mz (r_C r) z i.
Proof. unfold ccs_row. simpl. ring. Qed.

(** C02 *)
Theorem r1cs_ccs_equiv r z rows W : wf_r1cs (length z) rows r -> (rows <= W)%nat ->
  ccs_check (ccs_from_r1cs r W) z = r1cs_check r z.
Proof.
  intros Hwf HW. destruct (wf_ccs_from_r1cs _ _ _ W Hwf) as [Hc Hn].
  eapply first_bad_unique.
  - apply ccs_check_spec; auto.
  - apply r1cs_check_spec; eauto.
  - intros i Hi Hb; cbv beta in Hb |- *. rewrite ccs_row_from_r1cs in Hb. rewrite rsub_0_iff in Hb.
    destruct Hwf as ((_ & HA & _) & (_ & HB & _) & (_ & HC & _) & rA & rB & rC).
    destruct (Nat.lt_ge_cases i rows); auto.
    exfalso. apply Hb. rewrite !mz_out by lia. ring.
  - intros i Hi Hb; cbv beta in Hb |- *. split; [simpl; lia|]. rewrite ccs_row_from_r1cs, rsub_0_iff. exact Hb.
Qed.
Theorem ccs_to_from_r1cs (r : r1cs R) W : ccs_to_r1cs (ccs_from_r1cs r W) = Ok r.
Proof. destruct r. reflexivity. Qed.

(** C04 *)
Lemma mz_pad_rows M z n i : mz (pad_rows n M) z i = mz M z i.
Proof.
  unfold pad_rows. destruct (m_nrows M <? n)%nat; auto.
  unfold mz, mat_entry. simpl. apply sumn_ext. intros c Hc. do 4 f_equal.
  destruct (Nat.lt_ge_cases i (length (m_coeffs M))).
  - rewrite app_nth1; auto.
  - rewrite app_nth2, nth_repeat, nth_overflow; auto.
Qed.
Lemma wf_pad_rows n k (M : smat R) : wf_mat n M -> wf_mat n (pad_rows k M).
Proof.
  intros (H1 & H2 & H3). unfold pad_rows. destruct (Nat.ltb_spec (m_nrows M) k); [|repeat split; auto].
  repeat split; simpl; auto.
  - rewrite app_length, repeat_length. lia.
  - apply Forall_app. split; auto. apply Forall_forall. intros x Hx. apply repeat_spec in Hx. subst. auto.
Qed.
Lemma wf_pad_rows_to (cs : ccs R) k : wf_ccs cs -> wf_ccs (pad_rows_to cs k).
Proof.
  intros (H1 & H2 & H3 & H4 & H5). unfold pad_rows_to. destruct (_ <? _)%nat; [|repeat split; auto].
  repeat split; simpl; auto.
  - rewrite map_length. auto.
  - rewrite Forall_map. eapply Forall_impl; [|exact H4]. intros. apply wf_pad_rows; auto.
Qed.
Lemma ccs_row_pad cs k z i : wf_ccs cs -> ccs_row (pad_rows_to cs k) z i = ccs_row cs z i.
Proof.
  intros (H1 & H2 & H3 & H4 & H5). unfold pad_rows_to. destruct (_ <? _)%nat; auto.
  unfold ccs_row. cbn [c_q c_c c_M c_S]. apply sumn_ext. intros j Hj. do 2 f_equal.
  apply map_ext_in. intros a Ha.
  assert (a < length (c_M cs))%nat as Hlt.
  { rewrite H1. rewrite Forall_forall in H5. specialize (H5 (nth j (c_S cs) [])).
    rewrite Forall_forall in H5. apply H5; auto. apply nth_In. lia. }
  rewrite (nth_map_lt _ _ _ (SMat 0 0 [])) by auto. apply mz_pad_rows.
Qed.

Lemma next_pow2_idem n : next_pow2 (next_pow2 n) = next_pow2 n.
Proof. unfold next_pow2. rewrite Nat.log2_up_pow2 by lia. reflexivity. Qed.

Theorem from_r1cs_padded_spec r z rows W L :
  wf_r1cs (length z) rows r -> (r_l r < length z)%nat ->
  exists cs, ccs_from_r1cs_padded r W L = Ok cs /\
    wf_ccs cs /\
    c_n cs = length z /\ c_l cs = r_l r /\
    (exists k, c_m cs = 2 ^ k /\ c_s cs = k)%nat /\
    (W <= c_m cs)%nat /\ ((length z - r_l r - 1) * L <= c_m cs)%nat /\
    sanity_check cs L = Ok tt /\
    ((rows <= W)%nat -> ccs_check cs z = ccs_check (ccs_from_r1cs r W) z) /\
    ((rows <= c_m cs)%nat -> ccs_check cs z = r1cs_check r z).
Proof.
  intros Hwf Hl.
  destruct (wf_ccs_from_r1cs _ _ _ W Hwf) as [Hc Hn].
  unfold ccs_from_r1cs_padded. cbv zeta. set (cs0 := ccs_from_r1cs r W) in *.
  change (c_l cs0) with (r_l r). change (c_m cs0) with W. rewrite Hn.
  destruct (Nat.leb_spec (length z) (r_l r)); [lia|].
  set (mx := Nat.max ((length z - r_l r - 1) * L) W).
  set (cs := pad_rows_to cs0 (next_pow2 mx)).
  assert (mx <= next_pow2 mx)%nat as Hge by apply next_pow2_ge.
  assert (c_m cs = next_pow2 mx /\ c_s cs = Nat.log2_up mx /\ c_n cs = length z /\ c_l cs = r_l r) as (Hm & Hs & Hn' & Hl').
  { unfold cs, pad_rows_to. rewrite next_pow2_idem. change (c_m cs0) with W.
    destruct (Nat.ltb_spec W (next_pow2 mx)); cbn [c_m c_s c_n c_l].
    - repeat split; auto. unfold ark_log2, next_pow2. apply Nat.log2_up_pow2. lia.
    - assert (W = next_pow2 mx) as E by (apply Nat.le_antisymm; unfold mx in *; lia).
      repeat split; auto. unfold cs0. cbn [ccs_from_r1cs c_s]. unfold ark_log2.
      rewrite E. unfold next_pow2. apply Nat.log2_up_pow2. lia. }
  assert (wf_ccs cs) as Hcs by (apply wf_pad_rows_to; auto).
  exists cs. split; [reflexivity|]. split; [exact Hcs|]. repeat split; auto.
  - exists (Nat.log2_up mx). split; auto.
  - rewrite Hm. unfold mx in *. lia.
  - rewrite Hm. unfold mx in *. lia.
  - unfold sanity_check. rewrite Hn', Hl'. destruct (Nat.leb_spec (length z) (r_l r)); [lia|].
    rewrite Hm. replace (Nat.max ((length z - r_l r - 1) * L) (next_pow2 mx)) with (next_pow2 mx)
      by (unfold mx in *; lia).
    rewrite next_pow2_idem, Nat.eqb_refl. reflexivity.
  - intros HW. eapply first_bad_unique.
    + apply ccs_check_spec; auto.
    + apply ccs_check_spec; auto.
    + intros i Hi Hb; cbv beta in Hb |- *. unfold cs in Hb. rewrite ccs_row_pad in Hb by auto. split; auto.
      change (c_m cs0) with W.
      destruct (Nat.lt_ge_cases i W); auto. exfalso. apply Hb.
      unfold cs0. rewrite ccs_row_from_r1cs.
      destruct Hwf as ((_ & HA & _) & (_ & HB & _) & (_ & HC & _) & rA & rB & rC).
      rewrite !mz_out by lia. ring.
    + intros i Hi Hb; cbv beta in Hb |- *. change (c_m cs0) with W in Hi. split.
      * rewrite Hm. unfold mx in *. lia.
      * unfold cs. rewrite ccs_row_pad; auto.
  - intros HW. eapply first_bad_unique.
    + apply ccs_check_spec; auto.
    + apply (r1cs_check_spec r z rows); auto.
    + intros i Hi Hb; cbv beta in Hb |- *. unfold cs in Hb. rewrite ccs_row_pad in Hb by auto.
      unfold cs0 in Hb. rewrite ccs_row_from_r1cs in Hb.
      destruct (Nat.lt_ge_cases i rows).
      * split; auto. intros E. apply Hb. exact (proj2 (rsub_0_iff _ _) E).
      * exfalso. apply Hb.
        destruct Hwf as ((_ & HA & _) & (_ & HB & _) & (_ & HC & _) & rA & rB & rC).
        rewrite !mz_out by lia. ring.
    + intros i Hi Hb; cbv beta in Hb |- *. split; [lia|].
      unfold cs. rewrite ccs_row_pad by auto. unfold cs0. rewrite ccs_row_from_r1cs.
      intros E. apply Hb. exact (proj1 (rsub_0_iff _ _) E).
Qed.

(** C05 *)
Theorem relax_equiv r z rows : wf_r1cs (length z) rows r ->
  relaxed_check (relax r) z = r1cs_check r z.
Proof.
  intros (HA & HB & HC & rA & rB & rC).
  pose proof HA as (_ & HA' & _). pose proof HB as (_ & HB' & _). pose proof HC as (_ & HC' & _).
  unfold relaxed_check, r1cs_check, relax. cbn [x_A x_B x_C x_u x_E].
  rewrite !mat_vec_mul_ok by auto. cbn [bind].
  rewrite <- HA', <- HB', <- HC', rA, rB, rC, hadamard_ok, repeat_map_seq.
  unfold vec_scalar_mul. rewrite map_map.
  rewrite vec_add_ok. cbn [bind]. do 2 f_equal.
  replace (map (fun i => mz (r_C r) z i * 1 + 0) (seq 0 rows)) with (map (mz (r_C r) z) (seq 0 rows)); auto.
  apply map_ext. intros. ring.
Qed.

(** C06 *)
Lemma lc_evaluate_row lc z : lc_valid lc (length z) = true -> lc_evaluate lc z = row_mul lc z.
Proof.
  intros H. unfold lc_valid in H. rewrite forallb_forall in H.
  rewrite row_mul_ok.
  2:{ apply Forall_forall. intros t Ht. apply Nat.ltb_lt. auto. }
  unfold lc_evaluate.
  assert (forall a, fold_left (fun acc t => do acc <- acc; do zi <- index z (snd t); Ok (acc + fst t * zi)) lc (Ok a)
    = Ok (a + lsum (map (fun vc : R * nat => fst vc * nth (snd vc) z 0) lc))) as HH.
  { induction lc as [|t lc IH]; intros a; cbn [fold_left map lsum fold_right].
    - f_equal. ring.
    - cbn [bind]. rewrite (index_ok _ _ 0) by (apply Nat.ltb_lt; apply H; left; auto). cbn [bind].
      rewrite IH by (intros; apply H; right; auto). f_equal. unfold lsum. ring. }
  rewrite HH. f_equal. ring.
Qed.

Lemma csys_check_from_spec (s : csys R) z cons i :
  length z = s_nvars s ->
  forallb (fun k : constr R => lc_valid (k_a k) (s_nvars s) && lc_valid (k_b k) (s_nvars s)
                    && lc_valid (k_c k) (s_nvars s)) cons = true ->
  csys_check_from i cons z =
  (do Az <- mapM (fun row => row_mul row z) (map k_a cons);
   do Bz <- mapM (fun row => row_mul row z) (map k_b cons);
   do Cz <- mapM (fun row => row_mul row z) (map k_c cons);
   match position (fun p => negb (fst p =? snd p)) (combine (zipw rmul Az Bz) Cz) with
   | None => Ok tt
   | Some j => Err (NotSatisfied (i + j))
   end).
Proof.
  intros Hz. revert i. induction cons as [|k cons IH]; intros i H; auto.
  cbn [forallb] in H. apply andb_prop in H as [H1 H2]. apply andb_prop in H1 as [H1 Hc].
  apply andb_prop in H1 as [Ha Hb]. rewrite <- Hz in Ha, Hb, Hc.
  assert (forall lc, lc_valid lc (length z) = true -> exists v, row_mul lc z = Ok v) as HV.
  { intros lc Hlc. rewrite row_mul_ok; eauto. apply Forall_forall. intros t Ht.
    apply Nat.ltb_lt. unfold lc_valid in Hlc. rewrite forallb_forall in Hlc. auto. }
  cbn [csys_check_from map mapM]. rewrite !lc_evaluate_row by auto.
  destruct (HV _ Ha) as [a ->], (HV _ Hb) as [b ->], (HV _ Hc) as [c ->]. cbn [bind].
  rewrite (IH (S i) H2).
  assert (forall (f : constr R -> lincomb R), (forall k, In k cons -> lc_valid (f k) (length z) = true) ->
     exists v, mapM (fun row => row_mul row z) (map f cons) = Ok v) as HM.
  { intros f Hf. clear - Hf HV LR. induction cons as [|k cons IH]; simpl; eauto.
    destruct (HV (f k)) as [v ->]; [apply Hf; left; auto|].
    destruct IH as [vs ->]; [intros; apply Hf; right; auto|]. simpl. eauto. }
  assert (forall k, In k cons -> lc_valid (k_a k) (length z) = true /\ lc_valid (k_b k) (length z) = true /\ lc_valid (k_c k) (length z) = true) as Hall.
  { intros k' Hk'. rewrite forallb_forall in H2. specialize (H2 k' Hk'). rewrite Hz.
    apply andb_prop in H2 as [H3 H4]. apply andb_prop in H3 as [H3 H5]. auto. }
  destruct (HM k_a) as [Az ->]; [intros k' Hk'; apply (Hall k' Hk')|].
  destruct (HM k_b) as [Bz ->]; [intros k' Hk'; apply (Hall k' Hk')|].
  destruct (HM k_c) as [Cz ->]; [intros k' Hk'; apply (Hall k' Hk')|].
  cbn [bind zipw combine position fst snd].
  destruct (negb (a * b =? c)).
  - rewrite Nat.add_0_r. reflexivity.
  - destruct (position _ (combine (zipw rmul Az Bz) Cz)) as [j|]; simpl; auto.
    do 2 f_equal. lia.
Qed.

Theorem csys_r1cs_equiv (s : csys R) p a :
  csys_valid s = true -> length p = s_ninputs s -> length a = s_nauxs s ->
  csys_satisfied s p a = r1cs_check (csys_to_r1cs s) (p ++ a).
Proof.
  intros Hv Hp Ha. unfold csys_satisfied.
  rewrite Hp, Nat.eqb_refl. cbn [negb]. rewrite Ha. unfold s_nvars at 1. rewrite Nat.eqb_refl. cbn [negb].
  assert (length (p ++ a) = s_nvars s) as Hz by (rewrite app_length; unfold s_nvars; lia).
  unfold csys_valid in Hv. apply andb_prop in Hv as [_ Hv].
  rewrite (csys_check_from_spec s) by auto.
  unfold r1cs_check, csys_to_r1cs, mat_vec_mul, lincomb. cbn [r_A r_B r_C m_ncols m_coeffs].
  rewrite Hz, Nat.eqb_refl. cbn [negb].
  match goal with |- context [@mapM ?A ?B ?f (@map ?C ?D k_a ?l)] => destruct (@mapM A B f (@map C D k_a l)) as [Az| |] eqn:EA end; auto; cbn [bind].
  match goal with |- context [@mapM ?A ?B ?f (@map ?C ?D k_b ?l)] => destruct (@mapM A B f (@map C D k_b l)) as [Bz| |] eqn:EB end; auto; cbn [bind].
  match goal with |- context [@mapM ?A ?B ?f (@map ?C ?D k_c ?l)] => destruct (@mapM A B f (@map C D k_c l)) as [Cz| |] eqn:EC end; auto; cbn [bind].
  apply mapM_length in EA, EB. rewrite map_length in EA, EB.
  unfold hadamard. rewrite EA, EB, Nat.eqb_refl. cbn [negb bind].
  destruct (position _ _); auto.
Qed.

Lemma touched_ok n (lcs : list (lincomb R)) :
  (forall lc, In lc lcs -> forall t, In t lc -> (snd t < n)%nat) -> exists v, touched n lcs = Ok v.
Proof.
  intros H. unfold touched.
  assert (forallb (fun lc => forallb (fun t : R * nat => (snd t <? n)%nat) lc) lcs = true) as ->; eauto.
  apply forallb_forall. intros lc Hlc. apply forallb_forall. intros t Ht. apply Nat.ltb_lt. eauto.
Qed.

Theorem csys_swap_equiv (s : csys R) :
  csys_valid s = true -> exists s', csys_swap s = Ok s' /\ csys_valid s' = true /\
   s_ninputs s' = s_ninputs s /\ s_nauxs s' = s_nauxs s /\
   forall p a, csys_satisfied s' p a = csys_satisfied s p a.
Proof.
  intros Hv. pose proof Hv as Hv'. unfold csys_valid in Hv. apply andb_prop in Hv as [Hn Hv].
  rewrite forallb_forall in Hv.
  assert (forall k, In k (s_cons s) -> forall lc, lc = k_a k \/ lc = k_b k -> forall t, In t lc -> (snd t < s_nvars s + 1)%nat) as Hin.
  { intros k Hk lc Hlc t Ht. specialize (Hv k Hk). apply andb_prop in Hv as [Hv _].
    apply andb_prop in Hv as [H1 H2]. unfold lc_valid in *. rewrite forallb_forall in H1, H2.
    destruct Hlc as [->| ->].
    - specialize (H1 t Ht). apply Nat.ltb_lt in H1. lia.
    - specialize (H2 t Ht). apply Nat.ltb_lt in H2. lia. }
  unfold csys_swap.
  destruct (touched_ok (s_nvars s + 1) (map k_a (s_cons s))) as [vA ->].
  { intros lc Hlc. apply in_map_iff in Hlc as (k & <- & Hk). eapply Hin; eauto. }
  destruct (touched_ok (s_nvars s + 1) (map k_b (s_cons s))) as [vB ->].
  { intros lc Hlc. apply in_map_iff in Hlc as (k & <- & Hk). eapply Hin; eauto. }
  cbn [bind]. destruct (length (filter _ vA) <? length (filter _ vB))%nat.
  2:{ exists s. repeat split; auto. }
  eexists. split; [reflexivity|]. cbn [s_ninputs s_nauxs]. repeat split; auto.
  - unfold csys_valid. apply andb_true_intro. split; auto.
    apply forallb_forall. intros k Hk. apply in_map_iff in Hk as (k0 & <- & Hk0).
    specialize (Hv k0 Hk0). unfold s_nvars in *. cbn [s_ninputs s_nauxs k_a k_b k_c] in *.
    apply andb_prop in Hv as [H1 H2]. apply andb_prop in H1 as [H1 H3]. rewrite H1, H2, H3. auto.
  - intros p a. unfold csys_satisfied, s_nvars. cbn [s_ninputs s_nauxs s_cons].
    destruct (negb (length p =? s_ninputs s)%nat); auto.
    destruct (Nat.eqb_spec (length p + length a) (s_ninputs s + s_nauxs s)) as [E|]; auto. cbn [negb].
    assert (forall k, In k (s_cons s) -> lc_valid (k_a k) (length (p ++ a)) = true /\ lc_valid (k_b k) (length (p ++ a)) = true) as Hab.
    { intros k Hk. specialize (Hv k Hk). unfold s_nvars in Hv. rewrite <- E, <- app_length in Hv.
      apply andb_prop in Hv as [Hv _]. apply andb_prop in Hv. auto. }
    clear - LR Hab. generalize 0%nat. revert Hab.
    induction (s_cons s) as [|k cons IH]; intros Hab i; auto. cbn [map csys_check_from k_a k_b k_c].
    destruct (Hab k (or_introl eq_refl)) as [Ha Hb].
    assert (forall lc, lc_valid lc (length (p ++ a)) = true -> exists v, lc_evaluate lc (p ++ a) = Ok v) as HV.
    { intros lc Hlc. rewrite lc_evaluate_row by auto. rewrite row_mul_ok; eauto.
      apply Forall_forall. intros t Ht. apply Nat.ltb_lt. unfold lc_valid in Hlc. rewrite forallb_forall in Hlc. auto. }
    destruct (HV _ Ha) as [va ->], (HV _ Hb) as [vb ->]. cbn [bind].
    destruct (lc_evaluate (k_c k) (p ++ a)) as [vc| |]; auto. cbn [bind].
    assert (vb * va = va * vb) as -> by ring. destruct (negb (va * vb =? vc)); auto.
    apply IH. intros. apply Hab. right. auto.
Qed.
End P.

(** C07 *)
Lemma le_bytes_length n v : length (le_bytes n v) = n.
Proof. revert v; induction n; intros; simpl; auto. Qed.
Lemma le_bytes_inj n v w : (0 <= v < 256 ^ Z.of_nat n)%Z -> (0 <= w < 256 ^ Z.of_nat n)%Z ->
  le_bytes n v = le_bytes n w -> v = w.
Proof.
  revert v w; induction n; intros v w Hv Hw H.
  - simpl in *. lia.
  - rewrite Nat2Z.inj_succ, Z.pow_succ_r in Hv, Hw by lia. cbn [le_bytes] in H.
    injection H as H1 H2. apply IHn in H2.
    + rewrite (Z.div_mod v 256), (Z.div_mod w 256) by lia. congruence.
    + split; [apply Z.div_pos; lia|]. apply Z.div_lt_upper_bound; lia.
    + split; [apply Z.div_pos; lia|]. apply Z.div_lt_upper_bound; lia.
Qed.
Definition params_fit {R} (cs : ccs R) : Prop :=
  Forall (fun v => (Z.of_nat v < 2 ^ 64)%Z) [c_l cs; c_m cs; c_n cs; c_t cs; c_q cs; c_d cs].
Lemma app_inj_len {A} (a b c d : list A) : length a = length c -> a ++ b = c ++ d -> a = c /\ b = d.
Proof.
  revert c; induction a as [|x a IH]; intros [|y c] Hl H; try discriminate; auto.
  injection H as -> H. injection Hl as Hl. apply IH in H as [-> ->]; auto.
Qed.
Theorem params_bytes_inj {R} (a b : ccs R) : params_fit a -> params_fit b ->
  (params_to_le_bytes a = params_to_le_bytes b <->
   c_l a = c_l b /\ c_m a = c_m b /\ c_n a = c_n b /\ c_t a = c_t b /\ c_q a = c_q b /\ c_d a = c_d b).
Proof.
  intros Ha Hb. split.
  2:{ intros (E1 & E2 & E3 & E4 & E5 & E6). unfold params_to_le_bytes. congruence. }
  intros H. unfold params_to_le_bytes in H. cbn [map concat] in H.
  unfold params_fit in *.
  repeat match goal with X : Forall _ (_ :: _) |- _ => inversion X; clear X; subst end.
  assert (forall v w, (Z.of_nat v < 2 ^ 64)%Z -> (Z.of_nat w < 2 ^ 64)%Z -> le_bytes 8 (Z.of_nat v) = le_bytes 8 (Z.of_nat w) -> v = w) as HI.
  { intros v w Hv Hw HH. apply Nat2Z.inj. apply (le_bytes_inj 8); auto; split; lia. }
  apply app_inj_len in H as [E1 H]; [|rewrite !le_bytes_length; auto].
  apply app_inj_len in H as [E2 H]; [|rewrite !le_bytes_length; auto].
  apply app_inj_len in H as [E3 H]; [|rewrite !le_bytes_length; auto].
  apply app_inj_len in H as [E4 H]; [|rewrite !le_bytes_length; auto].
  apply app_inj_len in H as [E5 H]; [|rewrite !le_bytes_length; auto].
  apply app_inj_len in H as [E6 H]; [|rewrite !le_bytes_length; auto].
  repeat split; apply HI; auto.
Qed.

(** C38 *)
Theorem sanity_check_spec {R} (cs : ccs R) L : (c_l cs < c_n cs)%nat ->
  (sanity_check cs L = Ok tt <->
     (exists k, c_m cs = 2 ^ k)%nat /\ ((c_n cs - c_l cs - 1) * L <= c_m cs)%nat) /\
  (sanity_check cs L = Ok tt \/ sanity_check cs L = Err (InvalidSizeBounds (c_m cs) (c_n cs) L)).
Proof.
  intros H. unfold sanity_check. destruct (Nat.leb_spec (c_n cs) (c_l cs)); [lia|].
  set (a := ((c_n cs - c_l cs - 1) * L)%nat).
  destruct (Nat.eqb_spec (c_m cs) (next_pow2 (Nat.max a (c_m cs)))) as [E|E]; cbn [negb].
  - split; auto. split; auto. intros _. split.
    + rewrite E. apply next_pow2_is_pow2.
    + pose proof (next_pow2_ge (Nat.max a (c_m cs))). lia.
  - split; auto. split; [discriminate|]. intros [[k Hk] Hle]. exfalso. apply E.
    replace (Nat.max a (c_m cs)) with (c_m cs) by lia. rewrite Hk. symmetry. apply next_pow2_pow2.
Qed.

(** C58 *)
Lemma map_get_insert k k' v m :
  map_get k (map_insert k' v m) = if String.eqb k k' then Some v else map_get k m.
Proof.
  induction m as [|[k2 v2] m IH]; simpl; auto.
  destruct (String.eqb_spec k' k2) as [->|N]; simpl.
  - destruct (String.eqb_spec k k2); auto.
  - rewrite IH. destruct (String.eqb_spec k k2) as [->|]; auto.
    destruct (String.eqb_spec k2 k'); congruence.
Qed.
Definition vm_adds (vm : varmap) (l : list (string * (nat * nat))) : varmap :=
  fold_left (fun vm e => vm_add vm (fst e) (fst (snd e)) (snd (snd e))) l vm.
Lemma vm_adds_snoc vm l k i n : vm_adds vm (l ++ [(k, (i, n))]) = vm_add (vm_adds vm l) k i n.
Proof. unfold vm_adds. rewrite fold_left_app. reflexivity. Qed.
(** Specification: the last value added under a name. *)
Definition last_added (k : string) (l : list (string * (nat * nat))) : option (nat * nat) :=
  option_map snd (find (fun e => String.eqb k (fst e)) (rev l)).
Theorem vm_get_last l k : vm_get (vm_adds vm_new l) k = last_added k l.
Proof.
  unfold last_added. induction l as [|[k' [i n]] l IH] using rev_ind; auto.
  rewrite rev_app_distr, vm_adds_snoc. simpl.
  unfold vm_get, vm_add in *. simpl. rewrite map_get_insert.
  destruct (String.eqb_spec k k'); auto.
Qed.
Definition present_len (vm : varmap) : nat := list_sum (map (fun e => snd (snd e)) (vm_map vm)).
Theorem vm_total_distinct l : NoDup (map fst l) ->
  vm_total (vm_adds vm_new l) = S (present_len (vm_adds vm_new l)) /\
  vm_total (vm_adds vm_new l) = S (list_sum (map (fun e => snd (snd e)) l)).
Proof.
  assert (NoDup (map fst l) -> vm_map (vm_adds vm_new l) = l /\
     vm_total (vm_adds vm_new l) = S (list_sum (map (fun e => snd (snd e)) l))) as H.
  { induction l as [|[k [i n]] l IH] using rev_ind; auto. intros Hnd.
    rewrite map_app in Hnd. simpl in Hnd.
    assert (NoDup (map fst l) /\ ~ In k (map fst l)) as [Hnd1 Hni].
    { apply NoDup_remove in Hnd. rewrite app_nil_r in Hnd. auto. }
    destruct (IH Hnd1) as [E1 E2]. rewrite vm_adds_snoc.
    unfold vm_add. rewrite E1, E2. cbn [vm_map vm_total]. split.
    - clear - Hni. induction l as [|[k2 v2] l IHl]; simpl; auto. simpl in Hni.
      destruct (String.eqb_spec k k2) as [->|]; [exfalso; auto|]. f_equal. auto.
    - rewrite map_app, list_sum_app. simpl. lia. }
  intros Hnd. destruct (H Hnd) as [E1 E2]. split; auto.
  unfold present_len. rewrite E1. auto.
Qed.
(** In general [total_len] only grows: it is one plus the sum over all calls. *)
Theorem vm_total_all l : vm_total (vm_adds vm_new l) = S (list_sum (map (fun e => snd (snd e)) l)).
Proof.
  induction l as [|[k [i n]] l IH] using rev_ind; auto.
  rewrite vm_adds_snoc. cbn [vm_add vm_total]. rewrite IH, map_app, list_sum_app. simpl. lia.
Qed.
