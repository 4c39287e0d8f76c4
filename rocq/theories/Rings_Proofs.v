From Coq Require Import List Arith Lia ZArith Bool Ring.
From Verif Require Import Prelude Alg MLE MLE_Proofs Transcript Arith Arith_Proofs Balanced Rings.
Import ListNotations.
Local Open Scope rs_scope.

(** ** Ajtai commitments *)
Section Commit.
Context {R : Type} {RO : RingOps R} {LR : RingLaws R}.
Add Ring Rring8 : (@rlaws_th R RO LR).
Lemma lsum_cons (x : R) l : lsum (x :: l) = x + lsum l.
Proof. reflexivity. Qed.
Lemma lsum_nil : lsum [] = (0 : R).
Proof. reflexivity. Qed.

(** Specification: matrix entry and matrix-vector product. *)
Definition aj_entry (A : ajtai R) (i j : nat) : R := nth j (nth i (a_rows A) []) 0.
Definition wf_ajtai (A : ajtai R) : Prop := Forall (fun r => length r = a_ncols A) (a_rows A).

Lemma commit_ok A f : length f = a_ncols A -> commit A f = Ok (map (fun row => lsum (zipw rmul row f)) (a_rows A)).
Proof.
  intros H. unfold commit, checked_mul_vec. rewrite H, Nat.eqb_refl. reflexivity.
Qed.
Theorem commit_spec A f :
  (length f <> a_ncols A -> commit A f = Err (WrongWitnessLength (length f) (a_ncols A))) /\
  (length f = a_ncols A -> wf_ajtai A -> exists c, commit A f = Ok c /\ length c = kappa A /\
     forall i, (i < kappa A)%nat -> nth i c 0 = sumn (a_ncols A) (fun j => aj_entry A i j * nth j f 0)).
Proof.
  split; intros H.
  - unfold commit. destruct (Nat.eqb_spec (length f) (a_ncols A)); [contradiction|auto].
  - intros Hw. eexists. split; [apply commit_ok; auto|]. unfold kappa. rewrite map_length. split; auto.
    intros i Hi. rewrite (nth_map_lt _ _ _ []) by auto. fold (dot (nth i (a_rows A) []) f).
    rewrite dot_nth. unfold wf_ajtai in Hw. rewrite Forall_forall in Hw.
    rewrite (Hw (nth i (a_rows A) [])) by (apply nth_In; auto). rewrite H, Nat.min_id. reflexivity.
Qed.
Lemma dot_lin (row f g : list R) a b : length f = length g ->
  lsum (zipw rmul row (zipw radd (map (rmul a) f) (map (rmul b) g))) =
  a * lsum (zipw rmul row f) + b * lsum (zipw rmul row g).
Proof.
  revert f g; induction row as [|x row IH]; intros [|y f] [|z g] H; try discriminate H;
    cbn [map zipw]; rewrite ?lsum_nil; try ring.
  rewrite !lsum_cons, IH by (injection H as H; auto). ring.
Qed.
Theorem commit_linear A f g a b cf cg :
  commit A f = Ok cf -> commit A g = Ok cg ->
  commit A (zipw radd (map (rmul a) f) (map (rmul b) g)) = Ok (zipw radd (map (rmul a) cf) (map (rmul b) cg)).
Proof.
  intros Hf Hg.
  assert (length f = a_ncols A) as Lf.
  { unfold commit in Hf. destruct (Nat.eqb_spec (length f) (a_ncols A)); auto. discriminate. }
  assert (length g = a_ncols A) as Lg.
  { unfold commit in Hg. destruct (Nat.eqb_spec (length g) (a_ncols A)); auto. discriminate. }
  rewrite commit_ok in Hf, Hg by auto. injection Hf as <-. injection Hg as <-.
  rewrite commit_ok by (rewrite zipw_length, !map_length; lia). f_equal.
  rewrite !map_map, (zipw_map radd _ _ (a_rows A) (a_rows A)), zipw_same. apply map_ext. intros row. apply dot_lin. lia.
Qed.
(** The matrix of [rand] cannot separate witnesses with the same coordinate sum. *)
Theorem ajtai_rand_collision sample k n f g :
  length f = n -> length g = n -> lsum f = lsum g ->
  commit (ajtai_rand sample k n) f = commit (ajtai_rand sample k n) g.
Proof.
  intros Hf Hg Hs. destruct k as [|k].
  - unfold commit, ajtai_rand, checked_mul_vec. cbn. rewrite Hf, Hg. destruct n; reflexivity.
  - rewrite !commit_ok by auto. f_equal. apply map_ext_in. intros row Hin.
    apply repeat_spec in Hin as ->.
    assert (forall h, length h = n -> lsum (zipw rmul (repeat sample n) h) = sample * lsum h) as HH.
    { clear - LR. induction n; intros [|x h] E; try discriminate E; cbn [repeat zipw];
        rewrite ?lsum_nil, ?lsum_cons; [ring|]. rewrite IHn by (injection E as E; auto). ring. }
    rewrite !HH by auto. congruence.
Qed.

(** ** Commitment arithmetic *)
Theorem cm_add_comm a b : length a = length b -> cm_add a b = cm_add b a.
Proof. intros H. unfold cm_add. rewrite !zipl_zipw by auto. apply zipw_comm. intros; ring. Qed.
Lemma cm_add_length a b : length (cm_add a b : list R) = length a.
Proof. apply zipl_length. Qed.
Lemma cm_add_ext a b i : length a = length b -> nth i (cm_add a b) 0 = nth i a 0 + nth i b 0.
Proof.
  intros H. unfold cm_add. rewrite zipl_zipw by auto. apply nth_vadd. auto.
Qed.
Lemma cm_scale_nth a c i : nth i (cm_scale a c) 0 = nth i a 0 * c.
Proof. apply nth_vscale. Qed.
Lemma cm_scale_length (a : list R) c : length (cm_scale a c) = length a.
Proof. apply map_length. Qed.
Lemma cm_sub_length a b : length (cm_sub a b : list R) = length a.
Proof. apply zipl_length. Qed.
Lemma cm_sub_nth a b i : length a = length b -> nth i (cm_sub a b) 0 = nth i a 0 - nth i b 0.
Proof.
  intros H. unfold cm_sub. rewrite zipl_zipw by auto.
  destruct (Nat.lt_ge_cases i (length a)).
  - rewrite (nth_zipw _ _ _ _ 0 0) by lia. auto.
  - rewrite !nth_overflow; try lia; [ring|]. rewrite zipw_length. lia.
Qed.
Theorem cm_module :
  (forall a b c, length a = length b -> length b = length c ->
     cm_add a (cm_add b c) = cm_add (cm_add a b) c) /\
  (forall a, cm_add a (cm_zeroed (length a)) = a /\ cm_add (cm_zeroed (length a)) a = a) /\
  (forall a b, length a = length b -> cm_sub (cm_add a b) b = a /\ cm_add (cm_sub a b) b = a) /\
  (forall a b x, length a = length b -> cm_scale (cm_add a b) x = cm_add (cm_scale a x) (cm_scale b x)) /\
  (forall a x y, cm_scale a (x + y) = cm_add (cm_scale a x) (cm_scale a y)) /\
  (forall a x y, cm_scale (cm_scale a x) y = cm_scale a (x * y)) /\
  (forall a, cm_scale a 1 = a).
Proof.
  repeat split; intros.
  - apply (list_ext 0); rewrite !cm_add_length; auto. intros i _.
    rewrite !cm_add_ext; rewrite ?cm_add_length; try congruence. ring.
  - apply (list_ext 0); rewrite !cm_add_length; auto. intros i _.
    rewrite cm_add_ext by (unfold cm_zeroed; rewrite repeat_length; auto). unfold cm_zeroed. rewrite nth_repeat. ring.
  - unfold cm_zeroed. apply (list_ext 0); rewrite !cm_add_length, ?repeat_length; auto. intros i _.
    rewrite cm_add_ext by (rewrite repeat_length; auto). rewrite nth_repeat. ring.
  - apply (list_ext 0); rewrite ?cm_sub_length, ?cm_add_length; auto. intros i _.
    rewrite cm_sub_nth, cm_add_ext; rewrite ?cm_add_length; auto. ring.
  - apply (list_ext 0); rewrite ?cm_add_length, ?cm_sub_length; auto. intros i _.
    rewrite cm_add_ext, cm_sub_nth; rewrite ?cm_sub_length; auto. ring.
  - apply (list_ext 0); rewrite ?cm_scale_length, ?cm_add_length, ?cm_scale_length; auto. intros i _.
    rewrite cm_add_ext, !cm_scale_nth, cm_add_ext; rewrite ?cm_scale_length; auto. ring.
  - apply (list_ext 0); rewrite ?cm_scale_length, ?cm_add_length, ?cm_scale_length; auto. intros i _.
    rewrite cm_add_ext, !cm_scale_nth; rewrite ?cm_scale_length; auto. ring.
  - apply (list_ext 0); rewrite ?cm_scale_length; auto. intros i _. rewrite !cm_scale_nth. ring.
  - apply (list_ext 0); rewrite ?cm_scale_length; auto. intros i _. rewrite !cm_scale_nth. ring.
Qed.
Lemma recompose_cons (x : R) v b : recompose (x :: v) b = x + b * recompose v b.
Proof. reflexivity. Qed.
Lemma recompose_sum v b : recompose v b = sumn (length v) (fun i => nth i v 0 * rpow b i).
Proof.
  induction v as [|x v IH]; [reflexivity|]. rewrite recompose_cons, IH. cbn [length].
  rewrite sumn_S_first. cbn [nth rpow]. rewrite <- sumn_mul_l.
  replace (x * 1) with x by ring. f_equal. apply sumn_ext. intros. ring.
Qed.
End Commit.

(** ** Suitable rings *)
Section S.
Context {F K C R : Type} {SO : SOps F K C R} {p : Z} {SL : SLaws F K C R p}.
Add Ring Fring : (@rlaws_th F _ _).
Add Ring Kring : (@rlaws_th K _ _).
Add Ring Cring : (@rlaws_th C _ _).
Add Ring Rring9 : (@rlaws_th R _ _).

(** Coefficient [j] of a ring element, slot [j] of an NTT element. *)
Definition cf (j : nat) (c : C) : F := nth j (coeffs c) 0.
Definition sl (j : nat) (x : R) : K := nth j (slots x) 0.

Lemma cf_out j c : (dimC <= j)%nat -> cf j c = 0.
Proof. intros. unfold cf. apply nth_overflow. rewrite coeffs_length. auto. Qed.
Lemma cf_ext a b : (forall j, (j < dimC)%nat -> cf j a = cf j b) -> a = b.
Proof.
  intros H. rewrite <- (of_coeffs_coeffs a), <- (of_coeffs_coeffs b). f_equal.
  apply (list_ext 0); rewrite !coeffs_length; auto.
Qed.
Lemma cf_add j a b : cf j (a + b) = cf j a + cf j b.
Proof. unfold cf. rewrite coeffs_add. apply nth_vadd. rewrite !coeffs_length. auto. Qed.
Lemma cf_scaleF j x c : cf j (embFC x * c) = x * cf j c.
Proof.
  unfold cf. rewrite coeffs_scale.
  destruct (Nat.lt_ge_cases j (length (coeffs c))).
  - rewrite (nth_map_lt _ _ _ 0) by auto. auto.
  - rewrite !nth_overflow; rewrite ?map_length; auto. ring.
Qed.
Lemma cf_0 j : cf j 0 = 0.
Proof.
  transitivity (cf j (embFC 0 * 0)); [f_equal; ring|]. rewrite cf_scaleF. ring.
Qed.
Lemma cf_ofZ j z c : cf j (rofZ z * c) = rofZ z * cf j c.
Proof.
  rewrite <- (hom_ofZ _ embFC_hom). apply cf_scaleF.
Qed.
Lemma cf_sumn j n (f : nat -> C) : cf j (sumn n f) = sumn n (fun i => cf j (f i)).
Proof. induction n; cbn [sumn]; [apply cf_0|]. rewrite cf_add, IHn. auto. Qed.
Lemma cf_of_coeffs j l : length l = dimC -> cf j (of_coeffs l) = nth j l 0.
Proof. intros. unfold cf. rewrite coeffs_of; auto. Qed.

Lemma sl_out j x : (dimN <= j)%nat -> sl j x = 0.
Proof. intros. unfold sl. apply nth_overflow. rewrite slots_length. auto. Qed.
Lemma sl_ext a b : (forall j, (j < dimN)%nat -> sl j a = sl j b) -> a = b.
Proof.
  intros H. rewrite <- (of_slots_slots a), <- (of_slots_slots b). f_equal.
  apply (list_ext 0); rewrite !slots_length; auto.
Qed.
Lemma sl_add j a b : sl j (a + b) = sl j a + sl j b.
Proof. unfold sl. rewrite slots_add. apply nth_vadd. rewrite !slots_length. auto. Qed.
Lemma sl_mul j a b : sl j (a * b) = sl j a * sl j b.
Proof.
  unfold sl. rewrite slots_mul. destruct (Nat.lt_ge_cases j dimN).
  - rewrite (nth_zipw _ _ _ _ 0 0) by (rewrite slots_length; auto). auto.
  - rewrite !nth_overflow; rewrite ?zipw_length, ?slots_length; try lia. ring.
Qed.
Lemma sl_emb j k : (j < dimN)%nat -> sl j (emb k) = k.
Proof.
  intros. unfold sl. rewrite slots_emb. rewrite (nth_indep _ 0 k) by (rewrite repeat_length; auto).
  apply nth_repeat.
Qed.
Lemma sl_0 j : sl j 0 = 0.
Proof.
  destruct (Nat.lt_ge_cases j dimN); [|apply sl_out; auto].
  rewrite <- (hom_0 _ emb_hom). apply sl_emb. auto.
Qed.
Lemma sl_1 j : (j < dimN)%nat -> sl j 1 = 1.
Proof. intros. rewrite <- (hom_1 _ emb_hom). apply sl_emb. auto. Qed.
Lemma sl_opp j a : sl j (- a) = - sl j a.
Proof.
  assert (sl j a + sl j (- a) = 0) as H.
  { rewrite <- sl_add, <- (sl_0 j). f_equal. ring. }
  transitivity (sl j a + sl j (- a) - sl j a); [ring|]. rewrite H. ring.
Qed.
Lemma sl_sub j a b : sl j (a - b) = sl j a - sl j b.
Proof. replace (a - b) with (a + - b) by ring. rewrite sl_add, sl_opp. ring. Qed.
Lemma sl_ofZ j z : (j < dimN)%nat -> sl j (rofZ z) = rofZ z.
Proof. intros. rewrite <- (hom_ofZ _ emb_hom). apply sl_emb; auto. Qed.
Lemma sl_sumn j n (f : nat -> R) : sl j (sumn n f) = sumn n (fun i => sl j (f i)).
Proof. induction n; cbn [sumn]; [apply sl_0|]. rewrite sl_add, IHn. auto. Qed.
Lemma sl_prodn j n (f : nat -> R) : (j < dimN)%nat -> sl j (prodn n f) = prodn n (fun i => sl j (f i)).
Proof. intros. induction n; cbn [prodn]; [apply sl_1; auto|]. rewrite sl_mul, IHn. auto. Qed.
Lemma sl_of_slots j l : length l = dimN -> sl j (of_slots l) = nth j l 0.
Proof. intros. unfold sl. rewrite slots_of; auto. Qed.
Lemma emb_mul_sl j k x : sl j (emb k * x) = k * sl j x.
Proof.
  rewrite sl_mul. destruct (Nat.lt_ge_cases j dimN).
  - rewrite sl_emb; auto.
  - rewrite !sl_out by auto. ring.
Qed.

Lemma icrt_hom : ring_hom (icrt : R -> C).
Proof.
  split; intros.
  - rewrite <- (hom_0 _ crt_hom). apply icrt_crt.
  - rewrite <- (hom_1 _ crt_hom). apply icrt_crt.
  - rewrite <- (crt_icrt x), <- (crt_icrt y), <- (hom_add _ crt_hom), !icrt_crt. auto.
  - rewrite <- (crt_icrt x), <- (crt_icrt y), <- (hom_mul _ crt_hom), !icrt_crt. auto.
  - rewrite <- (crt_icrt x), <- (hom_opp _ crt_hom), !icrt_crt. auto.
  - rewrite <- (crt_icrt x), <- (crt_icrt y), <- (hom_sub _ crt_hom), !icrt_crt. auto.
Qed.

(** ** Signed representatives *)
Lemma signed_min z : (Z.abs (signed (rofZ z : F)) <= Z.abs z)%Z.
Proof.
  destruct (Z.lt_ge_cases (2 * Z.abs z) p) as [H|H].
  - rewrite signed_small by auto. lia.
  - pose proof (signed_bound (rofZ z : F)). lia.
Qed.
Lemma signed_add (x y : F) : (Z.abs (signed (x + y)%rs) <= Z.abs (signed x) + Z.abs (signed y))%Z.
Proof.
  replace (x + y) with (rofZ (signed x + signed y) : F) by (rewrite rofZ_add, !signed_val; auto).
  pose proof (signed_min (signed x + signed y)). lia.
Qed.
Lemma signed_mul (x y : F) : (Z.abs (signed (x * y)%rs) <= Z.abs (signed x) * Z.abs (signed y))%Z.
Proof.
  replace (x * y) with (rofZ (signed x * signed y) : F) by (rewrite rofZ_mul, !signed_val; auto).
  pose proof (signed_min (signed x * signed y)). rewrite Z.abs_mul in H. lia.
Qed.
Lemma signed_0 : signed (0 : F) = 0%Z.
Proof. pose proof (signed_min 0). rewrite rofZ_0 in H. lia. Qed.
Lemma rofZ_inj_small z w : (2 * Z.abs z < p)%Z -> (2 * Z.abs w < p)%Z -> (rofZ z : F) = rofZ w -> z = w.
Proof. intros Hz Hw H. rewrite <- (signed_small z), <- (signed_small w), H; auto. Qed.

(** Infinity norm bound on a ring element in coefficient form. *)
Definition cnorm_le (B : Z) (c : C) : Prop := forall j, (Z.abs (signed (cf j c)) <= B)%Z.

(** ** Balanced decomposition of ring elements *)
Lemma decompose_c_length b k c : length (decompose_c b k c) = k.
Proof. unfold decompose_c. rewrite map_length, seq_length. auto. Qed.
Lemma cf_decompose b k c i j : (i < k)%nat -> (j < dimC)%nat ->
  cf j (nth i (decompose_c b k c) 0) = rofZ (nth i (decompose_z k b (signed (cf j c))) 0%Z).
Proof.
  intros Hi Hj. unfold decompose_c. rewrite nth_seq_map by auto.
  rewrite cf_of_coeffs by (rewrite !map_length, coeffs_length; auto).
  rewrite map_map. rewrite (nth_map_lt _ _ _ 0) by (rewrite coeffs_length; auto). reflexivity.
Qed.
Lemma recompose_ofZ {A} {AO : RingOps A} {AL : RingLaws A} b ds :
  recompose (map (rofZ : Z -> A) ds) (rofZ b) = rofZ (digits_value b ds).
Proof.
  induction ds as [|d ds IH]; [symmetry; apply rofZ_0|]. cbn [map digits_value].
  rewrite recompose_cons, IH, rofZ_add, rofZ_mul. auto.
Qed.
Lemma cf_recompose j v b : cf j (recompose v (rofZ b)) = recompose (map (cf j) v) (rofZ b).
Proof.
  induction v as [|x v IH]; [apply cf_0|]. cbn [map]. rewrite !recompose_cons, cf_add, cf_ofZ, IH. auto.
Qed.
(** C20: exact recomposition and shortness. *)
Theorem decompose_c_exact b k c :
  (2 <= b)%Z -> (forall j, (Z.abs (signed (cf j c)) <= reach k b)%Z) ->
  recompose (decompose_c b k c) (rofZ b) = c.
Proof.
  intros Hb H. apply cf_ext. intros j Hj. rewrite cf_recompose.
  assert (map (cf j) (decompose_c b k c) = map rofZ (decompose_z k b (signed (cf j c)))) as ->.
  { apply (list_ext 0); rewrite !map_length, decompose_c_length; [rewrite decompose_z_length; auto|].
    intros i Hi. rewrite (nth_map_lt _ _ _ 0) by (rewrite decompose_c_length; auto).
    rewrite (nth_map_lt _ _ _ 0%Z) by (rewrite decompose_z_length; auto). apply cf_decompose; auto. }
  rewrite recompose_ofZ, (proj2 (decompose_z_iff _ _ _ Hb)) by auto. apply signed_val.
Qed.
Theorem decompose_c_short b k c x : (2 <= b)%Z -> In x (decompose_c b k c) -> cnorm_le (b / 2) x.
Proof.
  intros Hb Hin j. apply In_nth with (d := 0) in Hin as (i & Hi & <-). rewrite decompose_c_length in Hi.
  destruct (Nat.lt_ge_cases j dimC).
  - rewrite cf_decompose by auto.
    pose proof (decompose_z_short k b (signed (cf j c)) Hb) as HS. rewrite Forall_forall in HS.
    eapply Z.le_trans; [apply signed_min|]. apply HS. apply nth_In. rewrite decompose_z_length. auto.
  - rewrite cf_out, signed_0 by auto. change (Z.abs 0) with 0%Z. apply Z.div_pos; lia.
Qed.

(** ** Gadgets *)
Lemma gadget_chunks b k v : (1 <= k)%nat ->
  chunks k (gadget_decompose b k v) = map (decompose_c b k) v.
Proof.
  intros Hk. unfold gadget_decompose. rewrite flat_map_concat_map. apply chunks_of_concat; auto.
  intros c Hc. apply in_map_iff in Hc as (x & <- & _). apply decompose_c_length.
Qed.
Lemma gadget_decompose_length b k v : length (gadget_decompose b k v) = (length v * k)%nat.
Proof.
  unfold gadget_decompose. rewrite flat_map_concat_map, (concat_length_const k), map_length; auto.
  intros c Hc. apply in_map_iff in Hc as (x & <- & _). apply decompose_c_length.
Qed.
Lemma chunks_map {A B} (f : A -> B) k l : chunks k (map f l) = map (map f) (chunks k l).
Proof.
  unfold chunks. rewrite map_length. generalize (length l). intros n. revert l.
  induction n as [|n IH]; intros l; auto. cbn [chunks_fuel]. destruct l as [|a l]; auto.
  cbn [map]. rewrite <- (map_cons f a l), firstn_map, skipn_map, IH. auto.
Qed.
Lemma hom_recompose {A B} {AO : RingOps A} {BO : RingOps B} (f : A -> B) (Hf : ring_hom f) v b :
  f (recompose v b) = recompose (map f v) (f b).
Proof.
  induction v as [|x v IH]; [apply (hom_0 _ Hf)|]. cbn [map]. rewrite !recompose_cons, (hom_add _ Hf), (hom_mul _ Hf), IH. auto.
Qed.
Lemma gadget_roundtrip b k w : (2 <= b)%Z -> (1 <= k)%nat -> (p <= b ^ Z.of_nat k + 1)%Z ->
  gadget_recompose b k (map crt (gadget_decompose b k (map icrt w))) = w.
Proof.
  intros Hb Hk Hp. unfold gadget_recompose. rewrite chunks_map, gadget_chunks, !map_map by auto.
  rewrite <- (map_id w) at 2. apply map_ext. intros x.
  rewrite <- (hom_ofZ _ crt_hom), <- (hom_recompose _ crt_hom), decompose_c_exact; auto.
  - apply crt_icrt.
  - intros j. pose proof (signed_bound (cf j (icrt x))). apply pow_reach; lia.
Qed.

(** ** f-hat *)
Lemma chunk_elem_sl l s : length l = dimN -> sl s (chunk_elem l) = embFK (nth s l 0).
Proof.
  intros H. unfold chunk_elem. rewrite sl_of_slots by (rewrite zipl_length, repeat_length; auto).
  destruct (Nat.lt_ge_cases s dimN).
  - rewrite (nth_zipl _ _ _ _ 0 0) by (rewrite ?repeat_length; lia). auto.
  - rewrite !nth_overflow; rewrite ?zipl_length, ?repeat_length; try lia.
    symmetry. apply (hom_0 _ embFK_hom).
Qed.
Lemma coeff_chunk c j s : (j < tau)%nat -> (s < dimN)%nat ->
  length (nth j (chunks dimN (coeffs c)) []) = dimN /\
  nth s (nth j (chunks dimN (coeffs c)) []) 0 = cf (j * dimN + s) c.
Proof.
  intros Hj Hs. pose proof dimN_pos as HN.
  assert (length (coeffs c) = tau * dimN)%nat as Hl by (rewrite coeffs_length; unfold dimC; lia).
  assert (length (chunks dimN (coeffs c)) = tau) as Hc by (apply chunks_length; auto).
  split.
  - eapply chunks_in_length; eauto. apply nth_In. lia.
  - unfold cf. rewrite <- (chunks_concat dimN (coeffs c) HN) at 2.
    rewrite nth_concat_const; auto; [|lia]. intros. eapply chunks_in_length; eauto.
Qed.
(** Specification of the element in row [j] of the hat of [c]: slot [s] holds coefficient
    j*N+s. *)
Definition hat (j : nat) (c : C) : R :=
  of_slots (map (fun s => embFK (cf (j * dimN + s) c)) (seq 0 dimN)).
Lemma sl_hat j s c : (s < dimN)%nat -> sl s (hat j c) = embFK (cf (j * dimN + s) c).
Proof.
  intros. unfold hat. rewrite sl_of_slots by (rewrite map_length, seq_length; auto).
  rewrite (nth_seq_map (fun s => embFK (cf (j * dimN + s) c))) by auto. auto.
Qed.
Lemma chunk_hat j c : (j < tau)%nat -> chunk_elem (nth j (chunks dimN (coeffs c)) []) = hat j c.
Proof.
  intros Hj. apply sl_ext. intros s Hs. rewrite sl_hat by auto.
  destruct (coeff_chunk c j s) as [H1 H2]; auto. rewrite chunk_elem_sl, H2; auto.
Qed.
Lemma get_fhat_length f : length (get_fhat f) = tau.
Proof. unfold get_fhat. rewrite map_length, seq_length. auto. Qed.
Definition fhat_nv (n : nat) : nat := ark_log2 (next_pow2 n).
Lemma fhat_nv_fits n : (n <= 2 ^ fhat_nv n)%nat.
Proof. unfold fhat_nv. rewrite ark_log2_next_pow2. apply next_pow2_ge. Qed.
Lemma get_fhat_nth f j d : (j < tau)%nat -> nth j (get_fhat f) d =
  Mle (fhat_nv (length f)) (resize (2 ^ fhat_nv (length f)) 0 (map (hat j) f)).
Proof.
  intros Hj. unfold get_fhat. rewrite nth_seq_map by auto. unfold fhat_nv. do 2 f_equal.
  apply map_ext. intros c. apply chunk_hat. auto.
Qed.
Lemma get_fhat_nv f m : In m (get_fhat f) -> mle_nv m = fhat_nv (length f).
Proof. unfold get_fhat. intros H. apply in_map_iff in H as (j & <- & _). reflexivity. Qed.
Lemma hat_0 j : hat j 0 = 0.
Proof.
  apply sl_ext. intros s Hs. rewrite sl_hat, cf_0, sl_0 by auto. apply (hom_0 _ embFK_hom).
Qed.
Lemma get_fhat_get f j d i : (j < tau)%nat ->
  mle_get (nth j (get_fhat f) d) i = hat j (nth i f 0).
Proof.
  intros Hj. rewrite get_fhat_nth by auto.
  rewrite mle_get_from_vec by (rewrite map_length; apply fhat_nv_fits).
  destruct (Nat.lt_ge_cases i (length f)).
  - rewrite (nth_map_lt _ _ _ 0); auto.
  - rewrite !nth_overflow; rewrite ?map_length; auto. symmetry. apply hat_0.
Qed.
Lemma hat_add j a b : hat j (a + b) = hat j a + hat j b.
Proof.
  apply sl_ext. intros s Hs. rewrite sl_add, !sl_hat, cf_add by auto.
  apply (hom_add _ embFK_hom).
Qed.
Lemma hat_ofZ j z c : hat j (rofZ z * c) = rofZ z * hat j c.
Proof.
  apply sl_ext. intros s Hs. rewrite sl_mul, sl_ofZ, !sl_hat, cf_ofZ by auto.
  rewrite (hom_mul _ embFK_hom), (hom_ofZ _ embFK_hom). auto.
Qed.
Lemma hat_sumn j n (f : nat -> C) : hat j (sumn n f) = sumn n (fun i => hat j (f i)).
Proof. intros. induction n; cbn [sumn]; [apply hat_0|]. rewrite hat_add, IHn; auto. Qed.

(** ** Witness constructors (C20, C21) *)
Definition wit_consistent (P : dparams) (w : witness C R) : Prop :=
  w_f w = map crt (w_fc w) /\ w_fc w = map icrt (w_f w) /\
  w_fhat w = get_fhat (w_fc w) /\
  w_ccs w = gadget_recompose (dp_B P) (dp_L P) (w_f w).
Definition covers (P : dparams) : Prop :=
  (2 <= dp_B P)%Z /\ (1 <= dp_L P)%nat /\ (p <= dp_B P ^ Z.of_nat (dp_L P) + 1)%Z.
Lemma map_icrt_crt l : map icrt (map (crt : C -> R) l) = l.
Proof. rewrite map_map. rewrite <- (map_id l) at 2. apply map_ext. apply icrt_crt. Qed.
Lemma map_crt_icrt l : map crt (map (icrt : R -> C) l) = l.
Proof. rewrite map_map. rewrite <- (map_id l) at 2. apply map_ext. apply crt_icrt. Qed.
Theorem from_w_ccs_consistent P w : covers P -> wit_consistent P (wit_from_w_ccs P w).
Proof.
  intros (H1 & H2 & H3). unfold wit_consistent, wit_from_w_ccs. cbn [w_f w_fc w_fhat w_ccs].
  rewrite map_icrt_crt. repeat split; auto. symmetry. apply gadget_roundtrip; auto.
Qed.
Theorem from_f_consistent P f : wit_consistent P (wit_from_f P f).
Proof. unfold wit_consistent, wit_from_f. cbn [w_f w_fc w_fhat w_ccs]. rewrite map_crt_icrt. auto. Qed.
Theorem from_f_coeff_consistent P f : wit_consistent P (wit_from_f_coeff P f).
Proof. unfold wit_consistent, wit_from_f_coeff. cbn [w_f w_fc w_fhat w_ccs]. rewrite map_icrt_crt. auto. Qed.
Theorem from_f_from_w_ccs P w : covers P ->
  wit_from_f P (w_f (wit_from_w_ccs P w)) = (wit_from_w_ccs P w : witness C R).
Proof.
  intros (H1 & H2 & H3). unfold wit_from_f, wit_from_w_ccs. cbn [w_f].
  rewrite map_icrt_crt, gadget_roundtrip; auto.
Qed.
Theorem from_w_ccs_short P w x : (2 <= dp_B P)%Z ->
  In x (w_fc (wit_from_w_ccs P w)) -> cnorm_le (dp_B P / 2) x.
Proof.
  intros HB Hin. cbn [w_fc wit_from_w_ccs] in Hin. unfold gadget_decompose in Hin.
  apply in_flat_map in Hin as (y & _ & Hy). eapply decompose_c_short; eauto.
Qed.
Theorem from_w_ccs_length P w : length (w_f (wit_from_w_ccs P w : witness C R)) = (length w * dp_L P)%nat.
Proof.
  cbn [w_f wit_from_w_ccs]. rewrite map_length, gadget_decompose_length, map_length. auto.
Qed.
(** What the rows of f-hat contain, entry by entry. *)
Theorem fhat_entries P (w : witness C R) j s i d : wit_consistent P w ->
  (j < tau)%nat -> (s < dimN)%nat -> (i < length (w_f w))%nat ->
  length (w_fhat w) = tau /\
  sl s (mle_get (nth j (w_fhat w) d) i) = embFK (cf (j * dimN + s) (icrt (nth i (w_f w) 0))).
Proof.
  intros (H1 & H2 & H3 & H4) Hj Hs Hi. rewrite H3. split; [apply get_fhat_length|].
  rewrite get_fhat_get, sl_hat by auto. do 2 f_equal. rewrite H2.
  rewrite (nth_map_lt _ _ _ 0) by auto. auto.
Qed.

(** ** Rotations (C33) *)
Definition xpow (i : nat) (a : C) : C := Nat.iter i rotX a.
Lemma xpow_mul i a b : xpow i (a * b) = xpow i a * b.
Proof. induction i; [reflexivity|]. unfold xpow in *. cbn [Nat.iter nat_rect]. change (rotX (xpow i (a * b)) = rotX (xpow i a) * b). rewrite <- rotX_mul. unfold xpow. rewrite IHi. auto. Qed.
Lemma mul_coeffs a c : a * c = sumn dimC (fun i => embFC (cf i c) * xpow i a).
Proof.
  rewrite (coeffs_X c) at 1. rewrite <- sumn_mul_l. apply sumn_ext. intros i Hi.
  fold (cf i c). fold (xpow i (1 : C)).
  transitivity (embFC (cf i c) * (xpow i 1 * a)); [ring|]. rewrite <- xpow_mul. do 2 f_equal. ring.
Qed.
Lemma cf_mul j a c : cf j (a * c) = sumn dimC (fun i => cf i c * cf j (xpow i a)).
Proof. rewrite mul_coeffs, cf_sumn. apply sumn_ext. intros. apply cf_scaleF. Qed.

Lemma rot_sum_loop_spec b a acc j : length acc = dimC -> (j < dimC)%nat ->
  length (rot_sum_loop a b acc) = dimC /\
  nth j (rot_sum_loop a b acc) 0 = nth j acc 0 + sumn (length b) (fun i => nth i b 0 * embFK (cf j (xpow i a))).
Proof.
  revert a acc; induction b as [|x b IH]; intros a acc Hacc Hj; cbn [rot_sum_loop length].
  - split; auto. cbn [sumn]. ring.
  - edestruct (IH (rotX a)) as [H1 H2]; [| eauto |].
    2:{ split; [exact H1|]. rewrite H2, sumn_S_first. cbn [nth].
        rewrite (nth_zipl _ _ _ _ 0 0) by (rewrite ?coeffs_length; lia). fold (cf j a).
        change (xpow 0 a) with a.
        assert (forall i, xpow i (rotX a) = xpow (S i) a) as HS.
        { intros i. induction i as [|i IHi]; [reflexivity|]. change (rotX (xpow i (rotX a)) = rotX (xpow (S i) a)). rewrite IHi. auto. }
        rewrite (sumn_ext (length b) (fun i => nth i b 0 * embFK (cf j (xpow i (rotX a))))
                    (fun i => nth i b 0 * embFK (cf j (xpow (S i) a)))) by (intros; rewrite HS; auto).
        ring. }
    rewrite zipl_length. auto.
Qed.
Lemma rot_sum_ok a b : length b = dimC -> exists out, rot_sum a b = Ok out /\ length out = dimC /\
  forall j, (j < dimC)%nat -> nth j out 0 = sumn dimC (fun i => nth i b 0 * embFK (cf j (xpow i a))).
Proof.
  intros Hb. unfold rot_sum. rewrite Hb, Nat.eqb_refl. cbn [negb]. eexists. split; [reflexivity|].
  assert (length (repeat (0 : K) dimC) = dimC) as Hr by apply repeat_length.
  pose proof dimN_pos. pose proof tau_pos.
  split.
  - apply (rot_sum_loop_spec b a _ 0 Hr). unfold dimC. nia.
  - intros j Hj. destruct (rot_sum_loop_spec b a _ j Hr Hj) as [_ ->]. rewrite nth_repeat, Hb. ring.
Qed.
(** For every way of writing the vector [b] as a K-combination of coefficient vectors of ring
    elements [c_m], the output is the same combination of the coefficient vectors of a*c_m. *)
Theorem rot_sum_spec a b n (e : nat -> K) (c : nat -> C) :
  b = map (fun i => sumn n (fun m => e m * embFK (cf i (c m)))) (seq 0 dimC) ->
  rot_sum a b = Ok (map (fun j => sumn n (fun m => e m * embFK (cf j (a * c m)))) (seq 0 dimC)).
Proof.
  intros Hb. assert (length b = dimC) as Hl by (rewrite Hb, map_length, seq_length; auto).
  destruct (rot_sum_ok a b Hl) as (out & -> & Hlen & Hout). f_equal.
  apply (list_ext 0); [rewrite map_length, seq_length; auto|]. intros j Hj. rewrite Hlen in Hj.
  rewrite Hout, nth_seq_map by auto. rewrite Hb.
  transitivity (sumn dimC (fun i => sumn n (fun m => e m * embFK (cf i (c m) * cf j (xpow i a))))).
  - apply sumn_ext. intros i Hi. rewrite nth_seq_map by auto. rewrite <- sumn_mul_r.
    apply sumn_ext. intros m Hm. rewrite (hom_mul _ embFK_hom). ring.
  - rewrite sumn_swap. apply sumn_ext. intros m Hm. rewrite cf_mul, (hom_sumn _ embFK_hom).
    rewrite <- sumn_mul_l. auto.
Qed.
Theorem rot_sum_abort a b : rot_sum a b = Panic <-> length b <> dimC.
Proof.
  unfold rot_sum. destruct (Nat.eqb_spec (length b) dimC); cbn [negb]; split; auto; try discriminate. contradiction.
Qed.

Lemma flatten_nth (v : list R) t s : (t < length v)%nat -> (s < dimN)%nat ->
  nth (t * dimN + s) (flatten_to_coeffs v) 0 = sl s (nth t v 0).
Proof.
  intros Ht Hs. unfold flatten_to_coeffs. rewrite flat_map_concat_map.
  rewrite nth_concat_const; rewrite ?map_length; auto using dimN_pos.
  - rewrite (nth_map_lt _ _ _ 0) by auto. auto.
  - intros c Hc. apply in_map_iff in Hc as (x & <- & _). apply slots_length.
Qed.
Lemma flatten_length (v : list R) : length (flatten_to_coeffs v) = (length v * dimN)%nat.
Proof.
  unfold flatten_to_coeffs. rewrite flat_map_concat_map, (concat_length_const dimN), map_length; auto.
  intros c Hc. apply in_map_iff in Hc as (x & <- & _). apply slots_length.
Qed.
Lemma promote_ok l t : length l = (t * dimN)%nat -> exists v : list R, promote_from_coeffs l = Some v /\
  length v = t /\ forall i s, (i < t)%nat -> (s < dimN)%nat -> sl s (nth i v 0) = nth (i * dimN + s) l 0.
Proof.
  intros Hl. pose proof dimN_pos as HN. unfold promote_from_coeffs.
  rewrite Hl, Nat.mod_mul by lia. cbn [Nat.eqb]. eexists. split; [reflexivity|].
  assert (length (chunks dimN l) = t) as Hc by (apply chunks_length; auto).
  rewrite map_length. split; auto. intros i s Hi Hs.
  rewrite (nth_map_lt _ _ _ []) by lia.
  rewrite sl_of_slots by (eapply chunks_in_length; eauto; apply nth_In; lia).
  rewrite <- (chunks_concat dimN l HN) at 2.
  rewrite nth_concat_const; auto; [|lia]. intros. eapply chunks_in_length; eauto.
Qed.

Lemma rot_lin_fold rts acc : length acc = dimC ->
  (forall rt, In rt rts -> length (snd rt) = tau) ->
  exists out, fold_left (fun acc (rt : C * list R) =>
        do res <- acc;
        do sum <- rot_sum (fst rt) (flatten_to_coeffs (snd rt));
        if (length res <? length sum)%nat then Panic else Ok (zipl radd res sum)) rts (Ok acc) = Ok out /\
   length out = dimC /\
   forall j, (j < dimC)%nat -> nth j out 0 = nth j acc 0 + lsum (map (fun rt : C * list R =>
      sumn dimC (fun i => nth i (flatten_to_coeffs (snd rt)) 0 * embFK (cf j (xpow i (fst rt))))) rts).
Proof.
  revert acc; induction rts as [|[r th] rts IH]; intros acc Hacc Hin; cbn [fold_left].
  - exists acc. repeat split; auto. intros. simpl. ring.
  - cbn [bind fst snd]. assert (length th = tau) as Hth by (apply (Hin (r, th)); left; auto).
    destruct (rot_sum_ok r (flatten_to_coeffs th)) as (sm & -> & Hsl & Hsm).
    { rewrite flatten_length, Hth. unfold dimC. lia. }
    cbn [bind]. destruct (Nat.ltb_spec (length acc) (length sm)); [lia|].
    destruct (IH (zipl radd acc sm)) as (out & Ho & Hol & Hon).
    { rewrite zipl_length. auto. } { intros; apply Hin; right; auto. }
    exists out. split; [exact Ho|]. split; auto. intros j Hj. rewrite Hon by auto.
    rewrite (nth_zipl _ _ _ _ 0 0) by lia. rewrite Hsm by auto. cbn [map lsum fold_right fst snd].
    unfold lsum. ring.
Qed.
Theorem rot_lin_combination_ok rhos thetas :
  length rhos = length thetas -> thetas <> [] -> (forall th, In th thetas -> length th = tau) ->
  exists v, rot_lin_combination rhos thetas = Ok v /\ length v = tau /\
    forall t s, (t < tau)%nat -> (s < dimN)%nat ->
      sl s (nth t v 0) = sumn (length rhos) (fun m =>
         sumn dimC (fun i => nth i (flatten_to_coeffs (nth m thetas [])) 0 *
                             embFK (cf (t * dimN + s) (xpow i (nth m rhos 0))))).
Proof.
  intros Hl Hne Hth. unfold rot_lin_combination. rewrite Hl, Nat.eqb_refl. cbn [negb].
  destruct thetas as [|th0 thetas']; [contradiction|]. set (thetas := th0 :: thetas') in *.
  destruct (rot_lin_fold (combine rhos thetas) (flatten_to_coeffs (repeat 0 (length th0)))) as (out & -> & Hol & Hon).
  { rewrite flatten_length, repeat_length. rewrite (Hth th0) by (left; auto). unfold dimC. lia. }
  { intros [r th] Hin. apply in_combine_r in Hin. cbn [snd]. auto. }
  cbn [bind]. destruct (promote_ok out tau) as (v & -> & Hvl & Hv).
  { rewrite Hol. unfold dimC. lia. }
  exists v. split; [reflexivity|]. split; auto. intros t s Ht Hs.
  pose proof dimN_pos as HN.
  assert (t * dimN + s < dimC)%nat as Hj by (unfold dimC; nia).
  rewrite Hv, Hon by auto.
  rewrite flatten_nth by (auto; rewrite repeat_length, (Hth th0) by (left; auto); auto).
  rewrite nth_repeat, sl_0, lsum_nth, map_length, combine_length, <- Hl, Nat.min_id.
  rewrite radd_0_l. apply sumn_ext. intros m Hm.
  rewrite (nth_map_lt _ _ _ (0, [])) by (rewrite combine_length, <- Hl, Nat.min_id; auto).
  rewrite combine_nth by auto. cbn [fst snd]. auto.
Qed.
End S.
