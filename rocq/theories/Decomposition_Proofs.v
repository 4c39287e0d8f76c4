(** Completeness and soundness of the decomposition step. *)
From Coq Require Import String List Arith Lia ZArith Bool Ring.
From Verif Require Import Prelude Alg MLE MLE_Proofs Transcript Arith Arith_Proofs Balanced Rings Rings_Proofs
  Linearization Linearization_Proofs Relations LinRel Decomposition.
Import ListNotations.
Local Open Scope rs_scope.

(** ** Lists *)
Lemma removelast_length {A} (l : list A) : length (removelast l) = (length l - 1)%nat.
Proof.
  induction l as [|a l IH]; auto. destruct l as [|b l]; auto.
  change (removelast (a :: b :: l)) with (a :: removelast (b :: l)). cbn [length] in *. lia.
Qed.
Lemma combine_map_seq {A B} (f : nat -> A) (g : nat -> B) l :
  combine (map f l) (map g l) = map (fun i => (f i, g i)) l.
Proof. induction l as [|a l IH]; cbn [map combine]; f_equal; auto. Qed.
Lemma mapM_map {A B C} (f : B -> result C) (g : A -> B) l : mapM f (map g l) = mapM (fun a => f (g a)) l.
Proof. induction l as [|a l IH]; cbn [map mapM]; auto. rewrite IH. auto. Qed.
Lemma map_nth_seq {A} (l : list A) d n : length l = n -> l = map (fun i => nth i l d) (seq 0 n).
Proof. intros <-. symmetry. apply map_seq_nth. Qed.
Lemma fold_left_rev {A B} (f : A -> B -> A) l a : fold_left f (rev l) a = fold_right (fun y x => f x y) a l.
Proof. rewrite <- fold_left_rev_right, rev_involutive. auto. Qed.
Lemma index_ok_inv {A} (l : list A) i x d : index l i = Ok x -> (i < length l)%nat /\ x = nth i l d.
Proof.
  unfold index, of_option. destruct (nth_error l i) eqn:E; [|discriminate]. intros [= <-]. split.
  - apply nth_error_Some. congruence.
  - symmetry. apply nth_error_nth. auto.
Qed.
Lemma index_ge {A} (l : list A) i : (length l <= i)%nat -> index l i = Panic.
Proof. intros H. unfold index. apply nth_error_None in H. rewrite H. auto. Qed.

Lemma ok_inj {A} (a b : A) : Ok a = Ok b -> a = b.
Proof. congruence. Qed.

(** ** Linear combinations through homomorphisms *)
Section H.
Context {A B : Type} {AO : RingOps A} {BO : RingOps B} {LA : RingLaws A} {LB : RingLaws B}.
Lemma is_lin_hom (f : A -> B) (Hf : ring_hom f) n c vs v : is_lin n c vs v ->
  is_lin n (fun i => f (c i)) (fun i => map f (vs i)) (map f v).
Proof.
  intros [H1 H2]. split.
  - intros. rewrite !map_length. auto.
  - intros j. rewrite <- (hom_0 _ Hf). rewrite (map_nth f). rewrite H2, (hom_sumn f Hf).
    apply sumn_ext. intros i Hi. rewrite (hom_mul _ Hf). rewrite (map_nth f). auto.
Qed.
End H.

(** ** The recomposition functions of the verifier *)
Section Rec.
Context {R : Type} {RO : RingOps R} {LR : RingLaws R}.
Add Ring Rring15 : (@rlaws_th R RO LR).

Lemma rec_fold j sb acc :
  fold_left (fun acc (sb : list R * R) => do acc <- acc; do x <- index (fst sb) j; Ok (acc + x * snd sb)) sb (Ok acc) =
  if forallb (fun s => j <? length (fst s))%nat sb
  then Ok (acc + sumn (length sb) (fun i => snd (nth i sb ([], 0)) * nth j (fst (nth i sb ([], 0))) 0)) else Panic.
Proof.
  revert acc; induction sb as [|[s b] sb IH]; intros acc; cbn [fold_left forallb].
  - cbn [length sumn]. f_equal. ring.
  - cbn [bind fst snd]. destruct (Nat.ltb_spec j (length s)) as [Hj|Hj].
    + rewrite (index_ok _ _ 0) by auto. cbn [bind andb]. rewrite IH.
      destruct (forallb _ sb); auto. f_equal. cbn [length]. rewrite sumn_S_first. cbn [nth fst snd]. ring.
    + rewrite index_ge by auto. cbn [bind andb]. clear. induction sb as [|x sb IH]; auto.
Qed.
Lemma nth_combine_lt {X Y} (l : list X) (m : list Y) i dx dy : (i < length l)%nat -> (i < length m)%nat ->
  nth i (combine l m) (dx, dy) = (nth i l dx, nth i m dy).
Proof.
  revert m i; induction l as [|a l IH]; intros [|b m] [|i] H1 H2; cbn in *; try lia; auto. apply IH; lia.
Qed.
(** What an accepted recomposition says. *)
Lemma recompose_vecs_inv s b v : recompose_vecs s b = Ok v ->
  length v = length (nth 0 s []) /\
  forall j, (j < length v)%nat ->
    (forall i, (i < length s)%nat -> (i < length b)%nat -> (j < length (nth i s []))%nat) /\
    nth j v 0 = sumn (Nat.min (length s) (length b)) (fun i => nth i b 0 * nth j (nth i s []) 0).
Proof.
  unfold recompose_vecs. destruct s as [|s0 s']; [discriminate|]. set (s := s0 :: s') in *. intros H.
  pose proof (mapM_length _ _ _ H) as Hl. rewrite seq_length in Hl. split; [auto|].
  apply mapM_inv in H. apply (Forall2_nth _ _ _ 0%nat 0) in H as [_ H]. rewrite seq_length in H.
  intros j Hj. rewrite Hl in Hj. specialize (H j Hj). rewrite seq_nth in H by auto. cbn [Nat.add] in H.
  rewrite rec_fold in H. destruct (forallb _ _) eqn:E; [|discriminate]. apply ok_inj in H.
  rewrite combine_length in H. split.
  - intros i H1 H2. rewrite forallb_forall in E. specialize (E (nth i s [], nth i b 0)).
    apply Nat.ltb_lt. apply E. rewrite <- (nth_combine_lt s b i [] 0) by auto. apply nth_In.
    rewrite combine_length. lia.
  - rewrite <- H. rewrite radd_0_l. apply sumn_ext. intros i Hi.
    rewrite nth_combine_lt by lia. auto.
Qed.
Lemma recompose_vecs_ok s b v : s <> [] -> length s = length b ->
  is_lin (length s) (fun i => nth i b 0) (fun i => nth i s []) v -> recompose_vecs s b = Ok v.
Proof.
  intros Hs Hl [H1 H2]. unfold recompose_vecs. destruct s as [|s0 s']; [contradiction|]. set (s := s0 :: s') in *.
  assert (length s0 = length v) as H0 by (apply (H1 0%nat); cbn; lia).
  rewrite (mapM_ok _ (fun j => nth j v 0)).
  - rewrite H0, map_seq_nth. auto.
  - intros j Hj. apply in_seq in Hj. rewrite rec_fold.
    replace (forallb _ _) with true.
    + f_equal. rewrite radd_0_l, H2, combine_length, <- Hl, Nat.min_id. apply sumn_ext. intros i Hi.
      rewrite nth_combine_lt by lia. auto.
    + symmetry. apply forallb_forall. intros [si bi] Hin. cbn [fst]. apply Nat.ltb_lt.
      apply in_combine_l in Hin. apply In_nth with (d := []) in Hin as (i & Hi & <-). rewrite H1; auto. lia.
Qed.
Lemma fold_cm_add ys y0 j : (forall y, In y ys -> length y = length y0) ->
  nth j (fold_left cm_add ys y0) 0 = nth j y0 0 + sumn (length ys) (fun i => nth j (nth i ys []) 0) /\
  length (fold_left cm_add ys y0 : list R) = length y0.
Proof.
  revert y0; induction ys as [|y ys IH]; intros y0 H; cbn [fold_left].
  - cbn [length sumn]. split; auto. ring.
  - destruct (IH (cm_add y0 y)) as [H1 H2].
    { intros z Hz. rewrite cm_add_length. apply H. right; auto. }
    rewrite H2, cm_add_length. split; auto. rewrite H1.
    rewrite cm_add_ext by (symmetry; apply H; left; auto). cbn [length]. rewrite sumn_S_first. cbn [nth]. ring.
Qed.
Lemma recompose_commitment_lin ys b k : ys <> [] -> length ys = length b -> (forall y, In y ys -> length y = k) ->
  exists y, recompose_commitment ys b = Ok y /\ length y = k /\
    is_lin (length ys) (fun i => nth i b 0) (fun i => nth i ys []) y.
Proof.
  intros Hn Hl Hk. unfold recompose_commitment. destruct ys as [|y0 ys]; [contradiction|].
  destruct b as [|b0 b]; [discriminate|]. cbn [length] in Hl. cbn [zipw].
  assert (length y0 = k) as H0 by (apply Hk; left; auto).
  assert (forall y, In y (zipw (fun y bi => cm_scale y bi) ys b) -> length y = length (cm_scale y0 b0)) as Hz.
  { intros y Hin. rewrite cm_scale_length. apply In_nth with (d := []) in Hin as (i & Hi & <-).
    rewrite zipw_length in Hi. rewrite (nth_zipw _ _ _ _ [] 0) by lia. rewrite cm_scale_length, H0.
    apply Hk. right. apply nth_In. lia. }
  eexists. split; [reflexivity|]. pose proof (fold_cm_add _ _ 0 Hz) as [_ HL]. rewrite HL, cm_scale_length.
  split; auto. split.
  - intros i Hi. rewrite HL, cm_scale_length, H0. apply Hk. apply nth_In. auto.
  - intros j. rewrite (proj1 (fold_cm_add _ _ j Hz)), cm_scale_nth. cbn [length]. rewrite sumn_S_first. cbn [nth].
    rewrite zipw_length, Nat.min_l by lia. f_equal; [ring|]. apply sumn_ext. intros i Hi.
    rewrite (nth_zipw _ _ _ _ [] 0) by lia. rewrite cm_scale_nth. ring.
Qed.
(** Horner evaluation of the commitments in [commit_witnesses]. *)
Lemma horner_sum (b : R) ys k j : (forall y, In y ys -> length y = k) ->
  let s := fold_left (fun acc y => cm_scale (cm_add acc y) b) (rev ys) (cm_zeroed k) in
  length s = k /\ nth j s 0 = sumn (length ys) (fun i => rpow b (S i) * nth j (nth i ys []) 0).
Proof.
  intros H. cbn zeta. rewrite fold_left_rev. induction ys as [|y ys IH]; cbn [fold_right].
  - unfold cm_zeroed. rewrite repeat_length. split; auto. cbn [length sumn]. apply nth_repeat.
  - destruct IH as [I1 I2]. { intros; apply H; right; auto. }
    rewrite cm_scale_length, cm_add_length. split; auto.
    rewrite cm_scale_nth, cm_add_ext by (rewrite I1; symmetry; apply H; left; auto).
    rewrite I2. cbn [length]. rewrite sumn_S_first. cbn [nth].
    rewrite (sumn_ext _ (fun i => rpow b (S (S i)) * nth j (nth i ys []) 0)
                        (fun i => rpow b (S i) * nth j (nth i ys []) 0 * b)).
    + rewrite sumn_mul_r, rpow_1. ring.
    + intros i Hi. cbn [rpow]. ring.
Qed.
End Rec.

Section D.
Context {F K C R T : Type} {SO : SOps F K C R} {p : Z} {SL : SLaws F K C R p} {TO : TransOps T R K}.
Add Ring Cring16 : (@rlaws_th C _ _).
Add Ring Rring16 : (@rlaws_th R _ _).

(** Weight of the i-th component. *)
Definition bw {A} {AO : RingOps A} (P : dparams) (i : nat) : A := rofZ (Z.of_nat (dp_b P) ^ Z.of_nat i).
(** The i-th balanced digit. *)
Definition digit (P : dparams) (i : nat) (c : C) : C := nth i (decompose_c (Z.of_nat (dp_b P)) (dp_K P) c) 0.
(** Coefficients that K balanced digits in base b can represent. *)
Definition in_range (P : dparams) (c : C) : Prop :=
  forall j, (Z.abs (signed (cf j c)) <= reach (dp_K P) (Z.of_nat (dp_b P)))%Z.

Lemma calculate_b_s_length P : length (calculate_b_s P : list R) = dp_K P.
Proof. unfold calculate_b_s. rewrite map_length, seq_length. auto. Qed.
Lemma nth_calculate_b_s P i : (i < dp_K P)%nat -> nth i (calculate_b_s P) 0 = (bw P i : R).
Proof. intros. unfold calculate_b_s. rewrite nth_seq_map by auto. auto. Qed.

Lemma decompose_B_vec_map P x : x <> [] ->
  decompose_B_vec P x = map (fun i => map (digit P i) x) (seq 0 (dp_K P)).
Proof.
  intros Hx. unfold decompose_B_vec, transpose_k, transpose, column, digit. destruct x as [|c x]; [contradiction|].
  cbn [map]. apply map_ext. intros i. rewrite map_map. auto.
Qed.
Lemma digit_exact P c : (2 <= dp_b P)%nat -> in_range P c ->
  c = sumn (dp_K P) (fun i => bw P i * digit P i c).
Proof.
  intros Hb Hr. rewrite <- (decompose_c_exact (Z.of_nat (dp_b P)) (dp_K P) c) at 1 by (auto; lia).
  rewrite (recompose_nth (dp_K P)) by (rewrite decompose_c_length; auto).
  apply sumn_ext. intros i Hi. unfold bw, digit. rewrite rofZ_pow. ring.
Qed.
Lemma is_lin_digits P x : (2 <= dp_b P)%nat -> Forall (in_range P) x ->
  is_lin (dp_K P) (bw P) (fun i => map (digit P i) x) x.
Proof.
  intros Hb Hx. apply is_lin_intro.
  - intros. apply map_length.
  - intros j Hj. rewrite Forall_forall in Hx.
    rewrite (digit_exact P (nth j x 0)) at 1 by (auto; apply Hx; apply nth_In; auto).
    apply sumn_ext. intros i Hi. rewrite (nth_map_lt _ _ _ 0) by auto. auto.
Qed.
Lemma bw_hom {A B} {AO : RingOps A} {BO : RingOps B} {LA : RingLaws A} {LB : RingLaws B} (f : A -> B)
  (Hf : ring_hom f) P i : f (bw P i) = bw P i.
Proof. apply (hom_ofZ f Hf). Qed.
Lemma is_lin_coef {A} {AO : RingOps A} {LA : RingLaws A} n (c c' : nat -> A) vs v :
  (forall i, (i < n)%nat -> c i = c' i) -> is_lin n c vs v -> is_lin n c' vs v.
Proof.
  intros H [H1 H2]. split; auto. intros j. rewrite H2. apply sumn_ext. intros i Hi. rewrite H; auto.
Qed.
Lemma is_lin_crt P x : (2 <= dp_b P)%nat -> Forall (in_range P) x ->
  is_lin (dp_K P) (bw P) (fun i => map crt (map (digit P i) x)) (map crt x : list R).
Proof.
  intros Hb Hx. eapply is_lin_coef; [|apply (is_lin_hom crt crt_hom _ (bw P) (fun i => map (digit P i) x)); apply is_lin_digits; auto].
  intros. cbn beta. apply (bw_hom _ crt_hom).
Qed.

(** ** Evaluations of linear combinations with integer weights *)
Lemma is_lin_v n (z : nat -> Z) (fs : nat -> list C) f r :
  is_lin n (fun i => rofZ (z i)) fs f ->
  is_lin n (fun i => rofZ (z i))
    (fun i => map (fun j => mle_spec (fun b => hat j (nth b (fs i) 0)) r) (seq 0 tau))
    (map (fun j => mle_spec (fun b => hat j (nth b f 0)) r) (seq 0 tau) : list R).
Proof.
  intros [H1 H2]. apply is_lin_map. intros j Hj.
  rewrite (mle_spec_ext _ (fun b => sumn n (fun i => rofZ (z i) * hat j (nth b (fs i) 0)))).
  - rewrite (mle_spec_sumn n (fun i b => rofZ (z i) * hat j (nth b (fs i) 0))).
    apply sumn_ext. intros. apply mle_spec_scale.
  - intros b Hb. rewrite H2, hat_sumn. apply sumn_ext. intros. apply hat_ofZ.
Qed.

(** ** The public input *)
Lemma gadget_in_range P v : (2 <= dp_b P)%nat -> (2 <= dp_B P)%Z -> (dp_B P <= Z.of_nat (dp_b P) ^ Z.of_nat (dp_K P))%Z ->
  Forall (in_range P) (gadget_decompose (dp_B P) (dp_L P) v).
Proof.
  intros Hb2 HB Hb. apply Forall_forall. intros c Hc j. unfold gadget_decompose in Hc.
  apply in_flat_map in Hc as (y & _ & Hy). pose proof (decompose_c_short _ _ _ _ HB Hy j).
  pose proof (Z.mul_div_le (dp_B P) 2). apply pow_reach; lia.
Qed.
Definition xdig (P : dparams) (x : list R) (i : nat) : list R :=
  gadget_recompose (dp_B P) (dp_L P) (map crt (map (digit P i) (gadget_decompose (dp_B P) (dp_L P) (map icrt x)))).
Lemma decompose_big_vec_map P x : (1 <= dp_L P)%nat -> x <> [] ->
  decompose_big_vec P x = map (xdig P x) (seq 0 (dp_K P)).
Proof.
  intros HL Hx. unfold decompose_big_vec. rewrite decompose_B_vec_map.
  - rewrite map_map. apply map_ext. intros i. unfold xdig, gadget_recompose.
    rewrite (chunks_map crt), map_map. apply map_ext. intros ch.
    rewrite (hom_recompose crt crt_hom). rewrite (hom_ofZ crt crt_hom). auto.
  - intros E. apply (f_equal (@length C)) in E. rewrite gadget_decompose_length, map_length in E. destruct x; [contradiction|].
    cbn [length] in E. nia.
Qed.
Lemma xdig_lin P x : (2 <= dp_b P)%nat -> covers (p := p) P ->
  (dp_B P <= Z.of_nat (dp_b P) ^ Z.of_nat (dp_K P))%Z -> is_lin (dp_K P) (bw P) (xdig P x) x.
Proof.
  intros Hb (HB & HL & Hp) HBb.
  rewrite <- (gadget_roundtrip (dp_B P) (dp_L P) x) by auto.
  eapply is_lin_ext; [|apply is_lin_gadget; [auto|apply is_lin_crt; [auto|apply gadget_in_range; auto]]].
  intros i Hi. unfold xdig. rewrite gadget_roundtrip by auto. auto.
Qed.

(** ** The loop over the components *)
Lemma dec_absorb_ok r ts (l : list (list R * list R * list R * list R)) :
  Forall (fun q => fst (fst (fst q)) <> []) l ->
  exists ts', dec_absorb r ts l =
    Ok (map (fun '(x, y, u, v) => Lcccs r v y u (removelast x) (last x 0)) l, ts').
Proof.
  revert ts; induction l as [|[[[x y] u] v] l IH]; intros ts H; cbn [dec_absorb map]; [eauto|].
  inversion H as [|? ? Hx Hl]; subst. cbn [fst] in Hx.
  assert (last_opt x = Some (last x 0)) as ->.
  { destruct (last_opt x) as [h|] eqn:E; [|apply last_opt_None in E; contradiction].
    f_equal. apply last_opt_Some in E. rewrite E, last_last. auto. }
  cbn [of_option bind]. destruct (IH (absorb_slice (absorb_slice (absorb_slice (absorb_slice ts x) y) u) v) Hl) as [ts' ->].
  cbn [bind fst snd]. eauto.
Qed.
Lemma dec_absorb_inv r ts l lcs ts' : dec_absorb r ts l = Ok (lcs, ts') ->
  lcs = map (fun '(x, y, u, v) => Lcccs r v y u (removelast x) (last x 0)) l /\
  Forall (fun q => fst (fst (fst q)) <> []) l.
Proof.
  revert ts lcs ts'; induction l as [|[[[x y] u] v] l IH]; intros ts lcs ts' H; cbn [dec_absorb map] in *.
  - injection H as <- <-. auto.
  - destruct (last_opt x) as [h|] eqn:E; [|discriminate]. cbn [of_option bind] in H.
    destruct (dec_absorb r _ l) as [[lcs0 ts0]| |] eqn:El; cbn [bind fst snd] in H; try discriminate.
    injection H as <- <-. apply IH in El as [-> Hl]. pose proof (last_opt_Some _ _ E) as Ex. split.
    + f_equal. f_equal. rewrite Ex, last_last. auto.
    + constructor; auto. cbn [fst]. rewrite Ex. destruct (removelast x); discriminate.
Qed.
Lemma app_removelast_last' (x : list R) : x <> [] -> x = removelast x ++ [last x 0].
Proof. apply app_removelast_last. Qed.

(** ** Completeness (C22) *)
Definition dw (P : dparams) (w : witness C R) (i : nat) : witness C R :=
  wit_from_f_coeff P (map (digit P i) (w_fc w)).
Definition dlc (P : dparams) (lc : lcccs R) (w : witness C R) (cs : ccs R) (Y : nat -> list R) (i : nat) : lcccs R :=
  let x := xdig P (lc_x lc ++ [lc_h lc]) i in
  Lcccs (lc_r lc)
        (map (fun j => mle_spec (fun b => hat j (nth b (map (digit P i) (w_fc w)) 0)) (lc_r lc)) (seq 0 tau))
        (Y i)
        (map (fun M => mle_spec (mz M (x ++ w_ccs (dw P w i))) (lc_r lc)) (c_M cs))
        (removelast x) (last x 0).

Theorem decomposition_complete (P : dparams) (A : ajtai R) (cs : ccs R) (lc : lcccs R) (w : witness C R) (ts : T) :
  sizes_ok p P cs -> lcccs_rel P A cs lc w -> Forall (in_range P) (w_fc w) ->
  exists mzs lcs wits pf ts',
    dec_prove P lc w ts cs A = Ok (mzs, lcs, wits, pf, ts') /\
    dec_verify P lc pf ts = Ok (lcs, ts') /\
    length lcs = dp_K P /\ length wits = dp_K P /\
    Forall2 (lcccs_rel P A cs) lcs wits /\
    Forall (wit_norm (Z.of_nat (dp_b P) / 2)) wits /\
    Forall (fun lc' => lc_r lc' = lc_r lc) lcs /\
    mzs = zipw (fun lc' w' => map (Mz_mle (c_s cs) (lcccs_z lc' (w_ccs w'))) (c_M cs)) lcs wits /\
    (length (dp_us pf) = dp_K P /\ length (dp_vs pf) = dp_K P /\ length (dp_xs pf) = dp_K P /\ length (dp_ys pf) = dp_K P).
Proof.
  intros Hs Hr Hin. pose proof (so_b _ _ _ Hs) as Hb. pose proof (so_K _ _ _ Hs) as HK.
  pose proof (so_cov _ _ _ Hs) as Hcov. pose proof (so_Bb _ _ _ Hs) as HBb.
  pose proof Hcov as (HB & HL & Hp). pose proof (so_n _ _ _ Hs) as Hn.
  destruct (opens_w_len P A cs (lc_cm lc) w HL (lr_open _ _ _ _ _ Hr)) as [Hwl Hfl].
  destruct (lr_open _ _ _ _ _ Hr) as [(Hf & Hfc & Hfh & Hcc) Hlf Hcm].
  pose proof (lr_r _ _ _ _ _ Hr) as Hlr. pose proof (lr_x _ _ _ _ _ Hr) as Hlx.
  assert (w_fc w <> []) as Hne. { intros E. rewrite E in Hfl. cbn in Hfl. nia. }
  set (xh := lc_x lc ++ [lc_h lc]).
  assert (length xh = (c_l cs + 1)%nat) as Hxh. { unfold xh. rewrite app_length. cbn [length]. lia. }
  assert (xh <> []) as Hxne. { unfold xh. destruct (lc_x lc); discriminate. }
  pose proof (xdig_lin P xh Hb Hcov HBb) as HX.
  assert (length (w_f w) = a_ncols A) as Hcols.
  { unfold commit in Hcm. destruct (Nat.eqb_spec (length (w_f w)) (a_ncols A)); auto. discriminate. }
  (* the component commitments *)
  set (Y := fun i => map (fun row => lsum (zipw rmul row (w_f (dw P w i)))) (a_rows A)).
  assert (forall i, commit A (w_f (dw P w i)) = Ok (Y i)) as HY.
  { intros i. apply commit_ok. unfold dw, wit_from_f_coeff. cbn [w_f]. rewrite !map_length. congruence. }
  assert (is_lin (dp_K P) (bw P) (fun i => w_f (dw P w i)) (w_f w)) as HF.
  { rewrite Hf. apply is_lin_crt; auto. }
  destruct (is_lin_commit _ _ _ _ A Y HF Hcols) as (cm & Hcm1 & Hcmk & HYlin). { auto. }
  assert (cm = lc_cm lc) by congruence. subst cm.
  assert (is_lin (dp_K P) (bw P) (fun i => w_ccs (dw P w i)) (w_ccs w)) as HW.
  { rewrite Hcc. apply is_lin_gadget; auto. }
  assert (forall i, (i < dp_K P)%nat -> length (xdig P xh i) = (c_l cs + 1)%nat) as HXl.
  { intros i Hi. rewrite (proj1 HX) by auto. auto. }
  assert (forall i, (i < dp_K P)%nat -> xdig P xh i <> []) as HXne.
  { intros i Hi E. specialize (HXl i Hi). rewrite E in HXl. cbn in HXl. lia. }
  (* relation of each component *)
  set (L := dlc P lc w cs Y).
  assert (forall i, (i < dp_K P)%nat -> lcccs_z (L i) (w_ccs (dw P w i)) = xdig P xh i ++ w_ccs (dw P w i)) as HZ.
  { intros i Hi. unfold lcccs_z, L, dlc. cbn [lc_x lc_h]. fold xh.
    rewrite (app_removelast_last' (xdig P xh i)) at 3 by auto. rewrite <- app_assoc. auto. }
  assert (forall i, (i < dp_K P)%nat -> lcccs_rel P A cs (L i) (dw P w i)) as HR.
  { intros i Hi. split.
    - split.
      + apply from_f_coeff_consistent.
      + unfold dw, wit_from_f_coeff. cbn [w_f]. rewrite !map_length. auto.
      + apply HY.
    - auto.
    - unfold L, dlc. cbn [lc_x]. rewrite removelast_length. fold xh. rewrite HXl by auto. lia.
    - reflexivity.
    - unfold L at 1, dlc at 1. cbn [lc_u]. apply map_ext. intros M.
      fold (lcccs_z (L i) (w_ccs (dw P w i))). rewrite HZ by auto. auto. }
  (* prover *)
  set (wits := map (dw P w) (seq 0 (dp_K P))).
  assert (decompose_witness P w = wits) as E1.
  { unfold decompose_witness. rewrite decompose_B_vec_map, map_map by auto. auto. }
  assert (compute_x_s P (lc_x lc) (lc_h lc) = map (xdig P xh) (seq 0 (dp_K P))) as E2.
  { unfold compute_x_s. apply decompose_big_vec_map; auto. }
  assert (commit_witnesses P wits A lc = Ok (map Y (seq 0 (dp_K P)))) as E3.
  { unfold commit_witnesses, wits. destruct (dp_K P) as [|k] eqn:EK; [lia|]. cbn [seq map].
    rewrite mapM_map. rewrite (mapM_ok _ Y) by (intros; apply HY). cbn [bind].
    assert (forall y, In y (map Y (seq 1 k)) -> length y = kappa A) as HYk.
    { intros y Hy. apply in_map_iff in Hy as (i & <- & _). unfold Y. rewrite map_length. auto. }
    do 2 f_equal. destruct (horner_sum (rofZ (Z.of_nat (dp_b P))) _ _ 0 HYk) as [Hsl _].
    apply (list_ext 0).
    - rewrite cm_sub_length, Hcmk. unfold Y. rewrite map_length. auto.
    - intros j Hj. rewrite cm_sub_nth by (rewrite Hsl; auto).
      rewrite (proj2 (horner_sum (rofZ (Z.of_nat (dp_b P))) _ _ j HYk)). rewrite map_length, seq_length.
      rewrite (proj2 HYlin j), sumn_S_first.
      rewrite (sumn_ext k (fun i => rpow (rofZ (Z.of_nat (dp_b P))) (S i) * nth j (nth i (map Y (seq 1 k)) []) 0)
                          (fun i => bw P (S i) * nth j (Y (S i)) 0)).
      + unfold bw at 1. change (Z.of_nat (dp_b P) ^ Z.of_nat 0)%Z with 1%Z. rewrite rofZ_1. ring.
      + intros i Hi. unfold bw. rewrite rofZ_pow. do 2 f_equal.
        rewrite (nth_map_lt _ _ _ 0%nat) by (rewrite seq_length; auto). rewrite seq_nth by auto. auto. }
  assert (compute_v_s wits (lc_r lc) = Ok (map (fun i => lc_v (L i)) (seq 0 (dp_K P)))) as E4.
  { unfold compute_v_s, wits. rewrite mapM_map. apply mapM_ok. intros i _.
    rewrite evaluate_mles_ok.
    - f_equal. rewrite (fhat_eval P) by apply from_f_coeff_consistent. reflexivity.
    - rewrite Hlr. unfold dw, wit_from_f_coeff. cbn [w_fhat]. apply (sizes_fhat_nv (p := p) P); auto.
      rewrite map_length. auto. }
  assert (compute_mz_mles wits (c_M cs) (map (xdig P xh) (seq 0 (dp_K P))) (c_s cs) =
    Ok (map (fun i => map (Mz_mle (c_s cs) (lcccs_z (L i) (w_ccs (dw P w i)))) (c_M cs)) (seq 0 (dp_K P)))) as E5.
  { unfold compute_mz_mles. replace (length wits) with (dp_K P) by (unfold wits; rewrite map_length, seq_length; auto).
    replace (combine (seq 0 (dp_K P)) wits) with (map (fun i => (i, dw P w i)) (seq 0 (dp_K P))).
    2:{ unfold wits. rewrite <- (map_id (seq 0 (dp_K P))) at 2. rewrite combine_map_seq. auto. }
    rewrite mapM_map. apply mapM_ok. intros i Hi. apply in_seq in Hi. cbn [fst snd].
    rewrite (index_ok _ _ []) by (rewrite map_length, seq_length; lia). rewrite nth_seq_map by lia. cbn [bind].
    change (to_mles_err (c_s cs) (map (fun m => mat_vec_mul m (xdig P xh i ++ w_ccs (dw P w i))) (c_M cs)))
      with (calculate_Mz_mles cs (xdig P xh i ++ w_ccs (dw P w i))).
    rewrite calculate_Mz_ok.
    - rewrite HZ by lia. auto.
    - apply (so_wf _ _ _ Hs).
    - apply (so_sized _ _ _ Hs).
    - rewrite app_length, HXl by lia. rewrite (proj1 HW) by lia. lia. }
  assert (compute_u_s (map (fun i => map (Mz_mle (c_s cs) (lcccs_z (L i) (w_ccs (dw P w i)))) (c_M cs)) (seq 0 (dp_K P))) (lc_r lc)
    = Ok (map (fun i => lc_u (L i)) (seq 0 (dp_K P)))) as E6.
  { unfold compute_u_s. rewrite mapM_map. apply mapM_ok. intros i Hi. apply in_seq in Hi. rewrite evaluate_mles_ok.
    - f_equal. rewrite map_map. unfold L at 2, dlc. cbn [lc_u]. fold xh. apply map_ext. intros M.
      rewrite Mz_mle_eval by auto. rewrite HZ by lia. auto.
    - rewrite Forall_map. apply Forall_forall. intros. rewrite Hlr. auto. }
  assert (zip4 (map (xdig P xh) (seq 0 (dp_K P))) (map Y (seq 0 (dp_K P)))
      (map (fun i => lc_u (L i)) (seq 0 (dp_K P))) (map (fun i => lc_v (L i)) (seq 0 (dp_K P))) =
    map (fun i => (xdig P xh i, Y i, lc_u (L i), lc_v (L i))) (seq 0 (dp_K P))) as E7.
  { unfold zip4. rewrite !combine_map_seq. auto. }
  destruct (dec_absorb_ok (lc_r lc) ts (map (fun i => (xdig P xh i, Y i, lc_u (L i), lc_v (L i))) (seq 0 (dp_K P)))) as [ts' E8].
  { rewrite Forall_map. apply Forall_forall. intros i Hi. apply in_seq in Hi. cbn [fst]. apply HXne. lia. }
  rewrite map_map in E8.
  assert (map (fun i => Lcccs (lc_r lc) (lc_v (L i)) (Y i) (lc_u (L i)) (removelast (xdig P xh i)) (last (xdig P xh i) 0))
            (seq 0 (dp_K P)) = map L (seq 0 (dp_K P))) as E9.
  { apply map_ext. intros i. reflexivity. }
  rewrite E9 in E8.
  assert (sanity_check cs (dp_L P) = Ok tt) as E0.
  { apply (sanity_check_spec cs (dp_L P)); [lia|]. split.
    - destruct (so_sized _ _ _ Hs) as (Hm & _). eauto.
    - rewrite <- (so_m _ _ _ Hs). apply next_pow2_ge. }
  do 5 eexists. split; [|split].
  - unfold dec_prove. rewrite E0. cbn [bind]. rewrite E1, E2, E3. cbn [bind]. rewrite E4. cbn [bind].
    rewrite E5. cbn [bind]. rewrite E6. cbn [bind]. rewrite E7, E8. cbn [bind fst snd]. reflexivity.
  - unfold dec_verify. cbn [dp_xs dp_ys dp_us dp_vs]. rewrite E7, E8. cbn [bind].
    assert (length (map Y (seq 0 (dp_K P))) = dp_K P) as HlenY by (rewrite map_length, seq_length; auto).
    assert (forall (G : nat -> list R) v, is_lin (dp_K P) (bw P) G v ->
      recompose_vecs (map G (seq 0 (dp_K P))) (calculate_b_s P) = Ok v) as HREC.
    { intros G v HG. apply recompose_vecs_ok.
      - destruct (dp_K P); [lia|discriminate].
      - rewrite calculate_b_s_length, map_length, seq_length. auto.
      - rewrite map_length, seq_length. destruct HG as [G1 G2]. split.
        + intros i Hi. rewrite nth_seq_map by auto. auto.
        + intros j. rewrite G2. apply sumn_ext. intros i Hi.
          rewrite nth_calculate_b_s by auto. rewrite (nth_seq_map G) by auto. auto. }
    destruct (recompose_commitment_lin (map Y (seq 0 (dp_K P))) (calculate_b_s P) (kappa A)) as (y & -> & Hyl & HYL).
    { destruct (dp_K P); [lia|discriminate]. }
    { rewrite calculate_b_s_length. auto. }
    { intros y Hy. apply in_map_iff in Hy as (i & <- & _). unfold Y. rewrite map_length. auto. }
    rewrite HlenY in HYL.
    assert (y = lc_cm lc) as ->.
    { apply (list_ext 0); [congruence|]. intros j _. rewrite (proj2 HYL j), (proj2 HYlin j).
      apply sumn_ext. intros i Hi. rewrite nth_calculate_b_s by auto. rewrite (nth_seq_map Y) by auto. auto. }
    cbn [bind]. rewrite leqb_refl. cbn [negb].
    rewrite (HREC (fun i => lc_v (L i)) (lc_v lc)).
    2:{ rewrite (lr_v _ _ _ _ _ Hr). unfold L, dlc. cbn [lc_v].
        apply (is_lin_v (dp_K P) (fun i => (Z.of_nat (dp_b P) ^ Z.of_nat i)%Z) (fun i => map (digit P i) (w_fc w)) (w_fc w)).
        apply is_lin_digits; auto. }
    cbn [bind]. rewrite leqb_refl. cbn [negb].
    rewrite (HREC (fun i => lc_u (L i)) (lc_u lc)).
    2:{ rewrite (lr_u _ _ _ _ _ Hr). unfold L, dlc. cbn [lc_u].
        apply (is_lin_map (dp_K P) (bw P) (c_M cs) (fun i M => mle_spec (mz M (xdig P xh i ++ w_ccs (dw P w i))) (lc_r lc))).
        intros M _. change (lc_x lc ++ lc_h lc :: w_ccs w) with (lc_x lc ++ [lc_h lc] ++ w_ccs w). rewrite app_assoc.
        apply (is_lin_mle_mz (dp_K P) (bw P) (fun i => xdig P xh i ++ w_ccs (dw P w i))). apply is_lin_app; auto. }
    cbn [bind]. rewrite leqb_refl. cbn [negb].
    rewrite (HREC (xdig P xh) xh) by auto. cbn [bind]. unfold xh at 1. rewrite last_opt_app. cbn [of_option bind].
    unfold xh at 1. rewrite removelast_last, leqb_refl. cbn [negb]. rewrite req_refl. cbn [negb]. reflexivity.
  - rewrite map_length, seq_length. split; auto. unfold wits. rewrite map_length, seq_length. split; auto. split; [|split; [|split; [|split]]].
    + apply (proj2 (Forall2_nth (lcccs_rel P A cs) _ _ (L 0%nat) (dw P w 0%nat))). rewrite !map_length, seq_length. split; auto. intros i Hi.
      rewrite !nth_seq_map by auto. auto.
    + rewrite Forall_map. apply Forall_forall. intros i Hi. apply in_seq in Hi. unfold wit_norm, dw. cbn [w_fc wit_from_f_coeff].
      rewrite Forall_map. apply Forall_forall. intros c _. unfold digit.
      eapply decompose_c_short; [lia|]. apply nth_In. rewrite decompose_c_length. lia.
    + rewrite Forall_map. apply Forall_forall. intros. reflexivity.
    + rewrite (zipw_map (fun lc' w' => map (Mz_mle (c_s cs) (lcccs_z lc' (w_ccs w'))) (c_M cs)) L (dw P w)), zipw_same. auto.
    + cbn [dp_us dp_vs dp_xs dp_ys]. rewrite !map_length, !seq_length. auto.
Qed.

(** ** Soundness (C23) *)
(** Coefficientwise sum of the component witnesses. *)
Definition wsum (P : dparams) (n : nat) (wits : list (witness C R)) : witness C R :=
  wit_from_f_coeff P
    (map (fun j => sumn (dp_K P) (fun i => bw P i * nth j (w_fc (nth i wits (Witness [] [] [] []))) 0)) (seq 0 n)).

Lemma zip4_nth (xs ys us vs : list (list R)) i n :
  length xs = n -> length ys = n -> length us = n -> length vs = n -> (i < n)%nat ->
  nth i (zip4 xs ys us vs) ([], [], [], []) = (nth i xs [], nth i ys [], nth i us [], nth i vs []).
Proof.
  intros. unfold zip4. rewrite !nth_combine_lt; rewrite ?combine_length; auto; lia.
Qed.
Lemma zip4_length (xs ys us vs : list (list R)) :
  length (zip4 xs ys us vs) = Nat.min (Nat.min (Nat.min (length xs) (length ys)) (length us)) (length vs).
Proof. unfold zip4. rewrite !combine_length. auto. Qed.

(** The sum of the openings opens the combination; used for decomposition with weights b^i. *)
Theorem decomposition_sound (P : dparams) (A : ajtai R) (cs : ccs R) (lc : lcccs R) (pf : dec_proof R) (ts : T)
    (lcs : list (lcccs R)) (ts' : T) (wits : list (witness C R)) :
  (1 <= dp_L P)%nat ->
  length (dp_us pf) = dp_K P -> length (dp_vs pf) = dp_K P -> length (dp_xs pf) = dp_K P -> length (dp_ys pf) = dp_K P ->
  dec_verify P lc pf ts = Ok (lcs, ts') ->
  Forall2 (lcccs_rel P A cs) lcs wits ->
  length lcs = dp_K P /\ lcccs_rel P A cs lc (wsum P ((c_n cs - c_l cs - 1) * dp_L P) wits).
Proof.
  intros HL Hus Hvs Hxs Hys HV HR. unfold dec_verify in HV.
  destruct (dec_absorb _ _ _) as [[lcs0 ts0]| |] eqn:EA; cbn [bind] in HV; try discriminate.
  destruct (recompose_commitment _ _) as [y| |] eqn:EY; cbn [bind] in HV; try discriminate.
  destruct (leqb y (lc_cm lc)) eqn:Ey; cbn [negb] in HV; [|discriminate]. apply leqb_true in Ey. subst y.
  destruct (recompose_vecs (dp_vs pf) _) as [v| |] eqn:EV; cbn [bind] in HV; try discriminate.
  destruct (leqb v (lc_v lc)) eqn:Ev; cbn [negb] in HV; [|discriminate]. apply leqb_true in Ev. subst v.
  destruct (recompose_vecs (dp_us pf) _) as [u| |] eqn:EU; cbn [bind] in HV; try discriminate.
  destruct (leqb u (lc_u lc)) eqn:Eu; cbn [negb] in HV; [|discriminate]. apply leqb_true in Eu. subst u.
  destruct (recompose_vecs (dp_xs pf) _) as [xw| |] eqn:EX; cbn [bind] in HV; try discriminate.
  destruct (last_opt xw) as [h|] eqn:Eh; cbn [of_option bind] in HV; [|discriminate].
  destruct (leqb (removelast xw) (lc_x lc)) eqn:Ex; cbn [negb] in HV; [|discriminate]. apply leqb_true in Ex.
  destruct (h =? lc_h lc) eqn:Ehh; cbn [negb] in HV; [|discriminate]. apply req_true in Ehh. subst h.
  injection HV as <- <-.
  apply dec_absorb_inv in EA as [El Hne].
  assert (length lcs0 = dp_K P) as HlK.
  { rewrite El, map_length, zip4_length. lia. }
  split; auto.
  apply last_opt_Some in Eh. rewrite Ex in Eh. clear Ex. subst xw.
  set (d0 := Lcccs [] [] [] [] [] 0 : lcccs R). set (w0 := Witness [] [] [] [] : witness C R).
  apply (Forall2_nth _ _ _ d0 w0) in HR as [HwK HR]. rewrite HlK in HwK, HR.
  assert (forall i, (i < dp_K P)%nat -> nth i lcs0 d0 =
     Lcccs (lc_r lc) (nth i (dp_vs pf) []) (nth i (dp_ys pf) []) (nth i (dp_us pf) [])
       (removelast (nth i (dp_xs pf) [])) (last (nth i (dp_xs pf) []) 0)) as Hi0.
  { intros i Hi. rewrite El. rewrite (nth_map_lt _ _ _ ([], [], [], [])) by (rewrite zip4_length; lia).
    rewrite (zip4_nth _ _ _ _ i (dp_K P)) by auto. auto. }
  assert (forall i, (i < dp_K P)%nat -> nth i (dp_xs pf) [] <> []) as Hxne.
  { intros i Hi. rewrite Forall_forall in Hne. specialize (Hne (nth i (zip4 (dp_xs pf) (dp_ys pf) (dp_us pf) (dp_vs pf)) ([],[],[],[]))).
    rewrite (zip4_nth _ _ _ _ i (dp_K P)) in Hne by auto. apply Hne.
    rewrite <- (zip4_nth _ _ _ _ i (dp_K P)) by auto. apply nth_In. rewrite zip4_length. lia. }
  clear El Hne.
  (* K is at least 1 *)
  assert (1 <= dp_K P)%nat as HK.
  { destruct (dp_K P); [|lia]. destruct (dp_ys pf); [discriminate EY|discriminate]. }
  set (n := ((c_n cs - c_l cs - 1) * dp_L P)%nat) in *.
  set (W := fun i => nth i wits w0).
  assert (forall i, (i < dp_K P)%nat -> wit_consistent P (W i) /\ length (w_fc (W i)) = n /\ length (w_f (W i)) = n /\
     commit A (w_f (W i)) = Ok (nth i (dp_ys pf) [])) as HW.
  { intros i Hi. destruct (lr_open _ _ _ _ _ (HR i Hi)) as [H1 H2 H3]. rewrite Hi0 in H3 by auto. cbn [lc_cm] in H3.
    split; [exact H1|]. split; [|split; auto]. destruct H1 as (_ & E & _). unfold W. rewrite E, map_length. auto. }
  set (fc := map (fun j => sumn (dp_K P) (fun i => bw P i * nth j (w_fc (W i)) 0)) (seq 0 n)).
  assert (is_lin (dp_K P) (bw P) (fun i => w_fc (W i)) fc) as HFC.
  { apply is_lin_intro; unfold fc; rewrite map_length, seq_length.
    - intros i Hi. apply HW. auto.
    - intros j Hj. rewrite nth_seq_map by auto. auto. }
  assert (is_lin (dp_K P) (bw P) (fun i => w_f (W i)) (map crt fc : list R)) as HF.
  { eapply is_lin_ext; [|eapply is_lin_coef; [|apply (is_lin_hom crt crt_hom); apply HFC]].
    - intros i Hi. destruct (HW i Hi) as ((-> & _) & _). auto.
    - intros. apply (bw_hom _ crt_hom). }
  assert (is_lin (dp_K P) (bw P) (fun i => w_ccs (W i)) (gadget_recompose (dp_B P) (dp_L P) (map crt fc))) as HWc.
  { eapply is_lin_ext; [|apply is_lin_gadget; [auto|apply HF]].
    intros i Hi. destruct (HW i Hi) as ((_ & _ & _ & ->) & _). auto. }
  assert (length (map (crt : C -> R) fc) = n) as Hfl. { unfold fc. rewrite !map_length, seq_length. auto. }
  assert (forall (s : list (list R)) v m, length s = dp_K P -> recompose_vecs s (calculate_b_s P) = Ok v ->
     (forall i, (i < dp_K P)%nat -> length (nth i s []) = m) ->
     is_lin (dp_K P) (bw P) (fun i => nth i s []) v) as HREC.
  { intros s v m Hsl Hr Hm. apply recompose_vecs_inv in Hr as [H1 H2]. rewrite Hm in H1 by lia.
    apply is_lin_intro.
    - intros i Hi. rewrite Hm by auto. auto.
    - intros j Hj. destruct (H2 j Hj) as [_ ->]. rewrite Hsl, calculate_b_s_length, Nat.min_id.
      apply sumn_ext. intros i Hi. rewrite nth_calculate_b_s by auto. auto. }
  assert (forall i, (i < dp_K P)%nat -> length (nth i (dp_xs pf) []) = (c_l cs + 1)%nat) as HXl.
  { intros i Hi. pose proof (lr_x _ _ _ _ _ (HR i Hi)) as Hx. rewrite Hi0 in Hx by auto. cbn [lc_x] in Hx.
    rewrite removelast_length in Hx. specialize (Hxne i Hi). destruct (nth i (dp_xs pf) []); [contradiction|]. cbn [length] in *. lia. }
  pose proof (HREC _ _ _ Hxs EX HXl) as HX.
  assert (length (lc_x lc) = c_l cs) as Hlx.
  { pose proof (proj1 HX 0%nat HK) as Hx. cbn beta in Hx. rewrite HXl in Hx by auto. rewrite app_length in Hx. cbn [length] in Hx. lia. }
  split; [split|..].
  - apply from_f_coeff_consistent.
  - unfold wsum. cbn [w_f wit_from_f_coeff]. apply Hfl.
  - unfold wsum. cbn [w_f wit_from_f_coeff]. change (commit A (map crt fc) = Ok (lc_cm lc)).
    assert (a_ncols A = n) as Hc.
    { destruct (HW 0%nat HK) as (_ & _ & Hn & Hc). unfold commit in Hc.
      destruct (Nat.eqb_spec (length (w_f (W 0%nat))) (a_ncols A)) as [E|]; [|discriminate]. congruence. }
    destruct (is_lin_commit _ _ _ _ A (fun i => nth i (dp_ys pf) []) HF) as (cm & H1 & H2 & H3).
    { congruence. }
    { intros i Hi. apply HW. auto. }
    rewrite H1. f_equal.
    destruct (recompose_commitment_lin (dp_ys pf) (calculate_b_s P) (kappa A)) as (y & Ey & Hyl & HYL).
    { destruct (dp_ys pf); [cbn in Hys; lia|discriminate]. }
    { rewrite calculate_b_s_length. auto. }
    { intros y Hy. apply In_nth with (d := []) in Hy as (i & Hi & <-). rewrite Hys in Hi.
      rewrite (proj1 H3) by auto. auto. }
    rewrite EY in Ey. injection Ey as <-. apply (list_ext 0); [congruence|]. intros j _.
    rewrite (proj2 HYL j), (proj2 H3 j), Hys. apply sumn_ext. intros i Hi. rewrite nth_calculate_b_s by auto. auto.
  - pose proof (lr_r _ _ _ _ _ (HR 0%nat HK)) as H. rewrite Hi0 in H by auto. apply H.
  - auto.
  - unfold wsum. cbn [w_fc wit_from_f_coeff].
    assert (forall i, (i < dp_K P)%nat -> nth i (dp_vs pf) [] =
      map (fun j => mle_spec (fun b => hat j (nth b (w_fc (W i)) 0)) (lc_r lc)) (seq 0 tau)) as Hv.
    { intros i Hi. pose proof (lr_v _ _ _ _ _ (HR i Hi)) as H. rewrite Hi0 in H by auto. apply H. }
    assert (is_lin (dp_K P) (bw P) (fun i => nth i (dp_vs pf) []) (lc_v lc)) as HVL.
    { apply (HREC _ _ tau Hvs EV). intros i Hi. rewrite Hv, map_length, seq_length by auto. auto. }
    eapply is_lin_unique; [apply HVL| |].
    + eapply is_lin_ext; [|apply (is_lin_v (dp_K P) (fun i => (Z.of_nat (dp_b P) ^ Z.of_nat i)%Z) (fun i => w_fc (W i)) fc (lc_r lc)); apply HFC].
      intros i Hi. rewrite Hv by auto. auto.
    + rewrite <- (proj1 HVL 0%nat HK); cbn beta; rewrite Hv, !map_length by auto. auto.
  - unfold wsum. cbn [w_ccs wit_from_f_coeff]. fold W. fold fc.
    assert (forall i, (i < dp_K P)%nat -> nth i (dp_us pf) [] =
      map (fun M => mle_spec (mz M (nth i (dp_xs pf) [] ++ w_ccs (W i))) (lc_r lc)) (c_M cs)) as Hu.
    { intros i Hi. pose proof (lr_u _ _ _ _ _ (HR i Hi)) as H. rewrite Hi0 in H by auto. cbn [lc_u lc_x lc_h lc_r] in H.
      rewrite H. apply map_ext. intros M. do 2 f_equal.
      rewrite (app_removelast_last' (nth i (dp_xs pf) [])) at 3 by auto. rewrite <- app_assoc. auto. }
    assert (is_lin (dp_K P) (bw P) (fun i => nth i (dp_us pf) []) (lc_u lc)) as HUL.
    { apply (HREC _ _ (length (c_M cs)) Hus EU). intros i Hi. rewrite Hu, map_length by auto. auto. }
    eapply is_lin_unique; [apply HUL| |].
    + eapply is_lin_ext; [intros i Hi; symmetry; apply Hu; auto|].
      apply (is_lin_map (dp_K P) (bw P) (c_M cs) (fun i M => mle_spec (mz M (nth i (dp_xs pf) [] ++ w_ccs (W i))) (lc_r lc))).
      intros M _.
      assert (forall g : list R, lc_x lc ++ lc_h lc :: g = (lc_x lc ++ [lc_h lc]) ++ g) as EG.
      { intros g. rewrite <- app_assoc. auto. }
      rewrite EG.
      apply (is_lin_mle_mz (dp_K P) (bw P) (fun i => nth i (dp_xs pf) [] ++ w_ccs (W i))). apply is_lin_app; auto.
    + rewrite <- (proj1 HUL 0%nat HK); cbn beta; rewrite Hu, !map_length by auto. auto.
Qed.

(** Norm of the recomposed witness. *)
Fixpoint zsum (n : nat) (f : nat -> Z) : Z := match n with O => 0%Z | S k => (zsum k f + f k)%Z end.
Lemma cnorm_sum n (z : nat -> Z) (f : nat -> C) (B : nat -> Z) :
  (forall i, (i < n)%nat -> (0 <= z i)%Z) -> (forall i, (i < n)%nat -> cnorm_le (B i) (f i)) ->
  cnorm_le (zsum n (fun i => z i * B i)%Z) (sumn n (fun i => rofZ (z i) * f i)).
Proof.
  induction n as [|n IH]; intros Hz Hf j; cbn [sumn].
  - rewrite cf_0, signed_0. cbn. lia.
  - rewrite cf_add, cf_ofZ. pose proof (signed_add (cf j (sumn n (fun i => rofZ (z i) * f i))) (rofZ (z n) * cf j (f n))).
    assert (cnorm_le (zsum n (fun i => z i * B i)%Z) (sumn n (fun i => rofZ (z i) * f i))) as I by (apply IH; auto).
    specialize (I j).
    pose proof (signed_mul (rofZ (z n)) (cf j (f n))) as Hm. pose proof (signed_min (z n)) as Hs.
    specialize (Hf n (Nat.lt_succ_diag_r n) j). specialize (Hz n (Nat.lt_succ_diag_r n)).
    cbn [zsum]. nia.
Qed.
Lemma zsum_geom b k0 B : zsum k0 (fun i => (b ^ Z.of_nat i * B)%Z) = (zsum k0 (fun i => (b ^ Z.of_nat i)%Z) * B)%Z /\
  ((b - 1) * zsum k0 (fun i => (b ^ Z.of_nat i)%Z) = b ^ Z.of_nat k0 - 1)%Z.
Proof.
  induction k0 as [|k0 [I1 I2]]; cbn [zsum].
  - split; auto. cbn. lia.
  - rewrite Nat2Z.inj_succ, Z.pow_succ_r by lia. split; nia.
Qed.
Theorem wsum_norm (P : dparams) n (wits : list (witness C R)) (B : Z) :
  (2 <= dp_b P)%nat -> (0 <= B)%Z -> length wits = dp_K P -> Forall (wit_norm B) wits ->
  exists G : Z, ((Z.of_nat (dp_b P) - 1) * G = Z.of_nat (dp_b P) ^ Z.of_nat (dp_K P) - 1)%Z /\
    wit_norm (G * B) (wsum P n wits).
Proof.
  intros Hb HB Hl Hw. exists (zsum (dp_K P) (fun i => (Z.of_nat (dp_b P) ^ Z.of_nat i)%Z)). split.
  - apply (zsum_geom (Z.of_nat (dp_b P)) (dp_K P) B).
  - rewrite <- (proj1 (zsum_geom (Z.of_nat (dp_b P)) (dp_K P) B)). unfold wit_norm, wsum. cbn [w_fc wit_from_f_coeff].
    rewrite Forall_map. apply Forall_forall. intros j _.
    apply (cnorm_sum (dp_K P) (fun i => (Z.of_nat (dp_b P) ^ Z.of_nat i)%Z)
      (fun i => nth j (w_fc (nth i wits (Witness [] [] [] []))) 0) (fun _ => B)).
    + intros. apply Z.pow_nonneg. lia.
    + intros i Hi. rewrite Forall_forall in Hw.
      assert (In (nth i wits (Witness [] [] [] [])) wits) as Hin by (apply nth_In; lia). specialize (Hw _ Hin).
      unfold wit_norm in Hw. rewrite Forall_forall in Hw.
      destruct (Nat.lt_ge_cases j (length (w_fc (nth i wits (Witness [] [] [] []))))) as [Hj|Hj].
      * apply Hw. apply nth_In. auto.
      * rewrite nth_overflow by auto. intros k. rewrite cf_0, signed_0. auto.
Qed.

(** ** Components beyond the first K are not constrained (C24) *)
Lemma combine_app_ge {X Y} (l : list X) (m : list Y) x : (length m <= length l)%nat -> combine (l ++ x) m = combine l m.
Proof.
  revert m; induction l as [|a l IH]; intros [|b m] H; cbn in *; auto; try lia.
  - destruct x; auto.
  - f_equal. apply IH. lia.
Qed.
Lemma zipw_app_ge {X Y Z} (f : X -> Y -> Z) (l : list X) (m : list Y) x : (length m <= length l)%nat -> zipw f (l ++ x) m = zipw f l m.
Proof.
  revert m; induction l as [|a l IH]; intros [|b m] H; cbn in *; auto; try lia.
  - destruct x; auto.
  - f_equal. apply IH. lia.
Qed.
Lemma recompose_vecs_app (s : list (list R)) b x : s <> [] -> (length b <= length s)%nat ->
  recompose_vecs (s ++ x) b = recompose_vecs s b.
Proof.
  intros Hs Hl. destruct s as [|s0 s]; [contradiction|]. unfold recompose_vecs. cbn [app].
  change (s0 :: s ++ x) with ((s0 :: s) ++ x). rewrite combine_app_ge by auto. auto.
Qed.
Lemma dec_absorb_app r ts l l' lcs ts1 : dec_absorb r ts l = Ok (lcs, ts1) ->
  dec_absorb r ts (l ++ l') = do res <- dec_absorb r ts1 l'; Ok (lcs ++ fst res, snd res).
Proof.
  revert ts lcs; induction l as [|[[[x y] u] v] l IH]; intros ts lcs H; cbn [dec_absorb app] in *.
  - injection H as <- <-. destruct (dec_absorb r ts l') as [[? ?]| |]; auto.
  - destruct (last_opt x); [|discriminate]. cbn [of_option bind] in *.
    destruct (dec_absorb r _ l) as [[lcs0 ts0]| |] eqn:El; cbn [bind fst snd] in H; try discriminate.
    injection H as <- <-. rewrite (IH _ _ El). destruct (dec_absorb r ts0 l') as [[? ?]| |]; auto.
Qed.
Theorem dec_extra_component (P : dparams) (lc : lcccs R) (pf : dec_proof R) ts lcs ts' n (x y u v : list R) :
  (1 <= dp_K P <= n)%nat -> length (dp_us pf) = n -> length (dp_vs pf) = n -> length (dp_xs pf) = n -> length (dp_ys pf) = n ->
  dec_verify P lc pf ts = Ok (lcs, ts') -> x <> [] ->
  exists ts'', dec_verify P lc (DecProof (dp_us pf ++ [u]) (dp_vs pf ++ [v]) (dp_xs pf ++ [x]) (dp_ys pf ++ [y])) ts =
    Ok (lcs ++ [Lcccs (lc_r lc) v y u (removelast x) (last x 0)], ts'').
Proof.
  intros HK Hus Hvs Hxs Hys HV Hx. unfold dec_verify in *. cbn [dp_us dp_vs dp_xs dp_ys].
  destruct (dec_absorb _ _ _) as [[lcs0 ts0]| |] eqn:EA; cbn [bind] in HV; try discriminate.
  assert (forall (A B : Type) (l : list A) (m : list B) a b, length l = length m -> combine (l ++ [a]) (m ++ [b]) = combine l m ++ [(a, b)]) as HC.
  { clear. intros A B l. induction l as [|c l IH]; intros [|d m] a b H; cbn in *; try discriminate; auto. f_equal. apply IH. lia. }
  assert (zip4 (dp_xs pf ++ [x]) (dp_ys pf ++ [y]) (dp_us pf ++ [u]) (dp_vs pf ++ [v]) =
    zip4 (dp_xs pf) (dp_ys pf) (dp_us pf) (dp_vs pf) ++ [(x, y, u, v)]) as ->.
  { unfold zip4. rewrite !HC; rewrite ?combine_length; auto; lia. }
  rewrite (dec_absorb_app _ _ _ _ _ _ EA).
  destruct (dec_absorb_ok (lc_r lc) ts0 [(x, y, u, v)]) as [ts2 ->]. { constructor; auto. }
  cbn [bind fst snd map].
  assert (forall l : list (list R), length l = n -> l <> []) as Hnn. { intros [|? ?]; cbn; [lia|discriminate]. }
  rewrite !recompose_vecs_app by (auto; rewrite calculate_b_s_length; lia).
  assert (recompose_commitment (dp_ys pf ++ [y]) (calculate_b_s P) = recompose_commitment (dp_ys pf) (calculate_b_s P)) as ->.
  { unfold recompose_commitment. rewrite zipw_app_ge; auto. rewrite calculate_b_s_length. lia. }
  destruct (recompose_commitment _ _) as [yy| |]; cbn [bind] in *; try discriminate.
  destruct (leqb yy _); cbn [negb] in *; [|discriminate].
  destruct (recompose_vecs (dp_vs pf) _) as [vv| |]; cbn [bind] in *; try discriminate.
  destruct (leqb vv _); cbn [negb] in *; [|discriminate].
  destruct (recompose_vecs (dp_us pf) _) as [uu| |]; cbn [bind] in *; try discriminate.
  destruct (leqb uu _); cbn [negb] in *; [|discriminate].
  destruct (recompose_vecs (dp_xs pf) _) as [xx| |]; cbn [bind] in *; try discriminate.
  destruct (last_opt xx); cbn [of_option bind] in *; [|discriminate].
  destruct (leqb (removelast xx) _); cbn [negb] in *; [|discriminate].
  destruct (r =? lc_h lc); cbn [negb] in *; [|discriminate]. injection HV as <- <-. eauto.
Qed.
(** A single component, the instance itself, is always accepted. *)
Theorem dec_trivial_proof (P : dparams) (lc : lcccs R) ts : (1 <= dp_K P)%nat ->
  exists ts', dec_verify P lc (DecProof [lc_u lc] [lc_v lc] [lc_x lc ++ [lc_h lc]] [lc_cm lc]) ts = Ok ([lc], ts').
Proof.
  intros HK. unfold dec_verify. cbn [dp_us dp_vs dp_xs dp_ys]. unfold zip4. cbn [combine].
  destruct (dec_absorb_ok (lc_r lc) ts [(lc_x lc ++ [lc_h lc], lc_cm lc, lc_u lc, lc_v lc)]) as [ts' ->].
  { constructor; auto. cbn [fst]. destruct (lc_x lc); discriminate. }
  cbn [bind map]. rewrite removelast_last, last_last.
  assert (exists bs, calculate_b_s P = (1 : R) :: bs) as [bs ->].
  { unfold calculate_b_s. destruct (dp_K P); [lia|]. cbn [seq map].
    change (Z.of_nat (dp_b P) ^ Z.of_nat 0)%Z with 1%Z. rewrite rofZ_1. eauto. }
  assert (forall v : list R, recompose_vecs [v] (1 :: bs) = Ok v) as HR.
  { intros v. unfold recompose_vecs. cbn [combine].
    rewrite (mapM_ok _ (fun j => nth j v 0)); [rewrite map_seq_nth; auto|].
    intros j Hj. apply in_seq in Hj. rewrite rec_fold. cbn [forallb fst].
    destruct (Nat.ltb_spec j (length v)); [|lia]. cbn [andb length sumn nth fst snd]. f_equal. ring. }
  rewrite !HR. unfold recompose_commitment. cbn [zipw fold_left bind]. destruct bs; cbn [zipw fold_left].
  all: assert (cm_scale (lc_cm lc) 1 = lc_cm lc) as -> by
    (unfold cm_scale; rewrite <- (map_id (lc_cm lc)) at 2; apply map_ext; intros; ring).
  all: rewrite !leqb_refl; cbn [negb bind]; rewrite last_opt_app; cbn [of_option bind];
    rewrite removelast_last, leqb_refl, req_refl; cbn [negb]; destruct lc; eauto.
Qed.
End D.
