(** C93, C94: the two floating-point computations. *)
From Coq Require Import ZArith Bool Lia Reals Lra.
From Flocq Require Import Core IEEE754.BinarySingleNaN.
From Verif Require Import Prelude Floats Floats_Proofs Challenge.
From Verif Require Plus_Norm.
Local Open Scope R_scope.

(** Specification: [b] is the least number with a (b + c) <= b^2, i.e. the bound at which a fold by short challenges of
    operator norm and number a, of witnesses of norm b + c, again fits. *)
Definition least_bound (a c b : Z) : Prop := forall b', (0 <= b')%Z -> ((b <= b')%Z <-> (a * (b' + c) <= b' * b')%Z).

(** C93: with a = sop L and c = d/2 + d k + 1, whenever a^2 + 4 a c < 2^50 the rounding in [estimate_bound] does no harm. *)
Theorem C93_estimate_bound sop L d k : (1 <= sop)%Z -> (1 <= L)%Z -> (0 <= d)%Z -> (0 <= k)%Z ->
  let a := (sop * L)%Z in let c := (d / 2 + d * k + 1)%Z in
  (a * a + 4 * a * c < 2 ^ 50)%Z ->
  exists b, estimate_bound_f64 sop L d k = Ok b /\ least_bound a c b.
Proof.
  intros Hs HL Hd Hk a c HD. exists (Plus_Norm.estimate_bound sop L d k).
  assert (0 < a)%Z by (unfold a; nia). assert (0 < c)%Z. { unfold c. pose proof (Z.div_pos d 2). nia. }
  split; [apply estimate_f64_exact; auto; lia|]. intros b' Hb. apply Plus_Norm.estimate_bound_least; auto.
Qed.
(** Without the restriction it is false: here the result is one too small although nothing overflows. *)
Theorem C93_rounding_refuted : exists sop L d k b,
  (1 <= sop /\ 1 <= L /\ 0 <= d /\ 0 <= k)%Z /\ estimate_bound_f64 sop L d k = Ok b /\ ~ least_bound (sop * L) (d / 2 + d * k + 1) b.
Proof.
  exists (2 ^ 28 + 1)%Z, 1%Z, 1%Z, (2 ^ 14)%Z, (2 ^ 28 + 2 ^ 14 + 1)%Z. split; [lia|]. split; [vm_compute; reflexivity|].
  intros H. destruct (H (2 ^ 28 + 2 ^ 14 + 1)%Z ltac:(lia)) as [H1 _]. specialize (H1 ltac:(lia)). vm_compute in H1. apply H1. reflexivity.
Qed.

(** ** C94 *)
(** Specification (the comments in security_check.rs): with delta = 1.0045, B = 2^(2 sqrt(log2 delta) sqrt(degree kappa log2 q)),
    the parameters are accepted iff B < q/2, b < B / sqrt(degree num_cols) and b^l > q/2. *)
Definition delta_R : R := 10045 / 10000.
Definition B_L2 (q kappa degree : Z) : R :=
  Rpower 2 (2 * sqrt (ln delta_R / ln 2) * sqrt (IZR degree * IZR kappa * IZR (Z.log2 q + 1))).
Definition secure (q kappa degree num_cols b l : Z) : Prop :=
  B_L2 q kappa degree < IZR (q / 2) /\ IZR b < B_L2 q kappa degree / sqrt (IZR degree * IZR num_cols) /\ (q / 2 < b ^ l)%Z.

(** Acceptance implies the three inequalities for the value [y] that the platform computes for B, up to a relative error of 2^-50,
    if [y] is below 2^64. *)
Theorem C94_accepted_partial powf lnf delta q kappa degree num_cols b l (y : R) :
  let yf := bound_l2 powf lnf delta degree kappa (f_ofZ (bits q)) in
  B2R yf = y -> is_finite yf = true -> 0 <= y -> (Zceil y < 2 ^ 64)%Z ->
  (1 <= degree < 2 ^ 64)%Z -> (1 <= num_cols < 2 ^ 64)%Z -> (1 <= b < 2 ^ 128)%Z -> (0 <= l < 2 ^ 32)%Z ->
  check_128 powf lnf delta q kappa degree num_cols b l false = true ->
  y < IZR (q / 2) /\ IZR b * sqrt (IZR degree * IZR num_cols) <= IZR (Zceil y) * (1 + / IZR (2 ^ 50)) /\ (q / 2 < b ^ l)%Z.
Proof.
  intros yf Hy Fy Hy0 Hy1 Hd Hn Hb Hl H. unfold check_128 in H.
  assert (calculate_bound_l2 powf lnf delta degree kappa (f_ofZ (bits q)) = Zceil y) as E.
  { unfold calculate_bound_l2. apply f_toU_ceil; [lia|split; auto|]. assert (0 <= Zceil y)%Z; [|lia]. apply le_IZR. apply Rle_trans with (1 := Hy0). apply Zceil_ub. }
  rewrite E in H. apply andb_prop in H as [H H3]. apply andb_prop in H as [H1 H2]. cbn [andb] in H3.
  apply Z.ltb_lt in H1. apply Z.ltb_lt in H3. split; [|split].
  - apply Rle_lt_trans with (IZR (Zceil y)); [apply Zceil_ub|apply IZR_lt; auto].
  - assert (0 <= Zceil y)%Z. { apply le_IZR. apply Rle_trans with (1 := Hy0). apply Zceil_ub. }
    apply b_check_small in H2; [|lia|auto|auto|lia]. apply Rle_trans with (1 := H2). apply Rmult_le_compat_l; [apply IZR_le; auto|].
    unfold ulp1. change (IZR (2 ^ 50)) with 1125899906842624. lra.
  - rewrite Z.mod_small in H3 by lia. auto.
Qed.
(** Whatever the platform's [powf] and [ln], no base of 2^64 or more is accepted. *)
Theorem C94_large_base powf lnf delta q kappa degree num_cols b l flag :
  (1 <= degree < 2 ^ 64)%Z -> (1 <= num_cols < 2 ^ 64)%Z -> (2 ^ 64 <= b < 2 ^ 128)%Z ->
  check_128 powf lnf delta q kappa degree num_cols b l flag = false.
Proof.
  intros Hd Hn Hb. unfold check_128. pose proof (bound_l2_range powf lnf delta degree kappa (f_ofZ (bits q))) as R.
  rewrite b_check_large by lia. rewrite andb_false_r. auto.
Qed.

(** Bounds for log2 1.0045. *)
Lemma ln2_lo : / 2 <= ln 2.
Proof.
  assert (exp (/ 2) <= 2) as H.
  { pose proof (exp_ineq1_le (- / 2)) as H. rewrite exp_Ropp in H. pose proof (exp_pos (/ 2)) as P.
    apply (Rmult_le_compat_r (exp (/ 2))) in H; [|lra]. rewrite Rinv_l in H by lra. lra. }
  rewrite <- (ln_exp (/ 2)). destruct H as [H|H]; [left; apply ln_increasing; auto; apply exp_pos|rewrite H; lra].
Qed.
Lemma ln2_hi : ln 2 <= 1.
Proof.
  pose proof (exp_ineq1_le 1). rewrite <- (ln_exp 1). destruct (Req_dec 2 (exp 1)) as [E|N]; [rewrite E; lra|].
  left. apply ln_increasing; lra.
Qed.
Lemma lnd_hi : ln delta_R <= 45 / 10000.
Proof.
  pose proof (exp_ineq1_le (45 / 10000)) as H. rewrite <- (ln_exp (45 / 10000)). unfold delta_R.
  destruct (Req_dec (10045 / 10000) (exp (45 / 10000))) as [E|N]; [rewrite E; lra|]. left. apply ln_increasing; lra.
Qed.
Lemma lnd_lo : 45 / 10045 <= ln delta_R.
Proof.
  pose proof (exp_ineq1_le (- ln delta_R)) as H. rewrite exp_Ropp, exp_ln in H by (unfold delta_R; lra). unfold delta_R in *. lra.
Qed.
Lemma lg_bounds : 45 / 10045 <= ln delta_R / ln 2 <= 90 / 10000.
Proof.
  pose proof ln2_lo. pose proof ln2_hi. pose proof lnd_hi. pose proof lnd_lo. split.
  - apply Rmult_le_reg_r with (ln 2); [lra|]. unfold Rdiv at 2. rewrite Rmult_assoc, Rinv_l by lra. nra.
  - apply Rmult_le_reg_r with (ln 2); [lra|]. unfold Rdiv at 1. rewrite Rmult_assoc, Rinv_l by lra. nra.
Qed.
Lemma B_between q kappa degree lo hi : (0 <= lo)%Z -> (0 <= hi)%Z -> (0 <= degree)%Z -> (0 <= kappa)%Z -> (0 <= Z.log2 q + 1)%Z ->
  (10045 * lo * lo <= 4 * 45 * (degree * kappa * (Z.log2 q + 1)))%Z ->
  (4 * 90 * (degree * kappa * (Z.log2 q + 1)) <= 10000 * hi * hi)%Z ->
  IZR (2 ^ lo) <= B_L2 q kappa degree <= IZR (2 ^ hi).
Proof.
  intros Hlo Hhi Hd Hk Hq H1 H2. unfold B_L2. set (N := (degree * kappa * (Z.log2 q + 1))%Z) in *.
  replace (IZR degree * IZR kappa * IZR (Z.log2 q + 1)) with (IZR N) by (unfold N; rewrite !mult_IZR; auto).
  pose proof lg_bounds as [L1 L2]. assert (0 <= N)%Z as HN by (unfold N; nia).
  rewrite Rmult_assoc, <- sqrt_mult by (try apply IZR_le; lra || lia).
  set (x := ln delta_R / ln 2) in *. apply IZR_le in H1, H2, Hlo, Hhi, HN. rewrite !mult_IZR in H1, H2.
  assert (forall e, (0 <= e)%Z -> IZR (2 ^ e) = Rpower 2 (IZR e)) as P.
  { intros e He. rewrite <- (bpow_IZR e He). rewrite bpow_powerRZ. change (IZR radix2) with 2. apply powerRZ_Rpower. lra. }
  apply le_IZR in Hlo, Hhi. rewrite !P by auto. apply IZR_le in Hlo, Hhi. split; apply Rle_Rpower; try lra.
  - assert (IZR lo / 2 <= sqrt (x * IZR N)); [|lra]. rewrite <- (sqrt_square (IZR lo / 2)) by lra. apply sqrt_le_1_alt. nra.
  - assert (sqrt (x * IZR N) <= IZR hi / 2); [|lra]. rewrite <- (sqrt_square (IZR hi / 2)) by lra. apply sqrt_le_1_alt. nra.
Qed.

(** The Stark modulus with b = 2^84: all three inequalities hold with a wide margin and the check rejects. *)
Theorem C94_large_base_refuted : exists kappa degree num_cols b l,
  secure stark_p kappa degree num_cols b l /\
  forall powf lnf delta flag, check_128 powf lnf delta stark_p kappa degree num_cols b l flag = false.
Proof.
  exists 200%Z, 16%Z, (2 ^ 10)%Z, (2 ^ 84)%Z, 3%Z. split.
  - destruct (B_between stark_p 200 16 100 200) as [L H]; try (vm_compute; discriminate). split; [|split].
    + apply Rle_lt_trans with (1 := H). apply IZR_lt. reflexivity.
    + rewrite <- mult_IZR. change (16 * 2 ^ 10)%Z with (128 * 128)%Z. rewrite mult_IZR, sqrt_square by lra.
      apply Rlt_le_trans with (IZR (2 ^ 100) / 128); [|apply Rmult_le_compat_r; lra].
      apply Rmult_lt_reg_r with 128; [lra|]. unfold Rdiv. rewrite Rmult_assoc, Rinv_l, Rmult_1_r by lra.
      rewrite <- mult_IZR. apply IZR_lt. reflexivity.
    + reflexivity.
  - intros. apply C94_large_base; lia.
Qed.
(** The bound saturates at 2^64 - 1: the Stark modulus with kappa = 1000, where B exceeds q/2, is accepted whenever the platform
    computes B to be at least q/2. *)
Theorem C94_saturation_refuted : exists kappa degree num_cols b l,
  ~ secure stark_p kappa degree num_cols b l /\
  forall powf lnf delta flag,
    let yf := bound_l2 powf lnf delta degree kappa (f_ofZ (bits stark_p)) in
    is_finite yf = true -> IZR (stark_p / 2) <= B2R yf ->
    check_128 powf lnf delta stark_p kappa degree num_cols b l flag = true.
Proof.
  exists 1000%Z, 16%Z, (2 ^ 10)%Z, (2 ^ 10)%Z, 26%Z. split.
  - intros [H _]. destruct (B_between stark_p 1000 16 252 1000) as [L _]; try (vm_compute; discriminate).
    assert (IZR (stark_p / 2) <= IZR (2 ^ 252)) by (apply IZR_le; vm_compute; discriminate). lra.
  - intros powf lnf delta flag yf F Y. unfold check_128.
    assert (calculate_bound_l2 powf lnf delta 16 1000 (f_ofZ (bits stark_p)) = 2 ^ 64 - 1)%Z as ->.
    { unfold calculate_bound_l2. apply (f_toU_sat 64 _ (B2R yf)); [lia|split; auto|]. apply Rle_trans with (2 := Y).
      apply IZR_le. vm_compute. discriminate. }
    rewrite andb_false_r. vm_compute. reflexivity.
Qed.
