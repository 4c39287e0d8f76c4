(** Rounding facts and the behaviour of [estimate_bound] and [check_ring_modulus_128_bits_security]. *)
From Coq Require Import ZArith Bool Lia Reals Lra.
From Flocq Require Import Core Relative IEEE754.BinarySingleNaN.
From Verif Require Import Prelude Floats.
From Verif Require Plus_Norm.
Local Open Scope R_scope.

Definition fexp64 := SpecFloat.fexp 53 1024.
Definition rnd (x : R) : R := round radix2 fexp64 ZnearestE x.
#[local] Instance vexp : Valid_exp fexp64 := fexp_correct 53 1024 prec53.
#[local] Instance vrnd : Valid_rnd ZnearestE := valid_rnd_N _.
Lemma rnd_le x y : x <= y -> rnd x <= rnd y.
Proof. apply round_le; typeclasses eauto. Qed.
Lemma gf_dyadic (m e : Z) : (Z.abs m < 2 ^ 53)%Z -> (-1074 <= e)%Z -> generic_format radix2 fexp64 (IZR m * bpow radix2 e).
Proof.
  intros Hm He. change fexp64 with (FLT_exp (-1074) 53).
  apply generic_format_FLT. apply (FLT_spec _ _ _ _ (Float radix2 m e)); auto.
Qed.
Lemma rnd_dyadic (m e : Z) : (Z.abs m < 2 ^ 53)%Z -> (-1074 <= e)%Z -> rnd (IZR m * bpow radix2 e) = IZR m * bpow radix2 e.
Proof. intros. apply round_generic; [apply vrnd|]. apply gf_dyadic; auto. Qed.
Lemma rnd_bpow e : (-1074 <= e)%Z -> rnd (bpow radix2 e) = bpow radix2 e.
Proof. intros. rewrite <- (Rmult_1_l (bpow radix2 e)) at 1 2. apply rnd_dyadic; lia. Qed.
Lemma rnd_Z m : (Z.abs m < 2 ^ 53)%Z -> rnd (IZR m) = IZR m.
Proof. intros. pose proof (rnd_dyadic m 0 H ltac:(lia)) as E. rewrite bpow_powerRZ in E. cbn in E. rewrite Rmult_1_r in E. auto. Qed.
Lemma rnd_0 : rnd 0 = 0.
Proof. apply (rnd_Z 0). lia. Qed.
Lemma rnd_ge0 x : 0 <= x -> 0 <= rnd x.
Proof. intros. rewrite <- rnd_0. apply rnd_le; auto. Qed.
Lemma rnd_in x e : (-1074 <= e)%Z -> 0 <= x <= bpow radix2 e -> 0 <= rnd x <= bpow radix2 e.
Proof. intros He [H1 H2]. split; [apply rnd_ge0; auto|]. rewrite <- (rnd_bpow e He). apply rnd_le; auto. Qed.
Lemma rnd_ge1 x : 1 <= x -> 1 <= rnd x.
Proof. intros. rewrite <- (rnd_Z 1) by lia. apply rnd_le; auto. Qed.

(** A finite, non-negative number that is not -0 and stands for the real [r]. *)
Definition fin (x : f64) (r : R) : Prop := B2R x = r /\ is_finite x = true.
Lemma no_overflow x e : (-1074 <= e < 1024)%Z -> 0 <= x <= bpow radix2 e ->
  Rlt_bool (Rabs (round radix2 (SpecFloat.fexp 53 1024) (round_mode mode_NE) x)) (bpow radix2 1024) = true.
Proof.
  intros He Hx. apply Rlt_bool_true. change (round radix2 (SpecFloat.fexp 53 1024) (round_mode mode_NE) x) with (rnd x).
  pose proof (rnd_in x e ltac:(lia) Hx). rewrite Rabs_pos_eq by lra. apply Rle_lt_trans with (bpow radix2 e); [lra|]. apply bpow_lt. lia.
Qed.
Lemma bpow_IZR e : (0 <= e)%Z -> bpow radix2 e = IZR (2 ^ e).
Proof. intros. rewrite <- (IZR_Zpower radix2) by auto. auto. Qed.
Lemma f_ofZ_fin z e : (0 <= e < 1024)%Z -> (0 <= z <= 2 ^ e)%Z -> fin (f_ofZ z) (rnd (IZR z)).
Proof.
  intros He Hz. pose proof (binary_normalize_correct 53 1024 prec53 prec_emax mode_NE z 0 false) as H. cbv zeta in H.
  assert (F2R (Float radix2 z 0) = IZR z) as E by (unfold F2R; cbn; ring).
  rewrite E in H. rewrite (no_overflow (IZR z) e) in H.
  - destruct H as [H1 [H2 _]]. split; auto.
  - lia.
  - rewrite bpow_IZR by lia. split; apply IZR_le; lia.
Qed.
Lemma f_mul_fin x y a b e : (-1074 <= e < 1024)%Z -> fin x a -> fin y b -> 0 <= a * b <= bpow radix2 e -> fin (f_mul x y) (rnd (a * b)).
Proof.
  intros He [Hx Fx] [Hy Fy] Hb. pose proof (Bmult_correct 53 1024 prec53 prec_emax mode_NE x y) as H. rewrite Hx, Hy in H.
  rewrite (no_overflow (a * b) e He Hb) in H. destruct H as [H1 [H2 _]]. split; [exact H1|]. unfold f_mul. rewrite H2, Fx, Fy. auto.
Qed.
Lemma f_add_fin x y a b e : (-1074 <= e < 1024)%Z -> fin x a -> fin y b -> 0 <= a + b <= bpow radix2 e -> fin (f_add x y) (rnd (a + b)).
Proof.
  intros He [Hx Fx] [Hy Fy] Hb. pose proof (Bplus_correct 53 1024 prec53 prec_emax mode_NE x y Fx Fy) as H. rewrite Hx, Hy in H.
  rewrite (no_overflow (a + b) e He Hb) in H. destruct H as [H1 [H2 _]]. split; [exact H1|exact H2].
Qed.
Lemma f_div_fin x y a b e : (-1074 <= e < 1024)%Z -> fin x a -> fin y b -> b <> 0 -> 0 <= a / b <= bpow radix2 e -> fin (f_div x y) (rnd (a / b)).
Proof.
  intros He [Hx Fx] [Hy Fy] Nb Hb. pose proof (Bdiv_correct 53 1024 prec53 prec_emax mode_NE x y) as H. rewrite Hx, Hy in H. specialize (H Nb).
  rewrite (no_overflow (a / b) e He Hb) in H. destruct H as [H1 [H2 _]]. split; [exact H1|]. unfold f_div. rewrite H2. auto.
Qed.
Lemma f_sqrt_fin x a : fin x a -> 0 <= a -> fin (f_sqrt x) (rnd (sqrt a)).
Proof.
  intros [Hx Fx] Ha. pose proof (Bsqrt_correct 53 1024 prec53 prec_emax mode_NE x) as [H1 [H2 _]]. rewrite Hx in H1.
  split; [exact H1|]. unfold f_sqrt. rewrite H2. destruct x as [s|s| |s m e E]; auto; try discriminate.
  destruct s; auto. exfalso. cbn in Hx. subst a. revert Ha. apply Rlt_not_le. apply F2R_lt_0. cbn. lia.
Qed.
Lemma f_lt_fin x y a b : fin x a -> fin y b -> f_lt x y = Rlt_bool a b.
Proof. intros [Hx Fx] [Hy Fy]. unfold f_lt. rewrite Bltb_correct; auto. rewrite Hx, Hy. auto. Qed.

Lemma f_toU_bound n x : (0 <= n)%Z -> (0 <= f_toU n x <= 2 ^ n - 1)%Z.
Proof.
  intros Hn. assert (1 <= 2 ^ n)%Z by (pose proof (Z.pow_pos_nonneg 2 n); lia).
  destruct x as [s|s| |s m e E]; cbn; try lia. destruct s; lia.
Qed.
Lemma f_toU_ceil n x a : (0 <= n)%Z -> fin x a -> (0 <= Zceil a <= 2 ^ n - 1)%Z -> f_toU n (f_ceil x) = Zceil a.
Proof.
  intros Hn [Hx Fx] Hc.
  pose proof (Bnearbyint_correct 53 1024 prec_emax mode_UP x) as [H1 [H2 _]].
  assert (is_finite (f_ceil x) = true) as F by (unfold f_ceil; rewrite H2; auto).
  assert (B2R (f_ceil x) = IZR (Zceil a)) as V.
  { unfold f_ceil. rewrite H1, Hx. unfold round, scaled_mantissa, cexp, FIX_exp, F2R. cbn. rewrite !Rmult_1_r. auto. }
  pose proof (Btrunc_correct 53 1024 prec_emax (f_ceil x)) as T.
  assert (Btrunc (f_ceil x) = Zceil a) as T'.
  { apply eq_IZR. rewrite T, V. unfold round, scaled_mantissa, cexp, FIX_exp, F2R. cbn. rewrite !Rmult_1_r. rewrite Ztrunc_IZR. auto. }
  destruct (f_ceil x) as [s|s| |s m e E]; try discriminate; cbn [f_toU]; rewrite T'; lia.
Qed.

Lemma f_toU_sat n x a : (0 <= n)%Z -> fin x a -> IZR (2 ^ n) <= a -> f_toU n (f_ceil x) = (2 ^ n - 1)%Z.
Proof.
  intros Hn [Hx Fx] Hc.
  pose proof (Bnearbyint_correct 53 1024 prec_emax mode_UP x) as [H1 [H2 _]].
  assert (is_finite (f_ceil x) = true) as F by (unfold f_ceil; rewrite H2; auto).
  assert (B2R (f_ceil x) = IZR (Zceil a)) as V.
  { unfold f_ceil. rewrite H1, Hx. unfold round, scaled_mantissa, cexp, FIX_exp, F2R. cbn. rewrite !Rmult_1_r. auto. }
  pose proof (Btrunc_correct 53 1024 prec_emax (f_ceil x)) as T.
  assert (Btrunc (f_ceil x) = Zceil a) as T'.
  { apply eq_IZR. rewrite T, V. unfold round, scaled_mantissa, cexp, FIX_exp, F2R. cbn. rewrite !Rmult_1_r. rewrite Ztrunc_IZR. auto. }
  assert (2 ^ n <= Zceil a)%Z. { apply le_IZR. apply Rle_trans with (1 := Hc). apply Zceil_ub. }
  assert (1 <= 2 ^ n)%Z by (pose proof (Z.pow_pos_nonneg 2 n); lia).
  destruct (f_ceil x) as [s|s| |s m e E]; try discriminate; cbn [f_toU]; rewrite T'; lia.
Qed.

(** ** [estimate_bound] *)
Lemma usz_ok z : (z < 2 ^ 64)%Z -> usz z = Ok z.
Proof. intros. unfold usz. apply Z.ltb_lt in H. rewrite H. auto. Qed.
Section Est.
Variables (a D : Z).
Hypotheses (Ha : (0 <= a)%Z) (HaD : (a * a <= D)%Z) (HD : (D < 2 ^ 50)%Z).
Let m := Z.sqrt_up D.
Let s := rnd (sqrt (rnd (IZR D))).
Lemma est_bounds : (a <= m)%Z /\ (m <= 2 ^ 25)%Z /\ (0 <= m)%Z.
Proof.
  unfold m. split; [|split].
  - rewrite <- (Z.sqrt_up_square a) by auto. apply Z.sqrt_up_le_mono. auto.
  - change (2 ^ 25)%Z with (Z.sqrt_up (2 ^ 50)). apply Z.sqrt_up_le_mono. lia.
  - apply Z.sqrt_up_nonneg.
Qed.
Lemma D0 : (0 <= D)%Z. Proof. pose proof (Z.square_nonneg a). unfold Z.square in *. lia. Qed.
Lemma rndD : rnd (IZR D) = IZR D.
Proof. apply rnd_Z. pose proof D0. lia. Qed.
Lemma s_up : s <= IZR m.
Proof.
  unfold s. rewrite rndD. destruct est_bounds as [B1 [B2 B3]]. rewrite <- (rnd_Z m) by lia. apply rnd_le.
  rewrite <- (sqrt_Rsqr (IZR m)) by (apply IZR_le; auto). apply sqrt_le_1_alt. unfold Rsqr. rewrite <- mult_IZR. apply IZR_le.
  unfold m. pose proof D0. destruct (Z.eq_dec D 0) as [->|N]; [cbn; lia|]. pose proof (Z.sqrt_up_spec D ltac:(lia)). lia.
Qed.
Lemma b26 : bpow radix2 (-26) = / 67108864. Proof. reflexivity. Qed.
Lemma s_low : IZR (m * m) = IZR D /\ s = IZR m \/ IZR (m - 1) + bpow radix2 (-26) <= s.
Proof.
  destruct est_bounds as [B1 [B2 B3]]. destruct (Z.eq_dec D (m * m)) as [E|N].
  - left. split; [congruence|]. unfold s. rewrite rndD, E, mult_IZR. rewrite sqrt_square by (apply IZR_le; auto). apply rnd_Z. lia.
  - right. assert (D <> 0)%Z as N0. { intros E. apply N. unfold m. rewrite E. reflexivity. }
    pose proof D0. pose proof (Z.sqrt_up_spec D ltac:(lia)) as [L U]. fold m in L, U.
    assert (1 <= m)%Z. { destruct (Z.eq_dec m 0) as [E|]; [|lia]. rewrite E in U. lia. }
    assert (IZR (m - 1) + bpow radix2 (-26) = IZR ((m - 1) * 2 ^ 26 + 1) * bpow radix2 (-26)) as E.
    { rewrite plus_IZR, mult_IZR. change (IZR (2 ^ 26)) with 67108864. rewrite b26. field. }
    rewrite E. rewrite <- (rnd_dyadic ((m - 1) * 2 ^ 26 + 1) (-26)) by lia. unfold s. rewrite rndD. apply rnd_le. rewrite <- E.
    assert (0 <= IZR (m - 1)) by (apply IZR_le; lia).
    rewrite <- (sqrt_Rsqr (IZR (m - 1) + bpow radix2 (-26))) by (rewrite b26; lra). apply sqrt_le_1_alt. unfold Rsqr.
    apply Rle_trans with (IZR (m - 1) * IZR (m - 1) + 1).
    + assert (IZR (m - 1) <= 33554431) by (apply IZR_le; lia). rewrite b26. nra.
    + rewrite <- mult_IZR, <- plus_IZR. apply IZR_le. unfold Z.pred in L. lia.
Qed.
Lemma est_value : f_toU 128 (f_ceil (f_div (f_add (f_ofZ a) (f_sqrt (f_ofZ D))) (f_ofZ 2))) = ((a + m + 1) / 2)%Z.
Proof.
  destruct est_bounds as [B1 [B2 B3]]. pose proof D0 as D0.
  assert (rnd (IZR a) = IZR a) as Ea by (apply rnd_Z; lia).
  assert (fin (f_ofZ a) (IZR a)) as Fa by (rewrite <- Ea; apply (f_ofZ_fin a 53); lia).
  assert (fin (f_sqrt (f_ofZ D)) s) as Fs.
  { apply f_sqrt_fin; [apply (f_ofZ_fin D 53); lia|]. apply rnd_ge0. apply IZR_le; auto. }
  assert (0 <= s) as Hs0 by (apply rnd_ge0, sqrt_pos).
  assert (0 <= IZR a) as Ha0 by (apply IZR_le; auto).
  assert (IZR (a + m) <= 67108864) as Ham by (apply IZR_le; lia).
  pose proof s_up as U. rewrite plus_IZR in Ham.
  assert (fin (f_add (f_ofZ a) (f_sqrt (f_ofZ D))) (rnd (IZR a + s))) as Fp.
  { apply (f_add_fin _ _ _ _ 26); auto; [lia|]. rewrite bpow_IZR by lia. change (IZR (2 ^ 26)) with 67108864. lra. }
  set (p := rnd (IZR a + s)) in *.
  assert (p <= IZR (a + m)) as Pu. { rewrite <- (rnd_Z (a + m)) by lia. apply rnd_le. rewrite plus_IZR. lra. }
  assert (0 <= p) as P0 by (apply rnd_ge0; lra).
  assert (fin (f_ofZ 2) 2) as F2. { rewrite <- (rnd_Z 2) by lia. apply (f_ofZ_fin 2 1); lia. }
  assert (fin (f_div (f_add (f_ofZ a) (f_sqrt (f_ofZ D))) (f_ofZ 2)) (rnd (p / 2))) as Fd.
  { apply (f_div_fin _ _ _ _ 26); auto; [lia|]. rewrite bpow_IZR by lia. change (IZR (2 ^ 26)) with 67108864. rewrite plus_IZR in Pu. lra. }
  set (q := rnd (p / 2)) in *.
  assert (bpow radix2 (-1) = / 2) as b1 by reflexivity. assert (bpow radix2 (-27) = / 134217728) as b27 by reflexivity.
  assert (q <= IZR (a + m) / 2) as Qu.
  { assert (IZR (a + m) / 2 = IZR (a + m) * bpow radix2 (-1)) as E by (rewrite b1; field).
    rewrite E, <- (rnd_dyadic (a + m) (-1)) by lia. apply rnd_le. rewrite <- E. lra. }
  assert (IZR (a + m - 1) / 2 < q) as Ql.
  { destruct s_low as [[_ Es]|Ls].
    - assert (p = IZR (a + m)) as Ep. { unfold p. rewrite Es, <- plus_IZR. apply rnd_Z. lia. }
      assert (q = IZR (a + m) / 2) as ->.
      { unfold q. rewrite Ep. assert (IZR (a + m) / 2 = IZR (a + m) * bpow radix2 (-1)) as E by (rewrite b1; field).
        rewrite E. apply rnd_dyadic; lia. }
      rewrite minus_IZR. lra.
    - assert (IZR (a + m - 1) + bpow radix2 (-26) <= p) as Pl.
      { assert (IZR (a + m - 1) + bpow radix2 (-26) = IZR ((a + m - 1) * 2 ^ 26 + 1) * bpow radix2 (-26)) as E.
        { rewrite plus_IZR, mult_IZR. change (IZR (2 ^ 26)) with 67108864. rewrite b26. field. }
        destruct (Z.le_gt_cases 1 (a + m)) as [G|G].
        - rewrite E, <- (rnd_dyadic ((a + m - 1) * 2 ^ 26 + 1) (-26)) by lia. apply rnd_le. rewrite <- E.
          replace (a + m - 1)%Z with (a + (m - 1))%Z by lia. rewrite plus_IZR. lra.
        - assert (a + m = 0)%Z as -> by lia. rewrite b26. cbn. lra. }
      destruct (Z.le_gt_cases 1 (a + m)) as [G|G].
      + apply Rlt_le_trans with (IZR ((a + m - 1) * 2 ^ 26 + 1) * bpow radix2 (-27)).
        * rewrite plus_IZR, mult_IZR. change (IZR (2 ^ 26)) with 67108864. rewrite b27. lra.
        * rewrite <- (rnd_dyadic ((a + m - 1) * 2 ^ 26 + 1) (-27)) by lia. apply rnd_le.
          rewrite plus_IZR, mult_IZR. change (IZR (2 ^ 26)) with 67108864. rewrite b27. rewrite b26 in Pl. lra.
      + assert (a + m = 0)%Z as -> by lia. assert (0 <= q) by (apply rnd_ge0; lra). cbn. lra. }
  assert (Zceil q = (a + m + 1) / 2)%Z as Ec.
  { apply Zceil_imp. pose proof (Z.div_mod (a + m + 1) 2 ltac:(lia)). pose proof (Z.mod_pos_bound (a + m + 1) 2 ltac:(lia)).
    set (h := ((a + m + 1) / 2)%Z) in *. split.
    - apply Rle_lt_trans with (IZR (a + m - 1) / 2); auto. assert (IZR (2 * (h - 1)) <= IZR (a + m - 1)) as G by (apply IZR_le; lia).
      rewrite mult_IZR in G. lra.
    - apply Rle_trans with (IZR (a + m) / 2); auto. assert (IZR (a + m) <= IZR (2 * h)) as G by (apply IZR_le; lia).
      rewrite mult_IZR in G. lra. }
  rewrite (f_toU_ceil 128 _ q); auto; [lia|]. rewrite Ec. split; [apply Z.div_pos; lia|]. apply Z.le_trans with (2 ^ 26)%Z; [|lia].
  apply Z.div_le_upper_bound; lia.
Qed.
End Est.
Lemma estimate_f64_exact sop L d k : (0 <= sop)%Z -> (0 <= L)%Z -> (0 <= d)%Z -> (0 <= k)%Z ->
  let a := (sop * L)%Z in let c := (d / 2 + d * k + 1)%Z in
  (0 < a)%Z -> (a * a + 4 * a * c < 2 ^ 50)%Z ->
  estimate_bound_f64 sop L d k = Ok (Plus_Norm.estimate_bound sop L d k).
Proof.
  intros Hs HL Hd Hk a c Ha HD. assert (0 <= d / 2)%Z by (apply Z.div_pos; lia). assert (0 <= d * k)%Z by nia.
  assert (1 <= c)%Z by (unfold c; lia). assert (0 <= a * a /\ 0 <= a * c /\ a <= a * a /\ c <= a * c)%Z by nia.
  unfold estimate_bound_f64. fold a. rewrite (usz_ok a) by lia. cbn [bind]. rewrite (usz_ok (d * k)) by (unfold c in *; lia). cbn [bind].
  rewrite (usz_ok (d / 2 + d * k)) by (unfold c in *; lia). cbn [bind]. fold c. rewrite (usz_ok c) by lia. cbn [bind].
  rewrite (usz_ok (a * a)) by lia. cbn [bind]. rewrite (usz_ok (4 * a)) by lia. cbn [bind]. rewrite (usz_ok (4 * a * c)) by lia. cbn [bind].
  rewrite (usz_ok (a * a + 4 * a * c)) by lia. cbn [bind]. cbv zeta.
  rewrite (est_value a (a * a + 4 * a * c)); [reflexivity|lia|nia|auto].
Qed.

(** ** [check_ring_modulus_128_bits_security] *)
Section Sec.
Variables (powf : f64 -> f64 -> f64) (ln : f64 -> f64) (delta : f64).
Notation check := (check_128 powf ln delta).
Lemma bound_l2_range degree kappa lg : (0 <= calculate_bound_l2 powf ln delta degree kappa lg < 2 ^ 64)%Z.
Proof.
  unfold calculate_bound_l2. match goal with |- (0 <= f_toU 64 ?x < _)%Z => pose proof (f_toU_bound 64 x ltac:(lia)) end. lia.
Qed.
Lemma b_check_large v degree num_cols b : (0 <= v <= 2 ^ 64)%Z -> (1 <= degree < 2 ^ 64)%Z -> (1 <= num_cols < 2 ^ 64)%Z ->
  (2 ^ 64 <= b <= 2 ^ 128)%Z ->
  f_lt (f_ofZ b) (f_div (f_ofZ v) (f_sqrt (f_mul (f_ofZ degree) (f_ofZ num_cols)))) = false.
Proof.
  intros Hv Hd Hn Hb.
  assert (bpow radix2 64 = IZR (2 ^ 64)) as b64 by (apply bpow_IZR; lia).
  assert (forall x, (1 <= x < 2 ^ 64)%Z -> 1 <= rnd (IZR x) <= bpow radix2 64) as R64.
  { intros x Hx. split; [apply rnd_ge1; apply IZR_le; lia|]. apply (rnd_in (IZR x) 64); [lia|]. rewrite b64. split; apply IZR_le; lia. }
  pose proof (R64 degree Hd) as Rd. pose proof (R64 num_cols Hn) as Rn.
  assert (fin (f_mul (f_ofZ degree) (f_ofZ num_cols)) (rnd (rnd (IZR degree) * rnd (IZR num_cols)))) as Fm.
  { apply (f_mul_fin _ _ _ _ 128); [lia|apply (f_ofZ_fin _ 64); lia|apply (f_ofZ_fin _ 64); lia|].
    change 128%Z with (64 + 64)%Z. rewrite bpow_plus. split; [nra|]. apply Rmult_le_compat; lra. }
  assert (1 <= rnd (rnd (IZR degree) * rnd (IZR num_cols))) as G by (apply rnd_ge1; nra).
  set (g := rnd (rnd (IZR degree) * rnd (IZR num_cols))) in *.
  assert (fin (f_sqrt (f_mul (f_ofZ degree) (f_ofZ num_cols))) (rnd (sqrt g))) as Fs by (apply f_sqrt_fin; auto; lra).
  assert (1 <= rnd (sqrt g)) as S1 by (apply rnd_ge1; rewrite <- sqrt_1; apply sqrt_le_1_alt; auto).
  set (r := rnd (sqrt g)) in *.
  assert (0 <= rnd (IZR v) <= bpow radix2 64) as Rv. { apply rnd_in; [lia|]. rewrite b64. split; apply IZR_le; lia. }
  assert (0 <= rnd (IZR v) / r <= bpow radix2 64) as Q.
  { split; [unfold Rdiv; apply Rmult_le_pos; [lra|]; apply Rlt_le, Rinv_0_lt_compat; lra|]. apply Rle_trans with (rnd (IZR v)); [|lra].
    unfold Rdiv. rewrite <- (Rmult_1_r (rnd (IZR v))) at 2. apply Rmult_le_compat_l; [lra|]. rewrite <- Rinv_1. apply Rinv_le; lra. }
  assert (fin (f_div (f_ofZ v) (f_sqrt (f_mul (f_ofZ degree) (f_ofZ num_cols)))) (rnd (rnd (IZR v) / r))) as Fd.
  { apply (f_div_fin _ _ _ _ 64); auto; [lia|apply (f_ofZ_fin _ 64); lia|apply Rgt_not_eq; lra]. }
  rewrite (f_lt_fin _ _ (rnd (IZR b)) (rnd (rnd (IZR v) / r))); auto; [|apply (f_ofZ_fin _ 128); lia].
  apply Rlt_bool_false. apply Rle_trans with (bpow radix2 64); [apply rnd_in; [lia|auto]|].
  rewrite <- (rnd_bpow 64) by lia. apply rnd_le. rewrite b64. apply IZR_le. lia.
Qed.

(** Relative error of one rounding. *)
Definition ulp1 : R := / 9007199254740992.
Lemma rnd_rel x : bpow radix2 (-1000) <= x -> x * (1 - ulp1) <= rnd x <= x * (1 + ulp1).
Proof.
  intros Hx. pose proof (bpow_gt_0 radix2 (-1000)) as P.
  pose proof (relative_error_N_FLT radix2 (-1074) 53 ltac:(reflexivity) (fun x => negb (Z.even x)) x) as H.
  rewrite (Rabs_pos_eq x) in H by lra. specialize (H ltac:(apply Rle_trans with (2 := Hx); apply bpow_le; lia)).
  change (round radix2 (FLT_exp (-1074) 53) (Znearest (fun x => negb (Z.even x))) x) with (rnd x) in H.
  change (bpow radix2 (- (53) + 1)) with (/ 4503599627370496) in H. apply Rabs_le_inv in H. unfold ulp1. lra.
Qed.
Lemma bpow_small x : 1 <= x -> bpow radix2 (-1000) <= x.
Proof. intros. apply Rle_trans with (2 := H). change 1 with (bpow radix2 0). apply bpow_le. lia. Qed.
Lemma aux_u1 u x y : 0 < u < / 1000000 -> 1 <= x -> x * (1 - 2 * u) <= y -> x * (1 - 3 * u) <= y * (1 - u).
Proof. intros Hu Hx H. apply Rle_trans with (x * (1 - 2 * u) * (1 - u)); [|apply Rmult_le_compat_r; lra]. nra. Qed.
Lemma aux_u2 u : 0 < u < / 1000000 -> (1 - 2 * u) * (1 - 2 * u) <= (1 - u) * (1 - u) * (1 - u).
Proof. intros. nra. Qed.
Lemma aux_u3 u : 0 < u < / 1000000 -> (1 + u) * (1 + u) <= (1 + 8 * u) * ((1 - u) * (1 - 3 * u)).
Proof. intros. nra. Qed.
Lemma aux_u4 u : 0 < u < / 1000000 -> 0 < (1 - u) * (1 - 3 * u).
Proof. intros. nra. Qed.
Lemma b_check_small v degree num_cols b : (0 <= v <= 2 ^ 64)%Z -> (1 <= degree < 2 ^ 64)%Z -> (1 <= num_cols < 2 ^ 64)%Z ->
  (1 <= b <= 2 ^ 128)%Z ->
  f_lt (f_ofZ b) (f_div (f_ofZ v) (f_sqrt (f_mul (f_ofZ degree) (f_ofZ num_cols)))) = true ->
  IZR b * sqrt (IZR degree * IZR num_cols) <= IZR v * (1 + 8 * ulp1).
Proof.
  intros Hv Hd Hn Hb.
  assert (bpow radix2 64 = IZR (2 ^ 64)) as b64 by (apply bpow_IZR; lia).
  assert (forall x, (1 <= x < 2 ^ 64)%Z -> 1 <= rnd (IZR x) <= bpow radix2 64) as R64.
  { intros x Hx. split; [apply rnd_ge1; apply IZR_le; lia|]. apply (rnd_in (IZR x) 64); [lia|]. rewrite b64. split; apply IZR_le; lia. }
  pose proof (R64 degree Hd) as Rd. pose proof (R64 num_cols Hn) as Rn.
  assert (fin (f_mul (f_ofZ degree) (f_ofZ num_cols)) (rnd (rnd (IZR degree) * rnd (IZR num_cols)))) as Fm.
  { apply (f_mul_fin _ _ _ _ 128); [lia|apply (f_ofZ_fin _ 64); lia|apply (f_ofZ_fin _ 64); lia|].
    change 128%Z with (64 + 64)%Z. rewrite bpow_plus. split; [nra|]. apply Rmult_le_compat; lra. }
  assert (1 <= rnd (rnd (IZR degree) * rnd (IZR num_cols))) as G by (apply rnd_ge1; nra).
  assert (rnd (rnd (IZR degree) * rnd (IZR num_cols)) <= bpow radix2 128) as G'.
  { rewrite <- (rnd_bpow 128) by lia. apply rnd_le. change 128%Z with (64 + 64)%Z. rewrite bpow_plus. apply Rmult_le_compat; lra. }
  set (g := rnd (rnd (IZR degree) * rnd (IZR num_cols))) in *.
  assert (fin (f_sqrt (f_mul (f_ofZ degree) (f_ofZ num_cols))) (rnd (sqrt g))) as Fs by (apply f_sqrt_fin; auto; lra).
  assert (1 <= sqrt g) as Sg by (rewrite <- sqrt_1; apply sqrt_le_1_alt; auto).
  assert (1 <= rnd (sqrt g)) as S1 by (apply rnd_ge1; auto).
  assert (rnd (sqrt g) <= bpow radix2 64) as S2.
  { rewrite <- (rnd_bpow 64) by lia. apply rnd_le. rewrite <- (sqrt_Rsqr (bpow radix2 64)) by apply bpow_ge_0. apply sqrt_le_1_alt.
    unfold Rsqr. rewrite <- bpow_plus. exact G'. }
  set (r := rnd (sqrt g)) in *.
  assert (0 <= rnd (IZR v) <= bpow radix2 64) as Rv. { apply rnd_in; [lia|]. rewrite b64. split; apply IZR_le; lia. }
  assert (0 < / r) as Ir by (apply Rinv_0_lt_compat; lra).
  assert (0 <= rnd (IZR v) / r <= bpow radix2 64) as Q.
  { split; [unfold Rdiv; nra|]. apply Rle_trans with (rnd (IZR v)); [|lra].
    unfold Rdiv. rewrite <- (Rmult_1_r (rnd (IZR v))) at 2. apply Rmult_le_compat_l; [lra|]. rewrite <- Rinv_1. apply Rinv_le; lra. }
  assert (fin (f_div (f_ofZ v) (f_sqrt (f_mul (f_ofZ degree) (f_ofZ num_cols)))) (rnd (rnd (IZR v) / r))) as Fd.
  { apply (f_div_fin _ _ _ _ 64); auto; [lia|apply (f_ofZ_fin _ 64); lia|apply Rgt_not_eq; lra]. }
  rewrite (f_lt_fin _ _ (rnd (IZR b)) (rnd (rnd (IZR v) / r))); auto; [|apply (f_ofZ_fin _ 128); lia].
  intros H. destruct (Rlt_bool_spec (rnd (IZR b)) (rnd (rnd (IZR v) / r))) as [Hlt|]; [|discriminate]. clear H.
  assert (1 <= IZR b) as B1 by (apply IZR_le; lia). assert (1 <= rnd (IZR b)) as B1' by (apply rnd_ge1; auto).
  assert (1 <= v)%Z as V1.
  { destruct (Z.eq_dec v 0) as [->|]; [|lia]. exfalso. rewrite rnd_0 in Hlt. unfold Rdiv in Hlt. rewrite Rmult_0_l, rnd_0 in Hlt. lra. }
  assert (1 <= IZR v) as V1' by (apply IZR_le; lia).
  assert (0 < ulp1 < / 1000000) as Hu by (unfold ulp1; lra). set (u := ulp1) in *.
  assert (1 <= IZR degree) as D1 by (apply IZR_le; lia). assert (1 <= IZR num_cols) as N1 by (apply IZR_le; lia).
  pose proof (proj1 (rnd_rel (IZR b) (bpow_small _ B1))) as E1.
  pose proof (proj2 (rnd_rel (IZR v) (bpow_small _ V1'))) as E2.
  pose proof (proj1 (rnd_rel (IZR degree) (bpow_small _ D1))) as E3.
  pose proof (proj1 (rnd_rel (IZR num_cols) (bpow_small _ N1))) as E4.
  assert (1 <= rnd (IZR degree) * rnd (IZR num_cols)) as DN1 by (rewrite <- (Rmult_1_l 1); apply Rmult_le_compat; lra).
  pose proof (proj1 (rnd_rel (rnd (IZR degree) * rnd (IZR num_cols)) (bpow_small _ DN1))) as E5.
  pose proof (proj1 (rnd_rel (sqrt g) (bpow_small _ Sg))) as E6. fold u in E1, E2, E3, E4, E5, E6. fold g in E5. fold r in E6.
  assert (1 <= rnd (IZR v)) as V1'' by (apply rnd_ge1; auto).
  assert (bpow radix2 (-64) <= / r) as Ir'. { change (-64)%Z with (- (64))%Z. rewrite bpow_opp. apply Rinv_le; lra. }
  assert (bpow radix2 (-1000) <= rnd (IZR v) / r) as Qs.
  { apply Rle_trans with (bpow radix2 (-64)); [apply bpow_le; lia|]. unfold Rdiv. rewrite <- (Rmult_1_l (bpow radix2 (-64))).
    apply Rmult_le_compat; [lra|apply bpow_ge_0|auto|auto]. }
  pose proof (proj2 (rnd_rel _ Qs)) as E7. fold u in E7.
  set (dn := IZR degree * IZR num_cols) in *. assert (1 <= dn) as Hdn by (unfold dn; nra).
  assert (dn * ((1 - u) * (1 - u) * (1 - u)) <= g) as Hg.
  { apply Rle_trans with (2 := E5). replace (dn * ((1 - u) * (1 - u) * (1 - u))) with ((IZR degree * (1 - u)) * (IZR num_cols * (1 - u)) * (1 - u)) by (unfold dn; ring).
    apply Rmult_le_compat_r; [lra|]. apply Rmult_le_compat; [apply Rmult_le_pos; lra|apply Rmult_le_pos; lra|auto|auto]. }
  assert (sqrt dn * (1 - 2 * u) <= sqrt g) as Hsg.
  { rewrite <- (sqrt_square (1 - 2 * u)) by lra. rewrite <- sqrt_mult; [|lra|apply Rmult_le_pos; lra]. apply sqrt_le_1_alt. apply Rle_trans with (2 := Hg).
    apply Rmult_le_compat_l; [lra|]. apply aux_u2; auto. }
  assert (1 <= sqrt dn) as Hsd by (rewrite <- sqrt_1; apply sqrt_le_1_alt; auto).
  assert (sqrt dn * (1 - 3 * u) <= r) as Hr. { apply Rle_trans with (2 := E6). apply aux_u1; auto. }
  set (x := sqrt dn) in *.
  assert (IZR b * (1 - u) * r <= IZR v * (1 + u) * (1 + u)) as F.
  { assert (IZR b * (1 - u) <= rnd (IZR v) / r * (1 + u)) as F0 by lra.
    apply (Rmult_le_compat_r r) in F0; [|lra].
    replace (rnd (IZR v) / r * (1 + u) * r) with (rnd (IZR v) * (1 + u)) in F0 by (field; lra).
    apply Rle_trans with (1 := F0). apply Rmult_le_compat_r; lra. }
  assert (IZR b * x * ((1 - u) * (1 - 3 * u)) <= IZR v * ((1 + u) * (1 + u))) as F'.
  { apply Rle_trans with (IZR b * (1 - u) * r); [|lra].
    replace (IZR b * x * ((1 - u) * (1 - 3 * u))) with (IZR b * (1 - u) * (x * (1 - 3 * u))) by ring. apply Rmult_le_compat_l; [apply Rmult_le_pos; lra|auto]. }
  assert ((1 + u) * (1 + u) <= (1 + 8 * u) * ((1 - u) * (1 - 3 * u))) as K by (apply aux_u3; auto).
  assert (0 < (1 - u) * (1 - 3 * u)) as Kp by (apply aux_u4; auto).
  apply Rmult_le_reg_r with ((1 - u) * (1 - 3 * u)); auto. apply Rle_trans with (1 := F').
  apply Rle_trans with (IZR v * ((1 + 8 * u) * ((1 - u) * (1 - 3 * u)))); [apply Rmult_le_compat_l; lra|]. right. ring.
Qed.
End Sec.
