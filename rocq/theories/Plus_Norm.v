(** How large the folded witness of LatticeFold+ can get, and parameters for which every honest step is accepted. *)
From Coq Require Import String List Arith Lia ZArith Bool Ring.
From Verif Require Import Prelude Alg MLE MLE_Proofs Transcript Sumcheck Sumcheck_Proofs Arith Arith_Proofs Balanced
  Rings Rings_Proofs PlusRing PlusUtils_Proofs SetCheck SetCheck_Proofs RangeCheck RangeCheck_Proofs Cm Cm_Proofs Plus Plus_Proofs.
Import ListNotations.
Local Open Scope rs_scope.

(** utils.rs 102-112 [estimate_bound], in exact arithmetic (the code computes the square root in [f64]):
    the ceiling of (a + sqrt (a^2 + 4 a c)) / 2. *)
Definition estimate_bound (sop L d k : Z) : Z :=
  let a := (sop * L)%Z in
  let c := (d / 2 + d * k + 1)%Z in
  ((a + Z.sqrt_up (a * a + 4 * a * c) + 1) / 2)%Z.
Lemma estimate_bound_least sop L d k b : (0 < sop * L)%Z -> (0 < d / 2 + d * k + 1)%Z -> (0 <= b)%Z ->
  ((estimate_bound sop L d k <= b)%Z <-> (sop * L * (b + (d / 2 + d * k + 1)) <= b * b)%Z).
Proof.
  intros Ha Hc Hb. unfold estimate_bound. set (a := (sop * L)%Z) in *. set (c := (d / 2 + d * k + 1)%Z) in *. cbv zeta.
  set (D := (a * a + 4 * a * c)%Z). assert (0 <= D)%Z as HD by (unfold D; nia).
  assert ((a + Z.sqrt_up D + 1) / 2 <= b <-> Z.sqrt_up D <= 2 * b - a)%Z as ->.
  { split; intros H.
    - pose proof (Z.div_mod (a + Z.sqrt_up D + 1) 2 ltac:(lia)). pose proof (Z.mod_pos_bound (a + Z.sqrt_up D + 1) 2 ltac:(lia)). lia.
    - apply Z.lt_succ_r. apply Z.div_lt_upper_bound; lia. }
  pose proof (Z.sqrt_up_nonneg D) as Hs. split; intros H.
  - assert (D <= (2 * b - a) * (2 * b - a))%Z.
    { apply Z.sqrt_up_le_square; lia. }
    unfold D in *. nia.
  - destruct (Z.le_gt_cases 0 (2 * b - a)) as [Hp|Hn].
    + apply Z.sqrt_up_le_square; auto. unfold D. nia.
    + exfalso. nia.
Qed.

Section Norm.
Context {K R T : Type} {PO : POps K R} {TO : TransOps T R K} {p : Z} {PL : PLaws K R p}.
Add Ring Rring54 : (@rlaws_th R _ (pl_R (p := p))).
Add Ring Kring54 : (@rlaws_th K _ (fld_laws (FieldLaws := pl_K (p := p)))).

(** All coefficients are at most [c] in absolute value. *)
Definition bnd (c : Z) (x : R) : Prop := forall j, (Z.abs (psigned (nth j (pcoeffs x) 0%rs : K)) <= c)%Z.
Lemma psigned_add (a b : K) : (Z.abs (psigned ((a + b)%rs : K)) <= Z.abs (psigned a) + Z.abs (psigned b))%Z.
Proof.
  destruct (Z.lt_ge_cases (2 * Z.abs (psigned a + psigned b)) p) as [H|H].
  - pose proof (psigned_small (psigned a + psigned b) H) as E. rewrite (rofZ_add (R := K)), !psigned_val in E. rewrite E. lia.
  - pose proof (psigned_bound (p := p) (a + b)). lia.
Qed.
Lemma psigned_zero : psigned (0 : K) = 0%Z.
Proof. rewrite <- (rofZ_0 (R := K)). apply psigned_small. pose proof (pp_odd (p := p)). cbn. lia. Qed.
Lemma psigned_one : psigned (1 : K) = 1%Z.
Proof. rewrite <- (rofZ_1 (R := K)). apply psigned_small. pose proof (pp_odd (p := p)). cbn. lia. Qed.
Lemma bnd_add c d x y : bnd c x -> bnd d y -> bnd (c + d) (x + y).
Proof. intros Hx Hy j. rewrite (nth_pcoeffs_add (p := p)). specialize (Hx j). specialize (Hy j). pose proof (psigned_add (nth j (pcoeffs x) 0) (nth j (pcoeffs y) 0)). lia. Qed.
Lemma bnd_mono c d x : (c <= d)%Z -> bnd c x -> bnd d x.
Proof. intros H Hx j. specialize (Hx j). lia. Qed.
Lemma bnd_zero c : (0 <= c)%Z -> bnd c 0.
Proof. intros H j. rewrite (nth_pcoeffs_0 (p := p)), psigned_zero. cbn. auto. Qed.
Lemma bnd_sumn n c (f : nat -> R) : (0 <= c)%Z -> (forall i, (i < n)%nat -> bnd c (f i)) -> bnd (Z.of_nat n * c) (sumn n f).
Proof.
  intros Hc. induction n as [|n IH]; intros H; cbn [sumn]; [apply bnd_zero; lia|].
  replace (Z.of_nat (S n) * c)%Z with (Z.of_nat n * c + c)%Z by lia. apply bnd_add; [apply IH; intros; apply H; lia|apply H; lia].
Qed.
Lemma bnd_mono_elt (x : R) : in_monos x -> bnd 1 x.
Proof.
  intros [->|(i & Hi & ->)]; [apply bnd_zero; lia|]. intros j. rewrite (pcoeffs_mono (p := p)).
  destruct (Nat.lt_ge_cases j pdim) as [Hj|Hj].
  - rewrite (nth_unit_vec (K := K)) by auto. destruct (j =? i)%nat; rewrite ?psigned_one, ?psigned_zero; cbn; lia.
  - rewrite nth_overflow by (unfold unit_vec; rewrite map_length, seq_length; auto). rewrite psigned_zero. cbn. lia.
Qed.
Lemma bnd_emb c (a : K) : (Z.abs (psigned a) <= c)%Z -> bnd c (emb a).
Proof.
  intros H j. replace (emb a : R) with (emb a * (1 : R)) by ring. rewrite (nth_pcoeffs_scale (p := p)), pcoeffs_one.
  pose proof (Z.abs_nonneg (psigned a)).
  destruct (Nat.lt_ge_cases j pdim) as [Hj|Hj].
  - rewrite (nth_unit_vec (K := K)) by auto. destruct (j =? 0)%nat.
    + replace (a * 1) with a by ring. auto.
    + replace (a * 0) with (0 : K) by ring. rewrite psigned_zero. cbn. lia.
  - rewrite nth_overflow by (unfold unit_vec; rewrite map_length, seq_length; auto). replace (a * 0) with (0 : K) by ring. rewrite psigned_zero. cbn. lia.
Qed.
Lemma within_bnd c f x : within (2 * c) f -> In x f -> bnd c x.
Proof.
  intros H Hx j. unfold within in H. rewrite Forall_forall in H. specialize (H x Hx). rewrite Forall_forall in H.
  destruct (Nat.lt_ge_cases j pdim) as [Hj|Hj].
  - assert (In (nth j (pcoeffs x) 0) (pcoeffs x)) as HI by (apply nth_In; rewrite (pcoeffs_length (p := p)); auto). specialize (H _ HI). lia.
  - rewrite nth_overflow by (rewrite (pcoeffs_length (p := p)); auto). rewrite psigned_zero.
    assert (0 < pdim)%nat as Hp by (pose proof (pdim_pos (p := p)); lia).
    assert (In (nth 0 (pcoeffs x) 0) (pcoeffs x)) as HI by (apply nth_In; rewrite (pcoeffs_length (p := p)); auto). specialize (H _ HI).
    change (Z.abs 0) with 0%Z. lia.
Qed.
Lemma bnd_within c f : (forall x, In x f -> bnd c x) -> within (2 * c) f.
Proof.
  intros H. apply Forall_forall. intros x Hx. apply Forall_forall. intros a Ha. apply (In_nth _ _ 0) in Ha as (j & Hj & <-). specialize (H x Hx j). lia.
Qed.
Lemma within_mono c d f : (c <= d)%Z -> within c f -> within d f.
Proof. intros H Hf. unfold within in *. eapply Forall_impl; [|exact Hf]. intros x Hx. eapply Forall_impl; [|exact Hx]. intros a Ha. cbv beta in Ha. lia. Qed.

(** The challenges of cm.rs: coefficients in [-u/2, u/2) with u = 2^(128/d). *)
Definition short128 (c : R) : Prop := exists zs, pcoeffs c = map rofZ zs /\
  Forall (fun z => (- (2 ^ Z.of_nat (128 / pdim) / 2) <= z < 2 ^ Z.of_nat (128 / pdim) - 2 ^ Z.of_nat (128 / pdim) / 2)%Z) zs.
(** The largest coefficient of such a challenge. *)
Definition short_max : Z := (2 ^ Z.of_nat (128 / pdim) / 2)%Z.
(** Multiplication by such a challenge expands the norm by at most [sop] (the operator norm of the challenge set). *)
Definition expansion (sop : Z) : Prop := forall c x n, short128 c -> (0 <= n)%Z -> bnd n x -> bnd (sop * n) (c * x).
(** Multiplication by a monomial does not enlarge coefficients, as modulo X^d + 1. *)
Definition mono_isometry : Prop := forall i x n, (i < pdim)%nat -> (0 <= n)%Z -> bnd n x -> bnd n (pmono i * x).

Lemma psigned_rofZ z : (Z.abs (psigned (rofZ z : K)) <= Z.abs z)%Z.
Proof.
  destruct (Z.lt_ge_cases (2 * Z.abs z) p) as [H|H]; [rewrite psigned_small by auto; lia|]. pose proof (psigned_bound (p := p) (rofZ z)). lia.
Qed.
Lemma short_max_nonneg : (0 <= short_max)%Z.
Proof. unfold short_max. apply Z.div_pos; [|lia]. pose proof (Z.pow_pos_nonneg 2 (Z.of_nat (128 / pdim))). lia. Qed.
Lemma psigned_scale (c a : K) m n : (Z.abs (psigned c) <= m)%Z -> (Z.abs (psigned a) <= n)%Z -> (Z.abs (psigned (c * a)%rs) <= m * n)%Z.
Proof.
  intros Hc Ha. pose proof (psigned_rofZ (psigned c * psigned a)) as H. rewrite (rofZ_mul (R := K)), !psigned_val, Z.abs_mul in H. nia.
Qed.
Lemma bnd_emb_mul m n (a : K) x : (Z.abs (psigned a) <= m)%Z -> bnd n x -> bnd (m * n) (emb a * x).
Proof. intros Ha Hx j. rewrite (nth_pcoeffs_scale (p := p)). apply psigned_scale; auto. Qed.
Lemma short_bnd c : short128 c -> bnd short_max c.
Proof.
  intros (zs & E & H) j. rewrite E. destruct (Nat.lt_ge_cases j (length zs)) as [Hj|Hj].
  - rewrite (nth_map_lt _ _ _ 0%Z) by auto. rewrite Forall_forall in H. specialize (H (nth j zs 0%Z) (nth_In _ _ Hj)).
    pose proof (psigned_rofZ (nth j zs 0%Z)). unfold short_max. set (u := (2 ^ Z.of_nat (128 / pdim))%Z) in *.
    pose proof (Z.div_mod u 2 ltac:(lia)). pose proof (Z.mod_pos_bound u 2 ltac:(lia)).
    destruct (Z.eq_dec (u mod 2) 0) as [E0|E0]; [lia|].
    assert (u = 1)%Z as U1.
    { unfold u in *. destruct (128 / pdim)%nat as [|m] eqn:Em; [reflexivity|]. exfalso. apply E0. rewrite Nat2Z.inj_succ, Z.pow_succ_r by lia.
      rewrite Z.mul_comm. apply Z.mod_mul. lia. }
    rewrite U1 in *. cbn in H |- *. assert (nth j zs 0%Z = 0%Z) as -> by lia. rewrite (rofZ_0 (R := K)), psigned_zero. cbn. lia.
  - rewrite nth_overflow by (rewrite map_length; auto). rewrite psigned_zero. apply short_max_nonneg.
Qed.
Lemma monos_expand x : mono_isometry -> in_monos x -> forall c n, (0 <= n)%Z -> bnd n c -> bnd n (c * x).
Proof.
  intros HM [->|(i & Hi & ->)] c n Hn Hc.
  - replace (c * 0) with (0 : R) by ring. apply bnd_zero. auto.
  - replace (c * pmono i) with (pmono i * c) by ring. apply HM; auto.
Qed.
Lemma pcoeffs_sum (x : R) : x = sumn pdim (fun i => emb (nth i (pcoeffs x) 0) * pmono i).
Proof.
  apply (pcoeffs_ext (p := p)). intros j Hj. rewrite (nth_pcoeffs_sumn (p := p)).
  rewrite (sumn_ext _ _ (fun i => if (j =? i)%nat then nth j (pcoeffs x) 0 else 0)).
  - symmetry. rewrite (sumn_single pdim j); auto.
    + rewrite Nat.eqb_refl. auto.
    + intros i Hi Hne. destruct (Nat.eqb_spec j i); [congruence|auto].
  - intros i Hi. rewrite (nth_pcoeffs_scale (p := p)), (pcoeffs_mono (p := p)), (nth_unit_vec (K := K)) by auto.
    destruct (Nat.eqb_spec j i) as [->|]; ring.
Qed.
Lemma isometry_expansion : mono_isometry -> expansion (Z.of_nat pdim * short_max).
Proof.
  intros HM c x n Hc Hn Hx. rewrite (pcoeffs_sum c). rewrite <- (sumn_mul_r (R := R)).
  replace (Z.of_nat pdim * short_max * n)%Z with (Z.of_nat pdim * (short_max * n))%Z by lia. pose proof short_max_nonneg.
  apply bnd_sumn; [nia|]. intros i Hi. replace (emb (nth i (pcoeffs c) 0) * pmono i * x) with (emb (nth i (pcoeffs c) 0) * (pmono i * x)) by ring.
  apply bnd_emb_mul; [apply (short_bnd c Hc)|]. apply HM; auto.
Qed.

Lemma short_challenges_short m (ts : T) s ts' : good_bytes -> (128 / pdim < 64)%nat -> short_challenges 128 m ts = Ok (s, ts') -> Forall short128 s.
Proof.
  intros HB Hl. unfold short_challenges. generalize (seq 0 m) as sq. intros sq. revert s ts ts'; induction sq as [|a sq IH]; intros s ts ts' H; cbn [mapT] in H; cbv beta in H.
  { apply ok_inj in H. injection H as <- <-. apply Forall_nil. }
  destruct (short_challenge_range (p := p) 128 ts HB Hl) as (c & zs & E & E1 & E2). rewrite E in H. cbn [bind] in H.
  apply bind_ok_inv in H as ([bs t2] & E3 & H). apply ok_inj in H. injection H as <- <-. apply Forall_cons; [exists zs; auto|]. eapply IH. exact E3.
Qed.
Lemma cm_challenges_short k (ts : T) s s' ts' : good_bytes -> (128 / pdim < 64)%nat -> cm_challenges k ts = Ok (s, s', ts') ->
  Forall short128 s /\ Forall (fun c => Forall short128 c) s' /\ Forall (fun c => length c = pdim) s'.
Proof.
  intros HB Hl H. unfold cm_challenges in H. apply bind_ok_inv in H as ([s1 ts1] & E1 & H). apply bind_ok_inv in H as ([s2 ts2] & E2 & H).
  apply ok_inj in H. injection H as <- <- <-. split; [eapply short_challenges_short; eauto|]. revert E2. clear E1. generalize (seq 0 k) as sq. intros sq. revert s2 ts1 ts2.
  induction sq as [|a sq IH]; intros s2 ts1 ts2 H; cbn [mapT] in H; cbv beta in H.
  { apply ok_inj in H. injection H as <- <-. split; apply Forall_nil. }
  apply bind_ok_inv in H as ([c t1] & E & H). apply bind_ok_inv in H as ([bs t2] & E3 & H). apply ok_inj in H. injection H as <- <-.
  destruct (IH _ _ _ E3) as [I1 I2]. split; apply Forall_cons; auto; [eapply short_challenges_short; eauto|].
  destruct (short_challenges_ok 128 pdim ts1 Hl) as (c' & t' & E' & L'). rewrite E in E'. apply ok_inj in E'. injection E' as <- <-. auto.
Qed.

(** One folded instance. *)
Lemma folded_bnd sop F n s s' x g A P : mono_isometry -> expansion sop -> (0 <= sop)%Z -> (0 <= F)%Z -> cm_inst ri_f A P n x -> within (2 * F) (ri_f x) ->
  Forall short128 s -> length s = 3%nat -> Forall (fun c => Forall short128 c) s' -> Forall (fun c => length c = pdim) s' -> length s' = rp_k P ->
  folded n s s' x g -> forall y, In y g -> bnd (short_max * (Z.of_nat (pdim / 2) + 1 + Z.of_nat (rp_k P * pdim)) + sop * F) y.
Proof.
  intros HM HE Hs0 HF [[W1 W2 W3 W4 W5 W6 W7] _ _ _ _ _] Hf Hs Ls Hs' Ls' Lk [Lg Hg] y Hy.
  apply (In_nth _ _ 0) in Hy as (a & Ha & <-). rewrite Lg in Ha. rewrite Hg by auto.
  assert (forall i, (i < 3)%nat -> short128 (nth i s 0)) as Hsi by (intros i Hi; rewrite Forall_forall in Hs; apply Hs, nth_In; lia).
  assert (Hm : in_monos (nth a (ri_mtau x) 0)) by (rewrite Forall_forall in W6; apply W6, nth_In; lia).
  pose proof short_max_nonneg as H0.
  replace (short_max * (Z.of_nat (pdim / 2) + 1 + Z.of_nat (rp_k P * pdim)) + sop * F)%Z
    with (Z.of_nat (pdim / 2) * short_max + short_max + sop * F + Z.of_nat (rp_k P) * (Z.of_nat pdim * short_max))%Z by lia.
  apply bnd_add; [apply bnd_add; [apply bnd_add|]|].
  - match goal with |- context [nth 0 s 0 * ?e] => replace (nth 0 s 0 * e) with (e * nth 0 s 0) by ring end.
    apply bnd_emb_mul; [|apply short_bnd; auto]. rewrite <- W7.
    rewrite (nth_map_lt _ _ _ 0) by lia. destruct Hm as [E|(i & Hi & E)]; rewrite E.
    + rewrite (klin_0 psi_ct (klin_psi (p := p))), psigned_zero. cbn. lia.
    + destruct (ppsi_mono (p := p) i Hi) as (z & Hz & Ez). unfold psi_ct. rewrite Ez.
      pose proof (psigned_rofZ z). rewrite Nat2Z.inj_div. change (Z.of_nat 2) with 2%Z. apply Z.div_le_lower_bound; lia.
  - apply monos_expand; auto. apply short_bnd. auto.
  - apply HE; [apply Hsi; lia|lia|]. apply (within_bnd F (ri_f x)); auto. apply nth_In. lia.
  - rewrite Lk. apply bnd_sumn; [lia|]. intros i Hi. apply bnd_sumn; [lia|]. intros j Hj.
    replace (nth j (nth a (nth i (ri_Mf x) []) []) 0 * nth j (nth i s' []) 0) with (nth j (nth i s' []) 0 * nth j (nth a (nth i (ri_Mf x) []) []) 0) by ring.
    apply monos_expand; auto.
    + rewrite Forall_forall in W3. assert (In (nth i (ri_Mf x) []) (ri_Mf x)) as HI1 by (apply nth_In; lia). destruct (W3 _ HI1) as [Q1 Q2].
      rewrite Forall_forall in Q2. assert (In (nth a (nth i (ri_Mf x) []) []) (nth i (ri_Mf x) [])) as HI2 by (apply nth_In; lia). destruct (Q2 _ HI2) as [Q3 Q4].
      rewrite Forall_forall in Q4. apply Q4, nth_In. lia.
    + apply short_bnd. rewrite Forall_forall in Hs'. assert (In (nth i s' []) s') as HI by (apply nth_In; lia). specialize (Hs' _ HI). rewrite Forall_forall in Hs'. apply Hs', nth_In.
      rewrite Forall_forall in Ls'. rewrite (Ls' (nth i s' [])) by auto. auto.
Qed.
Lemma vsum_bnd n c gs : (0 <= c)%Z -> Forall (fun g : list R => length g = n /\ forall y, In y g -> bnd c y) gs ->
  forall y, In y (vsum n gs) -> bnd (Z.of_nat (length gs) * c) y.
Proof.
  intros Hc HF. unfold vsum.
  assert (forall acc a0, length acc = n -> (0 <= a0)%Z -> (forall y, In y acc -> bnd a0 y) ->
    forall y, In y (fold_left (fun acc v => zipl radd acc v) gs acc) -> bnd (a0 + Z.of_nat (length gs) * c) y) as H.
  { induction HF as [|g gs [Lg Hg] _ IH]; intros acc a0 La Ha0 Hacc y Hy.
    - apply Hacc in Hy. replace (a0 + Z.of_nat (@length (list R) []) * c)%Z with a0 by (cbn; lia). auto.
    - cbn [fold_left] in Hy. replace (a0 + Z.of_nat (length (g :: gs)) * c)%Z with ((a0 + c) + Z.of_nat (length gs) * c)%Z by (cbn [length]; lia).
      apply (IH (zipl radd acc g)); auto; [rewrite zipl_length; auto|lia|].
      intros z Hz. apply (In_nth _ _ 0) in Hz as (i & Hi & <-). rewrite zipl_length in Hi. rewrite (zipl_add_nth (p := p)) by congruence.
      apply bnd_add; [apply Hacc, nth_In; auto|apply Hg, nth_In; lia]. }
  intros y Hy. apply (H (repeat 0 n) 0%Z); auto; [apply repeat_length|lia|].
  intros z Hz. apply repeat_spec in Hz as ->. apply bnd_zero. lia.
Qed.

(** The bound on everything folded in one step. *)
Definition fold_bound (sop F : Z) (L k : nat) : Z := (Z.of_nat L * (short_max * (Z.of_nat (pdim / 2) + 1 + Z.of_nat (k * pdim)) + sop * F))%Z.
Theorem folds_bounded sop F acc A M pp comps nv (ts : T) g :
  cm_setting (p := p) (map lb_f acc ++ map cr_f comps) A (pl_dec pp) nv M -> pl_kappa pp = kappa A -> Forall (comp_ok nv) comps ->
  good_bytes (T := T) -> mono_isometry -> expansion sop -> (0 <= sop)%Z -> (0 <= F)%Z -> Forall (within (2 * F)) (map lb_f acc ++ map cr_f comps) ->
  folds_to acc A M pp comps ts g -> within (2 * fold_bound sop F (length acc + length comps) (rp_k (pl_dec pp))) g.
Proof.
  intros HS Hk HC HG HM HE H0 HF HW (ls & ts1 & x & proof & ts2 & L1 & M1). pose proof HS as [H1 H2 H3 H4 H5 H6 H7 H8 H9 H10 H11 H12 H13 H14 H15].
  destruct (linearize_all (p := p) nv comps ts H1 H2 HC) as (ls' & bs & ts1' & L1' & L2 & L3). rewrite L1 in L1'. apply ok_inj in L1'. injection L1' as <- <-.
  assert (map lb_f (acc ++ map fst ls) = map lb_f acc ++ map cr_f comps) as EL by (rewrite map_app, map_map, L3; auto).
  assert (cm_setting (p := p) (map lb_f (acc ++ map fst ls)) A (pl_dec pp) nv M) as HS' by (rewrite EL; exact HS).
  destruct (mlin_complete (p := p) (acc ++ map fst ls) pp A M nv ts1 HS' Hk) as (g' & x' & cmp & ts3 & ro0 & ro1 & x2 & Q1 & _ & _ & _ & _ & _ & _ & _ & Q).
  rewrite M1 in Q1. apply ok_inj in Q1. injection Q1 as <- <- <- <-.
  destruct Q as (insts & s & s' & gs & tsa & tsb & Q1 & Q2 & Q3 & Q4 & Q5 & Q6 & ->). rewrite EL in Q1.
  assert (128 / pdim < 64)%nat as Hl by (apply Nat.div_lt_upper_bound; lia).
  destruct (cm_challenges_short _ _ _ _ _ HG Hl Q3) as (S1 & S2 & S3).
  apply bnd_within. unfold fold_bound.
  assert (length gs = (length acc + length comps)%nat) as Lgs.
  { rewrite <- (map_length lb_f acc), <- (map_length cr_f comps), <- app_length, <- Q1, map_length. clear - Q6. induction Q6; cbn [length]; auto. }
  rewrite <- Lgs. pose proof short_max_nonneg. apply vsum_bnd; [nia|].
  rewrite <- Q1 in HW. clear Lgs Q1 M1. induction Q6 as [|i g insts gs Hg _ IH]; auto. cbn [map] in HW. inversion HW as [|? ? HW1 HW2]. inversion Q2 as [|? ? Q21 Q22]. subst.
  apply Forall_cons; auto. split; [apply Hg|]. eapply folded_bnd; eauto.
Qed.

(** Parameters for which no honest step can overflow: the bound of [L] instances with coefficients up to [B/2] fits in two
    base-[B] digits, and base-[B] digits fit the range check. *)
Record good_params (sop : Z) (L : nat) (pp : plus_params) : Prop := GoodParams {
  gp_sop : (0 <= sop)%Z; gp_B : (2 <= pl_B pp)%Z; gp_Bp : (pl_B pp < p)%Z;
  gp_cap : (pl_B pp <= rp_b (pl_dec pp) ^ Z.of_nat (rp_k (pl_dec pp)))%Z;
  gp_fit : (2 * fold_bound sop (pl_B pp / 2) L (rp_k (pl_dec pp)) <= pl_B pp ^ 2)%Z }.

Lemma within_half c f : within c f -> within (2 * (c / 2)) f.
Proof.
  intros H. unfold within in *. eapply Forall_impl; [|exact H]. intros x Hx. eapply Forall_impl; [|exact Hx]. intros a Ha. cbv beta in *.
  pose proof (Z.div_mod c 2 ltac:(lia)). pose proof (Z.mod_pos_bound c 2 ltac:(lia)). lia.
Qed.
Theorem plus_step_complete sop L acc A M pp comps nv (ts : T) :
  good_params sop L pp -> mono_isometry -> expansion sop -> good_bytes (T := T) -> (length acc + length comps <= L)%nat ->
  cm_setting (p := p) (map lb_f acc ++ map cr_f comps) A (pl_dec pp) nv M -> pl_kappa pp = kappa A ->
  Forall (comp_ok nv) comps -> Forall (within (pl_B pp)) (map lb_f acc ++ map cr_f comps) ->
  exists proof lb0 lb1 ts', plus_prove acc A M pp comps ts = Ok (proof, [lb0; lb1], ts') /\ plus_verify M pp proof ts = Ok (true, ts') /\
    true_linb A M nv (pl_B pp) lb0 /\ true_linb A M nv (pl_B pp) lb1.
Proof.
  intros [G1 G2 G3 G4 G5] HM HE HG HL HS Hk HC HW.
  destruct (plus_complete (p := p) acc A M pp comps nv ts HS Hk HC G2 G3) as (g & Hg & P).
  destruct P as (proof & lb0 & lb1 & ts' & P1 & P2 & P3 & P4 & _); [|eauto 8].
  assert (0 <= pl_B pp / 2)%Z as HB by (apply Z.div_pos; lia).
  apply (within_mono (2 * fold_bound sop (pl_B pp / 2) (length acc + length comps) (rp_k (pl_dec pp)))).
  - etransitivity; [|exact G5]. unfold fold_bound. apply Z.mul_le_mono_nonneg_l; [lia|]. pose proof short_max_nonneg. apply Z.mul_le_mono_nonneg_r; [|lia]. nia.
  - eapply folds_bounded; eauto. eapply Forall_impl; [|exact HW]. intros f Hf. apply within_half. auto.
Qed.
Theorem plus_run_complete sop L A M pp nv fs steps (ts : T) acc :
  good_params sop L pp -> mono_isometry -> expansion sop -> good_bytes (T := T) ->
  cm_setting (p := p) fs A (pl_dec pp) nv M -> pl_kappa pp = kappa A ->
  Forall (true_linb A M nv (pl_B pp)) acc ->
  Forall (fun comps => Forall (fun c => comp_ok nv c /\ within (pl_B pp) (cr_f c)) comps /\ (2 + length comps <= L)%nat) steps ->
  (2 <= (length acc + length (hd [] steps)) * rp_k (pl_dec pp))%nat -> (length acc <= 2)%nat ->
  exists ps acc' ts', plus_chain acc A M pp steps ts = Ok (ps, acc', ts') /\ verify_chain M pp ps ts = Ok (true, ts') /\
    length ps = length steps /\ Forall (true_linb A M nv (pl_B pp)) acc'.
Proof.
  intros HP HM HE HG HS Hk. revert acc ts; induction steps as [|comps steps IH]; intros acc ts Hacc Hst H2 H2'.
  { exists [], acc, ts. auto. }
  inversion Hst as [|? ? [Hc HLc] Hst']. subst x l. cbn [hd] in H2.
  assert (Forall (comp_ok nv) comps) as Hc' by (eapply Forall_impl; [|exact Hc]; intros c [? _]; auto).
  assert (Forall (fun f => length f = (2 ^ nv)%nat /\ within (pl_B pp) f) (map lb_f acc ++ map cr_f comps)) as HW.
  { apply Forall_app. split; apply Forall_map.
    + eapply Forall_impl; [|exact Hacc]. intros l (E1 & E2 & _). auto.
    + eapply Forall_impl; [|exact Hc]. intros c [(E1 & _) E2]. auto. }
  assert (cm_setting (p := p) (map lb_f acc ++ map cr_f comps) A (pl_dec pp) nv M) as HS'.
  { apply (cm_setting_other fs); auto.
    - rewrite app_length, !map_length. auto.
    - eapply Forall_impl; [|exact HW]. intros f [E1 E2]. split; auto. eapply within_mono; [|exact E2]. apply (gp_cap _ _ _ HP). }
  destruct (plus_step_complete sop L acc A M pp comps nv ts) as (prf & lb0 & lb1 & ts1 & P1 & P2 & P3 & P4); auto; [lia| |].
  { eapply Forall_impl; [|exact HW]. intros f [_ E]. auto. }
  destruct (IH [lb0; lb1] ts1) as (ps & acc' & ts' & I1 & I2 & I3 & I4); auto.
  { cbn [length]. pose proof (cs_k _ _ _ _ _ HS). nia. }
  exists (prf :: ps), acc', ts'. cbn [plus_chain verify_chain length]. rewrite P1. cbn [bind]. rewrite I1, P2. cbn [bind]. rewrite I2. cbn [bind andb].
  auto.
Qed.
(** A base at least [estimate_bound] suffices, with the operator norm d * (largest challenge coefficient). *)
Theorem estimate_bound_fits L pp : (2 <= pdim)%nat -> (1 <= short_max)%Z -> (1 <= L)%nat -> (pl_B pp < p)%Z ->
  (pl_B pp <= rp_b (pl_dec pp) ^ Z.of_nat (rp_k (pl_dec pp)))%Z ->
  (estimate_bound (Z.of_nat pdim * short_max) (Z.of_nat L) (Z.of_nat pdim) (Z.of_nat (rp_k (pl_dec pp))) <= pl_B pp)%Z ->
  good_params (Z.of_nat pdim * short_max) L pp.
Proof.
  intros Hd Hs HL HB Hcap HE. set (d := Z.of_nat pdim) in *. set (k := Z.of_nat (rp_k (pl_dec pp))) in *. set (B := pl_B pp) in *.
  assert (0 <= d / 2)%Z as H2 by (apply Z.div_pos; lia). assert (0 < d * short_max * Z.of_nat L)%Z as Ha by nia.
  assert (0 <= B)%Z as HB0.
  { etransitivity; [|exact HE]. unfold estimate_bound. cbv zeta. apply Z.div_pos; [|lia]. pose proof (Z.sqrt_up_nonneg (d * short_max * Z.of_nat L * (d * short_max * Z.of_nat L) + 4 * (d * short_max * Z.of_nat L) * (d / 2 + d * k + 1))). lia. }
  assert (0 < d / 2 + d * k + 1)%Z as Hc by (unfold k; nia).
  apply (estimate_bound_least _ _ _ _ B Ha Hc HB0) in HE.
  pose proof (Z.div_mod d 2 ltac:(lia)) as D1. pose proof (Z.mod_pos_bound d 2 ltac:(lia)) as D2.
  pose proof (Z.div_mod B 2 ltac:(lia)) as E1. pose proof (Z.mod_pos_bound B 2 ltac:(lia)) as E2.
  assert (2 <= B)%Z as HB2 by (unfold k in *; nia).
  split; auto; [nia|]. unfold fold_bound. fold B. rewrite Nat2Z.inj_mul, Nat2Z.inj_div. fold d k. change (Z.of_nat 2) with 2%Z.
  replace (B ^ 2)%Z with (B * B)%Z by ring. etransitivity; [|exact HE].
  assert (0 <= k)%Z by (unfold k; lia).
  assert (2 * (d / 2 + 1 + k * d) + d * (2 * (B / 2)) <= d * (B + (d / 2 + d * k + 1)))%Z as HI.
  { assert (2 * (k * d) <= d * (d * k))%Z by nia. nia. }
  transitivity (Z.of_nat L * short_max * (2 * (d / 2 + 1 + k * d) + d * (2 * (B / 2))))%Z; [lia|].
  transitivity (Z.of_nat L * short_max * (d * (B + (d / 2 + d * k + 1))))%Z; [|lia]. apply Z.mul_le_mono_nonneg_l; [nia|auto].
Qed.
End Norm.
