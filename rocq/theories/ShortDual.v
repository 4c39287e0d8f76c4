(** Small integer vectors and roots modulo p: a certificate that sum z_m rho_m = 0 modulo p has no small solution but zero.
    Used in Sampling.v for the short challenges of cyclotomic-rings/src/rings/*.rs. *)
From Coq Require Import List Arith Lia ZArith Bool.
From Verif Require Import Prelude.
Import ListNotations.
Local Open Scope Z_scope.

Fixpoint zsum (n : nat) (f : nat -> Z) : Z := match n with O => 0 | S m => zsum m f + f m end.
Lemma zsum_ext n f g : (forall i, (i < n)%nat -> f i = g i) -> zsum n f = zsum n g.
Proof. induction n as [|n IH]; intros H; cbn [zsum]; auto. rewrite IH, H by (intros; auto; apply H; lia). auto. Qed.
Lemma zsum_add n f g : zsum n (fun i => f i + g i) = zsum n f + zsum n g.
Proof. induction n as [|n IH]; cbn [zsum]; auto. rewrite IH. lia. Qed.
Lemma zsum_scale n c f : zsum n (fun i => c * f i) = c * zsum n f.
Proof. induction n as [|n IH]; cbn [zsum]; [lia|]. rewrite IH. lia. Qed.
Lemma zsum_0 n f : (forall i, (i < n)%nat -> f i = 0) -> zsum n f = 0.
Proof. induction n as [|n IH]; intros H; cbn [zsum]; auto. rewrite IH, H by (intros; auto; apply H; lia). auto. Qed.
Lemma zsum_swap n m (f : nat -> nat -> Z) : zsum n (fun i => zsum m (fun j => f i j)) = zsum m (fun j => zsum n (fun i => f i j)).
Proof. induction n as [|n IH]; cbn [zsum]; [symmetry; apply zsum_0; auto|]. rewrite IH, <- zsum_add. reflexivity. Qed.
Lemma zsum_single n k f : (k < n)%nat -> (forall i, (i < n)%nat -> i <> k -> f i = 0) -> zsum n f = f k.
Proof.
  induction n as [|n IH]; intros Hk H; [lia|]. cbn [zsum]. destruct (Nat.eq_dec k n) as [->|Hne].
  - rewrite zsum_0; [lia|]. intros i Hi. apply H; lia.
  - rewrite IH, (H n) by (auto; try lia; intros; apply H; lia). lia.
Qed.
Lemma zsum_divide n q f : (forall i, (i < n)%nat -> (q | f i)) -> (q | zsum n f).
Proof. induction n as [|n IH]; intros H; cbn [zsum]; [apply Z.divide_0_r|]. apply Z.divide_add_r; [apply IH; intros; apply H|apply H]; lia. Qed.
Lemma zsum_abs n B f w : 0 <= B -> (forall i, (i < n)%nat -> Z.abs (f i) <= B) -> Z.abs (zsum n (fun i => f i * w i)) <= B * zsum n (fun i => Z.abs (w i)).
Proof.
  intros HB. induction n as [|n IH]; intros H; cbn [zsum]; [lia|]. specialize (IH ltac:(intros; apply H; lia)).
  pose proof (H n ltac:(lia)). pose proof (Z.abs_triangle (zsum n (fun i => f i * w i)) (f n * w n)). rewrite Z.abs_mul in *. nia.
Qed.
Lemma zsum_le n f g : (forall i, (i < n)%nat -> f i <= g i) -> zsum n f <= zsum n g.
Proof. induction n as [|n IH]; intros H; cbn [zsum]; [lia|]. specialize (IH ltac:(intros; apply H; lia)). specialize (H n ltac:(lia)). lia. Qed.
Lemma divide_small q x : Z.abs x < q -> (q | x) -> x = 0.
Proof. intros H [c Hc]. subst x. rewrite Z.abs_mul in H. assert (c = 0 \/ 1 <= Z.abs c) as [->|Hc] by lia; [lia|]. exfalso. nia. Qed.

(** Rows [W i] proportional to [rho] modulo p and so short that W i . z vanishes over the integers; and for every index [m0] an
    integer combination of rows equal to the unit vector [m0] modulo q. *)
Lemma dual_zero p q k B (rho : nat -> Z) (W : nat -> nat -> Z) (z : nat -> Z) :
  0 <= B < q ->
  (forall i, exists t, forall m, (m < k)%nat -> (p | W i m - t * rho m)) ->
  (forall i, B * zsum k (fun m => Z.abs (W i m)) < p) ->
  (forall m0, (m0 < k)%nat -> exists r (b : nat -> Z) (h : nat -> nat),
     forall m, (m < k)%nat -> (q | zsum r (fun i => b i * W (h i) m) - (if (m =? m0)%nat then 1 else 0))) ->
  (forall m, (m < k)%nat -> Z.abs (z m) <= B) ->
  (p | zsum k (fun m => z m * rho m)) -> forall m, (m < k)%nat -> z m = 0.
Proof.
  intros HB HW Hs HV Hz HS m0 Hm0.
  assert (forall i, zsum k (fun m => z m * W i m) = 0) as H0.
  { intros i. apply (divide_small p).
    - eapply Z.le_lt_trans; [apply (zsum_abs k B); auto; lia|]. apply Hs.
    - destruct (HW i) as [t Ht]. rewrite (zsum_ext k _ (fun m => z m * (W i m - t * rho m) + t * (z m * rho m))) by (intros; ring).
      rewrite zsum_add, zsum_scale. apply Z.divide_add_r.
      + apply zsum_divide. intros m Hm. apply Z.divide_mul_r. auto.
      + apply Z.divide_mul_r. auto. }
  destruct (HV m0 Hm0) as (r & b & h & Hb). apply (divide_small q); [specialize (Hz m0 Hm0); lia|].
  assert (zsum k (fun m => z m * zsum r (fun i => b i * W (h i) m)) = 0) as E.
  { rewrite (zsum_ext k _ (fun m => zsum r (fun i => b i * (z m * W (h i) m)))) by (intros; rewrite <- zsum_scale; apply zsum_ext; intros; ring).
    rewrite zsum_swap. apply zsum_0. intros i _. rewrite zsum_scale, H0. lia. }
  replace (z m0) with (zsum k (fun m => z m * (if (m =? m0)%nat then 1 else 0))).
  - replace (zsum k _) with (- zsum k (fun m => z m * (zsum r (fun i => b i * W (h i) m) - (if (m =? m0)%nat then 1 else 0)))).
    + apply Z.divide_opp_r. apply zsum_divide. intros m Hm. apply Z.divide_mul_r. auto.
    + rewrite (zsum_ext k _ (fun m => z m * zsum r (fun i => b i * W (h i) m) + (-1) * (z m * (if (m =? m0)%nat then 1 else 0)))) by (intros; ring).
      rewrite zsum_add, zsum_scale, E. lia.
  - rewrite (zsum_single k m0); auto; [rewrite Nat.eqb_refl; lia|]. intros m Hm Hne. destruct (Nat.eqb_spec m m0); [contradiction|lia].
Qed.

(** Divisibility as a test. *)
Definition dvd (q x : Z) : bool := x mod q =? 0.
Lemma dvd_true q x : q <> 0 -> dvd q x = true -> (q | x).
Proof. unfold dvd. intros Hq H. apply Z.eqb_eq in H. apply Z.mod_divide; auto. Qed.
Definition no_small (p : Z) (rho : Z) (k : nat) (B : Z) : Prop :=
  forall z : nat -> Z, (forall m, (m < k)%nat -> Z.abs (z m) <= B) -> (p | zsum k (fun m => z m * rho ^ Z.of_nat m)) -> forall m, (m < k)%nat -> z m = 0.

(** * Explicit rows *)
Definition rnth (l : list Z) (m : nat) : Z := nth m l 0.
Definition row_ok (p rho B : Z) (k : nat) (w : list Z) : bool :=
  forallb (fun m => dvd p (rnth w (S m) - rho * rnth w m)) (seq 0 (k - 1)) && (B * zsum k (fun m => Z.abs (rnth w m)) <? p).
Definition mat_cert (p rho B q : Z) (k : nat) (W V : list (list Z)) : bool :=
  (0 <? p) && (0 <=? B) && (B <? q) && forallb (row_ok p rho B k) W
  && forallb (fun m0 => forallb (fun m => dvd q (zsum (length W) (fun i => rnth (nth m0 V []) i * rnth (nth i W []) m) - (if (m =? m0)%nat then 1 else 0))) (seq 0 k)) (seq 0 k).
Lemma row_prop p rho k w : p <> 0 -> (forall m, (m < k - 1)%nat -> (p | rnth w (S m) - rho * rnth w m)) -> forall m, (m < k)%nat -> (p | rnth w m - rnth w 0 * rho ^ Z.of_nat m).
Proof.
  intros Hp H m. induction m as [|m IH]; intros Hm.
  - cbn [Z.of_nat]. rewrite Z.pow_0_r. replace (rnth w 0 - rnth w 0 * 1) with 0 by lia. apply Z.divide_0_r.
  - rewrite Nat2Z.inj_succ, Z.pow_succ_r by lia.
    replace (rnth w (S m) - rnth w 0 * (rho * rho ^ Z.of_nat m)) with ((rnth w (S m) - rho * rnth w m) + rho * (rnth w m - rnth w 0 * rho ^ Z.of_nat m)) by ring.
    apply Z.divide_add_r; [apply H; lia|]. apply Z.divide_mul_r. apply IH. lia.
Qed.
Lemma mat_cert_ok p rho B q k W V : mat_cert p rho B q k W V = true -> no_small p rho k B.
Proof.
  unfold mat_cert. rewrite !andb_true_iff. intros ((((Hp & HB) & Hq) & HW) & HV). apply Z.ltb_lt in Hp, Hq. apply Z.leb_le in HB.
  rewrite forallb_forall in HW, HV. intros z Hz HS.
  assert (forall i, row_ok p rho B k (nth i W []) = true) as HR.
  { intros i. destruct (Nat.lt_ge_cases i (length W)); [apply HW, nth_In; auto|]. rewrite nth_overflow by auto. unfold row_ok. apply andb_true_iff. split.
    - apply forallb_forall. intros m _. unfold dvd, rnth. rewrite !nth_overflow by (cbn [length]; lia). apply Z.eqb_eq. replace (0 - rho * 0) with 0 by lia. apply Z.mod_0_l. lia.
    - apply Z.ltb_lt. rewrite zsum_0; [lia|]. intros m _. unfold rnth. rewrite nth_overflow by (cbn [length]; lia). auto. }
  apply (dual_zero p q k B (fun m => rho ^ Z.of_nat m) (fun i m => rnth (nth i W []) m) z); auto.
  - intros i. exists (rnth (nth i W []) 0). apply row_prop; [lia|]. intros m Hm. specialize (HR i). unfold row_ok in HR. apply andb_true_iff in HR as [HR _].
    rewrite forallb_forall in HR. apply dvd_true; [lia|]. apply HR, in_seq. lia.
  - intros i. specialize (HR i). unfold row_ok in HR. apply andb_true_iff in HR as [_ HR]. apply Z.ltb_lt. auto.
  - intros m0 Hm0. exists (length W), (rnth (nth m0 V [])), (fun i => i). intros m Hm. specialize (HV m0 ltac:(apply in_seq; lia)). rewrite forallb_forall in HV.
    apply dvd_true; [lia|]. apply HV, in_seq. lia.
Qed.

(** * Roots of X^k + 1: one short vector serves all the odd powers of a root *)
Section Nega.
Context (p r B A q : Z) (k : nat) (a b : list Z).
(** [a] continued with period 2k and sign change after k *)
Definition an (s : nat) : Z := let t := (s mod (2 * k))%nat in if (t <? k)%nat then rnth a t else - rnth a (t - k).
Definition nega_cert : bool :=
  (0 <? p) && (0 <=? B) && (B <? q) && (1 <=? k)%nat
  && forallb (fun s => dvd p (rnth a (S s) - r * rnth a s)) (seq 0 (k - 1)) && dvd p (- rnth a 0 - r * rnth a (k - 1))
  && forallb (fun s => Z.abs (rnth a s) <=? A) (seq 0 k) && (B * (Z.of_nat k * A) <? p)
  && forallb (fun s => dvd q (zsum k (fun i => rnth b i * an (i + s)) - (if (s =? 0)%nat then 1 else 0))) (seq 0 k).
(** [j] is invertible modulo k. *)
Definition odd_cert (j : nat) : bool :=
  forallb (fun m0 => forallb (fun m => negb ((j * m + j * (2 * k - m0)) mod k =? 0)%nat || (m =? m0)%nat) (seq 0 k)) (seq 0 k).
Context (CK : nega_cert = true).
Lemma nega_unpack : 0 < p /\ 0 <= B < q /\ (1 <= k)%nat /\ (forall s, (s < k - 1)%nat -> (p | rnth a (S s) - r * rnth a s)) /\
  (p | - rnth a 0 - r * rnth a (k - 1)) /\ (forall s, (s < k)%nat -> Z.abs (rnth a s) <= A) /\ B * (Z.of_nat k * A) < p /\
  (forall s, (s < k)%nat -> (q | zsum k (fun i => rnth b i * an (i + s)) - (if (s =? 0)%nat then 1 else 0))).
Proof.
  pose proof CK as H. unfold nega_cert in H. rewrite !andb_true_iff in H. destruct H as ((((((((H1 & H2) & H3) & H4) & H5) & H6) & H7) & H8) & H9).
  apply Z.ltb_lt in H1, H3, H8. apply Z.leb_le in H2. apply Nat.leb_le in H4. rewrite forallb_forall in H5, H7, H9.
  split; [auto|]. split; [lia|]. split; [auto|]. split; [|split; [|split; [|split; [auto|]]]].
  - intros s Hs. apply dvd_true; [lia|]. apply H5, in_seq. lia.
  - apply dvd_true; [lia|auto].
  - intros s Hs. apply Z.leb_le, H7, in_seq. lia.
  - intros s Hs. apply dvd_true; [lia|]. apply H9, in_seq. lia.
Qed.
Lemma an_2k s : an (s + 2 * k) = an s.
Proof. destruct nega_unpack as (_ & _ & Hk & _). unfold an. replace ((s + 2 * k) mod (2 * k))%nat with (s mod (2 * k))%nat; auto. rewrite <- (Nat.mod_add s 1 (2 * k)) by lia. f_equal. lia. Qed.
Lemma an_2kn s n : an (s + n * (2 * k)) = an s.
Proof. induction n as [|n IH]; [f_equal; lia|]. rewrite <- IH, <- (an_2k (s + n * (2 * k))). f_equal. lia. Qed.
Lemma an_mod s : an s = an (s mod (2 * k)).
Proof. destruct nega_unpack as (_ & _ & Hk & _). unfold an. rewrite Nat.mod_mod by lia. auto. Qed.
Lemma an_small s : (s < 2 * k)%nat -> an s = if (s <? k)%nat then rnth a s else - rnth a (s - k).
Proof. intros H. unfold an. rewrite Nat.mod_small by auto. auto. Qed.
Lemma an_k s : an (s + k) = - an s.
Proof.
  destruct nega_unpack as (_ & _ & Hk & _). pose proof (Nat.mod_upper_bound s (2 * k) ltac:(lia)) as Hb. pose proof (Nat.div_mod s (2 * k) ltac:(lia)) as Hd.
  set (t := (s mod (2 * k))%nat) in *. set (n := (s / (2 * k))%nat) in *. replace (s + k)%nat with (t + k + n * (2 * k))%nat by lia.
  replace s with (t + n * (2 * k))%nat by lia. rewrite !an_2kn. rewrite (an_small t) by lia. destruct (Nat.ltb_spec t k).
  - rewrite an_small by lia. destruct (Nat.ltb_spec (t + k) k); [lia|]. f_equal. f_equal. lia.
  - replace (t + k)%nat with (t - k + 2 * k)%nat by lia. rewrite an_2k, an_small by lia. destruct (Nat.ltb_spec (t - k) k); [|lia]. lia.
Qed.
Lemma an_kn s n : an (s + n * k) = (if Nat.even n then 1 else -1) * an s.
Proof.
  induction n as [|n IH]; [cbn [Nat.even]; rewrite Nat.mul_0_l, Nat.add_0_r; lia|]. replace (s + S n * k)%nat with (s + n * k + k)%nat by lia. rewrite an_k, IH.
  rewrite Nat.even_succ, <- Nat.negb_even. destruct (Nat.even n); cbn [negb]; lia.
Qed.
Lemma an_step s : (p | an (S s) - r * an s).
Proof.
  destruct nega_unpack as (_ & _ & Hk & Ha & Hw & _). pose proof (Nat.mod_upper_bound s k ltac:(lia)) as Hb. pose proof (Nat.div_mod s k ltac:(lia)) as Hd.
  set (t := (s mod k)%nat) in *. set (n := (s / k)%nat) in *. replace (S s) with (S t + n * k)%nat by lia. replace s with (t + n * k)%nat by lia.
  rewrite !an_kn. replace (_ - r * (_ * _)) with ((if Nat.even n then 1 else -1) * (an (S t) - r * an t)) by ring. apply Z.divide_mul_r.
  rewrite (an_small t) by lia. destruct (Nat.ltb_spec t k); [|lia]. destruct (Nat.eq_dec (S t) k) as [E|E].
  - replace (S t) with (0 + k)%nat by lia. rewrite an_k, an_small by lia. destruct (Nat.ltb_spec 0 k); [|lia]. replace t with (k - 1)%nat by lia. auto.
  - rewrite an_small by lia. destruct (Nat.ltb_spec (S t) k); [|lia]. apply Ha. lia.
Qed.
Lemma an_pow s n : (p | an (s + n) - an s * r ^ Z.of_nat n).
Proof.
  induction n as [|n IH].
  - rewrite Nat.add_0_r. cbn [Z.of_nat]. rewrite Z.pow_0_r. replace (an s - an s * 1) with 0 by lia. apply Z.divide_0_r.
  - rewrite Nat2Z.inj_succ, Z.pow_succ_r by lia. replace (s + S n)%nat with (S (s + n))%nat by lia.
    replace (an (S (s + n)) - _) with ((an (S (s + n)) - r * an (s + n)) + r * (an (s + n) - an s * r ^ Z.of_nat n)) by ring.
    apply Z.divide_add_r; [apply an_step|]. apply Z.divide_mul_r. exact IH.
Qed.
Lemma an_abs s : Z.abs (an s) <= A.
Proof.
  destruct nega_unpack as (_ & _ & Hk & _ & _ & HA & _). rewrite an_mod. pose proof (Nat.mod_upper_bound s (2 * k) ltac:(lia)) as Hb. rewrite an_small by auto.
  destruct (Nat.ltb_spec (s mod (2 * k)) k); [|rewrite Z.abs_opp]; apply HA; lia.
Qed.
Lemma zsum_const n c : zsum n (fun _ => c) = Z.of_nat n * c.
Proof. induction n as [|n IH]; cbn [zsum]; lia. Qed.
Lemma nega_ok j : odd_cert j = true -> no_small p (r ^ Z.of_nat j) k B.
Proof.
  intros Hj z Hz HS. destruct nega_unpack as (Hp & HB & Hk & Ha & Hw & HA & Hs & HV).
  apply (dual_zero p q k B (fun m => (r ^ Z.of_nat j) ^ Z.of_nat m) (fun i m => an (i + j * m)) z); auto.
  - intros i. exists (an i). intros m Hm. rewrite <- Z.pow_mul_r, <- Nat2Z.inj_mul by lia. apply an_pow.
  - intros i. eapply Z.le_lt_trans; [|exact Hs]. apply Z.mul_le_mono_nonneg_l; [lia|]. rewrite <- (zsum_const k A). apply zsum_le. intros m Hm. apply an_abs.
  - intros m0 Hm0. exists k, (rnth b), (fun i => (i + j * (2 * k - m0))%nat). intros m Hm. set (s := (j * m + j * (2 * k - m0))%nat).
    rewrite (zsum_ext k _ (fun i => rnth b i * an (i + s))) by (intros i Hi; f_equal; f_equal; unfold s; lia).
    destruct (Nat.eqb_spec m m0) as [->|Hne].
    + rewrite (zsum_ext k _ (fun i => rnth b i * an (i + 0))). { apply (HV 0%nat). lia. }
      intros i Hi. f_equal. replace (i + s)%nat with (i + 0 + j * (2 * k))%nat by (unfold s; nia). apply an_2kn.
    + unfold odd_cert in Hj. rewrite forallb_forall in Hj. specialize (Hj m0 ltac:(apply in_seq; lia)). rewrite forallb_forall in Hj.
      specialize (Hj m ltac:(apply in_seq; lia)). fold s in Hj. apply orb_true_iff in Hj as [Hj|Hj]; [|apply Nat.eqb_eq in Hj; contradiction].
      apply negb_true_iff, Nat.eqb_neq in Hj. pose proof (Nat.mod_upper_bound s k ltac:(lia)) as Hb. pose proof (Nat.div_mod s k ltac:(lia)) as Hd.
      specialize (HV (s mod k)%nat Hb). destruct (Nat.eqb_spec (s mod k) 0); [contradiction|].
      rewrite (zsum_ext k _ (fun i => (if Nat.even (s / k) then 1 else -1) * (rnth b i * an (i + s mod k)))).
      * rewrite zsum_scale, Z.sub_0_r in *. apply Z.divide_mul_r. auto.
      * intros i Hi. replace (i + s)%nat with (i + s mod k + s / k * k)%nat by lia. rewrite an_kn. ring.
Qed.
End Nega.
