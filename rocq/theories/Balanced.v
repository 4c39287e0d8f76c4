(** Balanced digit decomposition (stark-rings [balanced_decomposition], external crate).
    The source of that crate is not available; this is the algorithm its interface documents
    and on which latticefold relies: repeated division with remainder rounded to the nearest
    representative, remainder kept as is when |rem| <= b/2. *)
From Coq Require Import List Arith Lia ZArith Bool.
From Verif Require Import Prelude.
Import ListNotations.
Local Open Scope Z_scope.

(** One digit: (digit, remaining value). *)
Definition dec1 (b v : Z) : Z * Z :=
  let rem := Z.rem v b in
  let q := Z.quot v b in
  if Z.abs rem <=? b / 2 then (rem, q)
  else if rem <? 0 then (rem + b, q - 1) else (rem - b, q + 1).

(** [decompose(b, k)] on an integer: k digits, least significant first. *)
Fixpoint decompose_z (k : nat) (b v : Z) : list Z :=
  match k with
  | O => []
  | S k' => let '(d, v') := dec1 b v in d :: decompose_z k' b v'
  end.

(** Specification: value of a digit list. *)
Fixpoint digits_value (b : Z) (ds : list Z) : Z :=
  match ds with [] => 0 | d :: ds' => d + b * digits_value b ds' end.

Ltac Zify.zify_post_hook ::= idtac.

Lemma dec1_spec b v : 2 <= b ->
  let '(d, v') := dec1 b v in
  v = d + b * v' /\ 2 * Z.abs d <= b.
Proof.
  intros Hb. unfold dec1.
  pose proof (Z.quot_rem' v b) as E. pose proof (Z.rem_bound_abs v b ltac:(lia)) as Hr.
  set (r := Z.rem v b) in *. set (q := Z.quot v b) in *.
  pose proof (Z.div_mod b 2 ltac:(lia)) as Hh. pose proof (Z.mod_pos_bound b 2 ltac:(lia)) as Hm.
  destruct (Z.leb_spec (Z.abs r) (b / 2)).
  - split; nia.
  - destruct (Z.ltb_spec r 0); split; try nia.
Qed.

Lemma decompose_z_length k b v : length (decompose_z k b v) = k.
Proof.
  revert v; induction k; intros; simpl; auto. destruct (dec1 b v); simpl; auto.
Qed.

Lemma decompose_z_short k b v : 2 <= b -> Forall (fun d => Z.abs d <= b / 2) (decompose_z k b v).
Proof.
  intros Hb. revert v; induction k; intros v; simpl; auto.
  pose proof (dec1_spec b v Hb) as H. destruct (dec1 b v) as [d v']. constructor; auto.
  apply Z.div_le_lower_bound; lia.
Qed.

(** The rounded quotient stays within half of the next smaller power. *)
Lemma dec1_bound b v k : 2 <= b -> 2 * Z.abs v <= b ^ (Z.of_nat (S k)) ->
  let '(d, v') := dec1 b v in
  2 * Z.abs v' <= b ^ (Z.of_nat k) /\ (k = O -> v' = 0).
Proof.
  intros Hb. rewrite Nat2Z.inj_succ, Z.pow_succ_r by lia.
  set (P := b ^ Z.of_nat k). assert (0 < P) as HP by (apply Z.pow_pos_nonneg; lia).
  intros Hv. unfold dec1.
  pose proof (Z.quot_rem' v b) as E. pose proof (Z.rem_bound_abs v b ltac:(lia)) as Hr.
  set (r := Z.rem v b) in *. set (q := Z.quot v b) in *.
  pose proof (Z.div_mod b 2 ltac:(lia)) as Hh. pose proof (Z.mod_pos_bound b 2 ltac:(lia)) as Hm.
  assert (v >= 0 -> r >= 0 /\ q >= 0) as Hpos.
  { intros. pose proof (Z.rem_nonneg v b ltac:(lia) ltac:(lia)). pose proof (Z.quot_pos v b ltac:(lia) ltac:(lia)). lia. }
  assert (v <= 0 -> r <= 0 /\ q <= 0) as Hneg.
  { intros. pose proof (Z.rem_nonpos v b ltac:(lia) ltac:(lia)).
    pose proof (Z.quot_pos (- v) b ltac:(lia) ltac:(lia)) as Hq. rewrite Z.quot_opp_l in Hq by lia. fold q in Hq. lia. }
  assert (b * (2 * Z.abs q) + 2 * Z.abs r = 2 * Z.abs v) as EA.
  { destruct (Z.le_ge_cases 0 v); [destruct Hpos|destruct Hneg]; try lia; nia. }
  assert (k = O -> P = 1) as HP1 by (intros ->; reflexivity).
  assert (P = 1 \/ (exists P', P = b * P' /\ 0 < P')) as Hk.
  { destruct k; [left; reflexivity|right]. exists (b ^ Z.of_nat k). unfold P.
    rewrite Nat2Z.inj_succ, Z.pow_succ_r by lia. split; auto. apply Z.pow_pos_nonneg; lia. }
  destruct (Z.leb_spec (Z.abs r) (b / 2)) as [H|H].
  - split; [nia|]. intros Ek. specialize (HP1 Ek). nia.
  - (* rounded away from zero *)
    assert (forall q', Z.abs q' = Z.abs q + 1 -> 2 * Z.abs q' <= P /\ (k = O -> q' = 0)) as HH.
    { intros q' Hq'.
      assert (b * (2 * Z.abs q') + 2 * Z.abs r = 2 * Z.abs v + 2 * b) as E2 by nia.
      assert (2 * Z.abs r >= b + 1) as H2 by lia.
      assert (b * (2 * Z.abs q') <= b * P + b - 1) as H3 by lia.
      assert (2 * Z.abs q' <= P) as H4.
      { destruct Hk as [->|(P' & EP & HP')].
        - (* k = 0: |v| <= b/2 contradicts |r| > b/2 *) nia.
        - assert (2 * Z.abs q' < P + 1) by nia. lia. }
      split; auto. intros Ek. specialize (HP1 Ek). lia. }
    destruct (Z.ltb_spec r 0); apply HH; nia.
Qed.

(** Exactness: [k] balanced digits cover every |v| <= b^k / 2. *)
Theorem decompose_z_exact k b v : 2 <= b -> 2 * Z.abs v <= b ^ (Z.of_nat k) ->
  digits_value b (decompose_z k b v) = v.
Proof.
  intros Hb. revert v; induction k as [|k IH]; intros v Hv.
  - change (b ^ Z.of_nat 0) with 1 in Hv. cbn. lia.
  - cbn [decompose_z]. pose proof (dec1_spec b v Hb) as H1. pose proof (dec1_bound b v k Hb Hv) as H2.
    destruct (dec1 b v) as [d v']. cbn [digits_value]. rewrite IH.
    + symmetry. apply H1.
    + apply H2.
Qed.

(** The largest value of [k] digits of absolute value at most b/2. *)
Fixpoint reach (k : nat) (b : Z) : Z :=
  match k with O => 0 | S k' => b / 2 + b * reach k' b end.
Lemma reach_nonneg k b : 2 <= b -> 0 <= reach k b.
Proof.
  intros Hb. induction k as [|k IH]; cbn [reach]; [lia|]. pose proof (Z.div_pos b 2 ltac:(lia) ltac:(lia)). nia.
Qed.
Lemma reach_2 k : reach k 2 = 2 ^ Z.of_nat k - 1.
Proof.
  induction k as [|k IH]; [reflexivity|]. cbn [reach]. rewrite IH, Nat2Z.inj_succ, Z.pow_succ_r by lia. change (2 / 2) with 1. lia.
Qed.
Lemma pow_reach k b v : 2 <= b -> 2 * Z.abs v <= b ^ Z.of_nat k -> Z.abs v <= reach k b.
Proof.
  intros Hb H. pose proof (Z.div_mod b 2 ltac:(lia)) as Hh. pose proof (Z.mod_pos_bound b 2 ltac:(lia)) as Hm.
  assert (b ^ Z.of_nat k <= 2 * reach k b + 1) as H1; [|lia].
  clear H. induction k as [|k IH]; [cbn; lia|]. cbn [reach]. rewrite Nat2Z.inj_succ, Z.pow_succ_r by lia. nia.
Qed.
Lemma dec1_reach b v k : 2 <= b -> Z.abs v <= reach (S k) b -> Z.abs (snd (dec1 b v)) <= reach k b.
Proof.
  intros Hb. cbn [reach]. set (M := reach k b). intros Hv. pose proof (reach_nonneg k b Hb) as HM. fold M in HM. unfold dec1.
  pose proof (Z.quot_rem' v b) as E. pose proof (Z.rem_bound_abs v b ltac:(lia)) as Hr.
  set (r := Z.rem v b) in *. set (q := Z.quot v b) in *.
  pose proof (Z.div_mod b 2 ltac:(lia)) as Hh. pose proof (Z.mod_pos_bound b 2 ltac:(lia)) as Hm.
  assert (v >= 0 -> r >= 0 /\ q >= 0) as Hpos.
  { intros. pose proof (Z.rem_nonneg v b ltac:(lia) ltac:(lia)). pose proof (Z.quot_pos v b ltac:(lia) ltac:(lia)). lia. }
  assert (v <= 0 -> r <= 0 /\ q <= 0) as Hneg.
  { intros. pose proof (Z.rem_nonpos v b ltac:(lia) ltac:(lia)).
    pose proof (Z.quot_pos (- v) b ltac:(lia) ltac:(lia)) as Hq. rewrite Z.quot_opp_l in Hq by lia. fold q in Hq. lia. }
  assert (b * Z.abs q + Z.abs r = Z.abs v) as EA.
  { destruct (Z.le_ge_cases 0 v); [destruct Hpos|destruct Hneg]; try lia; nia. }
  destruct (Z.leb_spec (Z.abs r) (b / 2)) as [H|H]; cbn [snd]; [nia|].
  assert (Z.abs q < M) as Hq by nia.
  destruct (Z.ltb_spec r 0); cbn [snd]; lia.
Qed.
(** [k] digits represent exactly the values up to [reach]. *)
Theorem decompose_z_iff k b v : 2 <= b -> digits_value b (decompose_z k b v) = v <-> Z.abs v <= reach k b.
Proof.
  intros Hb. split.
  - intros <-. pose proof (decompose_z_short k b v Hb) as HS. rewrite <- (decompose_z_length k b v) at 2.
    induction HS as [|d ds Hd HS IH]; cbn [length reach digits_value]; [cbn; lia|]. nia.
  - revert v; induction k as [|k IH]; intros v Hv; [cbn in *; lia|].
    pose proof (dec1_spec b v Hb) as H1. pose proof (dec1_reach b v k Hb Hv) as H2. cbn [decompose_z].
    destruct (dec1 b v) as [d v']. cbn [digits_value snd] in *. rewrite IH by exact H2. symmetry. apply H1.
Qed.
