(** C120: the size checks in machine arithmetic. *)
From Coq Require Import String List Arith Lia ZArith Bool.
From Verif Require Import Prelude Alg Poly MLE Transcript Sumcheck Arith Arith_Proofs SizeWords.
Import ListNotations.
Local Open Scope Z_scope.

(** What the check is for: the number of rows is a power of two that holds the decomposed witness. *)
Definition sizes_fit (n l m L : Z) : Prop := l < n /\ (exists k, 0 <= k /\ m = 2 ^ k) /\ (n - l - 1) * L <= m.

Lemma npow2_Z a : Z.of_nat (next_pow2 a) = 2 ^ Z.log2_up (Z.of_nat a).
Proof.
  unfold next_pow2. rewrite Nat2Z.inj_pow. f_equal. destruct (Nat.le_gt_cases a 1) as [H|H].
  - rewrite Nat.log2_up_eqn0 by lia. rewrite Z.log2_up_eqn0 by lia. reflexivity.
  - rewrite Nat.log2_up_eqn, Z.log2_up_eqn by lia. rewrite Nat2Z.inj_succ. f_equal. rewrite <- Nat2Z.inj_pred by lia. symmetry. 
    assert (0 < Nat.pred a)%nat as Hp by lia. apply Z.log2_unique; [lia|]. destruct (Nat.log2_spec _ Hp) as [A B]. apply Nat2Z.inj_le in A. apply Nat2Z.inj_lt in B.
    rewrite Nat2Z.inj_pow in A, B. change (Z.of_nat 2) with 2 in *. rewrite Nat2Z.inj_succ in B. split; assumption.
Qed.
(** As long as the sizes stay below 2^63, both builds compute what the model computes. *)
Theorem C120_agrees {R} chk (cs : ccs R) L : (c_l cs < c_n cs)%nat -> Z.of_nat (Nat.max ((c_n cs - c_l cs - 1) * L) (c_m cs)) <= 2 ^ 63 ->
  w_sanity chk (Z.of_nat (c_n cs)) (Z.of_nat (c_l cs)) (Z.of_nat (c_m cs)) (Z.of_nat L) =
    Ok (match sanity_check cs L with Ok _ => true | _ => false end) /\
  w_padded chk (Z.of_nat (c_n cs)) (Z.of_nat (c_l cs)) (Z.of_nat (c_m cs)) (Z.of_nat L) =
    Ok (Z.of_nat (c_m (pad_rows_to cs (next_pow2 (Nat.max ((c_n cs - c_l cs - 1) * L) (c_m cs)))))).
Proof.
  intros H1 H2. set (s := Nat.max ((c_n cs - c_l cs - 1) * L) (c_m cs)) in *.
  assert (w_size chk (Z.of_nat (c_n cs)) (Z.of_nat (c_l cs)) (Z.of_nat (c_m cs)) (Z.of_nat L) = Ok (Z.of_nat (next_pow2 s))) as E.
  { unfold w_size, w_sub, w_mul, w_next_pow2. destruct (Z.leb_spec (Z.of_nat (c_l cs)) (Z.of_nat (c_n cs))); [|lia]. cbn [bind].
    destruct (Z.leb_spec 1 (Z.of_nat (c_n cs) - Z.of_nat (c_l cs))); [|lia]. cbn [bind].
    assert ((Z.of_nat (c_n cs) - Z.of_nat (c_l cs) - 1) * Z.of_nat L = Z.of_nat ((c_n cs - c_l cs - 1) * L)) as -> by (rewrite Nat2Z.inj_mul; f_equal; lia).
    assert (Z.max (Z.of_nat ((c_n cs - c_l cs - 1) * L)) (Z.of_nat (c_m cs)) = Z.of_nat s) as Es by (unfold s; lia).
    destruct (Z.ltb_spec (Z.of_nat ((c_n cs - c_l cs - 1) * L)) (2 ^ 64)) as [|N]; cbn [bind].
    - rewrite Es. destruct (Z.leb_spec (Z.of_nat s) (2 ^ 63)); [|lia]. rewrite npow2_Z. reflexivity.
    - exfalso. assert (Z.of_nat ((c_n cs - c_l cs - 1) * L) <= Z.of_nat s) by (unfold s; lia). lia. }
  unfold w_sanity, w_padded. rewrite E. cbn [bind]. split.
  - unfold sanity_check. destruct (Nat.leb_spec (c_n cs) (c_l cs)); [lia|]. fold s. f_equal.
    destruct (Nat.eqb_spec (c_m cs) (next_pow2 s)) as [->|N]; cbn [negb]; [apply Z.eqb_refl|]. apply Z.eqb_neq. lia.
  - unfold w_next_pow2. assert (Z.of_nat (next_pow2 s) <= 2 ^ 63) as Hp.
    { rewrite npow2_Z. apply Z.pow_le_mono_r; [lia|]. change 63 with (Z.log2_up (2 ^ 63)). apply Z.log2_up_le_mono. exact H2. }
    destruct (Z.leb_spec (Z.of_nat (next_pow2 s)) (2 ^ 63)); [|lia]. cbn [bind]. rewrite <- npow2_Z, next_pow2_idem. f_equal. unfold pad_rows_to. rewrite next_pow2_idem.
    destruct (Nat.ltb_spec (c_m cs) (next_pow2 s)); destruct (Z.ltb_spec (Z.of_nat (c_m cs)) (Z.of_nat (next_pow2 s))); try lia; reflexivity.
Qed.
Lemma npow2_fit a m : 0 <= a -> 0 <= m -> (m = 2 ^ Z.log2_up (Z.max a m) <-> (exists k, 0 <= k /\ m = 2 ^ k) /\ a <= m).
Proof.
  intros Ha Hm. split.
  - intros E. pose proof (Z.log2_up_nonneg (Z.max a m)). split; [eauto|]. assert (Z.max a m <= 2 ^ Z.log2_up (Z.max a m)) as H1; [|lia].
    destruct (Z.le_gt_cases (Z.max a m) 1) as [Q|Q]; [pose proof (Z.pow_pos_nonneg 2 (Z.log2_up (Z.max a m))); lia|]. apply Z.log2_up_spec. exact Q.
  - intros [(k & Hk & Ek) Hle]. rewrite Z.max_r by lia. rewrite Ek at 2. rewrite Z.log2_up_pow2 by lia. exact Ek.
Qed.
(** Debug builds: the check passes exactly when the sizes fit, for all words. *)
Theorem C120_debug n l m L : word n -> word l -> word m -> word L -> w_sanity true n l m L = Ok true <-> sizes_fit n l m L /\ m <= 2 ^ 63.
Proof.
  unfold word, w_sanity, w_size, w_sub, w_mul, w_next_pow2, sizes_fit. intros Hn Hl Hm HL. split.
  - destruct (Z.leb_spec l n); [|discriminate]. cbn [bind]. destruct (Z.leb_spec 1 (n - l)); [|discriminate]. cbn [bind].
    destruct (Z.ltb_spec ((n - l - 1) * L) (2 ^ 64)); [|discriminate]. cbn [bind]. destruct (Z.leb_spec (Z.max ((n - l - 1) * L) m) (2 ^ 63)); [|discriminate]. cbn [bind].
    intros E. assert (forall a b : bool, Ok a = Ok b -> a = b) as OI by congruence. apply OI in E. apply Z.eqb_eq in E. apply npow2_fit in E; [|apply Z.mul_nonneg_nonneg; lia|lia]. split; [split; [lia|exact E]|lia].
  - intros ((H1 & H2 & H3) & H4). destruct (Z.leb_spec l n); [|lia]. cbn [bind]. destruct (Z.leb_spec 1 (n - l)); [|lia]. cbn [bind].
    destruct (Z.ltb_spec ((n - l - 1) * L) (2 ^ 64)); [|lia]. cbn [bind]. destruct (Z.leb_spec (Z.max ((n - l - 1) * L) m) (2 ^ 63)); [|lia]. cbn [bind].
    f_equal. apply Z.eqb_eq. apply npow2_fit; [apply Z.mul_nonneg_nonneg; lia|lia|]. split; assumption.
Qed.
(** Release builds: for every L > 1 there is a number of variables that the check admits although the witness is far too long. *)
Theorem C120_release_refuted L : 2 <= L -> L < 2 ^ 63 -> exists n l m, word n /\ word l /\ word m /\ w_sanity false n l m L = Ok true /\ ~ sizes_fit n l m L.
Proof.
  intros H1 H2. set (q := (2 ^ 64 + L - 1) / L). set (k := Z.log2_up L).
  assert (0 <= k <= 63) as Hk. { split; [apply Z.log2_up_nonneg|]. change 63 with (Z.log2_up (2 ^ 63)). apply Z.log2_up_le_mono. lia. }
  assert (L <= 2 ^ k) as HLk by (apply Z.log2_up_spec; lia).
  assert (2 ^ k <= 2 ^ 63) as Hk2 by (apply Z.pow_le_mono_r; lia).
  pose proof (Z.div_mod (2 ^ 64 + L - 1) L ltac:(lia)) as D. fold q in D. pose proof (Z.mod_pos_bound (2 ^ 64 + L - 1) L ltac:(lia)) as B.
  assert (2 ^ 64 <= q * L < 2 ^ 64 + L) as HqL by lia.
  assert (0 < q) as Hq0 by (apply Z.lt_nge; intros N; assert (q * L <= 0) by (apply Z.mul_nonpos_nonneg; lia); lia).
  assert (q <= 2 ^ 63) as Hq. { assert (2 * (q - 1) <= L * (q - 1)) as HH by (apply Z.mul_le_mono_nonneg_r; lia). lia. }
  exists (q + 1), 0, (2 ^ k). unfold word. split; [lia|]. split; [lia|]. split; [lia|]. split.
  - unfold w_sanity, w_size, w_sub, w_mul, w_next_pow2. destruct (Z.leb_spec 0 (q + 1)); [|lia]. cbn [bind]. destruct (Z.leb_spec 1 (q + 1 - 0)); [|lia]. cbn [bind].
    replace (q + 1 - 0 - 1) with q by lia. destruct (Z.ltb_spec (q * L) (2 ^ 64)); [lia|]. cbn [bind].
    assert ((q * L) mod 2 ^ 64 = q * L - 2 ^ 64) as -> by (symmetry; apply (Z.mod_unique_pos _ _ 1); lia).
    destruct (Z.leb_spec (Z.max (q * L - 2 ^ 64) (2 ^ k)) (2 ^ 63)); [|lia]. cbn [bind]. f_equal. apply Z.eqb_eq. apply npow2_fit; [lia|lia|]. split; [exists k; lia|lia].
  - intros (_ & _ & F). replace (q + 1 - 0 - 1) with q in F by lia. lia.
Qed.
(** A CCS with n <= l (no room for the constant and a witness): debug builds panic; release builds reject it as long as the
    missing length times L stays below 2^63, and [from_r1cs_padded] returns it unpadded. *)
Theorem C120_underflow n l m L : word n -> word l -> 1 <= m < 2 ^ 64 -> 1 <= L -> n <= l -> (l - n + 1) * L < 2 ^ 63 ->
  w_sanity true n l m L = Panic /\ w_padded true n l m L = Panic /\ w_sanity false n l m L = Ok false /\ w_padded false n l m L = Ok m.
Proof.
  unfold word. intros Hn Hl Hm HL Hnl HB. set (j := l - n + 1) in *. assert (1 <= j) as Hj by lia.
  assert (j * L >= j) as HjL. { apply Z.le_ge. rewrite <- (Z.mul_1_r j) at 1. apply Z.mul_le_mono_nonneg_l; lia. }
  assert (w_size true n l m L = Panic) as E1.
  { unfold w_size, w_sub. destruct (Z.leb_spec l n); cbn [bind]; [|reflexivity]. destruct (Z.leb_spec 1 (n - l)); [lia|]. reflexivity. }
  assert (w_size false n l m L = Ok 0) as E2.
  { unfold w_size. assert ((do a <- w_sub false n l; w_sub false a 1) = Ok (2 ^ 64 - j)) as Es.
    { unfold w_sub. destruct (Z.leb_spec l n); cbn [bind].
      - assert (n = l) as -> by lia. rewrite Z.sub_diag. destruct (Z.leb_spec 1 0); [lia|]. f_equal. unfold j. replace (l - l + 1) with 1 by lia. reflexivity.
      - assert ((n - l) mod 2 ^ 64 = 2 ^ 64 + (n - l)) as -> by (symmetry; apply (Z.mod_unique_pos _ _ (-1)); lia).
        destruct (Z.leb_spec 1 (2 ^ 64 + (n - l))); [|lia]. f_equal. lia. }
    destruct (w_sub false n l) as [a| |]; try discriminate. cbn [bind] in *. rewrite Es. cbn [bind].
    assert (exists c, w_mul false (2 ^ 64 - j) L = Ok c /\ c = 2 ^ 64 - j * L) as (c & Ec & Hc).
    { unfold w_mul. destruct (Z.ltb_spec ((2 ^ 64 - j) * L) (2 ^ 64)) as [Q|Q]; eexists; split; try reflexivity.
      - assert (L = 1) as ->; [|lia]. destruct (Z.le_gt_cases L 1); [lia|]. exfalso. assert ((2 ^ 64 - j) * 2 <= (2 ^ 64 - j) * L) by (apply Z.mul_le_mono_nonneg_l; lia). lia.
      - symmetry. apply (Z.mod_unique_pos _ _ (L - 1)); lia. }
    rewrite Ec. cbn [bind]. unfold w_next_pow2. destruct (Z.leb_spec (Z.max c m) (2 ^ 63)); [lia|reflexivity]. }
  unfold w_sanity, w_padded. rewrite E1, E2. cbn [bind]. split; [reflexivity|]. split; [reflexivity|]. split.
  - f_equal. apply Z.eqb_neq. lia.
  - unfold w_next_pow2. cbn [Z.leb bind]. change (2 ^ Z.log2_up 0) with 1. cbn. destruct (Z.ltb_spec m 1); [lia|reflexivity].
Qed.
