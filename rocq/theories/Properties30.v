(** C114: machine integers. *)
From Coq Require Import String List Arith Lia ZArith Bool Ring.
From Verif Require Import Prelude Alg Poly MLE MLE_Proofs Transcript Interp Sumcheck Sumcheck_Proofs
  Arith Arith_Proofs Balanced Rings Rings_Proofs Linearization Linearization_Proofs Relations LinRel
  Decomposition Decomposition_Proofs Folding NIFS NIFS_Proofs
  Challenge PolyInst Primes FieldExt CycInst RealRings ShortDual Sampling Shipped Inst5 Toy Overflow.
Import ListNotations.
Local Open Scope rs_scope.

Lemma as_u32_small i : (i < 128)%nat -> as_u32 i = Z.of_nat i.
Proof. intros. unfold as_u32. apply Z.mod_small. change (2 ^ 32)%Z with 4294967296%Z. lia. Qed.
Lemma pow_lt_128 b i : (2 <= b)%Z -> (b ^ Z.of_nat i < 2 ^ 128)%Z -> (i < 128)%nat.
Proof.
  intros Hb H. destruct (le_lt_dec 128 i) as [G|G]; [exfalso|auto].
  assert (2 ^ 128 <= b ^ Z.of_nat i)%Z; [|lia]. transitivity (2 ^ Z.of_nat i)%Z; [apply Z.pow_le_mono_r; lia|apply Z.pow_le_mono_l; lia].
Qed.
Lemma mapM_ext_ok {A B} (f : A -> result B) g l : (forall x, In x l -> f x = Ok (g x)) -> mapM f l = Ok (map g l).
Proof.
  induction l as [|a l IH]; intros H; [reflexivity|]. cbn [mapM map]. rewrite (H a) by (left; auto). cbn [bind]. rewrite IH by (intros; apply H; right; auto). reflexivity.
Qed.
Lemma mapM_panic {A B} (f : A -> result B) l x : In x l -> f x = Panic -> (forall y, In y l -> f y = Panic \/ exists z, f y = Ok z) -> mapM f l = Panic.
Proof.
  induction l as [|a l IH]; intros Hin Hx H; [destruct Hin|]. cbn [mapM]. destruct (H a (or_introl eq_refl)) as [->|(z & Ez)]; [reflexivity|]. rewrite Ez. cbn [bind].
  destruct Hin as [<-|Hin]; [congruence|]. rewrite IH; auto. intros y Hy. apply H. right. auto.
Qed.

Lemma combine_snoc {A B} (l : list A) (m : list B) a b : length l = length m -> combine (l ++ [a]) (m ++ [b]) = combine l m ++ [(a, b)].
Proof. revert m. induction l as [|x l IH]; intros [|y m] H; try discriminate; [reflexivity|]. cbn [app combine]. rewrite IH; auto. Qed.

Section P.
Context {F K C R T : Type} {SO : SOps F K C R} {TO : TransOps T R K}.
(** * C114
    With b >= 2 the checked computation of the weights succeeds exactly if the largest, b^(K-1), is below 2^128; both builds then
    compute the powers of b and both verifiers are the one of Decomposition.v. *)
Theorem C114_fits P : (2 <= dp_b P)%nat -> (1 <= dp_K P)%nat -> (Z.of_nat (dp_b P) ^ Z.of_nat (dp_K P - 1) < 2 ^ 128)%Z ->
  b_s_checked P = Ok (map (fun i => rofZ (Z.of_nat (dp_b P) ^ Z.of_nat i)) (seq 0 (dp_K P)) : list R) /\
  b_s_wrapping P = (map (fun i => rofZ (Z.of_nat (dp_b P) ^ Z.of_nat i)) (seq 0 (dp_K P)) : list R) /\
  forall (cm_i : lcccs R) pf (ts : T), dec_verify_debug P cm_i pf ts = dec_verify P cm_i pf ts /\ dec_verify_release P cm_i pf ts = dec_verify P cm_i pf ts.
Proof.
  intros Hb HK H. assert (dp_K P - 1 < 128)%nat as HK' by (apply (pow_lt_128 (Z.of_nat (dp_b P))); [lia|exact H]).
  assert (forall i, In i (seq 0 (dp_K P)) -> (Z.of_nat (dp_b P) ^ as_u32 i = Z.of_nat (dp_b P) ^ Z.of_nat i /\ 0 <= Z.of_nat (dp_b P) ^ Z.of_nat i < 2 ^ 128)%Z) as HI.
  { intros i Hi. apply in_seq in Hi. rewrite as_u32_small by lia. split; [auto|]. split; [apply Z.pow_nonneg; lia|].
    eapply Z.le_lt_trans; [|exact H]. apply Z.pow_le_mono_r; lia. }
  assert (b_s_checked P = Ok (calculate_b_s P : list R)) as E1.
  { apply mapM_ext_ok. intros i Hi. destruct (HI i Hi) as [E B]. unfold u128_pow_checked. rewrite E. destruct (Z.ltb_spec (Z.of_nat (dp_b P) ^ Z.of_nat i) (2 ^ 128)); [reflexivity|lia]. }
  assert (b_s_wrapping P = (calculate_b_s P : list R)) as E2.
  { apply map_ext_in. intros i Hi. destruct (HI i Hi) as [E B]. unfold u128_pow_wrapping. rewrite E, Z.mod_small by lia. reflexivity. }
  split; [exact E1|]. split; [exact E2|]. intros cm_i pf ts. split.
  - unfold dec_verify_debug. rewrite E1. cbn [bind]. unfold dec_verify_w, dec_verify. destruct (dec_absorb _ _ _); reflexivity.
  - unfold dec_verify_release. rewrite E2. reflexivity.
Qed.
(** Otherwise the debug build panics on every proof whose components are well-formed. *)
Theorem C114_panics P : (2 <= dp_b P)%nat -> (1 <= dp_K P)%nat -> (Z.of_nat (dp_K P) <= 2 ^ 32)%Z ->
  (2 ^ 128 <= Z.of_nat (dp_b P) ^ Z.of_nat (dp_K P - 1))%Z ->
  b_s_checked P = (Panic : result (list R)) /\
  forall (cm_i : lcccs R) pf (ts : T) r, dec_verify_debug P cm_i pf ts <> Ok r.
Proof.
  intros Hb HK HK' H. change (2 ^ 32)%Z with 4294967296%Z in HK'.
  assert (b_s_checked P = (Panic : result (list R))) as E.
  { unfold b_s_checked. apply (mapM_panic _ _ (dp_K P - 1)%nat); [apply in_seq; lia| |].
    - unfold u128_pow_checked, as_u32. rewrite Z.mod_small by (change (2 ^ 32)%Z with 4294967296%Z; lia).
      destruct (Z.ltb_spec (Z.of_nat (dp_b P) ^ Z.of_nat (dp_K P - 1)) (2 ^ 128)); [lia|reflexivity].
    - intros i _. unfold u128_pow_checked. destruct (_ <? _)%Z; [right; eexists; reflexivity|left; reflexivity]. }
  split; [exact E|]. intros cm_i pf ts r. unfold dec_verify_debug. rewrite E. destruct (dec_absorb _ _ _); cbn [bind]; discriminate.
Qed.
End P.

Section Rel.
Context {F K C R T : Type} {SO : SOps F K C R} {TO : TransOps T R K} {p : Z} {SL : SLaws F K C R p}.
Add Ring Rring100 : (@rlaws_th R _ _).

Lemma recompose_vecs_zero (s : list (list R)) (b : list R) x : s <> [] -> length s = length b -> (length (nth 0 s []) <= length x)%nat ->
  recompose_vecs (s ++ [x]) (b ++ [0]) = recompose_vecs s b.
Proof.
  intros Hs Hl Hx. destruct s as [|s0 s]; [contradiction|]. cbn [nth] in Hx. unfold recompose_vecs. cbn [app].
  apply mapM_ext_in. intros j Hj. apply in_seq in Hj. change (s0 :: s ++ [x]) with ((s0 :: s) ++ [x]).
  rewrite combine_snoc by exact Hl. rewrite fold_left_app. cbn [combine fold_left]. set (a := fold_left _ _ _). destruct a as [a| |]; cbn [bind]; try reflexivity.
  unfold index. cbn [fst snd]. destruct (nth_error x j) eqn:E; [cbn [of_option bind]; apply f_equal; ring|]. apply nth_error_None in E. lia.
Qed.
Lemma recompose_commitment_zero (s : list (list R)) (b : list R) x : s <> [] -> length s = length b -> (forall y, In y (s ++ [x]) -> length y = length x) ->
  recompose_commitment (s ++ [x]) (b ++ [0]) = recompose_commitment s b.
Proof.
  intros Hs Hl Hx.
  assert (forall l, zipw (fun y bi => cm_scale y bi) (s ++ [x]) (b ++ [0]) = l -> l = zipw (fun y bi => cm_scale y bi) s b ++ [cm_scale x 0]) as EZ.
  { intros l <-. clear -Hl. revert b Hl. induction s as [|y s IH]; intros [|c b] Hl; try discriminate; [reflexivity|]. cbn [app zipw]. rewrite IH; auto. }
  unfold recompose_commitment. rewrite (EZ _ eq_refl). destruct s as [|s0 s]; [contradiction|]. destruct b as [|b0 b]; [discriminate|]. cbn [zipw app].
  rewrite fold_left_app. cbn [fold_left]. f_equal.
  assert (forall a : list R, length a = length x -> cm_add a (cm_scale x 0) = a) as A0.
  { clear - SL. revert x. intros x a. unfold cm_add, cm_scale. revert x. induction a as [|y a IH]; intros [|z x] H; try discriminate; [reflexivity|]. cbn [map zipl]. f_equal; [ring|]. apply IH. auto. }
  apply A0. assert (forall l (a : list R), length a = length x -> (forall y, In y l -> length y = length x) -> length (fold_left cm_add l a) = length x) as L.
  { clear. induction l as [|y l IH]; intros a Ha Hy; [exact Ha|]. cbn [fold_left]. apply IH; [|intros; apply Hy; right; auto].
    unfold cm_add. rewrite zipl_length. exact Ha. }
  apply L.
  - unfold cm_scale. rewrite map_length. apply Hx. left; auto.
  - intros y Hy. apply In_nth with (d := []) in Hy as (i & Hi & <-). rewrite zipw_length in Hi. rewrite (nth_zipw _ _ _ _ [] 0) by lia. unfold cm_scale. rewrite map_length. apply Hx. right. apply in_or_app. left. apply nth_In. lia.
Qed.

(** In a release build the weight of a component from 128 on is 0 if b is even ... *)
Lemma wrapping_zero b i : (128 <= i)%nat -> (Z.of_nat i < 2 ^ 32)%Z -> Z.even b = true -> u128_pow_wrapping b (as_u32 i) = 0%Z.
Proof.
  intros Hi Hi' Hb. unfold u128_pow_wrapping, as_u32. rewrite (Z.mod_small (Z.of_nat i)) by lia. apply Z.even_spec in Hb as (c & ->).
  rewrite Z.pow_mul_l. replace (Z.of_nat i) with (128 + (Z.of_nat i - 128))%Z at 1 by lia. rewrite Z.pow_add_r by lia.
  rewrite <- Z.mul_assoc, Z.mul_comm. apply Z.mod_mul. discriminate.
Qed.
(** ... so that with 129 components what the verifier checks does not depend on the last one at all. *)
Theorem C114_release_ignores P (cm_i : lcccs R) us vs xs ys u v x y u' v' x' y' (ts : T) r :
  Z.even (Z.of_nat (dp_b P)) = true -> dp_K P = 129%nat ->
  length us = 128%nat -> length vs = 128%nat -> length xs = 128%nat -> length ys = 128%nat ->
  (forall z, In z ys -> length z = length y) -> length y' = length y ->
  (length (nth 0 us []) <= length u)%nat -> length u' = length u ->
  (length (nth 0 vs []) <= length v)%nat -> length v' = length v ->
  (length (nth 0 xs []) <= length x)%nat -> length x' = length x ->
  dec_verify_release P cm_i (DecProof (us ++ [u]) (vs ++ [v]) (xs ++ [x]) (ys ++ [y])) ts = Ok r ->
  exists r', dec_verify_release P cm_i (DecProof (us ++ [u']) (vs ++ [v']) (xs ++ [x']) (ys ++ [y'])) ts = Ok r' /\
    firstn 128 (fst r') = firstn 128 (fst r) /\ length (fst r') = 129%nat /\
    exists lc, nth_error (fst r') 128 = Some lc /\ lc_cm lc = y' /\ lc_u lc = u' /\ lc_v lc = v' /\ lc_x lc ++ [lc_h lc] = x'.
Proof.
  intros Hb HK Lu Lv Lx Ly Hy Hy' Hu Hu' Hv Hv' Hx Hx'. unfold dec_verify_release.
  assert (exists b, b_s_wrapping P = b ++ [0 : R] /\ length b = 128%nat) as (b & -> & Lb).
  { exists (map (fun i => rofZ (u128_pow_wrapping (Z.of_nat (dp_b P)) (as_u32 i))) (seq 0 128)). split; [|rewrite map_length, seq_length; reflexivity].
    unfold b_s_wrapping. rewrite HK. change (seq 0 129) with (seq 0 128 ++ [128%nat]). rewrite map_app. cbn [map].
    rewrite (wrapping_zero _ 128) by (auto; reflexivity). rewrite rofZ_0. reflexivity. }
  assert (forall l : list (list R), length l = 128%nat -> l <> []) as NE by (intros [|] H; [discriminate|discriminate]).
  unfold dec_verify_w. cbn [dp_us dp_vs dp_xs dp_ys].
  rewrite !recompose_vecs_zero by (auto; congruence || lia).
  rewrite !recompose_commitment_zero by (auto; try congruence; intros z Hz; apply in_app_or in Hz as [Hz|[<-|[]]]; rewrite ?Hy'; auto).
  assert (forall (x : list R) y u v, zip4 (xs ++ [x]) (ys ++ [y]) (us ++ [u]) (vs ++ [v]) = zip4 xs ys us vs ++ [(x, y, u, v)]) as Z4.
  { intros. unfold zip4. rewrite combine_snoc by congruence. rewrite combine_snoc by (rewrite combine_length; lia). rewrite combine_snoc by (rewrite !combine_length; lia). reflexivity. }
  rewrite !Z4. intros H. apply bind_ok_inv in H as (q & EQ & H).
  assert (q = r) as ->.
  { repeat (apply bind_ok_inv in H as (? & ? & H) || match type of H with (if ?c then _ else _) = _ => destruct c; [discriminate|] end). apply ok_inj in H. exact H. }
  destruct r as [lcs ts1]. apply dec_absorb_inv in EQ as [-> EF].
  apply Forall_app in EF as [EF E1]. inversion E1 as [|? ? Hne _]; subst. cbn [fst] in Hne.
  assert (x' <> []) as Hne' by (intros ->; destruct x; [contradiction|discriminate]).
  destruct (dec_absorb_ok (lc_r cm_i) ts (zip4 xs ys us vs ++ [(x', y', u', v')])) as (ts' & E').
  { apply Forall_app. split; [exact EF|]. repeat constructor. exact Hne'. }
  rewrite E'. cbn [bind]. eexists. split.
  - repeat ((apply bind_ok_inv in H as (? & -> & H); cbn [bind]) || match type of H with (if ?c then _ else _) = _ => destruct c; [discriminate|] end). reflexivity.
  - cbn [fst]. rewrite !map_app. cbn [map].
    assert (length (map (fun '(x0, y0, u0, v0) => Lcccs (lc_r cm_i) v0 y0 u0 (removelast x0) (last x0 0)) (zip4 xs ys us vs)) = 128%nat) as L.
    { rewrite map_length. unfold zip4. rewrite !combine_length. lia. }
    set (l0 := map _ (zip4 xs ys us vs)) in *. clearbody l0. rewrite !firstn_app, L. cbn [Nat.sub firstn]. split; [reflexivity|]. rewrite app_length, L. split; [reflexivity|].
    eexists. split; [rewrite nth_error_app2, L by lia; reflexivity|]. cbn [lc_cm lc_u lc_v lc_x lc_h]. repeat (split; [reflexivity|]). symmetry. apply app_removelast_last. exact Hne'.
Qed.
End Rel.

(** The smallest K that covers B, a u128, is small enough. *)
Theorem C114_minimal P : (dp_B P < 2 ^ 128)%Z -> (Z.of_nat (dp_b P) ^ Z.of_nat (dp_K P - 1) < dp_B P)%Z ->
  (Z.of_nat (dp_b P) ^ Z.of_nat (dp_K P - 1) < 2 ^ 128)%Z.
Proof. lia. Qed.
(** All shipped parameters: both builds compute what Decomposition.v computes. *)
Theorem C114_shipped {p K} (y : cyc p K) decode n W G P : shipped p K y decode n W G -> In P (W ++ G) ->
  (Z.of_nat (dp_b P) ^ Z.of_nat (dp_K P - 1) < 2 ^ 128)%Z /\ two_k_minus_1_checked (dp_K P) = Ok (2 * dp_K P - 1)%nat /\
  two_k_minus_1_wrapping (dp_K P) = Z.of_nat (2 * dp_K P - 1).
Proof.
  intros S HP.
  assert (forall P, In P (W ++ G) -> ((Z.of_nat (dp_b P) ^ Z.of_nat (dp_K P - 1) <? 2 ^ 128)%Z && (1 <=? dp_K P)%nat && (dp_K P <=? 200)%nat)%bool = true) as H.
  { apply forallb_forall. destruct S; vm_compute; reflexivity. }
  specialize (H P HP). rewrite !andb_true_iff in H. destruct H as [[H1 H2] H3]. apply Z.ltb_lt in H1. apply Nat.leb_le in H2, H3.
  split; [exact H1|]. split.
  - unfold two_k_minus_1_checked. destruct (2 * dp_K P)%nat eqn:E; [lia|]. f_equal. lia.
  - unfold two_k_minus_1_wrapping. rewrite Z.mod_small; [lia|]. change (2 ^ 64)%Z with 18446744073709551616%Z. lia.
Qed.
(** The documented conditions do not bound K: parameters that meet all of them and are refused by a debug build, while a release
    build gives weight 0 to two of the components. *)
Theorem C114_weights_refuted : exists P, dp_good stark_p P /\ b_s_checked (R := r2) P = Panic /\
  nth 128 (b_s_wrapping P) 1 = (0 : r2) /\ nth 128 (b_s_wrapping P) 1 <> (rofZ (Z.of_nat (dp_b P) ^ 128) : r2).
Proof.
  exists (DParams (2 ^ 127) 2 2 130). split; [apply dp_goodb_ok; vm_compute; reflexivity|].
  split; [vm_compute; reflexivity|]. split; [vm_compute; reflexivity|]. vm_compute. discriminate.
Qed.
(** K = 0: a panic in a debug build, 2^64 - 1 challenges in a release build. *)
Theorem C114_zero_refuted : exists k, two_k_minus_1_checked k = Panic /\ two_k_minus_1_wrapping k = (2 ^ 64 - 1)%Z.
Proof. exists 0%nat. split; vm_compute; reflexivity. Qed.
Theorem C114_two_k k : (1 <= k)%nat -> (Z.of_nat k < 2 ^ 62)%Z ->
  two_k_minus_1_checked k = Ok (2 * k - 1)%nat /\ two_k_minus_1_wrapping k = Z.of_nat (2 * k - 1).
Proof.
  intros H1 H2. split.
  - unfold two_k_minus_1_checked. destruct (2 * k)%nat eqn:E; [lia|]. f_equal. lia.
  - unfold two_k_minus_1_wrapping. rewrite Z.mod_small; [lia|]. change (2 ^ 64)%Z with 18446744073709551616%Z. change (2 ^ 62)%Z with 4611686018427387904%Z in H2. lia.
Qed.
