From Coq Require Import List Arith Lia ZArith Bool Ring.
From Verif Require Import Prelude Alg Poly Transcript Interp.
Import ListNotations.
Local Open Scope rs_scope.

(** Product over all indices but one. *)
Definition prod_skip {R} {RO : RingOps R} (n i : nat) (f : nat -> R) : R :=
  prodn n (fun j => if (j =? i)%nat then 1 else f j).

Fixpoint zfact (n : nat) : Z := match n with O => 1 | S k => zfact k * Z.of_nat (S k) end%Z.
Lemma zfact_pos n : (1 <= zfact n)%Z.
Proof. induction n; cbn [zfact]; nia. Qed.
Lemma zfact_mono n m : (n <= m)%nat -> (zfact n <= zfact m)%Z.
Proof.
  induction 1; [lia|]. cbn [zfact]. pose proof (zfact_pos m). nia.
Qed.

Lemma uw_factorial_ok w a : (zfact a < 2 ^ w)%Z -> uw_factorial w a = Ok (zfact a).
Proof.
  induction a; intros H; auto.
  cbn [uw_factorial]. rewrite IHa.
  - cbn [bind]. unfold chk_u. change (zfact a * Z.of_nat (S a))%Z with (zfact (S a)).
    pose proof (zfact_pos (S a)).
    destruct (Z.leb_spec 0 (zfact (S a))), (Z.ltb_spec (zfact (S a)) (2 ^ w)); auto; lia.
  - eapply Z.le_lt_trans; [|exact H]. apply zfact_mono. lia.
Qed.

Section P.
Context {R K : Type} {RO : RingOps R} {KO : FieldOps K} {E : Embed K R}.
Context {LR : RingLaws R} {LK : FieldLaws K} {EL : EmbedLaws K R}.
Add Ring Rring5 : (@rlaws_th R RO LR).
Add Ring Kring5 : (@rlaws_th K _ _).

Lemma prod_skip_split {A} {AO : RingOps A} {AL : RingLaws A} n i (f : nat -> A) :
  (i < n)%nat -> prod_skip n i f = prodn i f * prodn (n - 1 - i) (fun j => f (i + 1 + j)%nat).
Proof.
  intros Hi. unfold prod_skip.
  replace n with (i + (1 + (n - 1 - i)))%nat at 1 by lia.
  rewrite prodn_split, prodn_split. f_equal.
  - apply prodn_ext. intros j Hj. destruct (Nat.eqb_spec j i); auto; lia.
  - simpl prodn at 1. rewrite Nat.add_0_r, Nat.eqb_refl, !rmul_1_l.
    apply prodn_ext. intros j Hj. rewrite Nat.add_assoc.
    destruct (Nat.eqb_spec (i + 1 + j) i); auto; lia.
Qed.
Lemma prod_skip_mul {A} {AO : RingOps A} {AL : RingLaws A} n i (f : nat -> A) :
  (i < n)%nat -> prodn n f = prod_skip n i f * f i.
Proof.
  intros Hi. rewrite prod_skip_split by auto.
  replace n with (i + (1 + (n - 1 - i)))%nat at 1 by lia.
  rewrite prodn_split, prodn_split. simpl prodn at 2. rewrite Nat.add_0_r, rmul_1_l.
  rewrite <- !(Rmul_assoc rlaws_th). f_equal.
  rewrite (Rmul_comm rlaws_th). f_equal. apply prodn_ext. intros. f_equal. lia.
Qed.
Lemma prodn_rev {A} {AO : RingOps A} {AL : RingLaws A} n (f : nat -> A) :
  prodn n f = prodn n (fun i => f (n - 1 - i)%nat).
Proof.
  induction n; auto.
  rewrite (prodn_S_first n (fun i => f (S n - 1 - i)%nat)). cbn [prodn]. rewrite IHn at 1. rewrite (Rmul_comm rlaws_th).
  f_equal; [f_equal; lia|]. apply prodn_ext. intros. f_equal. lia.
Qed.

(** *** factorials in the field *)
Definition kfact (n : nat) : K := prodn n (fun j => rofn (S j)).

Lemma field_factorial_kfact n : field_factorial n = kfact n.
Proof. induction n; simpl; auto. rewrite IHn. reflexivity. Qed.
Lemma rofZ_zfact n : rofZ (zfact n) = kfact n.
Proof.
  induction n; cbn [zfact kfact prodn]; [apply rofZ_1|].
  unfold kfact. cbn [prodn]. rewrite rofZ_mul, IHn. reflexivity.
Qed.

Definition denom (n i : nat) : K := prod_skip n i (fun j => rofn i - rofn j).

Lemma denom_closed n i : (i < n)%nat ->
  denom n i = kfact i * (rpow (- (1)) (n - 1 - i) * kfact (n - 1 - i)).
Proof.
  intros Hi. unfold denom. rewrite prod_skip_split by auto. f_equal.
  - rewrite prodn_rev. apply prodn_ext. intros j Hj.
    rewrite <- rofn_sub by lia. f_equal. lia.
  - generalize (n - 1 - i)%nat. intros m. induction m; [unfold kfact; simpl; ring|].
    cbn [prodn rpow]. rewrite IHm. unfold kfact. cbn [prodn].
    replace (i + 1 + m)%nat with (i + S m)%nat by lia. rewrite rofn_add. ring.
Qed.
Lemma denom_step n i : (S i < n)%nat ->
  denom n i * rofn (S i) = denom n (S i) * - rofn (n - S i).
Proof.
  intros Hi. rewrite !denom_closed by lia.
  replace (n - 1 - i)%nat with (S (n - 1 - S i)) by lia.
  unfold kfact. cbn [prodn rpow]. replace (S (n - 1 - S i)) with (n - S i)%nat by lia.
  ring.
Qed.
Lemma denom_last n : denom (S n) n = kfact n.
Proof.
  rewrite denom_closed by lia. replace (S n - 1 - n)%nat with 0%nat by lia.
  unfold kfact. simpl. ring.
Qed.
Lemma rofn_inj n i j : char_gt K n -> (i <= n)%nat -> (j <= n)%nat -> (rofn i : K) = rofn j -> i = j.
Proof.
  intros Hc Hi Hj H. destruct (Nat.lt_trichotomy i j) as [Hl|[|Hl]]; auto; exfalso.
  - apply (Hc (j - i)%nat); [lia|]. rewrite rofn_sub, H by lia. ring.
  - apply (Hc (i - j)%nat); [lia|]. rewrite rofn_sub, H by lia. ring.
Qed.
Lemma prod_skip_neq_0 n i (f : nat -> K) :
  (forall j, (j < n)%nat -> j <> i -> f j <> 0) -> prod_skip n i f <> 0.
Proof.
  intros H. apply fprodn_neq_0. intros j Hj. destruct (Nat.eqb_spec j i).
  - apply f_1_neq_0.
  - auto.
Qed.
Lemma denom_neq_0 n i : char_gt K (n - 1) -> (i < n)%nat -> denom n i <> 0.
Proof.
  intros Hc Hi. apply prod_skip_neq_0. intros j Hj N. rewrite rsub_0_iff. intros H.
  apply N. apply (rofn_inj (n - 1)) in H; auto; lia.
Qed.

(** *** the interpolating polynomial *)
Definition lagrange (p : list R) (y : R) : R :=
  let n := length p in
  sumn n (fun i => nth i p 0 * emb (finv (denom n i)) * prod_skip n i (fun j => y - emb (rofn j))).

Lemma deg_le_prod_skip n i (f : nat -> R -> R) : (i < n)%nat ->
  (forall j, (j < n)%nat -> deg_le 1 (f j)) -> deg_le (n - 1) (fun y => prod_skip n i (fun j => f j y)).
Proof.
  intros Hi H.
  apply deg_le_ext with (fun y => prodn i (fun j => f j y) * prodn (n - 1 - i) (fun j => f (i + 1 + j)%nat y)).
  - intros y. rewrite prod_skip_split; auto.
  - apply deg_le_mono with (i * 1 + (n - 1 - i) * 1)%nat; [lia|].
    apply deg_le_mul.
    + apply deg_le_prodn; intros; apply H; lia.
    + apply deg_le_prodn with (f := fun j y => f (i + 1 + j)%nat y); intros; apply H; lia.
Qed.
Lemma lagrange_deg p : deg_le (length p - 1) (lagrange p).
Proof.
  unfold lagrange. cbv zeta.
  apply deg_le_sumn with (f := fun i y => nth i p 0 * emb (finv (denom (length p) i)) *
     prod_skip (length p) i (fun j => y - emb (rofn j))).
  intros i Hi. apply deg_le_scale.
  apply deg_le_prod_skip with (f := fun j y => y - emb (rofn j)); auto.
  intros j Hj. apply deg_le_sub. apply deg_le_id. apply deg_le_const.
Qed.
Lemma emb_prod_skip n i (f : nat -> K) :
  emb (prod_skip n i f) = prod_skip n i (fun j => emb (f j)).
Proof.
  unfold prod_skip. rewrite (hom_prodn emb emb_hom). apply prodn_ext. intros j Hj.
  destruct (j =? i)%nat; auto. apply (hom_1 _ emb_hom).
Qed.
Lemma prod_skip_ext {A} {AO : RingOps A} n i (f g : nat -> A) :
  (forall j, (j < n)%nat -> f j = g j) -> prod_skip n i f = prod_skip n i g.
Proof.
  intros H. unfold prod_skip. apply prodn_ext. intros j Hj. rewrite H; auto.
Qed.
Lemma lagrange_node p k : char_gt K (length p - 1) -> (k < length p)%nat ->
  lagrange p (rofn k) = nth k p 0.
Proof.
  intros Hc Hk. unfold lagrange. cbv zeta. rewrite (sumn_single _ k); auto.
  - rewrite (prod_skip_ext _ _ _ (fun j => emb (rofn k - rofn j))).
    + rewrite <- emb_prod_skip.
      change (prod_skip (length p) k (fun j : nat => rofn k - rofn j)) with (denom (length p) k).
      replace (nth k p 0 * emb (finv (denom (length p) k)) * emb (denom (length p) k))
        with (nth k p 0 * (emb (denom (length p) k) * emb (finv (denom (length p) k)))) by ring.
      rewrite (emb_unit emb emb_hom) by (apply denom_neq_0; auto). ring.
    + intros j Hj. rewrite (hom_sub _ emb_hom), (hom_ofn emb emb_hom k). reflexivity.
  - intros i Hi N. replace (prod_skip _ _ _) with (0 : R); [ring|].
    symmetry. unfold prod_skip. apply prodn_zero with k; auto.
    destruct (Nat.eqb_spec k i); [congruence|]. rewrite (hom_ofn emb emb_hom). ring.
Qed.
Lemma nodes_NoDup n : char_gt K (n - 1) -> NoDup (map (fun i => rofn i : K) (seq 0 n)).
Proof.
  intros Hc.
  apply (proj2 (NoDup_nth _ 0)). rewrite map_length, seq_length. intros i j Hi Hj H.
  rewrite !nth_seq_map in H by auto. apply (rofn_inj (n - 1)) in H; auto; lia.
Qed.
(** Uniqueness: the interpolating polynomial is any polynomial of degree < len with the
    given values at 0..len-1. *)
Lemma lagrange_unique p g : p <> [] -> char_gt K (length p - 1) ->
  deg_le (length p - 1) g -> (forall i, (i < length p)%nat -> g (rofn i) = nth i p 0) ->
  forall y, lagrange p y = g y.
Proof.
  intros Hp Hc Hg H.
  assert (0 < length p)%nat by (destruct p; [congruence|simpl; lia]).
  apply (deg_le_agree emb emb_hom (length p - 1)) with (xs := map (fun i => rofn i : K) (seq 0 (length p)));
    auto using lagrange_deg.
  - apply nodes_NoDup; auto.
  - rewrite map_length, seq_length. lia.
  - intros x Hx. apply in_map_iff in Hx as (i & <- & Hi). apply in_seq in Hi.
    rewrite (hom_ofn emb emb_hom), lagrange_node, H by (auto; lia). reflexivity.
Qed.

(** *** the loops *)
Definition nodes_off (len : nat) (x : K) : Prop := forall j, (j < len)%nat -> x <> rofn j.

Definition weight (len : nat) (x : K) (i : nat) : K :=
  finv (denom len i) * prod_skip len i (fun j => x - rofn j).

Lemma lagrange_weights p x : lagrange p (emb x) =
  sumn (length p) (fun i => nth i p 0 * emb (weight (length p) x i)).
Proof.
  unfold lagrange. cbv zeta. apply sumn_ext. intros i Hi. unfold weight.
  rewrite (hom_mul _ emb_hom), emb_prod_skip.
  rewrite (prod_skip_ext _ _ (fun j => emb (x - rofn j)) (fun j => emb x - emb (rofn j))).
  ring. intros. apply (hom_sub _ emb_hom).
Qed.

Lemma fdiv_weight len x i prod U Ed :
  char_gt K (len - 1) -> (i < len)%nat -> nodes_off len x ->
  prod = prodn len (fun j => x - rofn j) -> U = denom len i * Ed -> Ed <> 0 ->
  fdiv (prod * Ed) (U * (x - rofn i)) = Ok (weight len x i).
Proof.
  intros Hc Hi Hx -> -> HE.
  assert (denom len i <> 0) as HD by (apply denom_neq_0; auto).
  assert (x - rofn i <> 0) as Hxi by (rewrite rsub_0_iff; apply Hx; auto).
  unfold fdiv. destruct (req_dec (denom len i * Ed * (x - rofn i)) 0) as [Z|Z].
  - exfalso. apply fmul_eq_0 in Z as [Z|Z]; [|contradiction].
    apply fmul_eq_0 in Z as [Z|Z]; contradiction.
  - rewrite (proj2 (req_false _ _) Z). f_equal. unfold weight.
    apply fmul_cancel_l with (denom len i * Ed * (x - rofn i)); auto.
    rewrite (prod_skip_mul len i) by auto.
    set (q := prod_skip len i (fun j : nat => x - rofn j)).
    set (D := denom len i) in *. set (y := x - rofn i) in *.
    replace (D * Ed * y * (q * y * Ed * finv (D * Ed * y)))
      with (D * Ed * y * finv (D * Ed * y) * (q * y * Ed)) by ring.
    rewrite finv_r by auto.
    replace (D * Ed * y * (finv D * q)) with (D * finv D * (Ed * y * q)) by ring.
    rewrite finv_r by auto. ring.
Qed.

Definition evals_ok (len : nat) (x : K) (evals : list K) : Prop :=
  forall j, (j < len)%nat -> nth j evals 0 = x - rofn j.

Lemma field_loop_spec len p evals x prod n U Ed res :
  char_gt K (len - 1) -> nodes_off len x -> evals_ok len x evals ->
  prod = prodn len (fun j => x - rofn j) -> (S n <= len)%nat ->
  U = denom len n * Ed -> Ed <> 0 ->
  interp_field_loop len p evals prod (S n) U Ed res =
  Ok (res + sumn (S n) (fun i => nth i p 0 * emb (weight len x i))).
Proof.
  intros Hc Hx He Hp. revert U Ed res. induction n as [|n IH]; intros U Ed res Hn HU HE.
  - cbn [interp_field_loop]. rewrite He by lia.
    rewrite (fdiv_weight len x 0) by (auto; lia). cbn [bind]. simpl. f_equal. ring.
  - cbn [interp_field_loop]. rewrite He by lia.
    rewrite (fdiv_weight len x (S n)) by (auto; lia). cbn [bind].
    change (S n =? 0)%nat with false. cbv iota.
    change (match n with O => _ | S _ => _ end) with 0%nat || idtac.
    transitivity (interp_field_loop len p evals prod (S n) (U * - rofn (len - S n)) (Ed * rofn (S n))
                    (res + nth (S n) p 0 * emb (weight len x (S n)))); [reflexivity|].
    rewrite IH.
    + f_equal. cbn [sumn]. ring.
    + lia.
    + rewrite HU.
      replace (denom len (S n) * Ed * - rofn (len - S n))
        with (denom len (S n) * - rofn (len - S n) * Ed) by ring.
      rewrite <- denom_step by lia. ring.
    + apply fmul_neq_0; auto. apply Hc. lia.
Qed.

Lemma chk_i_ok w z : (- 2 ^ (w - 1) <= z < 2 ^ (w - 1))%Z -> chk_i w z = Ok z.
Proof.
  intros H. unfold chk_i.
  destruct (Z.leb_spec (- 2 ^ (w - 1)) z), (Z.ltb_spec z (2 ^ (w - 1))); auto; lia.
Qed.
Lemma chk_u_ok w z : (0 <= z < 2 ^ w)%Z -> chk_u w z = Ok z.
Proof.
  intros H. unfold chk_u. destruct (Z.leb_spec 0 z), (Z.ltb_spec z (2 ^ w)); auto; lia.
Qed.

Lemma int_loop_spec w len p evals x prod n num enum res :
  char_gt K (len - 1) -> nodes_off len x -> evals_ok len x evals ->
  prod = prodn len (fun j => x - rofn j) -> (S n <= len)%nat ->
  (1 <= w)%Z -> (zfact (len - 1) < 2 ^ (w - 1))%Z ->
  (Z.abs num = zfact (len - 1 - n))%Z -> (1 <= enum /\ enum * zfact n = zfact (len - 1))%Z ->
  rofZ (zfact (len - 1)) * rofZ num = denom len n * rofZ enum -> rofZ enum <> (0:K) ->
  interp_int_loop w len p evals prod (rofZ (zfact (len - 1))) (S n) num enum res =
  Ok (res + sumn (S n) (fun i => nth i p 0 * emb (weight len x i))).
Proof.
  intros Hc Hx He Hp. revert num enum res.
  induction n as [|n IH]; intros num enum res Hn Hw Hf Hnum Henum HU HE.
  - assert ((if (num <? 0)%Z then do a <- chk_i w (- num); Ok (- rofZ a) else Ok (rofZ num)) = Ok (rofZ num : K)) as Hnf.
    { destruct (Z.ltb_spec num 0); auto.
      assert (zfact (len - 1 - 0) <= zfact (len - 1))%Z by (apply zfact_mono; lia).
      rewrite chk_i_ok by lia. cbn [bind]. rewrite rofZ_opp. f_equal. ring. }
    cbn [interp_int_loop]. rewrite Hnf. cbn [bind]. rewrite He by lia.
    rewrite (fdiv_weight len x 0) by (auto; lia). cbn [bind]. simpl. f_equal. ring.
  - assert ((if (num <? 0)%Z then do a <- chk_i w (- num); Ok (- rofZ a) else Ok (rofZ num)) = Ok (rofZ num : K)) as Hnf.
    { destruct (Z.ltb_spec num 0); auto.
      assert (zfact (len - 1 - S n) <= zfact (len - 1))%Z by (apply zfact_mono; lia).
      rewrite chk_i_ok by lia. cbn [bind]. rewrite rofZ_opp. f_equal. ring. }
    cbn [interp_int_loop]. rewrite Hnf. cbn [bind]. rewrite He by lia.
    rewrite (fdiv_weight len x (S n)) by (auto; lia). cbn [bind].
    change (S n =? 0)%nat with false. cbv iota.
    assert (Z.abs (num * - (Z.of_nat len - Z.of_nat (S n))) = zfact (len - 1 - n))%Z as Hnum'.
    { replace (len - 1 - n)%nat with (S (len - 1 - S n)) by lia. cbn [zfact].
      rewrite <- Hnum. rewrite Z.abs_mul. f_equal. lia. }
    assert (zfact (len - 1 - n) <= zfact (len - 1))%Z by (apply zfact_mono; lia).
    rewrite chk_i_ok by lia. cbn [bind].
    assert (enum * Z.of_nat (S n) * zfact n = zfact (len - 1))%Z as Henum'.
    { destruct Henum as [_ <-]. cbn [zfact]. ring. }
    assert (1 <= enum * Z.of_nat (S n))%Z by nia.
    pose proof (zfact_pos n).
    assert (2 ^ w = 2 * 2 ^ (w - 1))%Z as Hpw
      by (rewrite <- Z.pow_succ_r by lia; f_equal; lia).
    assert (enum * Z.of_nat (S n) <= zfact (len - 1))%Z by nia.
    rewrite chk_u_ok by lia. cbn [bind].
    transitivity (interp_int_loop w len p evals prod (rofZ (zfact (len - 1))) (S n)
       (num * - (Z.of_nat len - Z.of_nat (S n)))%Z (enum * Z.of_nat (S n))%Z
                    (res + nth (S n) p 0 * emb (weight len x (S n)))); [reflexivity|].
    rewrite IH; auto.
    + f_equal. cbn [sumn]. ring.
    + lia.
    + rewrite !rofZ_mul, rofZ_opp, <- Nat2Z.inj_sub by lia.
      change (rofZ (Z.of_nat (len - S n))) with (rofn (len - S n) : K).
      change (rofZ (Z.of_nat (S n))) with (rofn (S n) : K).
      replace ((rofZ (zfact (len - 1)) : K) * (rofZ num * - rofn (len - S n)))
        with ((rofZ (zfact (len - 1)) : K) * rofZ num * - rofn (len - S n)) by ring.
      rewrite HU.
      replace (denom len (S n) * rofZ enum * - rofn (len - S n))
        with (denom len (S n) * - rofn (len - S n) * rofZ enum) by ring.
      rewrite <- denom_step by lia. ring.
    + rewrite rofZ_mul. apply fmul_neq_0; auto. apply Hc. lia.
Qed.

Lemma scan_spec k x check prod evals i :
  (1 <= i)%nat -> check = rofn (i - 1) -> prod = prodn i (fun j => x - rofn j) ->
  length evals = i -> evals_ok i x evals -> nodes_off (i - 1) x ->
  match interp_scan k x check prod evals i with
  | inl j => (j < i + k)%nat /\ x = rofn j
  | inr (ev, pr) => evals_ok (i + k) x ev /\ pr = prodn (i + k) (fun j => x - rofn j)
                    /\ nodes_off (i + k) x
  end.
Proof.
  revert check prod evals i; induction k as [|k IH]; intros check prod evals i Hi Hc Hp Hl He Hx; cbn [interp_scan].
  - destruct (req_dec x check) as [E1|E1].
    + rewrite (proj2 (req_true _ _) E1). split; [lia|congruence].
    + rewrite (proj2 (req_false _ _) E1). rewrite Nat.add_0_r. split; [auto|split;[auto|]].
      intros j Hj. destruct (Nat.eq_dec j (i - 1)); [congruence|]. apply Hx. lia.
  - destruct (req_dec x check) as [E1|E1].
    + rewrite (proj2 (req_true _ _) E1). split; [lia|congruence].
    + rewrite (proj2 (req_false _ _) E1). cbv zeta.
      assert (check + 1 = rofn i) as Hc'.
      { rewrite Hc, <- rofn_S. f_equal. lia. }
      specialize (IH (check + 1) (prod * (x - (check + 1))) (evals ++ [x - (check + 1)]) (i + 1)%nat).
      replace (i + 1 + k)%nat with (i + S k)%nat in IH by lia.
      apply IH.
      * lia.
      * rewrite Hc'. f_equal. lia.
      * rewrite Hc', Hp, Nat.add_1_r. reflexivity.
      * rewrite app_length. simpl. lia.
      * intros j Hj. destruct (Nat.eq_dec j i) as [->|].
        -- rewrite app_nth2 by lia. rewrite Hl, Nat.sub_diag. simpl. rewrite Hc'. auto.
        -- rewrite app_nth1 by lia. apply He. lia.
      * intros j Hj. destruct (Nat.eq_dec j (i - 1)); [congruence|]. apply Hx. lia.
Qed.

Theorem interpolate_lagrange p x :
  p <> [] -> char_gt K (length p - 1) -> interpolate p x = Ok (lagrange p (emb x)).
Proof.
  intros Hp Hc. unfold interpolate. destruct (length p) as [|k] eqn:Hl.
  { destruct p; [congruence|discriminate]. }
  pose proof (scan_spec k x 0 x [x] 1) as HS.
  destruct (interp_scan k x 0 x [x] 1) as [j|[ev pr]].
  - destruct HS as [Hj Hx]; auto.
    + simpl. rewrite rofn_0. ring.
    + intros j0 Hj. replace j0 with 0%nat by lia. simpl. rewrite rofn_0. ring.
    + intros i Hi. simpl in Hi. lia.
    + assert (j < length p)%nat as Hj' by lia.
      rewrite (nth_error_nth' p 0 Hj'). f_equal.
      rewrite Hx, (hom_ofn emb emb_hom), lagrange_node; auto. rewrite Hl. auto.
  - destruct HS as (H1 & H2 & H3); auto.
    + simpl. rewrite rofn_0. ring.
    + intros j0 Hj. replace j0 with 0%nat by lia. simpl. rewrite rofn_0. ring.
    + intros i Hi. simpl in Hi. lia.
    + change (1 + k)%nat with (S k) in *.
      rewrite lagrange_weights, Hl.
      assert (forall w, (1 <= w)%Z -> (zfact k < 2 ^ (w - 1))%Z ->
        (do f <- uw_factorial w (S k - 1);
         interp_int_loop w (S k) p ev pr (rofZ f) (S k) 1 1 0) =
        Ok (sumn (S k) (fun i => nth i p 0 * emb (weight (S k) x i)))) as Hint.
      { intros w Hw Hz.
        assert (zfact k < 2 ^ w)%Z.
        { eapply Z.lt_le_trans; [exact Hz|]. apply Z.pow_le_mono_r; lia. }
        replace (S k - 1)%nat with k by lia.
        rewrite uw_factorial_ok by auto. cbn [bind].
        replace k with (S k - 1)%nat at 2 by lia.
        rewrite (int_loop_spec w (S k) p ev x); auto.
        - f_equal. ring.
        - replace (S k - 1)%nat with k by lia. auto.
        - replace (S k - 1 - k)%nat with 0%nat by lia. reflexivity.
        - split; [lia|]. rewrite Z.mul_1_l. f_equal. lia.
        - replace (S k - 1)%nat with k by lia. rewrite denom_last, rofZ_zfact, rofZ_1. ring.
        - rewrite rofZ_1. apply f_1_neq_0. }
      destruct (Nat.leb_spec (S k) 20).
      * apply Hint; [lia|]. apply Z.le_lt_trans with (zfact 19); [apply zfact_mono; lia|reflexivity].
      * destruct (Nat.leb_spec (S k) 33).
        -- apply Hint; [lia|]. apply Z.le_lt_trans with (zfact 32); [apply zfact_mono; lia|reflexivity].
        -- rewrite (field_loop_spec (S k) p ev x); auto.
           ++ f_equal. ring.
           ++ replace (S k - 1)%nat with k by lia.
              rewrite denom_last, field_factorial_kfact. ring.
           ++ apply f_1_neq_0.
Qed.
End P.
