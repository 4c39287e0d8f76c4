(** The Poseidon permutation is a bijection; its matrix; the sponge element by element. *)
From Coq Require Import String List Arith Lia ZArith Bool Ring Znumtheory Permutation.
From Verif Require Import Prelude Alg Poly Transcript Rings Challenge Challenge_Proofs PolyInst Primes FieldExt CycInst Sampling Zippel Poseidon.
Import ListNotations.
Local Open Scope rs_scope.

(** * The permutation *)
(** Dimensions as asserted by [PoseidonConfig::new], with a nonzero rate. *)
Definition cfg_ok (c : poseidon_cfg) : Prop := pcfg_new c = Ok c /\ (0 < pc_rate c)%nat.
Definition width (c : poseidon_cfg) : nat := (pc_rate c + pc_cap c)%nat.
Lemma cfg_dims c : cfg_ok c -> length (pc_ark c) = (pc_full c + pc_partial c)%nat /\ (forall r, In r (pc_ark c) -> length r = width c) /\
  length (pc_mds c) = width c /\ (forall r, In r (pc_mds c) -> length r = width c).
Proof.
  unfold cfg_ok, pcfg_new. intros [H _]. destruct (_ && _) eqn:E; [|discriminate]. rewrite !andb_true_iff in E. destruct E as (((E1 & E2) & E3) & E4).
  apply Nat.eqb_eq in E1, E3. rewrite forallb_forall in E2, E4. repeat split; auto; intros r Hr; apply Nat.eqb_eq; auto.
Qed.

Section Perm.
Context {p : Z} (Hp : prime p) (c : poseidon_cfg) (HC : cfg_ok c).
Notation F := (fp p).
Notation t := (width c).
Local Instance FLp : FieldLaws F := fp_laws p Hp.
Add Ring Rring80 : (@rlaws_th F _ _).

Lemma lsum_cons (x : F) l : lsum (x :: l) = x + lsum l.
Proof. reflexivity. Qed.
Lemma zp_rofZ z : zp p z = (rofZ z : F).
Proof. apply fp_ext. rewrite rofZ_fp. reflexivity. Qed.
Lemma rofZ_mod z : (rofZ (z mod p) : F) = rofZ z.
Proof. apply fp_ext. rewrite !rofZ_fp. apply Zmod_mod. Qed.
(** Row [i], column [j] of the matrix. *)
Definition mds_at (i j : nat) : F := zp p (nth j (nth i (pc_mds c) []) 0%Z).
Lemma mds_length (s : list F) : length (apply_mds c s) = t.
Proof. unfold apply_mds. rewrite map_length. apply (cfg_dims c HC). Qed.
Lemma mds_nth (s : list F) i : length s = t -> (i < t)%nat -> nth i (apply_mds c s) 0 = sumn t (fun j => mds_at i j * nth j s 0).
Proof.
  intros Hs Hi. destruct (cfg_dims c HC) as (_ & _ & H3 & H4). unfold apply_mds.
  rewrite (nth_map_lt _ _ _ []) by lia. assert (length (nth i (pc_mds c) []) = t) as Hr by (apply H4, nth_In; lia).
  rewrite lsum_nth, zipw_length, Hr, Hs, Nat.min_id. apply sumn_ext. intros j Hj. rewrite (nth_zipw _ _ _ _ 0%Z 0) by lia. unfold mds_at. ring.
Qed.
Lemma ark_length k (s : list F) : length s = t -> (k < pc_full c + pc_partial c)%nat -> length (apply_ark c k s) = t.
Proof.
  intros Hs Hk. destruct (cfg_dims c HC) as (H1 & H2 & _). unfold apply_ark. rewrite zipw_length, Hs.
  rewrite H2 by (apply nth_In; lia). apply Nat.min_id.
Qed.
Lemma s_box_length b (s : list F) : length (apply_s_box c b s) = length s.
Proof. unfold apply_s_box. destruct b; [apply map_length|]. destruct s; reflexivity. Qed.
Lemma round_length (s : list F) k : length (round c s k) = t.
Proof. apply mds_length. Qed.
Lemma rounds_length ks : forall s : list F, length s = t -> length (fold_left (round c) ks s) = t.
Proof. induction ks as [|k ks IH]; intros s Hs; cbn [fold_left]; auto. apply IH, round_length. Qed.
Lemma permute_length (s : list F) : length s = t -> length (permute c s) = t.
Proof. apply rounds_length. Qed.

(** Injectivity of the three layers. *)
Lemma zipw_inj_l (f : F -> Z -> F) (HF : forall x x' a, f x a = f x' a -> x = x') (m : list Z) : forall s s' : list F,
  length s = length m -> length s' = length m -> zipw f s m = zipw f s' m -> s = s'.
Proof.
  induction m as [|a m IH]; intros [|x s] [|x' s'] H H' E; try discriminate; auto. cbn [zipw] in E. injection E as E1 E2. f_equal; eauto.
Qed.
Lemma ark_inj k (s s' : list F) : length s = t -> length s' = t -> (k < pc_full c + pc_partial c)%nat -> apply_ark c k s = apply_ark c k s' -> s = s'.
Proof.
  intros Hs Hs' Hk. destruct (cfg_dims c HC) as (H1 & H2 & _). pose proof (H2 (nth k (pc_ark c) []) ltac:(apply nth_In; lia)) as Hl.
  apply zipw_inj_l; [|congruence|congruence]. intros x x' a E. replace x with (x + zp p a - zp p a) by ring. rewrite E. ring.
Qed.
(** x^alpha determines x when alpha is prime to p - 1. *)
Lemma fermat_fp (x : F) n : x <> 0 -> rpow x (Z.to_nat (p - 1) * n) = 1.
Proof.
  intros Hx. pose proof (prime_ge_2 p Hp) as H2. rewrite rpow_mul. assert (rpow x (Z.to_nat (p - 1)) = 1) as ->; [|induction n as [|n IH]; cbn [rpow]; [auto|rewrite IH; ring]].
  replace x with (rofZ (fpz x) : F) by (apply fp_ext; rewrite rofZ_fp; apply fpz_mod). rewrite <- rofZ_pow, Z2Nat.id by lia.
  apply fp_ext. rewrite rofZ_fp. rewrite fermat; auto; [cbn [rone fp_ops fld_ring zp fpz]; symmetry; apply Z.mod_small; lia|].
  intros [q Hq]. apply Hx. apply fp_ext. cbn [rzero fp_ops fld_ring zp fpz]. rewrite <- fpz_mod, Hq, Z.mod_mul, Z.mod_0_l by lia. reflexivity.
Qed.
Lemma root_exists : (0 < pc_alpha c)%nat -> Z.gcd (Z.of_nat (pc_alpha c)) (p - 1) = 1%Z -> exists b n : nat, (pc_alpha c * b = 1 + Z.to_nat (p - 1) * n)%nat.
Proof.
  intros H0 HG. pose proof (prime_ge_2 p Hp) as H2. apply Zgcd_1_rel_prime in HG. destruct (rel_prime_bezout _ _ HG) as [u v E].
  set (a := Z.of_nat (pc_alpha c)) in *. assert (0 < a)%Z by (unfold a; lia).
  set (k := (Z.abs u + Z.abs v + 1)%Z). exists (Z.to_nat (u + k * (p - 1))), (Z.to_nat (k * a - v)).
  assert (0 <= u + k * (p - 1))%Z by nia. assert (0 <= k * a - v)%Z by nia.
  apply Nat2Z.inj. rewrite Nat2Z.inj_add, !Nat2Z.inj_mul, !Z2Nat.id by lia. fold a. nia.
Qed.
(** The exponent of the S-box is prime to p - 1. *)
Definition alpha_ok : Prop := (0 < pc_alpha c)%nat /\ Z.gcd (Z.of_nat (pc_alpha c)) (p - 1) = 1%Z.
Lemma sbox_inj (x x' : F) : alpha_ok -> sbox c x = sbox c x' -> x = x'.
Proof.
  intros [H0 HG] E. destruct (root_exists H0 HG) as (b & n & Hb). unfold sbox in E.
  assert (forall z : F, z <> 0 -> rpow (rpow z (pc_alpha c)) b = z) as Hr.
  { intros z Hz. rewrite <- rpow_mul, Hb. change (1 + Z.to_nat (p - 1) * n)%nat with (S (Z.to_nat (p - 1) * n)). cbn [rpow]. rewrite fermat_fp by auto. ring. }
  destruct (req_dec x 0) as [Z1|Z1], (req_dec x' 0) as [Z2|Z2].
  - congruence.
  - exfalso. subst x. apply (fpow_neq_0 x' (pc_alpha c) Z2). rewrite <- E. destruct (pc_alpha c); [lia|]. cbn [rpow]. ring.
  - exfalso. subst x'. apply (fpow_neq_0 x (pc_alpha c) Z1). rewrite E. destruct (pc_alpha c); [lia|]. cbn [rpow]. ring.
  - rewrite <- (Hr x Z1), <- (Hr x' Z2), E. reflexivity.
Qed.
Lemma s_box_inj b (s s' : list F) : alpha_ok -> apply_s_box c b s = apply_s_box c b s' -> s = s'.
Proof.
  intros HA. unfold apply_s_box. destruct b.
  - revert s'. induction s as [|x s IH]; intros [|x' s'] E; try discriminate; auto. cbn [map] in E. injection E as E1 E2. f_equal; [apply sbox_inj|]; auto.
  - destruct s as [|x s], s' as [|x' s']; intros E; try discriminate; auto. injection E as E1 E2. f_equal; [apply sbox_inj|]; auto.
Qed.
(** The matrix loses nothing. *)
Definition mds_regular : Prop := forall d : nat -> F, (forall i, (i < t)%nat -> sumn t (fun j => mds_at i j * d j) = 0) -> forall j, (j < t)%nat -> d j = 0.
Lemma mds_diff (s s' : list F) i : length s = t -> length s' = t -> (i < t)%nat ->
  sumn t (fun j => mds_at i j * (nth j s 0 - nth j s' 0)) = nth i (apply_mds c s) 0 - nth i (apply_mds c s') 0.
Proof. intros Hs Hs' Hi. rewrite !mds_nth by auto. rewrite <- sumn_sub. apply sumn_ext. intros. ring. Qed.
Lemma mds_inj (s s' : list F) : mds_regular -> length s = t -> length s' = t -> apply_mds c s = apply_mds c s' -> s = s'.
Proof.
  intros HM Hs Hs' E. apply (nth_ext _ _ 0 0); [congruence|]. intros j Hj. apply (proj1 (rsub_0_iff _ _)).
  apply (HM (fun j => nth j s 0 - nth j s' 0)); [|lia]. intros i Hi. rewrite mds_diff by auto. rewrite E. ring.
Qed.
Lemma round_inj k (s s' : list F) : alpha_ok -> mds_regular -> (k < pc_full c + pc_partial c)%nat -> length s = t -> length s' = t -> round c s k = round c s' k -> s = s'.
Proof.
  intros HA HM Hk Hs Hs' E. unfold round in E. apply mds_inj in E; auto; try (rewrite s_box_length; apply ark_length; auto).
  apply s_box_inj in E; auto. apply ark_inj in E; auto.
Qed.
Theorem permute_inj (s s' : list F) : alpha_ok -> mds_regular -> length s = t -> length s' = t -> permute c s = permute c s' -> s = s'.
Proof.
  intros HA HM. unfold permute. assert (forall k, In k (seq 0 (pc_full c + pc_partial c)) -> (k < pc_full c + pc_partial c)%nat) as Hk by (intros k Hk; apply in_seq in Hk; lia).
  revert s s' Hk. generalize (seq 0 (pc_full c + pc_partial c)). induction l as [|k l IH]; intros s s' Hk Hs Hs' E; cbn [fold_left] in E; auto.
  apply IH in E; try apply round_length; [|intros; apply Hk; right; auto]. apply round_inj in E; auto. apply Hk. left; auto.
Qed.
(** Every state is the image of one. *)
Definition fp_all : list F := map (fun n => zp p (Z.of_nat n)) (seq 0 (Z.to_nat p)).
Lemma in_fp_all (x : F) : In x fp_all.
Proof.
  pose proof (prime_ge_2 p Hp) as H2. apply in_map_iff. exists (Z.to_nat (fpz x)). assert (0 <= fpz x < p)%Z as Hx by (rewrite <- (fpz_mod x); apply Z.mod_pos_bound; lia).
  split; [|apply in_seq; lia]. rewrite Z2Nat.id by lia. apply zp_fpz.
Qed.
Lemma fp_all_NoDup : NoDup fp_all.
Proof.
  pose proof (prime_ge_2 p Hp) as H2. unfold fp_all. assert (forall n, In n (seq 0 (Z.to_nat p)) -> (0 <= Z.of_nat n < p)%Z) as Hb by (intros n Hn; apply in_seq in Hn; lia).
  revert Hb. generalize (seq_NoDup (Z.to_nat p) 0). generalize (seq 0 (Z.to_nat p)). induction l as [|n l IH]; intros Hn Hb; cbn [map]; constructor.
  - inversion Hn; subst. intros Hi. apply in_map_iff in Hi. destruct Hi as (m & E & Hm). apply (f_equal fpz) in E. cbn [zp fpz] in E.
    rewrite (Z.mod_small (Z.of_nat m)), (Z.mod_small (Z.of_nat n)) in E by (apply Hb; solve [left; auto | right; auto]). apply Nat2Z.inj in E. subst m. auto.
  - inversion Hn; subst. apply IH; auto. intros; apply Hb; right; auto.
Qed.
Lemma fp_all_length : length fp_all = Z.to_nat p.
Proof. unfold fp_all. rewrite map_length, seq_length. reflexivity. Qed.
Theorem permute_surj (u : list F) : alpha_ok -> mds_regular -> length u = t -> exists s, length s = t /\ permute c s = u.
Proof.
  intros HA HM Hu. set (L := tuples t fp_all).
  assert (forall s, In s L <-> length s = t) as HL.
  { intros s. unfold L. rewrite in_tuples. split; [tauto|]. intros H. split; auto. apply Forall_forall. intros; apply in_fp_all. }
  assert (NoDup (map (permute c) L)) as HN.
  { assert (NoDup L) as H by apply tuples_NoDup, fp_all_NoDup. assert (forall s, In s L -> length s = t) as Hl by (intros s Hs; apply HL; auto).
    clear HL. clearbody L. induction H as [|s L Hn H IH]; cbn [map]; constructor; [|apply IH; intros; apply Hl; right; auto].
    intros Hi. apply in_map_iff in Hi. destruct Hi as (s' & E & Hs'). apply permute_inj in E; auto; [congruence| |]; apply Hl; [right|left]; auto. }
  assert (incl L (map (permute c) L)) as HI.
  { apply NoDup_length_incl; auto; [rewrite map_length; auto|]. intros x Hx. apply in_map_iff in Hx. destruct Hx as (s & <- & Hs). apply HL, permute_length, HL, Hs. }
  specialize (HI u (proj2 (HL u) Hu)). apply in_map_iff in HI. destruct HI as (s & E & Hs). exists s. split; auto. apply HL; auto.
Qed.

(** ** Checking the matrix *)
(** A left inverse, one reduction per entry. *)
Definition zdot (u v : list Z) : Z := fold_right Z.add 0%Z (zipw Z.mul u v).
Definition zcol (M : list (list Z)) (j : nat) : list Z := map (fun r => nth j r 0%Z) M.
Definition inv_check (N : list (list Z)) : bool :=
  (length N =? t)%nat && forallb (fun k => (length (nth k N []) =? t)%nat) (seq 0 t) &&
  forallb (fun j => let m := zcol (pc_mds c) j in forallb (fun k => (zdot (nth k N []) m mod p =? if (k =? j)%nat then 1 else 0)%Z) (seq 0 t)) (seq 0 t).
Lemma zdot_sumn (u v : list Z) : length u = length v -> (rofZ (zdot u v) : F) = sumn (length u) (fun i => zp p (nth i u 0%Z) * zp p (nth i v 0%Z)).
Proof.
  unfold zdot. revert v. induction u as [|a u IH]; intros [|b v] H; try discriminate; [apply rofZ_0|].
  cbn [zipw fold_right length]. rewrite sumn_S_first. cbn [nth]. rewrite rofZ_add, rofZ_mul, !zp_rofZ, IH by auto. reflexivity.
Qed.
Lemma inv_regular N : inv_check N = true -> mds_regular.
Proof.
  intros H. pose proof (prime_ge_2 p Hp) as H2. unfold inv_check in H. rewrite !andb_true_iff in H. destruct H as ((H & HK) & H1). rewrite forallb_forall in HK, H1. apply Nat.eqb_eq in H.
  destruct (cfg_dims c HC) as (_ & _ & HM & _).
  assert (forall k j, (k < t)%nat -> (j < t)%nat -> sumn t (fun i => zp p (nth i (nth k N []) 0%Z) * mds_at i j) = if (k =? j)%nat then 1 else 0) as HI.
  { intros k j Hk Hj. specialize (HK k ltac:(apply in_seq; lia)). apply Nat.eqb_eq in HK. specialize (H1 j ltac:(apply in_seq; lia)). cbv zeta in H1. rewrite forallb_forall in H1.
    specialize (H1 k ltac:(apply in_seq; lia)). apply Z.eqb_eq in H1.
    pose proof (zdot_sumn (nth k N []) (zcol (pc_mds c) j)) as E. unfold zcol in E at 1. rewrite map_length, HM, HK in E. specialize (E eq_refl).
    transitivity (rofZ (zdot (nth k N []) (zcol (pc_mds c) j)) : F).
    - rewrite E. apply sumn_ext. intros i Hi. f_equal. unfold mds_at, zcol. rewrite (nth_map_lt _ _ _ []) by lia. reflexivity.
    - rewrite <- rofZ_mod, H1. destruct (k =? j)%nat; [apply rofZ_1|apply rofZ_0]. }
  intros d Hd j Hj. transitivity (sumn t (fun l => (if (j =? l)%nat then 1 else 0) * d l)).
  { symmetry. rewrite (sumn_single t j (fun l => (if (j =? l)%nat then 1 else 0) * d l)); [rewrite Nat.eqb_refl; ring|auto|].
    intros l Hl Hn. rewrite (proj2 (Nat.eqb_neq j l)) by auto. ring. }
  transitivity (sumn t (fun l => sumn t (fun i => zp p (nth i (nth j N []) 0%Z) * mds_at i l * d l))).
  { apply sumn_ext. intros l Hl. rewrite <- HI by auto. rewrite sumn_mul_r. reflexivity. }
  rewrite sumn_swap. apply sumn_0. intros i Hi. transitivity (zp p (nth i (nth j N []) 0%Z) * sumn t (fun l => mds_at i l * d l)); [|rewrite Hd by auto; ring].
  rewrite <- sumn_mul_l. apply sumn_ext. intros; ring.
Qed.

(** ** Maximum distance separable *)
(** The number of positions where two states differ. *)
Definition differ (s s' : list F) : nat := length (filter (fun i => negb (nth i s 0 =? nth i s' 0)) (seq 0 t)).
(** Different states differ, before and after the matrix together, in at least t + 1 positions. *)
Definition is_mds : Prop := forall s s' : list F, length s = t -> length s' = t -> s <> s' -> (t + 1 <= differ s s' + differ (apply_mds c s) (apply_mds c s'))%nat.
Lemma filter_split {A} (f : A -> bool) l : (length (filter f l) + length (filter (fun x => negb (f x)) l) = length l)%nat.
Proof. induction l as [|x l IH]; cbn [filter length]; auto. destruct (f x); cbn [negb length]; lia. Qed.
(** It suffices that a difference with no more nonzero positions [js] than zero outputs [is] vanishes. *)
Lemma mds_criterion : (forall (d : nat -> F) js is, NoDup js -> NoDup is -> (forall j, In j js -> (j < t)%nat) -> (forall i, In i is -> (i < t)%nat) ->
    (length js <= length is)%nat -> (forall i, In i is -> lsum (map (fun j => d j * mds_at i j) js) = 0) -> forall j, In j js -> d j = 0) -> is_mds.
Proof.
  intros HD s s' Hs Hs' Hn. set (d := fun j => nth j s 0 - nth j s' 0). set (js := filter (fun i => negb (nth i s 0 =? nth i s' 0)) (seq 0 t)).
  set (is := filter (fun i => nth i (apply_mds c s) 0 =? nth i (apply_mds c s') 0) (seq 0 t)).
  assert (length is + differ (apply_mds c s) (apply_mds c s') = t)%nat as HL.
  { unfold is, differ. rewrite filter_split, seq_length. reflexivity. }
  change (differ s s') with (length js). destruct (le_lt_dec (length js) (length is)) as [Hle|Hgt]; [|lia]. exfalso. apply Hn.
  apply (nth_ext _ _ 0 0); [congruence|]. intros j Hj. destruct (req_dec (nth j s 0) (nth j s' 0)) as [E|E]; auto.
  apply (proj1 (rsub_0_iff _ _)). change (d j = 0). apply (HD d js is); auto; try (apply NoDup_filter, seq_NoDup).
  - intros l Hl. apply filter_In in Hl. destruct Hl as [Hl _]. apply in_seq in Hl. lia.
  - intros l Hl. apply filter_In in Hl. destruct Hl as [Hl _]. apply in_seq in Hl. lia.
  - intros i Hi. apply filter_In in Hi. destruct Hi as [Hi He]. apply in_seq in Hi. apply req_true in He.
    transitivity (sumn t (fun j => mds_at i j * d j)).
    + rewrite <- lsum_map_seq. unfold js. clear. induction (seq 0 t) as [|l L IH]; cbn [filter map]; auto.
      rewrite lsum_cons, <- IH. destruct (nth l s 0 =? nth l s' 0) eqn:E; cbn [negb map]; rewrite ?lsum_cons; [|ring].
      apply req_true in E. unfold d at 2. rewrite E. ring.
    + unfold d. rewrite mds_diff by (auto; lia). rewrite He. ring.
  - apply filter_In. split; [apply in_seq; lia|]. apply negb_true_iff, req_false. auto.
Qed.
(** A matrix with entries 1 / (x_i + y_j). *)
Lemma cauchy (X Y : nat -> F) js : forall is (d : nat -> F), NoDup js -> NoDup is ->
  (forall i j, In i is -> In j js -> mds_at i j * (X i + Y j) = 1) ->
  (forall i i', In i is -> In i' is -> X i = X i' -> i = i') -> (forall j j', In j js -> In j' js -> Y j = Y j' -> j = j') ->
  (length js <= length is)%nat -> (forall i, In i is -> lsum (map (fun j => d j * mds_at i j) js) = 0) -> forall j, In j js -> d j = 0.
Proof.
  induction js as [|j0 js IH]; intros is d Nj Ni HM HX HY Hl HS; [intros j []|]. destruct is as [|i0 is]; cbn [length] in Hl; [lia|].
  inversion Nj as [|? ? Nj0 Nj1]; subst. inversion Ni as [|? ? Ni0 Ni1]; subst.
  assert (forall i j, In i (i0 :: is) -> In j (j0 :: js) -> mds_at i j <> 0) as HNZ.
  { intros i j Hi Hj E. specialize (HM i j Hi Hj). rewrite E in HM. apply (f_1_neq_0 (K := F)). rewrite <- HM. ring. }
  assert (forall j, In j js -> d j = 0) as Hjs.
  { intros j Hj. assert (d j * (Y j0 - Y j) * mds_at i0 j = 0) as E.
    { apply (IH is (fun j => d j * (Y j0 - Y j) * mds_at i0 j)); auto; try lia.
      - intros; apply HM; right; auto.
      - intros; apply HX; auto; right; auto.
      - intros; apply HY; auto; right; auto.
      - intros i Hi.
        assert ((X i0 - X i) * lsum (map (fun j => d j * (Y j0 - Y j) * mds_at i0 j * mds_at i j) js) = 0) as E1.
        { transitivity ((X i + Y j0) * lsum (map (fun j => d j * mds_at i j) (j0 :: js)) - (X i0 + Y j0) * lsum (map (fun j => d j * mds_at i0 j) (j0 :: js))).
          - cbn [map]. rewrite !lsum_cons. pose proof (HM i j0 ltac:(right; auto) ltac:(left; auto)) as M1. pose proof (HM i0 j0 ltac:(left; auto) ltac:(left; auto)) as M2.
            transitivity (d j0 * (mds_at i j0 * (X i + Y j0)) - d j0 * (mds_at i0 j0 * (X i0 + Y j0)) + ((X i + Y j0) * lsum (map (fun j => d j * mds_at i j) js) - (X i0 + Y j0) * lsum (map (fun j => d j * mds_at i0 j) js))); [|ring].
            rewrite M1, M2. transitivity ((X i + Y j0) * lsum (map (fun j => d j * mds_at i j) js) - (X i0 + Y j0) * lsum (map (fun j => d j * mds_at i0 j) js)); [|ring].
            assert (forall j, In j js -> mds_at i j * (X i + Y j) = 1 /\ mds_at i0 j * (X i0 + Y j) = 1) as HM' by (intros; split; apply HM; solve [left; auto|right; auto]).
            clear - HM'. induction js as [|j js IH]; cbn [map]; [unfold lsum; cbn [fold_right]; ring|]. rewrite !lsum_cons.
            destruct (HM' j (or_introl eq_refl)) as [M1 M2].
            transitivity ((X i0 - X i) * (d j * (Y j0 - Y j) * mds_at i0 j * mds_at i j) + (X i0 - X i) * lsum (map (fun j => d j * (Y j0 - Y j) * mds_at i0 j * mds_at i j) js)); [ring|].
            rewrite IH by (intros; apply HM'; right; auto).
            assert ((X i0 - X i) * (d j * (Y j0 - Y j) * mds_at i0 j * mds_at i j) = d j * (mds_at i j * (X i + Y j0)) - d j * (mds_at i0 j * (X i0 + Y j0))) as ->; [|ring].
            assert (mds_at i j * (X i + Y j0) = 1 + (Y j0 - Y j) * mds_at i j) as -> by (rewrite <- M1; ring).
            assert (mds_at i0 j * (X i0 + Y j0) = 1 + (Y j0 - Y j) * mds_at i0 j) as -> by (rewrite <- M2; ring).
            transitivity (d j * (Y j0 - Y j) * ((mds_at i0 j * (X i0 + Y j)) * mds_at i j - (mds_at i j * (X i + Y j)) * mds_at i0 j)); [ring|rewrite M1, M2; ring].
          - rewrite !HS by (solve [left; auto|right; auto]). ring. }
        apply fmul_eq_0 in E1. destruct E1 as [E|E]; [|exact E]. apply (proj1 (rsub_0_iff _ _)) in E. apply HX in E; [|left; auto|right; auto]. subst. contradiction. }
    apply fmul_eq_0 in E. destruct E as [E|E]; [|destruct (HNZ i0 j); auto; solve [left; auto|right; auto]].
    apply fmul_eq_0 in E. destruct E as [E|E]; auto. apply (proj1 (rsub_0_iff _ _)) in E. apply HY in E; [|left; auto|right; auto]. subst. contradiction. }
  intros j [<-|Hj]; auto. specialize (HS i0 (or_introl eq_refl)). cbn [map] in HS. rewrite lsum_cons in HS.
  assert (lsum (map (fun j => d j * mds_at i0 j) js) = 0) as E.
  { clear - Hjs. induction js as [|j js IH]; cbn [map]; auto. rewrite lsum_cons, IH, Hjs by (intros; solve [left; auto|apply Hjs; right; auto]). ring. }
  rewrite E in HS. assert (d j0 * mds_at i0 j0 = 0) as HS' by (rewrite <- HS; ring). apply fmul_eq_0 in HS'. destruct HS' as [|H]; auto.
  exfalso. apply (HNZ i0 j0); auto; left; auto.
Qed.
Definition distinct_mod (l : list Z) : bool :=
  forallb (fun i => forallb (fun j => (i =? j)%nat || negb ((nth i l 0 - nth j l 0) mod p =? 0)%Z) (seq 0 t)) (seq 0 t).
Definition cauchy_check (xs ys : list Z) : bool :=
  distinct_mod xs && distinct_mod ys &&
  forallb (fun i => let m := nth i (pc_mds c) [] in let x := nth i xs 0%Z in
    forallb (fun j => (nth j m 0 * (x + nth j ys 0) mod p =? 1)%Z) (seq 0 t)) (seq 0 t).
Lemma distinct_inj l i j : distinct_mod l = true -> (i < t)%nat -> (j < t)%nat -> zp p (nth i l 0%Z) = zp p (nth j l 0%Z) -> i = j.
Proof.
  intros H Hi Hj E. unfold distinct_mod in H. rewrite forallb_forall in H. specialize (H i ltac:(apply in_seq; lia)). rewrite forallb_forall in H.
  specialize (H j ltac:(apply in_seq; lia)). apply orb_true_iff in H. destruct H as [H|H]; [apply Nat.eqb_eq; auto|]. exfalso. apply negb_true_iff, Z.eqb_neq in H. apply H.
  apply (f_equal fpz) in E. cbn [zp fpz] in E. rewrite Zminus_mod, E, Z.sub_diag. apply Zmod_0_l.
Qed.
Lemma cauchy_mds xs ys : cauchy_check xs ys = true -> is_mds.
Proof.
  intros H. unfold cauchy_check in H. rewrite !andb_true_iff in H. destruct H as ((HX & HY) & HM). rewrite forallb_forall in HM.
  apply mds_criterion. intros d js is Nj Ni Bj Bi Hl HS. apply (cauchy (fun i => zp p (nth i xs 0%Z)) (fun j => zp p (nth j ys 0%Z)) js is d); auto.
  - intros i j Hi Hj. specialize (HM i ltac:(apply in_seq; specialize (Bi i Hi); lia)). cbv zeta in HM. rewrite forallb_forall in HM.
    specialize (HM j ltac:(apply in_seq; specialize (Bj j Hj); lia)). apply Z.eqb_eq in HM. unfold mds_at. rewrite !zp_rofZ, <- rofZ_add, <- rofZ_mul, <- rofZ_mod, HM. apply rofZ_1.
  - intros i i' Hi Hi'. apply distinct_inj; auto.
  - intros i i' Hi Hi'. apply distinct_inj; auto.
Qed.
(** Width three: any three of the six linear forms (inputs and outputs) are independent. *)
Definition form (i : nat) : list Z := match i with 0%nat => [1;0;0]%Z | 1%nat => [0;1;0]%Z | 2%nat => [0;0;1]%Z | S (S (S i')) => nth i' (pc_mds c) [] end.
Definition det3 (u v w : list Z) : Z :=
  (let a := nth 0 u 0 in let b := nth 1 u 0 in let d := nth 2 u 0 in let a' := nth 0 v 0 in let b' := nth 1 v 0 in let d' := nth 2 v 0 in
   let a'' := nth 0 w 0 in let b'' := nth 1 w 0 in let d'' := nth 2 w 0 in
   a * (b' * d'' - d' * b'') - b * (a' * d'' - d' * a'') + d * (a' * b'' - b' * a''))%Z.
Definition minors3 : bool :=
  forallb (fun i => forallb (fun j => forallb (fun k => (i =? j)%nat || (i =? k)%nat || (j =? k)%nat || negb (det3 (form i) (form j) (form k) mod p =? 0)%Z)
    (seq 0 6)) (seq 0 6)) (seq 0 6).
Definition val3 (u : list Z) (d : nat -> F) : F := zp p (nth 0 u 0%Z) * d 0%nat + zp p (nth 1 u 0%Z) * d 1%nat + zp p (nth 2 u 0%Z) * d 2%nat.
Lemma det3_zero u v w (d : nat -> F) : (det3 u v w mod p <> 0)%Z -> val3 u d = 0 -> val3 v d = 0 -> val3 w d = 0 -> forall j, (j < 3)%nat -> d j = 0.
Proof.
  intros HD. unfold val3. rewrite !zp_rofZ. intros E1 E2 E3 j Hj. assert ((rofZ (det3 u v w) : F) <> 0) as HN.
  { intros E. apply (f_equal fpz) in E. rewrite rofZ_fp in E. apply HD. rewrite E. change (0 mod p = 0)%Z. apply Zmod_0_l. }
  assert (rofZ (det3 u v w) * d j = 0) as E; [|apply fmul_eq_0 in E; tauto]. unfold det3. cbv zeta.
  revert E1 E2 E3. generalize (nth 0 u 0%Z) (nth 1 u 0%Z) (nth 2 u 0%Z) (nth 0 v 0%Z) (nth 1 v 0%Z) (nth 2 v 0%Z) (nth 0 w 0%Z) (nth 1 w 0%Z) (nth 2 w 0%Z).
  intros a b e a' b' e' a'' b'' e'' E1 E2 E3. rewrite !rofZ_add, !rofZ_sub, !rofZ_mul, !rofZ_sub, !rofZ_mul.
  set (A := rofZ a : F) in *. set (B := rofZ b : F) in *. set (E := rofZ e : F) in *. set (A' := rofZ a' : F) in *. set (B' := rofZ b' : F) in *. set (E' := rofZ e' : F) in *.
  set (A'' := rofZ a'' : F) in *. set (B'' := rofZ b'' : F) in *. set (E'' := rofZ e'' : F) in *.
  destruct j as [|[|[|j]]]; [| | |lia].
  - transitivity ((B' * E'' - E' * B'') * (A * d 0%nat + B * d 1%nat + E * d 2%nat) - (B * E'' - E * B'') * (A' * d 0%nat + B' * d 1%nat + E' * d 2%nat)
      + (B * E' - E * B') * (A'' * d 0%nat + B'' * d 1%nat + E'' * d 2%nat)); [ring|rewrite E1, E2, E3; ring].
  - transitivity (- (A' * E'' - E' * A'') * (A * d 0%nat + B * d 1%nat + E * d 2%nat) + (A * E'' - E * A'') * (A' * d 0%nat + B' * d 1%nat + E' * d 2%nat)
      - (A * E' - E * A') * (A'' * d 0%nat + B'' * d 1%nat + E'' * d 2%nat)); [ring|rewrite E1, E2, E3; ring].
  - transitivity ((A' * B'' - B' * A'') * (A * d 0%nat + B * d 1%nat + E * d 2%nat) - (A * B'' - B * A'') * (A' * d 0%nat + B' * d 1%nat + E' * d 2%nat)
      + (A * B' - B * A') * (A'' * d 0%nat + B'' * d 1%nat + E'' * d 2%nat)); [ring|rewrite E1, E2, E3; ring].
Qed.
Lemma lsum_perm (l l' : list F) : Permutation l l' -> lsum l = lsum l'.
Proof. induction 1; rewrite ?lsum_cons; try congruence; auto. ring. Qed.
Lemma lsum_filter {A} (g : A -> bool) (f : A -> F) l : (forall x, In x l -> g x = false -> f x = 0) -> lsum (map f (filter g l)) = lsum (map f l).
Proof.
  induction l as [|x l IH]; intros H; cbn [filter map]; auto. rewrite lsum_cons, <- IH by (intros; apply H; auto; right; auto).
  destruct (g x) eqn:E; cbn [map]; rewrite ?lsum_cons; auto. rewrite H by (auto; left; auto). ring.
Qed.
Lemma filter_none {A} (g : A -> bool) l : (forall x, In x l -> g x = false) -> filter g l = [].
Proof. induction l as [|x l IH]; intros H; cbn [filter]; auto. rewrite H by (left; auto). apply IH. intros; apply H; right; auto. Qed.
Definition mem (l : list nat) (j : nat) : bool := existsb (Nat.eqb j) l.
Lemma mem_in l j : mem l j = true <-> In j l.
Proof. unfold mem. rewrite existsb_exists. split; [intros (x & Hx & E); apply Nat.eqb_eq in E; subst; auto|intros H; exists j; split; auto; apply Nat.eqb_refl]. Qed.
Lemma minors_mds : t = 3%nat -> minors3 = true -> is_mds.
Proof.
  intros Ht H. unfold minors3 in H. assert (0 < p)%Z as Hp0 by (pose proof (prime_ge_2 p Hp); lia).
  apply mds_criterion. intros d js is Nj Ni Bj Bi Hl HS j0 Hj0. rewrite Ht in *. set (d' := fun j => if mem js j then d j else 0).
  assert (forall j, (j < 3)%nat -> d' j = 0) as HZ.
  { assert (forall l, NoDup l -> (forall j, In j l -> (j < 3)%nat) -> length (filter (mem l) (seq 0 3)) = length l) as HL.
    { intros l Nl Bl. apply Nat.le_antisymm; apply NoDup_incl_length; auto; try (apply NoDup_filter, seq_NoDup).
      - intros x Hx. apply filter_In in Hx. apply mem_in. tauto.
      - intros x Hx. apply filter_In. split; [apply in_seq; specialize (Bl x Hx); lia|apply mem_in; auto]. }
    set (g := fun f => if (f <? 3)%nat then negb (mem js f) else mem is (f - 3)). set (z := filter g (seq 0 6)).
    assert (3 <= length z)%nat as Lz.
    { pose proof (HL js Nj Bj) as L1. pose proof (HL is Ni Bi) as L2. revert L1 L2. unfold z, g. cbn [seq filter Nat.ltb Nat.leb Nat.sub].
      destruct (mem js 0), (mem js 1), (mem js 2), (mem is 0), (mem is 1), (mem is 2); cbn [negb length]; lia. }
    assert (NoDup z) as Nz by apply NoDup_filter, seq_NoDup.
    assert (forall f, In f z -> val3 (form f) d' = 0) as Hz.
    { intros f Hf. apply filter_In in Hf. destruct Hf as [Hf Hg]. apply in_seq in Hf. unfold g in Hg.
      assert (forall j, (j < 3)%nat -> negb (mem js j) = true -> d' j = 0) as Hd by (intros j Hj E; unfold d'; apply negb_true_iff in E; rewrite E; auto).
      assert (forall i, (i < 3)%nat -> mem is i = true -> val3 (nth i (pc_mds c) []) d' = 0) as Hi.
      { intros i Hi Em. rewrite <- (HS i) by (apply mem_in; auto). transitivity (sumn 3 (fun j => d' j * mds_at i j)); [unfold val3, mds_at; cbn [sumn]; ring|].
        rewrite <- lsum_map_seq. transitivity (lsum (map (fun j => d' j * mds_at i j) js)).
        2:{ f_equal. apply map_ext_in. intros j Hj. unfold d'. rewrite (proj2 (mem_in _ _) Hj). auto. }
        rewrite <- (lsum_filter (mem js) (fun j => d' j * mds_at i j) (seq 0 3)).
        2:{ intros j Hj E. unfold d'. rewrite E. ring. }
        apply lsum_perm, Permutation_map, NoDup_Permutation; auto; [apply NoDup_filter, seq_NoDup|].
        intros x. rewrite filter_In, mem_in, in_seq. specialize (Bj x). split; [tauto|]. intros Hx. split; auto. specialize (Bj Hx). lia. }
      destruct f as [|[|[|f]]].
      - specialize (Hd 0%nat ltac:(lia) Hg). unfold val3. cbn [form nth]. rewrite Hd, !zp_rofZ, !rofZ_0. ring.
      - specialize (Hd 1%nat ltac:(lia) Hg). unfold val3. cbn [form nth]. rewrite Hd, !zp_rofZ, !rofZ_0. ring.
      - specialize (Hd 2%nat ltac:(lia) Hg). unfold val3. cbn [form nth]. rewrite Hd, !zp_rofZ, !rofZ_0. ring.
      - cbn [form]. apply Hi; [lia|]. cbn [Nat.ltb Nat.leb] in Hg. replace f with (S (S (S f)) - 3)%nat by lia. auto. }
    assert (forall f, In f z -> In f (seq 0 6)) as Bz by (intros f Hf; apply filter_In in Hf; tauto).
    destruct z as [|f1 [|f2 [|f3 z]]]; cbn [length] in Lz; try lia.
    inversion Nz as [|? ? N1 Nz1]; subst. inversion Nz1 as [|? ? N2 Nz2]; subst.
    apply (det3_zero (form f1) (form f2) (form f3)); try (apply Hz; cbn; tauto).
    rewrite forallb_forall in H. specialize (H f1 (Bz f1 ltac:(cbn; tauto))). rewrite forallb_forall in H. specialize (H f2 (Bz f2 ltac:(cbn; tauto))). rewrite forallb_forall in H. specialize (H f3 (Bz f3 ltac:(cbn; tauto))).
    rewrite !orb_true_iff in H. destruct H as [[[H|H]|H]|H]; [apply Nat.eqb_eq in H; subst; exfalso; cbn in *; tauto..|]. apply negb_true_iff, Z.eqb_neq in H. auto. }
  specialize (HZ j0 (Bj _ Hj0)). unfold d' in HZ. rewrite (proj2 (mem_in _ _) Hj0) in HZ. auto.
Qed.
Lemma mds_is_regular : is_mds -> mds_regular.
Proof.
  intros HM d Hd j Hj. set (s := map d (seq 0 t)). set (s' := repeat (0 : F) t).
  assert (length s = t) as Hs by (unfold s; rewrite map_length, seq_length; auto). assert (length s' = t) as Hs' by apply repeat_length.
  assert (forall j, (j < t)%nat -> nth j s 0 = d j) as HD by (intros; apply nth_seq_map; auto). assert (forall j, nth j s' 0 = 0) as HD' by (intros; apply nth_repeat).
  destruct (list_eq_dec req_dec s s') as [E|E]; [rewrite <- HD, E by auto; apply HD'|]. exfalso. specialize (HM s s' Hs Hs' E).
  assert (differ (apply_mds c s) (apply_mds c s') = 0)%nat as H0.
  { unfold differ. replace (filter _ _) with (@nil nat); auto. symmetry. apply filter_none. intros i Hi. apply in_seq in Hi. apply negb_false_iff, req_true, (proj1 (rsub_0_iff _ _)).
    rewrite <- mds_diff by (auto; lia). transitivity (sumn t (fun j => mds_at i j * d j)); [|apply Hd; lia]. apply sumn_ext. intros l Hl. rewrite HD, HD' by auto. ring. }
  assert (differ s s' <= t)%nat; [|lia]. unfold differ. etransitivity; [apply filter_len|]. rewrite seq_length. auto.
Qed.
End Perm.
