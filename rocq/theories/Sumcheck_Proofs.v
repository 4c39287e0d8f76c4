From Coq Require Import List Arith Lia ZArith Bool Ring.
From Verif Require Import Prelude Alg Poly MLE MLE_Proofs Transcript Interp Interp_Proofs Sumcheck.
Import ListNotations.
Local Open Scope rs_scope.

(** ** Specification *)

(** Sum of a function over the boolean cube of dimension [n]. *)
Definition cube_sum {R} {RO : RingOps R} (n : nat) (g : list R -> R) : R :=
  sumn (2 ^ n) (fun b => g (bits n b)).

(** [comb] restricted to any line is a polynomial of degree at most [d]; this is what
    "polynomial of total degree at most d in n variables" gives. *)
Definition comb_deg {R} {RO : RingOps R} (n d : nat) (comb : list R -> R) : Prop :=
  forall a s : list R, length a = n -> length s = n ->
    deg_le d (fun y => comb (zipw (fun ai si => ai + y * si) a s)).

(** [g] has degree at most [d] in each of its [n] variables. *)
Definition var_deg {R} {RO : RingOps R} (n d : nat) (g : list R -> R) : Prop :=
  forall pre suf, (length pre + S (length suf))%nat = n ->
    deg_le d (fun y => g (pre ++ y :: suf)).

Definition mles_at {R} {RO : RingOps R} (mles : list (mle R)) (p : list R) : list R :=
  map (fun m => mle_spec (mle_get m) p) mles.

Section P.
Context {R K T : Type} {RO : RingOps R} {KO : FieldOps K} {E : Embed K R} {TO : TransOps T R K}.
Context {LR : RingLaws R} {LK : FieldLaws K} {EL : EmbedLaws K R}.
Add Ring Rring6 : (@rlaws_th R RO LR).

Lemma overwrite_full {A} (dst src : list A) : length dst = length src -> overwrite dst src = src.
Proof.
  revert src; induction dst as [|a dst IH]; intros [|b src] H; try discriminate; auto.
  unfold overwrite in *. simpl. f_equal. apply IH. simpl in H. lia.
Qed.
Lemma overwrite_length {A} (dst src : list A) : length (overwrite dst src) = length dst.
Proof. apply zipl_length. Qed.

Definition line (polys : list (mle R)) (b : nat) (y : R) : list R :=
  map (fun p => mle_get p (2 * b) + y * (mle_get p (2 * b + 1) - mle_get p (2 * b))) polys.
Definition levals (degree : nat) (comb : list R -> R) polys b : list R :=
  map (fun j => comb (line polys b (rofn j))) (seq 0 (degree + 1)).

Definition scratch_ok degree n (s : scratch R) : Prop :=
  length (sc_evals s) = (degree + 1)%nat /\ length (sc_steps s) = n /\ length (sc_vals0 s) = n /\
  length (sc_vals1 s) = n /\ length (sc_vals s) = n /\ length (sc_levals s) = (degree + 1)%nat.

Lemma ext_evals_spec comb polys b y todo :
  ext_evals comb (map (fun p => mle_get p (2 * b + 1) - mle_get p (2 * b)) polys)
            (line polys b y) todo =
  (map (fun j => comb (line polys b (y + rofn (S j)))) (seq 0 (length todo)),
   line polys b (y + rofn (length todo))).
Proof.
  revert y; induction todo as [|t todo IH]; intros y; cbn [ext_evals].
  - simpl. f_equal. rewrite rofn_0. f_equal. ring.
  - assert (zipl radd (line polys b y) (map (fun p => mle_get p (2 * b + 1) - mle_get p (2 * b)) polys)
            = line polys b (y + 1)) as ->.
    { rewrite zipl_zipw by (unfold line; rewrite !map_length; auto).
      unfold line. rewrite zipw_map. rewrite zipw_same. apply map_ext. intros. ring. }
    rewrite IH. cbn [length seq map]. f_equal.
    + f_equal.
      rewrite <- seq_shift, map_map. apply map_ext. intros j.
      f_equal. f_equal. rewrite !rofn_S. ring.
    + f_equal. rewrite !rofn_S. ring.
Qed.

Lemma round_step_spec degree comb polys s b :
  (1 <= degree)%nat -> scratch_ok degree (length polys) s ->
  scratch_ok degree (length polys) (round_step degree comb polys s b) /\
  sc_evals (round_step degree comb polys s b) = zipw radd (sc_evals s) (levals degree comb polys b).
Proof.
  intros Hd (H1 & H2 & H3 & H4 & H5 & H6).
  unfold round_step. cbv zeta.
  rewrite (overwrite_full (sc_vals0 s)) by (rewrite map_length; auto).
  rewrite (overwrite_full (sc_vals1 s)) by (rewrite map_length; auto).
  rewrite (overwrite_full (sc_steps s)) by (rewrite zipw_length, !map_length; lia).
  rewrite (overwrite_full (sc_vals s)) by (rewrite map_length; auto).
  rewrite zipw_map, zipw_same.
  destruct (sc_levals s) as [|l0 [|l1 lv]]; simpl in H6; try lia.
  set (v0 := map (fun p => mle_get p (2 * b)) polys).
  set (v1 := map (fun p => mle_get p (2 * b + 1)) polys).
  change (set_nth 1 (comb v1) (set_nth 0 (comb v0) (l0 :: l1 :: lv))) with (comb v0 :: comb v1 :: lv).
  replace (firstn (degree + 1) (comb v0 :: comb v1 :: lv)) with (comb v0 :: comb v1 :: lv)
    by (symmetry; apply firstn_all2; simpl; lia).
  cbn [skipn firstn].
  assert (v1 = line polys b 1) as Hv1.
  { unfold v1, line. apply map_ext. intros. ring. }
  assert (v0 = line polys b 0) as Hv0.
  { unfold v0, line. apply map_ext. intros. ring. }
  pose proof (ext_evals_spec comb polys b 1 lv) as Hext. rewrite <- Hv1 in Hext.
  rewrite Hext. clear Hext.
  rewrite overwrite_full by (rewrite map_length, seq_length; auto).
  assert ([comb v0; comb v1] ++ map (fun j => comb (line polys b (1 + rofn (S j)))) (seq 0 (length lv))
          = levals degree comb polys b) as Hle.
  { unfold levals. replace (degree + 1)%nat with (S (S (length lv))) by lia.
    cbn [seq map app]. rewrite rofn_0, rofn_1, <- Hv0, <- Hv1. do 2 f_equal.
    rewrite <- (seq_shift _ 1), <- seq_shift, !map_map. apply map_ext. intros j.
    do 2 f_equal. rewrite !rofn_S. ring. }
  rewrite Hle.
  assert (length (levals degree comb polys b) = (degree + 1)%nat) as Hll
    by (unfold levals; rewrite map_length, seq_length; auto).
  split.
  - repeat split; cbn [sc_evals sc_steps sc_vals0 sc_vals1 sc_vals sc_levals]; auto.
    + rewrite zipl_length. auto.
    + rewrite map_length; auto.
    + unfold v0. rewrite map_length; auto.
    + unfold v1. rewrite map_length; auto.
    + unfold line. rewrite map_length; auto.
  - cbn [sc_evals]. apply zipl_zipw. lia.
Qed.

Lemma scratch0_ok degree n : scratch_ok degree n (scratch0 degree n).
Proof. repeat split; simpl; apply repeat_length. Qed.

Definition round_poly (comb : list R -> R) polys (k : nat) (y : R) : R :=
  sumn (2 ^ k) (fun b => comb (line polys b y)).

Lemma fold_round_step degree comb polys l s :
  (1 <= degree)%nat -> scratch_ok degree (length polys) s ->
  scratch_ok degree (length polys) (fold_left (round_step degree comb polys) l s) /\
  sc_evals (fold_left (round_step degree comb polys) l s) =
  map (fun j => nth j (sc_evals s) 0 + lsum (map (fun b => comb (line polys b (rofn j))) l))
      (seq 0 (degree + 1)).
Proof.
  intros Hd. revert s; induction l as [|b l IH]; intros s Hs; simpl fold_left.
  - split; auto. destruct Hs as (H1 & _).
    rewrite <- (map_seq_nth (sc_evals s) 0) at 1. rewrite H1. apply map_ext. intros. simpl. ring.
  - destruct (round_step_spec degree comb polys s b Hd Hs) as [Hs' He].
    destruct (IH _ Hs') as [H1 H2]. split; auto.
    rewrite H2, He. apply map_ext_in. intros j Hj. apply in_seq in Hj.
    destruct Hs as (H0 & _).
    rewrite (nth_zipw _ _ _ _ 0 0); [|lia|unfold levals; rewrite map_length, seq_length; lia].
    unfold levals. rewrite nth_seq_map by lia. simpl. ring.
Qed.

Lemma prove_round_spec degree comb polys k :
  (1 <= degree)%nat ->
  prove_round degree comb polys k =
  Ok (map (fun j => round_poly comb polys k (rofn j)) (seq 0 (degree + 1))).
Proof.
  intros Hd. unfold prove_round. destruct (Nat.eqb_spec degree 0); [lia|].
  f_equal.
  destruct (fold_round_step degree comb polys (seq 0 (2 ^ k)) (scratch0 degree (length polys)))
    as [_ ->]; auto using scratch0_ok.
  apply map_ext_in. intros j Hj. apply in_seq in Hj. simpl sc_evals.
  rewrite lsum_map_seq, nth_repeat. unfold round_poly. ring.
Qed.

(** *** Schedule independence (C13) *)
Lemma par_spec degree comb polys s :
  (1 <= degree)%nat ->
  prove_round_par degree comb polys s =
  map (fun j => lsum (map (fun b => comb (line polys b (rofn j))) (sched_range s)))
      (seq 0 (degree + 1)).
Proof.
  intros Hd. induction s as [l| |a IHa b IHb]; cbn [prove_round_par sched_range].
  - destruct (fold_round_step degree comb polys l (scratch0 degree (length polys)))
      as [_ ->]; auto using scratch0_ok.
    apply map_ext_in. intros j Hj. simpl sc_evals. rewrite nth_repeat. ring.
  - apply list_ext with 0.
    + rewrite repeat_length, map_length, seq_length. auto.
    + intros i Hi. rewrite nth_repeat. rewrite repeat_length in Hi.
      rewrite nth_seq_map by auto. reflexivity.
  - rewrite IHa, IHb. rewrite zipl_zipw by (rewrite !map_length; auto).
    rewrite zipw_map, zipw_same. apply map_ext. intros j.
    rewrite map_app, lsum_app. reflexivity.
Qed.
Theorem par_eq_seq degree comb polys k s :
  (1 <= degree)%nat -> sched_range s = seq 0 (2 ^ k) ->
  prove_round degree comb polys k = Ok (prove_round_par degree comb polys s).
Proof.
  intros Hd Hs. rewrite prove_round_spec by auto. f_equal. rewrite par_spec, Hs by auto.
  apply map_ext. intros j. rewrite lsum_map_seq. reflexivity.
Qed.

(** *** cube sums *)
Lemma bits_S n b : bits (S n) b = bitr b 0 :: bits n (Nat.div2 b) :> list R.
Proof.
  unfold bits. cbn [seq map]. f_equal. rewrite <- seq_shift, map_map. apply map_ext.
  intros i. unfold bitr. reflexivity.
Qed.
Lemma bits_S_even n i : bits (S n) (2 * i) = 0 :: bits n i :> list R.
Proof.
  rewrite bits_S, Nat.div2_double. unfold bitr.
  rewrite Nat.bit0_odd, <- Nat.negb_even, Nat.even_mul. reflexivity.
Qed.
Lemma bits_S_odd n i : bits (S n) (2 * i + 1) = 1 :: bits n i :> list R.
Proof.
  rewrite Nat.add_1_r, bits_S, Nat.div2_succ_double. unfold bitr.
  rewrite Nat.bit0_odd, Nat.odd_succ, Nat.even_mul. reflexivity.
Qed.
Lemma cube_sum_S n g :
  cube_sum (S n) g = cube_sum n (fun p => g (0 :: p)) + cube_sum n (fun p => g (1 :: p)) :> R.
Proof.
  unfold cube_sum. rewrite pow2_S, sumn_pairs, <- sumn_add. apply sumn_ext. intros i Hi.
  rewrite bits_S_even, bits_S_odd. reflexivity.
Qed.
Lemma cube_sum_ext n g h :
  (forall p, length p = n -> g p = h p) -> cube_sum n g = cube_sum n h :> R.
Proof. intros H. apply sumn_ext. intros. apply H. apply bits_length. Qed.
Lemma cube_sum_0 g : cube_sum 0 g = g [] :> R.
Proof. unfold cube_sum. simpl. unfold bits. simpl. ring. Qed.

Lemma cube_sum_mles n comb mles :
  cube_sum n (fun p => comb (mles_at mles p)) =
  sumn (2 ^ n) (fun b => comb (map (fun m => mle_get m b) mles)) :> R.
Proof.
  apply sumn_ext. intros b Hb. f_equal. apply map_ext. intros m. apply mle_spec_bits. auto.
Qed.

Definition fix_mle (y : R) (m : mle R) : mle R := Mle (pred (mle_nv m)) (fix1 y (mle_evals m)).
Lemma mle_get_fix y m b : mle_get (fix_mle y m) b =
  mle_get m (2 * b) + y * (mle_get m (2 * b + 1) - mle_get m (2 * b)).
Proof. unfold mle_get, fix_mle. simpl mle_evals. apply nth_fix1. Qed.
Lemma mles_at_fix y mles p : mles_at (map (fix_mle y) mles) p = mles_at mles (y :: p).
Proof.
  unfold mles_at. rewrite map_map. apply map_ext. intros m.
  rewrite mle_spec_cons. apply mle_spec_ext. intros. apply mle_get_fix.
Qed.
Lemma mapM_fix_var y n mles :
  Forall (fun m => mle_nv m = S n) mles -> mapM (mle_fix_var y) mles = Ok (map (fix_mle y) mles).
Proof.
  induction 1 as [|m mles Hm _ IH]; auto. cbn [mapM map].
  unfold mle_fix_var at 1. rewrite Hm. cbn [bind]. rewrite IH. cbn [bind].
  unfold fix_mle at 2. rewrite Hm. reflexivity.
Qed.

Lemma round_poly_cube comb mles k y :
  round_poly comb mles k y = cube_sum k (fun p => comb (mles_at mles (y :: p))).
Proof.
  unfold round_poly.
  rewrite (cube_sum_ext k _ (fun p => comb (mles_at (map (fix_mle y) mles) p))).
  - rewrite cube_sum_mles. apply sumn_ext. intros b Hb. f_equal.
    unfold line. rewrite map_map. apply map_ext. intros m. symmetry. apply mle_get_fix.
  - intros. rewrite mles_at_fix. auto.
Qed.
Lemma round_poly_deg comb mles k d :
  comb_deg (length mles) d comb -> deg_le d (round_poly comb mles k).
Proof.
  intros H. unfold round_poly.
  apply deg_le_sumn with (f := fun b y => comb (line mles b y)). intros b Hb.
  eapply deg_le_ext; [|apply (H (map (fun p => mle_get p (2 * b)) mles)
     (map (fun p => mle_get p (2 * b + 1) - mle_get p (2 * b)) mles))].
  - intros y. unfold line. rewrite zipw_map, zipw_same. reflexivity.
  - apply map_length.
  - apply map_length.
Qed.

Lemma map_rofn_nodes (f : R -> R) d :
  char_gt K d -> deg_le d f ->
  forall x : K, interpolate (map (fun j => f (rofn j)) (seq 0 (d + 1))) x = Ok (f (emb x)).
Proof.
  intros Hc Hf x.
  assert (length (map (fun j => f (rofn j)) (seq 0 (d + 1))) = (d + 1)%nat) as Hl
    by (rewrite map_length, seq_length; auto).
  assert (map (fun j => f (rofn j)) (seq 0 (d + 1)) <> []) as Hn.
  { intros H. rewrite H in Hl. simpl in Hl. lia. }
  rewrite interpolate_lagrange; auto.
  - f_equal. apply (lagrange_unique (K:=K)); auto.
    + rewrite Hl. replace (d + 1 - 1)%nat with d by lia. auto.
    + rewrite Hl. replace (d + 1 - 1)%nat with d by lia. auto.
    + rewrite Hl. intros i Hi. rewrite nth_seq_map by auto. reflexivity.
  - rewrite Hl. replace (d + 1 - 1)%nat with d by lia. auto.
Qed.

(** *** completeness (C11) *)
Lemma prove_loop_complete k d comb :
  (1 <= d)%nat -> char_gt K d ->
  forall ts mles, comb_deg (length mles) d comb -> Forall (fun m => mle_nv m = k) mles ->
  exists msgs cs ts',
    prove_loop k d comb ts mles = Ok (msgs, cs, ts') /\
    length msgs = k /\ length cs = k /\
    verify_loop k ts msgs = Ok (msgs, cs, ts') /\
    check_loop d msgs cs (cube_sum k (fun p => comb (mles_at mles p))) =
      Ok (comb (mles_at mles (map emb cs))).
Proof.
  intros Hd Hc. induction k as [|k IH]; intros ts mles Hdeg Hnv.
  - exists [], [], ts. simpl. repeat split; auto. rewrite cube_sum_0. reflexivity.
  - cbn [prove_loop]. rewrite prove_round_spec by auto. cbn [bind].
    set (msg := map (fun j => round_poly comb mles k (rofn j)) (seq 0 (d + 1))).
    destruct (get_challenge (absorb_slice ts msg)) as [c ts1] eqn:Ec.
    assert (exists mles', (match k with O => Ok mles | _ => mapM (mle_fix_var (emb c)) mles end) = Ok mles'
        /\ length mles' = length mles /\ (k <> O -> mles' = map (fix_mle (emb c)) mles)) as (mles' & Em & El & Ef).
    { destruct k.
      - exists mles. repeat split; auto. congruence.
      - rewrite (mapM_fix_var _ (S k)); auto. eexists. split; [reflexivity|].
        rewrite map_length. auto. }
    rewrite Em. cbn [bind].
    destruct (IH (absorb ts1 (emb c)) (map (fix_mle (emb c)) mles)) as
      (msgs & cs & ts' & E1 & E2 & E3 & E4 & E5).
    { rewrite map_length. auto. }
    { rewrite Forall_map. eapply Forall_impl; [|exact Hnv]. intros m Hm. simpl. rewrite Hm. auto. }
    assert (prove_loop k d comb (absorb ts1 (emb c)) mles' = Ok (msgs, cs, ts')) as E1'.
    { destruct k; [exact E1|]. rewrite Ef by lia. exact E1. }
    rewrite E1'. cbn [bind].
    exists (msg :: msgs), (c :: cs), ts'. cbn [length verify_loop].
    rewrite Ec, E4. cbn [bind]. repeat split; auto.
    cbn [check_loop].
    assert (length msg = (d + 1)%nat) as Hml by (unfold msg; rewrite map_length, seq_length; auto).
    rewrite Hml, Nat.eqb_refl. cbn [negb].
    assert (exists rest, msg = round_poly comb mles k 0 :: round_poly comb mles k 1 :: rest) as (rest & Emsg).
    { unfold msg. replace (d + 1)%nat with (S (S (d - 1))) by lia. cbn [seq map].
      rewrite rofn_0, rofn_1. eauto. }
    rewrite Emsg at 1. rewrite cube_sum_S, <- !round_poly_cube, req_refl. cbn [negb].
    unfold msg. rewrite map_rofn_nodes; auto using round_poly_deg.
    cbn [bind map]. rewrite round_poly_cube.
    rewrite <- mles_at_fix, <- E5. f_equal. apply cube_sum_ext.
    intros. rewrite mles_at_fix. reflexivity.
Qed.

Theorem sumcheck_complete ts mles nvars d comb :
  (1 <= nvars)%nat -> (1 <= d)%nat -> char_gt K d ->
  comb_deg (length mles) d comb -> Forall (fun m => mle_nv m = nvars) mles ->
  exists proof r ts',
    sc_prove ts mles nvars d comb = Ok (proof, r, ts') /\
    length r = nvars /\ length proof = nvars /\
    sc_verify ts nvars d (cube_sum nvars (fun p => comb (mles_at mles p))) proof
      = Ok (r, comb (mles_at mles (map emb r)), ts').
Proof.
  intros Hn Hd Hc Hdeg Hnv.
  destruct (prove_loop_complete nvars d comb Hd Hc
     (absorb (absorb ts (rofn nvars)) (rofn d)) mles Hdeg Hnv)
    as (msgs & cs & ts' & E1 & E2 & E3 & E4 & E5).
  exists msgs, cs, ts'. unfold sc_prove, sc_verify.
  destruct (Nat.eqb_spec nvars 0); [lia|]. rewrite E1, E4. cbn [bind]. rewrite E5. auto.
Qed.

(** *** soundness (C12) *)

(** Round polynomial of the true function after the challenges [pre]; [k] variables
    remain after the current one. *)
Definition true_round (g : list R -> R) (pre : list R) (k : nat) (y : R) : R :=
  cube_sum k (fun suf => g (pre ++ y :: suf)).

Lemma true_round_deg n d g pre k :
  var_deg n d g -> (length pre + S k)%nat = n -> deg_le d (true_round g pre k).
Proof.
  intros H Hl. unfold true_round, cube_sum.
  apply deg_le_sumn with (f := fun b y => g (pre ++ y :: bits k b)).
  intros b Hb. apply H. rewrite bits_length. auto.
Qed.
Lemma true_round_sum g pre k :
  true_round g pre k 0 + true_round g pre k 1 = cube_sum (S k) (fun suf => g (pre ++ suf)).
Proof. unfold true_round. rewrite cube_sum_S. reflexivity. Qed.
Lemma true_round_next g pre k y :
  true_round g pre k y = cube_sum k (fun suf => g ((pre ++ [y]) ++ suf)).
Proof. unfold true_round. apply cube_sum_ext. intros. rewrite <- app_assoc. reflexivity. Qed.

(** A challenge [c] is bad for the received message [msg] and the true round polynomial [h]
    when they are different polynomials that agree at [c]. *)
Definition bad_challenge (msg : list R) (h : R -> R) (c : K) : Prop :=
  (exists y, lagrange msg y <> h y) /\ lagrange msg (emb c) = h (emb c).

Lemma check_loop_sound n d g :
  (1 <= d)%nat -> char_gt K d -> var_deg n d g ->
  forall msgs cs pre claim e, length msgs = length cs -> (length pre + length cs)%nat = n ->
  check_loop d msgs cs claim = Ok e ->
  claim <> cube_sum (length cs) (fun suf => g (pre ++ suf)) ->
  e = g (pre ++ map emb cs) ->
  exists i, (i < length cs)%nat /\ length (nth i msgs []) = (d + 1)%nat /\
    bad_challenge (nth i msgs []) (true_round g (pre ++ map emb (firstn i cs)) (length cs - 1 - i))
                  (nth i cs 0).
Proof.
  intros Hd Hc Hg. induction msgs as [|msg msgs IH]; intros [|c cs] pre claim e Hl Hn HC Hne He; try discriminate.
  - exfalso. simpl in *. apply Hne. rewrite cube_sum_0. congruence.
  - cbn [check_loop] in HC. cbn [length] in Hl, Hn.
    destruct (Nat.eqb_spec (length msg) (d + 1)) as [Hm|]; [|discriminate]. cbn [negb] in HC.
    destruct msg as [|p0 [|p1 msg]]; try discriminate.
    destruct (req_dec (p0 + p1) claim) as [Ep|Ep].
    2:{ rewrite (proj2 (req_false _ _) Ep) in HC. discriminate. }
    rewrite (proj2 (req_true _ _) Ep) in HC. cbn [negb] in HC.
    set (m := p0 :: p1 :: msg) in *.
    assert (char_gt K (length m - 1)) as Hcm.
    { rewrite Hm. replace (d + 1 - 1)%nat with d by lia. auto. }
    rewrite interpolate_lagrange in HC by (auto; discriminate). cbn [bind] in HC.
    set (h := true_round g pre (length cs)).
    assert (exists y, lagrange m y <> h y) as Hdiff.
    { destruct (req_dec (lagrange m 0) (h 0)) as [A0|A0]; [|eauto].
      destruct (req_dec (lagrange m 1) (h 1)) as [A1|A1]; [|eauto].
      exfalso. apply Hne. cbn [length]. rewrite <- true_round_sum. fold h.
      rewrite <- A0, <- A1, <- Ep.
      pose proof (lagrange_node m 0 Hcm) as B0. pose proof (lagrange_node m 1 Hcm) as B1.
      rewrite rofn_0 in B0. rewrite rofn_1 in B1.
      rewrite B0, B1 by (rewrite Hm; lia). reflexivity. }
    destruct (req_dec (lagrange m (emb c)) (h (emb c))) as [A|A].
    + exists 0%nat. cbn [length nth firstn map]. split; [lia|]. split; [auto|].
      rewrite app_nil_r. replace (S (length cs) - 1 - 0)%nat with (length cs) by lia.
      split; auto.
    + destruct (IH cs (pre ++ [emb c]) (lagrange m (emb c)) e) as (i & Hi & H1 & H2); auto.
      * rewrite app_length. simpl. lia.
      * unfold h in A. rewrite true_round_next in A. exact A.
      * rewrite <- app_assoc. exact He.
      * exists (S i). cbn [length nth firstn map]. split; [lia|]. split; auto.
        rewrite <- app_assoc in H2. cbn [app] in H2.
        replace (S (length cs) - 1 - S i)%nat with (length cs - 1 - i)%nat by lia. exact H2.
Qed.

Lemma verify_loop_inv k ts proof msgs cs ts' :
  verify_loop k ts proof = Ok (msgs, cs, ts') ->
  msgs = firstn k proof /\ length msgs = k /\ length cs = k.
Proof.
  revert ts proof msgs cs ts'; induction k; intros ts proof msgs cs ts' H; cbn [verify_loop] in H.
  - injection H as <- <- <-. auto.
  - destruct proof as [|msg proof]; [discriminate|].
    destruct (get_challenge (absorb_slice ts msg)) as [c ts1].
    destruct (verify_loop k (absorb ts1 (emb c)) proof) as [[[ms cs'] ts2]| |] eqn:Ev; try discriminate.
    cbn [bind] in H. injection H as <- <- <-.
    destruct (IHk _ _ _ _ _ Ev) as (-> & H2 & H3). cbn [firstn length].
    split; auto.
Qed.

(** The challenge of round [i] as a function of the messages up to round [i] only. *)
Fixpoint round_state (ts : T) (msgs : list (list R)) : T :=
  match msgs with
  | [] => ts
  | m :: ms => let '(c, ts) := get_challenge (absorb_slice ts m) in round_state (absorb ts (emb c)) ms
  end.
Definition fs_challenge (ts : T) (msgs : list (list R)) (m : list R) : K :=
  fst (get_challenge (absorb_slice (round_state ts msgs) m)).

Lemma verify_loop_challenges k ts proof msgs cs ts' :
  verify_loop k ts proof = Ok (msgs, cs, ts') ->
  forall i, (i < k)%nat -> nth i cs 0 = fs_challenge ts (firstn i msgs) (nth i msgs []).
Proof.
  revert ts proof msgs cs ts'; induction k; intros ts proof msgs cs ts' H i Hi; cbn [verify_loop] in H; [lia|].
  destruct proof as [|msg proof]; [discriminate|].
  destruct (get_challenge (absorb_slice ts msg)) as [c ts1] eqn:Ec.
  destruct (verify_loop k (absorb ts1 (emb c)) proof) as [[[ms cs'] ts2]| |] eqn:Ev; try discriminate.
  cbn [bind] in H. injection H as <- <- <-.
  destruct i; cbn [nth firstn].
  - unfold fs_challenge. simpl. rewrite Ec. reflexivity.
  - rewrite (IHk _ _ _ _ _ Ev) by lia. unfold fs_challenge. cbn [round_state]. rewrite Ec. reflexivity.
Qed.

Theorem sumcheck_sound n d g ts claimed proof r e ts' :
  (1 <= d)%nat -> char_gt K d -> var_deg n d g ->
  sc_verify ts n d claimed proof = Ok (r, e, ts') ->
  e = g (map emb r) -> claimed <> cube_sum n g ->
  length r = n /\
  exists i, (i < n)%nat /\
    let msg := nth i proof [] in
    let h := true_round g (map emb (firstn i r)) (n - 1 - i) in
    length msg = (d + 1)%nat /\
    nth i r 0 = fs_challenge (absorb (absorb ts (rofn n)) (rofn d)) (firstn i proof) msg /\
    bad_challenge msg h (nth i r 0) /\
    deg_le d h /\
    forall bad : list K, NoDup bad -> (forall c, In c bad -> bad_challenge msg h c) -> (length bad <= d)%nat.
Proof.
  intros Hd Hc Hg HV He Hne. unfold sc_verify in HV.
  destruct (verify_loop n (absorb (absorb ts (rofn n)) (rofn d)) proof) as [[[ms cs] ts2]| |] eqn:Ev; try discriminate.
  cbn [bind] in HV. destruct (Nat.eqb_spec n 0); [discriminate|].
  destruct (check_loop d ms cs claimed) as [e'| |] eqn:Ech; try discriminate.
  cbn [bind] in HV. injection HV as -> -> ->.
  destruct (verify_loop_inv _ _ _ _ _ _ Ev) as (Hms & Hl1 & Hl2).
  split; auto.
  destruct (check_loop_sound n d g Hd Hc Hg ms r [] claimed e) as (i & Hi & H1 & H2); auto; try lia.
  { rewrite Hl2. exact Hne. }
  exists i. rewrite Hl2 in *. split; [auto|]. cbv zeta.
  assert (nth i ms [] = nth i proof []) as Hnth.
  { rewrite Hms. apply nth_firstn_lt. auto. }
  assert (firstn i ms = firstn i proof) as Hfn.
  { rewrite Hms, firstn_firstn. f_equal. lia. }
  rewrite Hnth in *. cbn [app] in H2.
  assert (deg_le d (true_round g (map emb (firstn i r)) (n - 1 - i))) as Hdg.
  { apply true_round_deg with n; auto. rewrite map_length, firstn_length. lia. }
  repeat split; auto; try apply H2.
  - rewrite (verify_loop_challenges _ _ _ _ _ _ Ev i Hi), Hnth, Hfn. reflexivity.
  - intros bad Hnd Hbad. destruct H2 as [[y Hy] _].
    assert (deg_le d (lagrange (nth i proof []))) as Hdl.
    { eapply deg_le_mono; [|apply lagrange_deg]. lia. }
    eapply (deg_le_agree_count emb emb_hom d); [exact Hdl|exact Hdg|exact Hy|exact Hnd|].
    intros c Hin. apply Hbad. auto.
Qed.

(** For tables, the combined function has degree at most [d] in each variable. *)
Lemma var_deg_mles comb mles n d :
  comb_deg (length mles) d comb -> var_deg n d (fun p => comb (mles_at mles p)).
Proof.
  intros H pre suf _.
  set (f0 := mles_at mles (pre ++ 0 :: suf)).
  set (f1 := mles_at mles (pre ++ 1 :: suf)).
  eapply deg_le_ext; [|apply (H f0 (zipw rsub f1 f0))].
  - intros y. cbn beta. f_equal. unfold f0, f1, mles_at. rewrite zipw_map, zipw_same, zipw_map, zipw_same.
    apply map_ext. intros m. generalize (mle_get m). clear - LR. intros t. revert t.
    induction pre as [|x pre IH]; intros t; cbn [app].
    + rewrite !mle_spec_cons.
      rewrite (mle_spec_ext _ (fun i => t (2 * i)%nat) suf) by (intros; ring).
      rewrite (mle_spec_ext (fun i => t (2 * i)%nat + 1 * (t (2 * i + 1)%nat - t (2 * i)%nat)) (fun i => t (2 * i + 1)%nat) suf) by (intros; ring).
      rewrite mle_spec_add, mle_spec_scale, mle_spec_sub. reflexivity.
    + rewrite !mle_spec_cons. apply IH.
  - unfold f0, mles_at. rewrite map_length. auto.
  - unfold f0, f1, mles_at. rewrite zipw_length, !map_length. lia.
Qed.

(** *** no padding: messages beyond round [n] are ignored (C16) *)
Lemma verify_loop_extra k ts proof extra v :
  verify_loop k ts proof = Ok v -> verify_loop k ts (proof ++ extra) = Ok v.
Proof.
  revert ts proof v; induction k; intros ts proof v H; cbn [verify_loop] in *; auto.
  destruct proof as [|msg proof]; [discriminate|]. cbn [app].
  destruct (get_challenge (absorb_slice ts msg)) as [c ts1].
  destruct (verify_loop k (absorb ts1 (emb c)) proof) as [[[ms cs] ts2]| |] eqn:Ev; try discriminate.
  rewrite (IHk _ _ _ Ev). exact H.
Qed.
Theorem sc_verify_extra ts n d claimed proof extra v :
  sc_verify ts n d claimed proof = Ok v -> sc_verify ts n d claimed (proof ++ extra) = Ok v.
Proof.
  unfold sc_verify. intros H.
  destruct (verify_loop n (absorb (absorb ts (rofn n)) (rofn d)) proof) as [w| |] eqn:Ev; try discriminate.
  rewrite (verify_loop_extra _ _ _ extra _ Ev). exact H.
Qed.
Lemma verify_loop_firstn k ts proof v :
  verify_loop k ts proof = Ok v -> verify_loop k ts (firstn k proof) = Ok v.
Proof.
  revert ts proof v; induction k; intros ts proof v H; cbn [verify_loop firstn] in *; auto.
  destruct proof as [|msg proof]; [discriminate|].
  destruct (get_challenge (absorb_slice ts msg)) as [c ts1].
  destruct (verify_loop k (absorb ts1 (emb c)) proof) as [[[ms cs] ts2]| |] eqn:Ev; try discriminate.
  rewrite (IHk _ _ _ Ev). exact H.
Qed.

(** *** when the verifier does not panic (C15) *)
Definition proof_shape (n d : nat) (proof : list (list R)) : Prop :=
  (n <= length proof)%nat /\ Forall (fun m => length m = (d + 1)%nat) (firstn n proof).

Lemma verify_loop_no_panic k ts proof :
  (k <= length proof)%nat -> exists v, verify_loop k ts proof = Ok v.
Proof.
  revert ts proof; induction k; intros ts proof H; cbn [verify_loop]; eauto.
  destruct proof as [|msg proof]; [simpl in H; lia|].
  destruct (get_challenge (absorb_slice ts msg)) as [c ts1].
  destruct (IHk (absorb ts1 (emb c)) proof) as [[[ms cs] ts2] ->]; [simpl in H; lia|].
  cbn [bind]. eauto.
Qed.
Lemma check_loop_no_panic d msgs cs claim :
  (1 <= d)%nat -> char_gt K d -> Forall (fun m => length m = (d + 1)%nat) msgs ->
  check_loop d msgs cs claim <> Panic.
Proof.
  intros Hd Hc. revert cs claim; induction msgs as [|m msgs IH]; intros cs claim Hf; cbn [check_loop]; [discriminate|].
  destruct cs as [|c cs]; [discriminate|]. inversion Hf as [|? ? Hm Hf']; subst.
  rewrite Hm, Nat.eqb_refl. cbn [negb].
  destruct m as [|p0 [|p1 m]]; simpl in Hm; try lia.
  destruct (negb (p0 + p1 =? claim)); [discriminate|].
  rewrite interpolate_lagrange.
  - cbn [bind]. apply IH. auto.
  - discriminate.
  - simpl. replace (S (length m)) with d by lia. auto.
Qed.
Theorem sc_verify_no_panic ts n d claimed proof :
  (1 <= n)%nat -> (1 <= d)%nat -> char_gt K d -> proof_shape n d proof ->
  sc_verify ts n d claimed proof <> Panic.
Proof.
  intros Hn Hd Hc [H1 H2]. unfold sc_verify.
  destruct (verify_loop_no_panic n (absorb (absorb ts (rofn n)) (rofn d)) proof H1) as [[[ms cs] ts2] Ev].
  rewrite Ev. cbn [bind]. destruct (Nat.eqb_spec n 0); [lia|].
  destruct (verify_loop_inv _ _ _ _ _ _ Ev) as (-> & _ & _).
  pose proof (check_loop_no_panic d (firstn n proof) cs claimed Hd Hc H2) as HH.
  destruct (check_loop d (firstn n proof) cs claimed); [discriminate|discriminate|contradiction].
Qed.
Theorem sc_verify_short_panics ts n d claimed proof :
  (length proof < n)%nat -> sc_verify ts n d claimed proof = Panic.
Proof.
  intros H. unfold sc_verify.
  assert (forall k ts proof, (length proof < k)%nat -> verify_loop k ts proof = Panic) as HH.
  { clear. induction k; intros ts proof H; [lia|]. cbn [verify_loop].
    destruct proof as [|msg proof]; auto.
    destruct (get_challenge (absorb_slice ts msg)) as [c ts1].
    rewrite IHk by (simpl in H; lia). reflexivity. }
  rewrite HH by auto. reflexivity.
Qed.
End P.
