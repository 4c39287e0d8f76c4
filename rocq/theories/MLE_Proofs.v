From Coq Require Import List Arith Lia ZArith Bool Ring.
From Verif Require Import Prelude Alg MLE.
Import ListNotations.
Local Open Scope rs_scope.

Lemma pow2_pos n : (0 < 2 ^ n)%nat.
Proof. apply Nat.neq_0_lt_0, Nat.pow_nonzero. lia. Qed.
Lemma pow2_S n : (2 ^ S n = 2 * 2 ^ n)%nat.
Proof. simpl. lia. Qed.

Section P.
Context {R : Type} {RO : RingOps R} {L : RingLaws R}.
Add Ring Rring4 : (@rlaws_th R RO L).

Lemma eqw_cons r p b :
  eqw (r :: p) b = (if Nat.odd b then r else 1 - r) * eqw p (Nat.div2 b).
Proof.
  unfold eqw. cbn [length]. rewrite prodn_S_first. simpl nth at 1 2. rewrite Nat.bit0_odd.
  reflexivity.
Qed.
Lemma eqw_cons_even r p i : eqw (r :: p) (2 * i) = (1 - r) * eqw p i.
Proof.
  rewrite eqw_cons. rewrite Nat.div2_double.
  replace (Nat.odd (2 * i)) with false; auto.
  symmetry. rewrite <- Nat.negb_even. rewrite Nat.even_mul. reflexivity.
Qed.
Lemma eqw_cons_odd r p i : eqw (r :: p) (2 * i + 1) = r * eqw p i.
Proof.
  rewrite eqw_cons. replace (2 * i + 1)%nat with (S (2 * i)) by lia.
  rewrite Nat.div2_succ_double.
  replace (Nat.odd (S (2 * i))) with true; auto.
  symmetry. rewrite Nat.odd_succ, Nat.even_mul. reflexivity.
Qed.

Lemma mle_spec_cons t r p :
  mle_spec t (r :: p) = mle_spec (fun i => t (2 * i)%nat + r * (t (2 * i + 1)%nat - t (2 * i)%nat)) p.
Proof.
  unfold mle_spec. cbn [length]. rewrite pow2_S, sumn_pairs. apply sumn_ext. intros i Hi.
  rewrite eqw_cons_even, eqw_cons_odd. ring.
Qed.
Lemma mle_spec_ext t t' p :
  (forall b, (b < 2 ^ length p)%nat -> t b = t' b) -> mle_spec t p = mle_spec t' p.
Proof. intros H. unfold mle_spec. apply sumn_ext. intros. rewrite H; auto. Qed.
Lemma mle_spec_nil t : mle_spec t [] = t 0%nat.
Proof. unfold mle_spec, eqw. simpl. ring. Qed.
Lemma mle_spec_add t t' p : mle_spec (fun b => t b + t' b) p = mle_spec t p + mle_spec t' p.
Proof. unfold mle_spec. rewrite <- sumn_add. apply sumn_ext. intros; ring. Qed.
Lemma mle_spec_sub t t' p : mle_spec (fun b => t b - t' b) p = mle_spec t p - mle_spec t' p.
Proof. unfold mle_spec. rewrite <- sumn_sub. apply sumn_ext. intros; ring. Qed.
Lemma mle_spec_scale c t p : mle_spec (fun b => c * t b) p = c * mle_spec t p.
Proof. unfold mle_spec. rewrite <- sumn_mul_l. apply sumn_ext. intros; ring. Qed.
Lemma mle_spec_sumn n (t : nat -> nat -> R) p :
  mle_spec (fun b => sumn n (fun i => t i b)) p = sumn n (fun i => mle_spec (t i) p).
Proof.
  unfold mle_spec. rewrite sumn_swap. apply sumn_ext. intros b Hb.
  rewrite <- sumn_mul_r. reflexivity.
Qed.
Lemma mle_spec_zero p : mle_spec (fun _ => 0) p = 0.
Proof. apply sumn_0. intros; ring. Qed.

Lemma sum_eqw p : sumn (2 ^ length p) (eqw p) = 1.
Proof.
  induction p as [|r p IH].
  - unfold eqw. simpl. ring.
  - cbn [length]. rewrite pow2_S, sumn_pairs. rewrite <- IH. apply sumn_ext. intros.
    rewrite eqw_cons_even, eqw_cons_odd. ring.
Qed.

Lemma nth_fix1 r t i :
  nth i (fix1 r t) 0 = nth (2 * i) t 0 + r * (nth (2 * i + 1) t 0 - nth (2 * i) t 0).
Proof.
  revert i. assert (forall n t, (length t <= n)%nat -> forall i,
    nth i (fix1 r t) 0 = nth (2 * i) t 0 + r * (nth (2 * i + 1) t 0 - nth (2 * i) t 0)) as H.
  { clear t. induction n; intros t Hl i.
    - destruct t; [|simpl in Hl; lia]. cbn [fix1]. rewrite !nth_overflow by (simpl; lia). ring.
    - destruct t as [|a [|b t]].
      + cbn [fix1]. rewrite !nth_overflow by (simpl; lia). ring.
      + cbn [fix1]. destruct i.
        * simpl. ring.
        * rewrite !nth_overflow by (simpl; lia). ring.
      + cbn [fix1]. destruct i.
        * simpl. ring.
        * replace (2 * S i)%nat with (S (S (2 * i))) by lia.
          replace (S (S (2 * i)) + 1)%nat with (S (S (2 * i + 1))) by lia.
          cbn [nth]. apply IHn. simpl in Hl. lia. }
  intros i. apply H with (length t). auto.
Qed.
Lemma fix1_length r t n : length t = (2 * n)%nat -> length (fix1 r t) = n.
Proof.
  revert t; induction n; intros t H.
  - destruct t; [reflexivity|simpl in H; lia].
  - destruct t as [|a [|b t]]; simpl in H; try lia. simpl. f_equal. apply IHn. lia.
Qed.

Lemma fold_fix1_spec p t :
  nth 0 (fold_left (fun t r => fix1 r t) p t) 0 = mle_spec (fun i => nth i t 0) p.
Proof.
  revert t; induction p as [|r p IH]; intros t; cbn [fold_left].
  - rewrite mle_spec_nil. reflexivity.
  - rewrite IH, mle_spec_cons. apply mle_spec_ext. intros. apply nth_fix1.
Qed.

Lemma mle_evaluate_spec m p v :
  mle_evaluate m p = Some v <-> length p = mle_nv m /\ v = mle_spec (mle_get m) p.
Proof.
  unfold mle_evaluate. destruct (Nat.eqb_spec (length p) (mle_nv m)) as [E|E].
  - rewrite fold_fix1_spec. split.
    + intros [= <-]. auto.
    + intros [_ ->]. reflexivity.
  - split; [discriminate|]. intros []. contradiction.
Qed.
Lemma mle_from_vec_ok nv l m :
  mle_from_vec nv l = Ok m <-> (length l <= 2 ^ nv)%nat /\ m = Mle nv (resize (2 ^ nv) 0 l).
Proof.
  unfold mle_from_vec. destruct (Nat.leb_spec (length l) (2 ^ nv)).
  - split; [intros [= <-]; auto|intros [_ ->]; auto].
  - split; [discriminate|intros []; lia].
Qed.
Lemma mle_get_from_vec nv l i :
  (length l <= 2 ^ nv)%nat -> mle_get (Mle nv (resize (2 ^ nv) 0 l)) i = nth i l 0.
Proof.
  intros H. unfold mle_get. simpl.
  destruct (Nat.lt_ge_cases i (2 ^ nv)).
  - rewrite nth_resize by auto. reflexivity.
  - rewrite !nth_overflow; auto. lia. rewrite resize_length. lia.
Qed.

Lemma vec_evaluate_spec l p :
  vec_evaluate l p = (if (length l <=? 2 ^ length p)%nat
                      then Ok (mle_spec (fun b => nth b l 0) p) else Panic).
Proof.
  unfold vec_evaluate, mle_from_vec. destruct (Nat.leb_spec (length l) (2 ^ length p)); auto.
  cbn [bind]. unfold mle_evaluate. cbn [mle_nv]. rewrite Nat.eqb_refl. cbn [of_option].
  f_equal. rewrite fold_fix1_spec. apply mle_spec_ext. intros b Hb.
  apply nth_resize. auto.
Qed.
Lemma vecref_evaluate_spec l p :
  vecref_evaluate l p = (if (length l =? 2 ^ length p)%nat
                         then Ok (mle_spec (fun b => nth b l 0) p)
                         else Err (MleIncorrectLength (length p) (length l))).
Proof.
  unfold vecref_evaluate. destruct (Nat.eqb_spec (length l) (2 ^ length p)) as [E|E]; auto.
  cbn [negb]. pose proof (vec_evaluate_spec l p) as H. unfold vec_evaluate in H.
  rewrite H. destruct (Nat.leb_spec (length l) (2 ^ length p)); auto. lia.
Qed.
Lemma dml_evaluate_spec m p :
  dml_evaluate m p = (if (length p =? mle_nv m)%nat then Ok (mle_spec (mle_get m) p)
     else Err (MleIncorrectLength (length p) (length (mle_evals m)))).
Proof.
  unfold dml_evaluate, mle_evaluate. destruct (length p =? mle_nv m)%nat; auto.
  cbn [of_option]. rewrite fold_fix1_spec. reflexivity.
Qed.

(** *** boolean points *)
Lemma bits_length n b : length (bits n b : list R) = n.
Proof. unfold bits. rewrite map_length, seq_length. auto. Qed.
Lemma nth_bits n b i : (i < n)%nat -> nth i (bits n b) 0 = (bitr b i : R).
Proof. intros. unfold bits. apply nth_seq_map. auto. Qed.

Lemma testbit_lt_inj n a b :
  (a < 2 ^ n)%nat -> (b < 2 ^ n)%nat ->
  (forall i, (i < n)%nat -> Nat.testbit a i = Nat.testbit b i) -> a = b.
Proof.
  intros Ha Hb H. apply Nat.bits_inj. intros i.
  destruct (Nat.lt_ge_cases i n); auto.
  assert (forall c, (c < 2 ^ n)%nat -> Nat.testbit c i = false) as HH.
  { intros c Hc. destruct (Nat.eq_dec c 0) as [->|]. apply Nat.bits_0.
    apply Nat.bits_above_log2. apply Nat.log2_lt_pow2; [lia|].
    eapply Nat.lt_le_trans; [exact Hc|]. apply Nat.pow_le_mono_r; lia. }
  rewrite !HH; auto.
Qed.

Lemma eqw_bits n a b : (a < 2 ^ n)%nat -> (b < 2 ^ n)%nat ->
  eqw (bits n a) b = if (a =? b)%nat then 1 else (0 : R).
Proof.
  intros Ha Hb. unfold eqw. rewrite bits_length.
  destruct (Nat.eqb_spec a b) as [->|N].
  - transitivity (prodn n (fun _ => 1 : R)).
    + apply prodn_ext. intros i Hi. rewrite nth_bits by auto. unfold bitr.
      destruct (Nat.testbit b i); ring.
    + clear Ha Hb. induction n; simpl; auto. rewrite IHn. ring.
  - assert (exists i, (i < n)%nat /\ Nat.testbit a i <> Nat.testbit b i) as (i & Hi & E).
    { destruct (Forall_Exists_dec (fun i => Nat.testbit a i = Nat.testbit b i)
        (fun i => Bool.bool_dec _ _) (seq 0 n)) as [F|F].
      - exfalso. apply N. apply testbit_lt_inj with n; auto.
        intros i Hi. rewrite Forall_forall in F. apply F. apply in_seq. lia.
      - apply Exists_exists in F as (i & Hi & E). apply in_seq in Hi. exists i. split; [lia|auto]. }
    apply prodn_zero with i; auto. rewrite nth_bits by auto. unfold bitr.
    destruct (Nat.testbit a i), (Nat.testbit b i); try congruence; ring.
Qed.
Lemma mle_spec_bits t n b : (b < 2 ^ n)%nat -> mle_spec t (bits n b) = t b.
Proof.
  intros H. unfold mle_spec. rewrite bits_length. rewrite (sumn_single _ b).
  - rewrite eqw_bits, Nat.eqb_refl by auto. ring.
  - auto.
  - intros i Hi N. rewrite eqw_bits by auto. destruct (Nat.eqb_spec b i); [congruence|ring].
Qed.

(** *** eq_eval and build_eq *)
Definition eqp (x y : list R) : R :=
  prodn (length x) (fun i => nth i x 0 * nth i y 0 + (1 - nth i x 0) * (1 - nth i y 0)).

Lemma eq_eval_fold (l : list (R * R)) a :
  fold_left (fun res xy => let xi_yi := fst xy * snd xy in
                        res * (xi_yi + xi_yi - fst xy - snd xy + 1)) l a =
  a * lprod (map (fun xy => fst xy * snd xy + (1 - fst xy) * (1 - snd xy)) l).
Proof.
  revert a; induction l; intros; simpl; [ring|]. rewrite IHl. ring.
Qed.
Lemma eq_eval_spec x y :
  eq_eval x y = if (length x =? length y)%nat then Ok (eqp x y) else Err InvalidParameters.
Proof.
  unfold eq_eval. destruct (Nat.eqb_spec (length x) (length y)) as [E|E]; auto.
  cbn [negb]. f_equal. rewrite eq_eval_fold. rewrite lprod_nth.
  rewrite map_length, combine_length, <- E, Nat.min_id. unfold eqp.
  rewrite rmul_1_l.
  apply prodn_ext. intros i Hi.
  rewrite (nth_map_lt _ _ _ (0,0)) by (rewrite combine_length; lia).
  rewrite combine_nth by auto. reflexivity.
Qed.
Lemma eqp_sym x y : length x = length y -> eqp x y = eqp y x.
Proof. intros E. unfold eqp. rewrite E. apply prodn_ext. intros. ring. Qed.
Lemma eqp_bits n b y : length y = n -> eqp (bits n b) y = eqw y b.
Proof.
  intros E. unfold eqp, eqw. rewrite bits_length, E. apply prodn_ext. intros i Hi.
  rewrite nth_bits by auto. unfold bitr. destruct (Nat.testbit b i); ring.
Qed.

Lemma build_eq_length r e : build_eq_x_r_vec r = Ok e -> length e = (2 ^ length r)%nat.
Proof.
  unfold build_eq_x_r_vec. revert e; induction r as [|r0 r IH]; intros e H; [discriminate|].
  destruct r as [|r1 r].
  - injection H as <-. reflexivity.
  - change (build_eq_helper (r0 :: r1 :: r)) with
      (do buf <- build_eq_helper (r1 :: r);
           Ok (map (fun i => let bi := nth (i / 2) buf 0 in
                             let tmp := r0 * bi in
                             if Nat.even i then bi - tmp else tmp)
                   (seq 0 (2 * length buf)))) in H.
    destruct (build_eq_helper (r1 :: r)) as [buf| |] eqn:E; try discriminate.
    cbn [bind] in H. injection H as <-. rewrite map_length, seq_length.
    rewrite (IH buf eq_refl). reflexivity.
Qed.
Lemma build_eq_spec r :
  r <> [] -> build_eq_x_r_vec r = Ok (map (eqw r) (seq 0 (2 ^ length r))).
Proof.
  unfold build_eq_x_r_vec. induction r as [|r0 r IH]; [congruence|]. intros _.
  destruct r as [|r1 r].
  - simpl. unfold eqw. simpl. do 2 f_equal; [ring|]. f_equal; ring.
  - change (build_eq_helper (r0 :: r1 :: r)) with
      (do buf <- build_eq_helper (r1 :: r);
           Ok (map (fun i => let bi := nth (i / 2) buf 0 in
                             let tmp := r0 * bi in
                             if Nat.even i then bi - tmp else tmp)
                   (seq 0 (2 * length buf)))).
    rewrite IH by congruence. cbn [bind]. f_equal.
    rewrite map_length, seq_length.
    change (length (r0 :: r1 :: r)) with (S (length (r1 :: r))). rewrite pow2_S.
    apply map_ext_in. intros i Hi. apply in_seq in Hi.
    assert (i / 2 < 2 ^ length (r1 :: r))%nat by (apply Nat.div_lt_upper_bound; lia).
    rewrite nth_seq_map by auto. cbv zeta.
    rewrite (eqw_cons r0), Nat.div2_div, <- Nat.negb_even.
    destruct (Nat.even i); cbn [negb]; ring.
Qed.
Lemma build_eq_mle r : r <> [] ->
  build_eq_x_r r = Ok (Mle (length r) (map (eqw r) (seq 0 (2 ^ length r)))).
Proof.
  intros H. unfold build_eq_x_r. rewrite build_eq_spec by auto. cbn [bind].
  unfold mle_from_vec. rewrite map_length, seq_length, Nat.leb_refl. do 2 f_equal.
  apply list_ext with 0.
  - rewrite resize_length, map_length, seq_length. auto.
  - rewrite resize_length. intros. apply nth_resize; auto.
Qed.
Lemma mle_get_build_eq r m i : (i < 2 ^ length r)%nat ->
  build_eq_x_r r = Ok m -> mle_get m i = eqw r i.
Proof.
  intros Hi H. destruct r as [|r0 r]; [discriminate|].
  rewrite build_eq_mle in H by congruence. injection H as <-.
  unfold mle_get. cbn [mle_evals]. rewrite nth_seq_map by auto. reflexivity.
Qed.
(** The extension of the eq table is eq itself: eq~(p, q). *)
Lemma mle_spec_eqw q p : length p = length q -> mle_spec (eqw q) p = eqp p q.
Proof.
  revert q; induction p as [|r p IH]; intros [|s q] E; try discriminate.
  - rewrite mle_spec_nil. reflexivity.
  - rewrite mle_spec_cons.
    transitivity (mle_spec (fun i => (r * s + (1 - r) * (1 - s)) * eqw q i) p).
    + apply mle_spec_ext. intros. rewrite eqw_cons_even, eqw_cons_odd. ring.
    + rewrite mle_spec_scale, IH by (simpl in E; lia).
      unfold eqp. cbn [length]. rewrite prodn_S_first. reflexivity.
Qed.
End P.

Section H.
Context {A B : Type} {OA : RingOps A} {OB : RingOps B} {LA : RingLaws A} {LB : RingLaws B}.
Context (f : A -> B) (Hf : ring_hom f).
Lemma hom_eqw p b : f (eqw p b) = eqw (map f p) b.
Proof.
  unfold eqw. rewrite map_length, (hom_prodn f Hf). apply prodn_ext. intros i Hi.
  rewrite (nth_map_lt _ _ _ 0) by auto.
  destruct (Nat.testbit b i); auto. rewrite (hom_sub _ Hf), (hom_1 _ Hf). auto.
Qed.
Lemma hom_mle_spec t p : f (mle_spec t p) = mle_spec (fun b => f (t b)) (map f p).
Proof.
  unfold mle_spec. rewrite map_length, (hom_sumn f Hf). apply sumn_ext. intros.
  rewrite (hom_mul _ Hf), hom_eqw. auto.
Qed.
End H.
