(** The combination function of the folding sumcheck: closed form, degree, range check, agreement
    with the verifier's final check. *)
From Coq Require Import String List Arith Lia ZArith Bool Ring.
From Verif Require Import Prelude Alg Poly MLE MLE_Proofs Transcript Sumcheck Sumcheck_Proofs CombDeg
  Arith Arith_Proofs Balanced Rings Rings_Proofs Relations Decomposition_Proofs Folding.
Import ListNotations.
Local Open Scope rs_scope.

Section A.
Context {R : Type} {RO : RingOps R} {LR : RingLaws R}.
Add Ring Rring17 : (@rlaws_th R RO LR).

Lemma successors_length (a c : R) n : length (successors a c n) = n.
Proof. revert c; induction n; intros; cbn [successors length]; auto. Qed.
Lemma successors_nth (a c : R) n j : (j < n)%nat -> nth j (successors a c n) 0 = rpow a j * c.
Proof.
  revert c j; induction n as [|n IH]; intros c j Hj; [lia|]. cbn [successors].
  destruct j as [|j]; cbn [nth rpow]; [ring|]. rewrite IH by lia. ring.
Qed.
(** Sum of [f (a^{j+1}) l_j]. *)
Lemma zip_successors_sum (f : R -> R -> R) (a : R) l :
  lsum (zipw f (successors a a (length l)) l) = sumn (length l) (fun j => f (rpow a (S j)) (nth j l 0)).
Proof.
  rewrite lsum_nth, zipw_length, successors_length, Nat.min_id. apply sumn_ext. intros j Hj.
  rewrite (nth_zipw _ _ _ _ 0 0) by (rewrite ?successors_length; auto).
  rewrite successors_nth by auto. cbn [rpow]. f_equal. ring.
Qed.
Lemma pow_sum_spec (a : R) l : pow_sum a l = sumn (length l) (fun j => rpow a (S j) * nth j l 0).
Proof. unfold pow_sum. apply zip_successors_sum. Qed.

Lemma range_loop_spec (f2 ev : R) bs :
  range_loop f2 ev bs = ev * lprod (map (fun b => f2 - rofZ (Z.of_nat b * Z.of_nat b)) bs).
Proof.
  revert ev; induction bs as [|b bs IH]; intros ev; cbn [range_loop map lprod fold_right].
  - ring.
  - destruct (_ =? 0) eqn:E.
    + apply req_true in E. rewrite E. ring.
    + rewrite IH. unfold lprod. ring.
Qed.
Lemma range_poly_sq b (x : R) :
  range_poly b x = lprod (map (fun j => x * x - rofZ (Z.of_nat j * Z.of_nat j)) (seq 1 (b - 1))) * x.
Proof.
  unfold range_poly. rewrite (map_ext (fun j => (x - rofn j) * (x + rofn j)) (fun j => x * x - rofZ (Z.of_nat j * Z.of_nat j))).
  - ring.
  - intros j. unfold rofn. rewrite rofZ_mul. ring.
Qed.
Lemma range_poly_0 b : range_poly b 0 = (0 : R).
Proof. unfold range_poly. ring. Qed.
(** The zero shortcuts of the code change nothing. *)
Lemma inter_step_spec b (eqb mu inter f : R) :
  inter_step b eqb mu inter f = (inter + eqb * range_poly b f) * mu.
Proof.
  unfold inter_step. destruct (f =? 0) eqn:E.
  - apply req_true in E. subst f. rewrite range_poly_0. destruct (inter =? 0) eqn:E2.
    + apply req_true in E2. subst. ring.
    + ring.
  - rewrite range_loop_spec, range_poly_sq. ring.
Qed.
Lemma horner_fold n (g : nat -> R) mu :
  fold_left (fun a d => (a + g d) * mu) (rev (seq 0 n)) 0 = sumn n (fun d => rpow mu (S d) * g d).
Proof.
  rewrite fold_left_rev.
  assert (forall k, fold_right (fun d a => (a + g d) * mu) 0 (seq k n) = sumn n (fun d => rpow mu (S d) * g (k + d)%nat)) as H.
  { induction n as [|n IH]; intros k; cbn [seq fold_right]; [reflexivity|].
    rewrite IH, sumn_S_first. rewrite Nat.add_0_r.
    rewrite (sumn_ext _ (fun i => rpow mu (S (S i)) * g (k + S i)%nat)
                        (fun i => rpow mu (S i) * g (S k + i)%nat * mu)).
    - rewrite sumn_mul_r. cbn [rpow]. ring.
    - intros i Hi. replace (k + S i)%nat with (S k + i)%nat by lia. cbn [rpow]. ring. }
  rewrite H. apply sumn_ext. intros. auto.
Qed.
Lemma fold_left_sum {X} (g : X -> R) l a : fold_left (fun acc x => acc + g x) l a = a + lsum (map g l).
Proof.
  revert a; induction l as [|x l IH]; intros a; cbn [fold_left map lsum fold_right]; [ring|].
  rewrite IH. unfold lsum. ring.
Qed.
Lemma fold_left_ext {X Y} (f g : X -> Y -> X) l a : (forall x y, f x y = g x y) -> fold_left f l a = fold_left g l a.
Proof. intros H. revert a; induction l as [|y l IH]; intros a; cbn [fold_left]; auto. rewrite H. auto. Qed.

Lemma range_poly_deg n b i : (1 <= b)%nat -> comb_deg n (2 * b - 1) (fun v : list R => range_poly b (nth i v 0)).
Proof.
  intros Hb. unfold range_poly.
  eapply comb_deg_mono; [|apply (comb_deg_mul n 1 (length (seq 1 (b - 1)) * 2)); [apply comb_deg_nth|]].
  - rewrite seq_length. lia.
  - apply (comb_deg_lprod n 2 (seq 1 (b - 1)) (fun j v => (nth i v 0 - rofn j) * (nth i v 0 + rofn j))).
    intros j _. apply (comb_deg_mul n 1 1).
    + apply (comb_deg_sub n 1 (fun v => nth i v 0) (fun _ => rofn j)); [apply comb_deg_nth|apply comb_deg_const].
    + apply (comb_deg_add n 1 (fun v => nth i v 0) (fun _ => rofn j)); [apply comb_deg_nth|apply comb_deg_const].
Qed.

(** The odd symmetry of the range polynomial. *)
Lemma range_poly_odd b (x : R) : range_poly b (- x) = - range_poly b x.
Proof.
  rewrite !range_poly_sq. rewrite (map_ext (fun j => (- x) * (- x) - rofZ (Z.of_nat j * Z.of_nat j)) (fun j => x * x - rofZ (Z.of_nat j * Z.of_nat j))).
  - ring.
  - intros. ring.
Qed.
End A.

Section B.
Context {F K C R T : Type} {SO : SOps F K C R} {p : Z} {SL : SLaws F K C R p}.
Add Ring Rring18 : (@rlaws_th R _ _).
Add Ring Kring18 : (@rlaws_th K _ _).

(** Closed form of the combination function: eq_1*g_1 + eq_2*g_2 + eq_beta * sum of the weighted
    range polynomials. *)
Definition fold_comb_closed (b : nat) (mu vals : list R) : R :=
  nth 0 vals 0 * nth 1 vals 0 + nth 2 vals 0 * nth 3 vals 0 +
  sumn (length mu) (fun k => sumn tau (fun d =>
    rpow (nth k mu 0) (S d) * (nth 4 vals 0 * range_poly b (nth (5 + (k * tau + d)) vals 0)))).
Theorem fold_comb_spec P mu vals : fold_comb P mu vals = fold_comb_closed (dp_b P) mu vals.
Proof.
  unfold fold_comb, fold_comb_closed.
  rewrite (fold_left_ext _ (fun result km => result + sumn tau (fun d => rpow (snd km) (S d) *
     (nth 4 vals 0 * range_poly (dp_b P) (nth (5 + (fst km * tau + d)) vals 0))))).
  - rewrite fold_left_sum. f_equal. rewrite lsum_nth, map_length, combine_length, seq_length, Nat.min_id.
    apply sumn_ext. intros k Hk.
    rewrite (nth_map_lt _ _ _ (0%nat, 0)) by (rewrite combine_length, seq_length, Nat.min_id; auto).
    rewrite combine_nth by (rewrite seq_length; auto). cbn [fst snd]. rewrite seq_nth by auto. auto.
  - intros x [k m]. cbn [fst snd]. f_equal. rewrite <- horner_fold. apply fold_left_ext.
    intros. apply inter_step_spec.
Qed.
Lemma fold_comb_deg P mu n : (1 <= dp_b P)%nat -> comb_deg n (2 * dp_b P) (fold_comb P mu).
Proof.
  intros Hb. eapply comb_deg_ext; [intros v _; symmetry; apply fold_comb_spec|]. unfold fold_comb_closed.
  apply comb_deg_add; [apply comb_deg_add|].
  - eapply comb_deg_mono; [|apply (comb_deg_mul n 1 1 (fun v : list R => nth 0 v 0) (fun v => nth 1 v 0)); apply comb_deg_nth]. lia.
  - eapply comb_deg_mono; [|apply (comb_deg_mul n 1 1 (fun v : list R => nth 2 v 0) (fun v => nth 3 v 0)); apply comb_deg_nth]. lia.
  - apply (comb_deg_sumn n _ (length mu) (fun k v => _)). intros k Hk.
    apply (comb_deg_sumn n _ tau (fun d v => _)). intros d Hd. apply comb_deg_scale.
    eapply comb_deg_mono; [|apply (comb_deg_mul n 1 (2 * dp_b P - 1) (fun v : list R => nth 4 v 0)
       (fun v => range_poly (dp_b P) (nth (5 + (k * tau + d)) v 0))); [apply comb_deg_nth|apply range_poly_deg; auto]]. lia.
Qed.

(** ** The range polynomial (C28) *)
Definition small_int (b : nat) (x : K) : Prop := exists z, (Z.abs z < Z.of_nat b)%Z /\ x = rofZ z.
Lemma lprod_map_zero {X} (f : X -> K) l : lprod (map f l) = 0 <-> exists x, In x l /\ f x = 0.
Proof.
  split.
  - induction l as [|x l IH]; cbn [map lprod fold_right]; intros H.
    + exfalso. apply f_1_neq_0. auto.
    + apply fmul_eq_0 in H as [H|H]; [exists x; split; [left; auto|auto]|].
      destruct (IH H) as (y & Hy & Hf). exists y. split; [right; auto|auto].
  - intros (x & Hin & Hx). induction l as [|y l IH]; [contradiction|].
    cbn [map lprod fold_right]. destruct Hin as [->|Hin]; [rewrite Hx; ring|].
    specialize (IH Hin). unfold lprod in IH. rewrite IH. ring.
Qed.
Lemma range_poly_field b (x : K) : (1 <= b)%nat -> range_poly b x = 0 <-> small_int b x.
Proof.
  intros Hb. unfold range_poly, small_int. split.
  - intros H. apply fmul_eq_0 in H as [H|H].
    + exists 0%Z. split; [cbn; lia|]. rewrite H. reflexivity.
    + apply lprod_map_zero in H as (j & Hj & H). apply in_seq in Hj. apply fmul_eq_0 in H as [H|H].
      * exists (Z.of_nat j). split; [lia|]. apply (proj1 (rsub_0_iff _ _)) in H. exact H.
      * exists (- Z.of_nat j)%Z. split; [lia|]. rewrite rofZ_opp.
        replace x with (x + rofn j - rofn j) by ring. rewrite H. unfold rofn. ring.
  - intros (z & Hz & ->). destruct (Z.eq_dec z 0) as [->|Hn]; [rewrite rofZ_0; ring|].
    replace (lprod _) with (0 : K); [ring|]. symmetry. apply lprod_map_zero.
    exists (Z.abs_nat z). split; [apply in_seq; lia|]. unfold rofn. rewrite Zabs2Nat.id_abs.
    destruct (Z.abs_spec z) as [[_ ->]|[_ ->]]; [ring|]. rewrite rofZ_opp. ring.
Qed.
Lemma sl_range_poly s b (x : R) : (s < dimN)%nat -> sl s (range_poly b x) = range_poly b (sl s x).
Proof.
  intros Hs. unfold range_poly. rewrite sl_mul. f_equal. rewrite !lprod_nth, !map_length, sl_prodn by auto.
  apply prodn_ext. intros i Hi. rewrite seq_length in Hi.
  rewrite !(nth_map_lt _ _ _ 0%nat) by (rewrite seq_length; auto).
  rewrite sl_mul, sl_sub, sl_add. unfold rofn. rewrite sl_ofZ by auto. auto.
Qed.
Theorem range_poly_zero_iff b (x : R) : (1 <= b)%nat ->
  range_poly b x = 0 <-> forall s, (s < dimN)%nat -> small_int b (sl s x).
Proof.
  intros Hb. split.
  - intros H s Hs. apply range_poly_field; auto. rewrite <- sl_range_poly by auto. rewrite H. apply sl_0.
  - intros H. apply sl_ext. intros s Hs. rewrite sl_0, sl_range_poly by auto. apply range_poly_field; auto.
Qed.
Lemma embFK_ofZ z : embFK (rofZ z : F) = rofZ z.
Proof. apply (hom_ofZ _ embFK_hom). Qed.
Lemma embFK_inj (x y : F) : embFK x = embFK y -> x = y.
Proof. apply (emb_inj embFK embFK_hom). apply f_1_neq_0. Qed.
(** For packed coefficients the slot condition is a bound on the coefficients. *)
Theorem range_poly_hat b (c : C) : (1 <= b)%nat -> (2 * Z.of_nat b <= p + 1)%Z ->
  (forall j, (j < tau)%nat -> range_poly b (hat j c) = 0) <-> cnorm_le (Z.of_nat b - 1) c.
Proof.
  intros Hb Hp. pose proof dimN_pos as HN. split.
  - intros H j. destruct (Nat.lt_ge_cases j dimC) as [Hj|Hj]; [|rewrite cf_out, signed_0 by auto; cbn; lia].
    set (t := (j / dimN)%nat). set (s := (j mod dimN)%nat).
    assert (s < dimN)%nat as Hs by (apply Nat.mod_upper_bound; lia).
    assert (j = (t * dimN + s)%nat) as Ej by (unfold t, s; rewrite Nat.mul_comm; apply Nat.div_mod; lia).
    assert (t < tau)%nat as Ht.
    { apply Nat.div_lt_upper_bound; [lia|]. exact Hj. }
    specialize (H t Ht). rewrite range_poly_zero_iff in H by auto. destruct (H s Hs) as (z & Hz & E).
    rewrite sl_hat in E by auto. rewrite <- embFK_ofZ in E. apply embFK_inj in E. rewrite Ej, E.
    etransitivity; [apply signed_min|]. lia.
  - intros H j Hj. apply range_poly_zero_iff; auto. intros s Hs. exists (signed (cf (j * dimN + s) c)).
    split; [specialize (H (j * dimN + s)%nat); lia|]. rewrite sl_hat by auto. rewrite <- embFK_ofZ, signed_val. auto.
Qed.

(** ** The verifier's final check (C29) *)
Definition summand (b : nat) (alpha mu zeta : list R) (theta : list (list R)) (estar : R) (es : list R)
    (eta : list (list R)) (i : nat) : R :=
  nth i es 0 * (pow_sum (nth i alpha 0) (nth i theta []) + pow_sum (nth i zeta 0) (nth i eta []))
  + estar * sumn (length (nth i theta [])) (fun d => rpow (nth i mu 0) (S d) * range_poly b (nth d (nth i theta []) 0)).
Lemma expected_value_ok P alpha mu theta estar es zeta eta :
  (2 * dp_K P <= length alpha)%nat -> (2 * dp_K P <= length mu)%nat -> (2 * dp_K P <= length theta)%nat ->
  (2 * dp_K P <= length es)%nat -> (2 * dp_K P <= length zeta)%nat -> (2 * dp_K P <= length eta)%nat ->
  expected_value P alpha mu theta estar es zeta eta =
  Ok (sumn (2 * dp_K P) (summand (dp_b P) alpha mu zeta theta estar es eta)).
Proof.
  intros H1 H2 H3 H4 H5 H6. unfold expected_value.
  rewrite (mapM_ok _ (summand (dp_b P) alpha mu zeta theta estar es eta)).
  - cbn [bind]. rewrite lsum_map_seq. auto.
  - intros i Hi. apply in_seq in Hi.
    rewrite (index_ok alpha i 0), (index_ok theta i []), (index_ok es i 0), (index_ok mu i 0),
      (index_ok zeta i 0), (index_ok eta i []) by lia. cbn [bind]. f_equal. unfold summand.
    rewrite !zip_successors_sum. rewrite (pow_sum_spec (nth i alpha 0)).
    match goal with |- ?x + ?y + ?z = _ => replace x with (nth i es 0 * sumn (length (nth i theta [])) (fun j => rpow (nth i alpha 0) (S j) * nth j (nth i theta []) 0)) end.
    + ring.
    + rewrite <- sumn_mul_l. apply sumn_ext. intros. ring.
Qed.
(** A verifier given too few evaluations aborts. *)
Lemma expected_value_panic P alpha mu theta estar es zeta eta :
  (2 * dp_K P <= length alpha)%nat -> (2 * dp_K P <= length mu)%nat -> (2 * dp_K P <= length zeta)%nat ->
  (length theta < 2 * dp_K P \/ length es < 2 * dp_K P \/ length eta < 2 * dp_K P)%nat ->
  expected_value P alpha mu theta estar es zeta eta = Panic.
Proof.
  intros H1 H2 H5 H. unfold expected_value.
  assert (forall l : list nat, (forall i, In i l -> (i < 2 * dp_K P)%nat) ->
    (exists i, In i l /\ (length theta <= i \/ length es <= i \/ length eta <= i)%nat) ->
    mapM (fun i =>
    do a <- index alpha i; do th <- index theta i; do e <- index es i; do m <- index mu i;
    do z <- index zeta i; do et <- index eta i;
    Ok (lsum (zipw (fun pw t => pw * e * t) (successors a a (length th)) th)
        + estar * lsum (zipw (fun pw t => pw * range_poly (dp_b P) t) (successors m m (length th)) th)
        + e * pow_sum z et)) l = Panic) as HH.
  { induction l as [|i l IH]; intros Hl (j & Hj & Hout); [contradiction|]. cbn [mapM].
    assert (i < 2 * dp_K P)%nat as Hi by (apply Hl; left; auto).
    destruct (Nat.lt_ge_cases i (length theta)) as [A1|A1];
    [destruct (Nat.lt_ge_cases i (length es)) as [A2|A2];
     [destruct (Nat.lt_ge_cases i (length eta)) as [A3|A3]|]|].
    - rewrite (index_ok alpha i 0), (index_ok theta i []), (index_ok es i 0), (index_ok mu i 0),
      (index_ok zeta i 0), (index_ok eta i []) by lia. cbn [bind]. rewrite IH; auto.
      + intros. apply Hl. right; auto.
      + destruct Hj as [->|Hj]; [lia|]. exists j. auto.
    - rewrite (index_ok alpha i 0), (index_ok theta i []), (index_ok es i 0), (index_ok mu i 0),
      (index_ok zeta i 0), (index_ge eta i) by lia. auto.
    - rewrite (index_ok alpha i 0), (index_ok theta i []), (index_ge es i) by lia. auto.
    - rewrite (index_ok alpha i 0), (index_ge theta i) by lia. auto. }
  rewrite HH; auto.
  - intros i Hi. apply in_seq in Hi. lia.
  - exists (2 * dp_K P - 1)%nat. split; [apply in_seq; lia|lia].
Qed.

Theorem final_check_agrees P alpha mu theta estar e1 e2 zeta eta :
  length alpha = (2 * dp_K P)%nat -> length mu = (2 * dp_K P)%nat -> length zeta = (2 * dp_K P)%nat ->
  length theta = (2 * dp_K P)%nat -> length eta = (2 * dp_K P)%nat ->
  Forall (fun th => length th = tau) theta ->
  let part lo := sumn (dp_K P) (fun i => pow_sum (nth (lo + i) alpha 0) (nth (lo + i) theta [])
                                       + pow_sum (nth (lo + i) zeta 0) (nth (lo + i) eta [])) in
  expected_value P alpha mu theta estar (repeat e1 (dp_K P) ++ repeat e2 (dp_K P)) zeta eta =
  Ok (fold_comb P mu ([e1; part 0%nat; e2; part (dp_K P); estar] ++ concat theta)).
Proof.
  intros H1 H2 H3 H4 H5 Hth part.
  rewrite expected_value_ok by (rewrite ?app_length, ?repeat_length; lia). f_equal.
  rewrite fold_comb_spec. unfold fold_comb_closed. cbn [app nth]. unfold summand.
  rewrite sumn_add. f_equal.
  - replace (2 * dp_K P)%nat with (dp_K P + dp_K P)%nat by lia. rewrite sumn_split. unfold part.
    rewrite <- !sumn_mul_l. f_equal; apply sumn_ext; intros i Hi.
    + rewrite app_nth1 by (rewrite repeat_length; auto). rewrite (nth_indep _ 0 e1) by (rewrite repeat_length; auto).
      rewrite nth_repeat. auto.
    + rewrite app_nth2 by (rewrite repeat_length; lia). rewrite repeat_length.
      replace (dp_K P + i - dp_K P)%nat with i by lia. rewrite (nth_indep _ 0 e2) by (rewrite repeat_length; auto).
      rewrite nth_repeat. auto.
  - rewrite H2. apply sumn_ext. intros k Hk.
    assert (length (nth k theta []) = tau) as HL.
    { rewrite Forall_forall in Hth. apply Hth. apply nth_In. lia. }
    rewrite HL, <- sumn_mul_l. apply sumn_ext. intros d Hd.
    change (5 + (k * tau + d))%nat with (S (S (S (S (S (k * tau + d)))))). cbn [nth].
    rewrite (nth_concat_const tau theta k d 0); [ring|apply tau_pos|apply Forall_forall; auto|lia|auto].
Qed.
End B.
