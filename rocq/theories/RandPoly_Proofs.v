(** What [rand_poly] and [rand_poly_comb_fn] compute. *)
From Coq Require Import List Arith Lia Ring.
From Verif Require Import Prelude Alg Poly MLE MLE_Proofs Transcript Sumcheck Sumcheck_Proofs CombDeg RandPoly.
Import ListNotations.
Local Open Scope rs_scope.

Section P.
Context {R : Type} {RO : RingOps R} {LR : RingLaws R}.
Add Ring Rring85 : (@rlaws_th R RO LR).

(** The sum of products of the entries of [vals] named by [products]. *)
Definition sum_of_products (products : list (R * list nat)) (vals : list R) : R :=
  lsum (map (fun ci => fst ci * lprod (map (fun i => nth i vals 0) (snd ci))) products).
Definition in_range (products : list (R * list nat)) (n : nat) : Prop := Forall (fun ci => Forall (fun i => (i < n)%nat) (snd ci)) products.

Lemma term_ok (vals : list R) ix : forall t, Forall (fun i => (i < length vals)%nat) ix ->
  fold_left (fun t i => do t <- t; of_option Panic (option_map (rmul t) (nth_error vals i))) ix (Ok t) =
  Ok (t * lprod (map (fun i => nth i vals 0) ix)).
Proof.
  induction ix as [|i ix IH]; intros t H; cbn [fold_left map lprod fold_right].
  - f_equal. ring.
  - inversion H; subst. cbn [bind]. rewrite (nth_error_nth' vals 0) by auto. cbn [option_map of_option]. rewrite IH by auto.
    f_equal. fold (lprod (map (fun i => nth i vals 0) ix)). ring.
Qed.
Lemma term_range (vals : list R) ix : forall t t',
  fold_left (fun t i => do t <- t; of_option Panic (option_map (rmul t) (nth_error vals i))) ix t = Ok t' ->
  (exists v, t = Ok v) /\ Forall (fun i => (i < length vals)%nat) ix.
Proof.
  induction ix as [|i ix IH]; intros t t' H; cbn [fold_left] in H; [eauto|].
  apply IH in H as [[v Hv] F]. destruct t as [t|e|]; cbn [bind] in Hv; try discriminate. split; [eauto|]. constructor; auto.
  destruct (nth_error vals i) eqn:E; [|discriminate]. apply nth_error_Some. congruence.
Qed.
Lemma term_no_err (vals : list R) ix : forall t e,
  fold_left (fun t i => do t <- t; of_option Panic (option_map (rmul t) (nth_error vals i))) ix t = Err e -> t = Err e.
Proof.
  induction ix as [|i ix IH]; intros t e H; cbn [fold_left] in H; auto. apply IH in H. destruct t as [t|e'|]; cbn [bind] in H; auto; try discriminate.
  destruct (nth_error vals i); discriminate.
Qed.
Lemma comb_fn_go (vals : list R) products : forall r0, in_range products (length vals) ->
  fold_left (fun acc ci => do result <- acc;
     do term <- fold_left (fun t i => do t <- t; of_option Panic (option_map (rmul t) (nth_error vals i))) (snd ci) (Ok (fst ci));
     Ok (result + term)) products (Ok r0) = Ok (r0 + sum_of_products products vals).
Proof.
  induction products as [|[c ix] products IH]; intros r0 H; cbn [fold_left].
  - f_equal. unfold sum_of_products. cbn. ring.
  - inversion H; subst. cbn [bind fst snd]. rewrite term_ok by auto. cbn [bind]. rewrite IH by auto. f_equal.
    unfold sum_of_products. cbn [map lsum fold_right fst snd]. fold (lsum (map (fun ci => fst ci * lprod (map (fun i => nth i vals 0) (snd ci))) products)). ring.
Qed.
Lemma comb_fn_spec products (vals : list R) : in_range products (length vals) ->
  rand_poly_comb_fn products vals = Ok (sum_of_products products vals).
Proof. intros H. unfold rand_poly_comb_fn. rewrite comb_fn_go by auto. f_equal. ring. Qed.
Lemma comb_fn_range products (vals : list R) : forall a v,
  fold_left (fun acc ci => do result <- acc;
     do term <- fold_left (fun t i => do t <- t; of_option Panic (option_map (rmul t) (nth_error vals i))) (snd ci) (Ok (fst ci));
     Ok (result + term)) products a = Ok v -> (exists w, a = Ok w) /\ in_range products (length vals).
Proof.
  induction products as [|[c ix] products IH]; intros a v H; cbn [fold_left] in H; [split; [eauto|constructor]|].
  apply IH in H as [[w Hw] F]. destruct a as [a|e|]; cbn [bind] in Hw; try discriminate. split; [eauto|]. constructor; auto.
  cbn [fst snd] in *. destruct (fold_left _ ix (Ok c)) as [t|e|] eqn:E; try discriminate. apply term_range in E as [_ E]. auto.
Qed.
Lemma comb_fn_no_err products (vals : list R) : forall a e,
  fold_left (fun acc ci => do result <- acc;
     do term <- fold_left (fun t i => do t <- t; of_option Panic (option_map (rmul t) (nth_error vals i))) (snd ci) (Ok (fst ci));
     Ok (result + term)) products a = Err e -> a = Err e.
Proof.
  induction products as [|[c ix] products IH]; intros a e H; cbn [fold_left] in H; auto.
  apply IH in H. destruct a as [a|e'|]; cbn [bind] in H; auto; try discriminate. cbn [fst snd] in *.
  destruct (fold_left _ ix (Ok c)) as [t|e'|] eqn:E; cbn [bind] in H; try discriminate. apply term_no_err in E. discriminate.
Qed.
Lemma comb_fn_panics products (vals : list R) : rand_poly_comb_fn products vals = Panic <-> ~ in_range products (length vals).
Proof.
  split.
  - intros H N. rewrite comb_fn_spec in H by auto. discriminate.
  - intros N. unfold rand_poly_comb_fn. destruct (fold_left _ products (Ok 0)) as [v|e|] eqn:E; auto; exfalso.
    + apply comb_fn_range in E as [_ E]. auto.
    + apply comb_fn_no_err in E. discriminate.
Qed.

(** ** [rand_poly] *)
Fixpoint prods (cur : nat) (draws : list (R * list (mle R))) : list (R * list nat) :=
  match draws with
  | [] => []
  | d :: ds => (fst d, seq cur (length (snd d))) :: prods (cur + length (snd d)) ds
  end.
Definition tables (draws : list (R * list (mle R))) : list (mle R) := flat_map snd draws.
Definition max_len (draws : list (R * list (mle R))) : nat := list_max (map (fun d => length (snd d)) draws).
Definition total (nv : nat) (draws : list (R * list (mle R))) : R := lsum (map (fun d => product_sum nv (snd d) * fst d) draws).
Lemma rand_poly_eq nv draws : rand_poly nv draws = (tables draws, max_len draws, prods 0 draws, total nv draws).
Proof.
  unfold rand_poly.
  assert (forall mles dg ps sm cur,
    fold_left (fun st d =>
      let '(mles, degree, products, sum, cur) := st in
      let n := length (snd d) in
      (mles ++ snd d, Nat.max n degree, products ++ [(fst d, seq cur n)],
       sum + product_sum nv (snd d) * fst d, (cur + n)%nat)) draws (mles, dg, ps, sm, cur) =
    (mles ++ tables draws, Nat.max (max_len draws) dg, ps ++ prods cur draws, sm + total nv draws, (cur + length (tables draws))%nat)) as H.
  { unfold tables, max_len, total. induction draws as [|[c ms] draws IH]; intros; cbn [fold_left flat_map map prods fst snd].
    - rewrite !app_nil_r. cbn. rewrite Nat.add_0_r. f_equal. f_equal. ring.
    - rewrite IH. rewrite <- !app_assoc, app_length. cbn [app list_max fold_right lsum]. fold (list_max (map (fun d => length (snd d)) draws)).
      fold (lsum (map (fun d => product_sum nv (snd d) * fst d) draws)). f_equal; [f_equal; [f_equal; f_equal; lia|ring]|lia]. }
  rewrite H. cbn [app]. rewrite Nat.max_0_r. repeat f_equal. ring.
Qed.
Lemma prods_range draws : forall cur, in_range (prods cur draws) (cur + length (tables draws)).
Proof.
  unfold tables. induction draws as [|[c ms] draws IH]; intros cur; cbn [prods flat_map fst snd]; constructor.
  - cbn [snd]. apply Forall_forall. intros i Hi. apply in_seq in Hi. rewrite app_length. lia.
  - rewrite app_length, Nat.add_assoc. apply IH.
Qed.
Lemma prods_deg n draws : forall cur, comb_deg n (max_len draws) (sum_of_products (prods cur draws)).
Proof.
  unfold max_len, sum_of_products. induction draws as [|[c ms] draws IH]; intros cur; cbn [prods map list_max fold_right fst snd].
  - apply (comb_deg_const n _ 0).
  - cbn [lsum fold_right]. apply (comb_deg_add n _ (fun v => c * lprod (map (fun i => nth i v 0) (seq cur (length ms))))
      (fun v => lsum (map (fun ci => fst ci * lprod (map (fun i => nth i v 0) (snd ci))) (prods (cur + length ms) draws)))).
    + apply comb_deg_scale. eapply comb_deg_mono; [|apply (comb_deg_lprod n 1 (seq cur (length ms)) (fun i v => nth i v 0))].
      * rewrite seq_length. lia.
      * intros. apply comb_deg_nth.
    + eapply comb_deg_mono; [|apply IH]. fold (list_max (map (fun d : R * list (mle R) => length (snd d)) draws)). lia.
Qed.
Lemma fold_left_rmul l : forall x : R, fold_left rmul l x = x * lprod l.
Proof. induction l as [|a l IH]; intros x; cbn [fold_left lprod fold_right]; [ring|]. rewrite IH. fold (lprod l). ring. Qed.
Lemma prods_total nv draws : forall pre,
  total nv draws = cube_sum nv (fun p => sum_of_products (prods (length pre) draws) (mles_at (pre ++ tables draws) p)).
Proof.
  unfold total, tables, cube_sum, sum_of_products. induction draws as [|[c ms] draws IH]; intros pre; cbn [prods flat_map map fst snd].
  - cbn [lsum fold_right]. rewrite sumn_0; auto.
  - cbn [lsum fold_right]. fold (lsum (map (fun d => product_sum nv (snd d) * fst d) draws)).
    rewrite (IH (pre ++ ms)). rewrite app_length, <- app_assoc, sumn_add. f_equal.
    unfold product_sum. rewrite lsum_map_seq, sumn_mul_l.
    assert (forall x y : R, x * y = y * x) as Cm by (intros; ring). rewrite Cm. f_equal.
    apply sumn_ext. intros b Hb. rewrite fold_left_rmul.
    assert (map (fun i => nth i (mles_at (pre ++ ms ++ flat_map snd draws) (bits nv b)) 0) (seq (length pre) (length ms)) =
            map (fun m => mle_get m b) ms) as ->; [|ring].
    apply (nth_ext _ _ 0 0); [rewrite !map_length, seq_length; auto|]. intros i Hi. rewrite map_length, seq_length in Hi.
    rewrite (nth_map_lt _ _ _ 0%nat) by (rewrite seq_length; auto). rewrite seq_nth by auto. unfold mles_at.
    rewrite map_app, app_nth2 by (rewrite map_length; lia). rewrite map_length, map_app, app_nth1 by (rewrite map_length; lia).
    replace (length pre + i - length pre)%nat with i by lia.
    rewrite !(nth_map_lt _ _ _ (Mle 0 [])) by auto. apply mle_spec_bits. auto.
Qed.
End P.
