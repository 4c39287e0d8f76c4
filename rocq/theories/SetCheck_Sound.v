(** Soundness of the monomial set check: the test ev(x,Y)^2 = ev(x,Y^2) characterises zero and the
    unit monomials, and an accepted set check with true openings forces every entry into that set
    unless a challenge hits a root fixed beforehand. *)
From Coq Require Import String List Arith Lia ZArith Bool Ring.
From Verif Require Import Prelude Alg Poly MLE MLE_Proofs Transcript Sumcheck Sumcheck_Proofs CombDeg Arith Arith_Proofs
  Linearization_Proofs Folding_Sound Rings PlusRing PlusUtils_Proofs SetCheck SetCheck_Proofs.
Import ListNotations.
Local Open Scope rs_scope.

Section Mono.
Context {K : Type} {KO : FieldOps K} {LK : FieldLaws K}.
Add Ring Kring35 : (@rlaws_th K _ (fld_laws (FieldLaws := LK))).

Lemma nth_padd (u v : list K) m : nth m (padd u v) 0 = nth m u 0 + nth m v 0.
Proof.
  revert v m; induction u as [|a u IH]; intros [|b v] [|m]; cbn [padd nth]; try ring. apply IH.
Qed.
Lemma nth_pscale c (u : list K) m : nth m (pscale c u) 0 = c * nth m u 0.
Proof. revert m; induction u as [|a u IH]; intros [|m]; cbn [pscale map nth]; try ring. apply IH. Qed.
Lemma nth_pmul (u v : list K) m : nth m (pmul u v) 0 = sumn (S m) (fun i => nth i u 0 * nth (m - i) v 0).
Proof.
  revert m; induction u as [|a u IH]; intros m.
  - cbn [pmul]. rewrite sumn_0. destruct m; auto. intros i _. destruct i; cbn [nth]; ring.
  - cbn [pmul]. rewrite nth_padd, nth_pscale, sumn_S_first. cbn [nth]. rewrite Nat.sub_0_r. f_equal.
    destruct m as [|m]; cbn [nth]; [reflexivity|]. rewrite IH. apply sumn_ext. intros. reflexivity.
Qed.

(** Coefficients of P(Y^2). *)
Fixpoint dbl (l : list K) : list K :=
  match l with [] => [] | a :: l' => match l' with [] => [a] | _ => a :: 0 :: dbl l' end end.
Lemma dbl_peval l y : peval (dbl l) y = peval l (y * y).
Proof.
  induction l as [|a [|b l] IH]; auto.
  - cbn. ring.
  - change (dbl (a :: b :: l)) with (a :: 0 :: dbl (b :: l)). unfold peval in *. cbn [fold_right] in *. rewrite IH. ring.
Qed.
Lemma dbl_length l : length (dbl l) = (2 * length l - 1)%nat.
Proof.
  induction l as [|a [|b l] IH]; auto.
  change (dbl (a :: b :: l)) with (a :: 0 :: dbl (b :: l)). cbn [length] in *. rewrite IH. lia.
Qed.
Lemma nth_dbl l m : nth m (dbl l) 0 = if Nat.even m then nth (Nat.div2 m) l 0 else 0.
Proof.
  assert (forall k, nth k (@nil K) 0 = 0) as N by (intros [|k]; auto).
  revert m; induction l as [|a [|b l] IH]; intros m.
  - cbn [dbl]. rewrite !N. destruct (Nat.even m); auto.
  - cbn [dbl]. destruct m as [|[|m]]; auto. cbn [Nat.even Nat.div2]. change (nth (S (S m)) [a] 0) with (nth (S m) (@nil K) 0). change (nth (S (Nat.div2 m)) [a] 0) with (nth (Nat.div2 m) (@nil K) 0).
    rewrite !N. destruct (Nat.even m); auto.
  - change (dbl (a :: b :: l)) with (a :: 0 :: dbl (b :: l)). destruct m as [|[|m]]; cbn [nth Nat.even Nat.div2]; auto.
    rewrite IH. reflexivity.
Qed.

Lemma least (P : nat -> Prop) n : (forall i, P i \/ ~ P i) -> P n -> exists a, (a <= n)%nat /\ P a /\ forall i, (i < a)%nat -> ~ P i.
Proof.
  intros D. induction n as [n IH] using lt_wf_ind. intros Hn.
  assert ((exists i, (i < n)%nat /\ P i) \/ forall i, (i < n)%nat -> ~ P i) as [(i & Hi & HP)|H].
  { clear - D. induction n as [|n [(i & Hi & HP)|H]].
    - right. intros; lia.
    - left. exists i. split; auto.
    - destruct (D n). left; exists n; auto. right. intros i Hi. destruct (Nat.eq_dec i n); [subst; auto|apply H; lia]. }
  - destruct (IH i Hi HP) as (a & Ha & H). exists a. split; auto. lia.
  - exists n. auto.
Qed.
Lemma sumn_two n a b (f : nat -> K) : (a < b)%nat -> (b < n)%nat ->
  (forall i, (i < n)%nat -> i <> a -> i <> b -> f i = 0) -> sumn n f = f a + f b.
Proof.
  intros Hab Hb H.
  rewrite (sumn_ext n f (fun i => (if (i =? a)%nat then f a else 0) + (if (i =? b)%nat then f b else 0))).
  - rewrite sumn_add. rewrite (sumn_single _ a), (sumn_single _ b); try lia.
    + rewrite !Nat.eqb_refl. auto.
    + intros i _ Hi. apply Nat.eqb_neq in Hi. rewrite Hi. auto.
    + intros i _ Hi. apply Nat.eqb_neq in Hi. rewrite Hi. auto.
  - intros i Hi. destruct (Nat.eqb_spec i a); [subst; destruct (Nat.eqb_spec a b); [lia|]; ring|].
    destruct (Nat.eqb_spec i b); [subst; ring|]. rewrite H by auto. ring.
Qed.

(** P(Y)^2 = P(Y^2) coefficientwise forces P = 0 or P = Y^a. *)
Lemma square_coeffs_mono (l : list K) : (1 + 1 : K) <> 0 ->
  (forall m, sumn (S m) (fun i => nth i l 0 * nth (m - i) l 0) = if Nat.even m then nth (Nat.div2 m) l 0 else 0) ->
  (forall i, nth i l 0 = 0) \/ exists a, (a < length l)%nat /\ forall i, nth i l 0 = if (i =? a)%nat then 1 else 0.
Proof.
  intros H2 HC.
  assert (forall i, nth i l 0 <> (0:K) \/ ~ nth i l 0 <> (0:K)) as D.
  { intros i. destruct (req_dec (nth i l 0) (0:K)); auto. }
  destruct (all_zero_dec (fun i => nth i l 0) (length l)) as [Hz|(a0 & Ha0 & Hn)].
  { left. intros i. destruct (Nat.lt_ge_cases i (length l)); auto. apply nth_overflow. auto. }
  right. destruct (least (fun i => nth i l 0 <> 0) a0 D Hn) as (a & Ha & Hna & Hmin).
  assert (forall i, (i < a)%nat -> nth i l 0 = (0:K)) as Hlow.
  { intros i Hi. destruct (req_dec (nth i l 0) 0) as [|Hne]; auto. exfalso. apply (Hmin i Hi). auto. }
  exists a. split; [lia|].
  assert (nth a l 0 = (1:K)) as H1.
  { specialize (HC (2 * a)%nat). rewrite (sumn_single _ a) in HC; try lia.
    - replace (2 * a - a)%nat with a in HC by lia.
      assert (Nat.even (2 * a) = true) as Ev by (apply Nat.even_spec; exists a; auto).
      rewrite Ev, Nat.div2_double in HC.
      assert (nth a l 0 * (nth a l 0 - 1) = 0) as Hm by (transitivity (nth a l 0 * nth a l 0 - nth a l 0); [ring|rewrite HC; ring]).
      apply fmul_eq_0 in Hm as [Hm|Hm]; [contradiction|]. apply (proj1 (rsub_0_iff _ _)) in Hm. auto.
    - intros i Hi Hne. destruct (Nat.lt_ge_cases i a).
      + rewrite Hlow by auto. ring.
      + rewrite (Hlow (2 * a - i)%nat) by lia. ring. }
  intros i. destruct (Nat.eqb_spec i a) as [->|Hia]; auto.
  destruct (Nat.lt_ge_cases i a); auto.
  destruct (req_dec (nth i l 0) 0) as [|Hne]; auto. exfalso.
  destruct (least (fun i => (a < i)%nat /\ nth i l 0 <> 0) i) as (b & Hb & [Hab Hnb] & Hminb).
  { intros j. destruct (Nat.lt_ge_cases a j); [|right; intros []; lia]. destruct (D j); [left|right; intros []]; auto. }
  { split; auto. lia. }
  assert (forall j, (a < j)%nat -> (j < b)%nat -> nth j l 0 = (0:K)) as Hmid.
  { intros j H3 H4. destruct (req_dec (nth j l 0) 0); auto. exfalso. apply (Hminb j H4). auto. }
  specialize (HC (a + b)%nat). rewrite (sumn_two _ a b) in HC; try lia.
  - replace (a + b - a)%nat with b in HC by lia. replace (a + b - b)%nat with a in HC by lia.
    assert ((if Nat.even (a + b) then nth (Nat.div2 (a + b)) l 0 else 0) = (0:K)) as E0.
    { destruct (Nat.even (a + b)) eqn:Ev; auto. apply Nat.even_spec in Ev as (c & Ec). rewrite Ec, Nat.div2_double. apply Hmid; lia. }
    rewrite E0, H1 in HC. assert ((1 + 1) * nth b l 0 = 0) as Hm by (etransitivity; [|exact HC]; ring).
    apply fmul_eq_0 in Hm as [Hm|Hm]; contradiction.
  - intros j Hj Hja Hjb. destruct (Nat.lt_ge_cases j a); [rewrite (Hlow j) by auto; ring|].
    destruct (Nat.lt_ge_cases j b); [rewrite (Hmid j) by lia; ring|]. rewrite (Hlow (a + b - j)%nat) by lia. ring.
Qed.

Lemma square_points_mono (l : list K) (pts : list K) : (1 + 1 : K) <> 0 -> NoDup pts -> (2 * length l - 1 <= length pts)%nat ->
  (forall y, In y pts -> peval l y * peval l y = peval l (y * y)) ->
  (forall i, nth i l 0 = 0) \/ exists a, (a < length l)%nat /\ forall i, nth i l 0 = if (i =? a)%nat then 1 else 0.
Proof.
  intros H2 Hnd HL H. apply square_coeffs_mono; auto. intros m. rewrite <- nth_pmul, <- nth_dbl.
  assert (ring_hom (fun x : K => x)) as Hid by (constructor; auto).
  assert (Forall (eq 0) (padd (pmul l l) (pscale (- (1)) (dbl l)))) as Hz.
  { apply (root_bound (fun x => x) Hid _ pts Hnd).
    - rewrite padd_length, pscale_length, dbl_length. destruct (pmul_length l l) as [E|[E|E]]; [|subst; cbn in *; lia|subst; cbn in *; lia]. lia.
    - intros x Hx. rewrite peval_padd, peval_pmul, peval_pscale, dbl_peval, H by auto. ring. }
  apply (proj1 (rsub_0_iff _ _)). rewrite Forall_forall in Hz.
  set (D := padd (pmul l l) (pscale (- (1)) (dbl l))) in *.
  assert (nth m D 0 = 0) as E.
  { destruct (Nat.lt_ge_cases m (length D)); [symmetry; apply Hz, nth_In; auto|apply nth_overflow; auto]. }
  unfold D in E. rewrite nth_padd, nth_pscale in E. etransitivity; [|exact E]. ring.
Qed.
End Mono.

Section Char.
Context {K R : Type} {PO : POps K R} {p : Z} {PL : PLaws K R p}.
Add Ring Rring35 : (@rlaws_th R _ (pl_R (p := p))).
Add Ring Rring36 : (@rlaws_th K _ (fld_laws (FieldLaws := pl_K (p := p)))).

Lemma two_neq_0 : (1 + 1 : K) <> 0.
Proof.
  intros H. assert (rofZ 1 = (rofZ (-1) : K)) as E.
  { rewrite (rofZ_opp 1), rofZ_1. apply (proj1 (rsub_0_iff _ _)). etransitivity; [|exact H]. ring. }
  pose proof (pp_odd (p := p)) as Hp.
  pose proof (psigned_small (p := p) 1 ltac:(lia)) as E1. pose proof (psigned_small (p := p) (-1) ltac:(cbn; lia)) as E2.
  rewrite E in E1. rewrite E1 in E2. discriminate.
Qed.
Lemma evp_peval (x : R) b : evp x b = peval (pcoeffs x) b.
Proof. rewrite peval_sum, pcoeffs_length. reflexivity. Qed.

(** [ev(x,Y)^2 = ev(x,Y^2)] on more than 2(d-1) points characterises zero and the unit monomials. *)
Theorem monomial_test (x : R) (pts : list K) : NoDup pts -> (2 * pdim - 1 <= length pts)%nat ->
  (forall y, In y pts -> evp x y * evp x y = evp x (y * y)) -> in_monos x.
Proof.
  intros Hnd HL H. destruct (square_points_mono (pcoeffs x) pts) as [Hz|(a & Ha & Hm)]; auto.
  - apply two_neq_0.
  - rewrite pcoeffs_length. auto.
  - intros y Hy. rewrite <- !evp_peval. auto.
  - left. apply (pcoeffs_ext (p := p)). intros k Hk. rewrite Hz, (nth_pcoeffs_0 (p := p)). auto.
  - right. exists a. rewrite pcoeffs_length in Ha. split; auto. apply (pcoeffs_ext (p := p)). intros k Hk.
    rewrite Hm, (pcoeffs_mono (p := p)), nth_unit_vec by auto. auto.
Qed.
Lemma in_monos_dec (x : R) : in_monos x \/ ~ in_monos x.
Proof.
  destruct (req_dec x 0) as [->|Hx]; [left; left; auto|].
  assert ((exists i, (i < pdim)%nat /\ x = pmono i) \/ ~ exists i, (i < pdim)%nat /\ x = pmono i) as [H|H].
  { induction (@pdim K R PO) as [|d [(i & Hi & E)|IH]].
    - right. intros (i & Hi & _). lia.
    - left. exists i. auto.
    - destruct (req_dec x (pmono d)); [left; exists d; auto|]. right. intros (i & Hi & E).
      destruct (Nat.eq_dec i d); [subst; auto|]. apply IH. exists i. split; auto. lia. }
  - left. right. auto.
  - right. intros [E|E]; contradiction.
Qed.
Lemma monomial_test_witness (x : R) (pts : list K) : NoDup pts -> (2 * pdim - 1 <= length pts)%nat ->
  ~ in_monos x -> exists y, In y pts /\ evp x y * evp x y <> evp x (y * y).
Proof.
  intros Hnd HL Hx.
  assert ((forall y, In y pts -> evp x y * evp x y = evp x (y * y)) \/ exists y, In y pts /\ evp x y * evp x y <> evp x (y * y)) as [H|H]; auto.
  { clear Hnd HL. induction pts as [|a pts [IH|(y & Hy & E)]].
    - left. intros y [].
    - destruct (req_dec (evp x a * evp x a) (evp x (a * a))).
      + left. intros y [<-|Hy]; auto.
      + right. exists a. split; [left; auto|auto].
    - right. exists y. split; [right; auto|auto]. }
  exfalso. apply Hx. eapply monomial_test; eauto.
Qed.
End Char.

(** ** Windows of a list of variables *)
Section Window.
Context {R : Type} {RO : RingOps R} {LR : RingLaws R}.
Add Ring Rring37 : (@rlaws_th R RO LR).

(** Degree at most [d] in every coordinate, for every number of coordinates. *)
Definition cdeg (d : nat) (f : list R -> R) : Prop := forall pre suf, deg_le d (fun y => f (pre ++ y :: suf)).
Lemma cdeg_window d f n k : cdeg d f -> cdeg d (fun l => f (firstn n (skipn k l))).
Proof.
  intros H pre suf. destruct (Nat.lt_ge_cases (length pre) k) as [Hk|Hk].
  - eapply deg_le_ext; [|apply (deg_le_const (f (firstn n (skipn (k - length pre - 1) suf))))].
    intros y. cbn beta. rewrite skipn_app, (skipn_all2 pre) by lia. cbn [app].
    destruct (k - length pre)%nat as [|j] eqn:E; [lia|]. cbn [skipn]. do 3 f_equal. lia.
  - assert (forall y, skipn k (pre ++ y :: suf) = skipn k pre ++ y :: suf) as ES.
    { intros y. rewrite skipn_app. replace (k - length pre)%nat with 0%nat by lia. reflexivity. }
    destruct (Nat.le_gt_cases n (length pre - k)) as [Hn|Hn].
    + eapply deg_le_ext; [|apply (deg_le_const (f (firstn n (skipn k pre))))].
      intros y. cbn beta. rewrite ES, firstn_app. replace (n - length (skipn k pre))%nat with 0%nat by (rewrite skipn_length; lia).
      cbn [firstn]. rewrite app_nil_r. reflexivity.
    + eapply deg_le_ext; [|apply (H (skipn k pre) (firstn (n - (length pre - k) - 1) suf))].
      intros y. cbn beta. rewrite ES, firstn_app. rewrite (firstn_all2 (skipn k pre)) by (rewrite skipn_length; lia).
      rewrite skipn_length. destruct (n - (length pre - k))%nat as [|j] eqn:E; [lia|]. cbn [firstn].
      replace (S j - 1)%nat with j by lia. reflexivity.
Qed.
Lemma nth_coord_deg' d (f : R -> R) i : deg_le d f -> cdeg d (fun l => f (nth i l 0)).
Proof.
  intros H pre suf. destruct (Nat.lt_trichotomy i (length pre)) as [Hi|[Hi|Hi]].
  - eapply deg_le_ext; [|apply (deg_le_const (f (nth i pre 0)))]. intros y. cbn beta. rewrite app_nth1 by auto. auto.
  - eapply deg_le_ext; [|exact H]. intros y. cbn beta. rewrite app_nth2 by lia. subst i. rewrite Nat.sub_diag. auto.
  - eapply deg_le_ext; [|apply (deg_le_const (f (nth (i - length pre - 1) suf 0)))]. intros y. cbn beta. rewrite app_nth2 by lia.
    destruct (i - length pre)%nat as [|j] eqn:E; [lia|]. cbn [nth]. f_equal. f_equal. lia.
Qed.
Lemma mle_spec_cdeg (t : nat -> R) : cdeg 1 (mle_spec t).
Proof.
  intros pre. revert t; induction pre as [|x pre IH]; intros t suf; cbn [app].
  - eapply deg_le_ext; [|apply (deg_le_affine (mle_spec (fun i => t (2 * i)%nat) suf) (mle_spec (fun i => t (2 * i + 1)%nat - t (2 * i)%nat) suf))].
    intros y. cbn beta. rewrite mle_spec_cons, mle_spec_add, mle_spec_scale. auto.
  - eapply deg_le_ext; [|apply (IH (fun i => t (2 * i)%nat + x * (t (2 * i + 1)%nat - t (2 * i)%nat)))].
    intros y. cbn beta. rewrite mle_spec_cons. auto.
Qed.
Lemma cdeg_mono d e f : (d <= e)%nat -> cdeg d f -> cdeg e f.
Proof. intros H Hf pre suf. eapply deg_le_mono; eauto. Qed.
Lemma cdeg_mul d e f g : cdeg d f -> cdeg e g -> cdeg (d + e) (fun l => f l * g l).
Proof. intros Hf Hg pre suf. apply deg_le_mul; auto. Qed.
Lemma cdeg_add d f g : cdeg d f -> cdeg d g -> cdeg d (fun l => f l + g l).
Proof. intros Hf Hg pre suf. apply deg_le_add; auto. Qed.
Lemma cdeg_sub d f g : cdeg d f -> cdeg d g -> cdeg d (fun l => f l - g l).
Proof. intros Hf Hg pre suf. apply deg_le_sub; auto. Qed.
Lemma cdeg_const d c : cdeg d (fun _ => c).
Proof. intros pre suf. apply deg_le_const. Qed.
Lemma cdeg_sumn d n (f : nat -> list R -> R) : (forall i, (i < n)%nat -> cdeg d (f i)) -> cdeg d (fun l => sumn n (fun i => f i l)).
Proof. intros H pre suf. apply (deg_le_sumn d n (fun i y => f i _)). intros. apply H. auto. Qed.
Lemma cdeg_ext d f g : (forall l, f l = g l) -> cdeg d f -> cdeg d g.
Proof. intros H Hf pre suf. eapply deg_le_ext; [|apply (Hf pre suf)]. intros; cbn beta; auto. Qed.
(** The weight of the eq table at a point, as a function of the point. *)
Lemma mle_table_cdeg d n (t : nat -> list R -> R) : (forall b, cdeg d (t b)) ->
  cdeg (d + 1) (fun l => mle_spec (fun b => t b l) (firstn n l)).
Proof.
  intros H.
  assert (forall l b, (b < 2 ^ length (firstn n l))%nat -> eqw (firstn n l) b = mle_spec (fun i => if (i =? b)%nat then 1 else 0) (firstn n l)) as E.
  { intros l b Hb. unfold mle_spec. rewrite (sumn_single _ b); auto.
    - rewrite Nat.eqb_refl. ring.
    - intros i _ Hi. apply Nat.eqb_neq in Hi. rewrite Hi. ring. }
  intros pre suf.
  set (N := (2 ^ length (firstn n (pre ++ 0%rs :: suf)))%nat).
  eapply (deg_le_ext _ (fun y => sumn N (fun b => t b (pre ++ y :: suf) * mle_spec (fun i => if (i =? b)%nat then 1 else 0) (firstn n (pre ++ y :: suf))))).
  - intros y. unfold mle_spec at 2.
    assert (length (firstn n (pre ++ y :: suf)) = length (firstn n (pre ++ 0 :: suf))) as EL by (rewrite !firstn_length, !app_length; reflexivity).
    rewrite EL. fold N. apply sumn_ext. intros b Hb. rewrite E; auto. rewrite EL. auto.
  - apply deg_le_sumn with (f := fun b y => _). intros b Hb. apply deg_le_mul; [apply H|].
    apply (cdeg_window 1 (mle_spec (fun i => if (i =? b)%nat then 1 else 0)) n 0 (mle_spec_cdeg _)).
Qed.
Lemma cdeg_var_deg d f n : cdeg d f -> var_deg n d f.
Proof. intros H pre suf _. apply H. Qed.

Lemma skipn_flat_map {A} (f : A -> list R) s l tl i : (forall a, length (f a) = s) -> (i <= length l)%nat ->
  skipn (i * s) (flat_map f l ++ tl) = flat_map f (skipn i l) ++ tl.
Proof.
  intros Hf. revert l; induction i as [|i IH]; intros l Hi; [reflexivity|].
  destruct l as [|a l]; cbn [length] in Hi; [lia|]. cbn [flat_map skipn]. rewrite <- app_assoc.
  replace (S i * s)%nat with (length (f a) + i * s)%nat by (rewrite Hf; lia).
  rewrite skipn_app. rewrite skipn_all2 by lia. cbn [app].
  replace (length (f a) + i * s - length (f a))%nat with (i * s)%nat by lia. apply IH. lia.
Qed.
Lemma block_flat_map {A} (f : A -> list R) s l tl i d : (forall a, length (f a) = s) -> (i < length l)%nat ->
  firstn s (skipn (i * s) (flat_map f l ++ tl)) = f (nth i l d).
Proof.
  intros Hf Hi. rewrite skipn_flat_map by (auto; lia). rewrite (skipn_nth_S l i d) by auto. cbn [flat_map].
  rewrite <- app_assoc, firstn_app, Hf, Nat.sub_diag. cbn [firstn]. rewrite app_nil_r, firstn_all2 by (rewrite Hf; auto). reflexivity.
Qed.
End Window.

(** ** Soundness *)
Section Sound.
Context {K R T : Type} {PO : POps K R} {TO : TransOps T R K} {p : Z} {PL : PLaws K R p}.
Add Ring Rring38 : (@rlaws_th R _ (pl_R (p := p))).
Add Ring Rring39 : (@rlaws_th K _ (fld_laws (FieldLaws := pl_K (p := p)))).

Lemma peval_apart (q : list R) (pts : list K) i : NoDup pts -> (length q <= length pts)%nat -> nth i q 0 <> 0 ->
  exists y, In y pts /\ peval q (emb y) <> 0.
Proof.
  intros Hnd HL Hi.
  assert ((forall y, In y pts -> peval q (emb y) = 0) \/ exists y, In y pts /\ peval q (emb y) <> 0) as [H|H]; auto.
  { clear Hnd HL. induction pts as [|a pts [IH|(y & Hy & E)]].
    - left. intros y [].
    - destruct (req_dec (peval q (emb a)) 0).
      + left. intros y [<-|Hy]; auto.
      + right. exists a. split; [left; auto|auto].
    - right. exists y. split; [right; auto|auto]. }
  exfalso. apply Hi. pose proof (root_bound emb emb_hom q pts Hnd HL H) as Hz. rewrite Forall_forall in Hz.
  destruct (Nat.lt_ge_cases i (length q)); [symmetry; apply Hz, nth_In; auto|apply nth_overflow; auto].
Qed.

(** The polynomial of [x] and the monomial test over [R]. *)
Definition evr (x y : R) : R := sumn pdim (fun k => emb (nth k (pcoeffs x) 0) * rpow y k).
Definition dtest (x y : R) : R := evr x y * evr x y - evr x (y * y).
Lemma emb_evp (x : R) b : emb (evp x b) = evr x (emb b).
Proof.
  unfold evp, evr. rewrite (hom_sumn emb emb_hom). apply sumn_ext. intros. rewrite (hom_mul _ emb_hom), (hom_pow emb emb_hom). auto.
Qed.
Lemma rpow_deg k : deg_le k (fun y : R => rpow y k).
Proof. replace k with (k * 1)%nat at 1 by lia. apply (deg_le_pow 1 k (fun y => y)). apply deg_le_id. Qed.
Lemma evr_deg x : deg_le (pdim - 1) (evr x).
Proof.
  unfold evr. apply deg_le_sumn with (f := fun k y => _). intros k Hk. apply deg_le_scale.
  eapply deg_le_mono; [|apply rpow_deg]. lia.
Qed.
Lemma evr_sq_deg x : deg_le (2 * (pdim - 1)) (fun y => evr x (y * y)).
Proof.
  unfold evr. apply deg_le_sumn with (f := fun k y => _). intros k Hk. apply deg_le_scale.
  eapply deg_le_ext; [|eapply deg_le_mono; [|apply (rpow_deg (k + k))]]; [|lia].
  intros y. cbn beta. rewrite rpow_add, rpow_mul_base. auto.
Qed.
Lemma dtest_deg x : deg_le (2 * (pdim - 1)) (dtest x).
Proof.
  unfold dtest. apply deg_le_sub; [|apply evr_sq_deg].
  replace (2 * (pdim - 1))%nat with ((pdim - 1) + (pdim - 1))%nat by lia. apply deg_le_mul; apply evr_deg.
Qed.
Lemma dtest_emb x b : dtest x (emb b) = emb (evp x b * evp x b - evp x (b * b)).
Proof. unfold dtest. rewrite (hom_sub _ emb_hom), (hom_mul _ emb_hom), !emb_evp, (hom_mul _ emb_hom). auto. Qed.

(** A claim of the set check: a matrix given by its columns, or a vector. *)
Inductive claim := CMat (cols : list (list R)) | CVec (v : list R).
Definition cl_cols (cl : claim) : list (list R) := match cl with CMat cols => cols | CVec v => [v] end.
Definition cl_val (cl : claim) (b : nat) (beta alpha : R) : R :=
  match cl with
  | CMat cols => sumn (length cols) (fun j => dtest (nth b (nth j cols []) 0) beta * rpow alpha j)
  | CVec v => dtest (nth b v 0) beta * alpha
  end.
Definition cl_poly (cl : claim) (beta alpha : K) (pt : list R) : R :=
  let t c := mle_spec (fun b => emb (evp (nth b c 0) beta)) pt in
  let q c := mle_spec (fun b => emb (evp (nth b c 0) (beta * beta))) pt in
  match cl with
  | CMat cols => sumn (length cols) (fun j => (t (nth j cols []) * t (nth j cols []) - q (nth j cols [])) * emb (rpow alpha j))
  | CVec v => (t v * t v - q v) * emb alpha
  end.
Definition claims (cols : list (list (list R))) (vecs : list (list R)) : list claim := map CMat cols ++ map CVec vecs.
Definition dcl : claim := CMat [].

(** The true sum as a function of all challenges c_i, beta_i, alpha_i in the order in which they are
    drawn, then (if [bt]) the batching challenge. *)
Definition sc_G (n : nat) (bt : bool) (cls : list claim) (cv : list R) : R :=
  let blkv i := firstn (n + 2) (skipn (i * (n + 2)) cv) in
  let w i := if bt then rpow (nth (length cls * (n + 2)) cv 0) i else 1 in
  sumn (length cls) (fun i =>
    mle_spec (fun b => cl_val (nth i cls dcl) b (nth n (blkv i) 0) (nth (n + 1) (blkv i) 0)) (firstn n (blkv i)) * w i).
(** The challenges of a run, in order. *)
Definition sc_cvec (cba : list (list K * K * K)) (rc : option K) : list K :=
  flat_map (fun x => fst (fst x) ++ [snd (fst x); snd x]) cba ++ match rc with Some c => [c] | None => [] end.
(** The polynomial whose sum the verifier checks. *)
Definition sc_g (cls : list claim) (cba : list (list K * K * K)) (rc : option K) (pt : list R) : R :=
  sumn (length cls) (fun i => let x := nth i cba dcba in
    mle_spec (eqw (map emb (fst (fst x)))) pt * cl_poly (nth i cls dcl) (snd (fst x)) (snd x) pt * emb (rc_pow rc i)).

Definition sc_degree (nc ncl : nat) : nat := (2 * pdim + nc + ncl)%nat.

Lemma cl_val_cdeg cl n nc b : (length (cl_cols cl) <= nc)%nat ->
  cdeg (2 * (pdim - 1) + Nat.max nc 1) (fun l => cl_val cl b (nth n l 0) (nth (n + 1) l 0)).
Proof.
  intros H. destruct cl as [cols|v]; cbn [cl_val cl_cols] in *.
  - apply cdeg_sumn. intros j Hj. apply cdeg_mul.
    + apply (nth_coord_deg' _ (dtest _)). apply dtest_deg.
    + apply (nth_coord_deg' _ (fun y => rpow y j)). eapply deg_le_mono; [|apply rpow_deg]. lia.
  - apply cdeg_mul.
    + apply (nth_coord_deg' _ (dtest _)). apply dtest_deg.
    + apply (nth_coord_deg' _ (fun y => y)). eapply deg_le_mono; [|apply deg_le_id]. lia.
Qed.
Lemma sc_G_cdeg n bt cls nc : (1 <= length cls)%nat -> Forall (fun cl => (length (cl_cols cl) <= nc)%nat) cls ->
  cdeg (sc_degree nc (length cls)) (sc_G n bt cls).
Proof.
  intros Hne H. unfold sc_G. apply cdeg_sumn. intros i Hi.
  apply (cdeg_mono ((2 * (pdim - 1) + Nat.max nc 1 + 1) + (length cls - 1))).
  { pose proof (pdim_pos (K := K) (R := R) (p := p)). unfold sc_degree. lia. }
  apply cdeg_mul.
  - apply (cdeg_window _ (fun l => mle_spec (fun b => cl_val (nth i cls dcl) b (nth n l 0) (nth (n + 1) l 0)) (firstn n l))).
    apply mle_table_cdeg. intros b. apply cl_val_cdeg. rewrite Forall_forall in H. apply H, nth_In. auto.
  - destruct bt; [|apply cdeg_const]. apply (nth_coord_deg' _ (fun y => rpow y i)). eapply deg_le_mono; [|apply rpow_deg]. lia.
Qed.
Lemma sc_g_cdeg cls cba rc : cdeg 3 (sc_g cls cba rc).
Proof.
  unfold sc_g. apply cdeg_sumn. intros i Hi. cbv zeta. apply (cdeg_mul 3 0); [|apply cdeg_const].
  apply (cdeg_mul 1 2); [apply mle_spec_cdeg|].
  assert (forall t q : nat -> R, cdeg 2 (fun l => mle_spec t l * mle_spec t l - mle_spec q l)) as D.
  { intros t q. apply cdeg_sub; [apply (cdeg_mul 1 1); apply mle_spec_cdeg|]. eapply cdeg_mono; [|apply mle_spec_cdeg]. lia. }
  unfold cl_poly. cbv zeta. destruct (nth i cls dcl) as [cols|v].
  - apply cdeg_sumn. intros j Hj. apply (cdeg_mul 2 0); [apply D|apply cdeg_const].
  - apply (cdeg_mul 2 0); [apply D|apply cdeg_const].
Qed.

Lemma nth_claims_l cols vecs i : (i < length cols)%nat -> nth i (claims cols vecs) dcl = CMat (nth i cols []).
Proof. intros H. unfold claims. rewrite app_nth1 by (rewrite map_length; auto). rewrite (nth_map_lt _ _ _ []) by auto. auto. Qed.
Lemma nth_claims_r cols vecs i : (i < length vecs)%nat -> nth (length cols + i) (claims cols vecs) dcl = CVec (nth i vecs []).
Proof.
  intros H. unfold claims. rewrite app_nth2 by (rewrite map_length; lia). rewrite map_length.
  replace (length cols + i - length cols)%nat with i by lia. rewrite (nth_map_lt _ _ _ []) by auto. auto.
Qed.
Lemma claims_length cols vecs : length (claims cols vecs) = (length cols + length vecs)%nat.
Proof. unfold claims. rewrite app_length, !map_length. auto. Qed.

(** With true openings the verifier recomputes [sc_g] at the point. *)
Lemma set_expected_sc_g cols vecs cba rc (r : list K) :
  length cba = (length cols + length vecs)%nat -> Forall (fun x => length (fst (fst x)) = length r) cba ->
  set_expected (map emb r) cba rc (map (map (open r)) cols) (map (open r) vecs) = Ok (sc_g (claims cols vecs) cba rc (map emb r)).
Proof.
  intros HL HF. rewrite set_expected_ok by (rewrite ?map_length; auto). f_equal. unfold sc_g. rewrite claims_length, sumn_split, !map_length.
  assert (forall i, (i < length cba)%nat -> eqp (map emb (fst (fst (nth i cba dcba)))) (map emb r) = mle_spec (eqw (map emb (fst (fst (nth i cba dcba))))) (map emb r)) as EQ.
  { intros i Hi. assert (length (fst (fst (nth i cba dcba))) = length r) as E by (rewrite Forall_forall in HF; apply HF, nth_In; auto).
    rewrite eqp_sym by (rewrite !map_length; auto). rewrite mle_spec_eqw by (rewrite !map_length; auto). auto. }
  assert (forall beta col, emb (evp (open r col) beta) = mle_spec (fun b => emb (evp (nth b col 0) beta)) (map emb r)) as EO.
  { intros beta col. unfold open. rewrite (evp_mle (p := p)), (hom_mle_spec emb emb_hom). auto. }
  f_equal; apply sumn_ext; intros i Hi; cbv zeta.
  - rewrite nth_claims_l by auto. unfold e_mat, cl_poly. rewrite (nth_map_lt _ _ _ []) by auto. rewrite map_length.
    rewrite EQ by lia. do 2 f_equal. apply sumn_ext. intros j Hj. rewrite (nth_map_lt _ _ _ []) by auto.
    rewrite ev_claim_spec, !EO. auto.
  - rewrite nth_claims_r by auto. unfold e_vec, cl_poly. rewrite (nth_map_lt _ _ _ []) by auto.
    rewrite EQ by lia. rewrite ev_claim_spec, !EO. ring.
Qed.

(** The sum of [sc_g] over the cube is [sc_G] at the challenges. *)
Lemma sc_g_cube n cls cba rc : length cba = length cls -> Forall (fun x => length (fst (fst x)) = n) cba ->
  cube_sum n (sc_g cls cba rc) = sc_G n (match rc with Some _ => true | None => false end) cls (map emb (sc_cvec cba rc)).
Proof.
  intros HL HF. unfold cube_sum, sc_g, sc_G. rewrite sumn_swap. apply sumn_ext. intros i Hi. cbv zeta.
  assert (length (fst (fst (nth i cba dcba))) = n) as En by (rewrite Forall_forall in HF; apply HF, nth_In; lia).
  assert (firstn (n + 2) (skipn (i * (n + 2)) (map emb (sc_cvec cba rc))) =
          map emb (fst (fst (nth i cba dcba))) ++ [emb (snd (fst (nth i cba dcba))); emb (snd (nth i cba dcba))] :> list R) as EB.
  { unfold sc_cvec. rewrite map_app.
    assert (map emb (flat_map (fun x : list K * K * K => fst (fst x) ++ [snd (fst x); snd x]) cba) =
            flat_map (fun x => resize n 0 (map emb (fst (fst x))) ++ [emb (snd (fst x)); emb (snd x)]) cba :> list R) as ->.
    { clear - HF. induction HF as [|x cba H _ IH]; auto. cbn [flat_map]. rewrite map_app, IH, map_app. cbn [map]. do 2 f_equal.
      symmetry. apply (list_ext 0). rewrite resize_length, map_length; auto. intros j Hj. rewrite resize_length in Hj. apply nth_resize. auto. }
    rewrite (block_flat_map _ (n + 2) _ _ _ dcba) by (try lia; intros; rewrite app_length, resize_length; auto).
    f_equal. apply (list_ext 0). rewrite resize_length, map_length; auto. intros j Hj. rewrite resize_length in Hj. apply nth_resize. auto. }
  rewrite EB. set (x := nth i cba dcba) in *. set (c := fst (fst x)) in *. set (beta := snd (fst x)). set (alpha := snd x).
  assert (length (map emb c : list R) = n) as Lc by (rewrite map_length; auto).
  rewrite firstn_app, Lc, Nat.sub_diag, firstn_all2 by (rewrite Lc; auto). cbn [firstn]. rewrite app_nil_r.
  rewrite !app_nth2 by (rewrite Lc; lia). rewrite Lc, Nat.sub_diag. replace (n + 1 - n)%nat with 1%nat by lia. cbn [nth].
  assert (nth (length cls * (n + 2)) (map emb (sc_cvec cba rc)) 0 = match rc with Some c => emb c | None => 0 end :> R) as EW.
  { unfold sc_cvec. rewrite map_app, app_nth2; rewrite map_length.
    - assert (length (flat_map (fun x0 : list K * K * K => fst (fst x0) ++ [snd (fst x0); snd x0]) cba) = (length cba * (n + 2))%nat) as EF.
      { clear - HF. induction HF as [|y cba H _ IH]; auto. cbn [flat_map length]. rewrite !app_length, IH, H. cbn [length]. lia. }
      rewrite EF, HL, Nat.sub_diag. destruct rc; reflexivity.
    - assert (length (flat_map (fun x0 : list K * K * K => fst (fst x0) ++ [snd (fst x0); snd x0]) cba) = (length cba * (n + 2))%nat) as EF.
      { clear - HF. induction HF as [|y cba H _ IH]; auto. cbn [flat_map length]. rewrite !app_length, IH, H. cbn [length]. lia. }
      rewrite EF, HL. lia. }
  rewrite EW.
  assert ((if match rc with Some _ => true | None => false end then rpow (match rc with Some c => emb c | None => 0 end) i else 1) = emb (rc_pow rc i) :> R) as ->.
  { unfold rc_pow. rewrite (hom_pow emb emb_hom). destruct rc; auto. rewrite (hom_1 _ emb_hom), rpow_one. auto. }
  rewrite sumn_mul_r. f_equal. unfold mle_spec at 2. rewrite Lc. apply sumn_ext. intros b Hb.
  rewrite mle_spec_bits by auto.
  match goal with |- ?a * ?u = ?v * ?a => transitivity (u * a); [ring|f_equal] end.
  unfold cl_poly, cl_val. cbv zeta.
  assert (forall col be, mle_spec (fun b0 => emb (evp (nth b0 col 0) be)) (bits n b) = evr (nth b col 0) (emb be)) as EM.
  { intros col be. rewrite (mle_spec_bits (fun b0 => emb (evp (nth b0 col 0) be))) by auto. apply emb_evp. }
  destruct (nth i cls dcl) as [cols|v].
  - apply sumn_ext. intros j Hj. rewrite !EM, (hom_mul _ emb_hom), (hom_pow emb emb_hom). reflexivity.
  - rewrite !EM, (hom_mul _ emb_hom). reflexivity.
Qed.

(** A reference challenge vector. *)
Definition sc_ref (n : nat) (bt : bool) (ncl i0 b0 : nat) (y0 a0 rc0 : K) : list K :=
  flat_map (fun i => if (i =? i0)%nat then bits n b0 ++ [y0; a0] else bits n 0 ++ [0; 0]) (seq 0 ncl) ++ (if bt then [rc0] else []).
Lemma sc_ref_length n bt ncl i0 b0 y0 a0 rc0 : length (sc_ref n bt ncl i0 b0 y0 a0 rc0) = (ncl * (n + 2) + if bt then 1 else 0)%nat.
Proof.
  unfold sc_ref. rewrite app_length, (flat_map_length _ _ (n + 2)), seq_length. destruct bt; auto.
  intros i. destruct (i =? i0)%nat; rewrite app_length, bits_length; auto.
Qed.
Lemma sc_G_ref n bt cls i0 b0 y0 a0 rc0 : (b0 < 2 ^ n)%nat ->
  sc_G n bt cls (map emb (sc_ref n bt (length cls) i0 b0 y0 a0 rc0)) =
  sumn (length cls) (fun i => (if (i =? i0)%nat then cl_val (nth i cls dcl) b0 (emb y0) (emb a0) else cl_val (nth i cls dcl) 0 0 0)
                              * if bt then rpow (emb rc0) i else 1).
Proof.
  intros Hb. unfold sc_G. cbv zeta. apply sumn_ext. intros i Hi.
  set (f := fun i => map emb (if (i =? i0)%nat then bits n b0 ++ [y0; a0] else bits n 0 ++ [0; 0]) : list R).
  assert (map emb (sc_ref n bt (length cls) i0 b0 y0 a0 rc0) = flat_map f (seq 0 (length cls)) ++ map emb (if bt then [rc0] else [])) as ER.
  { unfold sc_ref. rewrite map_app. f_equal. rewrite !flat_map_concat_map, concat_map, map_map. auto. }
  assert (forall i, length (f i) = (n + 2)%nat) as Lf.
  { intros j. unfold f. rewrite map_length. destruct (j =? i0)%nat; rewrite app_length, bits_length; auto. }
  rewrite ER. rewrite (block_flat_map f (n + 2) _ _ _ 0%nat) by (auto; rewrite seq_length; auto).
  rewrite seq_nth by auto. cbn [Nat.add]. f_equal.
  - unfold f. assert (forall b y a, (b < 2 ^ n)%nat ->
      mle_spec (fun b1 => cl_val (nth i cls dcl) b1 (nth n (map emb (bits n b ++ [y; a])) 0) (nth (n + 1) (map emb (bits n b ++ [y; a])) 0))
        (firstn n (map emb (bits n b ++ [y; a]))) = cl_val (nth i cls dcl) b (emb y) (emb a)) as HH.
    { intros b y a Hb2. rewrite map_app, emb_bits. cbn [map].
      rewrite firstn_app, bits_length, Nat.sub_diag, firstn_all2 by (rewrite bits_length; auto). cbn [firstn]. rewrite app_nil_r.
      rewrite !app_nth2 by (rewrite bits_length; lia). rewrite bits_length, Nat.sub_diag. replace (n + 1 - n)%nat with 1%nat by lia. cbn [nth].
      apply (mle_spec_bits (fun b1 => cl_val (nth i cls dcl) b1 (emb y) (emb a))). auto. }
    destruct (i =? i0)%nat.
    + apply HH. auto.
    + rewrite HH. { rewrite (hom_0 _ emb_hom). auto. } pose proof (Nat.pow_nonzero 2 n). lia.
  - destruct bt; auto. f_equal. rewrite app_nth2; rewrite (flat_map_length f _ (n + 2)), seq_length by auto; [|lia].
    rewrite Nat.sub_diag. reflexivity.
Qed.

(** Some entry of the claim is neither zero nor a unit monomial. *)
Definition claim_bad (cl : claim) : Prop := exists col x, In col (cl_cols cl) /\ In x col /\ ~ in_monos x.

Lemma dtest_nonzero (x : R) y : evp x y * evp x y <> evp x (y * y) -> (1 : R) <> 0 -> dtest x (emb y) <> 0.
Proof.
  intros H H1 E. rewrite dtest_emb in E. apply H. apply (proj1 (rsub_0_iff _ _)).
  apply (emb_inj emb emb_hom H1). rewrite E. symmetry. apply (hom_0 _ emb_hom).
Qed.
Lemma one_neq_0 : (1 : R) <> 0.
Proof.
  intros E. assert (pcoeffs (1 : R) = pcoeffs (0 : R)) as E2 by (rewrite E; auto).
  rewrite pcoeffs_one, (pcoeffs_0 (p := p)) in E2. pose proof (pdim_pos (K := K) (R := R) (p := p)) as Hd.
  assert (nth 0 (unit_vec pdim 0) (0:K) = nth 0 (repeat (0:K) pdim) 0) as E3 by (rewrite E2; auto).
  rewrite nth_unit_vec, nth_repeat in E3 by lia. cbn in E3. apply (f_1_neq_0 (K := K)). auto.
Qed.

(** Evaluation of one bad claim is nonzero for suitable challenges. *)
Lemma claim_bad_val n cl nc (pts : list K) : NoDup pts -> (Nat.max (2 * pdim - 1) nc <= length pts)%nat ->
  (length (cl_cols cl) <= nc)%nat -> Forall (fun col => (length col <= 2 ^ n)%nat) (cl_cols cl) -> claim_bad cl ->
  exists b0 y0 a0, (b0 < 2 ^ n)%nat /\ cl_val cl b0 (emb y0) (emb a0) <> 0.
Proof.
  intros Hnd HL Hnc HF (col & x & Hcol & Hx & Hbad).
  destruct (monomial_test_witness x pts Hnd ltac:(lia) Hbad) as (y0 & _ & Hy).
  apply dtest_nonzero in Hy; [|apply one_neq_0].
  apply (In_nth _ _ 0) in Hx as (b0 & Hb0 & <-).
  assert (b0 < 2 ^ n)%nat as Hb by (rewrite Forall_forall in HF; specialize (HF col Hcol); cbn beta in HF; lia).
  exists b0, y0. destruct cl as [cols|v]; cbn [cl_cols cl_val] in *.
  - apply (In_nth _ _ []) in Hcol as (j0 & Hj0 & <-).
    set (q := map (fun j => dtest (nth b0 (nth j cols []) 0) (emb y0)) (seq 0 (length cols))).
    destruct (peval_apart q pts j0 Hnd) as (a0 & _ & Ha).
    + unfold q. rewrite map_length, seq_length. lia.
    + unfold q. rewrite nth_seq_map by auto. auto.
    + exists a0. split; auto. intros E. apply Ha. rewrite peval_sum. unfold q at 1. rewrite map_length, seq_length.
      etransitivity; [|exact E]. apply sumn_ext. intros j Hj. unfold q. rewrite nth_seq_map by auto. auto.
  - destruct Hcol as [<-|[]]. exists 1. split; auto. rewrite (hom_1 _ emb_hom). intros E. apply Hy. etransitivity; [|exact E]. ring.
Qed.

(** A reference vector with a nonzero sum, as soon as some entry is not a monomial. *)
Lemma sc_ref_exists n (cols : list (list (list R))) vecs nc (pts : list K) :
  NoDup pts -> (Nat.max (2 * pdim - 1) (Nat.max nc (length cols + length vecs)) <= length pts)%nat ->
  Forall (fun cl => (length (cl_cols cl) <= nc)%nat /\ Forall (fun col => (length col <= 2 ^ n)%nat) (cl_cols cl)) (claims cols vecs) ->
  Exists claim_bad (claims cols vecs) ->
  exists ref, length ref = (length (claims cols vecs) * (n + 2) + if (1 <? length cols)%nat then 1 else 0)%nat /\
    sc_G n (1 <? length cols)%nat (claims cols vecs) (map emb ref) <> 0.
Proof.
  intros Hnd HL HF HE. set (cls := claims cols vecs) in *. set (bt := (1 <? length cols)%nat).
  assert (length cls = (length cols + length vecs)%nat) as LC by apply claims_length.
  apply Exists_exists in HE as (cl & Hcl & Hbad).
  rewrite Forall_forall in HF. destruct (HF cl Hcl) as [Hnc Hlen].
  destruct (claim_bad_val n cl nc pts Hnd ltac:(lia) Hnc Hlen Hbad) as (b0 & y0 & a0 & Hb0 & Hv).
  apply (In_nth _ _ dcl) in Hcl as (i0 & Hi0 & Ei).
  destruct bt eqn:EB.
  - set (q := map (fun i => if (i =? i0)%nat then cl_val (nth i cls dcl) b0 (emb y0) (emb a0) else cl_val (nth i cls dcl) 0 0 0) (seq 0 (length cls))).
    destruct (peval_apart q pts i0 Hnd) as (rc0 & _ & Hr).
    + unfold q. rewrite map_length, seq_length. lia.
    + unfold q. rewrite nth_seq_map by auto. rewrite Nat.eqb_refl, Ei. auto.
    + exists (sc_ref n true (length cls) i0 b0 y0 a0 rc0). split; [apply sc_ref_length|]. rewrite sc_G_ref by auto.
      intros E. apply Hr. rewrite peval_sum. unfold q at 1. rewrite map_length, seq_length. etransitivity; [|exact E].
      apply sumn_ext. intros i Hi. unfold q. rewrite nth_seq_map by auto. reflexivity.
  - apply Nat.ltb_ge in EB.
    (* without a batching challenge there is at most one matrix, and vectors vanish at alpha = 0 *)
    assert (forall i, (length cols <= i)%nat -> (i < length cls)%nat -> cl_val (nth i cls dcl) 0 0 0 = 0) as Hvec.
    { intros i H1 H2. unfold cls. replace i with (length cols + (i - length cols))%nat by lia. rewrite nth_claims_r by lia. cbn [cl_val]. ring. }
    destruct (Nat.lt_ge_cases i0 (length cols)) as [Hm|Hm].
    + exists (sc_ref n false (length cls) i0 b0 y0 a0 0). split; [apply sc_ref_length|]. rewrite sc_G_ref by auto.
      rewrite (sumn_single _ i0) by (auto; intros i Hi Hne; apply Nat.eqb_neq in Hne; rewrite Hne; apply Nat.eqb_neq in Hne; rewrite Hvec by lia; ring).
      rewrite Nat.eqb_refl, Ei. intros E. apply Hv. etransitivity; [|exact E]. ring.
    + set (V := sumn (length cls) (fun i => (if (i =? i0)%nat then 0 else cl_val (nth i cls dcl) 0 0 0) * 1)).
      assert (forall a, sumn (length cls) (fun i => (if (i =? i0)%nat then cl_val (nth i cls dcl) b0 (emb y0) (emb a) else cl_val (nth i cls dcl) 0 0 0) * 1)
                        = cl_val cl b0 (emb y0) (emb a) + V) as HV.
      { intros a. transitivity (sumn (length cls) (fun i => if (i =? i0)%nat then cl_val cl b0 (emb y0) (emb a) else 0) + V).
        - unfold V. rewrite <- sumn_add. apply sumn_ext. intros i Hi. destruct (Nat.eqb_spec i i0); [subst i; rewrite Ei; ring|ring].
        - f_equal. rewrite (sumn_single _ i0); auto; [rewrite Nat.eqb_refl; auto|].
          intros i _ Hne. apply Nat.eqb_neq in Hne. rewrite Hne. auto. }
      destruct (req_dec V 0) as [EV|NV].
      * exists (sc_ref n false (length cls) i0 b0 y0 a0 0). split; [apply sc_ref_length|]. rewrite sc_G_ref by auto.
        rewrite HV, EV. intros E. apply Hv. etransitivity; [|exact E]. ring.
      * exists (sc_ref n false (length cls) i0 b0 y0 0 0). split; [apply sc_ref_length|]. rewrite sc_G_ref by auto.
        rewrite HV. intros E. apply NV. etransitivity; [|exact E].
        replace i0 with (length cols + (i0 - length cols))%nat in Ei by lia. unfold cls in Ei. rewrite nth_claims_r in Ei by lia. rewrite <- Ei.
        cbn [cl_val]. rewrite (hom_0 _ emb_hom). ring.
Qed.

Lemma set_check_sound_at n (cols : list (list (list R))) vecs nc ref :
  char_gt K 3 ->
  Forall (fun cl => (length (cl_cols cl) <= nc)%nat /\ Forall (fun col => (length col <= 2 ^ n)%nat) (cl_cols cl)) (claims cols vecs) ->
  Exists claim_bad (claims cols vecs) ->
  length ref = (length (claims cols vecs) * (n + 2) + if (1 <? length cols)%nat then 1 else 0)%nat ->
  sc_G n (1 <? length cols)%nat (claims cols vecs) (map emb ref) <> 0 ->
  forall (o : sc_out K R) (ts ts' : T),
    so_nvars o = n -> set_verify o ts = Ok ts' ->
    let '(cba, ts1) := cba_loop (length cols + length vecs) n ts in
    let '(rc, ts2) := opt_challenge (length cols) ts1 in
    (forall point v ts3, sc_verify ts2 n 3 0 (so_sc o) = Ok (point, v, ts3) ->
       nth 0 (so_e o) [] = map (map (open point)) cols /\ so_b o = map (open point) vecs) ->
    length (nth 0 (so_e o) []) = length cols -> length (so_b o) = length vecs ->
    bad_batch (sc_degree nc (length cols + length vecs)) (sc_G n (1 <? length cols)%nat (claims cols vecs)) ref (sc_cvec cba rc) \/
    exists point v ts3, sc_verify ts2 n 3 0 (so_sc o) = Ok (point, v, ts3) /\
      sc_bad n 3 (sc_g (claims cols vecs) cba rc) ts2 (so_sc o) point.
Proof.
  intros Hc HF HE Hl Href o ts ts' Hn HV.
  assert (1 <= length (claims cols vecs))%nat as Hne by (destruct (claims cols vecs); [inversion HE|cbn; lia]).
  pose proof (cba_loop_wf (length cols + length vecs) n ts) as HW.
  destruct (cba_loop (length cols + length vecs) n ts) as [cba ts1] eqn:ECB. destruct HW as [LCB FCB].
  destruct (opt_challenge (length cols) ts1) as [rc ts2] eqn:ERC. intros HO HL1 HL2.
  unfold set_verify in HV. apply bind_ok_inv in HV as (e0 & He0 & HV).
  assert (e0 = nth 0 (so_e o) []) as ->.
  { unfold index in He0. destruct (so_e o) as [|e es]; [discriminate|]. injection He0 as <-. reflexivity. }
  rewrite HL1, HL2, Hn, ECB, ERC in HV. apply bind_ok_inv in HV as ([[point v] ts3] & Hsc & HV).
  destruct (HO _ _ _ Hsc) as [E1 E2].
  assert (length point = n) as Lp.
  { unfold sc_verify in Hsc. destruct (verify_loop n _ (so_sc o)) as [[[ms cs] t]| |] eqn:EL; try discriminate. cbn [bind] in Hsc.
    destruct (n =? 0)%nat; [discriminate|]. destruct (check_loop 3 ms cs 0); try discriminate. cbn [bind] in Hsc. injection Hsc as <- <- <-.
    destruct (verify_loop_inv _ _ _ _ _ _ EL) as (_ & _ & H2). auto. }
  cbv zeta in HV. rewrite E1, E2 in HV.
  rewrite set_expected_sc_g in HV; [|auto|eapply Forall_impl; [|exact FCB]; cbn beta; intros; congruence].
  cbn [bind] in HV. destruct (req_dec (sc_g (claims cols vecs) cba rc (map emb point)) v) as [Ev|Ev].
  2:{ rewrite (proj2 (req_false _ _) Ev) in HV. discriminate. }
  assert ((match rc with Some _ => true | None => false end) = (1 <? length cols)%nat) as Ebt.
  { unfold opt_challenge in ERC. destruct (1 <? length cols)%nat; [destruct (get_challenge ts1)|]; injection ERC as <- <-; auto. }
  pose proof (sc_g_cube n (claims cols vecs) cba rc ltac:(rewrite claims_length; auto) FCB) as HS. rewrite Ebt in HS.
  destruct (req_dec (sc_G n (1 <? length cols)%nat (claims cols vecs) (map emb (sc_cvec cba rc))) 0) as [EG|NG].
  - left. apply batch_sound; auto.
    + apply cdeg_var_deg. rewrite <- claims_length. apply sc_G_cdeg; auto. eapply Forall_impl; [|exact HF]. intros a []; auto.
    + rewrite Hl. unfold sc_cvec. rewrite app_length, claims_length, <- LCB.
      assert (length (flat_map (fun x : list K * K * K => fst (fst x) ++ [snd (fst x); snd x]) cba) = (length cba * (n + 2))%nat) as ->.
      { clear - FCB. induction FCB as [|y cba H _ IH]; auto. cbn [flat_map length]. rewrite !app_length, IH, H. cbn [length]. lia. }
      f_equal. rewrite <- Ebt. destruct rc; auto.
  - right. exists point, v, ts3. split; auto.
    destruct (sumcheck_sound n 3 (sc_g (claims cols vecs) cba rc) ts2 0 (so_sc o) point v ts3) as [_ HB]; auto.
    + apply cdeg_var_deg, sc_g_cdeg.
    + rewrite HS. auto.
Qed.

Theorem set_check_sound n (cols : list (list (list R))) vecs nc (pts : list K) :
  NoDup pts -> (Nat.max (2 * pdim - 1) (Nat.max nc (length cols + length vecs)) <= length pts)%nat -> char_gt K 3 ->
  Forall (fun cl => (length (cl_cols cl) <= nc)%nat /\ Forall (fun col => (length col <= 2 ^ n)%nat) (cl_cols cl)) (claims cols vecs) ->
  Exists claim_bad (claims cols vecs) ->
  exists ref, forall (o : sc_out K R) (ts ts' : T),
    so_nvars o = n -> set_verify o ts = Ok ts' ->
    let '(cba, ts1) := cba_loop (length cols + length vecs) n ts in
    let '(rc, ts2) := opt_challenge (length cols) ts1 in
    (forall point v ts3, sc_verify ts2 n 3 0 (so_sc o) = Ok (point, v, ts3) ->
       nth 0 (so_e o) [] = map (map (open point)) cols /\ so_b o = map (open point) vecs) ->
    length (nth 0 (so_e o) []) = length cols -> length (so_b o) = length vecs ->
    bad_batch (sc_degree nc (length cols + length vecs)) (sc_G n (1 <? length cols)%nat (claims cols vecs)) ref (sc_cvec cba rc) \/
    exists point v ts3, sc_verify ts2 n 3 0 (so_sc o) = Ok (point, v, ts3) /\
      sc_bad n 3 (sc_g (claims cols vecs) cba rc) ts2 (so_sc o) point.
Proof.
  intros Hnd HL Hc HF HE.
  destruct (sc_ref_exists n cols vecs nc pts Hnd HL HF HE) as (ref & Hl & Href).
  exists ref. apply (set_check_sound_at n cols vecs nc ref); auto.
Qed.
End Sound.
