(** Proofs about the monomial set check (latticefold-plus/src/setchk.rs). *)
From Coq Require Import String List Arith Lia ZArith Bool Ring.
From Verif Require Import Prelude Alg Poly MLE MLE_Proofs Transcript Sumcheck Sumcheck_Proofs CombDeg Arith Arith_Proofs
  Linearization_Proofs Rings PlusRing PlusUtils_Proofs SetCheck.
Import ListNotations.
Local Open Scope rs_scope.

Section Ev.
Context {K R : Type} {PO : POps K R} {p : Z} {PL : PLaws K R p}.
Add Ring Rring31 : (@rlaws_th R _ (pl_R (p := p))).
Add Ring Rring32 : (@rlaws_th K _ (fld_laws (FieldLaws := pl_K (p := p)))).

(** Specification: the polynomial with the coefficients of [x], at [b]. *)
Definition evp (x : R) (b : K) : K := sumn pdim (fun k => nth k (pcoeffs x) 0 * rpow b k).

Lemma ev_fold (l : list K) (x a e : K) :
  fst (fold_left (fun ae c => (fst ae + c * snd ae, snd ae * x)) l (a, e))
  = a + e * sumn (length l) (fun k => nth k l 0 * rpow x k).
Proof.
  revert a e; induction l as [|c l IH]; intros a e; cbn [fold_left length fst snd].
  - cbn [sumn]. ring.
  - rewrite IH. rewrite sumn_S_first. cbn [nth rpow].
    rewrite (sumn_ext _ (fun i => nth i l 0 * (x * rpow x i)) (fun i => x * (nth i l 0 * rpow x i))) by (intros; ring).
    rewrite sumn_mul_l. ring.
Qed.
Lemma ev_spec (x : R) (b : K) : ev x b = evp x b.
Proof. unfold ev. rewrite ev_fold, pcoeffs_length. unfold evp. ring. Qed.

Lemma pcoeffs_0 : pcoeffs (0 : R) = repeat (0 : K) pdim.
Proof.
  assert (0 = emb (0 : K) * (0 : R)) as E by ring. rewrite E, pcoeffs_scale.
  rewrite <- (pcoeffs_length (0 : R)). induction (pcoeffs (0:R)) as [|a l IH]; auto.
  cbn [map length repeat]. rewrite IH. f_equal. ring.
Qed.
Lemma nth_pcoeffs_0 k : nth k (pcoeffs (0 : R)) 0 = (0 : K).
Proof. rewrite pcoeffs_0. apply nth_repeat. Qed.
Lemma nth_pcoeffs_add (x y : R) k : nth k (pcoeffs (x + y)) 0 = nth k (pcoeffs x) 0 + nth k (pcoeffs y) 0 :> K.
Proof.
  destruct (Nat.lt_ge_cases k pdim).
  - rewrite pcoeffs_add, (nth_zipw _ _ _ _ 0 0) by (rewrite pcoeffs_length; auto). auto.
  - rewrite !nth_overflow by (rewrite pcoeffs_length; auto). ring.
Qed.
Lemma nth_pcoeffs_scale (c : K) (x : R) k : nth k (pcoeffs (emb c * x)) 0 = c * nth k (pcoeffs x) 0.
Proof.
  destruct (Nat.lt_ge_cases k pdim).
  - rewrite pcoeffs_scale, (nth_map_lt _ _ _ 0) by (rewrite pcoeffs_length; auto). auto.
  - rewrite !nth_overflow by (rewrite pcoeffs_length; auto). ring.
Qed.
Lemma nth_pcoeffs_sumn n (f : nat -> R) k : nth k (pcoeffs (sumn n f)) 0 = sumn n (fun i => nth k (pcoeffs (f i)) 0) :> K.
Proof. induction n; cbn [sumn]. apply nth_pcoeffs_0. rewrite nth_pcoeffs_add, IHn. auto. Qed.
Lemma nth_pcoeffs_mle (t : nat -> R) (r : list K) k :
  nth k (pcoeffs (mle_spec t (map emb r))) 0 = mle_spec (fun b => nth k (pcoeffs (t b)) 0) r.
Proof.
  unfold mle_spec. rewrite nth_pcoeffs_sumn, map_length. apply sumn_ext. intros b Hb.
  rewrite <- (hom_eqw emb emb_hom). replace (t b * emb (eqw r b)) with (emb (eqw r b) * t b) by ring. rewrite nth_pcoeffs_scale. ring.
Qed.
Lemma pcoeffs_ext (x y : R) : (forall k, (k < pdim)%nat -> nth k (pcoeffs x) 0 = nth k (pcoeffs y) (0 : K)) -> x = y.
Proof.
  intros H. rewrite <- (pof_coeffs_coeffs x), <- (pof_coeffs_coeffs y). f_equal.
  apply (list_ext 0); rewrite !pcoeffs_length; auto.
Qed.

Lemma evp_0 b : evp 0 b = 0.
Proof. apply sumn_0. intros. rewrite nth_pcoeffs_0. ring. Qed.
Lemma evp_add x y b : evp (x + y) b = evp x b + evp y b.
Proof. unfold evp. rewrite <- sumn_add. apply sumn_ext. intros. rewrite nth_pcoeffs_add. ring. Qed.
Lemma evp_scale c x b : evp (emb c * x) b = c * evp x b.
Proof. unfold evp. rewrite <- sumn_mul_l. apply sumn_ext. intros. rewrite nth_pcoeffs_scale. ring. Qed.
Lemma evp_mle (t : nat -> R) (r : list K) b : evp (mle_spec t (map emb r)) b = mle_spec (fun i => evp (t i) b) r.
Proof.
  unfold evp. rewrite mle_spec_sumn. apply sumn_ext. intros k Hk. rewrite nth_pcoeffs_mle.
  unfold mle_spec. rewrite <- sumn_mul_r. apply sumn_ext. intros. ring.
Qed.

Lemma nth_unit_vec d i k : (k < d)%nat -> nth k (unit_vec d i) 0 = (if (k =? i)%nat then 1 else 0 : K).
Proof. intros. unfold unit_vec. rewrite nth_seq_map; auto. Qed.
Lemma pcoeffs_mono i : pcoeffs (pmono i : R) = unit_vec pdim i.
Proof. unfold pmono. apply pcoeffs_of. unfold unit_vec. rewrite map_length, seq_length. auto. Qed.
Lemma evp_mono i b : (i < pdim)%nat -> evp (pmono i) b = rpow b i.
Proof.
  intros Hi. unfold evp. rewrite pcoeffs_mono. rewrite (sumn_single _ i); auto.
  - rewrite nth_unit_vec, Nat.eqb_refl by auto. ring.
  - intros k Hk Hn. rewrite nth_unit_vec by auto. apply Nat.eqb_neq in Hn. rewrite Hn. ring.
Qed.
Lemma evp_square x b : in_monos x -> evp x b * evp x b = evp x (b * b).
Proof.
  intros [->|(i & Hi & ->)].
  - rewrite !evp_0. ring.
  - rewrite !evp_mono by auto. rewrite rpow_mul_base. ring.
Qed.
End Ev.

Lemma ok_inj {A} (a b : A) : Ok a = Ok b -> a = b.
Proof. congruence. Qed.

Section Blocks.
Context {K R T : Type} {PO : POps K R} {TO : TransOps T R K} {p : Z} {PL : PLaws K R p}.
Add Ring Rring33 : (@rlaws_th R _ (pl_R (p := p))).
Add Ring Rring34 : (@rlaws_th K _ (fld_laws (FieldLaws := pl_K (p := p)))).

(** The values of the tables of one claim: pairs (value, square) and the value of eq. *)
Definition blk : Type := list (R * R) * R.
Definition dblk : blk := ([], 0).
Definition bvals (B : blk) : list R := flat_map (fun tq => [fst tq; snd tq]) (fst B) ++ [snd B].
Definition mterm (nc : nat) (al : K) (B : blk) : R :=
  sumn nc (fun j => (fst (nth j (fst B) (0, 0)) * fst (nth j (fst B) (0, 0)) - snd (nth j (fst B) (0, 0)))
                    * emb (rpow al j)) * snd B.
Definition vterm (al : K) (B : blk) : R :=
  (fst (nth 0 (fst B) (0, 0)) * fst (nth 0 (fst B) (0, 0)) - snd (nth 0 (fst B) (0, 0))) * emb al * snd B.

Lemma bvals_length B : length (bvals B) = (2 * length (fst B) + 1)%nat.
Proof. unfold bvals. rewrite app_length, (flat_map_length _ _ 2) by auto. cbn [length]. lia. Qed.
Lemma bvals_fst B j : (j < length (fst B))%nat -> nth (j * 2) (bvals B) 0 = fst (nth j (fst B) (0, 0)).
Proof.
  intros H. unfold bvals. rewrite app_nth1 by (rewrite (flat_map_length _ _ 2) by auto; lia).
  replace (j * 2)%nat with (j * 2 + 0)%nat by lia. rewrite (nth_flat_map _ _ 2 _ _ (0, 0)); auto.
Qed.
Lemma bvals_snd B j : (j < length (fst B))%nat -> nth (j * 2 + 1) (bvals B) 0 = snd (nth j (fst B) (0, 0)).
Proof.
  intros H. unfold bvals. rewrite app_nth1 by (rewrite (flat_map_length _ _ 2) by auto; lia).
  rewrite (nth_flat_map _ _ 2 _ _ (0, 0)); auto.
Qed.
Lemma bvals_eq B n : n = length (fst B) -> nth (2 * n) (bvals B) 0 = snd B.
Proof.
  intros ->. unfold bvals. rewrite app_nth2 by (rewrite (flat_map_length _ _ 2) by auto; lia).
  rewrite (flat_map_length _ _ 2) by auto.
  replace (2 * length (fst B) - length (fst B) * 2)%nat with 0%nat by lia. reflexivity.
Qed.

Lemma set_comb_blocks nc (Bm Bv : list blk) al rc :
  Forall (fun B => length (fst B) = nc) Bm -> Forall (fun B => length (fst B) = 1%nat) Bv ->
  set_comb (length Bm) (length Bv) nc al rc (concat (map bvals (Bm ++ Bv))) =
  match rc with
  | Some rc => sumn (length Bm) (fun i => mterm nc (nth i al 0) (nth i Bm dblk) * emb (rpow rc i))
               + sumn (length Bv) (fun i => vterm (nth (length Bm + i) al 0) (nth i Bv dblk) * emb (rpow rc (length Bm + i)))
  | None => match length Bm with
            | S _ => mterm nc (nth 0 al 0) (nth 0 Bm dblk)
            | O => match length Bv with S _ => vterm (nth 0 al 0) (nth 0 Bv dblk) | O => 0 end
            end
  end.
Proof.
  intros HM HV. rewrite Forall_forall in HM, HV.
  assert (forall c, In c (map bvals Bm) -> length c = (2 * nc + 1)%nat) as LM.
  { intros c Hc. apply in_map_iff in Hc as (B & <- & HB). rewrite bvals_length, HM; auto. }
  assert (forall c, In c (map bvals Bv) -> length c = 3%nat) as LV.
  { intros c Hc. apply in_map_iff in Hc as (B & <- & HB). rewrite bvals_length, HV; auto. }
  assert (length (concat (map bvals Bm)) = (length Bm * (2 * nc + 1))%nat) as LL.
  { rewrite (concat_length_const (2 * nc + 1)), map_length by auto. lia. }
  assert (forall i j, (i < length Bm)%nat -> (j < 2 * nc + 1)%nat ->
    nth (i * (2 * nc + 1) + j) (concat (map bvals (Bm ++ Bv))) 0 = nth j (bvals (nth i Bm dblk)) 0) as NM.
  { intros i j Hi Hj. rewrite map_app, concat_app, app_nth1 by (rewrite LL; nia).
    rewrite (nth_concat_const (2 * nc + 1)) by (auto; try lia; rewrite map_length; auto).
    rewrite (nth_map_lt _ _ _ dblk) by auto. reflexivity. }
  assert (forall i j, (i < length Bv)%nat -> (j < 3)%nat ->
    nth (length Bm * (2 * nc + 1) + i * 3 + j) (concat (map bvals (Bm ++ Bv))) 0 = nth j (bvals (nth i Bv dblk)) 0) as NV.
  { intros i j Hi Hj. rewrite map_app, concat_app, app_nth2 by (rewrite LL; lia). rewrite LL.
    replace (length Bm * (2 * nc + 1) + i * 3 + j - length Bm * (2 * nc + 1))%nat with (i * 3 + j)%nat by lia.
    rewrite (nth_concat_const 3) by (auto; try lia; rewrite map_length; auto).
    rewrite (nth_map_lt _ _ _ dblk) by auto. reflexivity. }
  assert (forall i, (i < length Bm)%nat -> length (fst (nth i Bm dblk)) = nc) as LB by (intros; apply HM, nth_In; auto).
  assert (forall i, (i < length Bv)%nat -> length (fst (nth i Bv dblk)) = 1%nat) as LBV by (intros; apply HV, nth_In; auto).
  assert (forall i, (i < length Bm)%nat ->
     lsum (map (fun j => (nth (i * (2 * nc + 1) + j * 2) (concat (map bvals (Bm ++ Bv))) 0 * nth (i * (2 * nc + 1) + j * 2) (concat (map bvals (Bm ++ Bv))) 0
         - nth (i * (2 * nc + 1) + j * 2 + 1) (concat (map bvals (Bm ++ Bv))) 0)
                        * emb (rpow (nth i al 0) j)) (seq 0 nc)) * nth (i * (2 * nc + 1) + 2 * nc) (concat (map bvals (Bm ++ Bv))) 0
     = mterm nc (nth i al 0) (nth i Bm dblk)) as TM.
  { intros i Hi. rewrite lsum_map_seq. unfold mterm. rewrite NM by lia. rewrite (bvals_eq _ nc) by (rewrite LB; auto).
    f_equal. apply sumn_ext. intros j Hj. rewrite <- Nat.add_assoc, !NM by lia.
    rewrite bvals_fst, bvals_snd by (rewrite LB; auto). reflexivity. }
  assert (forall i, (i < length Bv)%nat ->
     (nth (length Bm * (2 * nc + 1) + i * 3) (concat (map bvals (Bm ++ Bv))) 0 * nth (length Bm * (2 * nc + 1) + i * 3) (concat (map bvals (Bm ++ Bv))) 0
      - nth (length Bm * (2 * nc + 1) + i * 3 + 1) (concat (map bvals (Bm ++ Bv))) 0) * emb (nth (length Bm + i) al 0)
     * nth (length Bm * (2 * nc + 1) + i * 3 + 2) (concat (map bvals (Bm ++ Bv))) 0 = vterm (nth (length Bm + i) al 0) (nth i Bv dblk)) as TV.
  { intros i Hi. unfold vterm. rewrite !NV by lia.
    assert (nth (length Bm * (2 * nc + 1) + i * 3) (concat (map bvals (Bm ++ Bv))) 0 = nth 0 (bvals (nth i Bv dblk)) 0) as E0.
    { rewrite <- NV by lia. f_equal. lia. }
    rewrite E0. rewrite (bvals_fst _ 0) by (rewrite LBV; auto).
    rewrite (bvals_snd _ 0) by (rewrite LBV; auto). pose proof (bvals_eq (nth i Bv dblk) 1 (eq_sym (LBV i Hi))) as E2. change (2 * 1)%nat with 2%nat in E2.
    rewrite E2. reflexivity. }
  unfold set_comb. cbv zeta. destruct rc as [rc|].
  - rewrite !lsum_map_seq. f_equal; apply sumn_ext; intros i Hi; cbn beta.
    + rewrite TM by auto. reflexivity.
    + rewrite TV by auto. reflexivity.
  - destruct (length Bm) eqn:EM.
    + destruct (length Bv) eqn:EV; auto. apply (TV 0%nat). lia.
    + apply (TM 0%nat). lia.
Qed.

Lemma comb_deg_scale_r n d (c : R) (f : list R -> R) : comb_deg n d f -> comb_deg n d (fun v => f v * c).
Proof. intros H. eapply comb_deg_ext; [|apply (comb_deg_scale n d c), H]. intros. cbn beta. ring. Qed.
Lemma set_comb_deg nM nm nc al rc n : comb_deg n 3 (set_comb (K := K) nM nm nc al rc).
Proof.
  assert (forall i, comb_deg n 2 (fun v : list R => nth i v 0 * nth i v 0)) as D0.
  { intros. apply (comb_deg_mul n 1 1); apply comb_deg_nth. }
  assert (forall i j, comb_deg n 2 (fun v : list R => nth i v 0 * nth i v 0 - nth j v 0)) as D1.
  { intros. apply comb_deg_sub; auto. eapply comb_deg_mono; [|apply comb_deg_nth]. lia. }
  assert (forall i, comb_deg n 3 (fun v : list R =>
      lsum (map (fun j => (nth (i * (2 * nc + 1) + j * 2) v 0 * nth (i * (2 * nc + 1) + j * 2) v 0 - nth (i * (2 * nc + 1) + j * 2 + 1) v 0)
                        * emb (rpow (nth i al 0) j)) (seq 0 nc)) * nth (i * (2 * nc + 1) + 2 * nc) v 0)) as D2.
  { intros i. apply (comb_deg_mul n 2 1); [|apply comb_deg_nth].
    eapply comb_deg_ext. { intros v _. symmetry. apply lsum_map_seq. }
    apply comb_deg_sumn. intros j Hj. apply comb_deg_scale_r. apply D1. }
  assert (forall i, comb_deg n 3 (fun v : list R =>
      (nth (nM * (2 * nc + 1) + i * 3) v 0 * nth (nM * (2 * nc + 1) + i * 3) v 0 - nth (nM * (2 * nc + 1) + i * 3 + 1) v 0)
       * emb (nth (nM + i) al 0) * nth (nM * (2 * nc + 1) + i * 3 + 2) v 0)) as D3.
  { intros i. apply (comb_deg_mul n 2 1); [|apply comb_deg_nth]. apply comb_deg_scale_r. apply D1. }
  unfold set_comb. cbv zeta. destruct rc as [rc|].
  - apply comb_deg_add.
    + eapply comb_deg_ext. { intros v _. symmetry. apply lsum_map_seq. }
      apply comb_deg_sumn. intros j Hj. apply comb_deg_scale_r. apply D2.
    + eapply comb_deg_ext. { intros v _. symmetry. apply lsum_map_seq. }
      apply comb_deg_sumn. intros j Hj. apply comb_deg_scale_r. apply D3.
  - destruct nM; [destruct nm|].
    + apply comb_deg_const.
    + apply (D3 0%nat).
    + apply (D2 0%nat).
Qed.

(** The tables of one claim, with the second table built by [q]. *)
Definition tab (nv : nat) (f : R -> R) (col : list R) : mle R := Mle nv (resize (2 ^ nv) 0 (map f col)).
Definition ctabs (nv : nat) (q : K -> R -> R) (c : list K) (beta : K) (cols : list (list R)) : list (mle R) :=
  flat_map (fun col => [tab nv (fun x => emb (evp x beta)) col; tab nv (q beta) col]) cols
  ++ [Mle (length c) (map (eqw (map emb c)) (seq 0 (2 ^ length c)))].
Definition q_sq (beta : K) (x : R) : R := emb (evp x beta) * emb (evp x beta).
Definition q_dbl (beta : K) (x : R) : R := emb (evp x (beta * beta)).

Lemma claim_mles_ok nvars nv cols ts : (1 <= nvars)%nat -> Forall (fun col => (length col <= 2 ^ nv)%nat) cols ->
  claim_mles nvars nv cols ts =
  let '(c, beta, alpha, ts') := claim_challenges nvars ts in Ok (ctabs nv q_sq c beta cols, alpha, ts').
Proof.
  intros Hn Hc. unfold claim_mles, claim_challenges.
  pose proof (get_challenges_length ts nvars) as HL.
  destruct (get_challenges ts nvars) as [c ts1]. cbn [fst] in HL.
  destruct (get_challenge ts1) as [beta ts2].
  rewrite (mapM_ok _ (fun col => [tab nv (fun x => emb (evp x beta)) col; tab nv (q_sq beta) col])).
  2:{ intros col Hcol. rewrite Forall_forall in Hc. specialize (Hc col Hcol). unfold col_mles. cbv zeta.
      unfold mle_from_vec. rewrite !map_length. apply Nat.leb_le in Hc. rewrite Hc. cbn [bind].
      rewrite map_map. unfold tab. do 2 f_equal; [|f_equal].
      - do 2 f_equal. apply map_ext. intros. rewrite ev_spec. reflexivity.
      - do 2 f_equal. apply map_ext. intros. unfold q_sq. rewrite ev_spec. reflexivity. }
  cbn [bind]. rewrite build_eq_mle by (destruct c; [cbn in HL; lia|discriminate]).
  cbn [unwrap bind]. rewrite map_length. destruct (get_challenge ts2) as [alpha ts3].
  unfold ctabs. rewrite flat_map_concat_map. reflexivity.
Qed.

Lemma claims_ok nvars nv css ts : (1 <= nvars)%nat -> Forall (Forall (fun col => (length col <= 2 ^ nv)%nat)) css ->
  mapT (fun cs ts => do x <- claim_mles nvars nv cs ts; let '(m, a, ts) := x in Ok ((m, a), ts)) css ts =
  let '(cba, ts') := cba_loop (length css) nvars ts in
  Ok (zipw (fun x cs => (ctabs nv q_sq (fst (fst x)) (snd (fst x)) cs, snd x)) cba css, ts').
Proof.
  intros Hn H. revert ts; induction H as [|cs css Hc H IH]; intros ts; [reflexivity|].
  cbn [mapT length cba_loop]. rewrite claim_mles_ok by auto.
  destruct (claim_challenges nvars ts) as [[[c beta] alpha] ts1]. cbn [bind]. rewrite IH.
  destruct (cba_loop (length css) nvars ts1) as [cba ts2]. reflexivity.
Qed.

Lemma cba_loop_wf n nvars ts : let '(cba, _) := cba_loop n nvars ts in
  length cba = n /\ Forall (fun x => length (fst (fst x)) = nvars) cba.
Proof.
  revert ts; induction n; intros ts; cbn [cba_loop]; auto.
  unfold claim_challenges. pose proof (get_challenges_length ts nvars) as HL.
  destruct (get_challenges ts nvars) as [c ts1]. destruct (get_challenge ts1) as [beta ts2].
  destruct (get_challenge ts2) as [alpha ts3]. specialize (IHn ts3).
  destruct (cba_loop n nvars ts3) as [cba ts4]. destruct IHn as [E F]. cbn [length]. auto.
Qed.

(** For monomials the squares are the evaluations at the squared point. *)
Lemma ctabs_monos nv c beta cols : Forall (Forall in_monos) cols ->
  ctabs nv q_sq c beta cols = ctabs nv q_dbl c beta cols.
Proof.
  intros H. unfold ctabs. f_equal. rewrite !flat_map_concat_map. f_equal. apply map_ext_in.
  intros col Hc. do 2 f_equal. unfold tab. f_equal. f_equal. apply map_ext_in. intros x Hx.
  unfold q_sq, q_dbl. rewrite <- (hom_mul _ emb_hom). f_equal. apply (evp_square (p := p)).
  rewrite Forall_forall in H. specialize (H col Hc). rewrite Forall_forall in H. auto.
Qed.

Lemma q_dbl_0 b : q_dbl b 0 = 0.
Proof. unfold q_dbl. rewrite (evp_0 (p := p)). apply (hom_0 _ emb_hom). Qed.
Lemma mle_get_tab nv f col i : f 0 = 0 -> (length col <= 2 ^ nv)%nat -> mle_get (tab nv f col) i = f (nth i col 0).
Proof.
  intros H0 H. unfold tab. rewrite mle_get_from_vec by (rewrite map_length; auto).
  destruct (Nat.lt_ge_cases i (length col)).
  - rewrite (nth_map_lt _ _ _ 0) by auto. auto.
  - rewrite !nth_overflow; auto. rewrite map_length. auto.
Qed.
(** The opening of one column at a base-field point. *)
Definition open (r : list K) (col : list R) : R := mle_spec (fun i => nth i col 0) (map emb r).
Definition bopen (r c : list K) (beta : K) (cols : list (list R)) : blk :=
  (map (fun col => (emb (evp (open r col) beta), emb (evp (open r col) (beta * beta)))) cols, eqp (map emb c) (map emb r)).

Lemma ctabs_at nv (r c : list K) beta cols : length r = nv -> length c = nv ->
  Forall (fun col => (length col <= 2 ^ nv)%nat) cols ->
  mles_at (ctabs nv q_dbl c beta cols) (map emb r) = bvals (bopen r c beta cols).
Proof.
  intros Hr Hc H. unfold ctabs, bvals, bopen, mles_at. cbn [fst snd]. rewrite map_app. f_equal.
  - induction H as [|col cols H _ IH]; [reflexivity|]. cbn [flat_map map app fst snd]. rewrite IH. clear IH.
    unfold open. f_equal; [|f_equal].
    + rewrite (evp_mle (p := p)), (hom_mle_spec emb emb_hom). apply mle_spec_ext. intros i _.
      rewrite (mle_get_tab nv (fun x => emb (evp x beta))); auto. rewrite (evp_0 (p := p)). apply (hom_0 _ emb_hom).
    + rewrite (evp_mle (p := p)), (hom_mle_spec emb emb_hom). apply mle_spec_ext. intros i _.
      rewrite mle_get_tab; auto. apply q_dbl_0.
  - cbn [map]. f_equal. rewrite eqp_sym by (rewrite !map_length; congruence).
    rewrite <- mle_spec_eqw by (rewrite !map_length; congruence). apply mle_spec_ext. intros b Hb.
    rewrite map_length in Hb. unfold mle_get. cbn [mle_evals].
    rewrite nth_seq_map by congruence. reflexivity.
Qed.

Lemma zipw_app {A B C} (f : A -> B -> C) l1 l2 m1 m2 : length l1 = length m1 ->
  zipw f (l1 ++ l2) (m1 ++ m2) = zipw f l1 m1 ++ zipw f l2 m2.
Proof.
  revert m1; induction l1 as [|a l1 IH]; intros [|b m1] H; try discriminate; auto.
  cbn [app zipw]. f_equal. apply IH. cbn in H. lia.
Qed.
Lemma lsum_combine {A} (g : nat * A -> R) (l : list A) d :
  lsum (map g (combine (seq 0 (length l)) l)) = sumn (length l) (fun i => g (i, nth i l d)).
Proof.
  rewrite lsum_nth, map_length, combine_length, seq_length, Nat.min_id. apply sumn_ext. intros i Hi.
  rewrite (nth_map_lt _ _ _ (0%nat, d)) by (rewrite combine_length, seq_length; lia).
  rewrite combine_nth by apply seq_length. rewrite seq_nth by auto. reflexivity.
Qed.
Lemma in_combine_seq {A} (l : list A) ie d : In ie (combine (seq 0 (length l)) l) ->
  (fst ie < length l)%nat /\ snd ie = nth (fst ie) l d.
Proof.
  intros H. apply (In_nth _ _ (0%nat, d)) in H as (i & Hi & <-).
  rewrite combine_length, seq_length, Nat.min_id in Hi.
  rewrite combine_nth by apply seq_length. cbn [fst snd]. rewrite seq_nth by auto. auto.
Qed.
Lemma lsum_zipw_seq {A} (g : nat -> A -> R) (l : list A) d :
  lsum (zipw g (seq 0 (length l)) l) = sumn (length l) (fun i => g i (nth i l d)).
Proof.
  rewrite lsum_nth, zipw_length, seq_length, Nat.min_id. apply sumn_ext. intros i Hi.
  rewrite (nth_zipw _ _ _ _ 0%nat d) by (rewrite ?seq_length; auto). rewrite seq_nth by auto. reflexivity.
Qed.

Definition dcba : list K * K * K := ([], 0, 0).
Definition e_mat (rp : list R) (x : list K * K * K) (e : list R) : R :=
  eqp (map emb (fst (fst x))) rp * sumn (length e) (fun j => ev_claim (snd (fst x)) (nth j e 0) * emb (rpow (snd x) j)).
Definition e_vec (rp : list R) (x : list K * K * K) (e : R) : R :=
  eqp (map emb (fst (fst x))) rp * emb (snd x) * ev_claim (snd (fst x)) e.
Lemma set_expected_ok (rp : list R) cba rc e0 b : length cba = (length e0 + length b)%nat ->
  Forall (fun x => length (fst (fst x)) = length rp) cba ->
  set_expected rp cba rc e0 b =
  Ok (sumn (length e0) (fun i => e_mat rp (nth i cba dcba) (nth i e0 []) * emb (rc_pow rc i))
      + sumn (length b) (fun i => e_vec rp (nth (length e0 + i) cba dcba) (nth i b 0) * emb (rc_pow rc (length e0 + i)))).
Proof.
  intros HL HF. unfold set_expected. change ([], 0, 0) with dcba.
  rewrite (mapM_ok _ (fun ie => e_mat rp (nth (fst ie) cba dcba) (snd ie) * emb (rc_pow rc (fst ie)))).
  2:{ intros ie H. apply (in_combine_seq e0 ie []) in H as [H1 H2].
      assert (length (fst (fst (nth (fst ie) cba dcba))) = length rp) as HE.
      { rewrite Forall_forall in HF. apply HF, nth_In. lia. }
      unfold e_mat. destruct (nth (fst ie) cba dcba) as [[c beta] alpha]. cbn [fst snd] in *.
      rewrite eq_eval_spec, map_length, HE, Nat.eqb_refl. cbn [unwrap bind].
      rewrite (lsum_zipw_seq _ _ 0). reflexivity. }
  cbn [bind].
  rewrite (mapM_ok _ (fun ie => e_vec rp (nth (fst ie + length e0) cba dcba) (snd ie) * emb (rc_pow rc (fst ie + length e0)))).
  2:{ intros ie H. apply (in_combine_seq b ie 0) in H as [H1 H2].
      assert (length (fst (fst (nth (fst ie + length e0) cba dcba))) = length rp) as HE.
      { rewrite Forall_forall in HF. apply HF, nth_In. lia. }
      unfold e_vec. destruct (nth (fst ie + length e0) cba dcba) as [[c beta] alpha]. cbn [fst snd] in *.
      rewrite eq_eval_spec, map_length, HE, Nat.eqb_refl. cbn [unwrap bind]. reflexivity. }
  cbn [bind]. rewrite (lsum_combine _ e0 []), (lsum_combine _ b 0). cbn [fst snd].
  do 2 f_equal. apply sumn_ext. intros i _. rewrite (Nat.add_comm i). reflexivity.
Qed.

Lemma ev_claim_spec beta (x : R) : ev_claim beta x = emb (evp x beta) * emb (evp x beta) - emb (evp x (beta * beta)).
Proof. unfold ev_claim. rewrite !ev_spec. reflexivity. Qed.

Definition all_tabs (nv : nat) (q : K -> R -> R) (cba : list (list K * K * K)) (css : list (list (list R))) : list (mle R) :=
  concat (zipw (fun x cs => ctabs nv q (fst (fst x)) (snd (fst x)) cs) cba css).

(** What the verifier recomputes from true openings is the prover's polynomial at the point. *)
Lemma set_comb_expected nv nc (cols : list (list (list R))) (vecs : list (list R)) cba rc (r : list K) :
  length r = nv -> length cba = (length cols + length vecs)%nat ->
  Forall (fun x => length (fst (fst x)) = nv) cba ->
  Forall (fun cs => length cs = nc /\ Forall (fun col => (length col <= 2 ^ nv)%nat) cs) cols ->
  Forall (fun col => (length col <= 2 ^ nv)%nat) vecs ->
  (rc <> None \/ (length cols = 1%nat /\ vecs = [])) ->
  set_expected (map emb r) cba rc (map (map (open r)) cols) (map (open r) vecs) =
  Ok (set_comb (length cols) (length vecs) nc (map snd cba) rc
        (mles_at (all_tabs nv q_dbl cba (cols ++ map (fun v => [v]) vecs)) (map emb r))).
Proof.
  intros Hr HL HF HC HV Hrc. rewrite set_expected_ok.
  2: rewrite !map_length; auto.
  2:{ eapply Forall_impl; [|exact HF]. cbn beta. intros. rewrite map_length. congruence. }
  f_equal. rewrite !map_length.
  set (c1 := firstn (length cols) cba). set (c2 := skipn (length cols) cba).
  assert (cba = c1 ++ c2) as Ecb by (symmetry; apply firstn_skipn).
  assert (length c1 = length cols) as L1 by (unfold c1; rewrite firstn_length; lia).
  assert (length c2 = length vecs) as L2 by (unfold c2; rewrite skipn_length; lia).
  set (Bm := zipw (fun x cs => bopen r (fst (fst x)) (snd (fst x)) cs) c1 cols).
  set (Bv := zipw (fun x v => bopen r (fst (fst x)) (snd (fst x)) [v]) c2 vecs).
  assert (length Bm = length cols) as LBm by (unfold Bm; rewrite zipw_length; lia).
  assert (length Bv = length vecs) as LBv by (unfold Bv; rewrite zipw_length; lia).
  assert (forall i, (i < length cols)%nat -> nth i c1 dcba = nth i cba dcba) as N1.
  { intros. rewrite Ecb, app_nth1 by lia. auto. }
  assert (forall i, (i < length vecs)%nat -> nth i c2 dcba = nth (length cols + i) cba dcba) as N2.
  { intros. rewrite Ecb, app_nth2 by lia. f_equal. lia. }
  rewrite Forall_forall in HC, HV, HF.
  assert (mles_at (all_tabs nv q_dbl cba (cols ++ map (fun v => [v]) vecs)) (map emb r) = concat (map bvals (Bm ++ Bv))) as EV.
  { unfold all_tabs. rewrite Ecb at 1. rewrite zipw_app by auto.
    unfold mles_at. rewrite concat_map. f_equal. rewrite !map_app. f_equal.
    - unfold Bm. rewrite !map_zipw. apply (list_ext []). rewrite !zipw_length; auto.
      intros i Hi. rewrite zipw_length in Hi. rewrite !(nth_zipw _ _ _ _ dcba []) by lia.
      assert (i < length cols)%nat as Hi2 by lia. destruct (HC (nth i cols []) (nth_In _ _ Hi2)) as [_ HC2].
      rewrite N1 by lia. apply ctabs_at; auto. apply HF, nth_In. lia.
    - unfold Bv. rewrite !map_zipw. apply (list_ext []). rewrite !zipw_length, map_length; auto.
      intros i Hi. rewrite zipw_length, map_length in Hi. rewrite (nth_zipw _ _ (map _ vecs) _ dcba []) by (rewrite ?map_length; lia).
      rewrite (nth_zipw _ _ vecs _ dcba []) by lia. rewrite (nth_map_lt _ _ _ []) by lia. rewrite N2 by lia.
      apply ctabs_at; auto. apply HF, nth_In. lia. constructor; auto. apply HV, nth_In. lia. }
  rewrite EV. replace (set_comb (length cols) (length vecs) nc (map snd cba) rc) with (set_comb (length Bm) (length Bv) nc (map snd cba) rc) by (rewrite LBm, LBv; reflexivity).
  rewrite set_comb_blocks.
  2:{ apply Forall_forall. intros B HB. unfold Bm in HB. apply (In_nth _ _ dblk) in HB as (i & Hi & <-).
      rewrite zipw_length in Hi. rewrite (nth_zipw _ _ _ _ dcba []) by lia. unfold bopen. cbn [fst]. rewrite map_length.
      apply HC, nth_In. lia. }
  2:{ apply Forall_forall. intros B HB. unfold Bv in HB. apply (In_nth _ _ dblk) in HB as (i & Hi & <-).
      rewrite zipw_length in Hi. rewrite (nth_zipw _ _ _ _ dcba []) by lia. reflexivity. }
  assert (forall i, (i < length cols)%nat -> e_mat (map emb r) (nth i cba dcba) (nth i (map (map (open r)) cols) [])
          = mterm nc (nth i (map snd cba) 0) (nth i Bm dblk)) as TM.
  { intros i Hi. unfold e_mat, mterm, Bm. rewrite (nth_zipw _ _ _ _ dcba []) by lia. rewrite N1 by auto.
    unfold bopen. cbn [fst snd]. rewrite (nth_map_lt _ _ _ []) by auto. rewrite map_length.
    rewrite (nth_map_lt _ _ _ dcba) by lia. destruct (HC (nth i cols []) (nth_In _ _ Hi)) as [-> _].
    match goal with |- ?a * ?x = ?y * ?a => replace (a * x) with (x * a) by ring; f_equal end.
    apply sumn_ext. intros j Hj. destruct (HC (nth i cols []) (nth_In _ _ Hi)) as [HL' _].
    rewrite !(nth_map_lt _ (nth i cols []) _ []) by lia. cbn [fst snd]. rewrite ev_claim_spec. reflexivity. }
  assert (forall i, (i < length vecs)%nat -> e_vec (map emb r) (nth (length cols + i) cba dcba) (nth i (map (open r) vecs) 0)
          = vterm (nth (length cols + i) (map snd cba) 0) (nth i Bv dblk)) as TV.
  { intros i Hi. unfold e_vec, vterm, Bv. rewrite (nth_zipw _ _ _ _ dcba []) by lia. rewrite N2 by auto.
    unfold bopen. cbn [fst snd map nth]. rewrite !(nth_map_lt _ _ _ []) by auto.
    rewrite (nth_map_lt _ _ _ dcba) by lia. rewrite ev_claim_spec. ring. }
  rewrite LBm, LBv. destruct rc as [rc|].
  - f_equal; apply sumn_ext; intros i Hi; [rewrite TM|rewrite TV]; auto.
  - destruct Hrc as [Hrc|[H1 H2]]; [congruence|]. subst vecs. rewrite H1. cbn [length sumn].
    rewrite (TM 0%nat) by lia. unfold rc_pow. rewrite rpow_one, (hom_1 _ emb_hom). ring.
Qed.

Lemma ctabs_length nv q c beta cols : length (ctabs nv q c beta cols) = (2 * length cols + 1)%nat.
Proof. unfold ctabs. rewrite app_length, (flat_map_length _ _ 2) by auto. cbn [length]. lia. Qed.
Lemma ctabs_nv nv q c beta cols : length c = nv -> Forall (fun m => mle_nv m = nv) (ctabs nv q c beta cols).
Proof.
  intros H. unfold ctabs. apply Forall_app. split; [|constructor; auto].
  induction cols; cbn [flat_map app]; auto.
Qed.
Lemma all_tabs_nv nv q cba css : Forall (fun x => length (fst (fst x)) = nv) cba ->
  Forall (fun m => mle_nv m = nv) (all_tabs nv q cba css).
Proof.
  intros H. unfold all_tabs. revert css; induction H as [|x cba H _ IH]; intros [|cs css]; cbn [zipw concat]; auto.
  apply Forall_app. split; auto. apply ctabs_nv. auto.
Qed.
Lemma all_tabs_monos nv cba css : Forall (Forall (Forall in_monos)) css ->
  all_tabs nv q_sq cba css = all_tabs nv q_dbl cba css.
Proof.
  intros H. unfold all_tabs. f_equal. revert cba; induction H as [|cs css H _ IH]; intros [|x cba]; cbn [zipw]; auto.
  rewrite (ctabs_monos nv _ _ cs H), IH. reflexivity.
Qed.
Lemma all_tabs_length nv q cba (cols : list (list (list R))) vecs nc :
  length cba = (length cols + length vecs)%nat -> Forall (fun cs => length cs = nc) cols ->
  length (all_tabs nv q cba (cols ++ map (fun v => [v]) vecs)) = (length cols * (2 * nc + 1) + length vecs * 3)%nat.
Proof.
  intros HL H. unfold all_tabs. revert cba HL; induction H as [|cs cols H _ IH]; intros cba HL.
  - cbn [app length] in *. revert cba HL; induction vecs as [|v vecs IHv]; intros [|x cba] HL; try discriminate; auto.
    cbn [map zipw concat length]. rewrite app_length, ctabs_length, IHv by (cbn in HL; lia). cbn [length]. lia.
  - destruct cba as [|x cba]; [discriminate|]. cbn [app zipw concat length]. rewrite app_length, ctabs_length, IH by (cbn in HL; lia).
    rewrite H. lia.
Qed.

(** Specification: a set whose entries are zero or unit monomials, [n] rows, [nc] columns. *)
Definition mono_set (n nc : nat) (s : mset R) : Prop :=
  match s with
  | MMat M => m_nrows M = n /\ length (m_coeffs M) = n /\ m_ncols M = nc /\
              Forall (Forall (fun vc => in_monos (fst vc))) (m_coeffs M)
  | MVec v => length v = n /\ Forall in_monos v
  end.

Lemma sm_col_length (M : smat R) j : length (sm_col M j) = length (m_coeffs M).
Proof. apply map_length. Qed.
Lemma sm_col_monos (M : smat R) j : Forall (Forall (fun vc => in_monos (fst vc))) (m_coeffs M) -> Forall in_monos (sm_col M j).
Proof.
  intros H. unfold sm_col. apply Forall_map. eapply Forall_impl; [|exact H]. cbn beta. intros row Hr. clear H.
  assert (in_monos (0 : R)) as H0 by (left; auto). revert H0. generalize (0 : R).
  induction Hr as [|vc row Hv _ IH]; intros a Ha; cbn [fold_left]; auto.
  apply IH. destruct (snd vc =? j)%nat; auto.
Qed.
Lemma set_mats_spec n nc sets : Forall (mono_set n nc) sets -> Forall (fun M => mono_set n nc (MMat M)) (set_mats sets).
Proof.
  intros H. unfold set_mats. induction H as [|s sets H _ IH]; cbn [flat_map]; auto. destruct s; cbn [app]; auto.
Qed.
Lemma set_vecs_spec n nc sets : Forall (mono_set n nc) sets -> Forall (fun v => mono_set n nc (MVec v)) (set_vecs sets).
Proof.
  intros H. unfold set_vecs. induction H as [|s sets H _ IH]; cbn [flat_map]; auto. destruct s; cbn [app]; auto.
Qed.

Lemma eval_vec_ok nv (v : list R) (pt : list R) : (length v <= 2 ^ nv)%nat -> length pt = nv ->
  eval_vec nv v pt = Ok (mle_spec (fun i => nth i v 0) pt).
Proof.
  intros H1 H2. unfold eval_vec. rewrite (proj2 (mle_from_vec_ok nv v _) (conj H1 eq_refl)). cbn [bind].
  assert (mle_evaluate (Mle nv (resize (2 ^ nv) 0 v)) pt = Some (mle_spec (fun i => nth i v 0) pt)) as ->.
  { apply mle_evaluate_spec. split; auto. apply mle_spec_ext. intros. rewrite mle_get_from_vec; auto. }
  reflexivity.
Qed.
Lemma emb_bits n b : map emb (bits n b : list K) = (bits n b : list R).
Proof.
  unfold bits. rewrite map_map. apply map_ext. intros i. unfold bitr. destruct (Nat.testbit b i).
  apply (hom_1 _ emb_hom). apply (hom_0 _ emb_hom).
Qed.
Lemma ev_claim_mono beta x : in_monos x -> ev_claim beta x = 0.
Proof.
  intros H. rewrite ev_claim_spec, <- (hom_mul _ emb_hom), (evp_square (p := p)) by auto. ring.
Qed.
Lemma nth_monos l i : Forall in_monos l -> in_monos (nth i l (0 : R)).
Proof.
  intros H. destruct (Nat.lt_ge_cases i (length l)).
  - rewrite Forall_forall in H. apply H, nth_In. auto.
  - rewrite nth_overflow by auto. left. auto.
Qed.

(** The openings that the prover sends for matrix [Mi]. *)
Definition open_mul (r : list K) (Mi : smat R) (col : list R) : R := mle_spec (mz Mi col) (map emb r).

Theorem set_check_complete nvars n nc sets M (ts : T) :
  (1 <= nvars)%nat -> nvars = ark_log2 (next_pow2 n) -> char_gt K 3 ->
  Forall (mono_set n nc) sets -> set_mats sets <> [] ->
  (2 <= length (set_mats sets))%nat \/ set_vecs sets = [] ->
  Forall (fun Mi : smat R => wf_mat n Mi /\ (length (m_coeffs Mi) <= 2 ^ nvars)%nat) M ->
  exists o ts', set_check nvars sets M ts = Ok (o, ts') /\ set_verify o ts = Ok ts' /\
    so_nvars o = nvars /\ length (so_r o) = nvars /\ length (so_sc o) = nvars /\
    so_e o = map (map (open (so_r o))) (map sm_cols (set_mats sets))
             :: map (fun Mi => map (map (open_mul (so_r o) Mi)) (map sm_cols (set_mats sets))) M /\
    so_b o = map (open (so_r o)) (set_vecs sets).
Proof.
  intros Hn En Hc HS Hne H2 HM.
  pose proof (set_mats_spec _ _ _ HS) as HSM. pose proof (set_vecs_spec _ _ _ HS) as HSV.
  destruct (set_mats sets) as [|M0 Ms] eqn:EMs; [congruence|].
  assert (n <= 2 ^ nvars)%nat as Hn2.
  { rewrite En, ark_log2_next_pow2. apply next_pow2_ge. }
  set (cols := map sm_cols (M0 :: Ms)). set (vecs := set_vecs sets).
  assert (Forall (fun cs => length cs = nc /\ Forall (fun col => length col = n /\ Forall in_monos col) cs) cols) as HC.
  { unfold cols. apply Forall_map. eapply Forall_impl; [|exact HSM]. intros M1 (_ & E2 & E3 & E4).
    unfold sm_cols. rewrite map_length, seq_length. split; auto. apply Forall_map, Forall_forall. intros j _.
    rewrite sm_col_length. split; auto. apply sm_col_monos; auto. }
  assert (Forall (fun cs => length cs = nc /\ Forall (fun col => (length col <= 2 ^ nvars)%nat) cs) cols) as HC1.
  { eapply Forall_impl; [|exact HC]. intros cs [E1 E2]. split; auto. eapply Forall_impl; [|exact E2]. cbn beta. intros a [E _]. lia. }
  assert (Forall (fun col => (length col <= 2 ^ nvars)%nat) vecs) as HV1.
  { eapply Forall_impl; [|exact HSV]. intros v [E _]. lia. }
  set (css := cols ++ map (fun v => [v]) vecs).
  assert (Forall (Forall (fun col => (length col <= 2 ^ nvars)%nat)) css) as HCS.
  { apply Forall_app. split. eapply Forall_impl; [|exact HC1]. intros a []; auto.
    apply Forall_map. eapply Forall_impl; [|exact HV1]. auto. }
  assert (Forall (Forall (Forall in_monos)) css) as HMS.
  { apply Forall_app. split. eapply Forall_impl; [|exact HC]. intros a [_ E]. eapply Forall_impl; [|exact E]. intros ? []; auto.
    apply Forall_map. eapply Forall_impl; [|exact HSV]. intros v [_ E]. auto. }
  assert (length cols = length (M0 :: Ms)) as LC by (unfold cols; apply map_length).
  unfold set_check. rewrite EMs. clear Hne.
  assert (mono_set n nc (MMat M0)) as (E1 & E2 & E3 & E4).
  { inversion HSM; auto. }
  rewrite E1, E3, <- En. fold cols vecs css. rewrite claims_ok by auto.
  pose proof (cba_loop_wf (length css) nvars ts) as HW.
  destruct (cba_loop (length css) nvars ts) as [cba ts1] eqn:ECB. destruct HW as [LCB FCB].
  assert (length css = (length cols + length vecs)%nat) as LCS by (unfold css; rewrite app_length, map_length; auto).
  cbn [bind]. rewrite !map_zipw. cbn [fst snd].
  change (concat (zipw (fun x cs => ctabs nvars q_sq (fst (fst x)) (snd (fst x)) cs) cba css)) with (all_tabs nvars q_sq cba css).
  rewrite all_tabs_monos by auto.
  assert (zipw (fun (a : list K * K * K) (_ : list (list R)) => snd a) cba css = map snd cba) as ->.
  { clear - LCB. clearbody css. revert css LCB. induction cba as [|x cba IH]; intros [|cs css] H; try discriminate; auto.
    cbn [zipw map]. f_equal. apply IH. cbn in H. lia. }
  destruct (opt_challenge (length (M0 :: Ms)) ts1) as [rc ts2] eqn:ERC.
  assert (rc <> None \/ length cols = 1%nat /\ vecs = []) as Hrc.
  { unfold opt_challenge in ERC. destruct (Nat.ltb_spec 1 (length (M0 :: Ms))).
    - destruct (get_challenge ts1). injection ERC as <- <-. left. discriminate.
    - right. unfold vecs. rewrite LC. destruct H2; [lia|]. cbn [length] in *. split; auto. lia. }
  assert (length (all_tabs nvars q_dbl cba css) = (length cols * (2 * nc + 1) + length vecs * 3)%nat) as LT.
  { apply all_tabs_length; [congruence|]. eapply Forall_impl; [|exact HC]; intros ? []; auto. }
  rewrite LT, <- LC, Nat.leb_refl, orb_true_r. cbn [guard bind].
  set (comb := set_comb (length cols) (length vecs) nc (map snd cba) rc).
  set (tabs := all_tabs nvars q_dbl cba css).
  destruct (sumcheck_complete ts2 tabs nvars 3 comb Hn ltac:(lia) Hc)
    as (proof & r & ts3 & P1 & P2 & P3 & P4).
  { apply set_comb_deg. }
  { apply all_tabs_nv. auto. }
  assert (forall r : list K, length r = nvars ->
     set_expected (map emb r) cba rc (map (map (open r)) cols) (map (open r) vecs) = Ok (comb (mles_at tabs (map emb r)))) as HX.
  { intros r' Hr'. apply set_comb_expected; auto. congruence. }
  assert (cube_sum nvars (fun pt => comb (mles_at tabs pt)) = 0) as HZ.
  { apply sumn_0. intros b Hb. rewrite <- emb_bits. apply ok_inj. rewrite <- HX by apply bits_length.
    rewrite set_expected_ok by (rewrite ?map_length, ?bits_length; auto; congruence). f_equal. rewrite !map_length.
    assert (forall col, open (bits nvars b) col = nth b col 0) as HO.
    { intros col. unfold open. rewrite emb_bits. apply (mle_spec_bits (fun i => nth i col 0)). auto. }
    rewrite !sumn_0; [ring| |].
    - intros i Hi. unfold e_vec. rewrite (nth_map_lt _ _ _ []) by auto. rewrite HO, ev_claim_mono; [ring|].
      apply nth_monos. rewrite Forall_forall in HSV. apply (HSV (nth i vecs [])), nth_In. auto.
    - intros i Hi. unfold e_mat. rewrite (nth_map_lt _ _ _ []) by auto. rewrite map_length.
      rewrite sumn_0; [ring|]. intros j Hj. rewrite (nth_map_lt _ _ _ []) by auto. rewrite HO, ev_claim_mono; [ring|].
      apply nth_monos. rewrite Forall_forall in HC. destruct (HC (nth i cols []) (nth_In _ _ Hi)) as [_ HF].
      rewrite Forall_forall in HF. apply (HF (nth j (nth i cols []) [])), nth_In. auto. }
  rewrite P1. cbn [bind].
  assert (length (map emb r : list R) = nvars) as Lr by (rewrite map_length; auto).
  rewrite (mapM_ok _ (map (open r))).
  2:{ intros cs Hcs. apply mapM_ok. intros col Hcol. apply eval_vec_ok; auto.
      rewrite Forall_forall in HC1. destruct (HC1 cs Hcs) as [_ HF]. rewrite Forall_forall in HF. auto. }
  cbn [bind].
  rewrite (mapM_ok _ (fun Mi => map (map (open_mul r Mi)) cols)).
  2:{ intros Mi HMi. apply mapM_ok. intros cs Hcs. apply mapM_ok. intros col Hcol.
      rewrite Forall_forall in HC. destruct (HC cs Hcs) as [_ HF]. rewrite Forall_forall in HF. destruct (HF col Hcol) as [HL _].
      rewrite Forall_forall in HM. destruct (HM Mi HMi) as [HW HL2].
      unfold sm_mul_vec. rewrite mat_vec_mul_ok by (rewrite HL; auto). cbn [unwrap bind].
      rewrite eval_vec_ok; auto. 2: rewrite map_length, seq_length; auto.
      f_equal. unfold open_mul. apply mle_spec_ext. intros i Hi.
      destruct (Nat.lt_ge_cases i (length (m_coeffs Mi))).
      + apply nth_seq_map. auto.
      + rewrite nth_overflow by (rewrite map_length, seq_length; auto). rewrite mz_out; auto. }
  cbn [bind].
  rewrite (mapM_ok _ (open r)).
  2:{ intros v Hv. apply eval_vec_ok; auto. rewrite Forall_forall in HV1. auto. }
  cbn [bind]. eexists _, _. split; [reflexivity|]. cbn [so_nvars so_r so_sc so_e so_b].
  repeat split; auto. unfold set_verify. cbn [so_nvars so_r so_sc so_e so_b].
  unfold index. cbn [nth_error of_option bind]. rewrite !map_length. rewrite <- LCS, ECB, LC, ERC.
  rewrite HZ in P4. rewrite P4. cbn [bind]. rewrite HX by auto. cbn [bind]. rewrite req_refl. reflexivity.
Qed.
End Blocks.
