(** What the LatticeFold+ verifier does not check: forged proofs, unbound commitments and points. *)
From Coq Require Import String List Arith Lia ZArith Bool Ring.
From Verif Require Import Prelude Alg MLE MLE_Proofs Transcript Interp Interp_Proofs Sumcheck Sumcheck_Proofs Arith Arith_Proofs Linearization_Proofs
  Rings Rings_Proofs PlusRing PlusUtils_Proofs SetCheck SetCheck_Proofs RangeCheck RangeCheck_Proofs Cm Cm_Proofs Plus Plus_Proofs.
Import ListNotations.
Local Open Scope rs_scope.

Section Forge.
Context {K R T : Type} {PO : POps K R} {TO : TransOps T R K} {p : Z} {PL : PLaws K R p}.
Add Ring Rring53 : (@rlaws_th R _ (pl_R (p := p))).

(** A sumcheck proof of [nv] rounds whose messages are zero. *)
Definition zero_sc (nv deg : nat) : list (list R) := repeat (repeat 0 (S deg)) nv.

Lemma interpolate_zero deg (c : K) : char_gt K deg -> interpolate (repeat 0 (S deg) : list R) c = Ok 0.
Proof.
  intros Hc. rewrite interpolate_lagrange.
  - f_equal. unfold lagrange. apply sumn_0. intros i _. rewrite nth_repeat. ring.
  - discriminate.
  - rewrite repeat_length, Nat.sub_succ, Nat.sub_0_r. auto.
Qed.
Lemma zero_sc_ok nv deg (ts : T) : (1 <= nv)%nat -> (1 <= deg)%nat -> char_gt K deg ->
  exists pt ts', length pt = nv /\ sc_verify ts nv deg 0 (zero_sc nv deg) = Ok (pt, 0, ts').
Proof.
  intros Hn Hd Hc. unfold sc_verify, zero_sc.
  assert (forall k ts, exists cs ts', length cs = k /\ verify_loop k ts (repeat (repeat 0 (S deg)) k) = Ok (repeat (repeat 0 (S deg)) k, cs, ts')) as HV.
  { clear. induction k as [|k IH]; intros ts. { exists [], ts. auto. }
    cbn [repeat verify_loop]. destruct (get_challenge (absorb_slice ts (0 :: repeat 0 deg))) as [c ts1].
    destruct (IH (absorb ts1 (emb c))) as (cs & ts' & L & E). cbn [repeat] in E. rewrite E. cbn [bind].
    exists (c :: cs), ts'. cbn [length]. auto. }
  destruct (HV nv (absorb (absorb ts (rofn nv)) (rofn deg))) as (cs & ts' & L & E). rewrite E. cbn [bind].
  destruct (Nat.eqb_spec nv 0); [lia|].
  assert (forall k cs, check_loop deg (repeat (repeat 0 (S deg)) k) cs 0 = Ok (0 : R)) as HC.
  { clear - PL Hd Hc. induction k as [|k IH]; intros [|c cs]; auto. cbn [repeat check_loop].
    change (0 :: repeat 0 deg) with (repeat (0 : R) (S deg)). rewrite repeat_length. replace (S deg) with (deg + 1)%nat at 1 by lia. rewrite Nat.eqb_refl. cbn [negb].
    destruct deg as [|d]; [lia|]. cbn [repeat]. rewrite (proj2 (req_true _ _)) by ring. cbn [negb].
    change (0 :: 0 :: repeat 0 d) with (repeat (0 : R) (S (S d))). rewrite interpolate_zero by auto. cbn [bind]. apply IH. }
  rewrite HC. cbn [bind]. exists cs, ts'. auto.
Qed.

(** The forged commitment-transformation proof: any commitments, any evaluation point, zeros elsewhere. *)
Definition forged_cm (P : rparams) (nv kap Mlen : nat) (coms : list (fcoms R)) (r : list K) : cm_proof K R :=
  let E := repeat (repeat (0, 0, 0, 0) (S Mlen)) (length coms) in
  CmProof (Dcom [] coms (ScOut nv r (zero_sc nv 3) [[]] []) P) (repeat (repeat 0 kap) (length coms)) (zero_sc nv 2, zero_sc nv 2) (E, E).

Lemma lsum_rows0 rc L : lsum (map (fun idx => 0 * rpow rc idx + 0 * rpow rc (idx + 1) + 0 * rpow rc (idx + 2) + 0 * rpow rc (idx + 3)) L) = (0 : R).
Proof. apply lsum_all_0. intros x Hx. apply in_map_iff in Hx as (i & <- & _). ring. Qed.
Lemma cm_expected_zero L Mlen (rc eq t0 t1 : R) m : cm_expected L Mlen rc eq t0 t1 (repeat (repeat (0, 0, 0, 0) (S Mlen)) m) = Ok 0.
Proof.
  unfold cm_expected. rewrite (mapM_ok _ (fun _ => 0)).
  - cbn [bind]. f_equal. apply lsum_all_0. intros x Hx. apply in_map_iff in Hx as (i & <- & _). reflexivity.
  - intros [l e] Hin. assert (e = repeat (0, 0, 0, 0) (S Mlen)) as -> by (apply in_combine_r, repeat_spec in Hin; auto). cbn [fst snd].
    rewrite (mapM_ok _ (fun _ => 0)).
    + cbn [bind]. rewrite (index_ok _ 0 (0, 0, 0, 0)) by (rewrite repeat_length; lia). cbn [bind]. rewrite nth_repeat. f_equal.
      rewrite lsum_all_0 by (intros x Hx; apply in_map_iff in Hx as (i & <- & _); reflexivity). ring.
    + intros i Hi. apply in_seq in Hi. rewrite (index_ok _ i (0, 0, 0, 0)) by (rewrite repeat_length; lia). cbn [bind]. rewrite nth_repeat. f_equal. ring.
Qed.
Lemma forged_sc L Mlen nv coms (r : list K) P u tc0 tc1 t0 t1 m (ts : T) : (1 <= nv)%nat -> char_gt K 3 -> length r = nv ->
  (length t0 <= 2 ^ nv)%nat -> (length t1 <= 2 ^ nv)%nat ->
  exists ro ts', cm_verify_sc L Mlen (Dcom [] coms (ScOut nv r (zero_sc nv 3) [[]] []) P) u tc0 tc1 t0 t1 (zero_sc nv 2)
                   (repeat (repeat (0, 0, 0, 0) (S Mlen)) m) ts = Ok (ro, ts').
Proof.
  intros Hn Hc Hr H0 H1. unfold cm_verify_sc. cbn [dc_out so_nvars dc_evals so_r]. destruct (get_challenge ts) as [rc ts1].
  cbn [cm_claimed length seq combine mapM bind]. unfold cm_claimed. cbn [length seq combine mapM bind lsum].
  change (lsum []) with (0 : R).
  destruct (zero_sc_ok nv 2 ts1 Hn ltac:(lia)) as (pt & ts2 & Lp & E). { intros i Hi. apply Hc. lia. }
  rewrite E. cbn [unwrap bind].
  rewrite !(eval_vec_ok (p := p)) by (rewrite ?map_length; auto). cbn [bind].
  rewrite eq_eval_spec, !map_length, Hr, Lp, Nat.eqb_refl. cbn [unwrap bind]. rewrite cm_expected_zero. cbn [bind]. rewrite req_refl.
  eauto.
Qed.

Lemma mapM_exists {A B} (f : A -> result B) l : (forall x, In x l -> exists y, f x = Ok y) -> exists ys, mapM f l = Ok ys.
Proof.
  induction l as [|a l IH]; intros H; [exists []; auto|]. destruct (H a) as [y E]; [left; auto|]. destruct IH as [ys E']; [intros; apply H; right; auto|].
  exists (y :: ys). cbn [mapM]. rewrite E. cbn [bind]. rewrite E'. auto.
Qed.
Lemma cm_x_exists (pr : cm_proof K R) s ro : (length (dc_coms (cp_dcom pr)) <= length (cp_comh pr))%nat ->
  (length (dc_coms (cp_dcom pr)) <= length (fst (cp_evals pr)))%nat -> (length (dc_coms (cp_dcom pr)) <= length (snd (cp_evals pr)))%nat ->
  exists x, cm_x pr s ro = Ok x.
Proof.
  intros H1 H2 H3. unfold cm_x.
  match goal with |- context [mapM ?f ?l] => destruct (mapM_exists f l) as [cg ->] end.
  { intros [l c] Hin. apply in_combine_l, in_seq in Hin. cbn [fst snd]. rewrite (index_ok _ l []) by lia. cbn [bind]. eauto. }
  cbn [bind]. match goal with |- context [mapM ?f ?l] => destruct (mapM_exists f l) as [vo ->] end.
  { intros l Hin. apply in_seq in Hin. rewrite !(index_ok _ l []) by lia. cbn [bind]. eauto. }
  cbn [bind]. eauto.
Qed.

Theorem forged_cm_accepted (M : list (smat R)) P nv kap coms r (ts : T) : (1 <= nv)%nat -> char_gt K 3 -> (128 / pdim < 64)%nat ->
  (1 <= rp_k P)%nat -> (1 <= rp_l P)%nat -> (2 ^ ark_log2 kap * (rp_k P * pdim) * rp_l P * pdim <= 2 ^ nv)%nat ->
  coms <> [] -> length r = nv ->
  exists x ts', cm_verify (forged_cm P nv kap (length M) coms r) M ts = Ok (x, ts').
Proof.
  intros Hn Hc Hd Hk Hl Hs Hne Hr. unfold cm_verify, forged_cm. cbn [cp_dcom cp_comh cp_sc cp_evals dc_params dc_out so_e fst snd].
  rewrite repeat_length.
  assert (exists ts1, rg_verify (Dcom [] coms (ScOut nv r (zero_sc nv 3) [[]] []) P) ts = Ok ts1) as [ts1 ->].
  { unfold rg_verify, set_verify. cbn [dc_out so_e so_b so_nvars so_sc dc_evals]. change (index [[]] 0) with (Ok (@nil (list R))). cbn [bind length Nat.add cba_loop].
    unfold opt_challenge. cbn [Nat.ltb Nat.leb]. destruct (zero_sc_ok nv 3 ts Hn ltac:(lia) Hc) as (pt & ts1 & Lp & E). rewrite E. cbn [bind].
    unfold set_expected. cbn [length seq combine mapM bind]. change (lsum []) with (0 : R). rewrite (proj2 (req_true _ _)) by ring. cbn [unwrap bind length seq combine mapM].
    eauto. }
  cbn [unwrap bind]. destruct (cm_challenges_ok (rp_k P) ts1 Hd) as (s & s' & ts2 & E2 & L2 & [L3 L4]). rewrite E2. cbn [bind].
  destruct coms as [|c0 coms']; [congruence|]. set (coms := c0 :: coms') in *. set (comh := repeat (repeat (0 : R) kap) (length coms)).
  unfold c_challenges. assert (index comh 0 = Ok (repeat 0 kap)) as -> by reflexivity. cbn [bind]. rewrite repeat_length.
  pose proof (get_challenges_length (absorb_comh comh ts2) (ark_log2 kap)) as G1. destruct (get_challenges (absorb_comh comh ts2) (ark_log2 kap)) as [d0 ts3].
  pose proof (get_challenges_length ts3 (ark_log2 kap)) as G2. destruct (get_challenges ts3 (ark_log2 kap)) as [d1 ts4]. cbn [fst] in *. cbn [bind].
  assert (length (concat s') = (rp_k P * pdim)%nat) as LS.
  { rewrite <- L3. clear - L4. induction L4 as [|a s' Ha _ IH]; auto. cbn [concat length]. rewrite app_length, IH, Ha. lia. }
  assert (forall d : list K, length d = ark_log2 kap -> (length (calculate_t_z (map emb d) (concat s') (dp_pows (rp_l P)) x_pows : list R) <= 2 ^ nv)%nat) as LT.
  { intros d Ed. rewrite (t_length (p := p)), map_length, LS, Ed; auto. rewrite LS. pose proof (pdim_pos (p := p)). nia. }
  match goal with |- context [cm_verify_sc ?L ?m ?dc ?u ?a ?b ?t0 ?t1 ?z ?e ?ts] =>
    destruct (forged_sc L m nv coms r P u a b t0 t1 (length coms) ts Hn Hc Hr (LT _ G1) (LT _ G2)) as (ro0 & ts5 & E5) end.
  rewrite E5. cbn [bind].
  match goal with |- context [cm_verify_sc ?L ?m ?dc ?u ?a ?b ?t0 ?t1 ?z ?e ?ts] =>
    destruct (forged_sc L m nv coms r P u a b t0 t1 (length coms) ts Hn Hc Hr (LT _ G1) (LT _ G2)) as (ro1 & ts6 & E6) end.
  rewrite E6. cbn [bind].
  match goal with |- context [cm_x ?pr ?s ?ro] => destruct (cm_x_exists pr s ro) as [x ->] end.
  1-3: cbn [cp_dcom dc_coms cp_comh cp_evals fst snd]; unfold comh; rewrite ?repeat_length; auto.
  cbn [bind]. eauto.
Qed.

(** A linearization proof of zeros. *)
Definition forged_lin (nv : nat) (ro : list R) : r1cs_proof R := R1csProof (zero_sc nv 3) nv ro 0 0 0 0.
Lemma forged_lin_accepted nv ro (ts : T) : (1 <= nv)%nat -> char_gt K 3 -> exists ts', lin_verify (forged_lin nv ro) ts = Ok (true, ts').
Proof.
  intros Hn Hc. unfold lin_verify, forged_lin. cbn [rp_nvars rp_sc rp_v rp_va rp_vb rp_vc].
  pose proof (get_challenges_length ts nv) as G. destruct (get_challenges ts nv) as [r ts1]. cbn [fst] in G.
  destruct (zero_sc_ok nv 3 ts1 Hn ltac:(lia) Hc) as (pt & ts2 & Lp & E). rewrite E. cbn [unwrap bind].
  rewrite eq_eval_spec, !map_length, G, Lp, Nat.eqb_refl. cbn [unwrap bind]. rewrite (proj2 (req_true _ _)) by ring. eauto.
Qed.
Definition forged_plus (M : list (smat R)) (P : rparams) (nv kap : nat) (x : linb2x R) (coms : list (fcoms R)) (r : list K) (ros : list (list R)) : plus_proof K R :=
  PlusProof x (map (forged_lin nv) ros) (forged_cm P nv kap (length M) coms r)
    (DecProof (l2_cm x) (repeat 0 (length (l2_cm x))) (l2_vo x) (repeat (0, 0) (length (l2_vo x)))).
Lemma recompose_hd (a B : R) : recompose [a; 0] B = a.
Proof. unfold recompose. cbn [fold_right fold_left rev app]. ring. Qed.
Theorem forged_plus_accepted (M : list (smat R)) pp P nv kap x coms r ros (ts : T) : (1 <= nv)%nat -> char_gt K 3 -> (128 / pdim < 64)%nat ->
  (1 <= rp_k P)%nat -> (1 <= rp_l P)%nat -> (2 ^ ark_log2 kap * (rp_k P * pdim) * rp_l P * pdim <= 2 ^ nv)%nat ->
  coms <> [] -> length r = nv ->
  exists ts', plus_verify M pp (forged_plus M P nv kap x coms r ros) ts = Ok (true, ts').
Proof.
  intros Hn Hc Hd Hk Hl Hs Hne Hr. unfold plus_verify, forged_plus. cbn [pp_l pp_cm pp_d pp_x].
  assert (forall ts, exists bs ts1, mapT lin_verify (map (forged_lin nv) ros) ts = Ok (bs, ts1)) as H.
  { clear - PL Hn Hc. induction ros as [|ro ros IH]; intros ts. { exists [], ts. auto. }
    cbn [map mapT]. destruct (forged_lin_accepted nv ro ts Hn Hc) as [ts1 E]. rewrite E. cbn [bind]. destruct (IH ts1) as (bs & ts2 & E2). rewrite E2. cbn [bind]. eauto. }
  destruct (H ts) as (bs & ts1 & E1). rewrite E1. cbn [bind].
  destruct (forged_cm_accepted M P nv kap coms r ts1 Hn Hc Hd Hk Hl Hs Hne Hr) as (x' & ts2 & E2). rewrite E2. cbn [unwrap bind].
  unfold dec_verify. cbn [dp_C0 dp_C1 dp_v0 dp_v1].
  assert (zipw (fun a b => recompose [a; b] (rofZ (pl_B pp))) (l2_cm x) (repeat 0 (length (l2_cm x))) = l2_cm x) as ->.
  { clear - PL. induction (l2_cm x) as [|a l IH]; auto. cbn [length repeat zipw]. rewrite recompose_hd. f_equal. auto. }
  assert (zipw (fun a b => (recompose [fst a; fst b] (rofZ (pl_B pp)), recompose [snd a; snd b] (rofZ (pl_B pp)))) (l2_vo x) (repeat (0, 0) (length (l2_vo x))) = l2_vo x) as ->.
  { clear - PL. induction (l2_vo x) as [|[a b] l IH]; auto. cbn [length repeat zipw fst snd]. rewrite !recompose_hd. f_equal. auto. }
  rewrite leqb_refl, (leqb2_refl (p := p)). cbn [guard bind]. eauto.
Qed.

(** Replacing the commitments of an accepted proof. *)
Definition with_coms (coms : list (fcoms R)) (pr : cm_proof K R) : cm_proof K R :=
  CmProof (Dcom (dc_evals (cp_dcom pr)) coms (dc_out (cp_dcom pr)) (dc_params (cp_dcom pr))) (cp_comh pr) (cp_sc pr) (cp_evals pr).
Lemma cm_x_lengths (pr : cm_proof K R) s ro x : cm_x pr s ro = Ok x ->
  (length (dc_coms (cp_dcom pr)) <= length (cp_comh pr))%nat /\
  (length (dc_coms (cp_dcom pr)) <= length (fst (cp_evals pr)))%nat /\ (length (dc_coms (cp_dcom pr)) <= length (snd (cp_evals pr)))%nat.
Proof.
  unfold cm_x. intros H. apply bind_ok_inv in H as (cg & H1 & H). apply bind_ok_inv in H as (vo & H2 & _).
  assert (forall {A} (l : list A) n, (forall i, (i < n)%nat -> exists y, index l i = Ok y) -> (n <= length l)%nat) as HI.
  { intros A l n Hi. destruct n as [|n]; [lia|]. destruct (Hi n ltac:(lia)) as [y Hy]. unfold index in Hy.
    destruct (nth_error l n) eqn:E; [|discriminate Hy]. apply nth_error_Some. congruence. }
  assert (forall {A B} (f : A -> result B) l ys a, mapM f l = Ok ys -> In a l -> exists y, f a = Ok y) as HM.
  { clear. intros A B f l. induction l as [|b l IH]; intros ys a H Hin; [destruct Hin|]. cbn [mapM] in H.
    apply bind_ok_inv in H as (y & E & H). apply bind_ok_inv in H as (ys' & E' & _). destruct Hin as [->|Hin]; eauto. }
  split; [|split]; apply HI; intros i Hi.
  - destruct (nth_error (dc_coms (cp_dcom pr)) i) as [c|] eqn:Ec; [|apply nth_error_None in Ec; lia].
    destruct (HM _ _ _ _ _ (i, c) H1) as [y Hy].
    { apply nth_error_In with i. clear - Hi Ec. 
      assert (forall a l, nth_error (combine (seq a (length l)) l) i = option_map (fun c => (a + i, c)%nat) (nth_error l i) :> option (nat * fcoms R)) as G.
      { intros a l. revert a. clear. revert l. induction i as [|i IH]; intros [|x l] a; cbn [length seq combine nth_error option_map]; auto.
        - rewrite Nat.add_0_r. auto.
        - rewrite IH. rewrite Nat.add_succ_r. auto. }
      rewrite G, Ec. reflexivity. }
    cbn [fst snd] in Hy. apply bind_ok_inv in Hy as (z & E & _). eauto.
  - destruct (HM _ _ _ _ _ i H2) as [y Hy]; [apply in_seq; lia|]. apply bind_ok_inv in Hy as (z & E & _). eauto.
  - destruct (HM _ _ _ _ _ i H2) as [y Hy]; [apply in_seq; lia|]. apply bind_ok_inv in Hy as (z & E & Hy). apply bind_ok_inv in Hy as (z' & E' & _). eauto.
Qed.
Theorem coms_unbound_cm (M : list (smat R)) pr coms x (ts ts' : T) : cm_verify pr M ts = Ok (x, ts') -> length coms = length (dc_coms (cp_dcom pr)) ->
  exists x', cm_verify (with_coms coms pr) M ts = Ok (x', ts') /\ cx_ro x' = cx_ro x /\ cx_vo x' = cx_vo x.
Proof.
  intros H Hlen. unfold cm_verify in *. cbn [with_coms cp_dcom dc_params cp_evals cp_comh cp_sc dc_out].
  apply bind_ok_inv in H as (ts1 & E1 & H). match goal with |- context [rg_verify ?d ts] => change (rg_verify d ts) with (rg_verify (cp_dcom pr) ts) end. rewrite E1. cbn [bind].
  apply bind_ok_inv in H as ([[s s'] ts2] & E2 & H). rewrite E2. cbn [bind].
  apply bind_ok_inv in H as ([[c0 c1] ts3] & E3 & H). rewrite E3. cbn [bind].
  apply bind_ok_inv in H as ([ro0 ts4] & E4 & H).
  match type of E4 with ?t = _ => match goal with |- context [cm_verify_sc ?L ?m ?dc ?u ?a ?b ?t0 ?t1 ?z ?e ?ts] => change (cm_verify_sc L m dc u a b t0 t1 z e ts) with t end end.
  rewrite E4. cbn [bind]. apply bind_ok_inv in H as ([ro1 ts5] & E5 & H).
  match type of E5 with ?t = _ => match goal with |- context [cm_verify_sc ?L ?m ?dc ?u ?a ?b ?t0 ?t1 ?z ?e ?ts] => change (cm_verify_sc L m dc u a b t0 t1 z e ts) with t end end.
  rewrite E5. cbn [bind]. apply bind_ok_inv in H as (x1 & E6 & H). apply ok_inj in H. injection H as -> ->.
  destruct (cm_x_lengths _ _ _ _ E6) as (L1 & L2 & L3).
  destruct (cm_x_exists (with_coms coms pr) s (combine ro0 ro1)) as [x' E].
  1-3: cbn [with_coms cp_dcom dc_coms cp_comh cp_evals]; rewrite Hlen; auto.
  rewrite E. cbn [bind]. exists x'. split; [reflexivity|].
  unfold cm_x in E, E6. cbn [with_coms cp_dcom dc_coms cp_comh cp_evals] in E. rewrite Hlen in E.
  apply bind_ok_inv in E as (cg & _ & E). apply bind_ok_inv in E as (vo & V & E). apply ok_inj in E. subst x'.
  apply bind_ok_inv in E6 as (cg' & _ & E6). apply bind_ok_inv in E6 as (vo' & V' & E6). apply ok_inj in E6. subst x.
  cbn [cx_ro cx_vo]. split; auto. rewrite V in V'. apply ok_inj in V'. auto.
Qed.
Theorem coms_unbound_plus (M : list (smat R)) pp pr coms (ts ts' : T) : plus_verify M pp pr ts = Ok (true, ts') ->
  length coms = length (dc_coms (cp_dcom (pp_cm pr))) ->
  plus_verify M pp (PlusProof (pp_x pr) (pp_l pr) (with_coms coms (pp_cm pr)) (pp_d pr)) ts = Ok (true, ts').
Proof.
  intros H Hlen. unfold plus_verify in *. cbn [pp_l pp_cm pp_d pp_x].
  apply bind_ok_inv in H as ([bs ts1] & E1 & H). rewrite E1. cbn [bind].
  apply bind_ok_inv in H as ([x ts2] & E2 & H). destruct (cm_verify (pp_cm pr) M ts1) as [[y ts3]|e|] eqn:E; cbn [unwrap] in E2; try discriminate E2.
  apply ok_inj in E2. injection E2 as -> ->. destruct (coms_unbound_cm M _ coms x ts1 ts2 E Hlen) as (x' & E' & _). rewrite E'. cbn [unwrap bind]. exact H.
Qed.

(** The folded instance in the proof is not tied to the one the verifier derives: with the same rest of the proof, any
    claim about the folded instance is accepted. *)
Theorem folded_unbound (M : list (smat R)) pp pr x (ts ts' : T) : plus_verify M pp pr ts = Ok (true, ts') ->
  plus_verify M pp (PlusProof x (pp_l pr) (pp_cm pr) (DecProof (l2_cm x) (repeat 0 (length (l2_cm x))) (l2_vo x) (repeat (0, 0) (length (l2_vo x))))) ts = Ok (true, ts').
Proof.
  intros H. unfold plus_verify in *. cbn [pp_l pp_cm pp_d pp_x].
  apply bind_ok_inv in H as ([bs ts1] & E1 & H). rewrite E1. cbn [bind].
  apply bind_ok_inv in H as ([y ts2] & E2 & H). rewrite E2. cbn [bind].
  apply bind_ok_inv in H as ([] & _ & H). unfold dec_verify. cbn [dp_C0 dp_C1 dp_v0 dp_v1].
  assert (zipw (fun a b => recompose [a; b] (rofZ (pl_B pp))) (l2_cm x) (repeat 0 (length (l2_cm x))) = l2_cm x) as ->.
  { clear - PL. induction (l2_cm x) as [|a l IH]; auto. cbn [length repeat zipw]. rewrite recompose_hd. f_equal. auto. }
  assert (zipw (fun a b => (recompose [fst a; fst b] (rofZ (pl_B pp)), recompose [snd a; snd b] (rofZ (pl_B pp)))) (l2_vo x) (repeat (0, 0) (length (l2_vo x))) = l2_vo x) as ->.
  { clear - PL. induction (l2_vo x) as [|[a b] l IH]; auto. cbn [length repeat zipw fst snd]. rewrite !recompose_hd. f_equal. auto. }
  rewrite leqb_refl, (leqb2_refl (p := p)). cbn [guard bind]. exact H.
Qed.

(** The accumulated claims do not enter the prover's folding: only the witnesses do. *)
Lemma mlin_claims lins lins' pp A M (ts : T) : map lb_f lins = map lb_f lins' -> mlin lins pp A M ts = mlin lins' pp A M ts.
Proof.
  intros H. assert (forall l, mapM (fun l => from_f (lb_f l) A (pl_dec pp)) l = mapM (fun f => from_f f A (pl_dec pp)) (map lb_f l)) as G.
  { clear. induction l as [|a l IH]; auto. cbn [mapM map]. rewrite IH. auto. }
  unfold mlin. destruct lins as [|l0 lins], lins' as [|l0' lins']; try discriminate H; auto.
  rewrite !G, H. cbn [map] in H. injection H as H0 _. rewrite H0. reflexivity.
Qed.
Theorem plus_claims acc acc' A M pp comps (ts : T) : map lb_f acc = map lb_f acc' -> plus_prove acc A M pp comps ts = plus_prove acc' A M pp comps ts.
Proof.
  intros H. unfold plus_prove. match goal with |- context [mapT ?f comps ts] => destruct (mapT f comps ts) as [[ls ts1]|e|] end; auto. cbn [bind].
  rewrite (mlin_claims (acc ++ map fst ls) (acc' ++ map fst ls)) by (rewrite !map_app; congruence). reflexivity.
Qed.
End Forge.
