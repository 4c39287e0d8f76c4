(** The evaluations [eval.b] of the range check enter the batched claims of cm.rs but not the transcript: a prover may choose them after the
    batching challenges. *)
From Coq Require Import String List Arith Lia ZArith Bool Ring.
From Verif Require Import Prelude Alg Poly MLE MLE_Proofs Transcript Sumcheck Sumcheck_Proofs CombDeg Arith Arith_Proofs Balanced
  Linearization_Proofs Folding_Sound Rings Rings_Proofs PlusRing PlusUtils_Proofs SetCheck SetCheck_Proofs SetCheck_Sound
  RangeCheck RangeCheck_Proofs RangeCheck_Sound Cm Cm_Proofs Plus Plus_Sound Plus_Range Zippel Counting SoundErr PlusErr CmErr.
Import ListNotations.
Local Open Scope rs_scope.

Section L.
Context {K R T : Type} {PO : POps K R} {TO : TransOps T R K} {p : Z} {PL : PLaws K R p}.
Add Ring Rring103 : (@rlaws_th R _ (pl_R (p := p))).
Add Ring Kring103 : (@rlaws_th K _ (fld_laws (FieldLaws := pl_K (p := p)))).

(** ** The point of the set check is the one the prover stores *)
Lemma loops_same k d comb : forall (ts : T) mles msgs cs ts' ms' cs' ts'',
  prove_loop k d comb ts mles = Ok (msgs, cs, ts') -> verify_loop k ts msgs = Ok (ms', cs', ts'') -> cs' = cs.
Proof.
  induction k as [|k IH]; intros ts mles msgs cs ts' ms' cs' ts'' HP HV; cbn [prove_loop verify_loop] in HP, HV.
  - apply ok_inj in HP, HV. injection HP as _ <- _. injection HV as _ <- _. auto.
  - apply bind_ok_inv in HP as (msg & _ & HP). destruct (get_challenge (absorb_slice ts msg)) as [c t1] eqn:Ec.
    apply bind_ok_inv in HP as (mles' & _ & HP). apply bind_ok_inv in HP as ([[ms cs0] t2] & HP1 & HP). apply ok_inj in HP. injection HP as <- <- <-.
    rewrite Ec in HV. apply bind_ok_inv in HV as ([[m2 c2] t3] & HV1 & HV). apply ok_inj in HV. injection HV as _ <- _. f_equal. eapply IH; eauto.
Qed.
Lemma sc_same n d comb (ts : T) mles pf r ts' claimed point e ts'' :
  sc_prove ts mles n d comb = Ok (pf, r, ts') -> sc_verify ts n d claimed pf = Ok (point, e, ts'') -> point = r.
Proof.
  unfold sc_prove, sc_verify. cbv zeta. destruct (n =? 0)%nat; [discriminate|]. intros HP HV. apply bind_ok_inv in HV as ([[ms cs] t2] & HV1 & HV).
  apply bind_ok_inv in HV as (e' & _ & HV). apply ok_inj in HV. injection HV as <- _ _. eapply loops_same; eauto.
Qed.
Lemma set_check_point nvars n nc sets M (ts ts' : T) o m w : (1 <= nvars)%nat -> nvars = ark_log2 (next_pow2 n) -> Forall (mono_set n nc) sets ->
  m = (length (set_mats sets) + length (set_vecs sets))%nat -> w = length (set_mats sets) ->
  set_check nvars sets M ts = Ok (o, ts') ->
  let '(cba, ts1) := cba_loop m nvars ts in let '(rc, ts2) := opt_challenge w ts1 in
  forall point v ts3, sc_verify ts2 nvars 3 0 (so_sc o) = Ok (point, v, ts3) -> so_r o = point.
Proof.
  intros Hn En HS -> -> H. pose proof (set_mats_spec _ _ _ HS) as HSM. pose proof (set_vecs_spec _ _ _ HS) as HSV.
  unfold set_check in H. destruct (set_mats sets) as [|M0 Ms]; [discriminate|].
  assert (n <= 2 ^ nvars)%nat as Hn2 by (rewrite En, ark_log2_next_pow2; apply next_pow2_ge).
  assert (mono_set n nc (MMat M0)) as (E1 & E2 & E3 & E4) by (inversion HSM; auto).
  rewrite E1, <- En in H. set (cols := map sm_cols (M0 :: Ms)) in H. set (vecs := set_vecs sets) in *.
  assert (length (cols ++ map (fun v => [v]) vecs) = (length (M0 :: Ms) + length vecs)%nat) as LCS by (unfold cols; rewrite app_length, !map_length; auto).
  rewrite claims_ok in H; auto.
  2:{ apply Forall_app. split.
      - unfold cols. apply Forall_map. eapply Forall_impl; [|exact HSM]. intros M1 (_ & F2 & F3 & F4). unfold sm_cols. apply Forall_map, Forall_forall. intros j _.
        rewrite sm_col_length. lia.
      - apply Forall_map. eapply Forall_impl; [|exact HSV]. intros v [F _]. apply Forall_cons; [lia|apply Forall_nil]. }
  rewrite LCS in H. destruct (cba_loop (length (M0 :: Ms) + length vecs) nvars ts) as [cba ts1]. cbn [bind] in H.
  destruct (opt_challenge (length (M0 :: Ms)) ts1) as [rc ts2]. apply bind_ok_inv in H as (? & _ & H). apply bind_ok_inv in H as ([[pf r] ts3] & HP & H).
  apply bind_ok_inv in H as (e0 & _ & H). apply bind_ok_inv in H as (es & _ & H). apply bind_ok_inv in H as (b & _ & H). apply ok_inj in H. injection H as <- _.
  cbn [so_sc so_r]. intros point v ts4 HV. symmetry. eapply sc_same; eauto.
Qed.

(** ** The claimed sum *)
Definition ev_len (m : nat) (ev : dcom_evals K R) : Prop := length (de_a ev) = m /\ length (de_b ev) = m /\ length (de_c ev) = m.
Lemma claimed_val L Ml (rc : R) evals u tc0 tc1 : let w := (4 + 4 * Ml)%nat in length evals = L -> Forall (ev_len (1 + Ml)) evals ->
  length u = L -> Forall (fun x => length x = (1 + Ml)%nat) u -> length tc0 = L -> length tc1 = L ->
  cm_claimed L Ml rc evals u tc0 tc1 = Ok (sumn L (fun l => sumn (1 + Ml) (fun i => let ev := nth l evals ev0 in
      emb (nth i (de_a ev) 0) * rpow rc (l * w + 4 * i) + nth i (de_b ev) 0 * rpow rc (l * w + 4 * i + 1) + nth i (de_c ev) 0 * rpow rc (l * w + 4 * i + 2)
      + nth i (nth l u []) 0 * rpow rc (l * w + 4 * i + 3)) + nth l tc0 0 * rpow rc (L * w) + nth l tc1 0 * rpow rc (L * w + 1))).
Proof.
  intros w HL HF Lu Fu L0 L1. unfold cm_claimed. fold w.
  set (V := fun l => sumn (1 + Ml) _ + _ + _).
  rewrite (mapM_ok _ (fun le => V (fst le))).
  - cbn [bind]. f_equal. rewrite (lsum_combine (p := p) _ _ ev0). cbn [fst]. rewrite HL. reflexivity.
  - intros [l ev] Hle. apply (in_combine_seq _ _ ev0) in Hle as [Hl Ee]. cbn [fst snd] in *. rewrite Forall_forall in HF, Fu.
    destruct (HF ev) as (La & Lb & Lc); [rewrite Ee; apply nth_In; auto|]. assert (length (nth l u []) = (1 + Ml)%nat) as Ll by (apply Fu, nth_In; lia).
    rewrite (mapM_ok _ (fun i => emb (nth i (de_a ev) 0) * rpow rc (l * w + 4 * i) + nth i (de_b ev) 0 * rpow rc (l * w + 4 * i + 1) + nth i (de_c ev) 0 * rpow rc (l * w + 4 * i + 2)
      + nth i (nth l u []) 0 * rpow rc (l * w + 4 * i + 3))).
    + cbn [bind]. rewrite !(index_ok _ _ 0) by lia. cbn [bind]. rewrite lsum_map_seq. unfold V. rewrite Ee. reflexivity.
    + intros i Hi. apply in_seq in Hi. rewrite !(index_ok _ _ 0) by lia. cbn [bind]. rewrite (index_ok _ _ []) by lia. cbn [bind]. rewrite (index_ok _ _ 0) by lia. reflexivity.
Qed.
(** ** Two evaluations chosen late *)
Definition late (D : R * R) (i : nat) : R := match i with 1%nat => fst D | 2%nat => snd D | _ => 0 end.
Definition shift_b (D : R * R) (b : list R) : list R := map (fun i => nth i b 0 + late D i) (seq 0 (length b)).
Definition patch (D : R * R) (ev : dcom_evals K R) : dcom_evals K R := DcomEvals (de_v ev) (de_a ev) (shift_b D (de_b ev)) (de_c ev).
Lemma shift_b_length D b : length (shift_b D b) = length b.
Proof. unfold shift_b. rewrite map_length, seq_length. auto. Qed.
Lemma late_sum D m (f : nat -> R) : (2 <= m)%nat -> sumn (1 + m) (fun i => late D i * f i) = fst D * f 1%nat + snd D * f 2%nat.
Proof.
  intros Hm. replace (1 + m)%nat with (3 + (m - 2))%nat by lia. rewrite sumn_split. cbn [sumn late].
  rewrite (sumn_0 (m - 2)); [ring|]. intros i _. cbn [Nat.add late]. ring.
Qed.
Definition c_gap (m : nat) (rc : R) (ev ev' : dcom_evals K R) : R := sumn (1 + m) (fun i => (nth i (de_c ev') 0 - nth i (de_c ev) 0) * rpow rc (4 * i + 2)).
Lemma claimed_patch L Ml (rc : R) (Ds : list (R * R)) evs evs' u tc0 tc1 : (2 <= Ml)%nat -> length evs = L -> length evs' = L -> length Ds = L ->
  Forall (ev_len (1 + Ml)) evs -> Forall (ev_len (1 + Ml)) evs' ->
  length u = L -> Forall (fun x => length x = (1 + Ml)%nat) u -> length tc0 = L -> length tc1 = L ->
  (forall l, (l < L)%nat -> let D := nth l Ds (0, 0) in let ev := nth l evs ev0 in let ev' := nth l evs' ev0 in
    de_a ev = de_a ev' /\ de_b ev = de_b ev' /\ fst D * rpow rc 5 + snd D * rpow rc 9 = c_gap Ml rc ev ev') ->
  cm_claimed L Ml rc (zipw patch Ds evs) u tc0 tc1 = cm_claimed L Ml rc evs' u tc0 tc1.
Proof.
  intros Hm Le Le' LD HF HF' Lu Fu L0 L1 H.
  assert (Forall (ev_len (1 + Ml)) (zipw patch Ds evs)) as HP.
  { apply Forall_nth. intros l d Hl. rewrite zipw_length in Hl. rewrite (nth_zipw _ _ _ _ (0, 0) ev0) by lia. rewrite Forall_forall in HF.
    destruct (HF (nth l evs ev0)) as (A & B & C); [apply nth_In; lia|]. unfold patch, ev_len. cbn [de_a de_b de_c]. rewrite shift_b_length. auto. }
  rewrite !claimed_val by (auto; rewrite zipw_length; lia). f_equal. apply sumn_ext. intros l Hl. f_equal. f_equal. cbv zeta.
  rewrite (nth_zipw _ _ _ _ (0, 0) ev0) by lia. destruct (H l Hl) as (Ea & Eb & Eg). cbv zeta in Ea, Eb, Eg. rewrite Forall_forall in HF.
  destruct (HF (nth l evs ev0)) as (A & B & C); [apply nth_In; lia|].
  set (ev := nth l evs ev0) in *. set (ev' := nth l evs' ev0) in *. set (D := nth l Ds (0, 0)) in *. cbn [patch de_a de_b de_c]. rewrite <- Ea, <- Eb.
  set (w := (l * (4 + 4 * Ml))%nat).
  set (G := fun i => emb (nth i (de_a ev) 0) * rpow rc (w + 4 * i) + nth i (de_b ev) 0 * rpow rc (w + 4 * i + 1) + nth i (de_c ev) 0 * rpow rc (w + 4 * i + 2)
      + nth i (nth l u []) 0 * rpow rc (w + 4 * i + 3)).
  transitivity (sumn (1 + Ml) G + rpow rc w * sumn (1 + Ml) (fun i => late D i * rpow rc (4 * i + 1))).
  - rewrite <- sumn_mul_l, <- sumn_add. apply sumn_ext. intros i Hi. unfold G, shift_b. rewrite nth_seq_map by lia.
    rewrite <- (Nat.add_assoc w (4 * i) 1), (rpow_add rc w (4 * i + 1)). ring.
  - rewrite late_sum by auto. change (4 * 1 + 1)%nat with 5%nat. change (4 * 2 + 1)%nat with 9%nat. rewrite Eg. unfold c_gap. rewrite <- sumn_mul_l, <- sumn_add. apply sumn_ext. intros i Hi. unfold G.
    rewrite <- (Nat.add_assoc w (4 * i) 2), (rpow_add rc w (4 * i + 2)). ring.
Qed.
(** The two equations have a solution, a combination of their right hand sides over the base field. *)
Definition late_coeffs (rc0 rc1 : K) : (K * K) * (K * K) :=
  let i0 := finv (rpow rc0 5) in let i1 := finv (rpow rc1 5) in let e := finv (rpow rc1 4 - rpow rc0 4) in
  ((i0 + rpow rc0 4 * e * i0, - (rpow rc0 4 * e * i1)), (- (e * i0), e * i1)).
Definition late_D (rc0 rc1 : K) (q0 q1 : R) : R * R :=
  let '((a, b), (c, d)) := late_coeffs rc0 rc1 in (emb a * q0 + emb b * q1, emb c * q0 + emb d * q1).
Lemma late_solve (rc0 rc1 : K) : rc0 <> 0 -> rc1 <> 0 -> rpow rc0 4 <> rpow rc1 4 -> forall q0 q1 : R, let D := late_D rc0 rc1 q0 q1 in
  fst D * rpow (emb rc0) 5 + snd D * rpow (emb rc0) 9 = q0 /\ fst D * rpow (emb rc1) 5 + snd D * rpow (emb rc1) 9 = q1.
Proof.
  intros H0 H1 H4.
  assert (forall x : K, x <> 0 -> forall n, rpow x n <> 0) as Hp.
  { intros x Hx n. induction n as [|n IH]; cbn [rpow]; [apply f_1_neq_0|]. intros E0. destruct (fmul_eq_0 _ _ E0); auto. }
  set (i0 := finv (rpow rc0 5)). set (i1 := finv (rpow rc1 5)). set (e := finv (rpow rc1 4 - rpow rc0 4)).
  assert (rpow rc0 5 * i0 = 1) as E0 by (apply finv_r, Hp; auto). assert (rpow rc1 5 * i1 = 1) as E1 by (apply finv_r, Hp; auto).
  assert ((rpow rc1 4 - rpow rc0 4) * e = 1) as E.
  { apply finv_r. intros Ez. apply H4. transitivity (rpow rc1 4 - (rpow rc1 4 - rpow rc0 4)); [ring|]. rewrite Ez. ring. }
  intros q0 q1 D. unfold D, late_D, late_coeffs. fold i0 i1 e. cbn [fst snd].
  replace (rpow (emb rc0) 9) with (rpow (emb rc0) 4 * rpow (emb rc0) 5) by (rewrite <- rpow_add; reflexivity).
  replace (rpow (emb rc1) 9) with (rpow (emb rc1) 4 * rpow (emb rc1) 5) by (rewrite <- rpow_add; reflexivity).
  rewrite <- !(hom_pow _ emb_hom). rewrite !(hom_add _ emb_hom), !(hom_opp _ emb_hom), !(hom_mul _ emb_hom).
  apply (f_equal emb) in E0, E1, E. rewrite (hom_mul _ emb_hom), (hom_1 _ emb_hom) in E0, E1. rewrite (hom_mul _ emb_hom), (hom_sub _ emb_hom), (hom_1 _ emb_hom) in E.
  set (A := emb (rpow rc0 5) : R) in *. set (B := emb (rpow rc1 5) : R) in *. set (X := emb (rpow rc0 4) : R) in *. set (Y := emb (rpow rc1 4) : R) in *.
  set (I0 := emb i0 : R) in *. set (I1 := emb i1 : R) in *. set (Z := emb e : R) in *. split.
  - transitivity (q0 * (A * I0)); [ring|]. rewrite E0. ring.
  - transitivity (q0 * I0 * B * (1 - (Y - X) * Z) + q1 * (B * I1) * ((Y - X) * Z)); [ring|]. rewrite E, E1. ring.
Qed.

(** The checks of the verifier on [a] and [b] do not see the change. *)
Lemma psi_late D i : psi_ct (fst D) = 0 -> psi_ct (snd D) = 0 -> psi_ct (late D i) = 0.
Proof. intros H1 H2. unfold late. pose proof (klin_0 psi_ct (klin_psi (p := p))) as H0. destruct i as [|[|[|i]]]; auto. Qed.
Lemma forallb_ab (a : list K) (b : list R) : forallb (fun ab => psi_ct (snd ab) =? fst ab) (combine a b) = true <->
  forall i, (i < length a)%nat -> (i < length b)%nat -> psi_ct (nth i b 0) = nth i a 0.
Proof.
  revert b. induction a as [|x a IH]; intros [|y b]; cbn [combine forallb fst snd length]; try (split; [intros _ i H1 H2; lia|auto]).
  rewrite andb_true_iff, IH, req_true. split.
  - intros [H1 H2] [|i] L1 L2; cbn [nth]; [auto|apply H2; lia].
  - intros H. split; [apply (H 0%nat); lia|]. intros i L1 L2. apply (H (S i)); lia.
Qed.
Lemma check_eval_patch P e l ev D : psi_ct (fst D) = 0 -> psi_ct (snd D) = 0 -> check_eval P e l ev = Ok tt -> check_eval P e l (patch D ev) = Ok tt.
Proof.
  intros H1 H2. unfold check_eval. cbn [patch de_a de_b de_c de_v].
  destruct (forallb _ (combine (de_a ev) (de_b ev))) eqn:Ef; cbn [guard bind]; [|discriminate]. intros H.
  assert (forallb (fun ab => psi_ct (snd ab) =? fst ab) (combine (de_a ev) (shift_b D (de_b ev))) = true) as ->; [|exact H].
  apply forallb_ab. rewrite forallb_ab in Ef. intros i L1 L2. rewrite shift_b_length in L2. unfold shift_b. rewrite nth_seq_map by auto.
  rewrite (proj1 (klin_psi (p := p))), psi_late, Ef by auto. ring.
Qed.
Lemma psi_rowop M r i f f0 : Forall base_mat M -> (i < 1 + length M)%nat -> length f = length f0 -> (forall j, psi_ct (nth j f 0) = psi_ct (nth j f0 0)) ->
  psi_ct (rowop M r i f) = psi_ct (rowop M r i f0).
Proof.
  intros HM Hi HL Hf. pose proof (klin_psi (p := p)) as HK. destruct i as [|i]; cbn [rowop].
  - rewrite !(klin_open (p := p)) by exact HK. apply mle_spec_ext. intros j _. apply Hf.
  - rewrite Forall_forall in HM. rewrite !(klin_open_mul (p := p)) by (try exact HK; apply HM, nth_In; lia).
    assert (map psi_ct f = map psi_ct f0) as ->; [|reflexivity]. apply (list_ext 0); [rewrite !map_length; auto|]. intros j Hj. rewrite map_length in Hj.
    rewrite !(nth_map_lt _ _ _ 0) by lia. apply Hf.
Qed.
Lemma true_c M r x i : (i < 1 + length M)%nat -> nth i (de_c (true_evals M r x)) 0 = rowop M r i (ri_f x).
Proof.
  intros Hi. unfold true_evals. cbn [de_c]. destruct i as [|i]; cbn [nth rowop]; [auto|]. apply (nth_map_lt (fun m => open_mul r m (ri_f x))). lia.
Qed.
Lemma true_len M r x : ev_len (1 + length M) (true_evals M r x).
Proof. unfold ev_len, true_evals. cbn [de_a de_b de_c length]. rewrite !map_length. auto. Qed.
Lemma psi_gap M r (rc : K) x0 x : Forall base_mat M -> length (ri_f x) = length (ri_f x0) ->
  (forall j, psi_ct (nth j (ri_f x) 0) = psi_ct (nth j (ri_f x0) 0)) -> psi_ct (c_gap (length M) (emb rc) (true_evals M r x0) (true_evals M r x)) = 0.
Proof.
  intros HM HL Hf. pose proof (klin_psi (p := p)) as HK. unfold c_gap. rewrite (klin_sumn (p := p)) by exact HK. apply sumn_0. intros i Hi.
  rewrite !true_c by auto. rewrite <- (hom_pow _ emb_hom).
  replace ((rowop M r i (ri_f x) - rowop M r i (ri_f x0)) * emb (rpow rc (4 * i + 2)))
    with (emb (rpow rc (4 * i + 2)) * rowop M r i (ri_f x) + emb (- rpow rc (4 * i + 2)) * rowop M r i (ri_f x0)) by (rewrite (hom_opp _ emb_hom); ring).
  rewrite (proj1 HK), !(proj2 HK), (psi_rowop M r i (ri_f x) (ri_f x0)) by auto. ring.
Qed.

(** ** The prover *)
(** It keeps the digits of [f0] and puts [f] into the instance (with the commitment of [f]); up to the end of the range check it runs the code's
    prover on [f0]; then it follows cm.rs (56-199) on [f].  Only at the end it chooses the evaluations [b] that it sends. *)
Definition late_prove (A : ajtai R) (fs0 fs : list (list R)) (P : rparams) (nv : nat) (M : list (smat R)) (ts : T) : result (cm_proof K R * K * K) :=
  do insts0 <- mapM (fun f => from_f f A P) fs0;
  let insts := map (fun fx => with_f A (fst fx) (snd fx)) (combine fs insts0) in
  do dt <- range_check (Rg nv insts0 P) M ts;
  let '(dc, ts) := dt in
  do ch <- cm_challenges (rp_k P) ts;
  let '(s, s', ts) := ch in
  do hs <- mapM (cm_h nv s') insts;
  do comh <- mapM (cm_comh s') insts;
  do cc <- c_challenges comh (absorb_comh comh ts);
  let '(c0, c1, ts) := cc in
  let t0 := resize (2 ^ nv) 0 (calculate_t_z c0 (concat s') (dp_pows (rp_l P)) x_pows) in
  let t1 := resize (2 ^ nv) 0 (calculate_t_z c1 (concat s') (dp_pows (rp_l P)) x_pows) in
  let rc0 := fst (get_challenge ts) in
  do sa <- sumchecker nv insts dc hs t0 t1 M ts;
  let '(proof_a, evals_a, ro_a, ts) := sa in
  let rc1 := fst (get_challenge ts) in
  do sb <- sumchecker nv insts dc hs t0 t1 M ts;
  let '(proof_b, evals_b, ro_b, ts) := sb in
  let r := so_r (dc_out dc) in
  let Ds := map (fun xy => let gap rc := c_gap (length M) (emb rc) (true_evals M r (fst xy)) (true_evals M r (snd xy)) in late_D rc0 rc1 (gap rc0) (gap rc1))
                (combine insts0 insts) in
  Ok (CmProof (Dcom (zipw patch Ds (dc_evals dc)) (map ri_coms insts) (dc_out dc) P) comh (proof_a, proof_b) (evals_a, evals_b), rc0, rc1).
(** The two batching challenges that the verifier draws when it reads this proof. *)
Definition batching (nv : nat) (pf : cm_proof K R) (ts : T) (rc0 rc1 : K) : Prop :=
  exists ts1 s s' ts2 c0 c1 ts3 t3 claimed point0 e ts4 t4,
    rg_verify (cp_dcom pf) ts = Ok ts1 /\ cm_challenges (rp_k (dc_params (cp_dcom pf))) ts1 = Ok (s, s', ts2) /\
    c_challenges (cp_comh pf) (absorb_comh (cp_comh pf) ts2) = Ok (c0, c1, ts3) /\ get_challenge ts3 = (rc0, t3) /\
    sc_verify t3 nv 2 claimed (fst (cp_sc pf)) = Ok (point0, e, ts4) /\ get_challenge (absorb_evals (fst (cp_evals pf)) ts4) = (rc1, t4).

Lemma verify_sc_inv L m dc u a b t0 t1 pf evals (ts ts' : T) ro : cm_verify_sc L m dc u a b t0 t1 pf evals ts = Ok (ro, ts') ->
  exists rc t claimed point e ts'', get_challenge ts = (rc, t) /\ sc_verify t (so_nvars (dc_out dc)) 2 claimed pf = Ok (point, e, ts'') /\ ro = map emb point /\ ts' = absorb_evals evals ts''.
Proof.
  unfold cm_verify_sc. destruct (get_challenge ts) as [rc t]. intros H. apply bind_ok_inv in H as (claimed & _ & H). apply bind_ok_inv in H as ([[point e] ts''] & Hs & H).
  apply bind_ok_inv in H as (? & _ & H). apply bind_ok_inv in H as (? & _ & H). apply bind_ok_inv in H as (? & _ & H). apply bind_ok_inv in H as (? & _ & H).
  destruct (e =? _); [|discriminate]. apply ok_inj in H. injection H as <- <-.
  destruct (sc_verify t _ 2 claimed pf) as [q| |] eqn:Es; try discriminate. apply ok_inj in Hs. subst q.
  exists rc, t, claimed, point, e, ts''. auto.
Qed.
Lemma absorb_patch Ds evs (ts : T) : length Ds = length evs -> rg_absorb (zipw patch Ds evs) ts = rg_absorb evs ts.
Proof.
  unfold rg_absorb. revert Ds ts. induction evs as [|ev evs IH]; intros [|D Ds] ts H; cbn [length zipw fold_left] in *; try lia; auto.
Qed.
(** The verifier, with the three comparisons it lacks, accepts the commitments of [fs]; every value that enters or leaves the two sumchecks is true of
    the instances, whose witnesses are [fs], except the evaluations of the range check. *)
Definition cm_passed (A : ajtai R) (fs : list (list R)) (P : rparams) (nv : nat) (M : list (smat R)) (insts : list (rg_inst K R)) (pf : cm_proof K R) (ts : T) : Prop :=
  exists ts1 s s' ts2 x ts' (ro0 ro1 : list K) gs point,
    let L := length fs in let hs := map (fun x => hvec (2 ^ nv) (ri_Mf x) s') insts in
    map ri_f insts = fs /\ dc_params (cp_dcom pf) = P /\ Forall2 (fun f c => commit A f = Ok (fc_f c)) fs (dc_coms (cp_dcom pf)) /\
    cm_verify pf M ts = Ok (x, ts') /\
    range_point nv (L * rp_k P + L) (L * rp_k P) (cp_dcom pf) ts point /\ compared (cp_dcom pf) point /\
    rg_verify (cp_dcom pf) ts = Ok ts1 /\ cm_challenges (rp_k P) ts1 = Ok (s, s', ts2) /\
    so_e (dc_out (cp_dcom pf)) = true_e M point insts /\
    fst (cp_evals pf) = map (true_ev4 M ro0) (combine insts hs) /\ snd (cp_evals pf) = map (true_ev4 M ro1) (combine insts hs) /\
    Forall2 (folded (2 ^ nv) s s') insts gs /\ Forall2 (fun g c => commit A g = Ok c) gs (cx_cm x) /\
    cx_ro x = combine (map emb ro0) (map emb ro1) /\ cx_vo x = map (evaluations M ro0 ro1) gs.
Theorem late_b fs0 fs A P nv M (ts : T) : cm_setting (p := p) fs0 A P nv M -> (2 <= length M)%nat ->
  Forall2 (fun f f0 => length f = (2 ^ nv)%nat /\ forall i, psi_ct (nth i f 0) = psi_ct (nth i f0 0)) fs fs0 ->
  exists insts pf rc0 rc1, late_prove A fs0 fs P nv M ts = Ok (pf, rc0, rc1) /\ map ri_f insts = fs /\ batching nv pf ts rc0 rc1 /\
    cm_shape nv (kappa A) (length fs * rp_k P + length fs) (length fs * rp_k P) (length fs) pf /\
    (rc0 <> 0 -> rc1 <> 0 -> rpow rc0 4 <> rpow rc1 4 -> cm_passed A fs P nv M insts pf ts).
Proof.
  intros [H1 H2 H3 H4 H5 H6 H7 H8 H9 H10 H11 H12 H13 H14 H15] HM2 HF. set (n := (2 ^ nv)%nat) in *.
  destruct (insts_from_f fs0 A P n) as (insts0 & E1 & E2 & E3 & E4); auto.
  set (fv := fun x : rg_inst K R => decoded n (rp_k P) (ri_Mf x)).
  set (insts := map (fun fx => with_f A (fst fx) (snd fx)) (combine fs insts0)).
  assert (length fs = length insts0) as Lfs by (rewrite E3; apply (proj1 (proj1 (Forall2_nth _ _ _ [] []) HF))).
  assert (map ri_f insts = fs) as Ef.
  { unfold insts. rewrite map_map. cbn [with_f ri_f]. revert Lfs. clear. revert insts0. induction fs as [|f fs IH]; intros [|x l] H; cbn [length combine map fst] in *; try lia; auto. f_equal. auto. }
  assert (Forall (cm_inst fv A P n) insts) as HI.
  { unfold insts. rewrite <- E2 in HF. clear - HF E4 H6 PL. revert insts0 HF E4. induction fs as [|f fs IH]; intros [|x l] HF HI; cbn [combine map]; try apply Forall_nil.
    cbn [map] in HF. inversion HF as [|? ? ? ? [Lf Hf] HF']. subst. inversion HI as [|? ? Hx HI']. subst. specialize (IH l HF' HI').
    destruct Hx as [[W1 W2 W3 W4 W5 W6 W7] X2 X3 X4 X5 X6].
    assert (fv (with_f A f x) = ri_f x) as Efv by (unfold fv; cbn [with_f ri_Mf]; apply decoded_digits; auto).
    apply Forall_cons; auto; cbn [fst snd].
    split; cbn [with_f ri_f ri_Mf ri_tau ri_mtau ri_comMf ri_coms fc_f fc_Mf fc_mtau]; auto.
    - split; cbn [with_f ri_f ri_Mf ri_tau ri_mtau]; auto. rewrite Efv. auto.
    - apply commit_ok. lia. }
  assert (length insts = length insts0) as Li by (unfold insts; rewrite map_length, combine_length; lia).
  assert (forall l, (l < length insts0)%nat -> let x := nth l insts inst0 in let x0 := nth l insts0 inst0 in
    ri_Mf x = ri_Mf x0 /\ ri_tau x = ri_tau x0 /\ ri_mtau x = ri_mtau x0 /\ length (ri_f x) = length (ri_f x0) /\ forall j, psi_ct (nth j (ri_f x) 0) = psi_ct (nth j (ri_f x0) 0)) as Hnth.
  { intros l Hl. cbv zeta. unfold insts. rewrite (nth_map_lt _ _ _ ([], inst0)) by (rewrite combine_length; lia). rewrite combine_nth by auto. cbn [fst snd with_f ri_Mf ri_tau ri_mtau ri_f].
    do 3 (split; [reflexivity|]). apply (proj1 (Forall2_nth _ _ _ [] [])) in HF as [_ HF]. destruct (HF l) as [Q1 Q2]; [lia|].
    assert (nth l fs0 [] = ri_f (nth l insts0 inst0)) as E0 by (rewrite <- E2; apply nth_map_lt; auto). rewrite E0 in Q2. split; [|exact Q2].
    rewrite Q1. rewrite Forall_forall in E4. symmetry. apply (ci_wf _ _ _ _ _ (E4 _ (nth_In _ inst0 Hl))). }
  assert (flat_map inst_cols insts = flat_map inst_cols insts0) as Ecols.
  { unfold insts. revert Lfs. clear. revert insts0. induction fs as [|f fs IH]; intros [|x l] H; cbn [length combine map flat_map] in *; try lia; auto. f_equal. apply IH. lia. }
  assert (forall r, true_e M r insts = true_e M r insts0) as Ete by (intros r; unfold true_e; rewrite Ecols; auto).
  assert (nv = ark_log2 (next_pow2 n)) as Ent. { unfold n, ark_log2, next_pow2. rewrite !Nat.log2_up_pow2 by lia. auto. }
  assert (Forall (rg_wf ri_f n (rp_k P)) insts0) as HW0 by (eapply Forall_impl; [|exact E4]; intros ? []; auto).
  set (L := length insts0) in *.
  assert (L = length fs0) as EL by auto. rewrite <- EL in H10.
  destruct (range_check_claim (p := p) ri_f n (Rg nv insts0 P) M ts) as (o & ts1 & S1 & S2 & S3 & S4 & S5 & S6); cbn [rg_nvars rg_params rg_insts] in *; auto using same_images_f.
  assert (length (set_mats (rg_sets insts0)) = (L * rp_k P)%nat) as LM.
  { rewrite rg_sets_mats. unfold L. clear - HW0. induction HW0 as [|x l W _ IH]; auto. cbn [flat_map length]. rewrite app_length, map_length, IH. rewrite (rw_k _ _ _ _ W). lia. }
  assert (Forall (mono_set n pdim) (rg_sets insts0)) as HMS by (apply (rg_sets_mono ri_f n (rp_k P)); auto).
  assert (length (set_vecs (rg_sets insts0)) = L) as LV by (rewrite rg_sets_vecs, map_length; auto).
  assert (set_verify o ts = Ok ts1 /\ so_b o = map (open (so_r o)) (map ri_mtau insts0)) as [HSV HSB].
  { destruct (set_check_complete (p := p) nv n pdim (rg_sets insts0) M ts) as (o' & ts' & Q1 & Q2 & Q3 & Q4 & Q5 & Q6 & Q7); auto.
    - intros E. rewrite E in LM. cbn [length] in LM. lia.
    - left. rewrite LM. auto.
    - eapply Forall_impl; [|exact H15]. intros a (Q & Q' & _). auto.
    - rewrite S1 in Q1. apply ok_inj in Q1. injection Q1 as <- <-. rewrite rg_sets_vecs in Q7. auto. }
  pose proof (set_check_point nv n pdim (rg_sets insts0) M ts ts1 o (L * rp_k P + L) (L * rp_k P) H1 Ent HMS ltac:(rewrite LM, LV; auto) ltac:(auto) S1) as Hpt.
  set (r := so_r o) in *.
  set (ev0s := map (true_evals M r) insts0) in *.
  assert (Forall base_mat M) as HB by (eapply Forall_impl; [|exact H15]; intros ? (_ & _ & ?); auto).
  set (tsr := rg_absorb ev0s ts1).
  assert (forall Ds, length Ds = L -> Forall (fun D => psi_ct (fst D) = 0 /\ psi_ct (snd D) = 0) Ds -> rg_verify (Dcom (zipw patch Ds ev0s) (map ri_coms insts) o P) ts = Ok tsr) as HRG.
  { intros Ds LD FD. unfold rg_verify. cbn [dc_out dc_evals dc_params]. rewrite HSV. cbn [unwrap bind]. rewrite absorb_patch by (unfold ev0s; rewrite map_length; auto). fold tsr.
    rewrite (mapM_ok _ (fun _ => tt)); [reflexivity|]. intros [l e] Hle. apply (in_combine_seq _ _ ev0) in Hle as [Hl Ee]. cbn [fst snd] in *.
    unfold ev0s in Hl. rewrite zipw_length, map_length in Hl. fold L in Hl. rewrite (nth_zipw _ _ _ _ (0, 0) ev0) in Ee by (unfold ev0s; rewrite ?map_length; fold L; lia).
    rewrite Forall_forall in FD. destruct (FD (nth l Ds (0, 0))) as [D1 D2]; [apply nth_In; lia|]. rewrite Ee. apply check_eval_patch; auto.
    unfold ev0s. rewrite (nth_map_lt _ _ _ inst0) by (fold L; lia). rewrite S4. rewrite <- claim_evals_f. apply (check_eval_ok (p := p) ri_f n (rp_k P)); auto using same_images_f.
    - eapply Forall_impl; [|exact HW0]. apply rg_wf_pre.
    - fold L. lia.
    - fold r. rewrite S3. auto. }
  assert (128 / pdim < 64)%nat as Hlam by (apply Nat.div_lt_upper_bound; lia).
  destruct (cm_challenges_ok (rp_k P) tsr Hlam) as (s & s' & ts2 & C1 & C2 & C3).
  set (hs := map (fun x => hvec n (ri_Mf x) s') insts). set (comh := map (fun x => hvec (kappa A) (ri_comMf x) s') insts).
  assert (length comh = L) as Lcomh by (unfold comh; rewrite map_length; auto).
  assert (Forall (fun c => length c = kappa A) comh) as Fcomh.
  { unfold comh. apply Forall_map, Forall_forall. intros x _. unfold hvec. rewrite map_length, seq_length. auto. }
  assert (1 <= L)%nat as HL by (destruct L; [cbn in H10; lia|lia]).
  set (lk := ark_log2 (kappa A)).
  assert (exists c0 c1 ts3, c_challenges comh (absorb_comh comh ts2) = Ok (c0, c1, ts3) /\ length c0 = lk /\ length c1 = lk) as (c0 & c1 & ts3 & D1 & D2 & D3).
  { unfold c_challenges. rewrite (index_ok _ _ []) by lia. cbn [bind].
    assert (length (nth 0 comh []) = kappa A) as -> by (rewrite Forall_forall in Fcomh; apply Fcomh, nth_In; lia). fold lk.
    pose proof (get_challenges_length (absorb_comh comh ts2) lk) as G1. destruct (get_challenges (absorb_comh comh ts2) lk) as [c0 ts3].
    pose proof (get_challenges_length ts3 lk) as G2. destruct (get_challenges ts3 lk) as [c1 ts4]. cbn [fst] in *.
    eexists. eexists. eexists. split; [reflexivity|]. rewrite !map_length. auto. }
  assert (char_gt K 2) as Hc2 by (intros i Hi; apply H2; lia).
  assert (length hs = L) as Lhs by (unfold hs; rewrite map_length; auto).
  set (dct := Dcom (map (true_evals M r) insts) (map ri_coms insts) o P).
  set (u := map (fun h => map (fun i => rowop M r i h) (seq 0 (1 + length M))) hs).
  set (T0 := calculate_t_z c0 (concat s') (dp_pows (rp_l P)) x_pows). set (T1 := calculate_t_z c1 (concat s') (dp_pows (rp_l P)) x_pows).
  set (dc0 := Dcom ev0s (map ri_coms insts0) o P).
  assert (forall tsx, exists proof ro ts2, length ro = nv /\
    sumchecker nv insts dc0 hs (resize n 0 T0) (resize n 0 T1) M tsx = Ok (proof, map (true_ev4 M ro) (combine insts hs), map emb ro, ts2) /\
    cm_verify_sc L (length M) dct u (cm_tcch c0 comh) (cm_tcch c1 comh) T0 T1 proof (map (true_ev4 M ro) (combine insts hs)) tsx = Ok (map emb ro, ts2)) as Half.
  { intros tsx. rewrite <- Li. destruct (half_ok fv A P nv M insts hs dct comh s' c0 c1 tsx) as (proof & ro & ts2' & Q1 & Q2 & Q3); auto.
    - rewrite Lcomh. auto.
    - intros a Ha. apply sumn_ext. intros l Hl'. unfold comh. rewrite (nth_map_lt _ _ _ inst0) by auto. auto.
    - rewrite D2, D3. auto.
    - rewrite D2. apply ark_log2_ge.
    - rewrite D2. auto.
    - split; auto. assert (2 <= pdim / 2)%nat by (apply Nat.div_le_lower_bound; lia). lia.
    - exists proof, ro, ts2'. auto. }
  destruct (Half ts3) as (pa & ro0 & ts4 & Lr0 & A1 & A2). destruct (Half ts4) as (pb & ro1 & ts5 & Lr1 & B1 & B2).
  assert (Forall (x_ok n) (combine insts hs)) as HX.
  { unfold hs. clear - HI. induction HI as [|x insts Hx _ IH]; cbn [map combine]; [apply Forall_nil|]. apply Forall_cons; auto.
    destruct (ci_wf _ _ _ _ _ Hx) as [W1 W2 W3 W4 W5 W6 W7]. repeat split; cbn [fst snd]; auto.
    - rewrite <- W7, map_length. auto.
    - unfold hvec. rewrite map_length, seq_length. auto. }
  set (ea := map (true_ev4 M ro0) (combine insts hs)) in *. set (eb := map (true_ev4 M ro1) (combine insts hs)) in *.
  destruct (verify_sc_inv _ _ _ _ _ _ _ _ _ _ _ _ _ A2) as (rc0 & t3 & cl0 & pt0 & e0 & ts4' & G1 & G2 & G3 & G4).
  destruct (verify_sc_inv _ _ _ _ _ _ _ _ _ _ _ _ _ B2) as (rc1 & t4 & cl1 & pt1 & e1 & ts5' & K1 & K2 & K3 & K4).
  cbn [dct dc_out] in G2, K2. rewrite S2 in G2, K2.
  set (q := fun (rc : K) l => c_gap (length M) (emb rc) (true_evals M r (nth l insts0 inst0)) (true_evals M r (nth l insts inst0))).
  set (Ds := map (fun xy => let gap rc := c_gap (length M) (emb rc) (true_evals M r (fst xy)) (true_evals M r (snd xy)) in late_D rc0 rc1 (gap rc0) (gap rc1)) (combine insts0 insts)).
  assert (length Ds = L) as LD by (unfold Ds; rewrite map_length, combine_length; lia).
  assert (forall l, (l < L)%nat -> nth l Ds (0, 0) = late_D rc0 rc1 (q rc0 l) (q rc1 l)) as HDn.
  { intros l Hl. unfold Ds. rewrite (nth_map_lt _ _ _ (inst0, inst0)) by (rewrite combine_length; lia). rewrite combine_nth by auto. reflexivity. }
  assert (Forall (fun D => psi_ct (fst D) = 0 /\ psi_ct (snd D) = 0) Ds) as FD.
  { apply Forall_nth. intros l d Hl. rewrite (nth_indep _ d (0, 0)), HDn by lia. pose proof (klin_psi (p := p)) as HK.
    destruct (Hnth l) as (_ & _ & _ & Q1 & Q2); [lia|].
    assert (forall rc, psi_ct (q rc l) = 0) as Hq by (intros rc; apply psi_gap; auto).
    unfold late_D. destruct (late_coeffs rc0 rc1) as [[ka kb] [kc kd]]. cbn [fst snd]. rewrite !(proj1 HK), !(proj2 HK), !Hq. split; ring. }
  specialize (HRG Ds LD FD). set (dcp := Dcom (zipw patch Ds ev0s) (map ri_coms insts) o P) in HRG.
  set (pf := CmProof dcp comh (pa, pb) (ea, eb)).
  exists insts, pf, rc0, rc1. split; [|split; [exact Ef|split; [|split]]].
  - unfold late_prove. rewrite E1. cbn [bind]. fold insts. rewrite S5. cbn [bind dc_evals]. fold tsr. rewrite C1. cbn [bind].
    assert (mapM (cm_h nv s') insts = Ok hs) as ->.
    { apply mapM_ok. intros y Hy. rewrite Forall_forall in HI. apply (cm_h_ok (p := p) fv nv n (rp_k P)); auto. apply (ci_wf _ _ _ _ _ (HI y Hy)). }
    cbn [bind]. assert (mapM (cm_comh s') insts = Ok comh) as ->.
    { apply mapM_ok. intros y Hy. rewrite Forall_forall in HI. destruct (HI y Hy) as [X1 X2 _ _ _ _]. apply (cm_comh_ok (p := p) fv A n (rp_k P)); auto. }
    cbn [bind]. rewrite D1. cbn [bind]. fold n T0 T1 dc0. rewrite A1. cbn [bind]. rewrite B1. cbn [bind]. rewrite G1, K1. reflexivity.
  - exists tsr, s, s', ts2, c0, c1, ts3, t3, cl0, pt0, e0, ts4', t4. cbn [pf cp_dcom cp_comh cp_sc cp_evals dc_params dcp fst]. rewrite <- G4. auto 8.
  - assert (length (flat_map inst_cols insts0) = (L * rp_k P)%nat) as Lfl.
    { unfold L. clear - HW0. induction HW0 as [|y l W _ IH]; auto. cbn [flat_map length]. unfold inst_cols at 1. rewrite app_length, map_length, IH. rewrite (rw_k _ _ _ _ W). lia. }
    unfold cm_shape. rewrite Lfs. fold L. cbn [pf cp_dcom cp_evals cp_comh dcp dc_out dc_evals dc_params fst]. rewrite S4 at 1. unfold true_e. cbn [nth]. rewrite HSB, zipw_length, !map_length, Lfl.
    unfold ev0s, ea. rewrite !map_length, combine_length. fold r L. repeat split; auto; lia.
  - intros N0 N1 N4. pose proof (late_solve rc0 rc1 N0 N1 N4) as HD.
    assert (forall l, (l < L)%nat -> nth l ev0s ev0 = true_evals M r (nth l insts0 inst0) /\ nth l (map (true_evals M r) insts) ev0 = true_evals M r (nth l insts inst0)) as Hev.
    { intros l Hl. unfold ev0s. rewrite !(nth_map_lt _ _ _ inst0) by lia. auto. }
    assert (forall rc t tsx a b pr ev, rc = rc0 \/ rc = rc1 -> get_challenge tsx = (rc, t) -> length a = L -> length b = L ->
      cm_verify_sc L (length M) dcp u a b T0 T1 pr ev tsx = cm_verify_sc L (length M) dct u a b T0 T1 pr ev tsx) as Esc.
    { intros rc t tsx a b pr ev Hrc Eg La Lb. unfold cm_verify_sc. rewrite Eg. cbn [dcp dct dc_out dc_evals].
      rewrite (claimed_patch L (length M) (emb rc) Ds ev0s (map (true_evals M r) insts)); [reflexivity| | | | | | | | | | |]; auto.
      - unfold ev0s. rewrite map_length. auto.
      - rewrite map_length. auto.
      - unfold ev0s. apply Forall_map, Forall_forall. intros; apply true_len.
      - apply Forall_map, Forall_forall. intros; apply true_len.
      - unfold u. rewrite map_length. auto.
      - unfold u. apply Forall_map, Forall_forall. intros h _. rewrite map_length, seq_length. auto.
      - intros l Hl. cbv zeta. rewrite HDn by auto. destruct (Hev l Hl) as [-> ->]. destruct (Hnth l Hl) as (Q1 & Q2 & Q3 & _).
        unfold true_evals at 1 2 3 4. cbn [de_a de_b fst snd]. rewrite Q2, Q3. split; [reflexivity|]. split; [reflexivity|].
        destruct (HD (q rc0 l) (q rc1 l)) as [HD0 HD1]. cbv zeta in HD0, HD1. destruct Hrc as [->|Hrc]; [exact HD0|subst rc; exact HD1]. }
    assert (forall c, length (cm_tcch c comh) = L) as Ltc by (intros c; unfold cm_tcch; rewrite map_length; auto).
    assert (map (fun l => cm_u (rp_k P) l (concat s') (so_e o)) (seq 0 L) = u) as Eu.
    { rewrite S4, <- Ete. fold r. unfold u. apply (list_ext []); [rewrite !map_length, seq_length; auto|]. intros l Hl'. rewrite map_length, seq_length in Hl'. rewrite nth_seq_map by auto.
      rewrite (nth_map_lt _ _ _ []) by lia. unfold hs. rewrite (nth_map_lt _ _ _ inst0) by lia.
      assert (Forall (rg_wf fv n (rp_k P)) insts) as HW by (eapply Forall_impl; [|exact HI]; intros ? []; auto).
      unfold cm_u, true_e. change (1 + length M)%nat with (S (length M)). cbn [map seq]. f_equal.
      - rewrite (cm_u_ok (p := p) fv n (rp_k P) insts s' (open r) l inst0) by (auto; try lia; apply (rlin_open (p := p)); rewrite S3; auto). reflexivity.
      - rewrite map_map. rewrite <- seq_shift, map_map. apply (list_ext 0); [rewrite !map_length, seq_length; auto|]. intros i Hi. rewrite map_length in Hi.
        rewrite nth_seq_map by auto. rewrite (nth_map_lt _ _ _ mat0) by auto. cbn [rowop].
        rewrite (cm_u_ok (p := p) fv n (rp_k P) insts s' (open_mul r (nth i M mat0)) l inst0) by (auto; try lia; apply (rlin_open_mul (p := p))). reflexivity. }
    pose proof (cm_x_ok M insts hs dcp comh (pa, pb) ea eb s (combine (map emb ro0) (map emb ro1)) nv n ro0 ro1 H15 HX (le_n _) ltac:(lia) ltac:(lia) eq_refl Lr0 Lr1 eq_refl eq_refl) as Ex.
    fold pf in Ex. set (x := ComX _ _ _) in Ex.
    assert (length ea = L) as Lea by (unfold ea; rewrite map_length, combine_length; lia).
    assert (cm_verify pf M ts = Ok (x, ts5)) as HV.
    { unfold cm_verify. cbn [pf cp_dcom cp_comh cp_sc cp_evals fst snd]. rewrite Lea. fold pf. change (dc_params dcp) with P. change (dc_out dcp) with o.
      rewrite HRG. cbn [unwrap bind]. rewrite C1. cbn [bind]. rewrite D1. cbn [bind]. rewrite Eu. fold T0 T1.
      rewrite (Esc rc0 t3) by auto. rewrite A2. cbn [bind]. rewrite (Esc rc1 t4) by auto. rewrite B2. cbn [bind]. rewrite Ex. reflexivity. }
    assert (range_point nv (L * rp_k P + L) (L * rp_k P) dcp ts r) as HRP.
    { unfold range_point. cbn [dcp dc_out]. destruct (cba_loop (L * rp_k P + L) nv ts) as [cba tsa] eqn:Ecb. destruct (opt_challenge (L * rp_k P) tsa) as [rc tsb] eqn:Eop.
      assert (exists point v ts3, sc_verify tsb nv 3 0 (so_sc o) = Ok (point, v, ts3)) as (point & v & tsc & Hs).
      { assert (length (flat_map inst_cols insts0) = (L * rp_k P)%nat) as Lfl.
        { unfold L. clear - HW0. induction HW0 as [|y l W _ IH]; auto. cbn [flat_map length]. unfold inst_cols at 1. rewrite app_length, map_length, IH. rewrite (rw_k _ _ _ _ W). lia. }
        unfold set_verify in HSV. rewrite S4 in HSV at 1. unfold true_e, index in HSV. cbn [nth_error of_option bind] in HSV. rewrite HSB, !map_length, Lfl, S2 in HSV. fold L in HSV.
        rewrite Ecb, Eop in HSV. apply bind_ok_inv in HSV as ([[point v] tsc] & Hs & _). eauto. }
      rewrite (Hpt _ _ _ Hs). eauto. }
    exists tsr, s, s', ts2, x, ts5, ro0, ro1, (map (fun xh => gvec s (fst xh) (snd xh)) (combine insts hs)), r.
    cbv zeta. rewrite Lfs. fold L. fold hs. cbn [pf cp_dcom cp_evals fst snd]. split; [exact Ef|]. split; [reflexivity|].
    split; [|split; [exact HV|split; [exact HRP|split; [|split; [exact HRG|split; [exact C1|split; [|split; [reflexivity|split; [reflexivity|]]]]]]]]].
    + cbn [dcp dc_coms]. rewrite <- Ef. clear - HI. induction HI as [|y l Hy _ IH]; cbn [map]; [apply Forall2_nil|].
      apply Forall2_cons; auto. apply (ci_f _ _ _ _ _ Hy).
    + split; [reflexivity|]. cbn [dcp dc_evals dc_out]. rewrite HSB. fold r. apply (Forall2_nth _ _ _ ev0 0). unfold ev0s. rewrite zipw_length, !map_length. split; [fold L; lia|].
      intros l Hl. assert (l < L)%nat as Hl' by (fold L in Hl; lia). rewrite (nth_zipw _ _ _ _ (0, 0) ev0) by (rewrite ?map_length; fold L; lia).
      fold ev0s. rewrite (proj1 (Hev l Hl')). rewrite map_map, (nth_map_lt _ _ _ inst0) by (fold L; lia). set (y := nth l insts0 inst0).
      exists (mle_spec (fun i => nth i (ri_tau y) 0) r), (open r (ri_f y)). unfold patch, true_evals. cbn [de_a de_b de_c de_v nth_error].
      split; [reflexivity|]. split; [|split; [reflexivity|rewrite coeffs_open; reflexivity]].
      unfold shift_b. cbn [length seq map nth_error nth late]. f_equal. ring.
    + cbn [dcp dc_out]. rewrite Ete. exact S4.
    + split; [|split; [|split; [reflexivity|]]].
      * apply (Forall2_nth _ _ _ inst0 []). rewrite map_length, combine_length. split; [lia|]. intros l Hl.
        rewrite (nth_map_lt _ _ _ (inst0, [])) by (rewrite combine_length; lia). rewrite combine_nth by lia. cbn [fst snd]. unfold hs.
        rewrite (nth_map_lt _ _ _ inst0) by auto. rewrite Forall_forall in HI. specialize (HI _ (nth_In _ inst0 Hl)). destruct HI as [[W1 W2 W3 W4 W5 W6 W7] X2 X3 X4 X5 X6].
        set (y := nth l insts inst0) in *.
        assert (length (map emb (ri_tau y) : list R) = n) as La by (rewrite <- W7, !map_length; auto).
        assert (length (hvec n (ri_Mf y) s') = n) as Lh by (unfold hvec; rewrite map_length, seq_length; auto).
        split; [apply linv_length; auto|]. intros a Ha. unfold gvec. rewrite (linv_nth s _ _ _ _ n) by auto.
        rewrite (nth_map_emb (p := p)). unfold lin3, hvec, hval. rewrite nth_seq_map by auto. reflexivity.
      * apply (Forall2_nth _ _ _ [] []). cbn [x cx_cm]. split; [rewrite !map_length, seq_length, combine_length; lia|]. intros l Hl'. rewrite map_length, combine_length in Hl'.
        assert (l < length insts)%nat as Hl by lia. rewrite (nth_map_lt _ _ _ (inst0, [])) by (rewrite combine_length; lia). rewrite nth_seq_map by auto. rewrite combine_nth by lia. cbn [fst snd]. cbv zeta. unfold hs, comh.
        rewrite !(nth_map_lt _ _ _ inst0) by auto. rewrite Forall_forall in HI. specialize (HI (nth l insts inst0) (nth_In _ _ Hl)).
        destruct HI as [[W1 W2 W3 W4 W5 W6 W7] X2 X3 X4 X5 X6]. unfold gvec. apply (commit_linv A n); auto.
        -- rewrite map_length, <- W7, map_length. auto.
        -- unfold hvec. rewrite map_length, seq_length. auto.
        -- apply (commit_h (p := p) fv A n (rp_k P)); auto. split; auto.
      * cbn [x cx_vo]. rewrite map_map. apply map_ext. intros xh. apply evaluations_rowop.
Qed.
End L.

Section Count.
Context {K R : Type} {PO : POps K R} {p : Z} {PL : PLaws K R p}.
Add Ring Rring104 : (@rlaws_th R _ (pl_R (p := p))).
Add Ring Kring104 : (@rlaws_th K _ (fld_laws (FieldLaws := pl_K (p := p)))).
#[local] Existing Instance tape_trans.

Lemma few_fourth (S : list K) (v : K) : few (fun c => In c S /\ rpow c 4 = v) 4.
Proof.
  set (q := [- emb v; 0; 0; 0; 1] : list R).
  assert (forall c : K, rpow c 4 = v -> bad_root q c) as H.
  { intros c Hc. destruct (root_bad q c) as [H|H]; auto.
    - unfold q. unfold peval; cbn [fold_right]. rewrite <- Hc, (hom_pow _ emb_hom). cbn [rpow]. ring.
    - specialize (H 4%nat). unfold q in H. cbn [nth] in H. exfalso. apply (f_1_neq_0 (K := K)).
      rewrite <- (pct_emb (p := p) 1), (hom_1 _ emb_hom), H, <- (hom_0 _ emb_hom). apply (pct_emb (p := p)). }
  apply few_if. intros c0 [_ Hc0]. destruct (H c0 Hc0) as (_ & _ & Hall). intros L HL HF. rewrite Forall_forall in HF. apply Nat.lt_succ_r. apply (Hall L HL). intros y Hy. apply H, HF; auto.
Qed.
(** The two batching challenges are two of the coins. *)
Lemma tape_batching nv kap m w L (pf : cm_proof K R) (x : list K) by_ rc0 rc1 : let a := (n_batch m nv w + nv)%nat in let b := (a + 2 * ark_log2 kap)%nat in
  cm_shape nv kap m w L pf -> (1 <= L)%nat -> (b + (1 + nv) + (1 + nv) <= length x)%nat -> batching nv pf (x, by_) rc0 rc1 -> rc0 = nth b x 0 /\ rc1 = nth (b + (1 + nv)) x 0.
Proof.
  intros a b (Z1 & Z2 & Z3 & Z4 & Z5 & Z6 & Z7 & Z8 & Z9 & Z10) HL Lx (ts1 & s & s' & ts2 & c0 & c1 & ts3 & t3 & claimed & point0 & e & ts4 & t4 & B1 & B2 & B3 & B4 & B5 & B6).
  rewrite <- Z3 in Z4. apply (tape_rg_verify nv m w) in B1; auto; [|fold a; lia]. fold a in B1. subst ts1.
  apply tape_cm_challenges in B2 as [E2 _]. destruct ts2 as [y2 b2]. cbn [fst] in E2. subst y2.
  rewrite tape_comh in B3. unfold c_challenges in B3. rewrite (index_ok _ _ []) in B3 by lia. cbn [bind] in B3.
  assert (length (nth 0 (cp_comh pf) []) = kap) as Lk by (rewrite Forall_forall in Z8; apply Z8, nth_In; lia). rewrite Lk in B3.
  rewrite tape_challenges in B3 by (rewrite skipn_length; lia).
  rewrite tape_challenges in B3 by (rewrite !skipn_length; lia). apply ok_inj in B3. injection B3 as _ _ <-. rewrite !skipn_skipn' in B4.
  replace (ark_log2 kap + ark_log2 kap + a)%nat with b in B4 by (unfold b; lia).
  assert (forall i (x : list K), hd 0 (skipn i x) = nth i x 0) as Hh by (clear; induction i as [|i IH]; intros [|c x]; cbn; auto).
  cbn [get_challenge tape_trans fst snd] in B4, B6. injection B4 as <- <-. rewrite tape_evals in B6.
  assert (forall i (x : list K), tl (skipn i x) = skipn (i + 1) x) as Et by (clear; induction i as [|i IH]; intros [|c x]; cbn; auto; apply IH).
  rewrite Et in B5. apply tape_sc_verify in B5 as [_ ->]; [|rewrite skipn_length; lia]. cbn [fst] in B6. injection B6 as <- _.
  rewrite skipn_skipn', !Hh. split; auto. f_equal. lia.
Qed.
Theorem late_count fs0 fs A P nv M by_ (S : list K) : cm_setting (p := p) fs0 A P nv M -> (2 <= length M)%nat ->
  Forall2 (fun f f0 => length f = (2 ^ nv)%nat /\ forall i, psi_ct (nth i f 0) = psi_ct (nth i f0 0)) fs fs0 ->
  let L := length fs in let a := (n_batch (L * rp_k P + L) nv (L * rp_k P) + nv)%nat in let N := (a + 2 * ark_log2 (kappa A) + (1 + nv) + (1 + nv))%nat in
  few (fun x => In x (tuples N S) /\
    ~ exists insts pf rc0 rc1, late_prove A fs0 fs P nv M (x, by_) = Ok (pf, rc0, rc1) /\ cm_passed A fs P nv M insts pf (x, by_)) (6 * length S ^ (N - 1)).
Proof.
  intros HS HM HF L a N. set (b := (a + 2 * ark_log2 (kappa A))%nat).
  assert (1 <= L)%nat as HL.
  { unfold L. rewrite (proj1 (proj1 (Forall2_nth _ _ _ [] []) HF)). pose proof (cs_two _ _ _ _ _ HS) as H. destruct (length fs0); [cbn in H; lia|lia]. }
  eapply few_weaken; [|apply Nat.eq_le_incl|apply few_or; [apply (few_coord S N b (fun _ c => c = 0) 1)|apply few_or;
    [apply (few_coord S N (b + (1 + nv)) (fun _ c => c = 0) 1)|apply (few_coord S N (b + (1 + nv)) (fun pre c => rpow c 4 = rpow (nth b pre 0) 4) 4)]]].
  - intros x [Hx Hno]. pose proof Hx as Hx'. apply in_tuples in Hx' as [Lx _].
    destruct (late_b fs0 fs A P nv M (x, by_) HS HM HF) as (insts & pf & rc0 & rc1 & E1 & E2 & E3 & E4 & E5). fold L in E4.
    apply (tape_batching nv (kappa A) (L * rp_k P + L) (L * rp_k P) L) in E3 as [R0 R1]; auto; [|unfold N in Lx; lia]. fold a b in R0, R1.
    assert (nth b (firstn (b + (1 + nv)) x) 0 = nth b x 0) as Eb.
    { rewrite <- (firstn_skipn (b + (1 + nv)) x) at 2. rewrite app_nth1; auto. rewrite firstn_length. unfold N in Lx. unfold b. lia. }
    destruct (req_dec (nth b x 0) 0) as [H0|H0]; [left; auto|]. right.
    destruct (req_dec (nth (b + (1 + nv)) x 0) 0) as [H1|H1]; [left; auto|]. right. split; auto. rewrite Eb.
    destruct (req_dec (rpow (nth (b + (1 + nv)) x 0) 4) (rpow (nth b x 0) 4)) as [H4|H4]; auto. exfalso. apply Hno. exists insts, pf, rc0, rc1. split; auto.
    rewrite <- R0, <- R1 in *. apply E5; auto.
  - lia.
  - unfold N. lia.
  - intros pre _ l Hl Hf. destruct l as [|c [|c' l]]; cbn [length]; try lia. exfalso. inversion Hf as [|? ? [_ X1] Hf']. inversion Hf' as [|? ? [_ X2] _]. subst. inversion Hl as [|? ? X _]. apply X. left. auto.
  - unfold N. lia.
  - intros pre _ l Hl Hf. destruct l as [|c [|c' l]]; cbn [length]; try lia. exfalso. inversion Hf as [|? ? [_ X1] Hf']. inversion Hf' as [|? ? [_ X2] _]. subst. inversion Hl as [|? ? X _]. apply X. left. auto.
  - unfold N. lia.
  - intros pre _. apply few_fourth.
Qed.
End Count.
