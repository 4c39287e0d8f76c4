(** Soundness of the linearization of latticefold-plus/src/r1cs.rs and of the commitment transformation of cm.rs,
    for true openings at the final points. *)
From Coq Require Import String List Arith Lia ZArith Bool Ring.
From Verif Require Import Prelude Alg Poly MLE MLE_Proofs Transcript Sumcheck Sumcheck_Proofs CombDeg Arith Arith_Proofs Balanced
  Linearization_Proofs Folding_Sound Rings Rings_Proofs PlusRing PlusUtils_Proofs SetCheck SetCheck_Proofs SetCheck_Sound
  RangeCheck RangeCheck_Proofs RangeCheck_Sound Cm Cm_Proofs Plus.
Import ListNotations.
Local Open Scope rs_scope.

Section Lin.
Context {K R T : Type} {PO : POps K R} {TO : TransOps T R K} {p : Z} {PL : PLaws K R p}.
Add Ring Rring68 : (@rlaws_th R _ (pl_R (p := p))).
Add Ring Kring68 : (@rlaws_th K _ (fld_laws (FieldLaws := pl_K (p := p)))).

(** By how much row [i] of the R1CS is violated by [f]. *)
Definition r1cs_gap (rc : r1cs R) (f : list R) (i : nat) : R := mz (r_A rc) f i * mz (r_B rc) f i - mz (r_C rc) f i.
Definition lin_poly (rc : r1cs R) (f : list R) (r : list K) (x : list R) : R :=
  mle_spec (eqw (map emb r)) x * (mle_spec (mz (r_A rc) f) x * mle_spec (mz (r_B rc) f) x - mle_spec (mz (r_C rc) f) x).

Theorem plus_lin_sound (rc : r1cs R) (f : list R) (pf : r1cs_proof R) (ts ts' : T) : let n := rp_nvars pf in
  char_gt K 3 -> Plus.lin_verify pf ts = Ok (true, ts') ->
  let '(r, ts1) := get_challenges ts n in
  exists point s ts2, sc_verify ts1 n 3 0 (rp_sc pf) = Ok (point, s, ts2) /\ length point = n /\
  (rp_va pf = open_mul point (r_A rc) f -> rp_vb pf = open_mul point (r_B rc) f -> rp_vc pf = open_mul point (r_C rc) f ->
    (forall i, (i < 2 ^ n)%nat -> mz (r_A rc) f i * mz (r_B rc) f i = mz (r_C rc) f i) \/
    bad_coord (r1cs_gap rc f) r \/
    sc_bad n 3 (lin_poly rc f r) ts1 (rp_sc pf) point).
Proof.
  intros n Hc HV. unfold Plus.lin_verify in HV. fold n in HV.
  pose proof (get_challenges_length ts n) as Lr. destruct (get_challenges ts n) as [r ts1]. cbn [fst] in Lr.
  apply bind_ok_inv in HV as ([[point s] ts2] & Hsc & HV).
  destruct (sc_verify ts1 n 3 0 (rp_sc pf)) as [x| |] eqn:Esc; try discriminate Hsc. cbn [unwrap] in Hsc. injection Hsc as ->.
  exists point, s, ts2. split; [auto|]. pose proof (sc_verify_point _ _ _ _ _ _ _ _ Esc) as Lp. split; [auto|].
  intros Ea Eb Ec. rewrite eq_eval_spec, !map_length, Lp, Lr, Nat.eqb_refl in HV. cbn [unwrap bind] in HV.
  destruct (req_dec (eqp (map emb r) (map emb point) * (rp_va pf * rp_vb pf - rp_vc pf)) s) as [E|E].
  2:{ rewrite (proj2 (req_false _ _) E) in HV. discriminate. }
  destruct (all_zero_dec (r1cs_gap rc f) (2 ^ n)) as [Hz|(b & Hb & Hne)].
  { left. intros i Hi. specialize (Hz i Hi). unfold r1cs_gap in Hz.
    transitivity (mz (r_A rc) f i * mz (r_B rc) f i - mz (r_C rc) f i + mz (r_C rc) f i); [ring|rewrite Hz; ring]. }
  right. destruct (req_dec (mle_spec (r1cs_gap rc f) (map emb r)) 0) as [Hq|Hq].
  { left. eapply zero_mle_bad_coord; eauto. rewrite Lr. auto. }
  right. destruct (sumcheck_sound n 3 (lin_poly rc f r) ts1 0 (rp_sc pf) point s ts2) as [_ HB]; auto.
  - apply cdeg_var_deg. apply (cdeg_mul 1 2); [apply mle_spec_cdeg|]. apply cdeg_sub; [apply (cdeg_mul 1 1); apply mle_spec_cdeg|].
    eapply cdeg_mono; [|apply mle_spec_cdeg]. lia.
  - rewrite <- E, Ea, Eb, Ec. unfold lin_poly. rewrite mle_spec_eqw by (rewrite !map_length; lia).
    rewrite (eqp_sym (map emb r)) by (rewrite !map_length; lia). reflexivity.
  - intros E0. apply Hq. symmetry. etransitivity; [exact E0|]. unfold cube_sum. unfold mle_spec at 1. rewrite map_length, Lr. apply sumn_ext. intros i Hi.
    unfold lin_poly. rewrite !(mle_spec_bits _ n) by auto. unfold r1cs_gap. ring.
Qed.
End Lin.

Section CmSound.
Context {K R T : Type} {PO : POps K R} {TO : TransOps T R K} {p : Z} {PL : PLaws K R p}.
Add Ring Rring69 : (@rlaws_th R _ (pl_R (p := p))).
Add Ring Kring69 : (@rlaws_th K _ (fld_laws (FieldLaws := pl_K (p := p)))).

(** [c] is a root of a polynomial that is not zero; there are fewer roots than coefficients. *)
Definition bad_root (q : list R) (c : K) : Prop :=
  (exists i, nth i q 0 <> 0) /\ peval q (emb c) = 0 /\
  forall bad : list K, NoDup bad -> (forall y, In y bad -> peval q (emb y) = 0) -> (length bad < length q)%nat.
Lemma root_bad (q : list R) (c : K) : peval q (emb c) = 0 -> (forall i, nth i q 0 = 0) \/ bad_root q c.
Proof.
  intros H. destruct (all_zero_dec (fun i => nth i q 0) (length q)) as [Hz|(i & Hi & Hne)].
  - left. intros i. destruct (Nat.lt_ge_cases i (length q)) as [Hi|Hi]; [apply Hz; auto|apply nth_overflow; auto].
  - right. split; [eauto|]. split; [auto|]. intros bad Hnd Hb. apply Nat.nle_gt. intros HL.
    destruct (peval_apart (p := p) q bad i Hnd HL Hne) as (y & Hy & Hn). apply Hn. auto.
Qed.

Lemma mapM_val {A B} (f : A -> result B) (V : A -> B) l ys : mapM f l = Ok ys -> (forall x y, In x l -> f x = Ok y -> y = V x) -> ys = map V l.
Proof.
  revert ys; induction l as [|a l IH]; intros ys H HV; cbn [mapM] in H; [injection H as <-; auto|].
  apply bind_ok_inv in H as (b & Hb & H). apply bind_ok_inv in H as (bs & Hbs & H). injection H as <-. cbn [map]. f_equal.
  - apply (HV a b); auto. left; auto.
  - apply IH; auto. intros x y Hx. apply HV. right; auto.
Qed.
Lemma index_nth {A} (l : list A) i x d : index l i = Ok x -> nth i l d = x.
Proof. unfold index. revert i; induction l as [|a l IH]; intros [|i] H; cbn in *; try discriminate; [injection H; auto|auto]. Qed.
Lemma eval_vec_inv nv (v : list R) pt x : eval_vec nv v pt = Ok x -> length pt = nv -> (length v <= 2 ^ nv)%nat /\ x = vat v pt.
Proof.
  intros H Hp. assert (length v <= 2 ^ nv)%nat as Hl.
  { unfold eval_vec in H. apply bind_ok_inv in H as (m & Hm & _). apply mle_from_vec_ok in Hm as [Hl _]. auto. }
  split; auto. rewrite eval_vec_ok in H by auto. injection H as <-. reflexivity.
Qed.

(** The claim number [j] (0: [tau], 1: [m_tau], 2: [f], 3: [h]) about matrix [i] (0: none) of instance [l]. *)
Definition ev0 : dcom_evals K R := DcomEvals [] [] [] [].
Definition cm_claim (evals : list (dcom_evals K R)) (u : list (list R)) (l i j : nat) : R :=
  let ev := nth l evals ev0 in
  nth j [emb (nth i (de_a ev) 0); nth i (de_b ev) 0; nth i (de_c ev) 0; nth i (nth l u []) 0] 0.
Lemma cm_claimed_inv L Ml rck evals u tc0 tc1 v : let w := (4 + 4 * Ml)%nat in length evals = L ->
  cm_claimed L Ml (emb rck) evals u tc0 tc1 = Ok v ->
  v = sumn L (fun l => sumn w (fun q => cm_claim evals u l (q / 4) (q mod 4) * emb (rpow rck (l * w + q)))
        + nth l tc0 0 * emb (rpow rck (L * w)) + nth l tc1 0 * emb (rpow rck (L * w + 1))).
Proof.
  intros w HL H. unfold cm_claimed in H. fold w in H. apply bind_ok_inv in H as (terms & Ht & H). injection H as <-.
  set (V := fun l => sumn w (fun q => cm_claim evals u l (q / 4) (q mod 4) * emb (rpow rck (l * w + q)))
        + nth l tc0 0 * emb (rpow rck (L * w)) + nth l tc1 0 * emb (rpow rck (L * w + 1))).
  rewrite (mapM_val _ (fun le => V (fst le)) _ _ Ht).
  { rewrite (lsum_combine (p := p) _ _ ev0). cbn [fst]. rewrite HL. reflexivity. }
  intros [l ev] y Hle Hy. apply (in_combine_seq _ _ ev0) in Hle as [Hl Ee]. cbn [fst snd] in *.
  apply bind_ok_inv in Hy as (rows & Hr & Hy). apply bind_ok_inv in Hy as (a0 & H0 & Hy). apply bind_ok_inv in Hy as (a1 & H1 & Hy). injection Hy as <-.
  apply (index_nth _ _ _ 0) in H0, H1. unfold V. rewrite H0, H1, <- !(hom_pow _ emb_hom). f_equal. f_equal.
  rewrite (mapM_val _ (fun i => sumn 4 (fun j => cm_claim evals u l i j * emb (rpow rck (l * w + 4 * i + j)))) _ _ Hr).
  - rewrite lsum_map_seq. assert (forall g : nat -> R, sumn w g = sumn ((1 + Ml) * 4) g) as -> by (intros; f_equal; unfold w; lia). rewrite sumn_blocks. apply sumn_ext. intros i Hi. apply sumn_ext. intros j Hj.
    rewrite Nat.div_add_l, (Nat.div_small j), Nat.add_0_r by auto. rewrite (Nat.add_comm (i * 4)), Nat.mod_add, (Nat.mod_small j) by auto. do 3 f_equal. lia.
  - intros i z Hi Hz. apply bind_ok_inv in Hz as (a & Ha & Hz). apply bind_ok_inv in Hz as (b & Hb & Hz). apply bind_ok_inv in Hz as (c & Hc & Hz).
    apply bind_ok_inv in Hz as (ul & Hul & Hz). apply bind_ok_inv in Hz as (ui & Hui & Hz). injection Hz as <-.
    apply (index_nth _ _ _ 0) in Ha, Hb, Hc, Hui. apply (index_nth _ _ _ []) in Hul. unfold cm_claim. rewrite <- Ee. cbn [sumn nth]. rewrite Ha, Hb, Hc, Hul, Hui.
    rewrite <- !(hom_pow _ emb_hom). rewrite (Nat.add_0_r (l * w + 4 * i)). change (i + (i + (i + (i + 0))))%nat with (4 * i)%nat. ring.
Qed.

(** The differences between claims and truth, in the order of the powers of the batching challenge. *)
Definition cm_gap (nv L w : nat) (evals : list (dcom_evals K R)) (u : list (list R)) (tc0 tc1 : list R) (VS : list (list (list R))) (r : list K) (t0 t1 : list R) : list R :=
  map (fun q => cm_claim evals u (q / w) ((q mod w) / 4) ((q mod w) mod 4) - open r (nth (q mod w) (nth (q / w) VS []) [])) (seq 0 (L * w))
  ++ [sumn L (fun l => nth l tc0 0) - sumn L (fun l => dot (nth 0 (nth l VS []) []) t0 (2 ^ nv));
      sumn L (fun l => nth l tc1 0) - sumn L (fun l => dot (nth 0 (nth l VS []) []) t1 (2 ^ nv))].
Lemma cm_gap_peval nv L w evals u tc0 tc1 VS r t0 t1 rck : (1 <= w)%nat ->
  peval (cm_gap nv L w evals u tc0 tc1 VS r t0 t1) (emb rck) =
  sumn L (fun l => sumn w (fun q => cm_claim evals u l (q / 4) (q mod 4) * emb (rpow rck (l * w + q)))
        + nth l tc0 0 * emb (rpow rck (L * w)) + nth l tc1 0 * emb (rpow rck (L * w + 1))) - cm_sum nv L w rck VS r t0 t1.
Proof.
  intros Hw. rewrite peval_sum. unfold cm_gap at 1. rewrite app_length, map_length, seq_length. cbn [length].
  replace (L * w + 2)%nat with (S (S (L * w))) by lia. cbn [sumn]. unfold cm_gap.
  rewrite !(app_nth2 (map _ _)) by (rewrite map_length, seq_length; lia). rewrite map_length, seq_length, Nat.sub_diag.
  replace (S (L * w) - L * w)%nat with 1%nat by lia. cbn [nth].
  rewrite (sumn_ext (L * w) _ (fun q => (cm_claim evals u (q / w) ((q mod w) / 4) ((q mod w) mod 4) - open r (nth (q mod w) (nth (q / w) VS []) [])) * emb (rpow rck q))).
  2:{ intros q Hq. rewrite app_nth1 by (rewrite map_length, seq_length; auto). rewrite nth_seq_map by auto. rewrite <- (hom_pow _ emb_hom). auto. }
  rewrite sumn_blocks. unfold cm_sum. rewrite !sumn_add, !sumn_mul_r.
  rewrite <- !(hom_pow _ emb_hom). replace (L * w + 1)%nat with (S (L * w)) by lia.
  rewrite (sumn_ext L (fun i => sumn w _) (fun l => sumn w (fun q => cm_claim evals u l (q / 4) (q mod 4) * emb (rpow rck (l * w + q))) - sumn w (fun j => open r (nth j (nth l VS []) []) * emb (rpow rck (l * w + j))))).
  2:{ intros l Hl. rewrite <- sumn_sub. apply sumn_ext. intros q Hq. rewrite Nat.div_add_l, (Nat.div_small q), Nat.add_0_r by lia.
      rewrite (Nat.add_comm (l * w)), Nat.mod_add, (Nat.mod_small q) by lia. ring. }
  rewrite sumn_sub. ring.
Qed.

(** What the sumcheck establishes about the claims at [r]. *)
Definition claims_hold (nv : nat) (M : list (smat R)) (evals : list (dcom_evals K R)) (u : list (list R)) (tc0 tc1 : list R) (xhs : list (rg_inst K R * list R)) (r : list K) (t0 t1 : list R) : Prop :=
  (forall l i, (l < length xhs)%nat -> (i < 1 + length M)%nat ->
     let x := fst (nth l xhs (inst0, [])) in let h := snd (nth l xhs (inst0, [])) in let ev := nth l evals ev0 in
     emb (nth i (de_a ev) 0) = rowop M r i (map emb (ri_tau x)) /\ nth i (de_b ev) 0 = rowop M r i (ri_mtau x) /\
     nth i (de_c ev) 0 = rowop M r i (ri_f x) /\ nth i (nth l u []) 0 = rowop M r i h) /\
  lsum tc0 = sumn (length xhs) (fun l => dot (map emb (ri_tau (fst (nth l xhs (inst0, []))))) t0 (2 ^ nv)) /\
  lsum tc1 = sumn (length xhs) (fun l => dot (map emb (ri_tau (fst (nth l xhs (inst0, []))))) t1 (2 ^ nv)).
Definition half_bad (nv L w : nat) evals u tc0 tc1 VS r t0 t1 (ts : T) (prf : list (list R)) (point : list K) : Prop :=
  let '(rc, ts1) := get_challenge ts in
  bad_root (cm_gap nv L w evals u tc0 tc1 VS r t0 t1) rc \/ sc_bad nv 2 (cm_val L w rc VS r t0 t1) ts1 prf point.

Lemma half_sound n nv M insts hs dc u tc0 tc1 (t0 t1 : list R) prf evs (ts ts' : T) ro : let r := so_r (dc_out dc) in let L := length insts in let w := (4 + 4 * length M)%nat in
  char_gt K 2 -> so_nvars (dc_out dc) = nv -> length r = nv -> (n <= 2 ^ nv)%nat -> length hs = L -> length (dc_evals dc) = L -> length tc0 = L -> length tc1 = L ->
  Forall (m_ok n nv) M -> Forall (x_ok n) (combine insts hs) ->
  cm_verify_sc L (length M) dc u tc0 tc1 t0 t1 prf evs ts = Ok (ro, ts') ->
  (length t0 <= 2 ^ nv)%nat /\ (length t1 <= 2 ^ nv)%nat /\
  exists point, ro = map emb point /\ length point = nv /\
    (evs = map (true_ev4 M point) (combine insts hs) ->
      claims_hold nv M (dc_evals dc) u tc0 tc1 (combine insts hs) r t0 t1 \/
      half_bad nv L w (dc_evals dc) u tc0 tc1 (VSof M (combine insts hs)) r t0 t1 ts prf point).
Proof.
  intros r L w Hc Env Hr Hn Lh Le L0 L1 HM HX HV. unfold cm_verify_sc in HV. rewrite Env in HV. fold r in HV. unfold half_bad.
  destruct (get_challenge ts) as [rc ts1]. apply bind_ok_inv in HV as (cl & Hcl & HV).
  apply bind_ok_inv in HV as ([[point s] ts2] & Hsc & HV).
  destruct (sc_verify ts1 nv 2 cl prf) as [y| |] eqn:Esc; try discriminate Hsc. cbn [unwrap] in Hsc. injection Hsc as ->.
  pose proof (sc_verify_point _ _ _ _ _ _ _ _ Esc) as Lp.
  apply bind_ok_inv in HV as (v0 & Hv0 & HV). apply bind_ok_inv in HV as (v1 & Hv1 & HV).
  apply eval_vec_inv in Hv0 as [Lt0 ->]; [|rewrite map_length; auto]. apply eval_vec_inv in Hv1 as [Lt1 ->]; [|rewrite map_length; auto].
  split; [auto|]. split; [auto|].
  rewrite eq_eval_spec, !map_length, Lp, Hr, Nat.eqb_refl in HV. cbn [unwrap bind] in HV.
  apply bind_ok_inv in HV as (e & He & HV). destruct (req_dec s e) as [E|E]; [|rewrite (proj2 (req_false _ _) E) in HV; discriminate].
  rewrite (proj2 (req_true _ _) E) in HV. injection HV as <- _. exists point. split; [auto|]. split; [auto|]. intros ->.
  unfold L in He. rewrite (expected_ok (p := p) n nv) in He by auto. fold L w in He. injection He as <-. subst s.
  set (VS := VSof M (combine insts hs)) in *. apply cm_claimed_inv in Hcl; auto. fold w in Hcl.
  assert (peval (cm_gap nv L w (dc_evals dc) u tc0 tc1 VS r t0 t1) (emb rc) = cl - cm_sum nv L w rc VS r t0 t1) as EP.
  { rewrite cm_gap_peval by (unfold w; lia). rewrite <- Hcl. auto. }
  destruct (req_dec cl (cm_sum nv L w rc VS r t0 t1)) as [Eq|Nq].
  2:{ right. right. destruct (sumcheck_sound nv 2 (cm_val L w rc VS r t0 t1) ts1 cl prf point (cm_val L w rc VS r t0 t1 (map emb point)) ts2) as [_ HB]; auto.
      - apply cdeg_var_deg. unfold cm_val. apply cdeg_sumn. intros l _.
        assert (forall v, cdeg 1 (vat v : list R -> R)) as HCv by (intros; apply mle_spec_cdeg).
        assert (forall d f e, cdeg d f -> cdeg d (fun x : list R => f x * e)) as HCs.
        { intros d f e Hf. eapply (cdeg_mono (d + 0)); [lia|]. apply cdeg_mul; [auto|apply cdeg_const]. }
        apply cdeg_add; [apply cdeg_add|].
        + apply (cdeg_mul 1 1); [apply mle_spec_cdeg|]. apply cdeg_sumn. intros j _. apply HCs, HCv.
        + apply HCs. apply (cdeg_mul 1 1); apply HCv.
        + apply HCs. apply (cdeg_mul 1 1); apply HCv.
      - rewrite (cm_cube (p := p)) by auto. auto. }
  destruct (root_bad (cm_gap nv L w (dc_evals dc) u tc0 tc1 VS r t0 t1) rc) as [Hz|HB]; [rewrite EP, Eq; ring| |right; left; auto].
  left. assert (length (combine insts hs) = L) as LC by (rewrite combine_length; fold L; lia).
  assert (forall l, (l < L)%nat -> nth l VS [] = concat (ivs M (fst (nth l (combine insts hs) (inst0, []))) (snd (nth l (combine insts hs) (inst0, []))))) as EVS.
  { intros l Hl. unfold VS, VSof. apply (nth_map_lt (fun xh => concat (ivs M (fst xh) (snd xh)))). lia. }
  assert (forall a b : R, a - b = 0 -> a = b) as Hsub by (intros a b Hab; transitivity (a - b + b); [ring|rewrite Hab; ring]).
  unfold claims_hold. rewrite LC. split; [|split].
  - intros l i Hl Hi. set (x := fst (nth l (combine insts hs) (inst0, []))). set (h := snd (nth l (combine insts hs) (inst0, []))).
    assert (forall j, (j < 4)%nat -> cm_claim (dc_evals dc) u l i j = rowop M r i (nth j (vs4 x h) [])) as HJ.
    { intros j Hj. assert (l * w + (i * 4 + j) < L * w)%nat as Hq by (assert (i * 4 + j < w)%nat by (unfold w; lia); nia).
      specialize (Hz (l * w + (i * 4 + j))%nat). unfold cm_gap in Hz. rewrite app_nth1 in Hz by (rewrite map_length, seq_length; auto).
      rewrite nth_seq_map in Hz by auto. assert (i * 4 + j < w)%nat as Hw by (unfold w; lia).
      rewrite Nat.div_add_l, (Nat.div_small (i * 4 + j)), Nat.add_0_r in Hz by lia.
      rewrite (Nat.add_comm (l * w)), Nat.mod_add, (Nat.mod_small (i * 4 + j)) in Hz by lia.
      rewrite Nat.div_add_l, (Nat.div_small j), Nat.add_0_r in Hz by lia. rewrite (Nat.add_comm (i * 4)), Nat.mod_add, (Nat.mod_small j) in Hz by lia.
      apply Hsub in Hz. rewrite Hz. rewrite EVS by auto. rewrite (Nat.add_comm j).
      rewrite (nth_concat_const 4) by (try apply ivs_group; rewrite ?ivs_length; auto; lia).
      apply (ivs_open n nv M (nth l (combine insts hs) (inst0, []))); auto. rewrite Forall_forall in HX. apply HX, nth_In. lia. }
    pose proof (HJ 0%nat ltac:(lia)) as J0. pose proof (HJ 1%nat ltac:(lia)) as J1. pose proof (HJ 2%nat ltac:(lia)) as J2. pose proof (HJ 3%nat ltac:(lia)) as J3.
    unfold cm_claim, vs4 in J0, J1, J2, J3. cbn [nth] in J0, J1, J2, J3. auto.
  - specialize (Hz (L * w)%nat). unfold cm_gap in Hz. rewrite app_nth2 in Hz by (rewrite map_length, seq_length; lia). rewrite map_length, seq_length, Nat.sub_diag in Hz. cbn [nth] in Hz.
    apply Hsub in Hz. rewrite lsum_nth, L0, Hz. apply sumn_ext. intros l Hl. rewrite EVS by auto. reflexivity.
  - specialize (Hz (L * w + 1)%nat). unfold cm_gap in Hz. rewrite app_nth2 in Hz by (rewrite map_length, seq_length; lia). rewrite map_length, seq_length in Hz.
    replace (L * w + 1 - L * w)%nat with 1%nat in Hz by lia. cbn [nth] in Hz.
    apply Hsub in Hz. rewrite lsum_nth, L1, Hz. apply sumn_ext. intros l Hl. rewrite EVS by auto. reflexivity.
Qed.
(** The matrix of ring elements whose base-(d/2) digits and coefficients [tau] lists (in the order of [split]). *)
Definition recom (l m : nat) (tau : list K) (a j : nat) : R :=
  sumn l (fun i => emb (rpow (rofn (pdim / 2)) i) * sumn pdim (fun e => emb (nth (((a * m + j) * l + i) * pdim + e) tau 0) * pmono e)).
Lemma dot_t tau (c S : list R) l nv : let m := length S in let t := calculate_t_z c S (dp_pows l) x_pows in
  (1 <= m)%nat -> (1 <= l)%nat -> (length t <= 2 ^ nv)%nat ->
  dot (map emb tau) t (2 ^ nv) = sumn (2 ^ length c) (fun a => nth a (tensor c) 0 * sumn m (fun j => recom l m tau a j * nth j S 0)).
Proof.
  intros m t Hm Hl Ht. pose proof (t_length c S l Hm Hl) as Lt. fold t m in Lt. unfold dot.
  replace (2 ^ nv)%nat with (2 ^ length c * m * l * pdim + (2 ^ nv - 2 ^ length c * m * l * pdim))%nat by lia. rewrite sumn_split.
  rewrite (sumn_0 (2 ^ nv - _)). 2:{ intros i _. rewrite (nth_overflow t) by lia. ring. }
  rewrite sumn_blocks, sumn_blocks, sumn_blocks. rewrite radd_0_r. apply sumn_ext. intros a Ha. rewrite <- sumn_mul_l. apply sumn_ext. intros j Hj.
  unfold recom. rewrite <- sumn_mul_r, <- sumn_mul_l. apply sumn_ext. intros i Hi. rewrite <- sumn_mul_l, <- sumn_mul_r, <- sumn_mul_l. apply sumn_ext. intros e He.
  rewrite (nth_map_emb (p := p)). unfold t, m. rewrite t_nth by auto. ring.
Qed.

(** By how much the commitments of [h], summed over the instances, differ in entry [a] from the product of the double
    commitments with the challenges. *)
Definition com_gap (l m : nat) (insts : list (rg_inst K R)) (comh : list (list R)) (S : list R) (a : nat) : R :=
  sumn (length insts) (fun i => nth a (nth i comh []) 0) - sumn (length insts) (fun i => sumn m (fun j => recom l m (ri_tau (nth i insts inst0)) a j * nth j S 0)).
Lemma tcch_gap insts (hs comh : list (list R)) S l nv (c : list K) : let m := length S in let t := calculate_t_z (map emb c) S (dp_pows l) x_pows in
  (1 <= m)%nat -> (1 <= l)%nat -> (length t <= 2 ^ nv)%nat -> length hs = length insts -> length comh = length insts ->
  Forall (fun ch => (length ch <= 2 ^ length c)%nat) comh ->
  lsum (cm_tcch (map emb c) comh) = sumn (length (combine insts hs)) (fun i => dot (map emb (ri_tau (fst (nth i (combine insts hs) (inst0, []))))) t (2 ^ nv)) ->
  mle_spec (com_gap l m insts comh S) (map emb (rev c)) = 0.
Proof.
  intros m t Hm Hl Ht Lh Lc HF H.
  assert (length (combine insts hs) = length insts) as LC by (rewrite combine_length; lia). rewrite LC in H.
  rewrite (sumn_ext _ _ (fun i => sumn (2 ^ length c) (fun a => nth a (tensor (map emb c)) 0 * sumn m (fun j => recom l m (ri_tau (nth i insts inst0)) a j * nth j S 0)))) in H.
  2:{ intros i Hi. rewrite combine_nth by auto. cbn [fst]. unfold t. rewrite dot_t by auto. rewrite map_length. reflexivity. }
  rewrite lsum_nth in H. unfold cm_tcch at 1 in H. rewrite map_length, Lc in H.
  rewrite (sumn_ext _ (fun i => nth i (cm_tcch (map emb c) comh) 0) (fun i => sumn (2 ^ length c) (fun a => nth a (tensor (map emb c)) 0 * nth a (nth i comh []) 0))) in H.
  2:{ intros i Hi. unfold cm_tcch. rewrite (nth_map_lt _ _ _ []) by lia. rewrite Forall_forall in HF. assert (length (nth i comh []) <= 2 ^ length c)%nat as Li by (apply HF, nth_In; lia).
      rewrite lsum_nth, zipw_length, tensor_length, map_length, Nat.min_r by auto.
      replace (2 ^ length c)%nat with (length (nth i comh []) + (2 ^ length c - length (nth i comh [])))%nat by lia. rewrite sumn_split.
      rewrite (sumn_0 (2 ^ length c - _)) by (intros a _; rewrite (nth_overflow (nth i comh [])) by lia; ring).
      rewrite radd_0_r. apply sumn_ext. intros a Ha. apply nth_zipw; rewrite ?tensor_length, ?map_length; lia. }
  rewrite !(sumn_swap (length insts)) in H. unfold mle_spec. rewrite map_length, rev_length.
  transitivity (sumn (2 ^ length c) (fun a => sumn (length insts) (fun i => nth a (tensor (map emb c)) 0 * nth a (nth i comh []) 0))
     - sumn (2 ^ length c) (fun a => sumn (length insts) (fun i => nth a (tensor (map emb c)) 0 * sumn m (fun j => recom l m (ri_tau (nth i insts inst0)) a j * nth j S 0)))).
  - rewrite <- sumn_sub. apply sumn_ext. intros a Ha. rewrite !sumn_mul_l. rewrite (tensor_eqw (map emb c)) by (rewrite map_length; auto).
    rewrite map_rev. unfold com_gap. ring.
  - rewrite H. ring.
Qed.

(** The claims at the point [r] stored in the proof: evaluations of [tau], [m_tau], [f], of the combinations [u] of the
    openings of the digit matrices, and the commitments of [h] in sum. *)
Definition cm_true (M : list (smat R)) (proof : cm_proof K R) (s' : list (list R)) (insts : list (rg_inst K R)) (hs : list (list R)) : Prop :=
  let dc := cp_dcom proof in let P := dc_params dc in let r := so_r (dc_out dc) in
  (forall l i, (l < length insts)%nat -> (i < 1 + length M)%nat ->
     let x := nth l insts inst0 in let ev := nth l (dc_evals dc) ev0 in
     emb (nth i (de_a ev) 0) = rowop M r i (map emb (ri_tau x)) /\ nth i (de_b ev) 0 = rowop M r i (ri_mtau x) /\
     nth i (de_c ev) 0 = rowop M r i (ri_f x) /\ nth i (cm_u (rp_k P) l (concat s') (so_e (dc_out dc))) 0 = rowop M r i (nth l hs [])) /\
  (forall a, Forall (fun ch => (a < length ch)%nat) (cp_comh proof) ->
     sumn (length insts) (fun l => nth a (nth l (cp_comh proof) []) 0)
     = sumn (length insts) (fun l => sumn (rp_k P * pdim) (fun j => recom (rp_l P) (rp_k P * pdim) (ri_tau (nth l insts inst0)) a j * nth j (concat s') 0))).

(** The two halves of [cm_verify] after the challenges [c0], [c1]: the first starts at [ts3], the second at [ts4], and they end at the
    points [point0], [point1]. *)
Definition halves_at (M : list (smat R)) (proof : cm_proof K R) (s' : list (list R)) (c0 c1 point0 point1 : list K) (ts3 ts4 ts' : T) : Prop :=
  let dc := cp_dcom proof in let P := dc_params dc in let L := length (fst (cp_evals proof)) in
  let u := map (fun l => cm_u (rp_k P) l (concat s') (so_e (dc_out dc))) (seq 0 L) in
  let tz c := calculate_t_z (map emb c) (concat s') (dp_pows (rp_l P)) x_pows in
  let half := cm_verify_sc L (length M) dc u (cm_tcch (map emb c0) (cp_comh proof)) (cm_tcch (map emb c1) (cp_comh proof)) (tz c0) (tz c1) in
  half (fst (cp_sc proof)) (fst (cp_evals proof)) ts3 = Ok (map emb point0, ts4) /\
  half (snd (cp_sc proof)) (snd (cp_evals proof)) ts4 = Ok (map emb point1, ts').

Theorem cm_sound n nv kap insts hs M proof (ts ts' : T) x : let dc := cp_dcom proof in let P := dc_params dc in let r := so_r (dc_out dc) in let L := length insts in
  char_gt K 2 -> (128 / pdim < 64)%nat -> so_nvars (dc_out dc) = nv -> length r = nv -> (n <= 2 ^ nv)%nat -> (1 <= L)%nat -> length hs = L ->
  length (dc_evals dc) = L -> length (fst (cp_evals proof)) = L -> length (cp_comh proof) = L -> Forall (fun ch => length ch = kap) (cp_comh proof) ->
  (1 <= rp_k P)%nat -> (1 <= rp_l P)%nat -> Forall (m_ok n nv) M -> Forall (x_ok n) (combine insts hs) ->
  cm_verify proof M ts = Ok (x, ts') ->
  exists ts1 s s' ts2 c0 c1 ts3 point0 point1 ts4,
    rg_verify dc ts = Ok ts1 /\ cm_challenges (rp_k P) ts1 = Ok (s, s', ts2) /\
    c_challenges (cp_comh proof) (absorb_comh (cp_comh proof) ts2) = Ok (map emb c0, map emb c1, ts3) /\
    halves_at M proof s' c0 c1 point0 point1 ts3 ts4 ts' /\
    cx_ro x = combine (map emb point0) (map emb point1) /\ length point0 = nv /\ length point1 = nv /\
    (fst (cp_evals proof) = map (true_ev4 M point0) (combine insts hs) -> snd (cp_evals proof) = map (true_ev4 M point1) (combine insts hs) ->
      cm_true M proof s' insts hs \/
      (let u := map (fun l => cm_u (rp_k P) l (concat s') (so_e (dc_out dc))) (seq 0 L) in
       let tz c := calculate_t_z (map emb c) (concat s') (dp_pows (rp_l P)) x_pows in
       let bad := half_bad nv L (4 + 4 * length M) (dc_evals dc) u (cm_tcch (map emb c0) (cp_comh proof)) (cm_tcch (map emb c1) (cp_comh proof))
          (VSof M (combine insts hs)) r (tz c0) (tz c1) in
       bad ts3 (fst (cp_sc proof)) point0 /\ bad ts4 (snd (cp_sc proof)) point1) \/
      (let gap := com_gap (rp_l P) (rp_k P * pdim) insts (cp_comh proof) (concat s') in bad_coord gap (rev c0) /\ bad_coord gap (rev c1))).
Proof.
  intros dc P r L Hc Hlam Env Hr Hn HL Lh Lev Le Lch Fch Hk Hl HM HX HV. unfold cm_verify in HV. fold dc P in HV. rewrite Le in HV.
  apply bind_ok_inv in HV as (ts1 & H1 & HV). destruct (rg_verify dc ts) as [y| |] eqn:Erg; try discriminate H1. cbn [unwrap] in H1. injection H1 as ->.
  destruct (cm_challenges_ok (rp_k P) ts1 Hlam) as (s & s' & ts2 & C1 & C2 & C3). rewrite C1 in HV. cbn [bind] in HV.
  apply bind_ok_inv in HV as ([[e0 e1] ts3] & Hcc & HV). assert (Hcc' := Hcc). unfold c_challenges in Hcc'.
  rewrite (index_ok _ _ []) in Hcc' by lia. cbn [bind] in Hcc'.
  assert (length (nth 0 (cp_comh proof) []) = kap) as Lk by (rewrite Forall_forall in Fch; apply Fch, nth_In; lia). rewrite Lk in Hcc'.
  pose proof (get_challenges_length (absorb_comh (cp_comh proof) ts2) (ark_log2 kap)) as G0. destruct (get_challenges (absorb_comh (cp_comh proof) ts2) (ark_log2 kap)) as [c0 tsa].
  pose proof (get_challenges_length tsa (ark_log2 kap)) as G1. destruct (get_challenges tsa (ark_log2 kap)) as [c1 tsb]. cbn [fst] in G0, G1. injection Hcc' as <- <- <-.
  apply bind_ok_inv in HV as ([ro0 ts4] & HA & HV). apply bind_ok_inv in HV as ([ro1 ts5] & HB & HV). apply bind_ok_inv in HV as (x0 & Hx & HV). injection HV as -> ->.
  assert (length (concat s') = (rp_k P * pdim)%nat) as LS by (apply sp_concat_length; auto).
  pose proof (pdim_pos (p := p)) as Hd.
  assert (forall c, length (cm_tcch c (cp_comh proof)) = L) as Ltc by (intros; unfold cm_tcch; rewrite map_length; auto).
  destruct (half_sound n nv M insts hs dc _ _ _ _ _ _ _ _ _ _ Hc Env Hr Hn Lh Lev (Ltc (map emb c0)) (Ltc (map emb c1)) HM HX HA) as (Lt0 & Lt1 & point0 & -> & Lp0 & S0).
  destruct (half_sound n nv M insts hs dc _ _ _ _ _ _ _ _ _ _ Hc Env Hr Hn Lh Lev (Ltc (map emb c0)) (Ltc (map emb c1)) HM HX HB) as (_ & _ & point1 & -> & Lp1 & S1).
  exists ts1, s, s', ts2, c0, c1, tsb, point0, point1, ts4. split; [auto|]. split; [auto|]. split; [auto|].
  split. { unfold halves_at. rewrite Le. split; [exact HA|exact HB]. }
  split. { unfold cm_x in Hx. apply bind_ok_inv in Hx as (? & _ & Hx). apply bind_ok_inv in Hx as (? & _ & Hx). injection Hx as <-. reflexivity. }
  split; [auto|]. split; [auto|]. intros E0 E1. specialize (S0 E0). specialize (S1 E1).
  assert (length (combine insts hs) = L) as LC by (rewrite combine_length; fold L; lia).
  set (gap := com_gap (rp_l P) (rp_k P * pdim) insts (cp_comh proof) (concat s')).
  assert (claims_hold nv M (dc_evals dc) (map (fun l => cm_u (rp_k P) l (concat s') (so_e (dc_out dc))) (seq 0 L)) (cm_tcch (map emb c0) (cp_comh proof)) (cm_tcch (map emb c1) (cp_comh proof)) (combine insts hs) r
     (calculate_t_z (map emb c0) (concat s') (dp_pows (rp_l P)) x_pows) (calculate_t_z (map emb c1) (concat s') (dp_pows (rp_l P)) x_pows) ->
     cm_true M proof s' insts hs \/ (bad_coord gap (rev c0) /\ bad_coord gap (rev c1))) as HCT.
  { intros (T1 & T2 & T3).
    assert (Forall (fun ch => (length ch <= 2 ^ length c0)%nat) (cp_comh proof)) as F0.
    { eapply Forall_impl; [|exact Fch]. cbn beta. intros ch ->. rewrite G0. apply ark_log2_ge. }
    assert (Forall (fun ch => (length ch <= 2 ^ length c1)%nat) (cp_comh proof)) as F1 by (rewrite G1, <- G0; auto).
    apply (tcch_gap insts hs (cp_comh proof) (concat s') (rp_l P) nv c0) in T2; auto; [|rewrite LS; nia].
    apply (tcch_gap insts hs (cp_comh proof) (concat s') (rp_l P) nv c1) in T3; auto; [|rewrite LS; nia].
    rewrite LS in T2, T3. fold gap in T2, T3.
    destruct (all_zero_dec gap (2 ^ length c0)) as [Hz|(b & Hb & Hne)].
    - left. split.
      + intros l i Hl' Hi. cbv zeta in T1. rewrite LC in T1. specialize (T1 l i Hl' Hi). rewrite combine_nth in T1 by auto. cbn [fst snd] in T1.
        rewrite nth_seq_map in T1 by auto. exact T1.
      + fold dc P. intros a Ha. assert (a < 2 ^ length c0)%nat as Ha'.
        { rewrite Forall_forall in Ha. specialize (Ha _ (nth_In (cp_comh proof) [] (n := 0) ltac:(lia))). rewrite Lk in Ha. rewrite G0. pose proof (ark_log2_ge kap). lia. }
        specialize (Hz a Ha'). unfold gap, com_gap in Hz. 
        match type of Hz with ?A - ?B = 0 => transitivity (A - B + B); [ring|rewrite Hz; ring] end.
    - right. split; eapply zero_mle_bad_coord; eauto; rewrite rev_length; [|rewrite G1, <- G0]; auto. }
  destruct S0 as [S0|S0]; [destruct (HCT S0); auto|]. destruct S1 as [S1|S1]; [destruct (HCT S1); auto|].
  right. left. cbv zeta. split; auto.
Qed.

(** The three comparisons missing from the verifiers: the point stored in the proof is the one of the sumcheck, the set
    check's opening of [m_tau] is the one folded, and [v] holds the coefficients of the opening of [f]. *)
Definition compared (dc : dcom K R) (point : list K) : Prop :=
  so_r (dc_out dc) = point /\
  Forall2 (fun ev b => exists a0 c0, nth_error (de_a ev) 0 = Some a0 /\ nth_error (de_b ev) 0 = Some b /\ nth_error (de_c ev) 0 = Some c0 /\ de_v ev = pcoeffs c0) (dc_evals dc) (so_b (dc_out dc)).
Lemma coeffs_open point f : pcoeffs (open point f) = coeff_evals point f.
Proof.
  unfold coeff_evals. apply (list_ext 0); [rewrite map_length, seq_length; apply pcoeffs_length|]. intros j Hj. rewrite pcoeffs_length in Hj.
  rewrite nth_seq_map by auto. unfold open, mle_spec. rewrite map_length, (nth_pcoeffs_sumn (p := p)). apply sumn_ext. intros b Hb.
  rewrite <- (hom_eqw (emb : K -> R) emb_hom). replace (nth b f 0 * emb (eqw point b)) with (emb (eqw point b) * nth b f 0) by ring. rewrite (nth_pcoeffs_scale (p := p)). ring.
Qed.
Theorem compared_opens M proof s' insts hs point : let dc := cp_dcom proof in
  cm_true M proof s' insts hs -> compared dc point -> length (dc_evals dc) = length insts ->
  nth 0 (so_e (dc_out dc)) [] = map (map (open point)) (flat_map inst_cols insts) -> rg_opens dc insts point.
Proof.
  intros dc [HT _] [Er HC] Lev He. fold dc in HT. rewrite Er in HT.
  apply (Forall2_nth _ _ _ ev0 0) in HC as [LC HC].
  assert (forall l, (l < length insts)%nat -> exists a0 c0, let ev := nth l (dc_evals dc) ev0 in let x := nth l insts inst0 in
     nth_error (de_a ev) 0 = Some a0 /\ nth_error (de_b ev) 0 = Some (nth l (so_b (dc_out dc)) 0) /\ de_v ev = pcoeffs c0 /\
     a0 = mle_spec (fun i => nth i (ri_tau x) 0) point /\ nth l (so_b (dc_out dc)) 0 = open point (ri_mtau x) /\ c0 = open point (ri_f x)) as HL.
  { intros l Hl. destruct (HC l ltac:(lia)) as (a0 & c0 & H1 & H2 & H3 & H4). exists a0, c0. cbv zeta. do 3 (split; [auto|]).
    destruct (HT l 0%nat Hl ltac:(lia)) as (T1 & T2 & T3 & _). cbn [rowop] in T1, T2, T3. rewrite (nth_error_nth _ _ _ H1) in T1. rewrite (nth_error_nth _ _ _ H2) in T2. rewrite (nth_error_nth _ _ _ H3) in T3.
    repeat split; auto. rewrite <- (emb_open (p := p)) in T1. apply (f_equal pct) in T1. rewrite !(pct_emb (p := p)) in T1. auto. }
  split; [exact He|]. split.
  - apply (list_ext 0); [rewrite map_length; congruence|]. intros l Hl. rewrite (nth_map_lt _ _ _ inst0) by congruence. destruct (HL l ltac:(congruence)) as (a0 & c0 & H). apply H.
  - apply (Forall2_nth _ _ _ ev0 inst0). split; [auto|]. intros l Hl. destruct (HL l ltac:(congruence)) as (a0 & c0 & H1 & H2 & H3 & H4 & H5 & H6).
    split; [rewrite H3, H6; apply coeffs_open|]. rewrite H1, H2, H4, H5. auto.
Qed.

(** A linear form with a nonzero coefficient that vanishes at the challenges; for the other challenges fixed, at most one
    value of a set with invertible differences does this. *)
Definition bad_linear (d S : list R) : Prop :=
  exists i, (i < length d)%nat /\ nth i d 0 <> 0 /\ sumn (length d) (fun j => nth j d 0 * nth j S 0) = 0 /\
    forall bad : list R, NoDup bad -> (forall y, In y bad -> sumn (length d) (fun j => nth j d 0 * (if (j =? i)%nat then y else nth j S 0)) = 0) ->
      (forall a b, In a bad -> In b bad -> a <> b -> exists v, v * (a - b) = 1) -> (length bad <= 1)%nat.
Lemma linear_bad (d S : list R) : sumn (length d) (fun j => nth j d 0 * nth j S 0) = 0 -> (forall i, (i < length d)%nat -> nth i d 0 = 0) \/ bad_linear d S.
Proof.
  intros H. destruct (all_zero_dec (fun i => nth i d 0) (length d)) as [Hz|(i & Hi & Hne)]; [left; auto|right].
  exists i. split; [auto|]. split; [auto|]. split; [auto|]. intros bad Hnd Hb Hinv. destruct bad as [|a [|b bad]]; cbn [length]; try lia. exfalso.
  assert (a <> b) as Hab by (inversion Hnd as [|? ? Hn _]; intros ->; apply Hn; left; auto).
  destruct (Hinv a b) as (v & Hv); [left; auto|right; left; auto|auto|].
  assert (forall y, sumn (length d) (fun j => nth j d 0 * (if (j =? i)%nat then y else nth j S 0)) = nth i d 0 * y + sumn (length d) (fun j => if (j =? i)%nat then 0 else nth j d 0 * nth j S 0)) as E.
  { intros y. transitivity (sumn (length d) (fun j => if (j =? i)%nat then nth i d 0 * y else 0) + sumn (length d) (fun j => if (j =? i)%nat then 0 else nth j d 0 * nth j S 0)).
    - rewrite <- sumn_add. apply sumn_ext. intros j _. destruct (Nat.eqb_spec j i); [subst; ring|ring].
    - f_equal. rewrite (sumn_single _ i); [rewrite Nat.eqb_refl; auto|auto|]. intros j _ Hj. apply Nat.eqb_neq in Hj. rewrite Hj. auto. }
  pose proof (Hb a ltac:(left; auto)) as Ha. pose proof (Hb b ltac:(right; left; auto)) as Hb'. rewrite E in Ha, Hb'.
  apply Hne. set (c := sumn (length d) (fun j => if (j =? i)%nat then 0 else nth j d 0 * nth j S 0)) in *.
  transitivity (nth i d 0 * (v * (a - b))); [rewrite Hv; ring|].
  transitivity (v * ((nth i d 0 * a + c) - (nth i d 0 * b + c))); [ring|]. rewrite Ha, Hb'. ring.
Qed.

(** By how much the openings [e] of the digit matrices of instance [l] miss the true ones. *)
Definition e_gap (dc : dcom K R) (insts : list (rg_inst K R)) (point : list K) (l : nat) : list R :=
  let k := rp_k (dc_params dc) in
  zipw (fun a b => a - b) (concat (firstn k (skipn (l * k) (nth 0 (so_e (dc_out dc)) []))))
    (concat (firstn k (skipn (l * k) (map (map (open point)) (flat_map inst_cols insts))))).

Lemma zipw_sub_zero (a b : list R) : length a = length b -> (forall i, (i < length (zipw (fun x y => (x - y)%rs) a b))%nat -> nth i (zipw (fun x y => x - y) a b) 0 = 0) -> a = b.
Proof.
  revert b; induction a as [|x a IH]; intros [|y b] HL H; try discriminate; auto. cbn [zipw length] in H. f_equal.
  - specialize (H 0%nat ltac:(lia)). cbn [nth] in H. transitivity (x - y + y); [ring|rewrite H; ring].
  - apply IH; [cbn in HL; lia|]. intros i Hi. apply (H (S i)). lia.
Qed.
Lemma app_len_inj {A} (x y a b : list A) : length x = length y -> x ++ a = y ++ b -> x = y /\ a = b.
Proof. revert y; induction x as [|u x IH]; intros [|v y] HL HE; try discriminate; auto. injection HL as HL. injection HE as -> HE. destruct (IH y HL HE) as [-> ->]. auto. Qed.
Lemma concat_inj (w : nat) (a b : list (list R)) : Forall (fun x => length x = w) a -> Forall (fun x => length x = w) b -> length a = length b -> concat a = concat b -> a = b.
Proof.
  intros HA. revert b. induction HA as [|x a Hx HA IH]; intros [|y b] HB HL HC; try discriminate; auto. inversion HB as [|? ? Hy HB']. subst. cbn [concat] in HC.
  assert (x = y /\ concat a = concat b) as [-> E].
  { apply app_len_inj; auto. }
  f_equal. apply IH; auto.
Qed.
Lemma sk_sk {A} (a b : nat) (l : list A) : skipn a (skipn b l) = skipn (a + b) l.
Proof. revert l; induction b as [|b IH]; intros l; [rewrite Nat.add_0_r; auto|]. destruct l as [|x l]; [rewrite !skipn_nil; auto|]. rewrite Nat.add_succ_r. cbn [skipn]. apply IH. Qed.
Lemma blocks_eq {A} (k L : nat) (a b : list A) : length a = (L * k)%nat -> length b = (L * k)%nat ->
  (forall l, (l < L)%nat -> firstn k (skipn (l * k) a) = firstn k (skipn (l * k) b)) -> a = b.
Proof.
  revert a b; induction L as [|L IH]; intros a b Ha Hb H.
  - destruct a, b; try discriminate; auto.
  - rewrite <- (firstn_skipn k a), <- (firstn_skipn k b). f_equal.
    + apply (H 0%nat). lia.
    + apply IH; rewrite ?skipn_length; try lia. intros l Hl. rewrite !sk_sk. replace (l * k + k)%nat with (S l * k)%nat by lia. apply H. lia.
Qed.

Theorem digits_open n nv M proof s' insts hs point : let dc := cp_dcom proof in let k := rp_k (dc_params dc) in let L := length insts in
  cm_true M proof s' insts hs -> compared dc point -> length point = nv -> (n <= 2 ^ nv)%nat -> length (dc_evals dc) = L -> sp_ok k s' ->
  Forall (mf_shape n k) insts -> hs = map (fun x => hvec n (ri_Mf x) s') insts ->
  length (nth 0 (so_e (dc_out dc)) []) = (L * k)%nat -> Forall (fun e => length e = pdim) (nth 0 (so_e (dc_out dc)) []) ->
  rg_opens dc insts point \/ exists l, (l < L)%nat /\ bad_linear (e_gap dc insts point l) (concat s').
Proof.
  intros dc k L HT HC Lp Hn Lev HS HM Eh Le Fe. set (e := nth 0 (so_e (dc_out dc)) []) in *.
  set (e' := map (map (open point)) (flat_map inst_cols insts)).
  assert (length e' = (L * k)%nat) as Le'.
  { unfold e', L. rewrite map_length. clear - HM. induction HM as [|x l [Hx _] _ IH]; auto. cbn [flat_map length]. rewrite app_length, IH. unfold inst_cols. rewrite map_length, Hx. lia. }
  assert (Forall (fun c => length c = pdim) e') as Fe'.
  { unfold e'. apply Forall_map, Forall_forall. intros c Hc. apply in_flat_map in Hc as (x & _ & Hc). unfold inst_cols in Hc. apply in_map_iff in Hc as (M0 & <- & _).
    unfold dcols. rewrite !map_length, seq_length. auto. }
  assert (forall (a : list (list R)) l, length a = (L * k)%nat -> Forall (fun c => length c = pdim) a -> (l < L)%nat ->
     length (firstn k (skipn (l * k) a)) = k /\ Forall (fun c => length c = pdim) (firstn k (skipn (l * k) a)) /\ length (concat (firstn k (skipn (l * k) a))) = (k * pdim)%nat) as HB.
  { intros a l La Fa Hl. assert (length (firstn k (skipn (l * k) a)) = k) as L1 by (rewrite firstn_length, skipn_length; nia).
    assert (Forall (fun c => length c = pdim) (firstn k (skipn (l * k) a))) as F1.
    { rewrite <- (firstn_skipn (l * k) a) in Fa. apply Forall_app in Fa as [_ Fa]. rewrite <- (firstn_skipn k (skipn (l * k) a)) in Fa. apply Forall_app in Fa as [Fa _]. auto. }
    split; [auto|]. split; [auto|]. rewrite (concat_length_const pdim), L1; auto. rewrite Forall_forall in F1. auto. }
  pose proof (sp_concat_length k s' HS) as LS.
  assert (forall l, (l < L)%nat -> (forall i, (i < length (e_gap dc insts point l))%nat -> nth i (e_gap dc insts point l) 0 = 0) \/ bad_linear (e_gap dc insts point l) (concat s')) as HL.
  { intros l Hl. apply linear_bad. destruct HT as [HT _]. fold dc in HT. destruct (HT l 0%nat Hl ltac:(lia)) as (_ & _ & _ & HU). destruct HC as [Er HC]. rewrite Er in HU. cbn [rowop] in HU.
    assert (nth 0 (cm_u k l (concat s') (so_e (dc_out dc))) 0 = lsum (zipw rmul (concat (firstn k (skipn (l * k) e))) (concat s'))) as EU.
    { unfold cm_u, e. destruct (so_e (dc_out dc)) as [|e0 es]; cbn [map nth]; [|auto]. rewrite skipn_nil, firstn_nil. reflexivity. }
    fold k in HU. rewrite EU in HU. rewrite Eh in HU. rewrite (nth_map_lt _ _ _ inst0) in HU by auto.
    rewrite <- (cm_u_gen (p := p) n k insts s' (open point) l inst0) in HU by (auto; apply (rlin_open (p := p)); rewrite Lp; auto). fold e' in HU.
    destruct (HB e l Le Fe Hl) as (_ & _ & B1). destruct (HB e' l Le' Fe' Hl) as (_ & _ & B2).
    unfold e_gap. fold k e e'. rewrite zipw_length, B1, B2, Nat.min_id. rewrite !lsum_nth, !zipw_length, B1, B2, LS, Nat.min_id in HU.
    transitivity (sumn (k * pdim) (fun i => nth i (zipw rmul (concat (firstn k (skipn (l * k) e))) (concat s')) 0) - sumn (k * pdim) (fun i => nth i (zipw rmul (concat (firstn k (skipn (l * k) e'))) (concat s')) 0)).
    - rewrite <- sumn_sub. apply sumn_ext. intros j Hj. rewrite !(nth_zipw _ _ _ _ 0 0) by lia. ring.
    - rewrite HU. ring. }
  assert ((exists l, (l < L)%nat /\ bad_linear (e_gap dc insts point l) (concat s')) \/ forall l, (l < L)%nat -> forall i, (i < length (e_gap dc insts point l))%nat -> nth i (e_gap dc insts point l) 0 = 0) as [H|H]; [|right; auto|].
  { clear - HL. revert HL. generalize L. intros N. induction N as [|N IH]; intros HL; [right; intros; lia|].
    destruct (HL N ltac:(lia)) as [H|H]; [|left; exists N; split; auto]. destruct IH as [(l & Hl & H')|H']; [intros; apply HL; lia|left; exists l; split; [lia|auto]|].
    right. intros l Hl. destruct (Nat.eq_dec l N) as [->|]; [auto|]. apply H'. lia. }
  left. apply (compared_opens M proof s' insts hs); auto. fold dc e e'. apply (blocks_eq k L); auto. intros l Hl.
  destruct (HB e l Le Fe Hl) as (B1 & B2 & B3). destruct (HB e' l Le' Fe' Hl) as (B1' & B2' & B3').
  apply (concat_inj pdim); auto; [congruence|]. apply zipw_sub_zero; [congruence|]. apply (H l Hl).
Qed.

(** The verifier with the three comparisons added: for true evaluations at the final points, the instances are well
    formed, or a challenge of the range check, of the combination [s'] or of the two sumchecks was bad. *)
Definition range_bad (n k : nat) (insts : list (rg_inst K R)) ref (dc : dcom K R) (ts : T) (point : list K) : Prop :=
  let L := length insts in
  let '(cba, ts1) := cba_loop (L * k + L) n ts in
  let '(rc, ts2) := opt_challenge (L * k) ts1 in
  bad_batch (sc_degree pdim (L * k + L)) (sc_G n (1 <? L * k)%nat (claims (range_cols insts) (range_vecs insts))) ref (sc_cvec cba rc) \/
  sc_bad n 3 (sc_g (claims (range_cols insts) (range_vecs insts)) cba rc) ts2 (so_sc (dc_out dc)) point \/
  exists x, In x insts /\ ((exists c, (c < pdim)%nat /\ bad_coord (fun b => emb (digit_gap k x c b) : R) point) \/ bad_coord (fun b => emb (tau_gap x b) : R) point).
Definition range_point (n m w : nat) (dc : dcom K R) (ts : T) (point : list K) : Prop :=
  let '(cba, ts1) := cba_loop m n ts in
  let '(rc, ts2) := opt_challenge w ts1 in
  exists v ts3, sc_verify ts2 n 3 0 (so_sc (dc_out dc)) = Ok (point, v, ts3).
Theorem cm_compared_sound n nv kap k insts M (pts : list K) : let L := length insts in
  NoDup pts -> (Nat.max (2 * pdim - 1) (L * k + L) <= length pts)%nat -> char_gt K 3 -> (128 / pdim < 64)%nat -> (n <= 2 ^ nv)%nat -> (1 <= L)%nat -> (1 <= k)%nat ->
  Forall (m_ok n nv) M -> Forall (rg_data n k) insts ->
  exists ref, forall (proof : cm_proof K R) (ts ts' : T) x, let dc := cp_dcom proof in let P := dc_params dc in
    so_nvars (dc_out dc) = nv -> length (so_r (dc_out dc)) = nv -> rp_k P = k -> (1 <= rp_l P)%nat -> length (so_b (dc_out dc)) = L ->
    length (nth 0 (so_e (dc_out dc)) []) = (L * k)%nat -> Forall (fun e => length e = pdim) (nth 0 (so_e (dc_out dc)) []) ->
    length (dc_evals dc) = L -> length (fst (cp_evals proof)) = L -> length (cp_comh proof) = L -> Forall (fun ch => length ch = kap) (cp_comh proof) ->
    cm_verify proof M ts = Ok (x, ts') ->
    exists ts1 s s' ts2 c0 c1 ts3 point point0 point1 ts4,
      rg_verify dc ts = Ok ts1 /\ range_point nv (L * k + L) (L * k) dc ts point /\ cm_challenges k ts1 = Ok (s, s', ts2) /\
      c_challenges (cp_comh proof) (absorb_comh (cp_comh proof) ts2) = Ok (map emb c0, map emb c1, ts3) /\
      halves_at M proof s' c0 c1 point0 point1 ts3 ts4 ts' /\
      cx_ro x = combine (map emb point0) (map emb point1) /\
      let hs := map (fun x => hvec n (ri_Mf x) s') insts in
      (compared dc point -> fst (cp_evals proof) = map (true_ev4 M point0) (combine insts hs) -> snd (cp_evals proof) = map (true_ev4 M point1) (combine insts hs) ->
        (Forall (rg_wf ri_f n k) insts /\ cm_true M proof s' insts hs) \/
        range_bad nv k insts ref dc ts point \/
        (exists l, (l < L)%nat /\ bad_linear (e_gap dc insts point l) (concat s')) \/
        (let u := map (fun l => cm_u k l (concat s') (so_e (dc_out dc))) (seq 0 L) in
         let tz c := calculate_t_z (map emb c) (concat s') (dp_pows (rp_l P)) x_pows in
         let bad := half_bad nv L (4 + 4 * length M) (dc_evals dc) u (cm_tcch (map emb c0) (cp_comh proof)) (cm_tcch (map emb c1) (cp_comh proof))
            (VSof M (combine insts hs)) point (tz c0) (tz c1) in
         bad ts3 (fst (cp_sc proof)) point0 /\ bad ts4 (snd (cp_sc proof)) point1) \/
        (let gap := com_gap (rp_l P) (k * pdim) insts (cp_comh proof) (concat s') in bad_coord gap (rev c0) /\ bad_coord gap (rev c1))).
Proof.
  intros L Hpts Lpts Hc Hlam Hn HL Hk HM HD. destruct (range_check_sound (p := p) nv n k insts pts Hpts Lpts Hc Hn HD) as (ref & HR). fold L in HR.
  exists ref. intros proof ts ts' x dc P Env Lr Ek Hl Lb Le Fe Lev Lfe Lch Fch HV.
  assert (exists ts1, rg_verify dc ts = Ok ts1) as (ts1 & Erg).
  { unfold cm_verify in HV. fold dc in HV. destruct (rg_verify dc ts) as [y| |]; [eauto|discriminate HV..]. }
  destruct (cm_challenges_ok k ts1 Hlam) as (s & s' & ts2 & C1 & C2 & C3).
  assert (forall y : rg_inst K R, length (hvec n (ri_Mf y) s') = n) as Lhv by (intros; unfold hvec; rewrite map_length, seq_length; auto).
  assert (char_gt K 2) as Hc2 by (intros i Hi; apply Hc; lia).
  assert (Forall (x_ok n) (combine insts (map (fun x => hvec n (ri_Mf x) s') insts))) as HX.
  { apply Forall_forall. intros [y h] Hy. assert (In y insts) as Hy1 by (eapply in_combine_l; eauto). assert (In h (map (fun x => hvec n (ri_Mf x) s') insts)) as Hh by (eapply in_combine_r; eauto).
    apply in_map_iff in Hh as (y' & <- & _). rewrite Forall_forall in HD. destruct (HD y Hy1). unfold x_ok. cbn [fst snd]. auto. }
  pose proof (cm_sound n nv kap insts (map (fun x => hvec n (ri_Mf x) s') insts) M proof ts ts' x) as HS. cbv zeta in HS. fold dc P L in HS. rewrite Ek in HS.
  specialize (HS Hc2 Hlam Env Lr Hn HL ltac:(apply map_length) Lev Lfe Lch Fch Hk Hl HM HX HV).
  destruct HS as (ts1' & s0 & s0' & ts2' & c0 & c1 & ts3 & point0 & point1 & ts4 & E1 & E2 & E3 & EH & E4 & _ & _ & HS).
  rewrite Erg in E1. injection E1 as <-. rewrite C1 in E2. injection E2 as <- <- <-.
  specialize (HR dc ts ts1 Env Ek Le Lb Erg). unfold range_point, range_bad. fold L.
  destruct (cba_loop (L * k + L) nv ts) as [cba tsa]. destruct (opt_challenge (L * k) tsa) as [rc tsb].
  destruct HR as (point & v & tsc & Hsv & Lp & HR).
  exists ts1, s, s', ts2, c0, c1, ts3, point, point0, point1, ts4.
  split; [auto|]. split; [eauto|]. split; [auto|]. split; [auto|]. split; [exact EH|]. split; [auto|]. cbv zeta. intros HC V0 V1.
  destruct (HS V0 V1) as [HT|[HB|HB]].
  - assert (Forall (mf_shape n k) insts) as HMf.
    { eapply Forall_impl; [|exact HD]. intros y [_ D2 D3 _ _]. split; auto. eapply Forall_impl; [|exact D3]. intros ? []; auto. }
    pose proof (digits_open n nv M proof s' insts _ point HT HC Lp Hn Lev) as HO. cbv zeta in HO. fold dc P L in HO. rewrite Ek in HO.
    specialize (HO C3 HMf eq_refl Le Fe). destruct HO as [HO|HO]; [|auto]. destruct (HR HO) as [HW|HB]; auto.
  - destruct HC as [Er _]. rewrite Er in HB. do 3 right. left. exact HB.
  - do 4 right. exact HB.
Qed.
End CmSound.
