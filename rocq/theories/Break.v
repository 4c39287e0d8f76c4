(** For the tight parameters an honest second fold can be rejected. *)
From Coq Require Import String List Arith Lia ZArith Bool Ring Znumtheory.
From Verif Require Import Prelude Alg Poly MLE MLE_Proofs Transcript Interp Sumcheck Sumcheck_Proofs
  Arith Arith_Proofs Balanced Rings Rings_Proofs Linearization Linearization_Proofs Relations LinRel
  Decomposition Decomposition_Proofs Folding Folding_Comb Folding_Proofs Folding_Complete Folding_Sound NIFS NIFS_Proofs Extract
  Challenge Challenge_Proofs PolyInst Primes FieldExt CycInst RealRings ShortDual Sampling Properties9 Properties12 Shipped Zippel Reject Properties13.
Import ListNotations.
Local Open Scope rs_scope.

Section Zero.
Context {F K C R T : Type} {SO : SOps F K C R} {p : Z} {SL : SLaws F K C R p} {TO : TransOps T R K} {HO : ShortOps T C}.
Add Ring Rring78 : (@rlaws_th R _ _).
(** Every challenge of the transcript is zero. *)
Definition zero_tr : Prop := forall ts : T, fst (get_challenge ts) = (0 : K).
Lemma verify_loop_zero k : zero_tr -> forall (ts : T) proof msgs cs ts', verify_loop k ts proof = Ok (msgs, cs, ts') -> Forall (fun c : K => c = 0) cs.
Proof.
  intros HZ. induction k as [|k IH]; intros ts proof msgs cs ts' H; cbn [verify_loop] in H; [injection H as <- <- <-; constructor|].
  destruct proof as [|msg proof]; [discriminate|]. pose proof (HZ (absorb_slice ts msg)) as H0. destruct (get_challenge (absorb_slice ts msg)) as [c t1]. cbn [fst] in H0. subst c.
  apply bind_ok_inv in H as ([[m c] t2] & E & H). injection H as <- <- <-. constructor; auto. eapply IH; eauto.
Qed.
Lemma nifs_point_zero P acc cm_i pf (ts : T) (cs : ccs R) lc ts' : zero_tr -> nifs_verify P acc cm_i pf ts cs = Ok (lc, ts') ->
  exists rs : list K, lc_r lc = map emb rs /\ Forall (fun c => c = 0) rs.
Proof.
  intros HZ HV. unfold nifs_verify in HV. apply bind_ok_inv in HV as ([] & _ & HV). apply bind_ok_inv in HV as ([l1 t1] & _ & HV).
  apply bind_ok_inv in HV as ([l2 t2] & _ & HV). apply bind_ok_inv in HV as ([l3 t3] & _ & HV). unfold fold_verify in HV.
  apply bind_ok_inv in HV as ([] & _ & HV). destruct (squeeze_abzm P t3 (c_s cs)) as [[[[al be] ze] mu] t4].
  apply bind_ok_inv in HV as ([[point s] t5] & ES & HV). apply bind_ok_inv in HV as ([] & _ & HV).
  destruct (get_rhos P _) as [[rc rr] t6]. apply bind_ok_inv in HV as ([[[v0 cm0] u0] x0] & _ & HV). apply bind_ok_inv in HV as (lc0 & EP & HV).
  apply ok_inj in HV. injection HV as <- <-. unfold public_output in EP. apply bind_ok_inv in EP as (h & _ & EP). apply ok_inj in EP. subst lc0. cbn [lc_r].
  exists point. split; auto. unfold sc_verify in ES. apply bind_ok_inv in ES as ([[msgs cc] t7] & EL & ES).
  apply verify_loop_zero in EL; auto. destruct (c_s cs =? 0)%nat; [discriminate|]. apply bind_ok_inv in ES as (s0 & _ & ES). apply ok_inj in ES. injection ES as <- <- <-. exact EL.
Qed.
Lemma mle_zero_point (t : nat -> R) (rs : list K) : Forall (fun c => c = 0) rs -> mle_spec t (map emb rs) = t 0%nat.
Proof.
  intros HF. revert t. induction HF as [|c rs -> HF IH]; intros t; cbn [map]; [apply mle_spec_nil|].
  rewrite mle_spec_cons, IH. cbn [Nat.mul Nat.add]. rewrite (hom_0 _ emb_hom). ring.
Qed.
Lemma lost_zero_point P (w : witness C R) (rs : list K) : (2 <= dp_b P)%nat -> Forall (fun c => c = 0) rs -> lost P w (map emb rs) -> in_range P (nth 0 (w_fc w) 0).
Proof.
  intros Hb HF HL. apply rest_c_0; auto. destruct (req_dec (rest_c P (nth 0 (w_fc w) 0)) 0) as [E|E]; auto. exfalso.
  destruct (hat_neq_0 _ E) as (j & s & Hj & Hs & Hn). apply Hn. specialize (HL j Hj). rewrite (mle_zero_point _ rs HF) in HL.
  assert (nth 0 (map (rest_c P) (w_fc w)) 0 = rest_c P (nth 0 (w_fc w) 0)) as EN.
  { rewrite <- (rest_c_zero P Hb) at 1. apply map_nth. }
  rewrite EN in HL. rewrite HL. apply sl_0.
Qed.
End Zero.

Section Second.
Context {p : Z} {K : Type} (y : cyc p K) (decode : list Z -> result (list Z)) (need : nat) (RR : real_ring p K y decode need).
Notation F := (fp p).
Notation C := (pol F (cy_d y)).
Notation R := (pol K (cy_k y)).
Local Instance SOb : SOps F K C R := cyc_ops y.
Local Instance SLb : SLaws F K C R p := real_laws y decode need RR.
Notation all_minus := (all_minus y).
Notation low_challenge := (low_challenge y decode need).
(** A transcript whose challenges are zero. *)
Local Instance zeroT : TransOps unit R K := {| absorb := fun t _ => t; get_challenge := fun t => (0, t); squeeze_bytes := fun t n => (repeat 0%Z n, t) |}.
Local Instance zeroH : ShortOps unit C := short_of y decode (zero_bytes need).
(** The first [n] digits of [c] have only coefficients -1, the others are zero. *)
Definition minus_digits (P : dparams) (n : nat) (c : C) : Prop :=
  forall i, (i < dp_K P)%nat -> digit P i c = if (i <? n)%nat then all_minus else 0.
Lemma sumn_split {A} {RO : RingOps A} {RL : RingLaws A} n m (f : nat -> A) : sumn (n + m) f = sumn n f + sumn m (fun i => f (n + i)%nat).
Proof.
  induction m as [|m IH]; [rewrite Nat.add_0_r; cbn [sumn]; symmetry; apply radd_0_r|].
  rewrite Nat.add_succ_r. cbn [sumn]. rewrite IH. symmetry. apply (Radd_assoc (@rlaws_th _ _ RL)).
Qed.
Theorem second_rejected P (A : ajtai R) (cs : ccs R) acc (w_acc : witness C R) cm_i (w_i : witness C R) pos V n1 n :
  params_ok (p := p) P cs -> lcccs_rel P A cs acc w_acc -> Forall (in_range P) (w_fc w_acc) ->
  cccs_rel P A cs cm_i w_i -> Forall (in_range P) (w_fc w_i) ->
  minus_digits P n1 (nth 0 (w_fc w_acc) 0) -> minus_digits P n (nth 0 (w_fc w_i) 0) -> (n1 <= dp_K P)%nat -> (n < dp_K P)%nat ->
  (pos < cy_d y)%nat -> co (low_challenge * all_minus) pos = rofZ V -> (1 <= V)%Z ->
  (2 * (Z.of_nat (n1 + n) * V) < p)%Z -> (reach (dp_K P) (Z.of_nat (dp_b P)) < Z.of_nat (n1 + n) * V)%Z ->
  exists lc w pf,
    nifs_prove P acc w_acc cm_i w_i tt cs A = Ok (lc, w, pf, tt) /\ nifs_verify P acc cm_i pf tt cs = Ok (lc, tt) /\
    lcccs_rel P A cs lc w /\
    forall cm_i' w_i' lc' w' pf' ts' res,
      nifs_prove P lc w cm_i' w_i' tt cs A = Ok (lc', w', pf', ts') -> nifs_verify P lc cm_i' pf' tt cs <> Ok res.
Proof.
  intros HP HA RA HI RI MA MI Hn1 Hn Hpos HV HV1 Hp Hbig. pose proof (po_sizes _ _ HP) as Hs. pose proof (so_b _ _ _ Hs) as Hb. pose proof (so_K _ _ _ Hs) as HK.
  destruct (nifs_step_shape (SL := SLb) P A cs acc w_acc cm_i w_i tt HP HA RA HI RI) as (lc & w & pf & [] & rho & E1 & E2 & E3 & E4 & E5 & E6).
  exists lc, w, pf. split; [exact E1|]. split; [exact E2|]. split; [exact E3|].
  intros cm_i' w_i' lc' w' pf' ts' res EP EV.
  destruct (nifs_point_zero (SO := SOb) (TO := zeroT) (HO := zeroH) P acc cm_i pf tt cs lc tt ltac:(intros ts; reflexivity) E2) as (rs & ER & EZ).
  assert (lost P w (lc_r lc)) as HL.
  { refine (nifs_lost (SL := SLb) P A cs lc w cm_i' w_i' tt tt lc' w' pf' ts' res Hs _ E3 EP EV).
    intros i Hi. apply (po_chb _ _ HP). lia. }
  rewrite ER in HL. apply (lost_zero_point (SL := SLb)) in HL; auto.
  assert (forall i, (i < 2 * dp_K P - 1)%nat -> nth i (rho ++ [1]) 0 = low_challenge) as HR.
  { intros i Hi. rewrite app_nth1 by lia. rewrite Forall_forall in E5. destruct (E5 (nth i rho 0) ltac:(apply nth_In; lia)) as [ts ->]. reflexivity. }
  assert (forall i, (i < dp_K P)%nat -> digit P i 0 = (0 : C)) as HD0.
  { intros i Hi. apply (digit_zero (SL := SLb)); auto. }
  assert (forall k f, (k <= dp_K P)%nat -> (forall i, (i < k)%nat -> f i = low_challenge * all_minus) -> (forall i, (k <= i < dp_K P)%nat -> f i = 0) ->
    sumn (dp_K P) f = sumn k (fun _ => low_challenge * all_minus)) as HS.
  { intros k f Hk H1 H2. replace (dp_K P) with (k + (dp_K P - k))%nat by lia. rewrite (sumn_split (RL := l_C (SLaws := SLb))).
    rewrite (sumn_0 (dp_K P - k)) by (intros i Hi; apply H2; lia). rewrite (@radd_0_r _ _ (l_C (SLaws := SLb))). apply sumn_ext. intros i Hi. apply H1. auto. }
  assert (nth 0 (w_fc w) 0 = sumn (n1 + n) (fun _ => low_challenge * all_minus)) as EW.
  { rewrite (proj2 E6 0%nat). replace (2 * dp_K P)%nat with (dp_K P + dp_K P)%nat by lia. rewrite !(sumn_split (RL := l_C (SLaws := SLb))).
    assert (forall i (u : witness C R), (i < dp_K P)%nat -> nth 0 (map (digit P i) (w_fc u)) 0 = digit P i (nth 0 (w_fc u) 0)) as HM.
    { intros i u Hi. rewrite <- (HD0 i Hi) at 1. apply map_nth. }
    f_equal; apply HS; try lia.
    - intros i Hi. rewrite HR by lia. f_equal. rewrite HM by (apply Nat.mod_upper_bound; lia). destruct (Nat.ltb_spec i (dp_K P)); [|lia].
      rewrite Nat.mod_small, MA by lia. destruct (Nat.ltb_spec i n1); [auto|lia].
    - intros i Hi. rewrite HM by (apply Nat.mod_upper_bound; lia). destruct (Nat.ltb_spec i (dp_K P)); [|lia].
      rewrite Nat.mod_small, MA by lia. destruct (Nat.ltb_spec i n1); [lia|]. apply (@rmul_0_r _ _ (l_C (SLaws := SLb))).
    - intros i Hi. rewrite HR by lia. f_equal. rewrite HM by (apply Nat.mod_upper_bound; lia). destruct (Nat.ltb_spec (dp_K P + i) (dp_K P)); [lia|].
      replace ((dp_K P + i) mod dp_K P)%nat with i by (apply (Nat.mod_unique _ _ 1); lia). rewrite MI by lia. destruct (Nat.ltb_spec i n); [auto|lia].
    - intros i Hi. rewrite HM by (apply Nat.mod_upper_bound; lia). destruct (Nat.ltb_spec (dp_K P + i) (dp_K P)); [lia|].
      replace ((dp_K P + i) mod dp_K P)%nat with i by (apply (Nat.mod_unique _ _ 1); lia). rewrite MI by lia.
      destruct (Nat.ltb_spec i n); [lia|]. apply (@rmul_0_r _ _ (l_C (SLaws := SLb))). }
  specialize (HL pos). assert (cf pos (nth 0 (w_fc w) 0) = rofZ (Z.of_nat (n1 + n) * V)) as EC.
  { rewrite EW, (cf_sumn (SL := SLb)). exact (Shipped.sumn_const (n1 + n) _ V HV). }
  rewrite EC in HL.
  rewrite (signed_small (SLaws := SLb)) in HL by lia. lia.
Qed.
End Second.

Section Conc.
Context {p : Z} {K : Type} (y : cyc p K) (decode : list Z -> result (list Z)) (need : nat) (RR : real_ring p K y decode need).
Notation F := (fp p).
Notation C := (pol F (cy_d y)).
Notation R := (pol K (cy_k y)).
Local Instance SOb' : SOps F K C R := cyc_ops y.
Local Instance SLb' : SLaws F K C R p := real_laws y decode need RR.
(** One matrix without entries: every witness satisfies the relation. *)
Definition zero_cs (P : dparams) : ccs R :=
  let s := Nat.log2_up (dp_L P) in
  Ccs (2 ^ s) 3 1 1 1 1 s 2 [SMat (2 ^ s) 3 (repeat [] (2 ^ s))] [[0%nat]] [1].
Definition ones (P : dparams) : ajtai R := Ajtai (dp_L P) [repeat 1 (dp_L P)].
Definition const_elt (v : Z) : C := mk (fun _ => rofZ v).
Definition big_wit (P : dparams) (v : Z) : witness C R := wit_from_f_coeff P (const_elt v :: repeat 0 (dp_L P - 1)).
Definition open_lc (P : dparams) (w : witness C R) : lcccs R :=
  let r := repeat 0 (Nat.log2_up (dp_L P)) in
  Lcccs r (map (fun j => mle_spec (fun b => hat j (nth b (w_fc w) 0)) r) (seq 0 tau))
    (match commit (ones P) (w_f w) with Ok c => c | _ => [] end)
    (map (fun M => mle_spec (mz M ([0] ++ 1 :: w_ccs w)) r) (c_M (zero_cs P))) [0] 1.
Definition open_cm (P : dparams) (w : witness C R) : cccs R := Cccs (match commit (ones P) (w_f w) with Ok c => c | _ => [] end) [0].

Lemma cf_const v j : (j < cy_d y)%nat -> cf j (const_elt v) = rofZ v.
Proof. intros Hj. change (co (const_elt v) j = rofZ v). unfold const_elt. rewrite co_mk by auto. reflexivity. Qed.
Lemma zero_good P : (2 <= dp_L P)%nat -> (2 < p)%Z -> ccs_good (p := p) y P (zero_cs P).
Proof.
  intros HL Hp. assert (Nat.log2_up (dp_L P) <> 0)%nat as Hs. { intros E. apply Nat.log2_up_null in E. lia. }
  split; unfold zero_cs; cbn [c_M c_S c_c c_d c_l c_n c_m c_s c_t c_q]; try lia.
  - repeat split; cbn [c_M c_S c_c c_d c_l c_n c_m c_s c_t c_q]; auto.
    + constructor; [|constructor]. split; [reflexivity|]. cbn [m_nrows m_coeffs]. split; [symmetry; apply repeat_length|].
      apply Forall_forall. intros l Hl. apply repeat_spec in Hl. subst l. constructor.
  - split; [reflexivity|]. cbn [c_s c_m c_M]. split; [lia|]. constructor; [|constructor]. cbn [m_nrows]. lia.
  - unfold in_order, flat_S, nonzero_idx. cbn [c_c c_S length seq filter nth map concat].
    destruct (negb _); cbn [map concat nth app]; [|constructor]. constructor; [reflexivity|constructor].
  - intros i Hi _. cbn [c_q c_S c_d] in *. replace i with 0%nat by lia. cbn [nth length]. lia.
  - unfold next_pow2. f_equal. f_equal. lia.
Qed.
Lemma zero_mz P z b : mz (SMat (2 ^ Nat.log2_up (dp_L P)) 3 (repeat [] (2 ^ Nat.log2_up (dp_L P)))) z b = (0 : R).
Proof.
  unfold mz. apply sumn_0. intros c Hc. unfold mat_entry. cbn [m_coeffs].
  assert (nth b (repeat [] (2 ^ Nat.log2_up (dp_L P))) [] = ([] : list (R * nat))) as ->.
  { destruct (Nat.lt_ge_cases b (2 ^ Nat.log2_up (dp_L P))); [apply nth_repeat|]. apply nth_overflow. rewrite repeat_length. auto. }
  apply (@rmul_0_l _ _ (l_R (SLaws := SLb'))).
Qed.
Lemma open_ok P (w : witness C R) : wit_consistent P w -> length (w_f w) = dp_L P ->
  opens P (ones P) (zero_cs P) (match commit (ones P) (w_f w) with Ok c => c | _ => [] end) w.
Proof.
  intros H1 H2. split; auto.
  - cbn [zero_cs c_n c_l]. lia.
  - rewrite commit_ok by exact H2. reflexivity.
Qed.
Lemma open_lc_ok P w : wit_consistent P w -> length (w_f w) = dp_L P -> lcccs_rel P (ones P) (zero_cs P) (open_lc P w) w.
Proof.
  intros H1 H2. split; try reflexivity; [apply open_ok; auto|apply repeat_length].
Qed.
Lemma open_cm_ok P w : wit_consistent P w -> length (w_f w) = dp_L P -> cccs_rel P (ones P) (zero_cs P) (open_cm P w) w.
Proof.
  intros H1 H2. split; [apply open_ok; auto|reflexivity|]. intros b Hb. unfold ccs_row. apply sumn_0. intros i Hi.
  replace i with 0%nat by (cbn in Hi; lia). cbn [zero_cs c_c c_S c_M nth map]. unfold lprod. cbn [fold_right]. rewrite zero_mz.
  rewrite (@rmul_0_l _ _ (l_R (SLaws := SLb'))). apply (@rmul_0_r _ _ (l_R (SLaws := SLb'))).
Qed.

(** A value all of whose nonzero digits are -1. *)
Definition minus_val (n : nat) : Z := (- (2 ^ Z.of_nat n - 1))%Z.
Definition fresh_wit (P : dparams) (n : nat) : witness C R := wit_from_w_ccs P [crt (const_elt (minus_val n))].
(** The digits of the value are as expected, in the small base and in the large one, and it is small. *)
Definition minus_ok (P : dparams) (n : nat) : bool :=
  forallb (fun i => (nth i (decompose_z (dp_K P) (Z.of_nat (dp_b P)) (minus_val n)) 0 =? if (i <? n)%nat then -1 else 0)%Z) (seq 0 (dp_K P)) &&
  (2 * Z.abs (minus_val n) <? p)%Z && (Z.abs (minus_val n) <=? reach (dp_K P) (Z.of_nat (dp_b P)))%Z.
Definition fresh_ok (P : dparams) (n : nat) : bool := (nth 0 (decompose_z (dp_L P) (dp_B P) (minus_val n)) 0 =? minus_val n)%Z && (0 <? dp_L P)%nat.
Lemma minus_ok_digits P n : minus_ok P n = true -> minus_digits y P n (const_elt (minus_val n)).
Proof.
  unfold minus_ok. rewrite !andb_true_iff, forallb_forall. intros ((H1 & H2) & _) i Hi. apply Z.ltb_lt in H2.
  specialize (H1 i ltac:(apply in_seq; lia)). apply Z.eqb_eq in H1. apply (cf_ext (SL := SLb')). intros j Hj. unfold digit.
  rewrite (cf_decompose (SL := SLb')) by auto. rewrite cf_const by exact Hj. rewrite (signed_small (SLaws := SLb')) by auto. rewrite H1.
  destruct (i <? n)%nat.
  - change (rofZ (-1) = co (all_minus y) j). unfold all_minus. rewrite co_mk by exact Hj. change (-1)%Z with (- (1))%Z. rewrite rofZ_opp, rofZ_1. reflexivity.
  - rewrite (cf_0 (SL := SLb')). apply rofZ_0.
Qed.
Lemma minus_ok_range P n : minus_ok P n = true -> in_range P (const_elt (minus_val n)).
Proof.
  unfold minus_ok. rewrite !andb_true_iff. intros ((_ & H2) & H3) j. apply Z.ltb_lt in H2. apply Z.leb_le in H3.
  destruct (Nat.lt_ge_cases j (cy_d y)).
  - rewrite cf_const by auto. rewrite (signed_small (SLaws := SLb')) by auto. exact H3.
  - rewrite (cf_out (SL := SLb')) by assumption. rewrite (signed_0 (SL := SLb')). lia.
Qed.
Lemma fresh_first P n : minus_ok P n = true -> fresh_ok P n = true -> nth 0 (w_fc (fresh_wit P n)) 0 = const_elt (minus_val n).
Proof.
  unfold minus_ok, fresh_ok. rewrite !andb_true_iff. intros ((_ & H2) & _) (H3 & H4). apply Z.ltb_lt in H2. apply Z.eqb_eq in H3. apply Nat.ltb_lt in H4.
  unfold fresh_wit, wit_from_w_ccs. cbn [w_fc map]. rewrite (icrt_crt (SLaws := SLb')). unfold gadget_decompose. cbn [flat_map]. rewrite app_nil_r.
  apply (cf_ext (SL := SLb')). intros j Hj. rewrite (cf_decompose (SL := SLb')) by auto. rewrite !cf_const by exact Hj.
  rewrite (signed_small (SLaws := SLb')) by auto. rewrite H3. reflexivity.
Qed.
End Conc.
