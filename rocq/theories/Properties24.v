(** C108: soundness of the decomposition of LatticeFold+ (decomp.rs). *)
From Coq Require Import String List Arith Lia ZArith Bool Ring.
From Verif Require Import Prelude Alg MLE MLE_Proofs Transcript Sumcheck Sumcheck_Proofs Arith Arith_Proofs Balanced
  Rings Rings_Proofs PlusRing PlusUtils_Proofs SetCheck SetCheck_Proofs RangeCheck RangeCheck_Proofs Cm Cm_Proofs Plus Plus_Proofs Plus_Norm Plus_Forge FSPlus.
Import ListNotations.
Local Open Scope rs_scope.

Section D.
Context {K R T : Type} {PO : POps K R} {TO : TransOps T R K} {p : Z} {PL : PLaws K R p}.
Add Ring Rring92 : (@rlaws_th R _ (pl_R (p := p))).
Lemma leqb2_true (a b : list (R * R)) : leqb2 a b = true <-> a = b.
Proof.
  split; [|intros ->; apply (leqb2_refl (p := p))]. revert b; induction a as [|x a IH]; intros [|y b] H; try discriminate H; [reflexivity|].
  cbn [leqb2] in H. apply andb_true_iff in H as [H H3]. apply andb_true_iff in H as [H1 H2]. apply req_true in H1, H2. f_equal; [|auto]. destruct x, y. cbn [fst snd] in *. congruence.
Qed.
(** The entries of two lists, weighted by 1 and B. *)
Definition lin2 (B : Z) (a b : list R) : list R := zipw (fun x y => x + rofZ B * y) a b.

(** * C108
    What [DecompProof::verify] accepts: each entry of the commitment and each claimed evaluation, at both points, is the sum of the two
    parts with weights 1 and B.  Surplus entries of the longer part are ignored. *)
Theorem C108_accepts (d : dec_proof R) cm v B : dec_verify d cm v B = Ok tt <->
  (length cm = Nat.min (length (dp_C0 d)) (length (dp_C1 d)) /\ forall i, (i < length cm)%nat -> nth i cm 0 = nth i (dp_C0 d) 0 + rofZ B * nth i (dp_C1 d) 0) /\
  (length v = Nat.min (length (dp_v0 d)) (length (dp_v1 d)) /\ forall i, (i < length v)%nat ->
     fst (nth i v (0, 0)) = fst (nth i (dp_v0 d) (0, 0)) + rofZ B * fst (nth i (dp_v1 d) (0, 0)) /\
     snd (nth i v (0, 0)) = snd (nth i (dp_v0 d) (0, 0)) + rofZ B * snd (nth i (dp_v1 d) (0, 0))).
Proof.
  unfold dec_verify. set (rc := zipw _ (dp_C0 d) (dp_C1 d)). set (rv := zipw _ (dp_v0 d) (dp_v1 d)).
  assert (length rc = Nat.min (length (dp_C0 d)) (length (dp_C1 d))) as Lc by apply zipw_length.
  assert (length rv = Nat.min (length (dp_v0 d)) (length (dp_v1 d))) as Lv by apply zipw_length.
  assert (forall i, (i < length rc)%nat -> nth i rc 0 = nth i (dp_C0 d) 0 + rofZ B * nth i (dp_C1 d) 0) as Hc.
  { intros i Hi. unfold rc. rewrite (nth_zipw _ _ _ _ 0 0) by lia. apply (recompose2 (p := p)). }
  assert (forall i, (i < length rv)%nat -> nth i rv (0, 0) = (fst (nth i (dp_v0 d) (0, 0)) + rofZ B * fst (nth i (dp_v1 d) (0, 0)), snd (nth i (dp_v0 d) (0, 0)) + rofZ B * snd (nth i (dp_v1 d) (0, 0)))) as Hv.
  { intros i Hi. unfold rv. rewrite (nth_zipw _ _ _ _ (0, 0) (0, 0)) by lia. rewrite !(recompose2 (p := p)). reflexivity. }
  split.
  - intros H. apply bind_ok_inv in H as (u & H1 & H2). unfold guard in H1, H2.
    destruct (leqb rc cm) eqn:E1; [|discriminate]. destruct (leqb2 rv v) eqn:E2; [|discriminate]. apply leqb_true in E1. apply leqb2_true in E2. subst cm v.
    split; (split; [assumption|]); [exact Hc|]. intros i Hi. rewrite (Hv i Hi). auto.
  - intros [[L1 H1] [L2 H2]].
    assert (rc = cm) as ->. { apply (list_ext 0); [congruence|]. intros i Hi. rewrite (Hc i Hi). symmetry. apply H1. lia. }
    assert (rv = v) as ->. { apply (list_ext (0, 0)); [congruence|]. intros i Hi. rewrite (Hv i Hi). destruct (H2 i ltac:(lia)) as [Q1 Q2]. rewrite <- Q1, <- Q2. symmetry. apply surjective_pairing. }
    rewrite (proj2 (leqb_true cm cm) eq_refl). cbn [guard bind]. rewrite (proj2 (leqb2_true v v) eq_refl). reflexivity.
Qed.

Lemma lin2_length B a b n : length a = n -> length b = n -> length (lin2 B a b) = n.
Proof. intros. unfold lin2. rewrite zipw_length. lia. Qed.
Lemma lin2_rlin B a b n F : length a = n -> length b = n -> rlin n F -> F (lin2 B a b) = F a + rofZ B * F b.
Proof.
  intros Ha Hb [w Hw]. rewrite !Hw by (rewrite ?(lin2_length B a b n); auto). rewrite <- sumn_mul_l, <- sumn_add. apply sumn_ext. intros r Hr.
  unfold lin2. rewrite (nth_zipw _ _ _ _ 0 0) by lia. ring.
Qed.
(** Both parts are true, the norm included: then so is the whole, with witness F0 + B F1, whose coefficients c have 2|c| <= B + B^2. *)
Theorem C108_decomp_sound (d : dec_proof R) cm v B A M r0 r1 F0 F1 n : (0 <= B)%Z -> wf_ajtai A -> a_ncols A = n -> (n <= 2 ^ length r0)%nat -> (n <= 2 ^ length r1)%nat ->
  length F0 = n -> length F1 = n -> commit A F0 = Ok (dp_C0 d) -> commit A F1 = Ok (dp_C1 d) ->
  dp_v0 d = evaluations M r0 r1 F0 -> dp_v1 d = evaluations M r0 r1 F1 ->
  dec_verify d cm v B = Ok tt ->
  commit A (lin2 B F0 F1) = Ok cm /\ v = evaluations M r0 r1 (lin2 B F0 F1) /\ (within B F0 -> within B F1 -> within (B + B ^ 2) (lin2 B F0 F1)).
Proof.
  intros HB WA HA H0 H1 L0 L1 C0 C1 V0 V1 HV. apply C108_accepts in HV as [[Lc Hc] [Lv Hv]].
  destruct (commit_rlin (p := p) A n F0 WA HA L0) as [_ E0]. destruct (commit_rlin (p := p) A n F1 WA HA L1) as [_ E1].
  destruct (commit_rlin (p := p) A n (lin2 B F0 F1) WA HA (lin2_length B F0 F1 n L0 L1)) as [_ E2].
  rewrite C0 in E0. rewrite C1 in E1. apply ok_inj in E0, E1. split; [|split].
  - rewrite E2. f_equal. rewrite E0, E1 in *. rewrite !map_length, Nat.min_id in Lc. apply (list_ext 0); [rewrite map_length; auto|].
    intros i Hi. rewrite map_length in Hi. rewrite (Hc i) by lia. rewrite !(nth_map_lt _ _ _ []) by auto.
    apply (lin2_rlin B F0 F1 n (fun v => sumn n (fun r => nth r (nth i (a_rows A) []) 0 * nth r v 0))); auto. exists (fun r => nth r (nth i (a_rows A) []) 0). auto.
  - rewrite V0, V1 in *. assert (length v = S (length M)) as Lv'. { rewrite Lv. unfold evaluations. cbn [length]. rewrite !map_length. lia. }
    apply (list_ext (0, 0)); [unfold evaluations; cbn [length]; rewrite map_length; exact Lv'|]. intros i Hi. specialize (Hv i Hi). destruct Hv as [Hv1 Hv2].
    rewrite (surjective_pairing (nth i v (0, 0))), Hv1, Hv2. unfold evaluations. destruct i as [|i]; cbn [nth fst snd].
    + rewrite (lin2_rlin B F0 F1 n (open r0)), (lin2_rlin B F0 F1 n (open r1)) by (auto; apply (rlin_open (p := p)); auto). reflexivity.
    + rewrite !(nth_map_lt _ _ _ (SMat 0 0 [])) by lia. cbn [fst snd].
      rewrite (lin2_rlin B F0 F1 n (open_mul r0 _)), (lin2_rlin B F0 F1 n (open_mul r1 _)) by (auto; apply (rlin_open_mul (p := p))). reflexivity.
  - intros W0 W1. unfold within in *. apply Forall_forall. intros x Hx. apply (In_nth _ _ 0) in Hx as (i & Hi & <-). rewrite (lin2_length B F0 F1 n L0 L1) in Hi.
    unfold lin2. rewrite (nth_zipw _ _ _ _ 0 0) by lia. rewrite Forall_forall in W0, W1.
    pose proof (W0 (nth i F0 0) ltac:(apply nth_In; lia)) as Q0. pose proof (W1 (nth i F1 0) ltac:(apply nth_In; lia)) as Q1. rewrite Forall_forall in Q0, Q1.
    apply Forall_forall. intros c Hc'. apply (In_nth _ _ 0) in Hc' as (j & Hj & <-). rewrite pcoeffs_length in Hj.
    rewrite (nth_pcoeffs_add (p := p)). replace (rofZ B * nth i F1 0) with (emb (rofZ B : K) * nth i F1 0) by (rewrite (hom_ofZ _ emb_hom); reflexivity).
    rewrite (nth_pcoeffs_scale (p := p)).
    specialize (Q0 (nth j (pcoeffs (nth i F0 0)) 0) ltac:(apply nth_In; rewrite pcoeffs_length; lia)). specialize (Q1 (nth j (pcoeffs (nth i F1 0)) 0) ltac:(apply nth_In; rewrite pcoeffs_length; lia)).
    set (a := nth j (pcoeffs (nth i F0 0)) 0) in *. set (b := nth j (pcoeffs (nth i F1 0)) 0) in *.
    pose proof (psigned_add (p := p) a (rofZ B * b)) as S1. pose proof (psigned_scale (p := p) (rofZ B) b (Z.abs B) (Z.abs (psigned b)) (psigned_rofZ (p := p) B) (Z.le_refl _)) as S2.
    rewrite (Z.abs_eq B) in S2 by lia. nia.
Qed.
(** An accepted step: if the two new instances are true (same points, base B), the instance the proof carries is true with base B + B^2. *)
Theorem C108_step_sound M pp (pf : plus_proof K R) (ts : T) res A nv (lb0 lb1 : linb R) : (0 <= pl_B pp)%Z -> wf_ajtai A -> a_ncols A = (2 ^ nv)%nat ->
  plus_verify M pp pf ts = Ok res -> lb_r lb0 = lb_r lb1 ->
  pp_d pf = DecProof (lb_cm lb0) (lb_cm lb1) (lb_v lb0) (lb_v lb1) -> true_linb A M nv (pl_B pp) lb0 -> true_linb A M nv (pl_B pp) lb1 ->
  true_linb A M nv (pl_B pp + pl_B pp ^ 2) (LinB (lin2 (pl_B pp) (lb_f lb0) (lb_f lb1)) (l2_cm (pp_x pf)) (lb_r lb0) (l2_vo (pp_x pf))).
Proof.
  intros HB WA HA HV Hr Hd (L0 & W0 & C0 & r0 & r1 & Q0 & Q1 & R0 & V0) (L1 & W1 & C1 & r0' & r1' & Q0' & Q1' & R1 & V1).
  unfold plus_verify in HV. apply bind_ok_inv in HV as ([? ?] & _ & HV). apply bind_ok_inv in HV as ([? ?] & _ & HV). apply bind_ok_inv in HV as ([] & HV & _).
  rewrite R0, R1 in Hr. pose proof (f_equal (map fst) Hr) as Hr0. pose proof (f_equal (map snd) Hr) as Hr1.
  rewrite !map_fst_combine in Hr0 by (rewrite !map_length; lia). rewrite !map_snd_combine in Hr1 by (rewrite !map_length; lia).
  apply (map_emb_inj (p := p)) in Hr0, Hr1. subst r0' r1'. rewrite Hd in HV.
  destruct (C108_decomp_sound (DecProof (lb_cm lb0) (lb_cm lb1) (lb_v lb0) (lb_v lb1)) (l2_cm (pp_x pf)) (l2_vo (pp_x pf)) (pl_B pp) A M r0 r1 (lb_f lb0) (lb_f lb1) (2 ^ nv)) as (S1 & S2 & S3); auto; try (rewrite ?Q0, ?Q1; lia).
  split; [cbn [lb_f]; apply lin2_length; auto|]. cbn [lb_f lb_cm lb_r lb_v]. split; [auto|]. split; [exact S1|]. exists r0, r1. auto.
Qed.
(** The honest prover's two new instances are of this form. *)
Lemma plus_prove_halves acc (A : ajtai R) M pp comps (ts ts' : T) pf acc' : plus_prove acc A M pp comps ts = Ok (pf, acc', ts') ->
  exists lb0 lb1, acc' = [lb0; lb1] /\ lb_r lb0 = lb_r lb1 /\ pp_d pf = DecProof (lb_cm lb0) (lb_cm lb1) (lb_v lb0) (lb_v lb1).
Proof.
  unfold plus_prove. intros H. apply bind_ok_inv in H as ([ls t1] & _ & H). apply bind_ok_inv in H as ([[[g x] cmp] t2] & _ & H). apply bind_ok_inv in H as ([[lb0 lb1] dp] & E & H).
  apply ok_inj in H. injection H as <- <- _. exists lb0, lb1. split; [reflexivity|]. unfold decompose in E. destruct g as [|z g]; [discriminate|].
  apply bind_ok_inv in E as (v0 & _ & E). apply bind_ok_inv in E as (v1 & _ & E). apply bind_ok_inv in E as (C0 & _ & E). apply bind_ok_inv in E as (C1 & _ & E). apply ok_inj in E. injection E as <- <- <-. auto.
Qed.
Lemma honest_step acc (A : ajtai R) M pp comps (ts ts' : T) ps acc' nv : (0 <= pl_B pp)%Z -> wf_ajtai A -> a_ncols A = (2 ^ nv)%nat ->
  plus_chain acc A M pp [comps] ts = Ok (ps, acc', ts') -> verify_chain M pp ps ts = Ok (true, ts') -> Forall (true_linb A M nv (pl_B pp)) acc' ->
  exists (pf : plus_proof K R) lb0 lb1 res, plus_verify M pp pf ts = Ok res /\ lb_r lb0 = lb_r lb1 /\
    pp_d pf = DecProof (lb_cm lb0) (lb_cm lb1) (lb_v lb0) (lb_v lb1) /\ true_linb A M nv (pl_B pp) lb0 /\ true_linb A M nv (pl_B pp) lb1 /\
    true_linb A M nv (pl_B pp + pl_B pp ^ 2) (LinB (lin2 (pl_B pp) (lb_f lb0) (lb_f lb1)) (l2_cm (pp_x pf)) (lb_r lb0) (l2_vo (pp_x pf))).
Proof.
  intros HB WA HA E1 E2 E4. cbn [plus_chain] in E1. apply bind_ok_inv in E1 as ([[pf acc1] t1] & P1 & E1). cbn [bind] in E1. apply ok_inj in E1. injection E1 as <- <- <-.
  destruct (plus_prove_halves _ _ _ _ _ _ _ _ _ P1) as (lb0 & lb1 & -> & Hr & Hd).
  cbn [verify_chain] in E2. apply bind_ok_inv in E2 as (res & V1 & _).
  pose proof (Forall_inv E4) as T0. pose proof (Forall_inv (Forall_inv_tail E4)) as T1.
  exists pf, lb0, lb1, res. repeat (split; [assumption|]). exact (C108_step_sound M pp pf ts res A nv lb0 lb1 HB WA HA V1 Hr Hd T0 T1).
Qed.
End D.
