(** A concrete case for C105 (and C82): the honest prover with two squares, all vectors of byte strings. *)
From Coq Require Import String List Arith Lia ZArith Bool Ring Znumtheory.
From Verif Require Import Prelude Alg Poly MLE MLE_Proofs Transcript Interp Sumcheck Sumcheck_Proofs
  Arith Arith_Proofs Balanced Rings Rings_Proofs Linearization Linearization_Proofs Relations LinRel
  Decomposition Decomposition_Proofs Folding Folding_Comb Folding_Proofs Folding_Complete Folding_Sound NIFS NIFS_Proofs Extract
  Challenge Challenge_Proofs PolyInst Primes FieldExt CycInst RealRings ShortDual Sampling Shipped Zippel Counting Fork Properties9 Properties12 Properties13 Reject Break Properties14 Examples13 ProofSize Properties21.
Import ListNotations.
Local Open Scope rs_scope.

(** A transcript with a counter of the squeezes since the last other operation; [SQt bs] answers squeeze i with string i of [bs]. *)
Definition T1 (T0 : Type) : Type := (T0 * nat)%type.
Definition counted {T0 R K} (TO0 : TransOps T0 R K) : TransOps (T1 T0) R K :=
  {| absorb := fun t x => (absorb (fst t) x, 0%nat); get_challenge := fun t => let '(c, t') := get_challenge (fst t) in (c, (t', 0%nat));
     squeeze_bytes := fun t n => let '(b, t') := squeeze_bytes (fst t) n in (b, (t', 0%nat)) |}.
Definition SQt {T0} (bs : list (list Z)) (t : T1 T0) : list Z * T1 T0 := (nth (snd t) bs [], (fst t, S (snd t))).
Lemma draws_SQt {T0} (bs : list (list Z)) (t : T0) m : forall i, draws (SQt bs) (t, i) m = map (fun k => nth k bs []) (seq i m).
Proof. induction m as [|m IH]; intros i; [reflexivity|]. cbn [draws SQt fst snd seq map]. f_equal. apply IH. Qed.

(** The honest proof does not depend on the short challenges. *)
Lemma prove_same {F K C R T} {SO : SOps F K C R} {TO : TransOps T R K} (H1 H2 : ShortOps T C) P acc (w_acc : witness C R) cm_i w_i ts cs A lc w pf ts' lc2 w2 pf2 ts2 :
  nifs_prove (HO := H1) P acc w_acc cm_i w_i ts cs A = Ok (lc, w, pf, ts') -> nifs_prove (HO := H2) P acc w_acc cm_i w_i ts cs A = Ok (lc2, w2, pf2, ts2) -> pf = pf2.
Proof.
  unfold nifs_prove. intros E E'. apply bind_ok_inv in E as (u & E0 & E). rewrite E0 in E'. cbn [bind] in E'. clear E0.
  apply bind_ok_inv in E as ([[lin pl] t1] & E1 & E). rewrite E1 in E'. cbn [bind] in E'. clear E1.
  apply bind_ok_inv in E as ([[[[mz_l lc_l] wit_l] pf_l] t2] & E2 & E). rewrite E2 in E'. cbn [bind] in E'. clear E2.
  apply bind_ok_inv in E as ([[[[mz_r lc_r] wit_r] pf_r] t3] & E3 & E). rewrite E3 in E'. cbn [bind] in E'. clear E3.
  apply bind_ok_inv in E as ([[[lc1 wt1] pf1] t4] & E4 & E). apply bind_ok_inv in E' as ([[[lc3 wt3] pf3] t5] & E5 & E').
  apply ok_inj in E. apply ok_inj in E'. injection E as _ _ <- _. injection E' as _ _ <- _. f_equal. clear -E4 E5. unfold fold_prove in *.
  apply bind_ok_inv in E4 as (u0 & Q0 & E4). rewrite Q0 in E5. cbn [bind] in E5. destruct (negb _); [discriminate|].
  destruct (squeeze_abzm _ _ _) as [[[[al be] ze] mu] tt0].
  apply bind_ok_inv in E4 as (u1 & Q1 & E4). rewrite Q1 in E5. cbn [bind] in E5.
  apply bind_ok_inv in E4 as (c1 & Q2 & E4). rewrite Q2 in E5. cbn [bind] in E5.
  apply bind_ok_inv in E4 as (c2 & Q3 & E4). rewrite Q3 in E5. cbn [bind] in E5.
  apply bind_ok_inv in E4 as ([mles deg] & Q4 & E4). rewrite Q4 in E5. cbn [bind] in E5.
  apply bind_ok_inv in E4 as (u2 & Q5 & E4). rewrite Q5 in E5. cbn [bind] in E5.
  apply bind_ok_inv in E4 as ([[prf rs] tt1] & Q6 & E4). rewrite Q6 in E5. cbn [bind] in E5.
  apply bind_ok_inv in E4 as (th & Q7 & E4). rewrite Q7 in E5. cbn [bind] in E5.
  apply bind_ok_inv in E4 as (et & Q8 & E4). rewrite Q8 in E5. cbn [bind] in E5.
  destruct (get_rhos (HO := H1) _ _) as [[a1 a2] a3]. destruct (get_rhos (HO := H2) _ _) as [[b1 b2] b3].
  apply bind_ok_inv in E4 as (f0 & _ & E4). apply bind_ok_inv in E4 as ([[[v0 cm0] u0'] x0] & _ & E4). apply bind_ok_inv in E4 as (o & _ & E4).
  apply bind_ok_inv in E5 as (f1 & _ & E5). apply bind_ok_inv in E5 as ([[[v1 cm1] u1'] x1] & _ & E5). apply bind_ok_inv in E5 as (o' & _ & E5).
  apply ok_inj in E4. apply ok_inj in E5. congruence.
Qed.

Section Honest.
Context {p : Z} {K : Type} (y : cyc p K) (decode : list Z -> result (list Z)) (need : nat) (W G : list dparams) (SH : shipped p K y decode need W G).
Notation C := (pol (fp p) (cy_d y)).
Notation R := (pol K (cy_k y)).
Let RR := shipped_real y decode need W G SH.
Local Instance SO23 : SOps (fp p) K C R := cyc_ops y.
Local Instance SL23 : SLaws (fp p) K C R p := real_laws y decode need RR.
Context {T0 : Type} (TO0 : TransOps T0 R K).
Local Instance TO23 : TransOps (T1 T0) R K := counted TO0.
Example ex_knowledge P (a b x : R) r (ts : T1 T0) (S0 : list (list Z)) : In P (W ++ G) -> length r = Nat.log2_up (dp_L P) ->
  NoDup S0 -> (2 * dp_K P - 1 < length S0)%nat ->
  let acc := sq_lc y P r (wit_from_w_ccs P [a]) x in let cs := sq_cs y P in let cm_i := sq_cm y P b in let A := ones y P in let m := (2 * dp_K P - 1)%nat in
  let L := tuples m S0 in
  exists lin lcs_l lcs_r ws_l ws_r pf ts1 ts2 ts3 tr lc ts' w,
    sizes_ok p P cs /\ degree_ok cs /\ (Z.of_nat (c_d cs + 1) < p)%Z /\ length (lc_r acc) = c_s cs /\
    Forall2 (fun c w => opens P A cs (lc_cm c) w) lcs_l ws_l /\ Forall2 (fun c w => opens P A cs (lc_cm c) w) lcs_r ws_r /\
    dec_shape P cs (lf_dec_l pf) /\ dec_shape P cs (lf_dec_r pf) /\ fold_shape P cs (lf_fold pf) /\
    lin_verify cm_i (lf_lin pf) (absorb_public_input acc cm_i ts) cs = Ok (lin, ts1) /\
    dec_verify P acc (lf_dec_l pf) ts1 = Ok (lcs_l, ts2) /\ dec_verify P lin (lf_dec_r pf) ts2 = Ok (lcs_r, ts3) /\
    rho_state P (lcs_l ++ lcs_r) (lf_fold pf) ts3 cs = Ok tr /\ programmed SQt tr m S0 /\ NoDup L /\
    (forall bs, In bs L -> In bs (tuples m S0) /\
       nifs_verify (HO := short_of y decode (SQt bs)) P acc cm_i pf ts cs = Ok (lc bs, ts' bs) /\ lcccs_rel P A cs (lc bs) (w bs)) /\
    (m * length S0 ^ (m - 1) < length L)%nat.
Proof.
  intros HP Hr ND HS acc cs cm_i A m L. pose proof (ex_L y decode need W G P SH HP) as HL.
  pose proof (sq_good y decode need W G SH P HP HL) as HG. pose proof (shipped_ok y decode need W G SH P _ HP HG) as PO. pose proof (po_sizes _ _ PO) as Hs.
  assert (1 <= dp_K P)%nat as HK by apply Hs.
  assert (lcccs_rel P A cs acc (wit_from_w_ccs P [a])) as Ra.
  { apply (sq_lc_ok y); auto; [apply (from_w_ccs_consistent (SL := SL23)), (wit_covers y decode need W G SH P HP)|apply fresh_len]. }
  assert (cccs_rel P A cs cm_i (wit_from_w_ccs P [b])) as Ri by (apply (sq_cm_ok y decode need W G SH); auto).
  set (wa := wit_from_w_ccs P [a] : witness C R) in *. set (wb := wit_from_w_ccs P [b] : witness C R) in *.
  set (run := fun bs => nifs_prove (HO := short_of y decode (SQt bs)) P acc wa cm_i wb ts cs A).
  assert (forall bs, exists lc w pf ts', run bs = Ok (lc, w, pf, ts') /\ nifs_verify (HO := short_of y decode (SQt bs)) P acc cm_i pf ts cs = Ok (lc, ts') /\ lcccs_rel P A cs lc w) as Hrun.
  { intros bs. exact (ex_step y decode need W G SH (SQt bs) P a b x r ts HP HL Hr). }
  destruct (Hrun []) as (lc0 & w0 & pf & t0 & E0 & V0 & _).
  pose proof (nifs_prove_sized (SL := SL23) (HO := short_of y decode (SQt [])) P acc wa cm_i wb ts cs A lc0 w0 pf t0 Hs Ra Ri E0) as NS. assert (length (c_M cs) = c_t cs) as Ht by apply Hs.
  destruct (linearization_complete (SL := SL23) P A cs cm_i wb (absorb_public_input acc cm_i ts) Hs (cg_order _ _ _ HG) (cg_deg _ _ _ HG) (po_chd _ _ PO) Ri) as (lin & pfl & ts1 & L1 & L2 & L3 & _ & _).
  destruct (decomposition_complete (SL := SL23) P A cs acc wa ts1 Hs Ra (fresh_in_range y decode need W G SH P [a] HP)) as (mz1 & lc1 & wt1 & pf1 & ts2 & A1 & A2 & A3 & A4 & A5 & _).
  destruct (decomposition_complete (SL := SL23) P A cs lin wb ts2 Hs L3 (fresh_in_range y decode need W G SH P [b] HP)) as (mz2 & lc2 & wt2 & pf2 & ts3 & B1 & B2 & B3 & B4 & B5 & _).
  assert (lf_lin pf = pfl /\ lf_dec_l pf = pf1 /\ lf_dec_r pf = pf2) as (Q1 & Q2 & Q3).
  { unfold run, nifs_prove in E0. apply bind_ok_inv in E0 as (u & _ & E0). rewrite L1 in E0. cbn [bind] in E0. rewrite A1 in E0. cbn [bind] in E0. rewrite B1 in E0. cbn [bind] in E0.
    apply bind_ok_inv in E0 as ([[[lcf wtf] pff] tf] & _ & E0). apply ok_inj in E0. injection E0 as _ _ <- _. auto. }
  assert (exists tr, rho_state P (lc1 ++ lc2) (lf_fold pf) ts3 cs = Ok tr /\ snd tr = 0%nat) as (tr & Etr & Str).
  { unfold nifs_verify in V0. apply bind_ok_inv in V0 as (u & _ & V0). rewrite Q1, L2 in V0. cbn [bind] in V0. rewrite Q2, A2 in V0. cbn [bind] in V0. rewrite Q3, B2 in V0. cbn [bind] in V0.
    unfold fold_verify in V0. apply bind_ok_inv in V0 as (u' & _ & V0). unfold rho_state. destruct (squeeze_abzm _ _ _) as [[[[al be] ze] mu] tz]. apply bind_ok_inv in V0 as ([[rs s] tt2] & ES & _). rewrite ES.
    cbn [bind]. eexists. split; [reflexivity|]. reflexivity. }
  exists lin, lc1, lc2, wt1, wt2, pf, ts1, ts2, ts3, tr,
    (fun bs => match run bs with Ok (l, _, _, _) => l | _ => lc0 end), (fun bs => match run bs with Ok (_, _, _, t) => t | _ => t0 end), (fun bs => match run bs with Ok (_, w, _, _) => w | _ => w0 end).
  destruct NS as [_ [X1 X2 X3 X4] [Y1 Y2 Y3 Y4] [F1 F2 F3]]. rewrite Ht in *.
  assert (forall lcs ws, Forall2 (lcccs_rel P A cs) lcs ws -> Forall2 (fun c w => opens P A cs (lc_cm c) w) lcs ws) as F2i.
  { intros lcs ws H. induction H as [|l w lcs ws H _ IH]; constructor; auto. apply H. }
  split; [exact Hs|]. split; [exact (cg_deg _ _ _ HG)|]. split; [exact (cg_d _ _ _ HG)|]. split; [apply Ra|]. split; [auto|]. split; [auto|].
  split; [destruct X1, X2, X3, X4; repeat split; auto|]. split; [destruct Y1, Y2, Y3, Y4; repeat split; auto|]. split; [destruct F2, F3; repeat split; auto|].
  rewrite Q1, Q2, Q3. split; [exact L2|]. split; [exact A2|]. split; [exact B2|]. split; [exact Etr|]. split.
  { intros bs Hbs. apply in_tuples in Hbs as [Lb _]. destruct tr as [tr c]. cbn [snd] in Str. subst c. rewrite draws_SQt, <- Lb. clear. induction bs as [|z bs IH]; [reflexivity|].
    cbn [length seq map nth]. f_equal. rewrite <- seq_shift, map_map. exact IH. }
  split; [apply tuples_NoDup, ND|]. split.
  - intros bs Hbs. split; [exact Hbs|]. destruct (Hrun bs) as (l & w & q & t & E1 & V1 & R1). rewrite E1. split; [|exact R1].
    rewrite (prove_same (short_of y decode (SQt [])) (short_of y decode (SQt bs)) P acc wa cm_i wb ts cs A lc0 w0 pf t0 l w q t E0 E1). exact V1.
  - unfold L. rewrite tuples_length. destruct m as [|k] eqn:Em; [unfold m in Em; lia|]. cbn [Nat.pow Nat.sub]. rewrite Nat.sub_0_r. apply Nat.mul_lt_mono_pos_r; [|lia].
    assert (length S0 ^ k <> 0)%nat by (apply Nat.pow_nonzero; lia). lia.
Qed.
End Honest.
