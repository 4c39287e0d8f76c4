(** C110: chains of folding steps (incrementally verifiable computation): a true last accumulator makes everything folded in true. *)
From Coq Require Import String List Arith Lia ZArith Bool Ring.
From Verif Require Import Prelude Alg Poly MLE MLE_Proofs Transcript Interp Sumcheck Sumcheck_Proofs
  Arith Arith_Proofs Balanced Rings Rings_Proofs Linearization Linearization_Proofs Relations LinRel
  Decomposition Decomposition_Proofs Folding Folding_Comb Folding_Proofs Folding_Complete Folding_Sound NIFS NIFS_Proofs Extract ProofSize RhoErr.
Import ListNotations.
Local Open Scope rs_scope.

Section Chain.
Context {F K C R : Type} {SO : SOps F K C R} {p : Z} {SL : SLaws F K C R p} {T : Type} {TO : TransOps T R K} {HO : ShortOps T C}.
Variables (P : dparams) (A : ajtai R) (cs : ccs R) (xs : list K).
Notation n := ((c_n cs - c_l cs - 1) * dp_L P)%nat.
(** One step: the transcript it starts from, the instance folded in, the proof, and openings of the commitments sent in the proof. *)
Record step := Step { st_ts : T; st_cm : cccs R; st_pf : lf_proof R; st_wl : list (witness C R); st_wr : list (witness C R) }.
(** The step is accepted with output [lc]; the instances met inside the run are those with names, [tr] is the state before the folding challenges. *)
Record step_run (acc : lcccs R) (s : step) (lc : lcccs R) (lin : lcccs R) (lcs_l lcs_r : list (lcccs R)) (ts1 ts2 ts3 tr : T) : Prop := {
  sr_ok : exists ts', nifs_verify P acc (st_cm s) (st_pf s) (st_ts s) cs = Ok (lc, ts');
  sr_lin : lin_verify (st_cm s) (lf_lin (st_pf s)) (absorb_public_input acc (st_cm s) (st_ts s)) cs = Ok (lin, ts1);
  sr_l : dec_verify P acc (lf_dec_l (st_pf s)) ts1 = Ok (lcs_l, ts2);
  sr_r : dec_verify P lin (lf_dec_r (st_pf s)) ts2 = Ok (lcs_r, ts3);
  sr_tr : rho_state P (lcs_l ++ lcs_r) (lf_fold (st_pf s)) ts3 cs = Ok tr }.
(** ... and the openings and the proof are well formed. *)
Definition step_open (acc : lcccs R) (s : step) (lc : lcccs R) : Prop := exists lin lcs_l lcs_r ts1 ts2 ts3 tr,
  step_run acc s lc lin lcs_l lcs_r ts1 ts2 ts3 tr /\
  dec_shape P cs (lf_dec_l (st_pf s)) /\ dec_shape P cs (lf_dec_r (st_pf s)) /\ fold_shape P cs (lf_fold (st_pf s)) /\
  Forall2 (fun c w => opens P A cs (lc_cm c) w) lcs_l (st_wl s) /\ Forall2 (fun c w => opens P A cs (lc_cm c) w) lcs_r (st_wr s).
(** What may go wrong in a step whose output has witness [w]: a bad challenge of one of the sumchecks or batchings (bounded by C89, C92), a bad
    vector of folding coefficients (C109), or [w] and the combination of the openings are two openings of one commitment. *)
Definition step_bad (acc : lcccs R) (s : step) (lc : lcccs R) (w : witness C R) : Prop := exists lin lcs_l lcs_r ts1 ts2 ts3 tr,
  step_run acc s lc lin lcs_l lcs_r ts1 ts2 ts3 tr /\
  let cms := lcs_l ++ lcs_r in
  let ws := st_wl s ++ st_wr s in
  let fhs := map w_fhat ws in
  let mzs := zipw (fun c w => map (Mz_mle (c_s cs) (lcccs_z c (w_ccs w))) (c_M cs)) cms ws in
  let ref := batch_ref xs (3 * (2 * dp_K P) - 1 + c_s cs) (gbatch P (map lc_v cms) (map lc_u cms) fhs mzs (lc_r acc) (lc_r lin)) in
  fold_bad P cs cms fhs mzs (lc_r acc) (lc_r lin) (Nat.max tau (c_t cs)) ref ts3 (lf_fold (st_pf s)) lc \/
  lin_bad cs (i_x (st_cm s) ++ 1 :: w_ccs (wsum P n (st_wr s))) (absorb_public_input acc (st_cm s) (st_ts s)) (lf_lin (st_pf s)) lin \/
  rho_fooled P A cs cms ws (lf_fold (st_pf s)) ts3 tr HO \/
  (let w' := comb_wit P n (rhos HO P tr) ws in w_f w <> w_f w' /\ opens P A cs (lc_cm lc) w /\ opens P A cs (lc_cm lc) w').
(** What a step proves. *)
Definition step_true (acc : lcccs R) (s : step) : Prop :=
  lcccs_rel P A cs acc (wsum P n (st_wl s)) /\ cccs_rel P A cs (st_cm s) (wsum P n (st_wr s)) /\
  forall i w, nth_error (st_wl s ++ st_wr s) i = Some w -> (i < 2 * dp_K P - 1)%nat \/ tau = 1%nat -> wit_norm (Z.of_nat (dp_b P) - 1) w.

Hypotheses (Hsz : sizes_ok p P cs) (Hdeg : degree_ok cs) (Hcd : char_gt K (c_d cs + 1)) (Hcb : char_gt K (2 * dp_b P))
  (Hbp : (2 * Z.of_nat (dp_b P) <= p + 1)%Z) (Hnd : NoDup xs) (Hxs : (Nat.max tau (c_t cs) < length xs)%nat).

(** One step: if the output instance is true then so are the instances that went in, or something went wrong. *)
Theorem step_sound acc s lc w : length (lc_r acc) = c_s cs -> step_open acc s lc -> lcccs_rel P A cs lc w -> step_true acc s \/ step_bad acc s lc w.
Proof.
  intros Hra (lin & lcs_l & lcs_r & ts1 & ts2 & ts3 & tr & RUN & D1 & D2 & D3 & Ol & Or) HR. pose proof RUN as [[ts' HV] E1 E2 E3 E4].
  set (cms := lcs_l ++ lcs_r) in *. set (ws := st_wl s ++ st_wr s).
  pose proof (so_K _ _ _ Hsz) as HK. pose proof (so_cov _ _ _ Hsz) as (_ & HL & _).
  destruct (dec_verify_shape P cs _ _ _ _ _ D1 E2) as [Ll Sl]. destruct (dec_verify_shape P cs _ _ _ _ _ D2 E3) as [Lr Sr].
  assert (length cms = (2 * dp_K P)%nat) as Lc by (unfold cms; rewrite app_length; lia).
  assert (Forall (fun c => length (lc_x c) = c_l cs) cms) as Scx by (apply Forall_app; split; (eapply Forall_impl; [|eassumption]); cbn beta; tauto).
  assert (Forall2 (fun c w => opens P A cs (lc_cm c) w) cms ws) as Hop by (apply Forall2_app'; auto).
  assert (fold_verify P cms (lf_fold (st_pf s)) ts3 cs = Ok (lc, ts')) as HF.
  { pose proof HV as HV'. unfold nifs_verify in HV'. apply bind_ok_inv in HV' as (u & _ & HV'). rewrite E1 in HV'. cbn [bind] in HV'. rewrite E2 in HV'. cbn [bind] in HV'. rewrite E3 in HV'. exact HV'. }
  pose proof (comb_opens HO P A cs cms ws (lf_fold (st_pf s)) ts3 tr lc ts' HK HL Lc Scx D3 E4 Hop HF) as O.
  set (w' := comb_wit P n (rhos HO P tr) ws) in *.
  assert (forall X : Prop, (X -> step_true acc s) -> X \/ step_bad acc s lc w -> step_true acc s \/ step_bad acc s lc w) as Gen by tauto.
  destruct (list_eq_dec req_dec (w_f w) (w_f w')) as [E|NE].
  2: { right. exists lin, lcs_l, lcs_r, ts1, ts2, ts3, tr. split; [exact RUN|]. cbv zeta. right. right. right. split; [exact NE|]. split; [apply HR|exact O]. }
  pose proof (opens_wit_eq _ _ _ _ _ _ (lr_open _ _ _ _ _ HR) O E) as Ew. rewrite Ew in HR.
  destruct (list_eq_dec (list_eq_dec req_dec) (fp_theta (lf_fold (st_pf s))) (evs (map w_fhat ws) (lc_r lc))) as [Et|Nt].
  2: { right. exists lin, lcs_l, lcs_r, ts1, ts2, ts3, tr. split; [exact RUN|]. cbv zeta. right. right. left. exists lc, ts'. split; [exact HF|]. split; [exact HR|]. intros [Q _]. exact (Nt Q). }
  destruct (list_eq_dec (list_eq_dec req_dec) (fp_eta (lf_fold (st_pf s))) (evs (zipw (fun c w => map (Mz_mle (c_s cs) (lcccs_z c (w_ccs w))) (c_M cs)) cms ws) (lc_r lc))) as [Ee|Ne].
  2: { right. exists lin, lcs_l, lcs_r, ts1, ts2, ts3, tr. split; [exact RUN|]. cbv zeta. right. right. left. exists lc, ts'. split; [exact HF|]. split; [exact HR|]. intros [_ Q]. exact (Ne Q). }
  destruct (nifs_sound_at P A cs acc (st_cm s) lin lcs_l lcs_r (st_wl s) (st_wr s) xs Hsz Hdeg Hcd Hcb Hbp Hnd Hxs Hra Ol Or (st_pf s) (st_ts s) lc ts' ts1 ts2 ts3 D1 D2 HV E1 E2 E3 Et Ee) as [G|[G|G]].
  - left. exact G.
  - right. exists lin, lcs_l, lcs_r, ts1, ts2, ts3, tr. split; [exact RUN|]. left. exact G.
  - right. exists lin, lcs_l, lcs_r, ts1, ts2, ts3, tr. split; [exact RUN|]. right. left. exact G.
Qed.

(** The point of the output has the right length. *)
Lemma out_len acc s lc : step_open acc s lc -> length (lc_r lc) = c_s cs.
Proof.
  clear Hsz Hdeg Hcd Hcb Hbp Hnd Hxs xs.
  intros (lin & lcs_l & lcs_r & ts1 & ts2 & ts3 & tr & [[ts' HV] E1 E2 E3 E4] & _).
  unfold nifs_verify in HV. apply bind_ok_inv in HV as (u & _ & HV). rewrite E1 in HV. cbn [bind] in HV. rewrite E2 in HV. cbn [bind] in HV. rewrite E3 in HV. cbn [bind] in HV.
  unfold fold_verify in HV. apply bind_ok_inv in HV as (u' & _ & HV). destruct (squeeze_abzm _ _ _) as [[[[al be] ze] mu] tz].
  apply bind_ok_inv in HV as ([[pt sv] t4] & ES & HV). apply bind_ok_inv in HV as (u2 & _ & HV). destruct (get_rhos P _) as [[rho_c rho] ts5].
  apply bind_ok_inv in HV as ([[[v0 cm0] u3] x0] & _ & HV). apply bind_ok_inv in HV as (lc' & EO & HV). apply ok_inj in HV. injection HV as -> _.
  unfold public_output in EO. apply bind_ok_inv in EO as (h & _ & EO). apply ok_inj in EO. rewrite <- EO. cbn [lc_r]. rewrite map_length. unfold sc_verify in ES.
  apply bind_ok_inv in ES as ([[ms ch] t] & EL & ES). destruct (c_s cs =? 0)%nat; [discriminate|]. apply bind_ok_inv in ES as (e & _ & ES). apply ok_inj in ES. injection ES as <- _ _.
  destruct (verify_loop_inv _ _ _ _ _ _ EL) as (_ & _ & H2). auto.
Qed.

(** A chain: every step accepted with openings, the last accumulator true with witness [w]. *)
Fixpoint chain_ok (acc : lcccs R) (steps : list step) (w : witness C R) : Prop :=
  match steps with
  | [] => lcccs_rel P A cs acc w
  | s :: rest => exists lc, step_open acc s lc /\ chain_ok lc rest w
  end.
(** Everything that went in is true: all accumulators and all instances. *)
Fixpoint chain_true (acc : lcccs R) (steps : list step) : Prop :=
  match steps with
  | [] => True
  | s :: rest => step_true acc s /\ exists lc ts', nifs_verify P acc (st_cm s) (st_pf s) (st_ts s) cs = Ok (lc, ts') /\ chain_true lc rest
  end.
(** The witness that the next step, or the end, gives to its accumulator. *)
Definition next_wit (steps : list step) (w : witness C R) : witness C R := match steps with [] => w | s :: _ => wsum P n (st_wl s) end.
Fixpoint chain_bad (acc : lcccs R) (steps : list step) (w : witness C R) : Prop :=
  match steps with
  | [] => False
  | s :: rest => exists lc ts', nifs_verify P acc (st_cm s) (st_pf s) (st_ts s) cs = Ok (lc, ts') /\ (step_bad acc s lc (next_wit rest w) \/ chain_bad lc rest w)
  end.

Theorem C110_chain_sound : forall steps acc w, length (lc_r acc) = c_s cs -> chain_ok acc steps w -> chain_true acc steps \/ chain_bad acc steps w.
Proof.
  induction steps as [|s rest IH]; intros acc w Hra H; [left; exact I|]. cbn [chain_ok] in H. destruct H as (lc & Ho & Hc).
  assert (exists ts', nifs_verify P acc (st_cm s) (st_pf s) (st_ts s) cs = Ok (lc, ts')) as [ts' HV].
  { destruct Ho as (? & ? & ? & ? & ? & ? & ? & [HV _ _ _ _] & _). exact HV. }
  destruct (IH lc w (out_len _ _ _ Ho) Hc) as [HT|HB].
  - assert (lcccs_rel P A cs lc (next_wit rest w)) as HR. { destruct rest as [|s' rest']; [exact Hc|]. apply HT. }
    destruct (step_sound acc s lc _ Hra Ho HR) as [G|G].
    + left. split; [exact G|]. exists lc, ts'. auto.
    + right. exists lc, ts'. auto.
  - right. exists lc, ts'. auto.
Qed.
(** The chain as computed by the verifier. *)
Theorem C110_chain_verifies : forall steps acc w, chain_ok acc steps w ->
  exists accs, fold_chain_v P cs acc (map (fun s => (st_ts s, st_cm s)) steps) (map st_pf steps) = Ok accs /\ length accs = length steps /\ lcccs_rel P A cs (last accs acc) w.
Proof.
  clear Hsz Hdeg Hcd Hcb Hbp Hnd Hxs xs.
  induction steps as [|s rest IH]; intros acc w H; [exists []; auto|]. cbn [chain_ok] in H. destruct H as (lc & Ho & Hc).
  destruct Ho as (? & ? & ? & ? & ? & ? & ? & [[ts' HV] _ _ _ _] & _). destruct (IH lc w Hc) as (accs & E & L & HR).
  exists (lc :: accs). cbn [map fold_chain_v]. rewrite HV. cbn [bind fst]. rewrite E. cbn [bind length]. split; [reflexivity|]. split; [lia|].
  destruct accs as [|a l]; [exact HR|]. change (last (lc :: a :: l) acc) with (last (a :: l) acc). 
  replace (last (a :: l) acc) with (last (a :: l) lc); [exact HR|]. clear. revert a. induction l as [|b l IHl]; intros a; [reflexivity|]. exact (IHl b).
Qed.
End Chain.

(** Honest steps form such chains: the hypotheses of the theorems are met by every run of the prover. *)
Section Honest.
Context {F K C R : Type} {SO : SOps F K C R} {p : Z} {SL : SLaws F K C R p} {T : Type} {TO : TransOps T R K} {HO : ShortOps T C}.
Theorem honest_step_open (P : dparams) (A : ajtai R) (cs : ccs R) acc (wa : witness C R) cm_i wb (ts : T) :
  params_ok (p := p) P cs -> lcccs_rel P A cs acc wa -> Forall (in_range P) (w_fc wa) -> cccs_rel P A cs cm_i wb -> Forall (in_range P) (w_fc wb) -> folds_in_range P ->
  exists lc w pf ts' wl wr, nifs_prove P acc wa cm_i wb ts cs A = Ok (lc, w, pf, ts') /\
    step_open P A cs acc (Step ts cm_i pf wl wr) lc /\ lcccs_rel P A cs lc w /\ Forall (in_range P) (w_fc w).
Proof.
  intros PO Ra Ia Ri Ii FR. pose proof (po_sizes _ _ PO) as Hs.
  destruct (nifs_step P A cs acc wa cm_i wb ts) as (lc & w & pf & ts' & E0 & V0 & R0 & I0); auto.
  pose proof (nifs_prove_sized (SL := SL) P acc wa cm_i wb ts cs A lc w pf ts' Hs Ra Ri E0) as NS. assert (length (c_M cs) = c_t cs) as Ht by apply Hs.
  destruct (linearization_complete (SL := SL) P A cs cm_i wb (absorb_public_input acc cm_i ts) Hs (po_order _ _ PO) (po_deg _ _ PO) (po_chd _ _ PO) Ri) as (lin & pfl & ts1 & L1 & L2 & L3 & _ & _).
  destruct (decomposition_complete (SL := SL) P A cs acc wa ts1 Hs Ra Ia) as (mz1 & lc1 & wt1 & pf1 & ts2 & A1 & A2 & A3 & A4 & A5 & _).
  destruct (decomposition_complete (SL := SL) P A cs lin wb ts2 Hs L3 Ii) as (mz2 & lc2 & wt2 & pf2 & ts3 & B1 & B2 & B3 & B4 & B5 & _).
  assert (lf_lin pf = pfl /\ lf_dec_l pf = pf1 /\ lf_dec_r pf = pf2) as (Q1 & Q2 & Q3).
  { clear - E0 L1 A1 B1. unfold nifs_prove in E0. apply bind_ok_inv in E0 as (u & _ & E0). rewrite L1 in E0. cbn [bind] in E0. rewrite A1 in E0. cbn [bind] in E0. rewrite B1 in E0. cbn [bind] in E0.
    apply bind_ok_inv in E0 as ([[[lcf wtf] pff] tf] & _ & E0). apply ok_inj in E0. injection E0 as _ _ <- _. auto. }
  assert (exists tr, rho_state P (lc1 ++ lc2) (lf_fold pf) ts3 cs = Ok tr) as (tr & Etr).
  { pose proof V0 as V1. unfold nifs_verify in V1. apply bind_ok_inv in V1 as (u & _ & V1). rewrite Q1, L2 in V1. cbn [bind] in V1. rewrite Q2, A2 in V1. cbn [bind] in V1. rewrite Q3, B2 in V1. cbn [bind] in V1.
    unfold fold_verify in V1. apply bind_ok_inv in V1 as (u' & _ & V1). unfold rho_state. destruct (squeeze_abzm _ _ _) as [[[[al be] ze] mu] tz]. apply bind_ok_inv in V1 as ([[rs s] tt2] & ES & _). rewrite ES.
    cbn [bind]. eexists. reflexivity. }
  destruct NS as [_ [X1 X2 X3 X4] [Y1 Y2 Y3 Y4] [F1 F2 F3]]. rewrite Ht in *.
  assert (forall lcs ws, Forall2 (lcccs_rel P A cs) lcs ws -> Forall2 (fun c w => opens P A cs (lc_cm c) w) lcs ws) as F2i.
  { intros lcs ws H. induction H as [|l w' lcs ws H _ IH]; constructor; auto. apply H. }
  exists lc, w, pf, ts', wt1, wt2. split; [exact E0|]. split; [|auto].
  exists lin, lc1, lc2, ts1, ts2, ts3, tr. cbn [st_pf st_wl st_wr]. split.
  { split; cbn [st_pf st_cm st_ts]; [exists ts'; exact V0|rewrite Q1; exact L2|rewrite Q2; exact A2|rewrite Q3; exact B2|exact Etr]. }
  split; [destruct X1, X2, X3, X4; repeat split; auto|]. split; [destruct Y1, Y2, Y3, Y4; repeat split; auto|]. split; [destruct F2, F3; repeat split; auto|]. split; auto.
Qed.
Theorem C110_honest_chain (P : dparams) (A : ajtai R) (cs : ccs R) : params_ok (p := p) P cs -> folds_in_range P ->
  forall inst acc (wa : witness C R), lcccs_rel P A cs acc wa -> Forall (in_range P) (w_fc wa) ->
  Forall (fun st => cccs_rel P A cs (snd (fst st)) (snd st) /\ Forall (in_range P) (w_fc (snd st))) inst ->
  exists steps w, map (fun s => (st_ts s, st_cm s)) steps = map fst inst /\ chain_ok P A cs acc steps w.
Proof.
  intros PO FR. induction inst as [|[[ts cm_i] wb] inst IH]; intros acc wa Ra Ia H; [exists [], wa; split; [reflexivity|exact Ra]|].
  inversion H as [|? ? [Hc Hi] H']; subst. cbn [fst snd] in Hc, Hi.
  destruct (honest_step_open P A cs acc wa cm_i wb ts PO Ra Ia Hc Hi FR) as (lc & w & pf & ts' & wl & wr & _ & Ho & Hr & Hw).
  destruct (IH lc w Hr Hw H') as (steps & wf & E & Hch). exists (Step ts cm_i pf wl wr :: steps), wf. cbn [map fst st_ts st_cm]. rewrite E. split; [reflexivity|].
  cbn [chain_ok]. exists lc. auto.
Qed.
End Honest.
