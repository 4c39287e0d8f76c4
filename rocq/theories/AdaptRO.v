(** The folding step in the random oracle model when the adversary chooses the instances, the starting point of the transcript and the proof
    after its questions, and chains of folding steps. *)
From Coq Require Import String List Arith Lia ZArith Bool Ring.
From Verif Require Import Prelude Alg Poly MLE MLE_Proofs Zippel Counting Transcript Interp Sumcheck Sumcheck_Proofs CombDeg
  Arith Arith_Proofs Balanced Rings Rings_Proofs Linearization Linearization_Proofs Relations LinRel
  Decomposition Decomposition_Proofs Folding Folding_Comb Folding_Proofs Folding_Complete Folding_Sound NIFS NIFS_Proofs
  SoundErr RandomOracle NIFS_RO Extract.
Import ListNotations.
Local Open Scope rs_scope.

Section N.
Context {F K C R : Type} {SO : SOps F K C R} {p : Z} {SL : SLaws F K C R p}.
Add Ring Rring105 : (@rlaws_th R _ _).
Notation log := (list (ev R K)).
Variables (P : dparams) (A : ajtai R) (cs : ccs R) (opn : list R -> witness C R) (opw : list R -> list R).

(** Sizes of the two instances (those of the constraint system and of the commitment matrix). *)
Definition st_ok (acc : lcccs R) (cm_i : cccs R) : Prop :=
  length (lc_r acc) = c_s cs /\ length (lc_v acc) = tau /\ length (lc_cm acc) = kappa A /\ length (lc_u acc) = c_t cs /\ length (lc_x acc) = c_l cs /\
  length (i_cm cm_i) = kappa A /\ length (i_x cm_i) = c_l cs.
Definition publen : nat := (3 + c_s cs + tau + 2 * kappa A + c_t cs + 2 * c_l cs)%nat.
Lemma publog_length acc cm_i : st_ok acc cm_i -> length (publog acc cm_i : log) = publen.
Proof. intros (H1 & H2 & H3 & H4 & H5 & H6 & H7). unfold publog, publen. rewrite !app_length, !map_length. cbn [length]. lia. Qed.
Lemma publog_inj acc cm_i acc' cm_i' : st_ok acc cm_i -> st_ok acc' cm_i' -> publog acc cm_i = publog acc' cm_i' -> acc = acc' /\ cm_i = cm_i'.
Proof.
  intros (H1 & H2 & H3 & H4 & H5 & H6 & H7) (G1 & G2 & G3 & G4 & G5 & G6 & G7) E. unfold publog in E. apply app_inv_head in E.
  apply app_split_len in E as [E1 E]; [|rewrite !map_length; congruence]. apply app_split_len in E as [E2 E]; [|rewrite !map_length; congruence].
  apply app_split_len in E as [E3 E]; [|rewrite !map_length; congruence]. apply app_split_len in E as [E4 E]; [|rewrite !map_length; congruence].
  apply app_split_len in E as [E5 E]; [|rewrite !map_length; congruence]. cbn [app] in E. injection E as E6 E.
  apply app_split_len in E as [E7 E8]; [|rewrite !map_length; congruence]. apply mapA_inj in E1, E2, E3, E4, E5, E7, E8.
  destruct acc, acc', cm_i, cm_i'; cbn in *; subst; auto.
Qed.

(** A bad answer for the instances [acc], [cm_i]. *)
Definition bad_for (S : list K) acc cm_i l0 (l : log) (c : K) : Prop :=
  ((B1 cs acc cm_i (opw (i_cm cm_i)) l0 l c \/ B2 cs acc cm_i (opw (i_cm cm_i)) l0 l c) \/ B3 P A cs acc cm_i opn l0 S l c) \/ B4 P A cs acc cm_i opn l0 l c.
Lemma bad_prefix S acc cm_i l0 l c : bad_for S acc cm_i l0 l c -> exists rest, l = l0 ++ publog acc cm_i ++ rest.
Proof.
  intros [[[H|H]|H]|H].
  - destruct H as (x & pre & _ & _ & -> & _). unfold enc1. rewrite <- !app_assoc. eauto.
  - destruct H as (x & ms & c' & msg & _ & _ & _ & _ & _ & -> & _). unfold enc2, enc1. rewrite <- !app_assoc. eauto.
  - destruct H as (x & pre & _ & _ & -> & _). unfold enc3, enc2, enc1. rewrite <- !app_assoc. eauto.
  - destruct H as (x & ms & c' & msg & _ & _ & _ & _ & _ & -> & _). unfold enc4, enc3, enc2, enc1. rewrite <- !app_assoc. eauto.
Qed.
(** The log from the start of a step to the end of its last sumcheck. *)
Definition len_sc : nat :=
  (publen + 1 + c_s cs + 2 + c_s cs * (c_d cs + 1 + 3) + tau + c_t cs + 2 * (dp_K P * (c_l cs + 1 + kappa A + c_t cs + tau)) +
   length (chlog P 0 (repeat (0%rs : K) (m_fold P cs))) + 2 + c_s cs * (2 * dp_b P + 3))%nat.
Lemma bad_len S acc cm_i l0 l c : st_ok acc cm_i -> bad_for S acc cm_i l0 l c -> (length l0 <= length l <= length l0 + len_sc)%nat.
Proof.
  intros Hst H. split; [destruct (bad_prefix _ _ _ _ _ _ H) as [r ->]; rewrite app_length; lia|].
  assert (length (enc1 acc cm_i l0) = length l0 + publen + 1)%nat as L1.
  { unfold enc1. rewrite !app_length, publog_length by exact Hst. cbn [length]. lia. }
  assert (len3 P A cs acc cm_i l0 = length l0 + publen + 1 + c_s cs + 2 + c_s cs * (c_d cs + 1 + 3) + tau + c_t cs + 2 * (dp_K P * (c_l cs + 1 + kappa A + c_t cs + tau)))%nat as L3.
  { unfold len3. rewrite L1. lia. }
  unfold len_sc. destruct H as [[[H|H]|H]|H].
  - destruct H as (x & pre & _ & Hp & -> & _). rewrite app_length, map_length, L1. lia.
  - apply (sc_B_len _ _ (length (enc1 acc cm_i l0) + c_s cs)) in H; [|intros; apply enc2_length; auto]. rewrite L1 in H. lia.
  - destruct H as (x & pre & Hx & Hp & -> & _). rewrite app_length, (enc3_length P A cs acc cm_i l0 x Hx), L3. pose proof (chlog_len P pre (repeat (0%rs : K) (m_fold P cs)) 0) as H.
    rewrite repeat_length in H. lia.
  - apply (sc_B_len _ _ _ _ _ _ _ _ (enc4_length P A cs acc cm_i l0)) in H. rewrite L3 in H. lia.
Qed.
(** Whatever the instances, and whatever the history before the step as long as its length is [len0] plus a multiple of [W]: few answers to a question are bad. *)
Lemma few_bad_any S W len0 l : (1 <= c_s cs)%nat -> (len_sc < W)%nat ->
  few (fun c => exists l0 acc cm_i, (exists j, length l0 = len0 + j * W)%nat /\ st_ok acc cm_i /\ bad_for S acc cm_i l0 l c)
    (Nat.max (c_d cs + 1) (Nat.max (Nat.max tau (c_t cs)) (2 * dp_b P))).
Proof.
  intros Hs HW. apply few_if. intros c0 (l0 & acc & cm_i & [j Hj] & Hst & Hb).
  eapply few_weaken; [|apply le_n|apply (few_bad P A cs acc cm_i opn (opw (i_cm cm_i)) l0 S l Hs)].
  intros c (l0' & acc' & cm_i' & [j' Hj'] & Hst' & Hb').
  assert (l0 = l0' /\ acc = acc' /\ cm_i = cm_i') as (-> & -> & ->); [|exact Hb'].
  pose proof (bad_len _ _ _ _ _ _ Hst Hb) as [I1 I2]. pose proof (bad_len _ _ _ _ _ _ Hst' Hb') as [I1' I2'].
  destruct (bad_prefix _ _ _ _ _ _ Hb) as [r E]. destruct (bad_prefix _ _ _ _ _ _ Hb') as [r' E']. rewrite E in E'.
  assert (j = j') as Ej by nia. apply app_split_len in E' as [<- E']; [|rewrite Hj, Hj', Ej; reflexivity].
  apply app_split_len in E' as [E' _]; [|rewrite !publog_length by auto; reflexivity]. split; [reflexivity|]. apply publog_inj; auto.
Qed.

(** ** C118: adaptive soundness *)
Theorem nifs_ro_any hs (S : list K) Q (qry : list K -> log) W len0 :
  sizes_ok p P cs -> degree_ok cs -> char_gt K (c_d cs + 1) -> char_gt K (2 * dp_b P) -> (2 * Z.of_nat (dp_b P) <= p + 1)%Z ->
  NoDup S -> (Nat.max tau (c_t cs) < length S)%nat -> (len_sc < W)%nat ->
  few (fun x => In x (tuples Q S) /\ exists l0 acc cm_i pf, (exists j, length l0 = len0 + j * W)%nat /\ st_ok acc cm_i /\
         fooled_tab P A cs acc cm_i opn (opw (i_cm cm_i)) l0 hs (ro_table qry x) pf)
    (Q * Nat.max (c_d cs + 1) (Nat.max (Nat.max tau (c_t cs)) (2 * dp_b P)) * length S ^ (Q - 1)).
Proof.
  intros Hsz Hd Hcd Hcb Hbp HS Hq HW. destruct (so_sized _ _ _ Hsz) as (_ & Hs1 & _).
  eapply few_weaken; [|apply le_n|refine (few_queries qry S Q (fun l c => exists l0 acc cm_i, (exists j, length l0 = len0 + j * W)%nat /\ st_ok acc cm_i /\ bad_for S acc cm_i l0 l c) _ _)].
  - intros x [Hx (l0 & acc & cm_i & pf & Hl & Hst & Hf)]. split; auto.
    destruct (fooled_bad P A cs acc cm_i opn (opw (i_cm cm_i)) l0 hs S (ro_table qry x) pf Hsz Hd Hcd Hcb Hbp HS Hq (proj1 Hst) Hf) as (l & c & H1 & H2).
    exists l, c. split; [exact H1|]. exists l0, acc, cm_i. auto.
  - intros l. apply few_bad_any; auto.
Qed.

(** ** Chains *)
(** The log of a whole step. *)
Definition len_step : nat := (len_sc + 2 * dp_K P * tau + 2 * dp_K P * c_t cs + 1 + (2 * dp_K P - 1))%nat.
Lemma ro_slices_len tab (l : list (list R)) w : Forall (fun v => length v = w) l -> forall t : ro R K,
  length (ro_log (absorb_slices (TO := ro_trans tab) t l)) = (length (ro_log t) + length l * w)%nat.
Proof.
  unfold absorb_slices. induction 1 as [|a l Ha _ IH]; intros t; cbn [fold_left length]; [lia|]. rewrite IH, ro_absorb_slice. cbn [ro_log].
  rewrite app_length, map_length, Ha. lia.
Qed.
Lemma ro_small_len (hs : log -> C) n : forall (t : ro R K) cs t', get_small_challenges (HO := ro_short hs) t n = (cs, t') -> length (ro_log t') = (length (ro_log t) + n)%nat.
Proof.
  induction n as [|n IH]; intros t cs0 t' H; cbn [get_small_challenges] in H; [injection H as _ <-; lia|].
  destruct (get_short_challenge t) as [c t1] eqn:Ec. destruct (get_small_challenges t1 n) as [cs' t2] eqn:Es. injection H as _ <-.
  apply IH in Es. injection Ec as _ <-. rewrite Es. cbn [ro_log]. rewrite app_length. cbn [length]. lia.
Qed.
Lemma step_log_length tab hs l0 acc cm_i pf lc t' : sizes_ok p P cs -> st_ok acc cm_i ->
  nifs_verify (TO := ro_trans tab) (HO := ro_short hs) P acc cm_i pf (Ro l0 true) cs = Ok (lc, t') -> ro_ok t' = true ->
  dec_ok P A cs (lf_dec_l pf) -> dec_ok P A cs (lf_dec_r pf) -> fold_shape P cs (lf_fold pf) -> length (ro_log t') = (length l0 + len_step)%nat.
Proof.
  intros Hsz Hst HV Hok Dl Dr (F1 & F2 & F3 & F4). pose proof (so_K _ _ _ Hsz) as HK. destruct (so_sized _ _ _ Hsz) as (_ & Hs1 & _).
  pose proof HV as HV'. unfold nifs_verify in HV'. apply bind_ok_inv in HV' as (u0 & _ & HV'). apply bind_ok_inv in HV' as ([lin t1] & HL & HV').
  apply bind_ok_inv in HV' as ([l1 t2] & HDl & HV'). apply bind_ok_inv in HV' as ([l2 t3] & HDr & HV').
  destruct (dec_verify_parts _ _ _ _ _ _ HDl) as [Ha1 EL1]. destruct (dec_verify_parts _ _ _ _ _ _ HDr) as [Ha2 EL2].
  apply ro_dec_absorb in Ha1. apply ro_dec_absorb in Ha2. fold (dlog (K := K) (lf_dec_l pf)) in Ha1. fold (dlog (K := K) (lf_dec_r pf)) in Ha2.
  destruct (dec_verify_lens P cs _ _ _ _ _ HK (proj1 Dr) HDr) as [Lv Lu].
  destruct (lin_verify_inv _ _ _ _ _ _ (so_wf _ _ _ Hsz) HL) as (rs & e0 & tsx & Hsc & Hrs & El & _ & Ets1).
  unfold fold_verify in HV'. apply bind_ok_inv in HV' as (u1 & _ & HF).
  rewrite squeeze_tape in HF by auto. destruct (fold_chal P t3 (c_s cs)) as [fc t4] eqn:Efc. cbn [fst snd] in HF.
  destruct (tape_abzm P (c_s cs) fc) as [[[al be] ze] mu] eqn:Etp.
  apply bind_ok_inv in HF as ([[pt sv] t5] & Hscf & HF). apply bind_ok_inv in HF as (u2 & _ & HF).
  destruct (get_rhos P _) as [[rho_c rho] t6] eqn:Erh. apply bind_ok_inv in HF as ([[[v0 cm0] u3] x0] & _ & HF).
  apply bind_ok_inv in HF as (lc' & Hout & HF). apply ok_inj in HF. injection HF as -> ->.
  unfold get_rhos in Erh. destruct (get_small_challenges _ _) as [rr t7] eqn:Es in Erh. injection Erh as _ _ <-.
  assert (ro_ok t5 = true) as Hok5. { apply (ro_small hs) in Es. rewrite ro_tag in Es. cbn [ro_ok] in Es. rewrite !ro_slices in Es. congruence. }
  apply (ro_small_len hs) in Es. rewrite ro_tag in Es. cbn [ro_log] in Es. rewrite app_length, (ro_slices_len tab _ _ F4), (ro_slices_len tab _ _ F2) in Es. cbn [length] in Es.
  destruct (ro_sc_verify _ _ _ _ _ _ _ _ _ Hscf Hok5) as (Hok4 & Lpt & Lmf & Fmf & Gf & _).
  destruct (ro_fold_chal _ _ _ _ _ _ HK Hs1 Efc Hok4) as (Hok3 & Lfc & Gfc & _).
  assert (ro_ok t1 = true) as Hok1 by (rewrite Ha2, Ha1 in Hok3; exact Hok3).
  rewrite ro_public, ro_tag in Hsc. cbn [ro_log ro_ok] in Hsc.
  destruct (get_challenges (Ro ((l0 ++ publog acc cm_i) ++ [tg "beta_s"]) true) (c_s cs)) as [betas tb] eqn:Ebt. cbn [snd] in Hsc.
  assert (ro_ok tsx = true) as Hokx by (rewrite Ets1, !ro_absorb_slice in Hok1; exact Hok1).
  destruct (ro_sc_verify _ _ _ _ _ _ _ _ _ Hsc Hokx) as (Hokb & _ & Lms & Fms & Gx & _).
  destruct (ro_challenges _ _ _ _ _ Ebt Hokb) as (_ & Lb & Gb & _). cbn [ro_log] in Gb.
  assert (lc_v lin = lp_v (lf_lin pf) /\ lc_u lin = lp_u (lf_lin pf)) as (El2 & El3) by (rewrite El; auto). rewrite El2 in Lv. rewrite El3 in Lu.
  rewrite Es, Gf, Gfc, Ha2, Ha1, Ets1, !ro_absorb_slice. cbn [ro_log]. rewrite Gx, Gb. unfold sc_head. rewrite !app_length, !map_length.
  rewrite (rounds_length (c_d cs + 1 + 1)) by (auto; congruence). rewrite (rounds_length (2 * dp_b P + 1)) by (auto; congruence).
  rewrite !(dlog_length P A cs) by auto. rewrite (publog_length acc cm_i Hst). cbn [length].
  rewrite (chlog_len_eq P fc (repeat (0%rs : K) (m_fold P cs)) 0) by (rewrite repeat_length; exact Lfc).
  unfold len_step, len_sc. rewrite Lb, Hrs, Lv, Lu, Lpt, F1, F3. lia.
Qed.
(** One step of a chain, from the history [l]: accepted, everything asked is in the table, openings consistent with everything sent. *)
Definition step_passed (hs : log -> C) (tab : list (log * K)) (l : log) (acc : lcccs R) (cm_i : cccs R) (pf : lf_proof R) (lc : lcccs R) (t' : ro R K) : Prop :=
  let TO := ro_trans tab in
  let HO := ro_short hs in
  let n := ((c_n cs - c_l cs - 1) * dp_L P)%nat in
  nifs_verify P acc cm_i pf (Ro l true) cs = Ok (lc, t') /\ ro_ok t' = true /\ st_ok acc cm_i /\ fold_shape P cs (lf_fold pf) /\
  exists lin t1, lin_verify cm_i (lf_lin pf) (absorb_public_input acc cm_i (Ro l true)) cs = Ok (lin, t1) /\
    let lcs_l := dec_parts (lc_r acc) (lf_dec_l pf) in
    let lcs_r := dec_parts (lc_r lin) (lf_dec_r pf) in
    let ws_l := map (fun c => opn (lc_cm c)) lcs_l in
    let ws_r := map (fun c => opn (lc_cm c)) lcs_r in
    dec_shape P cs (lf_dec_l pf) /\ dec_shape P cs (lf_dec_r pf) /\
    Forall (fun c => opens P A cs (lc_cm c) (opn (lc_cm c))) (lcs_l ++ lcs_r) /\
    fp_theta (lf_fold pf) = evs (map w_fhat (ws_l ++ ws_r)) (lc_r lc) /\
    fp_eta (lf_fold pf) = evs (zipw (fun c w => map (Mz_mle (c_s cs) (lcccs_z c (w_ccs w))) (c_M cs)) (lcs_l ++ lcs_r) (ws_l ++ ws_r)) (lc_r lc) /\
    w_ccs (wsum P n ws_r) = opw (i_cm cm_i).
(** Both instances that went into the step hold, with short openings. *)
Definition step_holds (acc : lcccs R) (cm_i : cccs R) (pf : lf_proof R) : Prop :=
  let n := ((c_n cs - c_l cs - 1) * dp_L P)%nat in
  let ws_l := map opn (dp_ys (lf_dec_l pf)) in
  let ws_r := map opn (dp_ys (lf_dec_r pf)) in
  lcccs_rel P A cs acc (wsum P n ws_l) /\ cccs_rel P A cs cm_i (wsum P n ws_r) /\
  forall i w, nth_error (ws_l ++ ws_r) i = Some w -> (i < 2 * dp_K P - 1)%nat \/ tau = 1%nat -> wit_norm (Z.of_nat (dp_b P) - 1) w.
(** A chain in which every step takes the output of the one before as its accumulator; the transcript starts at [l0] in every step,
    or ([cont]) goes on. *)
Fixpoint ro_chain (cont : bool) (hs : log -> C) (tab : list (log * K)) (l0 l : log) (acc : lcccs R) (steps : list (cccs R * lf_proof R)) : Prop :=
  match steps with
  | [] => True
  | (cm_i, pf) :: rest => exists lc t', step_passed hs tab l acc cm_i pf lc t' /\ ro_chain cont hs tab l0 (if cont then ro_log t' else l0) lc rest
  end.
(** Some step of the chain has an input that does not hold. *)
Fixpoint chain_lies (hs : log -> C) (tab : list (log * K)) (cont : bool) (l0 l : log) (acc : lcccs R) (steps : list (cccs R * lf_proof R)) : Prop :=
  match steps with
  | [] => False
  | (cm_i, pf) :: rest => ~ step_holds acc cm_i pf \/
      exists lc t', nifs_verify (TO := ro_trans tab) (HO := ro_short hs) P acc cm_i pf (Ro l true) cs = Ok (lc, t') /\
        chain_lies hs tab cont l0 (if cont then ro_log t' else l0) lc rest
  end.
(** The answers [x] to the questions [qry] admit a chain, of any length and from any accumulator, that passes although some step has an input
    that does not hold. *)
Definition fools_chain (cont : bool) (hs : log -> C) (qry : list K -> log) (l0 : log) (x : list K) : Prop :=
  exists acc steps, ro_chain cont hs (ro_table qry x) l0 l0 acc steps /\ chain_lies hs (ro_table qry x) cont l0 l0 acc steps.
Lemma parts_ws r pf : dec_shape P cs pf -> map (fun c => opn (lc_cm c)) (dec_parts r pf) = map opn (dp_ys pf).
Proof. intros H. rewrite <- (map_map lc_cm opn), (dec_parts_cm P cs) by exact H. reflexivity. Qed.
Lemma chain_fooled cont hs tab l0 : sizes_ok p P cs -> forall steps l acc, (exists j, length l = length l0 + j * len_step)%nat ->
  ro_chain cont hs tab l0 l acc steps -> chain_lies hs tab cont l0 l acc steps ->
  exists l1 acc' cm_i pf, (exists j, length l1 = length l0 + j * len_step)%nat /\ st_ok acc' cm_i /\ fooled_tab P A cs acc' cm_i opn (opw (i_cm cm_i)) l1 hs tab pf.
Proof.
  intros Hsz. induction steps as [|[cm_i pf] rest IH]; intros l acc Hl Hc Hb; cbn [ro_chain chain_lies] in *; [destruct Hb|].
  destruct Hc as (lc & t' & (HV & Hok & Hst & Hfs & lin & t1 & HL & Hs2 & Hs3 & Ho & Hth & Het & Hw0) & Hrest).
  destruct Hb as [Hno|(lc' & t'' & HV' & Hb)].
  - exists l, acc, cm_i, pf. split; [exact Hl|]. split; [exact Hst|]. exists lc, t', lin, t1.
    split; [exact HV|]. split; [exact Hok|]. split; [exact HL|]. cbv zeta. split; [exact Hs2|]. split; [exact Hs3|]. split; [exact Ho|]. split; [exact Hth|]. split; [exact Het|]. split; [exact Hw0|].
    intros (H1 & H2 & H3). apply Hno. unfold step_holds. cbv zeta. rewrite !parts_ws in * by assumption. auto.
  - rewrite HV in HV'. apply ok_inj in HV'. injection HV' as <- <-. apply (IH _ _) in Hb; auto. destruct cont; [|exists 0%nat; lia].
    destruct Hl as [j Hj]. exists (S j). apply Forall_app in Ho as [Ho1 Ho2].
    rewrite (step_log_length tab hs l acc cm_i pf lc t' Hsz Hst HV Hok (dec_ok_of P A cs opn _ _ Hs2 Ho1) (dec_ok_of P A cs opn _ _ Hs3 Ho2) Hfs). lia.
Qed.
(** The error does not depend on the number of steps. *)
Theorem chain_ro cont hs (S : list K) Q (qry : list K -> log) l0 :
  sizes_ok p P cs -> degree_ok cs -> char_gt K (c_d cs + 1) -> char_gt K (2 * dp_b P) -> (2 * Z.of_nat (dp_b P) <= p + 1)%Z ->
  NoDup S -> (Nat.max tau (c_t cs) < length S)%nat ->
  few (fun x => In x (tuples Q S) /\ fools_chain cont hs qry l0 x)
    (Q * Nat.max (c_d cs + 1) (Nat.max (Nat.max tau (c_t cs)) (2 * dp_b P)) * length S ^ (Q - 1)).
Proof.
  intros Hsz Hd Hcd Hcb Hbp HS Hq.
  eapply few_weaken; [|apply le_n|apply (nifs_ro_any hs S Q qry len_step (length l0) Hsz Hd Hcd Hcb Hbp HS Hq); unfold len_step; lia].
  intros x [Hx (acc & steps & Hc & Hb)]. split; [exact Hx|]. apply (chain_fooled cont hs _ l0 Hsz steps l0 acc); auto. exists 0%nat. lia.
Qed.
End N.
