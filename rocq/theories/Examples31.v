(** Concrete cases for the theorems of Properties35.v. *)
From Coq Require Import String List Arith Lia ZArith Bool Ring.
From Verif Require Import Prelude Alg Poly MLE MLE_Proofs Zippel Counting Transcript Interp Sumcheck Sumcheck_Proofs CombDeg
  Arith Arith_Proofs Balanced Rings Rings_Proofs Linearization Linearization_Proofs Relations LinRel
  Decomposition Decomposition_Proofs Folding Folding_Comb Folding_Proofs Folding_Complete Folding_Sound NIFS NIFS_Proofs
  Inst5 Toy Properties1 Examples1 Properties2 Examples2 PolyInst CycInst Challenge Challenge_Proofs ShortDual Sampling Shipped Properties13 Examples13 SoundErr RandomOracle NIFS_RO Extract RhoErr AdaptRO ShortRO
  Properties16 Examples15 Properties35.
Import ListNotations.
Local Open Scope rs_scope.

(** ** C119: the false instance of Examples15.v once more.  The short challenges come from the oracle, and the output of the step holds. *)
(** Seeds: elements that differ by constants. *)
Definition ssS0 : list c4 := map (fun a => C4 a a1 a0 a4) [a0; a1; a2; a3; a4].
Definition ssV : list c4 := repeat (C4 a0 a1 a0 a4) 3.
(** The questions of the verifier, and as a twentieth the history at which the short challenges are squeezed. *)
Definition ssAsk : list (list (ev r2 f25)) := Eval vm_compute in
  match nifs_verify (TO := ask_trans) (HO := ask_short) exP exAcc liarI liarPf ([], ex_coins, []) exCs with Ok (_, (l, _, q)) => q ++ [snd (strip l)] | _ => [] end.
Definition ssQry (a : list (f25 * list c4)) : list (ev r2 f25) := nth (length a) ssAsk [].
Definition ssX : list (f25 * list c4) := map (fun k => (k, ssV)) (ex_coins ++ [0]).
Definition ssW : witness c4 r2 := comb_wit exP 4 (rho_vec (fun a => a) ssV) ex_ws.
Definition ssOpf (cm : list r2) : list r2 := if leqb cm (lc_cm exAcc) then w_f (exWit xi) else w_f ssW.
Definition ssRel (lc : lcccs r2) (w : witness c4 r2) : bool :=
  (length (lc_r lc) =? c_s exCs)%nat && (length (lc_x lc) =? c_l exCs)%nat && (length (w_f w) =? 4)%nat &&
  match commit exA (w_f w) with Ok cm => leqb cm (lc_cm lc) | _ => false end &&
  leqb (lc_v lc) (map (fun j => mle_spec (fun b => hat j (nth b (w_fc w) 0)) (lc_r lc)) (seq 0 tau)) &&
  leqb (lc_u lc) (map (fun M => mle_spec (mz M (lc_x lc ++ lc_h lc :: w_ccs w)) (lc_r lc)) (c_M exCs)).
Lemma ssRel_ok lc : ssRel lc ssW = true -> lcccs_rel exP exA exCs lc ssW.
Proof.
  unfold ssRel. intros H.
  apply andb_prop in H as [H H6]. apply andb_prop in H as [H H5]. apply andb_prop in H as [H H4]. apply andb_prop in H as [H H3]. apply andb_prop in H as [H1 H2].
  split; [split|..].
  + apply from_f_coeff_consistent.
  + apply Nat.eqb_eq, H3.
  + destruct (commit exA (w_f ssW)); [|discriminate..]. f_equal. apply leqb_true, H4.
  + apply Nat.eqb_eq, H1.
  + apply Nat.eqb_eq, H2.
  + apply leqb_true, H5.
  + apply leqb_true, H6.
Qed.
Lemma ssV_eq (v : list c4) : length v = 3%nat -> forallb (fun a => req a (C4 a0 a1 a0 a4)) v = true -> v = ssV.
Proof.
  intros Hl Hv. destruct v as [|v1 [|v2 [|v3 [|]]]]; try discriminate Hl. cbn [forallb] in Hv.
  repeat (apply andb_true_iff in Hv as [Hv1 Hv]; apply req_true in Hv1; rewrite Hv1; clear Hv1). reflexivity.
Qed.
Lemma ss_step : exists lc t', step_seeds 0 (fun a => a) exP exA exCs ex_opn (fun _ => liarW) ssOpf (p_table ssQry ssX) [] exAcc liarI liarPf lc t' /\
  lcccs_rel exP exA exCs lc ssW /\ w_f ssW = ssOpf (lc_cm lc).
Proof.
  unfold step_seeds. cbv zeta. set (tab := p_table ssQry ssX).
  destruct (ok_some (nifs_verify (TO := ro_trans (ktab tab)) (HO := ro_short (hs_of 0 (fun a => a) tab)) exP exAcc liarI liarPf (Ro [] true) exCs)
    (fun r => ro_ok (snd r) && ssRel (fst r) ssW && negb (leqb (lc_cm (fst r)) (lc_cm exAcc)) &&
       match plookup tab (snd (strip (ro_log (snd r)))) with Some (k, v) => req k 0 && (length v =? 3)%nat && forallb (fun a => req a (C4 a0 a1 a0 a4)) v | None => false end)) as ([lc t'] & E & HV); [vm_compute; reflexivity|].
  cbn [fst snd] in HV. apply andb_true_iff in HV as [HV Hp]. apply andb_true_iff in HV as [HV Hn]. apply andb_true_iff in HV as [Hok Hr].
  destruct (plookup tab (snd (strip (ro_log t')))) as [[k v]|] eqn:Ep; [|discriminate].
  apply andb_true_iff in Hp as [Hp Hv]. apply andb_true_iff in Hp as [_ Hl]. apply Nat.eqb_eq in Hl.
  assert (v = ssV) as ->.
  { exact (ssV_eq v Hl Hv). }
  destruct (ok_some (lin_verify (TO := ro_trans (ktab tab)) liarI (lf_lin liarPf) (absorb_public_input (TO := ro_trans (ktab tab)) exAcc liarI (Ro [] true)) exCs)
    (fun r => leqb (lc_r (fst r)) (map emb (firstn 2 (skipn 2 ex_coins))))) as ([lin t1] & EL & HL); [vm_compute; reflexivity|].
  cbn [fst] in HL. apply leqb_true in HL.
  assert (ssOpf (lc_cm lc) = w_f ssW) as Ho. { unfold ssOpf. destruct (leqb (lc_cm lc) (lc_cm exAcc)); [discriminate Hn|reflexivity]. }
  exists lc, t'. split; [|split; [apply ssRel_ok; exact Hr|symmetry; exact Ho]].
  split; [exact E|]. split; [exact Hok|]. split; [shape|]. split; [shape|]. split; [shape|]. split; [shape|].
  exists lin, t1, k, ssV. split; [exact EL|]. split; [exact Ep|]. rewrite HL, Ho. split; [apply ex_opens|].
  split; [vm_compute; reflexivity|]. split; vm_compute; reflexivity.
Qed.
Example ex_C119 cont : sizes_ok 5 exP exCs /\ degree_ok exCs /\ char_gt f25 (c_d exCs + 1) /\ char_gt f25 (2 * dp_b exP) /\ (2 * Z.of_nat (dp_b exP) <= 5 + 1)%Z /\
  (Nat.max tau (c_t exCs) < 25)%nat /\ (forall a b, In a ssS0 -> In b ssS0 -> a <> b -> exists d, d * (a - b) = 1) /\
  length ssX = 20%nat /\ Forall (fun a => In (snd a) (tuples 3 ssS0)) ssX /\
  fools_last 0 (fun a => a) exP exA exCs ex_opn (fun _ => liarW) ssOpf cont ssQry [] ssX.
Proof.
  split; [apply ex_sizes|]. split; [apply ex_in_order|]. split; [apply char5_le; cbn; lia|]. split; [apply char5_le; cbn; lia|]. split; [cbn; lia|]. split; [cbn; lia|].
  split.
  { intros a b Ia Ib Hab. assert (forallb (fun a => forallb (fun b => req a b || existsb (fun d => req (d * (a - b)) 1) (map (fun a => C4 a a0 a0 a0) [a1; a2; a3; a4])) ssS0) ssS0 = true) as T by (vm_compute; reflexivity).
    rewrite forallb_forall in T. specialize (T _ Ia). rewrite forallb_forall in T. specialize (T _ Ib). apply orb_prop in T as [T|T]; [apply req_true in T; contradiction|].
    apply existsb_exists in T as (d & _ & Hd). exists d. apply req_true, Hd. }
  split; [reflexivity|]. split.
  { apply Forall_forall. intros a Ha. unfold ssX in Ha. apply in_map_iff in Ha as (k & <- & _). apply in_tuples. split; [reflexivity|]. repeat constructor. }
  exists exAcc, [(liarI, liarPf)], ssW. split.
  - destruct ss_step as (lc & t' & H & H2). exists lc, t'. split; [exact H|exact H2].
  - left. intros (_ & H & _). revert H. apply liar_false. vm_compute. reflexivity.
Qed.
(** Over the shipped rings, with the system of squares and all shipped parameters. *)
Example ex_C119_shipped {p K} (y : cyc p K) decode need W G P Q : forall SH : shipped p K y decode need W G, In P (W ++ G) -> (1 <= Q)%nat -> (Z.of_nat Q <= 2 ^ 50)%Z ->
  forall A opn opw opf cont qry l0 S0, Forall (bytes need) S0 -> Z.of_nat (length S0) = (256 ^ Z.of_nat need)%Z ->
  forall L, NoDup L -> Forall (fun x => In x (tuples Q (list_prod (all_challenges y) (tuples (2 * dp_K P - 1) S0))) /\ fools_last (SO := cyc_ops y) [] (short_seed y decode)
      P A (sq_cs y P) opn opw opf cont qry l0 x) L ->
    (2 ^ 69 * Z.of_nat (length L) <= (Z.of_nat (length (all_challenges y)) * Z.of_nat (length S0) ^ Z.of_nat (2 * dp_K P - 1)) ^ Z.of_nat Q)%Z.
Proof.
  intros SH HP HQ HQ2 A opn opw opf cont qry l0 S0.
  apply (C119_shipped y decode need W G SH P HP A (sq_cs y P)); auto; try (cbn [sq_cs c_d c_t]; lia).
  apply (sq_good y decode need W G SH P HP). apply (ex_L y decode need W G P SH HP).
Qed.
