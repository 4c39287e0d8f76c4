(** Concrete cases for the theorems of Properties2.v, and the counterexamples to C24, C36, C39, C59. *)
From Coq Require Import String List Arith Lia ZArith Bool Ring.
From Verif Require Import Prelude Alg Poly MLE MLE_Proofs Transcript Interp Sumcheck Sumcheck_Proofs
  Arith Arith_Proofs Balanced Rings Rings_Proofs Linearization Linearization_Proofs Relations LinRel
  Decomposition Decomposition_Proofs Folding Folding_Comb Folding_Proofs Folding_Complete Folding_Sound NIFS NIFS_Proofs
  Inst5 Toy Properties1 Examples1 Properties2.
Import ListNotations.
Local Open Scope rs_scope.
Add Ring r2ring2 : (@rlaws_th r2 _ _).

(** Short challenges with coefficients in {-1, 0, 1}. *)
#[export] Instance toy_short : ShortOps Z c4 :=
  fun s => (C4 (z5 (s mod 3 - 1)) (z5 (s / 3 mod 3 - 1)) (z5 (s / 9 mod 3 - 1)) (z5 (s / 27 mod 3 - 1)), tmix s 2).

Lemma ex_in_range (c : c4) : in_range exP c.
Proof.
  intros j. unfold cf. change (dp_b exP) with 2%nat. change (dp_K exP) with 2%nat.
  destruct (nth j (coeffs c) 0); vm_compute; discriminate.
Qed.
Example ex_params : params_ok (p := 5) exP exCs.
Proof.
  destruct ex_in_order as [H1 H2]. split; auto; try (cbn; lia); [apply ex_sizes| |]; apply char5_le; cbn; lia.
Qed.

(** An instance of the linearized relation made from a witness. *)
Definition mk_lc (cs : ccs r2) (A : ajtai r2) (w : witness c4 r2) (r x : list r2) (h : r2) : lcccs r2 :=
  Lcccs r (map (fun j => mle_spec (fun b => hat j (nth b (w_fc w) 0)) r) (seq 0 tau))
    (match commit A (w_f w) with Ok c => c | _ => [] end)
    (map (fun M => mle_spec (mz M (x ++ h :: w_ccs w)) r) (c_M cs)) x h.
Lemma mk_lc_rel cs A w r x h : wit_consistent exP w -> length (w_f w) = ((c_n cs - c_l cs - 1) * dp_L exP)%nat ->
  length (w_f w) = a_ncols A -> length r = c_s cs -> length x = c_l cs -> lcccs_rel exP A cs (mk_lc cs A w r x h) w.
Proof.
  intros H1 H2 H3 H4 H5. split; auto. split; auto. unfold mk_lc. cbn [lc_cm]. pose proof (commit_ok A (w_f w) H3) as E. destruct (commit A (w_f w)); try discriminate. auto.
Qed.
(** A relaxed instance with h <> 1 on a wrong witness: only the linear claims are true. *)
Definition exAcc : lcccs r2 := mk_lc exCs exA (exWit xi) [xi; rz 3] [rz 2] (xi + 1).
Lemma ex_acc : lcccs_rel exP exA exCs exAcc (exWit xi).
Proof.
  apply mk_lc_rel; auto; apply from_w_ccs_consistent; apply ex_covers.
Qed.
Lemma all_in_range (w : list c4) : Forall (in_range exP) w.
Proof. apply Forall_forall. intros. apply ex_in_range. Qed.

(** ** C22, C23 *)
Example ex_decomposition : exists mzs lcs wits pf ts',
    dec_prove exP exAcc (exWit xi) 5%Z exCs exA = Ok (mzs, lcs, wits, pf, ts') /\
    dec_verify exP exAcc pf 5%Z = Ok (lcs, ts') /\ length lcs = 2%nat /\ Forall2 (lcccs_rel exP exA exCs) lcs wits /\
    lcccs_rel exP exA exCs exAcc (wsum exP 4 wits).
Proof.
  destruct (C22_decomposition_complete (SL := slaws5) exP exA exCs exAcc (exWit xi) 5%Z ex_sizes ex_acc (all_in_range _))
    as (mzs & lcs & wits & pf & ts' & H1 & H2 & H3 & _ & H5 & _ & _ & _ & (L1 & L2 & L3 & L4)).
  exists mzs, lcs, wits, pf, ts'. split; auto. split; auto. split; auto. split; auto.
  assert (1 <= dp_L exP)%nat as HL by (cbn; lia).
  exact (proj2 (C23_decomposition_sound (SL := slaws5) exP exA exCs exAcc pf 5%Z lcs ts' wits HL L1 L2 L3 L4 H2 H5)).
Qed.
(** The two components differ and are not zero. *)
Example ex_decomposition_digits : exists w0 w1 : witness c4 r2, decompose_witness exP (exWit xi) = [w0; w1] /\
  w_fc w0 <> w_fc w1 /\ forallb (fun c => c =? 0) (w_fc w1) = false.
Proof. do 2 eexists. split; [reflexivity|]. split; [vm_compute; discriminate|vm_compute; reflexivity]. Qed.
Example ex_dec_rejects : exists lcs wits mzs pf ts', dec_prove exP exAcc (exWit xi) 5%Z exCs exA = Ok (mzs, lcs, wits, pf, ts') /\
  dec_verify exP exAcc (DecProof (dp_us pf) (dp_vs pf) (dp_xs pf) (rev (dp_ys pf))) 5%Z = Err RecomposedError.
Proof.
  assert (match dec_prove exP exAcc (exWit xi) 5%Z exCs exA with
          | Ok (mzs, lcs, wits, pf, ts') =>
            match dec_verify exP exAcc (DecProof (dp_us pf) (dp_vs pf) (dp_xs pf) (rev (dp_ys pf))) 5%Z with
            | Err RecomposedError => true | _ => false end
          | _ => false end = true) as H by (vm_compute; reflexivity).
  destruct (dec_prove _ _ _ _ _ _) as [[[[[mzs lcs] wits] pf] ts']| |]; try discriminate. exists lcs, wits, mzs, pf, ts'. split; auto.
  destruct (dec_verify _ _ _ _) as [|[]|]; try discriminate. auto.
Qed.

(** ** C24 is false *)
Theorem C24_number_of_components_refuted :
  exists (P : dparams) (lc : lcccs r2) (ts : Z) pf1 pf3 lcs1 lcs3 ts1 ts3,
    dec_verify P lc pf1 ts = Ok (lcs1, ts1) /\ (length lcs1 < dp_K P)%nat /\
    dec_verify P lc pf3 ts = Ok (lcs3, ts3) /\ (dp_K P < length lcs3)%nat /\
    (* the last returned instance is arbitrary *)
    nth 2 lcs3 lc = Lcccs (lc_r lc) [xi; rz 4] [rz 1; rz 2] [xi; xi; xi] [rz 3] xi.
Proof.
  exists exP, exAcc, 5%Z.
  destruct (C24_single_component (SL := slaws5) exP exAcc 5%Z) as (ts1 & H1); [cbn; lia|].
  destruct (C22_decomposition_complete (SL := slaws5) exP exA exCs exAcc (exWit xi) 5%Z ex_sizes ex_acc (all_in_range _))
    as (mzs & lcs & wits & pf & ts' & _ & H2 & H3 & _ & _ & _ & _ & _ & (L1 & L2 & L3 & L4)).
  destruct (C24_extra_component (SO := sops5) exP exAcc pf 5%Z lcs ts' 2 [rz 3; xi] [rz 1; rz 2] [xi; xi; xi] [xi; rz 4])
    as (ts3 & H4); auto; [cbn; lia|discriminate|].
  do 6 eexists. split; [exact H1|]. split; [cbn; lia|]. split; [exact H4|].
  change (dp_K exP) with 2%nat in *.
  split; [rewrite app_length; cbn [length]; lia|]. rewrite app_nth2, H3 by lia. reflexivity.
Qed.

(** ** C28 *)
Example ex_range : range_poly 2 (rz 1 : r2) = 0 /\ range_poly 2 (rz 4 : r2) = 0 /\ range_poly 2 (rz 2 : r2) <> 0 /\
  range_poly 2 (R2 1 (K2 a0 a1)) <> 0.
Proof. split; [reflexivity|]. split; [reflexivity|]. split; discriminate. Qed.
Example ex_range_char : (2 * Z.of_nat 2 <= 5 + 1)%Z.
Proof. lia. Qed.

(** ** C29: concrete values *)
Example ex_final_check :
  let alpha := [rz 2; xi; rz 3; rz 1] in let mu := [xi; rz 2; xi + 1; rz 1] in let zeta := [rz 3; rz 1; xi; xi + rz 2] in
  let theta := [[xi; rz 2]; [rz 2; rz 3]; [xi + 1; rz 0]; [rz 1; xi]] in
  let eta := [[xi]; [rz 2]; [rz 3]; [xi + rz 3]] in
  let part lo := sumn 2 (fun i => pow_sum (nth (lo + i) alpha 0) (nth (lo + i) theta [])
                                + pow_sum (nth (lo + i) zeta 0) (nth (lo + i) eta [])) in
  expected_value exP alpha mu theta (rz 3) [xi; xi; rz 2; rz 2] zeta eta =
    Ok (fold_comb exP mu ([xi; part 0%nat; rz 2; part 2%nat; rz 3] ++ concat theta)) /\
  fold_comb exP mu ([xi; part 0%nat; rz 2; part 2%nat; rz 3] ++ concat theta) <> 0.
Proof.
  split; [|vm_compute; discriminate].
  exact (C29_final_check (SL := slaws5) exP [rz 2; xi; rz 3; rz 1] [xi; rz 2; xi + 1; rz 1]
    [[xi; rz 2]; [rz 2; rz 3]; [xi + 1; rz 0]; [rz 1; xi]] (rz 3) xi (rz 2) [rz 3; rz 1; xi; xi + rz 2]
    [[xi]; [rz 2]; [rz 3]; [xi + rz 3]] eq_refl eq_refl eq_refl eq_refl eq_refl
    ltac:(repeat constructor)).
Qed.

(** ** C32: expansion factor of X^4+1 *)
Lemma signed_opp5 (x : f5) : Z.abs (signed (- x)) = Z.abs (signed x).
Proof. destruct x; reflexivity. Qed.
Lemma c4_coeffs (B : Z) (a : c4) : cnorm_le B a <->
  (Z.abs (signed (c0 a)) <= B /\ Z.abs (signed (c1 a)) <= B /\ Z.abs (signed (c2 a)) <= B /\ Z.abs (signed (c3 a)) <= B)%Z.
Proof.
  split.
  - intros H. repeat split; [apply (H 0%nat)|apply (H 1%nat)|apply (H 2%nat)|apply (H 3%nat)].
  - intros (H0 & H1 & H2 & H3) j. destruct a as [x0 x1 x2 x3].
    destruct j as [|[|[|[|j]]]]; try assumption.
    assert (cf (S (S (S (S j)))) (C4 x0 x1 x2 x3) = 0) as -> by (apply nth_overflow; cbn; lia).
    change (signed (0 : f5)) with 0%Z. lia.
Qed.
Example ex_expansion : expansion (SO := sops5) 1.
Proof.
  assert (forall B (a : c4), cnorm_le B a -> cnorm_le B (rotX a)) as Hrot.
  { intros B a. rewrite !c4_coeffs. destruct a as [x0 x1 x2 x3]. cbn [c0 c1 c2 c3].
    intros (H0 & H1 & H2 & H3). cbn -[signed f5opp Z.abs]. change (f5opp x3) with (- x3). rewrite signed_opp5. auto. }
  intros i B a _. rewrite Z.mul_1_l. unfold xpow. induction i as [|i IH]; intros H; [exact H|]. change (cnorm_le B (rotX (Nat.iter i rotX a))). auto.
Qed.
(** 2K = 4 witnesses with coefficients at most 1, challenges at most 1: sum at most 4*4. *)
Example ex_folded_norm : forall f : list c4,
  is_lin 2 (fun i => nth i [C4 1 0 (-(1)) 1; 1] 0) (fun i => w_fc (nth i [exWit xi; exWit (rz 1)] (Witness [] [] [] []))) f ->
  Forall (cnorm_le 16) f.
Proof.
  intros f Hf. apply (C32_folded_norm_uniform (SL := slaws5) 1 2 [C4 1 0 (-(1)) 1] [exWit xi; exWit (rz 1)] f 1 2); auto; try lia.
  - apply ex_expansion.
  - repeat constructor. rewrite c4_coeffs. cbn. lia.
  - repeat constructor; rewrite c4_coeffs; vm_compute; intuition discriminate.
Qed.

(** ** C30, C31, C34, C35, C40 *)
Example ex_nifs : exists lc w pf ts',
  nifs_prove exP exAcc (exWit xi) (exI (xi * xi + 1)) (exWit (xi * xi + 1)) 11%Z exCs exA = Ok (lc, w, pf, ts') /\
  nifs_verify exP exAcc (exI (xi * xi + 1)) pf 11%Z exCs = Ok (lc, ts') /\ lcccs_rel exP exA exCs lc w.
Proof.
  destruct (C34_nifs_complete (SL := slaws5) exP exA exCs exAcc (exWit xi) (exI (xi * xi + 1)) (exWit (xi * xi + 1)) 11%Z
    ex_params ex_acc (all_in_range _) (ex_cccs _) (all_in_range _)) as (lc & w & pf & ts' & rho & ws & H1 & H2 & H3 & _).
  exists lc, w, pf, ts'. auto.
Qed.
Lemma ex_folds_in_range : folds_in_range (SO := sops5) exP.
Proof. intros rho ws v _ _ _ _ _. apply all_in_range. Qed.
Example ex_chain : exists accs pfs,
  let steps := [(3%Z, exI xi, exWit xi); (4%Z, exI (rz 2), exWit (rz 2)); (3%Z, exI (xi + 1), exWit (xi + 1))] in
  fold_chain_p exP exCs exA exAcc (exWit xi) steps = Ok (accs, pfs) /\ length accs = 3%nat /\
  fold_chain_v exP exCs exAcc (map fst steps) pfs = Ok (map fst accs).
Proof.
  destruct (C35_chain (SL := slaws5) exP exA exCs ex_params ex_folds_in_range
    [(3%Z, exI xi, exWit xi); (4%Z, exI (rz 2), exWit (rz 2)); (3%Z, exI (xi + 1), exWit (xi + 1))] exAcc (exWit xi) ex_acc
    (all_in_range _)) as (accs & pfs & H1 & H2 & _ & H4 & _).
  - repeat (apply Forall_cons; [split; cbn [fst snd]; [apply ex_cccs|apply all_in_range]|]). constructor.
  - exists accs, pfs. auto.
Qed.
(** The capacity inequality is satisfiable: with expansion 1 and challenges of norm 1 in dimension 4,
    b = 2 and K = 7. *)
Example ex_capacity : capacity (SO := sops5) (DParams 4 1 2 7) 1 1.
Proof. unfold capacity. cbn. lia. Qed.
(** A prover and verifier that log: the honest run makes at least 100 operations. *)
Example ex_log : exists lc w pf ts' log,
  nifs_prove (TO := log_trans) (HO := log_short) exP exAcc (exWit xi) (exI xi) (exWit xi) (11%Z, []) exCs exA = Ok (lc, w, pf, (ts', log)) /\
  nifs_verify (TO := log_trans) (HO := log_short) exP exAcc (exI xi) pf (11%Z, []) exCs = Ok (lc, (ts', log)).
Proof. exact (C40_transcripts_agree (SL := slaws5) exP exA exCs exAcc (exWit xi) (exI xi) (exWit xi) 11%Z ex_params ex_acc (all_in_range _) (ex_cccs _) (all_in_range _)). Qed.
Example ex_log_length :
  match nifs_verify (TO := log_trans) (HO := log_short) exP exAcc (exI xi)
    (match nifs_prove exP exAcc (exWit xi) (exI xi) (exWit xi) 11%Z exCs exA with Ok (_, _, pf, _) => pf | _ => LFProof (LinProof [] [] []) (DecProof [] [] [] []) (DecProof [] [] [] []) (FoldProof [] [] []) end)
    (11%Z, []) exCs with Ok (_, (_, log)) => (100 <=? length log)%nat | _ => false end = true.
Proof. vm_compute. reflexivity. Qed.
(** The verifier rejects the honest proof for another incoming instance. *)
Example ex_nifs_rejects :
  match nifs_prove exP exAcc (exWit xi) (exI xi) (exWit xi) 11%Z exCs exA with
  | Ok (_, _, pf, _) => match nifs_verify exP exAcc (exI (xi + 1)) pf 11%Z exCs with Err _ => true | _ => false end
  | _ => false end = true.
Proof. vm_compute. reflexivity. Qed.

(** ** C36 is false: a system with the constraint 1 * 1 = 0 *)
Definition unsatCs : ccs r2 :=
  Ccs 4 6 1 3 2 2 2 3
    [SMat 4 6 [[(i1, 1)]; [(i1, 2)]; []; []]%nat; SMat 4 6 [[(i1, 1)]; [(i1, 2)]; []; []]%nat;
     SMat 4 6 [[]; [(i1, 3)]; []; []]%nat] [[0; 1]; [2]]%nat [rz 1; rz (-1)].
Lemma unsat_cs (A : ajtai r2) (i : cccs r2) (w : witness c4 r2) : ~ cccs_rel exP A unsatCs i w.
Proof.
  intros [Ho Hx Hs]. assert (1 <= dp_L exP)%nat as HL by (cbn; lia).
  destruct (opens_w_len (SO := sops5) exP A unsatCs (i_cm i) w HL Ho) as [Hw _].
  specialize (Hs 0%nat (Nat.lt_0_succ 3)). cbn [unsatCs c_l c_n] in Hx, Hw.
  destruct (i_x i) as [|x [|]]; try discriminate.
  destruct (w_ccs w) as [|w0 [|w1 [|w2 [|w3 [|]]]]]; try discriminate.
Qed.
Lemma unsat_sizes : sizes_ok 5 exP unsatCs.
Proof. split; try (cbn; lia); [apply ex_covers|repeat split; repeat constructor|repeat split; repeat constructor]. Qed.
Lemma unsat_params : params_ok (p := 5) exP unsatCs.
Proof.
  split; try (cbn; lia); [apply unsat_sizes|repeat constructor| |apply char5_le; cbn; lia|apply char5_le; cbn; lia].
  intros j Hj Hn. cbn [unsatCs c_q] in Hj. destruct j as [|[|j]]; try lia; cbn; lia.
Qed.
Definition unsatAcc : lcccs r2 := mk_lc unsatCs exA (exWit xi) [xi; rz 3] [rz 2] (xi + 1).
(** No instance of this system is satisfiable, yet every instance is folded into an opened
    accumulator by some accepted proof, on every transcript. *)
Theorem C36_incoming_instance_refuted :
  exists (P : dparams) (A : ajtai r2) (cs : ccs r2) (acc : lcccs r2) (w_acc : witness c4 r2),
    sizes_ok 5 P cs /\ lcccs_rel P A cs acc w_acc /\
    (forall (i : cccs r2) (w : witness c4 r2), ~ cccs_rel P A cs i w) /\
    forall (cm_i : cccs r2) (ts : Z), exists pf lc ts' (w : witness c4 r2),
      nifs_verify P acc cm_i pf ts cs = Ok (lc, ts') /\ lcccs_rel P A cs lc w.
Proof.
  exists exP, exA, unsatCs, unsatAcc, (exWit xi).
  assert (lcccs_rel exP exA unsatCs unsatAcc (exWit xi)) as Hacc.
  { apply mk_lc_rel; auto; apply from_w_ccs_consistent; apply ex_covers. }
  split; [apply unsat_sizes|]. split; [exact Hacc|]. split; [intros; apply unsat_cs|]. intros cm_i ts.
  assert (Forall (fun s : list nat => s <> []) (c_S unsatCs)) as HS.
  { constructor; [discriminate|]. constructor; [discriminate|constructor]. }
  destruct (C36_forgery (SL := slaws5) exP exA unsatCs unsatAcc (exWit xi) cm_i ts unsat_params HS Hacc (all_in_range _)) as
    (pf & lc & w & ts' & rho & ws & H1 & H2 & _).
  exists pf, lc, ts', w. split; [exact H1|exact H2].
Qed.

(** ** C39 is false *)
Definition noProof : lf_proof r2 :=
  LFProof (LinProof [] [] []) (DecProof [] [] [] []) (DecProof [] [] [] []) (FoldProof [] [] []).
Theorem C39_verifier_panics_refuted :
  exists (P : dparams) (cs : ccs r2) (acc : lcccs r2) (cm_i : cccs r2) (pf : lf_proof r2) (ts : Z),
    sanity_check cs (dp_L P) = Ok tt /\ nifs_verify P acc cm_i pf ts cs = Panic.
Proof. exists exP, exCs, exAcc, (exI xi), noProof, 11%Z. split; vm_compute; reflexivity. Qed.
(** Also deep inside the run, for an otherwise honest proof whose theta has one row less. *)
Definition shortProof : lf_proof r2 := Eval vm_compute in
  match nifs_prove exP exAcc (exWit xi) (exI xi) (exWit xi) 11%Z exCs exA with
  | Ok (_, _, pf0, _) =>
    LFProof (lf_lin pf0) (lf_dec_l pf0) (lf_dec_r pf0)
      (FoldProof (fp_sc (lf_fold pf0)) (removelast (fp_theta (lf_fold pf0))) (fp_eta (lf_fold pf0)))
  | _ => noProof end.
Theorem C39_short_theta_refuted :
  exists (P : dparams) (cs : ccs r2) (acc : lcccs r2) (cm_i : cccs r2) (pf : lf_proof r2) (ts : Z),
    dec_shape P cs (lf_dec_l pf) /\ dec_shape P cs (lf_dec_r pf) /\
    sanity_check cs (dp_L P) = Ok tt /\ nifs_verify P acc cm_i pf ts cs = Panic.
Proof.
  exists exP, exCs, exAcc, (exI xi), shortProof, 11%Z.
  split; [repeat split; repeat constructor|]. split; [repeat split; repeat constructor|].
  split; vm_compute; reflexivity.
Qed.

(** ** C59 is false: the last witness has coefficient 2 > b - 1 = 1 *)
Definition smallWit : witness c4 r2 := wit_from_f_coeff exP [C4 1 0 (-(1)) 1; 0; 1; C4 0 1 1 0].
Definition bigWit : witness c4 r2 := wit_from_f_coeff exP [C4 a2 a1 (- a2) (- a1); 0; C4 a1 a2 (- a1) (- a2); C4 a2 a2 (- a2) (- a2)].
Theorem C59_norm_of_last_witness_refuted :
  exists (P : dparams) (A : ajtai r2) (cs : ccs r2) (cms : list (lcccs r2)) (ws : list (witness c4 r2)) (wl : witness c4 r2),
    sizes_ok 5 P cs /\ Forall2 (lcccs_rel P A cs) cms (ws ++ [wl]) /\
    Forall (wit_norm (Z.of_nat (dp_b P) - 1)) ws /\ ~ wit_norm (Z.of_nat (dp_b P) - 1) wl /\
    let mzs := zipw (fun lc w => map (Mz_mle (c_s cs) (lcccs_z lc (w_ccs w))) (c_M cs)) cms (ws ++ [wl]) in
    forall ts : Z, exists lc w' pf ts',
      fold_prove P cms (ws ++ [wl]) ts cs mzs = Ok (lc, w', pf, ts') /\
      fold_verify P cms pf ts cs = Ok (lc, ts') /\ lcccs_rel P A cs lc w'.
Proof.
  pose (r1 := [xi; rz 3]). pose (q2 := [rz 2; xi + 1]).
  exists exP, exA, exCs, [mk_lc exCs exA smallWit r1 [xi] 1; mk_lc exCs exA smallWit r1 [rz 2] 0;
    mk_lc exCs exA smallWit q2 [xi] 1; mk_lc exCs exA bigWit q2 [rz 3] xi], [smallWit; smallWit; smallWit], bigWit.
  assert (forall f, length f = 4%nat -> wit_consistent exP (wit_from_f_coeff exP f : witness c4 r2)) as Hc.
  { intros f Hf. apply from_f_coeff_consistent. }
  assert (forall f r x h, length f = 4%nat -> length r = 2%nat -> length x = 1%nat ->
    lcccs_rel exP exA exCs (mk_lc exCs exA (wit_from_f_coeff exP f) r x h) (wit_from_f_coeff exP f)) as Hl.
  { intros f r x h Hf Hr Hx. apply mk_lc_rel; auto; cbn [wit_from_f_coeff w_f]; rewrite map_length; auto. }
  assert (forall n (l : list c4), forallb (fun c => forallb (fun j => (Z.abs (signed (cf j c)) <=? n)%Z) (seq 0 4)) l = true -> Forall (cnorm_le n) l) as Hn.
  { intros n l H. rewrite forallb_forall in H. apply Forall_forall. intros c Hc'. specialize (H c Hc'). rewrite forallb_forall in H.
    rewrite c4_coeffs. destruct c. repeat split; apply Z.leb_le;
      [apply (H 0%nat)|apply (H 1%nat)|apply (H 2%nat)|apply (H 3%nat)]; apply in_seq; lia. }
  split; [apply ex_sizes|].
  assert (Forall2 (lcccs_rel exP exA exCs)
    [mk_lc exCs exA smallWit r1 [xi] 1; mk_lc exCs exA smallWit r1 [rz 2] 0;
     mk_lc exCs exA smallWit q2 [xi] 1; mk_lc exCs exA bigWit q2 [rz 3] xi] ([smallWit; smallWit; smallWit] ++ [bigWit])) as HR.
  { repeat constructor; apply Hl; reflexivity. }
  split; [exact HR|].
  assert (wit_norm (Z.of_nat (dp_b exP) - 1) smallWit) as Hs by (apply Hn; vm_compute; reflexivity).
  assert (Forall (wit_norm (Z.of_nat (dp_b exP) - 1)) [smallWit; smallWit; smallWit]) as Hsm.
  { apply Forall_cons; [exact Hs|]. apply Forall_cons; [exact Hs|]. apply Forall_cons; [exact Hs|constructor]. }
  split; [exact Hsm|]. split.
  { intros H. inversion H as [|? ? H1 _]. specialize (H1 0%nat). vm_compute in H1. apply H1. reflexivity. }
  intros mzs ts.
  apply (C59_antisymmetric_accepted (SL := slaws5) exP exA exCs _ [smallWit; smallWit; smallWit] bigWit ts r1 q2); auto.
  - apply ex_sizes.
  - apply char5_le. cbn. lia.
  - cbn. lia.
  - reflexivity.
  - assert (forall c : c4, c2 c = - c0 c -> c3 c = - c1 c -> antisym c) as Ha.
    { intros [x0 x1 x2 x3] E1 E2. cbn [c0 c1 c2 c3] in E1, E2. subst. split.
      - intros s Hs'. destruct s as [|[|s]]; [reflexivity|reflexivity|cbn in Hs'; lia].
      - intros k Hk. apply nth_overflow. cbn in *. lia. }
    apply Forall_cons; [apply Ha; reflexivity|]. apply Forall_cons; [apply Ha; reflexivity|].
    apply Forall_cons; [apply Ha; reflexivity|]. apply Forall_cons; [apply Ha; reflexivity|constructor].
Qed.

(** ** C60, C61: the honest run meets every hypothesis *)
Definition exY : r2 := xi * xi + 1.
Definition honestRun : option (lcccs r2 * lf_proof r2 * Z * (lcccs r2 * Z) * (list (lcccs r2) * Z) * (list (lcccs r2) * Z)) := Eval vm_compute in
  match nifs_prove exP exAcc (exWit xi) (exI exY) (exWit exY) 11%Z exCs exA with
  | Ok (lc, _, pf, ts') =>
    match lin_verify (exI exY) (lf_lin pf) (absorb_public_input exAcc (exI exY) 11%Z) exCs with
    | Ok (lin, ts1) =>
      match dec_verify exP exAcc (lf_dec_l pf) ts1 with
      | Ok (ll, ts2) => match dec_verify exP lin (lf_dec_r pf) ts2 with Ok (lr, ts3) => Some (lc, pf, ts', (lin, ts1), (ll, ts2), (lr, ts3)) | _ => None end
      | _ => None end
    | _ => None end
  | _ => None end.
Example ex_C61_hypotheses : exists lc pf ts' lin ts1 lcs_l ts2 lcs_r ts3,
  let ws_l := decompose_witness exP (exWit xi) in
  let ws_r := decompose_witness exP (exWit exY) in
  let cms := lcs_l ++ lcs_r in
  let ws := ws_l ++ ws_r in
  let mzs := zipw (fun c w => map (Mz_mle (c_s exCs) (lcccs_z c (w_ccs w))) (c_M exCs)) cms ws in
  sizes_ok 5 exP exCs /\ degree_ok exCs /\ char_gt f25 (c_d exCs + 1) /\ char_gt f25 (2 * dp_b exP) /\
  (2 * Z.of_nat (dp_b exP) <= 5 + 1)%Z /\
  NoDup [K2 a0 a0; K2 a1 a0; K2 a2 a0; K2 a0 a1] /\ (Nat.max tau (c_t exCs) < 4)%nat /\ length (lc_r exAcc) = c_s exCs /\
  Forall2 (fun c w => opens exP exA exCs (lc_cm c) w) lcs_l ws_l /\ Forall2 (fun c w => opens exP exA exCs (lc_cm c) w) lcs_r ws_r /\
  dec_shape exP exCs (lf_dec_l pf) /\ dec_shape exP exCs (lf_dec_r pf) /\
  nifs_verify exP exAcc (exI exY) pf 11%Z exCs = Ok (lc, ts') /\
  lin_verify (exI exY) (lf_lin pf) (absorb_public_input exAcc (exI exY) 11%Z) exCs = Ok (lin, ts1) /\
  dec_verify exP exAcc (lf_dec_l pf) ts1 = Ok (lcs_l, ts2) /\
  dec_verify exP lin (lf_dec_r pf) ts2 = Ok (lcs_r, ts3) /\
  fp_theta (lf_fold pf) = evs (map w_fhat ws) (lc_r lc) /\ fp_eta (lf_fold pf) = evs mzs (lc_r lc).
Proof.
  unfold honestRun. 
  match eval unfold honestRun in honestRun with
  | Some (?lc, ?pf, ?ts', (?lin, ?ts1), (?ll, ?ts2), (?lr, ?ts3)) => exists lc, pf, ts', lin, ts1, ll, ts2, lr, ts3
  end.
  cbv zeta. split; [apply ex_sizes|]. split; [apply ex_in_order|]. split; [apply char5_le; cbn; lia|].
  split; [apply char5_le; cbn; lia|]. split; [cbn; lia|].
  split. { repeat (constructor; [cbn; intuition discriminate|]). constructor. }
  split; [cbn; lia|]. split; [reflexivity|].
  assert (forall c f, length f = 4%nat -> commit exA (w_f (wit_from_f_coeff exP f : witness c4 r2)) = Ok c ->
    opens exP exA exCs c (wit_from_f_coeff exP f)) as Ho.
  { intros c f Hf Hc. split; [apply from_f_coeff_consistent|cbn [wit_from_f_coeff w_f]; rewrite map_length; exact Hf|exact Hc]. }
  split. { constructor; [apply Ho; vm_compute; reflexivity|]. constructor; [apply Ho; vm_compute; reflexivity|constructor]. }
  split. { constructor; [apply Ho; vm_compute; reflexivity|]. constructor; [apply Ho; vm_compute; reflexivity|constructor]. }
  split; [repeat split; repeat constructor|]. split; [repeat split; repeat constructor|].
  split; [vm_compute; reflexivity|]. split; [vm_compute; reflexivity|]. split; [vm_compute; reflexivity|].
  split; [vm_compute; reflexivity|]. split; vm_compute; reflexivity.
Qed.
