(** Concrete cases meeting the hypotheses of the theorems of Properties1.v. *)
From Coq Require Import String List Arith Lia ZArith Bool Ring.
From Verif Require Import Prelude Alg Poly MLE MLE_Proofs Transcript Interp Interp_Proofs Sumcheck Sumcheck_Proofs CombDeg
  Arith Arith_Proofs Balanced Rings Rings_Proofs Linearization Linearization_Proofs Relations LinRel Inst5 Toy Properties1.
Import ListNotations.
Local Open Scope rs_scope.
Add Ring r2ring : (@rlaws_th r2 _ _).

(** ** Constraint systems *)
Example ex_wf_r1cs : wf_r1cs 6 4 exR.
Proof. repeat split; repeat constructor. Qed.
Example ex_wf_ccs : wf_ccs exCs.
Proof. repeat split; repeat constructor. Qed.
Example ex_ccs_ok : ccs_check exCs (cccs_z (exI xi) (exW xi)) = Ok tt.
Proof. vm_compute. reflexivity. Qed.
Example ex_ccs_bad : ccs_check exCs (cccs_z (exI xi) (exW (xi + 1))) = Err (NotSatisfied 0).
Proof. vm_compute. reflexivity. Qed.
Example ex_ccs_bad_later : ccs_check exCs [xi; 1; xi * xi; xi * xi * xi; xi; xi + 1] = Err (NotSatisfied 2).
Proof. vm_compute. reflexivity. Qed.
Example ex_r1cs_ccs : ccs_check (ccs_from_r1cs exR 7) [xi; 1; xi * xi; xi * xi * xi; xi; xi + 1]
                      = r1cs_check exR [xi; 1; xi * xi; xi * xi * xi; xi; xi + 1].
Proof. apply (C02_r1cs_to_ccs exR [xi; 1; xi * xi; xi * xi * xi; xi; xi + 1] 4 7); [apply ex_wf_r1cs|lia]. Qed.
Example ex_padded : exists cs, ccs_from_r1cs_padded exR 5 1 = Ok cs /\ c_m cs = 8%nat /\ c_s cs = 3%nat.
Proof. eexists. split; [reflexivity|]. split; reflexivity. Qed.
Example ex_sanity_rejects : sanity_check (ccs_from_r1cs exR 6) 1 = Err (InvalidSizeBounds 6 6 1).
Proof. reflexivity. Qed.
(** A builder system: x*x = y, with a constant wire, on which the swap happens. *)
Definition exS : csys r2 := Csys 1 2 [Constr [(i1, 1)] [(i1, 1); (xi, 0)] [(i1, 2); (xi, 1)]]%nat.
Example ex_builder : csys_valid exS = true /\ csys_satisfied exS [1] [rz 3; rz 4] = Ok tt /\
  csys_satisfied exS [1] [rz 3; rz 3] = Err (NotSatisfied 0) /\ csys_swap exS <> Ok exS.
Proof. repeat split; vm_compute; try reflexivity. discriminate. Qed.
Example ex_params_fit : params_fit exCs.
Proof. repeat constructor. Qed.

(** ** Multilinear extensions *)
Example ex_eq_table : build_eq_x_r_vec [xi; rz 2] =
  Ok [(1 - xi) * (1 - rz 2); xi * (1 - rz 2); (1 - xi) * rz 2; xi * rz 2].
Proof. vm_compute. reflexivity. Qed.
Example ex_mle : vec_evaluate [rz 1; rz 2; rz 3] [xi; rz 2] =
  Ok (rz 1 * ((1 - xi) * (1 - rz 2)) + rz 2 * (xi * (1 - rz 2)) + rz 3 * ((1 - xi) * rz 2)).
Proof. vm_compute. reflexivity. Qed.
Example ex_mle_too_long : vec_evaluate [rz 1; rz 2; rz 3] [xi] = Panic.
Proof. reflexivity. Qed.

(** ** Sumcheck: product of two tables over three variables *)
Definition exT1 : mle r2 := Mle 3 [rz 1; xi; rz 2; xi * xi; rz 4; rz 0; xi + 1; rz 3].
Definition exT2 : mle r2 := Mle 3 [xi; rz 1; rz 1; rz 0; xi * rz 2; rz 3; rz 2; xi].
Definition exComb (v : list r2) : r2 := nth 0 v 0 * nth 1 v 0.
Lemma char5 : char_gt f25 4.
Proof. intros i Hi. destruct i as [|[|[|[|[|i]]]]]; try lia; discriminate. Qed.
Lemma char5_le n : (n <= 4)%nat -> char_gt f25 n.
Proof. intros Hn i Hi. apply char5. lia. Qed.
Lemma exComb_deg : comb_deg 2 2 exComb.
Proof. apply (comb_deg_mul 2 1 1); apply comb_deg_nth. Qed.
Example ex_sumcheck : exists proof r ts',
    sc_prove 5%Z [exT1; exT2] 3 2 exComb = Ok (proof, r, ts') /\
    length r = 3%nat /\ length proof = 3%nat /\
    sc_verify 5%Z 3 2 (cube_sum 3 (fun p => exComb (mles_at [exT1; exT2] p))) proof
      = Ok (r, exComb (mles_at [exT1; exT2] (map emb r)), ts').
Proof.
  apply C11_sumcheck_complete; try lia; [apply char5_le; lia|apply exComb_deg|].
  repeat constructor.
Qed.
Example ex_sumcheck_value : cube_sum 3 (fun p => exComb (mles_at [exT1; exT2] p)) <> 0.
Proof. vm_compute. discriminate. Qed.
Example ex_sumcheck_rejects : exists proof r ts', sc_prove 5%Z [exT1; exT2] 3 2 exComb = Ok (proof, r, ts') /\
  sc_verify 5%Z 3 2 0 proof = Err SumCheckFailed.
Proof.
  assert (match sc_prove 5%Z [exT1; exT2] 3 2 exComb with
          | Ok (proof, r, ts') => match sc_verify 5%Z 3 2 (0 : r2) proof with Err SumCheckFailed => true | _ => false end
          | _ => false end = true) as H by (vm_compute; reflexivity).
  destruct (sc_prove _ _ _ _ _) as [[[proof r] ts']| |]; try discriminate. exists proof, r, ts'. split; auto.
  destruct (sc_verify _ _ _ _ _) as [|[]|]; try discriminate. auto.
Qed.
Example ex_schedule : sched_range (SNode (SNode (SLeaf [0; 1]) SId) (SNode (SLeaf []) (SLeaf [2; 3])))%nat = seq 0 (2 ^ 2).
Proof. reflexivity. Qed.
(** Interpolation, small and larger than the table of nodes. *)

(** ** Commitments *)
Example ex_wf_ajtai : wf_ajtai exA.
Proof. repeat constructor. Qed.
Example ex_commit : exists c, commit exA (w_f (exWit xi)) = Ok c /\ length c = 2%nat /\ nth 0 c 0 <> 0.
Proof. eexists. split; [vm_compute; reflexivity|]. split; [reflexivity|discriminate]. Qed.
Example ex_commit_wrong : commit exA [xi] = Err (WrongWitnessLength 1 4).
Proof. reflexivity. Qed.

(** ** Witnesses *)
Example ex_covers : covers (p := 5) exP.
Proof. repeat split; cbn; lia. Qed.
Example ex_digits : decompose_z 4 3 (-23) = [1; 1; 0; -1]%Z.
Proof. reflexivity. Qed.
Example ex_digits_b2 : decompose_z 4 2 (-7) = [-1; -1; -1; 0]%Z.
Proof. reflexivity. Qed.

(** ** Linearization *)
Example ex_sizes : sizes_ok 5 exP exCs.
Proof.
  split; try (cbn; lia).
  - apply ex_covers.
  - apply ex_wf_ccs.
  - repeat split; repeat constructor.
Qed.
Example ex_in_order : in_order exCs /\ degree_ok exCs.
Proof. exact (C25_r1cs_in_order (SL := slaws5) exR 4 1 exCs eq_refl). Qed.
Lemma ex_cccs x : cccs_rel exP exA exCs (exI x) (exWit x).
Proof.
  split.
  - split.
    + apply from_w_ccs_consistent. apply ex_covers.
    + apply from_w_ccs_length.
    + unfold exI. rewrite commit_ok by (apply from_w_ccs_length). reflexivity.
  - reflexivity.
  - intros b Hb. cbn [exCs c_m] in Hb.
    assert (length (cccs_z (exI x) (exW x)) = c_n exCs) as Hl by reflexivity.
    pose proof (proj1 (proj1 (C01_ccs_check exCs (cccs_z (exI x) (exW x)) ex_wf_ccs Hl))) as H.
    apply H; [|exact Hb].
    assert (r1cs_check exR (cccs_z (exI x) (exW x)) = Ok tt) as Hr.
    2:{ rewrite <- Hr. exact (proj2 (C02_r1cs_to_ccs exR (cccs_z (exI x) (exW x)) 4 4 ex_wf_r1cs (le_n 4))). }
    destruct (proj1 (C02_r1cs_to_ccs exR (cccs_z (exI x) (exW x)) 4 4 ex_wf_r1cs (le_n 4))) as [[E _]|(i & _ & Hi & Hb' & _)]; auto.
    exfalso. apply Hb'. unfold r1cs_row.
    destruct i as [|[|[|[|i]]]]; try lia; unfold mz, mat_entry, exR, cccs_z, exI, exW;
      cbn -[radd rmul rzero rone ropp rsub wit_from_w_ccs commit]; unfold i1; change (@s_R _ _ _ _ sops5) with r2_ops; ring.
Qed.
Example ex_linearization : exists lc pf ts',
    lin_prove (exI xi) (exWit xi) 7%Z exCs = Ok (lc, pf, ts') /\
    lin_verify (exI xi) pf 7%Z exCs = Ok (lc, ts') /\
    lcccs_rel exP exA exCs lc (exWit xi) /\
    lcccs_z lc (w_ccs (exWit xi)) = cccs_z (exI xi) (w_ccs (exWit xi)) /\
    (exists rs, lc_r lc = map emb rs).
Proof.
  apply (C25_linearization_complete (SL := slaws5) exP exA exCs (exI xi) (exWit xi) 7%Z ex_sizes (proj1 ex_in_order)
    (proj2 ex_in_order)); [apply char5_le; cbn; lia|apply ex_cccs].
Qed.
(** The verifier does reject: same proof, other u. *)
Example ex_lin_rejects : exists lc pf ts', lin_prove (exI xi) (exWit xi) 12%Z exCs = Ok (lc, pf, ts') /\
  lin_verify (exI xi) (LinProof (lp_sc pf) (lp_v pf) (map (radd 1) (lp_u pf))) 12%Z exCs = Err SumCheckFailed.
Proof.
  assert (match lin_prove (exI xi) (exWit xi) 12%Z exCs with
          | Ok (lc, pf, ts') =>
            match lin_verify (exI xi) (LinProof (lp_sc pf) (lp_v pf) (map (radd 1) (lp_u pf))) 12%Z exCs with
            | Err SumCheckFailed => true | _ => false end
          | _ => false end = true) as H by (vm_compute; reflexivity).
  destruct (lin_prove _ _ _ _) as [[[lc pf] ts']| |]; try discriminate. exists lc, pf, ts'. split; auto.
  destruct (lin_verify _ _ _ _) as [|[]|]; try discriminate. auto.
Qed.

(** ** C26 is false *)
(** M_1 z + 2 M_0 z = 0 with the terms listed in the order 1, 0. *)
Definition badCs : ccs r2 :=
  Ccs 4 6 1 2 2 1 2 3
    [SMat 4 6 [[(i1, 1)]; [(i1, 2)]; []; []]%nat;
     SMat 4 6 [[(rz 3, 1)]; [(rz 3, 2)]; []; []]%nat] [[1]; [0]]%nat [rz 1; rz 2].
Definition badWit : witness c4 r2 := wit_from_w_ccs exP [xi; rz 1; rz 2; rz 3].
Definition badI : cccs r2 := Cccs (match commit exA (w_f badWit) with Ok c => c | _ => [] end) [rz 2].
Lemma bad_cccs : cccs_rel exP exA badCs badI badWit.
Proof.
  split.
  - split; [apply from_w_ccs_consistent; apply ex_covers|apply from_w_ccs_length|].
    unfold badI. rewrite commit_ok by (apply from_w_ccs_length). reflexivity.
  - reflexivity.
  - intros b Hb. cbn [badCs c_m] in Hb. destruct b as [|[|[|[|b]]]]; try lia; vm_compute; reflexivity.
Qed.
Lemma bad_sizes : sizes_ok 5 exP badCs.
Proof.
  split; try (cbn; lia).
  - apply ex_covers.
  - repeat split; repeat constructor.
  - repeat split; repeat constructor.
Qed.
Theorem C26_arbitrary_ccs_refuted :
  exists (P : dparams) (A : ajtai r2) (cs : ccs r2) (i : cccs r2) (w : witness c4 r2) (ts : Z) lc pf ts',
    sizes_ok 5 P cs /\ degree_ok cs /\ cccs_rel P A cs i w /\ sanity_check cs (dp_L P) = Ok tt /\
    lin_prove i w ts cs = Ok (lc, pf, ts') /\ lin_verify i pf ts cs = Err SumCheckFailed.
Proof.
  assert (match lin_prove badI badWit 7%Z badCs with
          | Ok (lc, pf, ts') =>
            match lin_verify badI pf 7%Z badCs with Err SumCheckFailed => true | _ => false end
          | _ => false end = true) as H by (vm_compute; reflexivity).
  exists exP, exA, badCs, badI, badWit, 7%Z.
  destruct (lin_prove _ _ _ _) as [[[lc pf] ts']| |]; try discriminate. exists lc, pf, ts'.
  split; [apply bad_sizes|]. split.
  { intros j Hj Hn. cbn [badCs c_q] in Hj. destruct j as [|[|j]]; try lia; cbn; lia. }
  split; [apply bad_cccs|]. split; [reflexivity|]. split; [reflexivity|].
  destruct (lin_verify _ _ _ _) as [|[]|]; try discriminate. auto.
Qed.
