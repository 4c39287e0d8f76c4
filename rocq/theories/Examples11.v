(** Concrete cases for Properties11.v, on F257[X]/(X^4+1) with the toy transcript. *)
From Coq Require Import String List Arith Lia ZArith Bool Ring.
From Verif Require Import Prelude Alg MLE MLE_Proofs Transcript Sumcheck Sumcheck_Proofs Arith Arith_Proofs Linearization_Proofs Folding_Sound
  Rings Rings_Proofs PlusRing PlusUtils_Proofs Toy Inst257 SetCheck SetCheck_Proofs SetCheck_Sound RangeCheck RangeCheck_Proofs RangeCheck_Sound
  Cm Cm_Proofs Plus Plus_Proofs Plus_Sound Properties4 Examples4 Properties5 Examples5 Properties6 Examples6 Examples7.
Import ListNotations.
Local Open Scope rs_scope.

(** * C77: an accepted linearization of a system with four rows, z_i * z_i = z_i, with true openings *)
Definition c77_run (ts : Z) : bool :=
  match linearize (bit_com 4 [] : com_r1cs q4) ts with
  | Ok (_, pf, _) =>
      let '(r, ts1) := get_challenges ts (rp_nvars pf) in
      match Plus.lin_verify pf ts, sc_verify ts1 (rp_nvars pf) 3 0 (rp_sc pf) with
      | Ok (true, _), Ok (point, _, _) =>
          (rp_nvars pf =? 2)%nat && (rp_va pf =? open_mul point (diagM 4) (bitf 4)) && (rp_vb pf =? open_mul point (diagM 4) (bitf 4)) && (rp_vc pf =? open_mul point (diagM 4) (bitf 4))
      | _, _ => false end
  | _ => false end.
Example ex_C77_hypotheses : exists (rc : r1cs q4) f pf (ts ts' : Z), char_gt fq 3 /\ Plus.lin_verify pf ts = Ok (true, ts') /\ rp_nvars pf = 2%nat /\
  let '(r, ts1) := get_challenges ts (rp_nvars pf) in
  exists point s ts2, sc_verify ts1 (rp_nvars pf) 3 0 (rp_sc pf) = Ok (point, s, ts2) /\
    rp_va pf = open_mul point (r_A rc) f /\ rp_vb pf = open_mul point (r_B rc) f /\ rp_vc pf = open_mul point (r_C rc) f.
Proof.
  exists (bit_sys 4), (bitf 4). assert (c77_run 23 = true) as H by (vm_compute; reflexivity). unfold c77_run in H.
  destruct (linearize (bit_com 4 []) 23%Z) as [[[lb pf] u]|e|]; try discriminate H. exists pf, 23%Z.
  destruct (get_challenges 23%Z (rp_nvars pf)) as [r ts1].
  destruct (Plus.lin_verify pf 23%Z) as [[[] ts']|e|]; try discriminate H. exists ts'.
  destruct (sc_verify ts1 (rp_nvars pf) 3 0 (rp_sc pf)) as [[[point s] ts2]|e|]; try discriminate H.
  apply andb_true_iff in H as [H H4]. apply andb_true_iff in H as [H H3]. apply andb_true_iff in H as [H1 H2]. apply Nat.eqb_eq in H1.
  split; [intros i Hi; apply char257; lia|]. split; [reflexivity|]. split; [auto|]. exists point, s, ts2. split; [reflexivity|].
  cbn [bit_sys r_A r_B r_C]. repeat split; apply req_true; auto.
Qed.

(** * C78, C79: an accepted proof for one instance of 64 entries, two digits, with true evaluations, meeting the comparisons *)
Definition tn : nat := 64.
Definition tf : list q4 := map (fun i => Q4 (zz (i + 1)) (zz (i * 3)) (zz (i + 3)) (zz (2 * i))) (seq 0 tn).
Definition tA : ajtai q4 := Ajtai tn [1 :: repeat 0 63].
Definition tM : smat q4 := SMat tn tn (map (fun i => [(emb (zq 9), Nat.modulo (5 * i + 3) tn)]) (seq 0 tn)).
Definition tP : rparams := RParams 2 2 1.
Definition ti : result (rg_inst fq q4) := from_f tf tA tP.
Definition ev4b (a b : ev4 q4) : bool := Examples4.leqb req (l4 a) (l4 b).
Definition evsb (a b : list (list (ev4 q4))) : bool := Examples4.leqb (Examples4.leqb ev4b) a b.
Definition shape_b (x0 : rg_inst fq q4) : bool :=
  (length (ri_f x0) =? 64)%nat && (length (ri_Mf x0) =? 2)%nat && (length (ri_mtau x0) =? 64)%nat && (length (ri_tau x0) =? 64)%nat &&
  forallb (fun M => (length M =? 64)%nat && forallb (fun row => (length row =? 4)%nat) M) (ri_Mf x0).
Lemma shape_ok x0 : shape_b x0 = true -> rg_data tn 2 x0.
Proof.
  intros H. unfold shape_b in H. do 4 apply andb_true_iff in H as [H ?]. apply Nat.eqb_eq in H, H1, H2, H3. rewrite forallb_forall in H0. split; auto.
  apply Forall_forall. intros M HM. apply H0 in HM. apply andb_true_iff in HM as [HL HF]. apply Nat.eqb_eq in HL. split; [auto|].
  rewrite forallb_forall in HF. apply Forall_forall. intros row Hr. apply Nat.eqb_eq. apply HF. auto.
Qed.
Definition cmp_b (dc : dcom fq q4) (point : list fq) : bool :=
  Examples4.leqb req (so_r (dc_out dc)) point &&
  match dc_evals dc, so_b (dc_out dc) with
  | [ev], [b] => match de_a ev, de_b ev, de_c ev with a0 :: _, b0 :: _, c0 :: _ => (b0 =? b) && Examples4.leqb req (de_v ev) (pcoeffs c0) | _, _, _ => false end
  | _, _ => false end.
Lemma cmp_ok dc point : cmp_b dc point = true -> compared dc point /\ length (dc_evals dc) = 1%nat /\ length (so_b (dc_out dc)) = 1%nat.
Proof.
  intros H. unfold cmp_b in H. apply andb_true_iff in H as [H1 H]. apply leqb_ok in H1; [|intros; apply req_true; auto]. unfold compared. rewrite H1.
  destruct (dc_evals dc) as [|ev [|? ?]]; try discriminate H. destruct (so_b (dc_out dc)) as [|b [|? ?]]; try discriminate H.
  destruct (de_a ev) as [|a0 la] eqn:Ea; [discriminate H|]. destruct (de_b ev) as [|b0 lb] eqn:Eb; [discriminate H|]. destruct (de_c ev) as [|c0 lc] eqn:Ec; [discriminate H|].
  apply andb_true_iff in H as [Hb Hv]. apply req_true in Hb. apply leqb_ok in Hv; [|intros; apply req_true; auto]. subst b0.
  split; [split; [auto|]|auto]. apply Forall2_cons; [|apply Forall2_nil]. exists a0, c0. rewrite Ea, Eb, Ec. auto.
Qed.
Lemma evsb_ok a b : evsb a b = true -> a = b.
Proof.
  apply leqb_ok. intros u v. apply leqb_ok. intros [[[a1 a2] a3] a4] [[[b1 b2] b3] b4] H. apply leqb_ok in H; [|intros; apply req_true; auto]. cbn [l4] in H. congruence.
Qed.
Definition c79_run (t : result (rg_inst fq q4)) (ts : Z) : bool :=
  match t with
  | Ok x0 => shape_b x0 &&
    match cm_prove (Rg 6 [x0] tP) [tM] ts with
    | Ok (gs, _, proof, _) =>
        let dc := cp_dcom proof in
        match cm_verify proof [tM] ts, rg_verify dc ts with
        | Ok (x, _), Ok ts1 =>
          let '(cba, tsa) := cba_loop (1 * 2 + 1) 6 ts in
          let '(rc, tsb) := opt_challenge (1 * 2) tsa in
          match sc_verify tsb 6 3 0 (so_sc (dc_out dc)), cm_challenges 2 ts1 with
          | Ok (point, v, tsc), Ok (s, s', ts2) =>
             let hs := [hvec tn (ri_Mf x0) s'] in
             let p0 := map pct (map fst (cx_ro x)) in
             let p1 := map pct (map snd (cx_ro x)) in
             (so_nvars (dc_out dc) =? 6)%nat && (length (so_r (dc_out dc)) =? 6)%nat && (rp_k (dc_params dc) =? 2)%nat && (rp_l (dc_params dc) =? 1)%nat &&
             (length (nth 0 (so_e (dc_out dc)) []) =? 2)%nat && forallb (fun e => (length e =? 4)%nat) (nth 0 (so_e (dc_out dc)) []) &&
             (length (fst (cp_evals proof)) =? 1)%nat && (length (cp_comh proof) =? 1)%nat && forallb (fun ch => (length ch =? 1)%nat) (cp_comh proof) &&
             cmp_b dc point && Examples4.leqb (fun a b => (fst a =? fst b) && (snd a =? snd b)) (cx_ro x) (combine (map emb p0) (map emb p1)) &&
             evsb (fst (cp_evals proof)) (map (true_ev4 [tM] p0) (combine [x0] hs)) && evsb (snd (cp_evals proof)) (map (true_ev4 [tM] p1) (combine [x0] hs))
          | _, _ => false end
        | _, _ => false end
    | _ => false end
  | _ => false end.
Lemma c79_ok : c79_run ti 15 = true.
Proof. vm_cast_no_check (eq_refl true). Qed.
Lemma from_f_f (f : list q4) A P (x0 : rg_inst fq q4) : from_f f A P = Ok x0 -> ri_f x0 = f.
Proof. intros Et. unfold from_f in Et. repeat (apply bind_ok_inv in Et as (? & _ & Et)). injection Et as <-. reflexivity. Qed.
Lemma c79_spec t ts : c79_run t ts = true -> exists (pts : list fq) x0 (proof : cm_proof fq q4) (ts' : Z) x, let insts := [x0] in let dc := cp_dcom proof in let P := dc_params dc in
  t = Ok x0 /\ NoDup pts /\ (Nat.max (2 * pdim (POps := popsq) - 1) (1 * 2 + 1) <= length pts)%nat /\ char_gt fq 3 /\ (128 / pdim (POps := popsq) < 64)%nat /\ (tn <= 2 ^ 6)%nat /\
  Forall (m_ok tn 6) [tM] /\ Forall (rg_data tn 2) insts /\
  so_nvars (dc_out dc) = 6%nat /\ length (so_r (dc_out dc)) = 6%nat /\ rp_k P = 2%nat /\ rp_l P = 1%nat /\ length (so_b (dc_out dc)) = 1%nat /\
  length (nth 0 (so_e (dc_out dc)) []) = 2%nat /\ Forall (fun e => length e = pdim (POps := popsq)) (nth 0 (so_e (dc_out dc)) []) /\
  length (dc_evals dc) = 1%nat /\ length (fst (cp_evals proof)) = 1%nat /\ length (cp_comh proof) = 1%nat /\ Forall (fun ch => length ch = 1%nat) (cp_comh proof) /\
  cm_verify proof [tM] ts = Ok (x, ts') /\
  exists ts1 s s' ts2 point point0 point1, rg_verify dc ts = Ok ts1 /\ range_point 6 (1 * 2 + 1) (1 * 2) dc ts point /\ cm_challenges 2 ts1 = Ok (s, s', ts2) /\
    cx_ro x = combine (map emb point0) (map emb point1) /\ compared dc point /\
    let hs := map (fun x => hvec tn (ri_Mf x) s') insts in
    fst (cp_evals proof) = map (true_ev4 [tM] point0) (combine insts hs) /\ snd (cp_evals proof) = map (true_ev4 [tM] point1) (combine insts hs).
Proof.
  intros H. exists (map (fun i => zq (Z.of_nat i)) (seq 0 7)).
  unfold c79_run in H.
  destruct t as [x0|e|]; try discriminate H. exists x0. apply andb_true_iff in H as [Hsh H].
  destruct (cm_prove (Rg 6 [x0] tP) [tM] ts) as [[[[gs x'] proof] u]|e|]; try discriminate H. exists proof.
  destruct (cm_verify proof [tM] ts) as [[x ts']|e|]; try discriminate H. exists ts', x.
  destruct (rg_verify (cp_dcom proof) ts) as [ts1|e|] eqn:Erg; try discriminate H. unfold range_point.
  destruct (cba_loop (1 * 2 + 1) 6 ts) as [cba tsa]. destruct (opt_challenge (1 * 2) tsa) as [rc tsb].
  destruct (sc_verify tsb 6 3 0 (so_sc (dc_out (cp_dcom proof)))) as [[[point v] tsc]|e|] eqn:Esc; try discriminate H.
  destruct (cm_challenges 2 ts1) as [[[s s'] ts2]|e|] eqn:Ecc; try discriminate H. cbv zeta in *.
  do 12 apply andb_true_iff in H as [H ?]. apply Nat.eqb_eq in H, H11, H10, H9, H8, H6, H5.
  apply cmp_ok in H3 as (HC & L1 & L2). apply evsb_ok in H0, H1. apply leqb_ok in H2; [|intros [a b] [c d] E; apply andb_true_iff in E as [E1 E2]; apply req_true in E1, E2; cbn [fst snd] in *; congruence].
  split; [reflexivity|].
  split; [apply NoDup_zq; lia|]. split; [cbn; lia|]. split; [intros i Hi; apply char257; lia|]. split; [apply Nat.ltb_lt; vm_compute; reflexivity|]. split; [apply Nat.leb_le; vm_compute; reflexivity|].
  split. { apply Forall_cons; [|apply Forall_nil]. split; [|split].
    - unfold wf_mat, tM. cbn [m_nrows m_ncols m_coeffs]. repeat split; auto. apply Forall_map, Forall_forall. intros i _. apply Forall_cons; [|apply Forall_nil]. cbn [snd]. apply Nat.mod_upper_bound. discriminate.
    - unfold tM. cbn [m_coeffs]. rewrite map_length, seq_length. apply Nat.leb_le. reflexivity.
    - apply Forall_map, Forall_forall. intros i _. apply Forall_cons; [|apply Forall_nil]. exists (zq 9). reflexivity. }
  split; [apply Forall_cons; [apply shape_ok; auto|apply Forall_nil]|].
  rewrite forallb_forall in H7, H4.
  do 6 (split; [assumption|]). split; [apply Forall_forall; intros y Hy; apply Nat.eqb_eq, H7; auto|].
  do 3 (split; [assumption|]). split; [apply Forall_forall; intros y Hy; apply Nat.eqb_eq, H4; auto|]. split; [reflexivity|].
  exists ts1, s, s', ts2, point, (map pct (map fst (cx_ro x))), (map pct (map snd (cx_ro x))).
  split; [exact Erg|]. split; [eauto|]. split; [exact Ecc|]. split; [exact H2|]. split; [exact HC|]. split; [exact H1|exact H0].
Qed.
Example ex_C79_hypotheses : exists (pts : list fq) x0 (proof : cm_proof fq q4) (ts ts' : Z) x, let insts := [x0] in let dc := cp_dcom proof in let P := dc_params dc in
  ri_f x0 = tf /\ NoDup pts /\ (Nat.max (2 * pdim (POps := popsq) - 1) (1 * 2 + 1) <= length pts)%nat /\ char_gt fq 3 /\ (128 / pdim (POps := popsq) < 64)%nat /\ (tn <= 2 ^ 6)%nat /\
  Forall (m_ok tn 6) [tM] /\ Forall (rg_data tn 2) insts /\
  so_nvars (dc_out dc) = 6%nat /\ length (so_r (dc_out dc)) = 6%nat /\ rp_k P = 2%nat /\ rp_l P = 1%nat /\ length (so_b (dc_out dc)) = 1%nat /\
  length (nth 0 (so_e (dc_out dc)) []) = 2%nat /\ Forall (fun e => length e = pdim (POps := popsq)) (nth 0 (so_e (dc_out dc)) []) /\
  length (dc_evals dc) = 1%nat /\ length (fst (cp_evals proof)) = 1%nat /\ length (cp_comh proof) = 1%nat /\ Forall (fun ch => length ch = 1%nat) (cp_comh proof) /\
  cm_verify proof [tM] ts = Ok (x, ts') /\
  exists ts1 s s' ts2 point point0 point1, rg_verify dc ts = Ok ts1 /\ range_point 6 (1 * 2 + 1) (1 * 2) dc ts point /\ cm_challenges 2 ts1 = Ok (s, s', ts2) /\
    cx_ro x = combine (map emb point0) (map emb point1) /\ compared dc point /\
    let hs := map (fun x => hvec tn (ri_Mf x) s') insts in
    fst (cp_evals proof) = map (true_ev4 [tM] point0) (combine insts hs) /\ snd (cp_evals proof) = map (true_ev4 [tM] point1) (combine insts hs).
Proof.
  destruct (c79_spec ti 15%Z c79_ok) as (pts & x0 & proof & ts' & x & Et & H). exists pts, x0, proof, 15%Z, ts', x. split; [exact (from_f_f tf tA tP x0 Et)|exact H].
Qed.
