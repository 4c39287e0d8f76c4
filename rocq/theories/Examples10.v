(** Concrete cases for Properties10.v, on F257[X]/(X^4+1) with the toy transcript, and the counterexamples for C75, C76. *)
From Coq Require Import String List Arith Lia ZArith Bool Ring.
From Verif Require Import Prelude Alg MLE MLE_Proofs Transcript Sumcheck Sumcheck_Proofs Arith Arith_Proofs Linearization_Proofs Folding_Sound
  Rings Rings_Proofs PlusRing PlusUtils_Proofs Toy Inst257 SetCheck SetCheck_Proofs SetCheck_Sound RangeCheck RangeCheck_Proofs RangeCheck_Sound
  Cm Cm_Proofs Plus_Range Properties4 Examples4 Properties5 Examples5 Properties6 Examples6 Properties10.
Import ListNotations.
Local Open Scope rs_scope.

(** * A small instance: two entries, two digits *)
Definition xexp (z : Z) : q4 := match z with 1%Z => Q4 0 1 0 0 | (-1)%Z => Q4 0 0 0 1 | _ => 0 end.
Definition sf : list q4 := [Q4 (zq 3) (zq (-2)) 1 (zq (-1)); Q4 0 (zq (-3)) (zq 2) 1].
Definition sMf : list (list (list q4)) := map (map (map xexp))
  [[[1; 0; 1; -1]; [0; -1; 0; 1]]; [[1; -1; 0; 0]; [0; -1; 1; 0]]]%Z.
Definition sM : smat q4 := SMat 2 2 [[(emb (zq 7), 1%nat)]; [(emb (zq 2), 0%nat); (emb (zq 5), 1%nat)]].
Definition sP : rparams := RParams 2 2 1.
Definition sx (mtau : list q4) : rg_inst fq q4 := RgInst sMf (map psi_ct mtau) mtau sf [] (FComs [1] [] []).
Lemma sx_digits mtau : digits_of 2 2 (ri_Mf (sx mtau)) (ri_f (sx mtau)).
Proof.
  split; [reflexivity|]. intros r c Hr Hc. cbn in Hc. destruct r as [|[|r]]; [| |lia]; (destruct c as [|[|[|[|c]]]]; [| | | |lia]); apply fq_ext; vm_compute; reflexivity.
Qed.
Lemma sx_rows : Forall (fun M => length M = 2%nat /\ Forall (fun row => length row = pdim /\ Forall in_monos row) M) sMf.
Proof.
  assert (forall z, in_monos (xexp z)) as H.
  { intros z. unfold xexp. destruct z as [|[p|p|]|[p|p|]]; try (left; reflexivity); right; [exists 1%nat|exists 3%nat]; (split; [cbn; lia|reflexivity]). }
  unfold sMf. apply Forall_map. repeat (apply Forall_cons; [split; [reflexivity|]; apply Forall_map; repeat (apply Forall_cons; [split; [reflexivity|]; apply Forall_map, Forall_forall; auto|]); apply Forall_nil|]); apply Forall_nil.
Qed.
Lemma sx_pre mtau : length mtau = 2%nat -> rg_pre ri_f 2 2 (sx mtau).
Proof. intros H. split; auto; [apply sx_rows|apply sx_digits]. Qed.
Lemma sM_ok : wf_mat 2 sM /\ (length (m_coeffs sM) <= 2 ^ 1)%nat /\ base_mat sM.
Proof.
  split; [|split; [cbn; lia|]].
  - unfold wf_mat, sM. cbn [m_nrows m_ncols m_coeffs]. repeat split; auto. repeat (apply Forall_cons; [repeat (apply Forall_cons; [cbn; lia|]); apply Forall_nil|]); apply Forall_nil.
  - unfold base_mat, sM. cbn [m_coeffs]. repeat (apply Forall_cons; [repeat (apply Forall_cons; [eexists; reflexivity|]); apply Forall_nil|]); apply Forall_nil.
Qed.

(** * C74: an accepted run with true openings *)
Definition smt : list q4 := [Q4 0 1 0 0; Q4 0 0 0 1].
Definition eqlb (a b : list fq) : bool := Examples4.leqb req a b.
Definition c74_run (ts : Z) : bool :=
  match range_check (Rg 1 [sx smt] sP) [sM] ts with
  | Ok (dc, _) =>
      match rg_verify dc ts with
      | Ok _ =>
          let '(cba, ts1) := cba_loop 3 1 ts in
          let '(rc, ts2) := opt_challenge 2 ts1 in
          match sc_verify ts2 1 3 0 (so_sc (dc_out dc)) with
          | Ok (point, v, ts3) =>
              Examples4.leqb (Examples4.leqb req) (nth 0 (so_e (dc_out dc)) []) (map (map (open point)) (flat_map inst_cols [sx smt])) &&
              Examples4.leqb req (so_b (dc_out dc)) (map (fun x => open point (ri_mtau x)) [sx smt]) &&
              match dc_evals dc with
              | [ev] => eqlb (de_v ev) (coeff_evals point sf) &&
                  match de_a ev, de_b ev with
                  | a :: _, b :: _ => (a =? mle_spec (fun i => nth i (ri_tau (sx smt)) 0) point) && (b =? open point smt)
                  | _, _ => false end
              | _ => false end
          | _ => false
          end && (so_nvars (dc_out dc) =? 1)%nat && (rp_k (dc_params dc) =? 2)%nat && (length (so_b (dc_out dc)) =? 1)%nat && (length (nth 0 (so_e (dc_out dc)) []) =? 2)%nat
      | _ => false
      end
  | _ => false
  end.
Example ex_C74_hypotheses : exists (pts : list fq) (dc : dcom fq q4) (ts ts' : Z), let insts := [sx smt] in
  NoDup pts /\ (Nat.max (2 * pdim - 1) (1 * 2 + 1) <= length pts)%nat /\ char_gt fq 3 /\ (2 <= 2 ^ 1)%nat /\ Forall (rg_data 2 2) insts /\
  so_nvars (dc_out dc) = 1%nat /\ rp_k (dc_params dc) = 2%nat /\ length (nth 0 (so_e (dc_out dc)) []) = (1 * 2)%nat /\ length (so_b (dc_out dc)) = 1%nat /\
  rg_verify dc ts = Ok ts' /\
  let '(cba, ts1) := cba_loop (1 * 2 + 1) 1 ts in let '(rc, ts2) := opt_challenge (1 * 2) ts1 in
  exists point v ts3, sc_verify ts2 1 3 0 (so_sc (dc_out dc)) = Ok (point, v, ts3) /\ rg_opens dc insts point.
Proof.
  exists (map (fun i => zq (Z.of_nat i)) (seq 0 7)).
  assert (c74_run 15 = true) as H by (vm_compute; reflexivity). unfold c74_run in H.
  destruct (range_check (Rg 1 [sx smt] sP) [sM] 15%Z) as [[dc u]|e|]; try discriminate H. exists dc, 15%Z.
  destruct (rg_verify dc 15%Z) as [ts'|e|]; try discriminate H. exists ts'.
  change (1 * 2 + 1)%nat with 3%nat. change (1 * 2)%nat with 2%nat.
  destruct (cba_loop 3 1 15%Z) as [cba ts1]. destruct (opt_challenge 2 ts1) as [rc ts2].
  apply andb_true_iff in H as [H H5]. apply andb_true_iff in H as [H H4]. apply andb_true_iff in H as [H H3]. apply andb_true_iff in H as [H H2].
  apply Nat.eqb_eq in H2, H3, H4, H5. cbv zeta.
  split; [apply NoDup_zq; lia|]. split; [cbn; lia|]. split; [intros i Hi; apply char257; lia|]. split; [cbn; lia|].
  split. { apply Forall_cons; [|apply Forall_nil]. split; try reflexivity. eapply Forall_impl; [|exact sx_rows]. intros M [L F]. split; auto. eapply Forall_impl; [|exact F]. intros row []; auto. }
  split; [exact H2|]. split; [exact H3|]. split; [exact H5|]. split; [exact H4|]. split; [reflexivity|].
  destruct (sc_verify ts2 1 3 0 (so_sc (dc_out dc))) as [[[point v] ts3]|e|]; try discriminate H. exists point, v, ts3. split; [reflexivity|].
  apply andb_true_iff in H as [H Hev]. apply andb_true_iff in H as [He Hb].
  assert (forall a b : q4, req a b = true -> a = b) as R4 by (intros; apply req_true; auto).
  assert (forall a b : fq, req a b = true -> a = b) as RF by (intros; apply req_true; auto).
  split; [|split].
  - apply (leqb_ok (Examples4.leqb req)); [|exact He]. intros a b. apply leqb_ok. auto.
  - apply (leqb_ok req); auto.
  - destruct (dc_evals dc) as [|ev [|? ?]]; try discriminate Hev. apply andb_true_iff in Hev as [Hv Hab].
    apply Forall2_cons; [|apply Forall2_nil]. split; [apply (leqb_ok req); auto|].
    destruct (de_a ev) as [|a la]; [discriminate Hab|]. destruct (de_b ev) as [|b lb]; [discriminate Hab|]. apply andb_true_iff in Hab as [Ha Hb'].
    apply RF in Ha. apply R4 in Hb'. cbn [nth_error]. split; f_equal; auto.
Qed.
(** The bounds for this instance: coefficients below 4, [tau] below 2. *)
Example ex_C74_bounds : rg_wf ri_f 2 2 (sx smt) /\ Nat.even (pdim (POps := popsq)) = true /\ (2 * Z.of_nat (pdim (POps := popsq) / 2) ^ Z.of_nat 2 <= 257 + 1)%Z.
Proof.
  split; [|split; [reflexivity|vm_compute; discriminate]]. destruct (sx_pre smt eq_refl) as [W1 W2 W3 W4 W5 W7]. split; auto.
  unfold sx, smt; cbn [ri_mtau]. apply Forall_cons; [|apply Forall_cons; [|apply Forall_nil]]; right; [exists 1%nat|exists 3%nat]; (split; [cbn; lia|reflexivity]).
Qed.

(** * C75: a matrix that does not read odd positions, and a witness with the coefficient 100 at position 1 *)
Definition eM : smat q4 := SMat cn cn (map (fun i => [(emb (zq 9), Nat.modulo (2 * i + 4) cn)]) (seq 0 cn)).
Definition big : list q4 := match cf 1 with a :: _ :: l => a :: Q4 (zq 100) 0 0 0 :: l | l => l end.
Lemma eM_ok : wf_mat (2 ^ 9) eM /\ (length (m_coeffs eM) <= 2 ^ 9)%nat /\ base_mat eM.
Proof.
  split; [|split].
  - unfold wf_mat, eM. cbn [m_nrows m_ncols m_coeffs]. change (2 ^ 9)%nat with cn. repeat split; auto.
    apply Forall_map, Forall_forall. intros i _. apply Forall_cons; [|apply Forall_nil]. cbn [snd]. apply Nat.mod_upper_bound. discriminate.
  - unfold eM. cbn [m_coeffs]. rewrite map_length, seq_length. apply Nat.leb_le. reflexivity.
  - apply Forall_map, Forall_forall. intros i _. apply Forall_cons; [|apply Forall_nil]. exists (zq 9). reflexivity.
Qed.
Lemma ex_cm_setting2 : cm_setting (p := 257) [cf 1; cf 2] cA cP 9 [eM].
Proof.
  destruct ex_cm_setting as [H1 H2 H3 H4 H5 H6 H7 H8 H9 H10 H11 H12 H13 H14 H15]. constructor; auto. apply Forall_cons; [|apply Forall_nil]. apply eM_ok.
Qed.
Lemma eM_odd i : mat_entry eM i 1 = 0.
Proof.
  unfold mat_entry, eM. cbn [m_coeffs]. destruct (Nat.lt_ge_cases i cn) as [H|H].
  - rewrite nth_seq_map by auto. cbn [filter snd].
    assert ((Nat.modulo (2 * i + 4) cn =? 1)%nat = false) as ->; [|reflexivity]. apply Nat.eqb_neq. intros E.
    pose proof (Nat.div_mod (2 * i + 4) cn ltac:(discriminate)) as D. rewrite E in D. change cn with (2 * 256)%nat in D. lia.
  - rewrite nth_overflow by (rewrite map_length, seq_length; auto). reflexivity.
Qed.
Lemma big_nth i : i <> 1%nat -> nth i big 0 = nth i (cf 1) 0.
Proof. intros H. unfold big. assert (exists a b l, cf 1 = a :: b :: l) as (a & b & l & ->) by (unfold cf, cn; cbn [seq map]; eauto). destruct i as [|[|i]]; auto. lia. Qed.
Lemma big_length : length big = (2 ^ 9)%nat.
Proof. vm_compute. reflexivity. Qed.
Lemma cf_length e : length (cf e) = (2 ^ 9)%nat.
Proof. unfold cf. rewrite map_length, seq_length. reflexivity. Qed.
Lemma big_images i : mz eM big i = mz eM (cf 1) i.
Proof.
  unfold mz. rewrite big_length, cf_length. apply sumn_ext. intros c _. destruct (Nat.eq_dec c 1) as [->|H].
  - rewrite eM_odd.
    assert (forall a : q4, 0 * a = 0) as Z by (intros; apply (ARmul_0_l (Rth_ARth (Eqsth q4) (Eq_ext radd rmul ropp) (@rlaws_th q4 _ (@pl_R fq q4 popsq 257 plawsq))))). rewrite !Z. auto.
  - rewrite big_nth by auto. auto.
Qed.
(** An accepted proof of the commitment transformation with the commitment and the openings of a witness outside the range. *)
Theorem C75_range_refuted : exists (fs : list (list q4)) (A : ajtai q4) P nv (M : list (smat q4)) (ts ts' : Z) insts gs x proof s s',
  map ri_f insts = fs /\ dc_params (cp_dcom proof) = P /\ cm_verify proof M ts = Ok (x, ts') /\
  Forall2 (fun f c => commit A f = Ok (fc_f c)) fs (dc_coms (cp_dcom proof)) /\ cm_openings M (cp_dcom proof) insts /\
  Forall2 (folded (2 ^ nv) s s') insts gs /\ Forall2 (fun g c => commit A g = Ok c) gs (cx_cm x) /\
  exists f y c, In f fs /\ In y f /\ In c (pcoeffs y) /\ (rp_b P ^ Z.of_nat (rp_k P) <= Z.abs (psigned c))%Z.
Proof.
  destruct (C75_witness_unranged (p := 257) [cf 1; cf 2] [big; cf 2] cA cP 9 [eM] 5%Z ex_cm_setting2) as (insts & s & s' & r0 & r1 & gs & x & proof & ts' & C1 & CP & C2 & C3 & C4 & C5 & C6 & _).
  { apply Forall2_cons; [|apply Forall2_cons; [|apply Forall2_nil]]; (split; [first [exact big_length | apply cf_length]|apply Forall_cons; [|apply Forall_nil]]); intros i; [apply big_images|auto]. }
  exists [big; cf 2], cA, cP, 9%nat, [eM], 5%Z, ts', insts, gs, x, proof, s, s'. repeat (split; [assumption|]).
  exists big, (Q4 (zq 100) 0 0 0), (zq 100). split; [left; reflexivity|]. split; [|split; [left; reflexivity|vm_compute; discriminate]].
  apply (nth_In big 0 (n := 1)). rewrite big_length. apply Nat.ltb_lt. reflexivity.
Qed.

(** * C76: [mtau] with the entry 100 X *)
Definition bmt : list q4 := [Q4 0 (zq 100) 0 0; 0].
Theorem C76_tau_refuted : exists (insts : list (rg_inst fq q4)) P (M : list (smat q4)) (dc : dcom fq q4) (ts ts' : Z),
  rg_verify dc ts = Ok ts' /\ dc_params dc = P /\ dc_evals dc = map (true_evals M (so_r (dc_out dc))) insts /\ so_e (dc_out dc) = true_e M (so_r (dc_out dc)) insts /\
  exists x m c, In x insts /\ In m (ri_mtau x) /\ ~ in_monos m /\ In c (ri_tau x) /\ (Z.of_nat pdim <= 2 * Z.abs (psigned c))%Z.
Proof.
  destruct (C76_tau_unranged (p := 257) 2 1 [sx bmt] sP [sM] 15%Z) as (dc & ts' & H1 & _ & H2 & H3 & H4 & _); auto.
  { intros i Hi. apply char257. lia. }
  { apply Forall_cons; [|apply Forall_nil]. apply sx_pre. reflexivity. }
  { apply Forall_cons; [|apply Forall_nil]. exact sM_ok. }
  exists [sx bmt], sP, [sM], dc, 15%Z, ts'. repeat (split; [assumption|]).
  exists (sx bmt), (Q4 0 (zq 100) 0 0), (psi_ct (Q4 0 (zq 100) 0 0)). split; [left; reflexivity|]. split; [left; reflexivity|]. split; [|split; [left; reflexivity|vm_compute; discriminate]].
  intros [H|(k & Hk & H)]; [vm_compute in H; discriminate H|]. cbn in Hk. destruct k as [|[|[|[|k]]]]; try lia; vm_compute in H; discriminate H.
Qed.
