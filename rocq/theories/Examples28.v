(** C116 on F257[X]/(X^4+1): challenges for which a false claim is accepted. *)
From Coq Require Import String List Arith Lia ZArith Bool Ring.
From Verif Require Import Prelude Alg MLE MLE_Proofs Zippel Counting Transcript Sumcheck Sumcheck_Proofs Arith Arith_Proofs Linearization_Proofs Folding_Sound
  Rings Rings_Proofs PlusRing PlusUtils_Proofs Toy Inst257 SetCheck SetCheck_Proofs SetCheck_Sound RangeCheck RangeCheck_Proofs RangeCheck_Sound
  Cm Cm_Proofs Plus Plus_Proofs Plus_Sound SoundErr PlusErr CmErr Properties32 Properties4 Examples4 Properties5 Examples5 Properties6 Examples6 Examples7 Examples11.
Import ListNotations.
Local Open Scope rs_scope.

(** The range check of one instance with two digit matrices over six variables draws 31 coins; each half draws 7, and both batching challenges are 0. *)
Definition tcoins : list fq := map (fun i => if (Nat.eqb i 31 || Nat.eqb i 38)%bool then 0 else zq (Z.of_nat (7 * i + 2))) (seq 0 45).
Definition tbytes : list Z := map (fun i => (Z.of_nat i * 37 + 11) mod 256)%Z (seq 0 44).
(** The honest proof with a wrong opening of the product of [tM] with [m_tau]. *)
Definition tamper (pf : cm_proof fq q4) : cm_proof fq q4 :=
  let dc := cp_dcom pf in
  CmProof (Dcom (map (fun ev => DcomEvals (de_v ev) (de_a ev) (zipw radd (de_b ev) [0; 1]) (de_c ev)) (dc_evals dc)) (dc_coms dc) (dc_out dc) (dc_params dc))
    (cp_comh pf) (cp_sc pf) (cp_evals pf).
Definition tst (pf : cm_proof fq q4) : cm_strategy :=
  CmStrategy (fun _ => cp_dcom pf) (fun _ => cp_comh pf) (fun pre => nth (length pre - 32) (fst (cp_sc pf)) []) (fun _ => fst (cp_evals pf))
    (fun pre => nth (length pre - 39) (snd (cp_sc pf)) []) (fun _ => snd (cp_evals pf)).
Definition c116_run (t : result (rg_inst fq q4)) : bool :=
  match t with
  | Ok x0 => shape_b x0 &&
    match cm_prove (TO := tape_trans) (Rg 6 [x0] tP) [tM] (tcoins, tbytes) with
    | Ok (_, _, pf, _) =>
        let proof := tamper pf in let dc := cp_dcom proof in
        match cm_verify (TO := tape_trans) proof [tM] (tcoins, tbytes), rg_verify (TO := tape_trans) dc (tcoins, tbytes) with
        | Ok (x, _), Ok ts1 =>
          match cm_challenges (TO := tape_trans) 2 ts1 with
          | Ok (s, s', ts2) =>
             let hs := [hvec tn (ri_Mf x0) s'] in
             let p0 := map pct (map fst (cx_ro x)) in
             let p1 := map pct (map snd (cx_ro x)) in
             (so_nvars (dc_out dc) =? 6)%nat && (length (so_r (dc_out dc)) =? 6)%nat && (rp_k (dc_params dc) =? 2)%nat && (rp_l (dc_params dc) =? 1)%nat &&
             (length (nth 0 (so_e (dc_out dc)) []) =? 2)%nat && (length (so_b (dc_out dc)) =? 1)%nat && (length (dc_evals dc) =? 1)%nat &&
             (length (fst (cp_evals proof)) =? 1)%nat && (length (cp_comh proof) =? 1)%nat && forallb (fun ch => (length ch =? 1)%nat) (cp_comh proof) &&
             (length p0 =? 6)%nat && (length p1 =? 6)%nat &&
             Examples4.leqb (fun a b => (fst a =? fst b) && (snd a =? snd b)) (cx_ro x) (combine (map emb p0) (map emb p1)) &&
             evsb (fst (cp_evals proof)) (map (true_ev4 [tM] p0) (combine [x0] hs)) && evsb (snd (cp_evals proof)) (map (true_ev4 [tM] p1) (combine [x0] hs)) &&
             Examples4.leqb (Examples4.leqb req) (sc_messages (cs_msg0 (tst proof)) 32 6 tcoins) (fst (cp_sc proof)) &&
             Examples4.leqb (Examples4.leqb req) (sc_messages (cs_msg1 (tst proof)) 39 6 tcoins) (snd (cp_sc proof)) &&
             negb (nth 1 (de_b (nth 0 (dc_evals dc) ev0)) 0 =? rowop [tM] (so_r (dc_out dc)) 1 (ri_mtau x0)) &&
             (nth 0 (de_b (nth 0 (dc_evals dc) ev0)) 0 =? rowop [tM] (so_r (dc_out dc)) 0 (ri_mtau x0))
          | _ => false end
        | _, _ => false end
    | _ => false end
  | _ => false end.
Lemma c116_ok : c116_run ti = true.
Proof. vm_cast_no_check (eq_refl true). Qed.
Lemma leqb2 (a b : list (list q4)) : Examples4.leqb (Examples4.leqb req) a b = true -> a = b.
Proof. apply leqb_ok. intros u v. apply leqb_ok. intros; apply req_true; auto. Qed.
Lemma c116_spec t : c116_run t = true -> exists x0 hs st, t = Ok x0 /\
  cm_fooled (PO := popsq) tn 6 1 3 2 tbytes [tM] [x0] hs (cm_play (n_batch 3 6 2 + 6) (ark_log2 1) 6 st tcoins) tcoins.
Proof.
  intros H. unfold c116_run in H.
  destruct t as [x0|e|]; try discriminate H. exists x0. apply andb_true_iff in H as [Hsh H].
  destruct (cm_prove (TO := tape_trans) (Rg 6 [x0] tP) [tM] (tcoins, tbytes)) as [[[[gs x'] pf] u]|e|]; try discriminate H.
  set (proof := tamper pf) in *. clearbody proof.
  destruct (cm_verify (TO := tape_trans) proof [tM] (tcoins, tbytes)) as [[x ts']|e|] eqn:Ecv; try discriminate H.
  destruct (rg_verify (TO := tape_trans) (cp_dcom proof) (tcoins, tbytes)) as [ts1|e|] eqn:Erg; try discriminate H.
  destruct (cm_challenges (TO := tape_trans) 2 ts1) as [[[s s'] ts2]|e|] eqn:Ecc; try discriminate H. cbv zeta in H.
  repeat match type of H with (_ && _)%bool = true => apply andb_true_iff in H; let Q := fresh "Q" in destruct H as [H Q] end.
  apply Nat.eqb_eq in H. apply leqb2 in Q1, Q2. apply evsb_ok in Q3, Q4.
  apply leqb_ok in Q5; [|intros [a b] [c d] E; apply andb_true_iff in E as [E1 E2]; apply req_true in E1, E2; cbn [fst snd] in *; congruence].
  apply Nat.eqb_eq in Q6, Q7, Q9, Q10, Q11, Q12, Q13, Q14, Q15, Q16.
  exists [hvec tn (ri_Mf x0) s'], (tst proof). split; [reflexivity|].
  assert (cm_play (n_batch 3 6 2 + 6) (ark_log2 1) 6 (tst proof) tcoins = proof) as EP.
  { unfold cm_play. change (n_batch 3 6 2 + 6 + 2 * ark_log2 1 + 1)%nat with 32%nat. change (n_batch 3 6 2 + 6 + 2 * ark_log2 1 + (1 + 6) + 1)%nat with 39%nat.
    rewrite Q1, Q2. destruct proof as [dc comh [sc0 sc1] [ev0 ev1]]. reflexivity. }
  rewrite EP. apply shape_ok in Hsh. split; [|split; [|split]].
  - unfold cm_shape. rewrite H, Q9, Q10, Q11, Q12, Q13, Q14, Q15, Q16. rewrite forallb_forall in Q8.
    repeat match goal with |- _ /\ _ => split end; auto. apply Forall_forall. intros ch Hch. apply Nat.eqb_eq, Q8. auto.
  - apply Forall_cons; [|apply Forall_nil]. destruct Hsh. unfold x_ok. cbn [fst snd]. unfold hvec. rewrite map_length, seq_length. auto.
  - reflexivity.
  - exists x, ts', ts1, s, s', ts2, (map pct (map fst (cx_ro x))), (map pct (map snd (cx_ro x))). rewrite Q15.
    repeat (split; [assumption|]). intros [HT _]. destruct (HT 0%nat 1%nat ltac:(cbn; lia) ltac:(cbn; lia)) as (_ & HB & _). cbn [nth] in HB.
    apply negb_true_iff in Q0. apply req_false in Q0. exact (Q0 HB).
Qed.
(** The hypotheses of the bound are met, and the set it bounds is not empty: the bound is [(1 * 8 + 1 + 2 * 6)^2 = 441] in [257^2] vectors. *)
Example ex_C116 : char_gt fq 2 /\ (128 / pdim (POps := popsq) < 64)%nat /\ (tn <= 2 ^ 6)%nat /\ Forall (m_ok tn 6) [tM] /\
  exists x0 hs st, ri_f x0 = tf /\ let a := (n_batch 3 6 2 + 6)%nat in let N := (a + 2 * ark_log2 1 + (1 + 6) + (1 + 6))%nat in
    In tcoins (tuples N (map (fun i => zq (Z.of_nat i)) (seq 0 257))) /\
    cm_fooled (PO := popsq) tn 6 1 3 2 tbytes [tM] [x0] hs (cm_play a (ark_log2 1) 6 st tcoins) tcoins.
Proof.
  destruct (c79_spec ti 15%Z c79_ok) as (pts & y0 & proof & ts' & x & _ & _ & _ & _ & H1 & H2 & H3 & _).
  split; [intros i Hi; apply char257; lia|]. split; [exact H1|]. split; [exact H2|]. split; [exact H3|].
  destruct (c116_spec ti c116_ok) as (x0 & hs & st & Et & HF). exists x0, hs, st. split; [exact (from_f_f tf tA tP x0 Et)|]. cbv zeta. split; [|exact HF].
  apply in_tuples. split; [reflexivity|]. apply Forall_map, Forall_forall. intros i Hi. apply in_seq in Hi.
  destruct (Nat.eqb i 31 || Nat.eqb i 38)%bool.
  - apply in_map_iff. exists 0%nat. split; [reflexivity|apply in_seq; lia].
  - apply in_map_iff. exists ((7 * i + 2) mod 257)%nat. split; [|apply in_seq; pose proof (Nat.mod_upper_bound (7 * i + 2) 257); lia].
    apply fq_ext. unfold zq. cbn [fz]. rewrite Nat2Z.inj_mod. apply Zmod_mod.
Qed.
