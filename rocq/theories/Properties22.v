(** C106: which systems that pass the size check can be folded. *)
From Coq Require Import String List Arith Lia ZArith Bool Ring Znumtheory.
From Verif Require Import Prelude Alg Poly MLE MLE_Proofs Transcript Interp Sumcheck Sumcheck_Proofs
  Arith Arith_Proofs Balanced Rings Rings_Proofs Linearization Linearization_Proofs Relations LinRel
  Decomposition Decomposition_Proofs Folding Folding_Comb Folding_Proofs Folding_Complete Folding_Sound NIFS NIFS_Proofs Extract
  Challenge Challenge_Proofs PolyInst Primes FieldExt CycInst RealRings ShortDual Sampling Properties9 Properties12 Shipped Zippel Reject Properties13 Break Properties14 Examples13 ProofSize.
Import ListNotations.
Local Open Scope rs_scope.

Section Needs.
Context {F K C R T : Type} {SO : SOps F K C R} {p : Z} {SL : SLaws F K C R p} {TO : TransOps T R K} {HO : ShortOps T C}.
Lemma evaluate_nv (ms : list (mle R)) pt v m : evaluate_mles_dml ms pt = Ok v -> In m ms -> mle_nv m = length pt.
Proof.
  unfold evaluate_mles_dml. revert v. induction ms as [|m' ms IH]; intros v H [] ; cbn [mapM] in H; apply bind_ok_inv in H as (x & E & H); apply bind_ok_inv in H as (xs & E' & _); [subst m'|eauto].
  rewrite dml_evaluate_spec in E. destruct (Nat.eqb_spec (length pt) (mle_nv m)) as [Q|Q]; [auto|discriminate].
Qed.
(** Whatever the CCS and the witness are: linearization succeeds only if there are at least two rows and the table of the witness has
    exactly as many entries as the CCS has rows (2^s). *)
Theorem C106_needs cm_i (w : witness C R) (ts : T) (cs : ccs R) res : (1 <= tau)%nat -> w_fhat w = get_fhat (w_fc w) ->
  lin_prove cm_i w ts cs = Ok res -> (1 <= c_s cs)%nat /\ next_pow2 (length (w_fc w)) = (2 ^ c_s cs)%nat.
Proof.
  intros Ht Hw H. destruct res as [[lc pf] ts']. unfold lin_prove, construct_polynomial_g, squeeze_beta in H.
  destruct (get_challenges (absorb_tag ts "beta_s") (c_s cs)) as [b t1] eqn:Eb.
  apply bind_ok_inv in H as ([[[mles d] Mz] t2] & E1 & H). apply bind_ok_inv in E1 as (Mz' & E2 & E1). apply bind_ok_inv in E1 as ([g1 g2] & E3 & E1). cbn [fst snd] in E1. apply ok_inj in E1. injection E1 as <- <- <- <-.
  apply bind_ok_inv in H as (u0 & _ & H). apply bind_ok_inv in H as ([[proof rs] t3] & E4 & H). apply bind_ok_inv in H as (v & E5 & H).
  apply sc_prove_shape in E4 as [Lr _]. split.
  - unfold prepare_lin_poly in E3. apply bind_ok_inv in E3 as (? & _ & E3). apply bind_ok_inv in E3 as (? & _ & E3). apply bind_ok_inv in E3 as (e & E3 & _).
    destruct (c_s cs) as [|s]; [|lia]. cbn [get_challenges] in Eb. injection Eb as <- _. discriminate E3.
  - assert (In (nth 0 (get_fhat (w_fc w)) (Mle 0 [])) (get_fhat (w_fc w))) as Hin by (apply nth_In; rewrite get_fhat_length; lia).
    rewrite Hw in E5. pose proof (evaluate_nv _ _ _ _ E5 Hin) as Q. rewrite (get_fhat_nv _ _ Hin), map_length, Lr in Q. unfold fhat_nv in Q. rewrite <- Q, ark_log2_next_pow2. auto.
Qed.
Theorem C106_folding_needs P acc (w_acc : witness C R) cm_i w_i (ts : T) cs (A : ajtai R) res : (1 <= tau)%nat -> w_fhat w_i = get_fhat (w_fc w_i) ->
  nifs_prove P acc w_acc cm_i w_i ts cs A = Ok res -> (1 <= c_s cs)%nat /\ next_pow2 (length (w_fc w_i)) = (2 ^ c_s cs)%nat.
Proof.
  intros Ht Hw H. unfold nifs_prove in H. apply bind_ok_inv in H as (u & _ & H). apply bind_ok_inv in H as (l & E & _). exact (C106_needs cm_i w_i _ cs l Ht Hw E).
Qed.
End Needs.

Section Tall.
Context {p : Z} {K : Type} (y : cyc p K) (decode : list Z -> result (list Z)) (need : nat) (W G : list dparams) (SH : shipped p K y decode need W G).
Notation C := (pol (fp p) (cy_d y)).
Notation R := (pol K (cy_k y)).
Let RR := shipped_real y decode need W G SH.
Local Instance SO24 : SOps (fp p) K C R := cyc_ops y.
Local Instance SL24 : SLaws (fp p) K C R p := real_laws y decode need RR.
Add Ring Rring91 : (@rlaws_th R _ (l_R (SLaws := SL24))).
(** x = w^2 in the first of 2^s rows. *)
Definition tall_r1cs (s : nat) : r1cs R :=
  let M := fun c => SMat (2 ^ s) 3 ([(1, c)] :: repeat [] (2 ^ s - 1)) in R1cs 1 (M 2%nat) (M 2%nat) (M 0%nat).
Lemma tall_padded s L : (L <= 2 ^ s)%nat -> ccs_from_r1cs_padded (tall_r1cs s) (2 ^ s) L = Ok (ccs_from_r1cs (tall_r1cs s) (2 ^ s)).
Proof.
  intros H. unfold ccs_from_r1cs_padded, ccs_from_r1cs, tall_r1cs. cbn [r_A r_B r_C r_l m_ncols c_n c_l c_m Nat.leb]. f_equal. unfold pad_rows_to. cbn [c_m].
  rewrite Nat.max_r by lia. rewrite !next_pow2_pow2. rewrite Nat.ltb_irrefl. reflexivity.
Qed.
(** For every ring, every shipped set and every number 2^s of rows above the size of the witness table: an R1CS with a satisfying assignment, padded
    by the function of the repository and passing the size check of the prover, for which no proof is ever made. *)
Theorem C106_admitted_refuted P (b : R) s : In P (W ++ G) -> (Nat.log2_up (dp_L P) < s)%nat ->
  exists (r : r1cs R) (cs : ccs R) (i : cccs R) (A : ajtai R), let w := wit_from_w_ccs P [b] : witness C R in
    r1cs_check r (i_x i ++ 1 :: w_ccs w) = Ok tt /\ ccs_from_r1cs_padded r (length (m_coeffs (r_A r))) (dp_L P) = Ok cs /\
    c_m cs = (2 ^ s)%nat /\ sanity_check cs (dp_L P) = Ok tt /\ cccs_rel P A cs i w /\
    forall T (TO : TransOps T R K) (HO : ShortOps T C) acc w_acc (ts : T) res, nifs_prove P acc w_acc i w ts cs A <> Ok res.
Proof.
  intros HP Hs. destruct (shipped_good y decode need W G P SH HP) as [G1 G2 G3 G4 G5 G6 G7]. pose proof (ex_L y decode need W G P SH HP) as HL2.
  assert (dp_L P <= 2 ^ s)%nat as HL. { etransitivity; [apply (next_pow2_ge (dp_L P))|]. unfold next_pow2. apply Nat.pow_le_mono_r; lia. }
  pose proof (Nat.pow_nonzero 2 s ltac:(lia)) as H2.
  exists (tall_r1cs s), (ccs_from_r1cs (tall_r1cs s) (2 ^ s)), (sq_cm y P b), (ones y P). cbv zeta. set (w := wit_from_w_ccs P [b] : witness C R).
  assert (wf_r1cs 3 (2 ^ s) (tall_r1cs s)) as WF.
  { assert (forall c, (c < 3)%nat -> wf_mat 3 (SMat (2 ^ s) 3 ([(1 : R, c)] :: repeat [] (2 ^ s - 1)))) as HM.
    { intros c Hc. split; [reflexivity|]. cbn [m_nrows m_coeffs length]. rewrite repeat_length. split; [lia|]. constructor; [constructor; [exact Hc|constructor]|].
      apply Forall_forall. intros l Hl. apply repeat_spec in Hl. subst l. constructor. }
    unfold wf_r1cs, tall_r1cs. cbn [r_A r_B r_C r_l m_nrows]. repeat split; try (apply HM; lia); try reflexivity; lia. }
  assert (forall k, (k < 2 ^ s)%nat -> ccs_row (ccs_from_r1cs (tall_r1cs s) (2 ^ s)) (i_x (sq_cm y P b) ++ 1 :: w_ccs w) k = 0) as Hrow.
  { intros k Hk. unfold ccs_row, ccs_from_r1cs, tall_r1cs. cbn [r_A r_B r_C r_l m_ncols c_q c_c c_S c_M sumn nth map]. unfold lprod. cbn [fold_right]. rewrite !(sq_mz y decode need W G SH).
    unfold w. cbn [sq_cm i_x w_ccs wit_from_w_ccs app nth]. change (@SO15 p K y) with SO24. destruct (k =? 0)%nat; ring. }
  assert (sanity_check (ccs_from_r1cs (tall_r1cs s) (2 ^ s)) (dp_L P) = Ok tt) as HSan.
  { apply (sanity_check_spec (ccs_from_r1cs (tall_r1cs s) (2 ^ s)) (dp_L P)); cbn [ccs_from_r1cs tall_r1cs r_A r_l m_ncols c_n c_l c_m]; [lia|]. split; [eauto|lia]. }
  split; [|split; [|split; [reflexivity|split; [exact HSan|split]]]].
  - destruct (r1cs_check_spec (tall_r1cs s) (i_x (sq_cm y P b) ++ 1 :: w_ccs w) (2 ^ s) WF) as [[E _]|(k & _ & Hk & Hbad & _)]; [exact E|]. exfalso. apply Hbad.
    unfold r1cs_row, tall_r1cs. cbn [r_A r_B r_C]. rewrite !(sq_mz y decode need W G SH). unfold w. cbn [sq_cm i_x w_ccs wit_from_w_ccs app nth]. change (@SO15 p K y) with SO24. destruct (k =? 0)%nat; ring.
  - cbn [tall_r1cs r_A m_coeffs length]. rewrite repeat_length. replace (S (2 ^ s - 1)) with (2 ^ s)%nat by lia. apply tall_padded, HL.
  - split; [|reflexivity|exact Hrow].
    destruct (sq_open y P w) as [O1 O2 O3]; [apply (from_w_ccs_consistent (SL := SL24)), (wit_covers y decode need W G SH P HP)|apply fresh_len|]. split; auto.
  - intros T TO HO acc w_acc ts res E. apply (C106_folding_needs (SL := SL24)) in E as [_ E]; [| |reflexivity].
    + cbn [ccs_from_r1cs c_s] in E. unfold ark_log2 in E. rewrite Nat.log2_up_pow2 in E by lia.
      assert (length (w_fc w) = dp_L P) as Lw. { rewrite <- (fresh_len y P b). unfold w, wit_from_w_ccs. cbn [w_fc w_f]. rewrite map_length. reflexivity. }
      rewrite Lw in E. unfold next_pow2 in E. apply Nat.pow_inj_r in E; lia.
    + change (tau (SOps := SO24)) with (cy_e y). clear - SH. destruct SH; apply Nat.leb_le; reflexivity.
Qed.
End Tall.
