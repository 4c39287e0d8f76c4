(** Concrete cases for C83 and C84: squares over the shipped rings. *)
From Coq Require Import String List Arith Lia ZArith Bool Ring Znumtheory.
From Verif Require Import Prelude Alg Poly MLE MLE_Proofs Transcript Interp Sumcheck Sumcheck_Proofs
  Arith Arith_Proofs Balanced Rings Rings_Proofs Linearization Linearization_Proofs Relations LinRel
  Decomposition Decomposition_Proofs Folding Folding_Comb Folding_Proofs Folding_Complete Folding_Sound NIFS NIFS_Proofs Extract
  Challenge Challenge_Proofs PolyInst Primes FieldExt CycInst RealRings ShortDual Sampling Properties9 Properties12 Shipped Zippel Reject Properties13 Break Properties14.
Import ListNotations.
Local Open Scope rs_scope.

Section Square.
Context {p : Z} {K : Type} (y : cyc p K) (decode : list Z -> result (list Z)) (need : nat) (W G : list dparams) (SH : shipped p K y decode need W G).
Notation C := (pol (fp p) (cy_d y)).
Notation R := (pol K (cy_k y)).
Let RR := shipped_real y decode need W G SH.
Local Instance SO15 : SOps (fp p) K C R := cyc_ops y.
Local Instance SL15 : SLaws (fp p) K C R p := real_laws y decode need RR.
Add Ring Rring79 : (@rlaws_th R _ (l_R (SLaws := SL15))).
(** The instance x = w^2, one public and one private value. *)
Definition sq_cs (P : dparams) : ccs R :=
  let s := Nat.log2_up (dp_L P) in
  let M := fun c => SMat (2 ^ s) 3 ([(1, c)] :: repeat [] (2 ^ s - 1)) in
  Ccs (2 ^ s) 3 1 3 2 2 s 2 [M 2; M 2; M 0]%nat [[0; 1]; [2]]%nat [1; - (1)].
Lemma sq_mz s c z b : mz (SMat (2 ^ s) 3 ([(1, c)] :: repeat [] (2 ^ s - 1))) z b = if (b =? 0)%nat then nth c z 0 else (0 : R).
Proof.
  unfold mz. destruct b as [|b].
  - cbn [Nat.eqb]. destruct (Nat.lt_ge_cases c (length z)) as [Hc|Hc].
    + assert (forall i, mat_entry (SMat (2 ^ s) 3 ([(1 : R, c)] :: repeat [] (2 ^ s - 1))) 0 i = if (c =? i)%nat then 1 else 0) as EM.
      { intros i. unfold mat_entry. cbn [m_coeffs nth filter snd]. destruct (c =? i)%nat; unfold lsum; cbn [map fst fold_right]; ring. }
      transitivity (mat_entry (SMat (2 ^ s) 3 ([(1 : R, c)] :: repeat [] (2 ^ s - 1))) 0 c * nth c z 0).
      * apply (sumn_single (length z) c (fun i => mat_entry (SMat (2 ^ s) 3 ([(1 : R, c)] :: repeat [] (2 ^ s - 1))) 0 i * nth i z 0)); [exact Hc|].
        intros i Hi Hn. rewrite EM. destruct (Nat.eqb_spec c i); [congruence|ring].
      * rewrite EM, Nat.eqb_refl. ring.
    + rewrite nth_overflow by auto. apply sumn_0. intros i Hi. unfold mat_entry. cbn [m_coeffs nth filter snd].
      destruct (Nat.eqb_spec c i); [lia|]. cbn [map]. unfold lsum. cbn [fold_right]. ring.
  - cbn [Nat.eqb]. apply sumn_0. intros i Hi. unfold mat_entry. cbn [m_coeffs nth].
    assert (nth b (repeat [] (2 ^ s - 1)) [] = ([] : list (R * nat))) as ->; [|cbn [filter map]; unfold lsum; cbn [fold_right]; ring].
    destruct (Nat.lt_ge_cases b (2 ^ s - 1)); [apply nth_repeat|]. apply nth_overflow. rewrite repeat_length. auto.
Qed.
Lemma sq_good P : In P (W ++ G) -> (2 <= dp_L P)%nat -> ccs_good (p := p) y P (sq_cs P).
Proof.
  intros HP HL. assert (Nat.log2_up (dp_L P) <> 0)%nat as Hs. { intros E. apply Nat.log2_up_null in E. lia. }
  pose proof (dg_bp _ _ (shipped_good y decode need W G P SH HP)) as Hbp. pose proof (dg_b _ _ (shipped_good y decode need W G P SH HP)) as Hb.
  pose proof (Nat.pow_nonzero 2 (Nat.log2_up (dp_L P)) ltac:(lia)) as H2.
  assert (in_order (sq_cs P) /\ degree_ok (sq_cs P)) as [Ho Hd] by (apply (from_r1cs_in_order (SL := SL15)); reflexivity).
  split; auto; unfold sq_cs; cbn [c_M c_S c_c c_d c_l c_n c_m c_s c_t c_q]; try lia.
  - assert (forall c, (c < 3)%nat -> wf_mat 3 (SMat (2 ^ Nat.log2_up (dp_L P)) 3 ([(1 : R, c)] :: repeat [] (2 ^ Nat.log2_up (dp_L P) - 1)))) as HM.
    { intros c Hc. split; [reflexivity|]. cbn [m_nrows m_coeffs length]. rewrite repeat_length. split; [lia|]. constructor; [constructor; [exact Hc|constructor]|].
      apply Forall_forall. intros l Hl. apply repeat_spec in Hl. subst l. constructor. }
    repeat split; cbn [c_M c_S c_c c_d c_l c_n c_m c_s c_t c_q]; repeat (constructor; auto).
  - split; [reflexivity|]. cbn [c_s c_m c_M]. split; [lia|]. repeat constructor.
  - unfold next_pow2. f_equal. f_equal. lia.
Qed.
Definition sq_cm (P : dparams) (a : R) : cccs R :=
  Cccs (match commit (ones y P) (w_f (wit_from_w_ccs P [a])) with Ok c => c | _ => [] end) [a * a].
Definition sq_lc (P : dparams) (r : list R) (w : witness C R) (x : R) : lcccs R :=
  Lcccs r (map (fun j => mle_spec (fun b => hat j (nth b (w_fc w) 0)) r) (seq 0 tau))
    (match commit (ones y P) (w_f w) with Ok c => c | _ => [] end)
    (map (fun M => mle_spec (mz M ([x] ++ 1 :: w_ccs w)) r) (c_M (sq_cs P))) [x] 1.
Lemma sq_open P (w : witness C R) : wit_consistent P w -> length (w_f w) = dp_L P ->
  opens P (ones y P) (sq_cs P) (match commit (ones y P) (w_f w) with Ok c => c | _ => [] end) w.
Proof. intros H1 H2. split; auto; [cbn [sq_cs c_n c_l]; lia|rewrite commit_ok by exact H2; reflexivity]. Qed.
Lemma fresh_len P (a : R) : length (w_f (wit_from_w_ccs P [a] : witness C R)) = dp_L P.
Proof. rewrite (from_w_ccs_length P). cbn [length]. lia. Qed.
Lemma sq_cm_ok P a : In P (W ++ G) -> cccs_rel P (ones y P) (sq_cs P) (sq_cm P a) (wit_from_w_ccs P [a]).
Proof.
  intros HP. split; [|reflexivity|].
  - apply sq_open; [apply (from_w_ccs_consistent (SL := SL15)), (wit_covers y decode need W G SH P HP)|apply fresh_len].
  - intros b Hb. unfold ccs_row. cbn [sq_cs c_q c_c c_S c_M sumn nth map]. unfold lprod. cbn [fold_right]. rewrite !sq_mz. cbn [sq_cm i_x w_ccs wit_from_w_ccs app nth].
    destruct (b =? 0)%nat; ring.
Qed.
Lemma sq_lc_ok P r w x : wit_consistent P w -> length (w_f w) = dp_L P -> length r = Nat.log2_up (dp_L P) ->
  lcccs_rel P (ones y P) (sq_cs P) (sq_lc P r w x) w.
Proof. intros H1 H2 H3. split; try reflexivity; [apply sq_open; auto|exact H3]. Qed.

(** C83_step_complete: two squares, any point, any transcript, any ring and set of parameters. *)
Example ex_step {T} {TO : TransOps T R K} (sq : T -> list Z * T) P (a b x : R) r (ts : T) : In P (W ++ G) -> (2 <= dp_L P)%nat -> length r = Nat.log2_up (dp_L P) ->
  exists lc w pf ts',
    nifs_prove (HO := short_of y decode sq) P (sq_lc P r (wit_from_w_ccs P [a]) x) (wit_from_w_ccs P [a]) (sq_cm P b) (wit_from_w_ccs P [b]) ts (sq_cs P) (ones y P) = Ok (lc, w, pf, ts') /\
    nifs_verify (HO := short_of y decode sq) P (sq_lc P r (wit_from_w_ccs P [a]) x) (sq_cm P b) pf ts (sq_cs P) = Ok (lc, ts') /\ lcccs_rel P (ones y P) (sq_cs P) lc w.
Proof.
  intros HP HL Hr. apply (C83_step_complete y decode need W G SH sq P (ones y P) (sq_cs P) _ [a] _ [b] ts HP (sq_good P HP HL)).
  - apply sq_lc_ok; auto; [apply (from_w_ccs_consistent (SL := SL15)), (wit_covers y decode need W G SH P HP)|apply fresh_len].
  - apply sq_cm_ok. exact HP.
Qed.
(** C83_chain: any number of squares with the wide parameters. *)
Example ex_chain {T} {TO : TransOps T R K} (sq : T -> list Z * T) P (a x : R) r (bs : list (T * R)) : In P W -> squeezer need sq -> (2 <= dp_L P)%nat -> length r = Nat.log2_up (dp_L P) ->
  exists accs pfs,
    fold_chain_p (HO := short_of y decode sq) P (sq_cs P) (ones y P) (sq_lc P r (wit_from_w_ccs P [a]) x) (wit_from_w_ccs P [a])
      (map (fun tb => (fst tb, sq_cm P (snd tb), wit_from_w_ccs P [snd tb])) bs) = Ok (accs, pfs) /\
    length accs = length bs /\
    fold_chain_v (HO := short_of y decode sq) P (sq_cs P) (sq_lc P r (wit_from_w_ccs P [a]) x) (map (fun tb => (fst tb, sq_cm P (snd tb))) bs) pfs = Ok (map fst accs).
Proof.
  intros HW HS HL Hr. assert (In P (W ++ G)) as HP by (apply in_or_app; auto).
  destruct (C83_chain y decode need W G SH sq P (ones y P) (sq_cs P) HW HS (sq_good P HP HL) (map (fun tb => (fst tb, sq_cm P (snd tb), [snd tb])) bs)
    (sq_lc P r (wit_from_w_ccs P [a]) x) [a]) as (accs & pfs & E1 & E2 & _ & E4 & _).
  - apply sq_lc_ok; auto; [apply (from_w_ccs_consistent (SL := SL15)), (wit_covers y decode need W G SH P HP)|apply fresh_len].
  - apply Forall_map. apply Forall_forall. intros tb _. cbn [fst snd]. apply sq_cm_ok. exact HP.
  - exists accs, pfs. rewrite map_length in E2. rewrite !map_map in E1. cbn [fst snd] in E1. rewrite map_map in E4. cbn [fst snd] in E4. auto.
Qed.
(** C84_rejected: an accumulator of squares with an out-of-range witness, at any point. *)
Example ex_out P r x : In P (W ++ G) -> (2 <= dp_L P)%nat -> length r = Nat.log2_up (dp_L P) ->
  (2 * (reach (dp_K P) (Z.of_nat (dp_b P)) + 1) < p)%Z ->
  let w := big_wit y P (reach (dp_K P) (Z.of_nat (dp_b P)) + 1) in
  sizes_ok p P (sq_cs P) /\ length (w_fc w) = ((c_n (sq_cs P) - c_l (sq_cs P) - 1) * dp_L P)%nat /\ ~ Forall (in_range P) (w_fc w) /\
  lcccs_rel P (ones y P) (sq_cs P) (sq_lc P r w x) w.
Proof.
  intros HP HL Hr Hp w.
  pose proof (reach_nonneg (dp_K P) (Z.of_nat (dp_b P)) ltac:(pose proof (dg_b _ _ (shipped_good y decode need W G P SH HP)); lia)) as H0.
  assert (length (w_fc w) = dp_L P) as Hl.
  { unfold w, big_wit, wit_from_f_coeff. cbn [w_fc length]. rewrite repeat_length. lia. }
  split; [exact (po_sizes _ _ (shipped_ok y decode need W G SH P _ HP (sq_good P HP HL)))|]. split; [rewrite Hl; cbn [sq_cs c_n c_l]; lia|]. split.
  - intros HF. apply Forall_inv in HF. assert (0 < cy_d y)%nat as Hd.
    { clear - SH. destruct SH; apply Nat.ltb_lt; reflexivity. }
    specialize (HF 0%nat). assert (cf 0 (const_elt y (reach (dp_K P) (Z.of_nat (dp_b P)) + 1)) = rofZ (reach (dp_K P) (Z.of_nat (dp_b P)) + 1)) as EC by exact (cf_const y _ 0 Hd).
    change (Z.abs (signed (cf 0 (const_elt y (reach (dp_K P) (Z.of_nat (dp_b P)) + 1)))) <= reach (dp_K P) (Z.of_nat (dp_b P)))%Z in HF. rewrite EC in HF. rewrite (signed_small (SLaws := SL15)) in HF by lia. lia.
  - apply sq_lc_ok; auto; [apply (from_f_coeff_consistent (SL := SL15))|]. unfold w, big_wit, wit_from_f_coeff in Hl |- *. cbn [w_fc w_f] in *. rewrite map_length. exact Hl.
Qed.
End Square.
(** All shipped sets have L at least two. *)
Example ex_L {p K} (y : cyc p K) decode need W G P : shipped p K y decode need W G -> In P (W ++ G) -> (2 <= dp_L P)%nat.
Proof. intros S HP. apply Nat.leb_le. revert P HP. apply forallb_forall. destruct S; vm_compute; reflexivity. Qed.
Example ex_gold_out : (2 * (reach 15 2 + 1) < gold_p)%Z.
Proof. reflexivity. Qed.
