(** C32 for the code: the witness returned by the folding prover. *)
From Coq Require Import String List Arith Lia ZArith Bool Ring.
From Verif Require Import Prelude Alg Poly MLE MLE_Proofs Transcript Interp Sumcheck Sumcheck_Proofs
  Arith Arith_Proofs Balanced Rings Rings_Proofs Linearization Linearization_Proofs Relations LinRel
  Decomposition Decomposition_Proofs Folding Folding_Comb Folding_Proofs Folding_Complete Folding_Sound NIFS NIFS_Proofs
  Challenge Challenge_Proofs PolyInst Primes FieldExt CycInst RealRings Sampling Shipped Properties2 Properties29.
Import ListNotations.
Local Open Scope rs_scope.

Section P.
Context {F K C R T : Type} {SO : SOps F K C R} {p : Z} {SL : SLaws F K C R p} {TO : TransOps T R K} {HO : ShortOps T C}.
Notation dw := (Witness [] [] [] [] : witness C R).
Lemma f0_lin k n (rho : list C) (ws : list (witness C R)) f0 : length rho = k -> length ws = k ->
  Forall (fun w => w_fc w = map icrt (w_f w) /\ length (w_f w) = n) ws -> compute_f_0 (map crt rho) ws = Ok f0 ->
  is_lin k (fun i => nth i rho 0) (fun i => w_fc (nth i ws dw)) (map icrt f0).
Proof.
  intros Hr Hw HF HE. rewrite Forall_forall in HF. assert (1 <= k)%nat as Hk. { destruct ws; [discriminate HE|]. cbn [length] in Hw. lia. }
  destruct (compute_f_0_lin k n (map crt rho) ws Hk) as (f1 & Hf1 & _ & Hlin); auto.
  { rewrite map_length. exact Hr. } { intros w Hi. apply (HF w Hi). }
  rewrite HE in Hf1. apply ok_inj in Hf1. subst f1.
  eapply is_lin_coef; [|eapply is_lin_ext; [|apply (is_lin_hom icrt icrt_hom _ _ _ _ Hlin)]].
  - intros i Hi. cbn beta. rewrite (nth_map_lt _ _ _ 0) by lia. apply icrt_crt.
  - intros i Hi. cbn beta. symmetry. apply HF, nth_In. lia.
Qed.
(** [compute_f_0] with any challenges of given sizes. *)
Theorem C32_compute_f_0 P gamma n (rho : list C) (ws : list (witness C R)) f0 (A B : nat -> Z) :
  expansion gamma -> length rho = length ws -> Forall (fun w => w_fc w = map icrt (w_f w) /\ length (w_f w) = n) ws ->
  (forall i, (i < length ws)%nat -> cnorm_le (A i) (nth i rho 0) /\ wit_norm (B i) (nth i ws dw)) ->
  compute_f_0 (map crt rho) ws = Ok f0 ->
  wit_norm (zsum (length ws) (fun i => Z.of_nat dimC * gamma * A i * B i)%Z) (wit_from_f P f0 : witness C R).
Proof.
  intros HG Hr HF HAB HE. unfold wit_norm, wit_from_f. cbn [w_fc].
  apply (C32_folded_norm gamma (length ws) (fun i => nth i rho 0) (fun i => w_fc (nth i ws dw))); auto; [exact (f0_lin _ n rho ws f0 Hr eq_refl HF HE)| |]; intros i Hi; apply (HAB i Hi).
Qed.
(** The witness returned by the folding prover, for challenges no larger than [S]. *)
Theorem C32_fold_prove P gamma S B n cms (ws : list (witness C R)) (ts : T) cs mzs lc w pf ts' :
  expansion gamma -> (1 <= S)%Z -> (forall c : C, drawn c -> cnorm_le S c) -> (1 <= dp_K P)%nat ->
  Forall (fun w => w_fc w = map icrt (w_f w) /\ length (w_f w) = n) ws -> Forall (wit_norm B) ws ->
  fold_prove P cms ws ts cs mzs = Ok (lc, w, pf, ts') ->
  wit_norm (2 * Z.of_nat (dp_K P) * (Z.of_nat dimC * gamma * S * B)) w.
Proof.
  intros HG HS HD HK HF HB HP. assert (length ws = 2 * dp_K P)%nat as Hw.
  { destruct (sanity_check cs (dp_L P)) as [[]| |] eqn:ES.
    - apply (proj2 (C113_fold_prove P cms ws ts cs mzs ES) _ HP).
    - unfold fold_prove in HP. rewrite ES in HP. discriminate HP.
    - unfold fold_prove in HP. rewrite ES in HP. discriminate HP. }
  unfold fold_prove in HP. apply bind_ok_inv in HP as (u0 & _ & HP). destruct (negb _); [discriminate HP|].
  destruct (squeeze_abzm _ _ _) as [[[[al be] ze] mu] tz]. apply bind_ok_inv in HP as (u1 & _ & HP).
  apply bind_ok_inv in HP as (c1 & _ & HP). apply bind_ok_inv in HP as (c2 & _ & HP). apply bind_ok_inv in HP as ([mles deg] & _ & HP).
  apply bind_ok_inv in HP as (u2 & _ & HP). apply bind_ok_inv in HP as ([[proof rs] t1] & _ & HP).
  apply bind_ok_inv in HP as (theta & _ & HP). apply bind_ok_inv in HP as (eta & _ & HP).
  match type of HP with context [get_rhos P ?t] => destruct (get_rhos_spec P t) as (rho & t6 & Er & Lr & Dr); rewrite Er in HP end.
  apply bind_ok_inv in HP as (f0 & Ef & HP). apply bind_ok_inv in HP as ([[[v0 cm0] uu] x0] & _ & HP). apply bind_ok_inv in HP as (lc0 & _ & HP).
  apply ok_inj in HP. injection HP as _ <- _ _. unfold wit_norm, wit_from_f. cbn [w_fc].
  assert (length (rho ++ [1]) = (2 * dp_K P)%nat) as Lr1 by (rewrite app_length; cbn [length]; lia).
  pose proof (f0_lin (2 * dp_K P) n (rho ++ [1]) ws f0 Lr1 Hw HF Ef) as HL.
  replace (2 * Z.of_nat (dp_K P))%Z with (Z.of_nat (2 * dp_K P)) by lia.
  apply (C32_folded_norm_uniform gamma (2 * dp_K P) rho ws); auto; [lia|].
  eapply Forall_impl; [|exact Dr]. exact HD.
Qed.
End P.

(** The four rings, with their sizes of challenges and expansion factors. *)
Theorem C32_shipped {p K} (y : cyc p K) decode need W G P : shipped p K y decode need W G -> In P (W ++ G) ->
  exists cap : Z, In (p, cap) [(gold_p, 1536); (bb_p, 4608); (frog_p, 2048); (stark_p, 4080)]%Z /\
  forall T (TO : TransOps T (pol K (cy_k y)) K) (sq : T -> list Z * T) B n cms (ws : list (witness (pol (fp p) (cy_d y)) (pol K (cy_k y)))) (ts : T) cs mzs lc w pf ts',
    squeezer need sq ->
    Forall (fun w => w_fc w = map (icrt (SOps := cyc_ops y)) (w_f w) /\ length (w_f w) = n) ws -> Forall (wit_norm (SO := cyc_ops y) B) ws ->
    fold_prove (SO := cyc_ops y) (HO := short_of y decode sq) P cms ws ts cs mzs = Ok (lc, w, pf, ts') ->
    wit_norm (SO := cyc_ops y) (2 * Z.of_nat (dp_K P) * (cap * B)) w.
Proof.
  intros S HP. pose proof (shipped_good y decode need W G P S HP) as [_ _ _ HK _ _ _].
  destruct S.
  - exists (24 * 2 * 32)%Z. split; [left; reflexivity|]. intros T TO sq B n cms ws ts cs mzs lc w pf ts' HS HF HB HE.
    refine (C32_fold_prove (SL := real_laws gold_cyc gold_challenge 18 ring_gold) (HO := short_of gold_cyc gold_challenge sq) P 2 32 B n cms ws ts cs mzs lc w pf ts' _ _ _ HK HF HB HE); [|lia|].
    + apply (trin_expansion gold_cyc gold_prime eq_refl gold_xl gold_check 12 gold_trin).
    + apply (drawn_bound gold_cyc gold_challenge 18 ring_gold sq (-32) 32 32 HS gold_good); lia.
  - exists (72 * 2 * 32)%Z. split; [right; left; reflexivity|]. intros T TO sq B n cms ws ts cs mzs lc w pf ts' HS HF HB HE.
    refine (C32_fold_prove (SL := real_laws bb_cyc bb_challenge 18 ring_bb) (HO := short_of bb_cyc bb_challenge sq) P 2 32 B n cms ws ts cs mzs lc w pf ts' _ _ _ HK HF HB HE); [|lia|].
    + apply (trin_expansion bb_cyc bb_prime eq_refl bb_xl bb_check 36 bb_trin).
    + apply (drawn_bound bb_cyc bb_challenge 18 ring_bb sq (-32) 32 32 HS bb_good); lia.
  - exists (16 * 1 * 128)%Z. split; [right; right; left; reflexivity|]. intros T TO sq B n cms ws ts cs mzs lc w pf ts' HS HF HB HE.
    refine (C32_fold_prove (SL := real_laws frog_cyc frog_challenge 16 ring_frog) (HO := short_of frog_cyc frog_challenge sq) P 1 128 B n cms ws ts cs mzs lc w pf ts' _ _ _ HK HF HB HE); [|lia|].
    + apply (nega_expansion frog_cyc frog_prime eq_refl frog_xl frog_check frog_nega_ring).
    + apply (drawn_bound frog_cyc frog_challenge 16 ring_frog sq (-128) 128 128 HS frog_good); lia.
  - exists (16 * 1 * 255)%Z. split; [right; right; right; left; reflexivity|]. intros T TO sq B n cms ws ts cs mzs lc w pf ts' HS HF HB HE.
    refine (C32_fold_prove (SL := real_laws stark_cyc stark_challenge 16 ring_stark) (HO := short_of stark_cyc stark_challenge sq) P 1 255 B n cms ws ts cs mzs lc w pf ts' _ _ _ HK HF HB HE); [|lia|].
    + apply (nega_expansion stark_cyc stark_prime eq_refl stark_xl stark_check stark_nega_ring).
    + apply (drawn_bound stark_cyc stark_challenge 16 ring_stark sq 0 256 255 HS stark_good); lia.
Qed.
