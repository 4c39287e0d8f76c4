(** Final statements about witnesses that leave the range of the K digits. *)
From Coq Require Import String List Arith Lia ZArith Bool Ring Znumtheory.
From Verif Require Import Prelude Alg Poly MLE MLE_Proofs Transcript Interp Sumcheck Sumcheck_Proofs
  Arith Arith_Proofs Balanced Rings Rings_Proofs Linearization Linearization_Proofs Relations LinRel
  Decomposition Decomposition_Proofs Folding Folding_Comb Folding_Proofs Folding_Complete Folding_Sound NIFS NIFS_Proofs Extract
  Challenge Challenge_Proofs PolyInst Primes FieldExt CycInst RealRings ShortDual Sampling Properties9 Properties12 Shipped Zippel Reject Properties13 Break.
Import ListNotations.
Local Open Scope rs_scope.

(** * C84 *)
(** An honest prover with a witness outside the range of its digits is rejected, except when the point of the accumulator lies in a
    set that the witness alone determines and of which at most a fraction s/|S| of the points with coordinates in S are members. *)
Theorem C84_rejected {F K C R T : Type} {SO : SOps F K C R} {p : Z} {SL : SLaws F K C R p} {TO : TransOps T R K} {HO : ShortOps T C}
    P (cs : ccs R) (w_acc : witness C R) (S : list K) :
  sizes_ok p P cs -> char_gt K (dp_b P) -> NoDup S -> length (w_fc w_acc) = ((c_n cs - c_l cs - 1) * dp_L P)%nat ->
  ~ Forall (in_range P) (w_fc w_acc) ->
  exists bad : list (list K), NoDup bad /\ (length S * length bad <= c_s cs * length S ^ c_s cs)%nat /\
    forall (A : ajtai R) acc r cm_i w_i (ts ts1 ts' : T) lc w pf res,
      lcccs_rel P A cs acc w_acc -> lc_r acc = map emb r -> Forall (fun x => In x S) r ->
      nifs_prove P acc w_acc cm_i w_i ts cs A = Ok (lc, w, pf, ts') ->
      nifs_verify P acc cm_i pf ts1 cs = Ok res -> In r bad.
Proof.
  intros Hs Hc HS Hl HN. pose proof (so_b _ _ _ Hs) as Hb. destruct (so_sized _ _ _ Hs) as (Hm & _). pose proof (so_m _ _ _ Hs) as Hm'.
  destruct (lost_count P w_acc (c_s cs) S Hb HS) as (bad & H1 & H2 & H3); auto.
  { rewrite Hl, <- Hm, <- Hm'. apply next_pow2_ge. }
  exists bad. split; [exact H1|]. split; [exact H2|]. intros A acc r cm_i w_i ts ts1 ts' lc w pf res HR Er HrS HP HV. apply H3; auto.
  - pose proof (lr_r _ _ _ _ _ HR) as E. rewrite Er, map_length in E. exact E.
  - rewrite <- Er. exact (nifs_lost P A cs acc w_acc cm_i w_i ts ts1 lc w pf ts' res Hs Hc HR HP HV).
Qed.

(** Two honest folds: the first is accepted and yields a true accumulator, the second is rejected whatever instance it folds in. *)
Definition second_fails {p K} (y : cyc p K) (decode : list Z -> result (list Z)) (need : nat) (P : dparams)
    (w_acc : witness (pol (fp p) (cy_d y)) (pol K (cy_k y))) (w1 : list (pol K (cy_k y))) : Prop :=
  let R := pol K (cy_k y) in
  let SO := cyc_ops y in
  exists (TO : TransOps unit R K) (sq : unit -> list Z * unit) (A : ajtai R) (cs : ccs R) acc cm_i,
    let HO := short_of y decode sq in
    squeezer need sq /\ ccs_good (p := p) y P cs /\
    lcccs_rel P A cs acc w_acc /\ Forall (in_range P) (w_fc w_acc) /\
    cccs_rel P A cs cm_i (wit_from_w_ccs P w1) /\
    exists lc w pf,
      nifs_prove P acc w_acc cm_i (wit_from_w_ccs P w1) tt cs A = Ok (lc, w, pf, tt) /\
      nifs_verify P acc cm_i pf tt cs = Ok (lc, tt) /\ lcccs_rel P A cs lc w /\
      forall cm_i' w_i' lc' w' pf' ts' res,
        nifs_prove P lc w cm_i' w_i' tt cs A = Ok (lc', w', pf', ts') -> nifs_verify P lc cm_i' pf' tt cs <> Ok res.

Definition breaks (p V : Z) (n1 n : dparams -> nat) (P : dparams) : bool :=
  (2 <=? dp_L P)%nat && minus_ok (p := p) P (n1 P) && minus_ok (p := p) P (n P) && fresh_ok P (n P) && (n1 P <=? dp_K P)%nat && (n P <? dp_K P)%nat &&
  (2 * (Z.of_nat (n1 P + n P) * V) <? p)%Z && (reach (dp_K P) (Z.of_nat (dp_b P)) <? Z.of_nat (n1 P + n P) * V)%Z.
(** As many digits as a fresh witness can have. *)
Definition fresh_digits (P : dparams) : nat := Z.to_nat (Z.log2 (dp_B P) - 1).

Section Breaks.
Context {p : Z} {K : Type} (y : cyc p K) (decode : list Z -> result (list Z)) (need : nat) (W G : list dparams) (SH : shipped p K y decode need W G).
Let RR := shipped_real y decode need W G SH.
Local Instance SO14 : SOps (fp p) K (pol (fp p) (cy_d y)) (pol K (cy_k y)) := cyc_ops y.
Local Instance SL14 : SLaws (fp p) K (pol (fp p) (cy_d y)) (pol K (cy_k y)) p := real_laws y decode need RR.
Lemma wit_covers P : In P (W ++ G) -> covers (p := p) P.
Proof. intros HP. destruct (shipped_good y decode need W G P SH HP) as [G1 G2 G3 G4 G5 G6 G7]. unfold covers. repeat split; auto. lia. Qed.
Lemma breaks_ok pos V n1 n P (w_acc : witness (pol (fp p) (cy_d y)) (pol K (cy_k y))) : (pos < cy_d y)%nat ->
  co (@rmul _ (c_ops y) (low_challenge y decode need) (all_minus y)) pos = rofZ V -> (1 <= V)%Z -> In P G -> breaks p V n1 n P = true ->
  wit_consistent P w_acc -> length (w_f w_acc) = dp_L P -> Forall (in_range P) (w_fc w_acc) -> nth 0 (w_fc w_acc) 0 = const_elt y (minus_val (n1 P)) ->
  second_fails y decode need P w_acc [crt (const_elt y (minus_val (n P)))].
Proof.
  intros Hpos HV HV1 HP HB HC HL HR E0. unfold breaks in HB. rewrite !andb_true_iff in HB. destruct HB as (((((((B1 & B2) & B3) & B4) & B5) & B6) & B7) & B8).
  apply Nat.leb_le in B1, B5. apply Nat.ltb_lt in B6. apply Z.ltb_lt in B7, B8.
  assert (In P (W ++ G)) as HP' by (apply in_or_app; auto).
  pose proof (zero_good y P B1 (proj1 (proj2 (real_facts y decode need RR)))) as HG.
  pose proof (open_lc_ok y P w_acc HC HL) as H1.
  assert (length (w_f (fresh_wit y P (n P))) = dp_L P) as HL2.
  { unfold fresh_wit. rewrite (from_w_ccs_length P). cbn [length]. lia. }
  pose proof (open_cm_ok y decode need RR P (fresh_wit y P (n P)) (from_w_ccs_consistent (SL := SL14) P _ (wit_covers P HP')) HL2) as H2.
  unfold second_fails. exists (zeroT y), (zero_bytes need), (ones y P), (zero_cs y P), (open_lc y P w_acc), (open_cm y P (fresh_wit y P (n P))).
  split; [apply zero_bytes_ok|]. split; [exact HG|]. split; [exact H1|]. split; [exact HR|]. split; [exact H2|].
  refine (second_rejected y decode need RR P (ones y P) (zero_cs y P) (open_lc y P w_acc) w_acc (open_cm y P (fresh_wit y P (n P))) (fresh_wit y P (n P)) pos V (n1 P) (n P)
    (shipped_ok y decode need W G SH P _ HP' HG) H1 HR H2 (fresh_in_range y decode need W G SH P _ HP') _ _ B5 B6 Hpos HV HV1 B7 B8).
  - pose proof (minus_ok_digits y decode need RR P (n1 P) B2) as HM. rewrite <- E0 in HM. exact HM.
  - pose proof (minus_ok_digits y decode need RR P (n P) B3) as HM. rewrite <- (fresh_first y decode need RR P (n P) B3 B4) in HM. exact HM.
Qed.
Lemma breaks_big pos V n P : (pos < cy_d y)%nat ->
  co (@rmul _ (c_ops y) (low_challenge y decode need) (all_minus y)) pos = rofZ V -> (1 <= V)%Z -> In P G -> breaks p V dp_K n P = true ->
  exists w_acc w1, second_fails y decode need P w_acc w1.
Proof.
  intros Hpos HV HV1 HP HB. exists (big_wit y P (minus_val (dp_K P))). eexists.
  pose proof HB as HB'. unfold breaks in HB'. rewrite !andb_true_iff in HB'. destruct HB' as (((((((B1 & B2) & _) & _) & _) & _) & _) & _). apply Nat.leb_le in B1.
  apply (breaks_ok pos V dp_K n P _ Hpos HV HV1 HP HB).
  - apply (from_f_coeff_consistent (SL := SL14)).
  - unfold big_wit, wit_from_f_coeff. cbn [w_f]. rewrite map_length. cbn [length]. rewrite repeat_length. lia.
  - unfold big_wit, wit_from_f_coeff. cbn [w_fc]. constructor; [exact (minus_ok_range y decode need RR P (dp_K P) B2)|].
    apply Forall_forall. intros c Hc. apply repeat_spec in Hc. subst c. intros j. rewrite (cf_0 (SL := SL14)), (signed_0 (SL := SL14)).
    destruct (shipped_good y decode need W G P SH ltac:(apply in_or_app; auto)) as [_ _ G3 _ _ _ _].
    pose proof (reach_nonneg (dp_K P) (Z.of_nat (dp_b P)) ltac:(lia)). rewrite Z.abs_0. lia.
  - reflexivity.
Qed.
Lemma breaks_fresh pos V n P : (pos < cy_d y)%nat ->
  co (@rmul _ (c_ops y) (low_challenge y decode need) (all_minus y)) pos = rofZ V -> (1 <= V)%Z -> In P G -> breaks p V n n P = true ->
  exists w0 w1, second_fails y decode need P (wit_from_w_ccs P w0) w1.
Proof.
  intros Hpos HV HV1 HP HB. assert (In P (W ++ G)) as HP' by (apply in_or_app; auto). exists [crt (const_elt y (minus_val (n P)))]. eexists.
  pose proof HB as HB'. unfold breaks in HB'. rewrite !andb_true_iff in HB'. destruct HB' as (((((((B1 & _) & B3) & B4) & _) & _) & _) & _).
  apply (breaks_ok pos V n n P _ Hpos HV HV1 HP HB).
  - apply (from_w_ccs_consistent (SL := SL14)). apply wit_covers. exact HP'.
  - rewrite (from_w_ccs_length P). cbn [length]. lia.
  - apply (fresh_in_range y decode need W G SH P _ HP').
  - exact (fresh_first y decode need RR P (n P) B3 B4).
Qed.
End Breaks.

(** For each of the tight sets of parameters two honest folds can fail. *)
Theorem C84_second_fold_refuted {p K} (y : cyc p K) decode need W G P : shipped p K y decode need W G -> In P G ->
  exists w_acc w1, second_fails y decode need P w_acc w1.
Proof.
  intros S HP. pose proof S as S'. destruct S.
  - refine (breaks_big gold_cyc gold_challenge 18 gold_wide gold_tight S' 12 1152 fresh_digits P _ gold_low _ HP _); [apply Nat.ltb_lt; reflexivity|lia|].
    revert P HP. apply forallb_forall. vm_compute. reflexivity.
  - refine (breaks_big bb_cyc bb_challenge 18 bb_wide bb_tight S' 36 1504 fresh_digits P _ bb_low _ HP _); [apply Nat.ltb_lt; reflexivity|lia|].
    revert P HP. apply forallb_forall. vm_compute. reflexivity.
  - refine (breaks_big frog_cyc frog_challenge 16 frog_wide frog_tight S' 15 2048 fresh_digits P _ frog_low _ HP _); [apply Nat.ltb_lt; reflexivity|lia|].
    revert P HP. apply forallb_forall. vm_compute. reflexivity.
  - destruct HP.
Qed.
(** For all of them but GoldilocksDP already when the first fold combines two fresh instances. *)
Theorem C84_fresh_folds_refuted {p K} (y : cyc p K) decode need W G P : shipped p K y decode need W G -> In P G -> P <> DParams (2 ^ 15) 5 2 15 ->
  exists w0 w1, second_fails y decode need P (wit_from_w_ccs (SO := cyc_ops y) P w0) w1.
Proof.
  intros S HP HN. pose proof S as S'. destruct S.
  - refine (breaks_fresh gold_cyc gold_challenge 18 gold_wide gold_tight S' 12 1152 fresh_digits P _ gold_low _ HP _); [apply Nat.ltb_lt; reflexivity|lia|].
    destruct HP as [E|HP]; [destruct HN; auto|]. clear - HP. revert P HP. apply forallb_forall. vm_compute. reflexivity.
  - refine (breaks_fresh bb_cyc bb_challenge 18 bb_wide bb_tight S' 36 1504 fresh_digits P _ bb_low _ HP _); [apply Nat.ltb_lt; reflexivity|lia|].
    clear - HP. revert P HP. apply forallb_forall. vm_compute. reflexivity.
  - refine (breaks_fresh frog_cyc frog_challenge 16 frog_wide frog_tight S' 15 2048 fresh_digits P _ frog_low _ HP _); [apply Nat.ltb_lt; reflexivity|lia|].
    clear - HP. revert P HP. apply forallb_forall. vm_compute. reflexivity.
  - destruct HP.
Qed.
