(** Final statements about the decomposition parameters shipped with the repository. *)
From Coq Require Import String List Arith Lia ZArith Bool Ring Znumtheory.
From Verif Require Import Prelude Alg Poly MLE MLE_Proofs Transcript Interp Sumcheck Sumcheck_Proofs
  Arith Arith_Proofs Balanced Rings Rings_Proofs Linearization Linearization_Proofs Relations LinRel
  Decomposition Decomposition_Proofs Folding Folding_Comb Folding_Proofs Folding_Complete Folding_Sound NIFS NIFS_Proofs Extract
  Challenge Challenge_Proofs PolyInst Primes FieldExt CycInst RealRings ShortDual Sampling Properties9 Properties12 Shipped.
Import ListNotations.
Local Open Scope rs_scope.

(** * C83 The shipped parameters *)
(** Every shipped set covers its prime, its base is covered by the small digits, and the small base is below half the prime. *)
Theorem C83_parameters {p K} (y : cyc p K) decode need W G P : shipped p K y decode need W G -> In P (W ++ G) ->
  (2 <= dp_B P /\ p < dp_B P ^ Z.of_nat (dp_L P) /\ dp_B P <= Z.of_nat (dp_b P) ^ Z.of_nat (dp_K P) /\ 2 * Z.of_nat (dp_b P) < p)%Z /\
  (1 <= dp_L P)%nat /\ (2 <= dp_b P)%nat /\ (1 <= dp_K P)%nat.
Proof. intros S HP. destruct (shipped_good y decode need W G P S HP). repeat split; auto. Qed.

Section Params.
Context {p : Z} {K : Type} (y : cyc p K) (decode : list Z -> result (list Z)) (need : nat) (W G : list dparams)
  (SH : shipped p K y decode need W G).
Notation C := (pol (fp p) (cy_d y)).
Notation R := (pol K (cy_k y)).
Local Instance SOp : SOps (fp p) K C R := cyc_ops y.
Local Instance SLp : SLaws (fp p) K C R p := real_laws y decode need (shipped_real y decode need W G SH).
(** What remains to be asked of the CCS. *)
Record ccs_good (P : dparams) (cs : ccs R) : Prop := {
  cg_wf : wf_ccs cs; cg_sized : sized_ccs cs; cg_order : in_order cs; cg_deg : degree_ok cs;
  cg_d : (Z.of_nat (c_d cs + 1) < p)%Z; cg_n : (c_l cs + 1 < c_n cs)%nat;
  cg_m : next_pow2 ((c_n cs - c_l cs - 1) * dp_L P) = c_m cs }.
Lemma shipped_ok P cs : In P (W ++ G) -> ccs_good P cs -> params_ok (p := p) P cs.
Proof.
  intros HP [H1 H2 H3 H4 H5 H6 H7]. destruct (shipped_good y decode need W G P SH HP) as [G1 G2 G3 G4 G5 G6 G7].
  split; auto.
  - split; auto. unfold covers. repeat split; auto. lia.
  - apply (real_char y decode need (shipped_real y decode need W G SH)). exact H5.
  - apply (real_char y decode need (shipped_real y decode need W G SH)). lia.
  - lia.
Qed.
Lemma fresh_in_range P (w : list R) : In P (W ++ G) -> Forall (in_range P) (w_fc (wit_from_w_ccs P w : witness C R)).
Proof.
  intros HP. destruct (shipped_good y decode need W G P SH HP) as [G1 G2 G3 G4 G5 G6 G7]. apply (gadget_in_range (SL := SLp)); auto.
Qed.

(** Folding two fresh instances works for every shipped set of parameters. *)
Theorem C83_step_complete {T} {TO : TransOps T R K} (sq : T -> list Z * T) P (A : ajtai R) (cs : ccs R) acc (w_acc : list R) cm_i (w_i : list R) (ts : T) :
  In P (W ++ G) -> ccs_good P cs ->
  lcccs_rel P A cs acc (wit_from_w_ccs P w_acc) -> cccs_rel P A cs cm_i (wit_from_w_ccs P w_i) ->
  exists lc w pf ts',
    nifs_prove (HO := short_of y decode sq) P acc (wit_from_w_ccs P w_acc) cm_i (wit_from_w_ccs P w_i) ts cs A = Ok (lc, w, pf, ts') /\
    nifs_verify (HO := short_of y decode sq) P acc cm_i pf ts cs = Ok (lc, ts') /\ lcccs_rel P A cs lc w.
Proof.
  intros HP HC HA HI.
  destruct (nifs_complete_full (SL := SLp) (HO := short_of y decode sq) P A cs acc (wit_from_w_ccs P w_acc) cm_i (wit_from_w_ccs P w_i) ts
    (shipped_ok P cs HP HC) HA (fresh_in_range P w_acc HP) HI (fresh_in_range P w_i HP))
    as (lc & w & pf & ts' & rho & ws & E1 & E2 & E3 & _).
  exists lc, w, pf, ts'. auto.
Qed.

(** With the wide sets any number of fresh instances can be folded, whatever bytes are squeezed. *)
Theorem C83_chain {T} {TO : TransOps T R K} (sq : T -> list Z * T) P (A : ajtai R) (cs : ccs R) :
  In P W -> squeezer need sq -> ccs_good P cs ->
  forall (steps : list (T * cccs R * list R)) acc (w : list R),
  lcccs_rel P A cs acc (wit_from_w_ccs P w) ->
  Forall (fun st => cccs_rel P A cs (snd (fst st)) (wit_from_w_ccs P (snd st))) steps ->
  let steps' := map (fun st => (fst st, wit_from_w_ccs P (snd st))) steps in
  exists accs pfs,
    fold_chain_p (HO := short_of y decode sq) P cs A acc (wit_from_w_ccs P w) steps' = Ok (accs, pfs) /\
    length accs = length steps /\ length pfs = length steps /\
    fold_chain_v (HO := short_of y decode sq) P cs acc (map fst steps) pfs = Ok (map fst accs) /\
    Forall (fun a => lcccs_rel P A cs (fst a) (snd a) /\ Forall (in_range P) (w_fc (snd a))) accs.
Proof.
  intros HP HS HC steps acc w HA HI steps'.
  assert (In P (W ++ G)) as HP' by (apply in_or_app; auto).
  destruct (nifs_chain (SL := SLp) (HO := short_of y decode sq) P A cs (shipped_ok P cs HP' HC)
    (wide_in_range y decode need W G P SH HP T sq HS) steps' acc (wit_from_w_ccs P w) HA (fresh_in_range P w HP')) as (accs & pfs & E1 & E2 & E3 & E4 & E5).
  - unfold steps'. apply Forall_map. eapply Forall_impl; [|exact HI]. intros st Hst. cbn [fst snd]. split; [exact Hst|apply fresh_in_range; auto].
  - exists accs, pfs. assert (length steps' = length steps) as El by apply map_length. rewrite El in E2, E3. repeat split; auto.
    unfold steps' in E4. rewrite map_map in E4. cbn [fst] in E4. exact E4.
Qed.

(** With the tight sets it cannot: some squeezed bytes and some witnesses with small digits fold to a witness that K digits
    cannot represent. *)
Theorem C83_capacity_refuted P : In P G ->
  exists (sq : unit -> list Z * unit) (rho : list C) (ws : list (witness C R)) (v : list C),
    squeezer need sq /\ length rho = (2 * dp_K P - 1)%nat /\ Forall (drawn (HO := short_of y decode sq)) rho /\
    length ws = (2 * dp_K P)%nat /\ Forall (wit_norm (Z.of_nat (dp_b P) / 2)) ws /\
    is_lin (2 * dp_K P) (fun i => nth i (rho ++ [1]) 0) (fun i => w_fc (nth i ws (Witness [] [] [] []))) v /\
    ~ Forall (in_range P) v.
Proof.
  intros HP. destruct (tight_overflow y decode need W G P SH HP) as [HS (rho & ws & v & H)]. exists (zero_bytes need), rho, ws, v. split; [exact HS|exact H].
Qed.
End Params.
