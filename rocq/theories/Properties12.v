(** Final statements about the four rings and challenge sets of cyclotomic-rings: the laws assumed of the rings hold, the short
    challenges form a strong sampling set, and the forked runs of Properties9.v need only distinct challenges. *)
From Coq Require Import String List Arith Lia ZArith Bool Ring Znumtheory.
From Verif Require Import Prelude Alg Poly MLE MLE_Proofs Transcript Interp Sumcheck Sumcheck_Proofs
  Arith Arith_Proofs Balanced Rings Rings_Proofs Linearization Linearization_Proofs Relations LinRel
  Decomposition Decomposition_Proofs Folding Folding_Comb Folding_Proofs Folding_Complete Folding_Sound NIFS NIFS_Proofs Extract
  Challenge Challenge_Proofs PolyInst Primes FieldExt CycInst RealRings ShortDual Sampling Properties9.
Import ListNotations.
Local Open Scope rs_scope.

(** * C80 Two different byte strings give challenges whose difference is a unit *)
Theorem C80_strong_sampling {p K} (y : cyc p K) decode n : real_ring p K y decode n ->
  forall bs bs' c c', bytes n bs -> bytes n bs' -> bs <> bs' -> decode bs = Ok c -> decode bs' = Ok c' ->
  exists u : pol (fp p) (cy_d y), @rmul _ (c_ops y) u (@rsub _ (c_ops y) (elt_of p (cy_d y) c) (elt_of p (cy_d y) c')) = @rone _ (c_ops y).
Proof. intros H. destruct (real_facts y decode n H) as (_ & _ & _ & _ & S & _). exact S. Qed.

(** * C81 The rings satisfy the interface laws *)
Theorem C81_ring_laws {p K} (y : cyc p K) decode n : real_ring p K y decode n ->
  prime p /\ @SLaws (fp p) K (pol (fp p) (cy_d y)) (pol K (cy_k y)) (cyc_ops y) p.
Proof. intros H. destruct (real_facts y decode n H) as (H1 & _). split; [exact H1|]. exact (real_laws y decode n H). Qed.

Lemma finite_choice {A} (a0 : A) m (Q : nat -> A -> Prop) : (forall i, (i < m)%nat -> exists u, Q i u) -> exists d, forall i, (i < m)%nat -> Q i (d i).
Proof.
  induction m as [|m IH]; intros H; [exists (fun _ => a0); lia|]. destruct (IH ltac:(intros; apply H; lia)) as [d Hd]. destruct (H m ltac:(lia)) as [u Hu].
  exists (fun i => if (i =? m)%nat then u else d i). intros i Hi. destruct (Nat.eqb_spec i m) as [->|Hne]; auto. apply Hd. lia.
Qed.

(** * C82 Extraction for the rings of the repository *)
Section Fork.
Context {p : Z} {K : Type} (y : cyc p K) (decode : list Z -> result (list Z)) (need : nat) (RR : real_ring p K y decode need).
Notation C := (pol (fp p) (cy_d y)).
Notation R := (pol K (cy_k y)).
Local Instance SOy : SOps (fp p) K C R := cyc_ops y.
Local Instance SLy : SLaws (fp p) K C R p := real_laws y decode need RR.
(** Small integers are distinct in the extension field. *)
Lemma real_ofn_inj i j : (i < j)%nat -> (Z.of_nat j - Z.of_nat i < p)%Z -> (rofn i : K) <> rofn j.
Proof.
  intros Hij Hp E. destruct (real_facts y decode need RR) as (Pp & _ & XL & _). pose proof (xl_hom y XL) as Hh. pose proof (prime_ge_2 p Pp) as P2.
  assert (rofZ (Z.of_nat j - Z.of_nat i) = (0 : K)) as E0. { rewrite rofZ_sub. unfold rofn in E. rewrite E. apply (proj2 (rsub_0_iff _ _)). reflexivity. }
  assert ((rofZ (Z.of_nat j - Z.of_nat i) : fp p) = 0) as E1.
  { apply (embFK_inj (SL := SLy)). etransitivity; [exact (embFK_ofZ (SL := SLy) _)|]. etransitivity; [exact E0|]. symmetry. exact (hom_0 _ Hh). }
  apply (f_equal fpz) in E1. rewrite rofZ_fp in E1. rewrite Z.mod_small in E1 by lia. cbn [fpz rzero fp_ops fld_ring zp s_F SOy cyc_ops] in E1. rewrite Z.mod_0_l in E1 by lia. lia.
Qed.
Lemma real_char n : (Z.of_nat n < p)%Z -> char_gt K n.
Proof. intros Hn i Hi E. apply (real_ofn_inj 0 i); [lia|lia|]. rewrite rofn_0. symmetry. exact E. Qed.
Lemma real_points n : (Z.of_nat n <= p)%Z -> NoDup (map (fun i => rofn i : K) (seq 0 n)).
Proof.
  intros Hn. apply (NoDup_nth _ 0). rewrite map_length, seq_length. intros i j Hi Hj E. rewrite !nth_seq_map in E by auto.
  destruct (Nat.lt_trichotomy i j) as [H|[H|H]]; auto; exfalso; [apply (real_ofn_inj i j)|apply (real_ofn_inj j i)]; auto; lia.
Qed.
Context {T : Type} {TO : TransOps T R K}.
(** Run [j + 1] redraws exactly challenge [j]. *)
Definition forked (m : nat) (bss : nat -> list (list Z)) : Prop :=
  (forall j, (j <= m)%nat -> length (bss j) = m /\ Forall (bytes need) (bss j)) /\
  (forall i k, (i < m)%nat -> (k < m)%nat -> nth k (bss (S i)) [] = nth k (bss 0%nat) [] <-> k <> i).
Lemma forked_special (SQ : nat -> T -> list Z * T) P (tr : T) : forked (2 * dp_K P - 1) (fun j => draws (SQ j) tr (2 * dp_K P - 1)) ->
  exists d, special (2 * dp_K P - 1) (fun j k => nth k (rhos (short_of y decode (SQ j)) P tr) 0) d.
Proof.
  intros [F1 F2]. set (m := (2 * dp_K P - 1)%nat) in *. destruct (real_facts y decode need RR) as (_ & _ & _ & _ & SS & lo & hi & GD).
  set (dec := fun bs => elt_of p (cy_d y) (match decode bs with Ok c => c | _ => [] end)).
  assert (forall j k, (k < m)%nat -> nth k (rhos (short_of y decode (SQ j)) P tr) 0 = dec (nth k (draws (SQ j) tr m) [])) as N.
  { intros j k Hk. unfold rhos. fold m. rewrite app_nth1 by (rewrite small_draws, map_length, draws_length; auto).
    rewrite small_draws. rewrite (nth_map_lt _ _ _ []) by (rewrite draws_length; auto). reflexivity. }
  assert (forall i, exists u : C, (i < m)%nat -> u * (dec (nth i (draws (SQ (S i)) tr m) []) - dec (nth i (draws (SQ 0%nat) tr m) [])) = 1) as U.
  { intros i. destruct (Nat.lt_ge_cases i m) as [Hi|Hi]; [|exists 0; lia].
    destruct (F1 (S i) ltac:(lia)) as [L1 B1]. destruct (F1 0%nat ltac:(lia)) as [L0 B0]. rewrite Forall_forall in B1, B0.
    specialize (B1 (nth i (draws (SQ (S i)) tr m) []) ltac:(apply nth_In; lia)). specialize (B0 (nth i (draws (SQ 0%nat) tr m) []) ltac:(apply nth_In; lia)).
    destruct GD as (_ & G & _). destruct (G _ B1) as (c1 & E1 & _). destruct (G _ B0) as (c0 & E0 & _).
    destruct (SS _ _ c1 c0 B1 B0) as [u Hu]; auto.
    { intros E. apply (proj1 (F2 i i Hi Hi) E). reflexivity. }
    exists u. intros _. unfold dec. rewrite E1, E0. exact Hu. }
  assert (exists d : nat -> C, forall i, (i < m)%nat -> d i * (dec (nth i (draws (SQ (S i)) tr m) []) - dec (nth i (draws (SQ 0%nat) tr m) [])) = 1) as [d Hd].
  { apply (finite_choice (0 : C) m (fun i u => u * (dec (nth i (draws (SQ (S i)) tr m) []) - dec (nth i (draws (SQ 0%nat) tr m) [])) = 1)).
    intros i Hi. destruct (U i) as [u Hu]. exists u. auto. }
  exists d. split; [|split].
  - intros j Hj. unfold rhos. fold m. rewrite app_nth2 by (rewrite small_draws, map_length, draws_length; auto).
    rewrite small_draws, map_length, draws_length, Nat.sub_diag. reflexivity.
  - intros i k Hi Hk Hne. rewrite !N by auto. rewrite (proj2 (F2 i k Hi Hk) Hne). reflexivity.
  - intros i Hi. rewrite !N by auto. auto.
Qed.

(** [2K] accepted runs on one statement and proof, whose squeezed byte strings agree except that run [j + 1] redraws the bytes of
    challenge [j], and witnesses of their outputs give openings of all the commitments; theta and eta are their evaluations. *)
Theorem C82_folding_extract P (A : ajtai R) (cs : ccs R) cms pf (ts tr : T) (SQ : nat -> T -> list Z * T) lc ts' (w : nat -> witness C R) :
  sizes_ok p P cs -> length cms = (2 * dp_K P)%nat -> Forall (fun c => length (lc_cm c) = kappa A /\ length (lc_x c) = c_l cs) cms ->
  fold_shape P cs pf -> rho_state P cms pf ts cs = Ok tr ->
  forked (2 * dp_K P - 1) (fun j => draws (SQ j) tr (2 * dp_K P - 1)) ->
  (forall j, (j < 2 * dp_K P)%nat -> fold_verify (HO := short_of y decode (SQ j)) P cms pf ts cs = Ok (lc j, ts' j) /\ lcccs_rel P A cs (lc j) (w j)) ->
  exists ws, Forall2 (fun c w => opens P A cs (lc_cm c) w) cms ws /\
    (forall j, (j < 2 * dp_K P)%nat ->
      fp_theta pf = evs (map w_fhat ws) (lc_r (lc j)) /\
      fp_eta pf = evs (zipw (fun c w => map (Mz_mle (c_s cs) (lcccs_z c (w_ccs w))) (c_M cs)) cms ws) (lc_r (lc j)) /\
      is_lin (2 * dp_K P) (fun k => nth k (rhos (short_of y decode (SQ j)) P tr) 0) (fun k => w_fc (nth k ws (Witness [] [] [] []))) (w_fc (w j))).
Proof.
  intros H1 H2 H3 H4 H5 H6 H7. destruct (forked_special SQ P tr H6) as [d Hd].
  exact (C73_folding_extract P A cs cms pf ts tr (fun j => short_of y decode (SQ j)) d lc ts' w H1 H2 H3 H4 H5 Hd H7).
Qed.
(** The whole step, as C73, for distinct challenges in the rings of the repository. *)
Theorem C82_nifs_knowledge P (A : ajtai R) (cs : ccs R) acc cm_i lin lcs_l lcs_r (ws_l ws_r : list (witness C R)) :
  sizes_ok p P cs -> degree_ok cs -> (Z.of_nat (c_d cs + 1) < p)%Z -> (2 * Z.of_nat (dp_b P) < p)%Z -> (Z.of_nat (c_t cs) < p)%Z -> length (lc_r acc) = c_s cs ->
  Forall2 (fun c w => opens P A cs (lc_cm c) w) lcs_l ws_l -> Forall2 (fun c w => opens P A cs (lc_cm c) w) lcs_r ws_r ->
  let cms := lcs_l ++ lcs_r in
  let ws := ws_l ++ ws_r in
  let fhs := map w_fhat ws in
  let mzs := zipw (fun c w => map (Mz_mle (c_s cs) (lcccs_z c (w_ccs w))) (c_M cs)) cms ws in
  let n := ((c_n cs - c_l cs - 1) * dp_L P)%nat in
  exists ref : list K, forall pf (ts ts1 ts2 ts3 tr : T) (SQ : nat -> T -> list Z * T) lc ts' (w : nat -> witness C R),
    dec_shape P cs (lf_dec_l pf) -> dec_shape P cs (lf_dec_r pf) -> fold_shape P cs (lf_fold pf) ->
    lin_verify cm_i (lf_lin pf) (absorb_public_input acc cm_i ts) cs = Ok (lin, ts1) ->
    dec_verify P acc (lf_dec_l pf) ts1 = Ok (lcs_l, ts2) ->
    dec_verify P lin (lf_dec_r pf) ts2 = Ok (lcs_r, ts3) ->
    rho_state P cms (lf_fold pf) ts3 cs = Ok tr ->
    forked (2 * dp_K P - 1) (fun j => draws (SQ j) tr (2 * dp_K P - 1)) ->
    (forall j, (j < 2 * dp_K P)%nat ->
       nifs_verify (HO := short_of y decode (SQ j)) P acc cm_i pf ts cs = Ok (lc j, ts' j) /\ lcccs_rel P A cs (lc j) (w j)) ->
    (lcccs_rel P A cs acc (wsum P n ws_l) /\ cccs_rel P A cs cm_i (wsum P n ws_r) /\
     forall i w, nth_error ws i = Some w -> (i < 2 * dp_K P - 1)%nat \/ tau = 1%nat -> wit_norm (Z.of_nat (dp_b P) - 1) w) \/
    fold_bad P cs cms fhs mzs (lc_r acc) (lc_r lin) (Nat.max tau (c_t cs)) ref ts3 (lf_fold pf) (lc 0%nat) \/
    lin_bad cs (i_x cm_i ++ 1 :: w_ccs (wsum P n ws_r)) (absorb_public_input acc cm_i ts) (lf_lin pf) lin \/
    relaxed_collision P A cs cms ws (fun j => rhos (short_of y decode (SQ j)) P tr) w.
Proof.
  intros H1 H2 H3 H4 H5 H8 H9 H10 cms ws fhs mzs n.
  assert (Z.of_nat (cy_e y) < p)%Z as He by (clear - RR; destruct RR; reflexivity).
  destruct (C73_nifs_knowledge P A cs acc cm_i lin lcs_l lcs_r ws_l ws_r (map (fun i => rofn i : K) (seq 0 (S (Nat.max tau (c_t cs)))))) as [ref HR]; auto.
  { apply real_char. lia. } { apply real_char. lia. } { lia. } { apply real_points. change (tau (SOps := SOy)) with (cy_e y). lia. }
  { rewrite map_length, seq_length. lia. }
  exists ref. intros pf ts ts1 ts2 ts3 tr SQ lc ts' w D1 D2 D3 E1 E2 E3 E4 HF HV. destruct (forked_special SQ P tr HF) as [d Hd].
  exact (HR pf ts ts1 ts2 ts3 tr (fun j => short_of y decode (SQ j)) d lc ts' w D1 D2 D3 E1 E2 E3 E4 Hd HV).
Qed.
End Fork.
