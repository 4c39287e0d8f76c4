(** Concrete cases for the theorems of Properties8.v and the counterexample to C72. *)
From Coq Require Import String List Arith Lia ZArith Bool Ring.
From Verif Require Import Prelude Alg Poly MLE MLE_Proofs Transcript Interp Sumcheck Sumcheck_Proofs
  Arith Arith_Proofs Balanced Rings Rings_Proofs Linearization Linearization_Proofs Relations LinRel
  Decomposition Decomposition_Proofs Folding Folding_Comb Folding_Proofs Folding_Complete Folding_Sound NIFS NIFS_Proofs
  FSLog Inst5 Toy Properties1 Examples1 Properties2 Examples2 Properties8.
Import ListNotations.
Local Open Scope rs_scope.

(** ** C70, C71: two accepted runs of equal shape for different instances *)
Notation S5 := (Z * list (fs_ev r2 f25 c4))%type.
#[local] Instance t5 : TransOps S5 r2 f25 := fs_trans.
#[local] Instance h5 : ShortOps S5 c4 := fs_short.
Definition lenb (a b : list (list r2)) : bool := if list_eq_dec Nat.eq_dec (map (@length r2) a) (map (@length r2) b) then true else false.
Definition dec_fullb (d : dec_proof r2) : bool :=
  ((length (dp_ys d) =? length (dp_xs d)) && (length (dp_us d) =? length (dp_xs d)) && (length (dp_vs d) =? length (dp_xs d)))%nat.
Definition dec_sameb (d d' : dec_proof r2) : bool :=
  lenb (dp_xs d) (dp_xs d') && lenb (dp_ys d) (dp_ys d') && lenb (dp_us d) (dp_us d') && lenb (dp_vs d) (dp_vs d').
Definition nifs_sameb (cs : ccs r2) (acc acc' : lcccs r2) (i i' : cccs r2) (q q' : lf_proof r2) : bool :=
  ((length (lc_r acc) =? length (lc_r acc')) && (length (lc_v acc) =? length (lc_v acc')) && (length (lc_cm acc) =? length (lc_cm acc')) &&
   (length (lc_u acc) =? length (lc_u acc')) && (length (lc_x acc) =? length (lc_x acc')) && (length (i_cm i) =? length (i_cm i')) && (length (i_x i) =? length (i_x i')) &&
   (length (lp_v (lf_lin q)) =? length (lp_v (lf_lin q'))) && (length (lp_u (lf_lin q)) =? length (lp_u (lf_lin q'))) &&
   (length (lp_sc (lf_lin q)) =? c_s cs) && (length (lp_sc (lf_lin q')) =? c_s cs) && (length (fp_sc (lf_fold q)) =? c_s cs) && (length (fp_sc (lf_fold q')) =? c_s cs) &&
   dec_fullb (lf_dec_l q) && dec_fullb (lf_dec_l q') && dec_sameb (lf_dec_l q) (lf_dec_l q') &&
   dec_fullb (lf_dec_r q) && dec_fullb (lf_dec_r q') && dec_sameb (lf_dec_r q) (lf_dec_r q') &&
   lenb (fp_theta (lf_fold q)) (fp_theta (lf_fold q')) && lenb (fp_eta (lf_fold q)) (fp_eta (lf_fold q')))%nat.
Lemma lenb_ok a b : lenb a b = true -> same_len a b.
Proof. unfold lenb, same_len. destruct (list_eq_dec _ _ _); [auto|discriminate]. Qed.
Lemma dec_fullb_ok d : dec_fullb d = true -> dec_full d.
Proof. unfold dec_fullb, dec_full. rewrite !andb_true_iff, !Nat.eqb_eq. intuition. Qed.
Lemma dec_sameb_ok d d' : dec_sameb d d' = true -> dec_same d d'.
Proof. unfold dec_sameb, dec_same. rewrite !andb_true_iff. intros (((H1 & H2) & H3) & H4). repeat split; apply lenb_ok; auto. Qed.
Lemma nifs_sameb_ok cs acc acc' i i' q q' : nifs_sameb cs acc acc' i i' q q' = true -> nifs_same cs acc acc' i i' q q'.
Proof.
  unfold nifs_sameb. rewrite !andb_true_iff, !Nat.eqb_eq. intros H.
  repeat match goal with H : _ /\ _ |- _ => destruct H end.
  split; auto; try (split; [auto; fail|]); try (split; [|split]); auto using lenb_ok, dec_fullb_ok, dec_sameb_ok.
Qed.
Example ex_C71 : exists pf pf' lc lc' s1 s2,
  nifs_verify exP exAcc (exI exY) pf (11%Z, []) exCs = Ok (lc, s1) /\ nifs_verify exP exAcc (exI xi) pf' (11%Z, []) exCs = Ok (lc', s2) /\
  nifs_same exCs exAcc exAcc (exI exY) (exI xi) pf pf' /\ exI exY <> exI xi /\ snd s1 <> snd s2.
Proof.
  destruct (C34_nifs_complete (SL := slaws5) exP exA exCs exAcc (exWit xi) (exI exY) (exWit exY) (11%Z, [])
    ex_params ex_acc (all_in_range _) (ex_cccs _) (all_in_range _)) as (lc & w & pf & s1 & _ & _ & P1 & V1 & _).
  destruct (C34_nifs_complete (SL := slaws5) exP exA exCs exAcc (exWit xi) (exI xi) (exWit xi) (11%Z, [])
    ex_params ex_acc (all_in_range _) (ex_cccs _) (all_in_range _)) as (lc' & w' & pf' & s2 & _ & _ & P2 & V2 & _).
  assert (match nifs_prove exP exAcc (exWit xi) (exI exY) (exWit exY) (11%Z, []) exCs exA, nifs_prove exP exAcc (exWit xi) (exI xi) (exWit xi) (11%Z, []) exCs exA with
          | Ok (_, _, q, _), Ok (_, _, q', _) => nifs_sameb exCs exAcc exAcc (exI exY) (exI xi) q q' | _, _ => false end = true) as N by (vm_cast_no_check (eq_refl true)).
  rewrite P1, P2 in N. apply nifs_sameb_ok in N. exists pf, pf', lc, lc', s1, s2. split; [exact V1|]. split; [exact V2|]. split; [exact N|].
  assert (exI exY <> exI xi) as D by (vm_compute; discriminate). split; [exact D|]. intros E.
  destruct (C71_rho_binds _ _ _ _ _ _ _ _ _ _ _ _ _ V1 V2 N) as (pre1 & pre2 & rho1 & rho2 & E1 & E2 & L1 & L2 & B). apply D, B.
  rewrite E1, E2 in E. assert (length (pre1 ++ map FShort rho1) = length (pre2 ++ map FShort rho2)) as EL by congruence. rewrite !app_length, !map_length in EL.
  apply app_inj_len in E; [tauto|lia].
Qed.
(** The sumcheck of the linearization in that run, alone: accepted, two rounds. *)
Example ex_C70 : exists pf lc s1, nifs_verify exP exAcc (exI exY) pf (11%Z, []) exCs = Ok (lc, s1) /\
  exists cs e s', sc_verify (snd (squeeze_beta (absorb_public_input exAcc (exI exY) ((11%Z, []) : S5)) (c_s exCs))) (c_s exCs) (c_d exCs + 1)%nat 0 (lp_sc (lf_lin pf)) = Ok (cs, e, s') /\ c_s exCs = 2%nat.
Proof.
  destruct (C34_nifs_complete (SL := slaws5) exP exA exCs exAcc (exWit xi) (exI exY) (exWit exY) (11%Z, [])
    ex_params ex_acc (all_in_range _) (ex_cccs _) (all_in_range _)) as (lc & w & pf & s1 & _ & _ & P1 & V1 & _).
  exists pf, lc, s1. split; [exact V1|]. unfold nifs_verify in V1. apply bind_ok_inv in V1 as (_ & _ & V). apply bind_ok_inv in V as ([lin t1] & V & _).
  unfold lin_verify in V. destruct (squeeze_beta (absorb_public_input exAcc (exI exY) (11%Z, [])) (c_s exCs)) as [b t]. apply bind_ok_inv in V as ([[cs e] s'] & V & _).
  exists cs, e, s'. split; [exact V|reflexivity].
Qed.

(** ** C72 *)
From Verif Require Import PlusRing PlusUtils_Proofs SetCheck RangeCheck Cm Plus Plus_Forge FSPlus Inst257 Examples5 Examples6 Properties7 Examples7.
Notation S257 := (Z * list (fs_ev q4 fq unit))%type.
#[local] Instance t257 : TransOps S257 q4 fq := fs_trans.
Lemma forge_fs (x : linb2x q4) coms r (ts : S257) : coms <> [] -> length r = 9%nat ->
  exists ts', plus_verify [cM] pp4 (forged_plus [cM] cP 9 1 x coms r []) ts = Ok (true, ts').
Proof.
  intros Hc Hr. apply (forged_plus_accepted (p := 257)); auto; try (cbn; lia).
  intros i Hi; apply char257; lia.
Qed.
Lemma cm_same_coms coms (q : cm_proof fq q4) nv : so_nvars (dc_out (cp_dcom q)) = nv -> length (so_sc (dc_out (cp_dcom q))) = nv ->
  length (fst (cp_sc q)) = nv -> length (snd (cp_sc q)) = nv -> cm_same q (with_coms coms q).
Proof. intros H1 H2 H3 H4. destruct q as [qd qh qs qe]. split; cbn [with_coms cp_dcom dc_out dc_params dc_evals cp_comh cp_sc cp_evals] in *; auto; split; congruence. Qed.
(** Two accepted proofs of equal shape with different commitments to the witness drive the transcript through exactly the
    same calls: no challenge depends on the commitments. *)
Theorem C72_commitments_absorbed_refuted : exists (M : list (smat q4)) pp proof proof' (s s1 s2 : S257),
  plus_verify M pp proof s = Ok (true, s1) /\ plus_verify M pp proof' s = Ok (true, s2) /\ plus_same proof proof' /\
  s1 = s2 /\ dc_coms (cp_dcom (pp_cm proof)) <> dc_coms (cp_dcom (pp_cm proof')).
Proof.
  destruct (forge_fs (LinB2X [1] [] []) [FComs [1] [] []] (repeat 0 9) (5%Z, []) ltac:(discriminate) eq_refl) as [ts' H].
  pose proof (C52_commitments_unbound [cM] pp4 _ [FComs [0] [] []] _ _ H eq_refl) as H'.
  eexists [cM], pp4, _, _, (5%Z, []), ts', ts'. split; [exact H|]. split; [exact H'|]. split.
  - split; [reflexivity|]. split; [apply Forall_nil|]. apply (cm_same_coms _ _ 9); reflexivity.
  - split; [reflexivity|]. cbn [with_coms forged_plus forged_cm pp_cm cp_dcom dc_coms]. intros E. injection E as E. discriminate E.
Qed.
