(** C06 (validity of constraint systems) and C111: the reduced instances of LatticeFold+ are added up with coefficient 1. *)
From Coq Require Import String List Arith Lia ZArith Bool Ring.
From Verif Require Import Prelude Alg MLE MLE_Proofs Transcript Sumcheck Sumcheck_Proofs Arith Arith_Proofs
  Rings Rings_Proofs PlusRing PlusUtils_Proofs SetCheck SetCheck_Proofs SetCheck_Sound RangeCheck RangeCheck_Proofs Cm Cm_Proofs Plus Plus_Proofs Properties6.
Import ListNotations.
Local Open Scope rs_scope.

(** * C06
    A system is valid exactly when every variable it mentions exists. *)
Theorem C06_valid {R} {RO : RingOps R} (s : csys R) : csys_valid s = true <->
  forall k lc t, In k (s_cons s) -> In lc [k_a k; k_b k; k_c k] -> In t lc -> (snd t < s_ninputs s + s_nauxs s)%nat.
Proof.
  unfold csys_valid, lc_valid, s_nvars. assert ((s_ninputs s + s_nauxs s <? s_ninputs s)%nat = false) as -> by (apply Nat.ltb_ge; lia). cbn [negb andb].
  rewrite forallb_forall. split.
  - intros H k lc t Hk Hl Ht. specialize (H k Hk). apply andb_prop in H as [H H3]. apply andb_prop in H as [H1 H2].
    rewrite forallb_forall in H1, H2, H3. apply Nat.ltb_lt. destruct Hl as [<-|[<-|[<-|[]]]]; auto.
  - intros H k Hk. rewrite !andb_true_iff. repeat split; apply forallb_forall; intros t Ht; apply Nat.ltb_lt; [apply (H k (k_a k))|apply (H k (k_b k))|apply (H k (k_c k))]; cbn [In]; auto.
Qed.

Section P.
Context {K R T : Type} {PO : POps K R} {TO : TransOps T R K} {p : Z} {PL : PLaws K R p}.
Add Ring Rring99 : (@rlaws_th R _ (pl_R (p := p))).

Lemma zipl_shift (a u v d : list R) : length u = length a -> length v = length a ->
  zipl radd (zipl radd a (vadd u d)) (vsub v d) = zipl radd (zipl radd a u) v.
Proof.
  intros Hu Hv. apply (list_ext 0); [rewrite !zipl_length; reflexivity|]. intros i Hi. rewrite !zipl_length in Hi.
  rewrite !(zipl_add_nth (p := p)) by (rewrite ?zipl_length; unfold vadd, vsub; rewrite ?map_length, ?seq_length; congruence).
  unfold vadd, vsub. rewrite !nth_seq_map by lia. ring.
Qed.
Lemma commit_kappa (A : ajtai R) g c : commit A g = Ok c -> length c = kappa A.
Proof.
  unfold commit. destruct (negb _); [discriminate|]. unfold checked_mul_vec. destruct (_ =? _)%nat; cbn [of_option]; [|discriminate].
  intros D. apply ok_inj in D. subst c. rewrite map_length. reflexivity.
Qed.

(** * C111
    Two or more instances, any [d]: a proof is accepted whose folded instance (commitments and evaluations added up as in mlin.rs 66-88)
    is true, with the sum of the folded witnesses; the first two reduced instances, of which it is the sum, carry commitments that are off by [d]
    and [-d]. *)
Theorem C111_sum_hides fs A P nv M (ts : T) (d : list R) : cm_setting (p := p) fs A P nv M -> (2 <= length fs)%nat -> length d = kappa A ->
  exists insts s s' (ro0 ro1 : list K) gs x proof ts' c0 c1 rest,
    mapM (fun f => from_f f A P) fs = Ok insts /\ map ri_f insts = fs /\
    cm_verify proof M ts = Ok (x, ts') /\ Forall2 (folded (2 ^ nv) s s') insts gs /\
    commit A (vsum (2 ^ nv) gs) = Ok (fold_left (fun acc c => zipl radd acc c) (cx_cm x) (repeat 0 (kappa A))) /\
    cx_vo x = map (evaluations M ro0 ro1) gs /\
    Forall2 (fun g c => commit A g = Ok c) gs (c0 :: c1 :: rest) /\ cx_cm x = vadd c0 d :: vsub c1 d :: rest.
Proof.
  intros HS H2 Hd. destruct (C66_commitments_shifted (p := p) fs A P nv M ts d HS H2 Hd) as (insts & s & s' & r0 & r1 & gs & x & proof & ts' & c0 & c1 & rest & C1 & C2 & C3 & C4 & C5 & C6 & C7 & C8).
  exists insts, s, s', r0, r1, gs, x, proof, ts', c0, c1, rest. do 4 (split; [assumption|]). split; [|auto].
  rewrite (vsum_commit (p := p) A (2 ^ nv) gs (c0 :: c1 :: rest)); [|apply HS|apply HS| |exact C7].
  - f_equal. rewrite C8. cbn [fold_left]. f_equal. inversion C7 as [|g0 ? gs1 ? D0 D1]; subst. inversion D1 as [|g1 ? gs2 ? D2 _]; subst.
    symmetry. apply zipl_shift; rewrite repeat_length; [exact (commit_kappa _ _ _ D0)|exact (commit_kappa _ _ _ D2)].
  - clear - C5. induction C5 as [|i g insts gs [H _] _ IH]; constructor; auto.
Qed.
(** If some row of the commitment matrix is zero, the shifted commitment of the first instance has no opening at all. *)
Theorem C111_no_opening (A : ajtai R) g0 c0 d i : wf_ajtai A -> commit A g0 = Ok c0 -> (i < kappa A)%nat -> Forall (fun a => a = 0) (nth i (a_rows A) []) -> nth i d 0 <> 0 ->
  forall g, commit A g <> Ok (vadd c0 d).
Proof.
  intros W E0 Hi Hz Hd g E. 
  assert (forall g c, commit A g = Ok c -> nth i c 0 = 0) as Z.
  { clear - PL Hi Hz. intros g c. unfold commit. destruct (negb _); [discriminate|]. unfold checked_mul_vec. destruct (_ =? _)%nat; cbn [of_option]; [|discriminate].
    intros D. apply ok_inj in D. subst c. rewrite (nth_map_lt _ _ _ []) by exact Hi. revert Hz. generalize (nth i (a_rows A) []). intros r Hr.
    revert g. induction Hr as [|a r -> _ IH]; intros [|b g]; try reflexivity. cbn [zipw]. rewrite lsum_cons, IH. ring. }
  pose proof (commit_kappa _ _ _ E0) as L. pose proof (Z _ _ E) as Z1. unfold vadd in Z1. rewrite nth_seq_map in Z1 by lia. rewrite (Z _ _ E0) in Z1. apply Hd. transitivity (0 + nth i d 0); [ring|exact Z1].
Qed.
End P.
