(** C109 on the toy ring: a proof with wrong eta is accepted, with a true output, for exactly as many challenge vectors as the bound allows. *)
From Coq Require Import String List Arith Lia ZArith Bool Ring.
From Verif Require Import Prelude Alg Poly MLE MLE_Proofs Transcript Interp Sumcheck Sumcheck_Proofs
  Arith Arith_Proofs Balanced Rings Rings_Proofs Linearization Linearization_Proofs Relations LinRel
  Decomposition Decomposition_Proofs Folding Folding_Comb Folding_Proofs Folding_Complete Folding_Sound NIFS NIFS_Proofs Extract
  Zippel Counting Fork RhoErr Inst5 Toy Properties1 Examples1 Properties2 Examples2 Properties9 Examples9.
Import ListNotations.
Local Open Scope rs_scope.

(** The constants of the ring: their differences are units. *)
Definition rS0 : list c4 := map (fun a => C4 a 0 0 0) [a0; a1; a2; a3; a4].
Definition rCms : list (lcccs r2) := Eval vm_compute in fst exCms.
Definition rTs : Z := Eval vm_compute in snd exCms.
Definition rWs : list (witness c4 r2) := Eval vm_compute in decompose_witness exP (exWit xi) ++ decompose_witness exP (exWit exY).
(** Two entries of eta_0 are shifted by [x] and [z] and those of eta_3 so that the sum with coefficients 2, _, _, 1 is the same. *)
Definition rEta (x z : r2) : list (list r2) :=
  match fp_eta (lf_fold exPf) with
  | [[e1; e2; e3]; l1; l2; [f1; f2; f3]] => [[e1 + x; e2 + z; e3]; l1; l2; [f1 - (1 + 1) * x; f2 - (1 + 1) * z; f3]]
  | l => l
  end.
Definition rPf (x z : r2) : fold_proof r2 := FoldProof (fp_sc (lf_fold exPf)) (fp_theta (lf_fold exPf)) (rEta x z).
(** By how much the evaluation check is missed. *)
Definition rMiss (x z : r2) : r2 :=
  let '(alpha, beta, zeta, mu, ts) := squeeze_abzm exP rTs (c_s exCs) in
  match sc_verify ts (c_s exCs) (2 * dp_b exP) (claim_sum alpha zeta rCms) (fp_sc (lf_fold exPf)) with
  | Ok (point, s, ts) =>
      let r0 := map emb point in
      match (do estar <- eq_eval beta r0; do es <- mapM (fun c => eq_eval (lc_r c) r0) rCms; expected_value exP alpha mu (fp_theta (lf_fold exPf)) estar es zeta (rEta x z)) with
      | Ok v => v - s | _ => 1 end
  | _ => 1 end.
Definition rx : r2 := Eval vm_compute in rMiss 0 1.
Definition rz : r2 := Eval vm_compute in - rMiss 1 0.
Definition rBad : fold_proof r2 := Eval vm_compute in rPf rx rz.
Definition rTr : Z := Eval vm_compute in match rho_state exP rCms rBad rTs exCs with Ok t => t | _ => 0%Z end.
Definition rHO (bs : list c4) : ShortOps Z c4 := fun s => (nth (Z.to_nat (s - rTr)) bs 0, (s + 1)%Z).
Definition rN : nat := ((c_n exCs - c_l exCs - 1) * dp_L exP)%nat.
Fixpoint leqb (a b : list r2) : bool := match a, b with [], [] => true | x :: a, y :: b => req x y && leqb a b | _, _ => false end.
Definition rCheck (bs : list c4) : bool :=
  match fold_verify (HO := rHO bs) exP rCms rBad rTs exCs with
  | Ok (lc, _) =>
      let w := comb_wit exP rN (rhos (rHO bs) exP rTr) rWs in
      (length (lc_r lc) =? c_s exCs)%nat && (length (lc_x lc) =? c_l exCs)%nat && (length (w_f w) =? rN)%nat &&
      match commit exA (w_f w) with Ok cm => leqb cm (lc_cm lc) | _ => false end &&
      leqb (lc_v lc) (map (fun j => mle_spec (fun b => hat j (nth b (w_fc w) 0)) (lc_r lc)) (seq 0 tau)) &&
      leqb (lc_u lc) (map (fun M => mle_spec (mz M (lc_x lc ++ lc_h lc :: w_ccs w)) (lc_r lc)) (c_M exCs)) &&
      negb (leqb (nth 0 (fp_eta rBad) []) (nth 0 (evs (zipw (fun c w => map (Mz_mle (c_s exCs) (lcccs_z c (w_ccs w))) (c_M exCs)) rCms rWs) (lc_r lc)) []))
  | _ => false
  end.
Lemma leqb_true a b : leqb a b = true -> a = b.
Proof. revert b. induction a as [|x a IH]; intros [|y b] H; try discriminate; auto. cbn [leqb] in H. apply andb_prop in H as [H1 H2]. apply req_true in H1. f_equal; auto. Qed.
Lemma leqb_refl a : leqb a a = true.
Proof. induction a as [|x a IH]; auto. cbn [leqb]. rewrite IH, andb_true_r. apply req_true. reflexivity. Qed.
Lemma rCheck_ok bs : rCheck bs = true -> rho_fooled exP exA exCs rCms rWs rBad rTs rTr (rHO bs).
Proof.
  unfold rCheck, rho_fooled. destruct (fold_verify (HO := rHO bs) exP rCms rBad rTs exCs) as [[lc ts']| |]; try discriminate. cbv zeta. fold rN.
  set (w := comb_wit exP rN (rhos (rHO bs) exP rTr) rWs). intros H. exists lc, ts'. split; [reflexivity|].
  apply andb_prop in H as [H H7]. apply andb_prop in H as [H H6]. apply andb_prop in H as [H H5]. apply andb_prop in H as [H H4]. apply andb_prop in H as [H H3]. apply andb_prop in H as [H1 H2].
  split.
  - split; [split|..].
    + apply from_f_coeff_consistent.
    + apply Nat.eqb_eq, H3.
    + destruct (commit exA (w_f w)); [|discriminate..]. f_equal. apply leqb_true, H4.
    + apply Nat.eqb_eq, H1.
    + apply Nat.eqb_eq, H2.
    + apply leqb_true, H5.
    + apply leqb_true, H6.
  - intros [_ E]. apply (f_equal (fun l => nth 0 l [])) in E. cbn beta in E. match type of H7 with negb (leqb ?a ?b) = true => assert (leqb a b = true) as Q; [|rewrite Q in H7; discriminate]; assert (a = b) as -> by exact E; apply leqb_refl end.
Qed.
Definition rL : list (list c4) := map (fun z => C4 a2 0 0 0 :: z) (tuples 2 rS0).
Example ex_C109 : sizes_ok 5 exP exCs /\ length rCms = (2 * dp_K exP)%nat /\ Forall (fun c => length (lc_x c) = c_l exCs) rCms /\
  fold_shape exP exCs rBad /\ rho_state exP rCms rBad rTs exCs = Ok rTr /\ Forall2 (fun c w => opens exP exA exCs (lc_cm c) w) rCms rWs /\
  (forall i bs bs', (i < 3)%nat -> In bs (tuples 3 rS0) -> In bs' (tuples 3 rS0) -> varies 0 3 i bs bs' -> unit_at 3 i (rhos (rHO bs) exP rTr) (rhos (rHO bs') exP rTr)) /\
  NoDup rL /\ length rL = (length rS0 ^ (3 - 1))%nat /\
  Forall (fun bs => In bs (tuples 3 rS0) /\ rho_fooled exP exA exCs rCms rWs rBad rTs rTr (rHO bs)) rL.
Proof.
  split; [apply ex_sizes|]. split; [reflexivity|]. split; [repeat constructor|]. split; [repeat split; repeat constructor|]. split; [vm_compute; reflexivity|].
  split.
  { assert (forall c f, length f = 4%nat -> commit exA (w_f (wit_from_f_coeff exP f : witness c4 r2)) = Ok c -> opens exP exA exCs c (wit_from_f_coeff exP f)) as Ho.
    { intros c f Hf Hc. split; [apply from_f_coeff_consistent|cbn [wit_from_f_coeff w_f]; rewrite map_length; exact Hf|exact Hc]. }
    change rWs with (decompose_witness exP (exWit xi) ++ decompose_witness exP (exWit exY)).
    constructor; [apply Ho; vm_compute; reflexivity|]. constructor; [apply Ho; vm_compute; reflexivity|]. constructor; [apply Ho; vm_compute; reflexivity|]. constructor; [apply Ho; vm_compute; reflexivity|constructor]. }
  split.
  { intros i bs bs' Hi Hb Hb' (L1 & L2 & V). apply in_tuples in Hb as [_ Fb], Hb' as [_ Fb'].
    assert (forall l, length l = 3%nat -> rhos (rHO l) exP rTr = l ++ [1]) as RH.
    { intros l Hl. destruct l as [|x1 [|x2 [|x3 [|]]]]; try discriminate. reflexivity. }
    rewrite !RH by auto. split.
    - intros k Hk Hn. destruct (Nat.eq_dec k 3) as [->|]; [rewrite !app_nth2 by lia; rewrite L1, L2; reflexivity|]. rewrite !app_nth1 by lia. apply V; [lia|exact Hn].
    - rewrite !app_nth1 by lia. rewrite Forall_forall in Fb, Fb'. pose proof (Fb (nth i bs 0) ltac:(apply nth_In; lia)) as I1. pose proof (Fb' (nth i bs' 0) ltac:(apply nth_In; lia)) as I2.
      assert (nth i bs' 0 <> nth i bs 0) as Hne by (intros E; apply (proj1 (V i Hi) E); reflexivity).
      assert (forallb (fun a => forallb (fun b => req a b || existsb (fun d => req (d * (a - b)) 1) rS0) rS0) rS0 = true) as T by (vm_compute; reflexivity).
      rewrite forallb_forall in T. specialize (T _ I2). rewrite forallb_forall in T. specialize (T _ I1). apply orb_prop in T as [T|T]; [apply req_true in T; contradiction|].
      apply existsb_exists in T as (d & _ & Hd). exists d. apply req_true, Hd. }
  split. { unfold rL. apply FinFun.Injective_map_NoDup; [intros a b E; congruence|]. apply tuples_NoDup. repeat (constructor; [cbn; intuition discriminate|]). constructor. }
  split; [reflexivity|]. apply Forall_forall. intros bs Hb. split.
  - apply in_map_iff in Hb as (z & <- & Hz). apply in_tuples in Hz as [L F]. apply in_tuples. split; [cbn [length]; congruence|]. constructor; [cbn; auto|exact F].
  - apply rCheck_ok. revert bs Hb. apply forallb_forall. vm_compute. reflexivity.
Qed.
