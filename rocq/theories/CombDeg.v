(** Degree bookkeeping for sumcheck combination functions. *)
From Coq Require Import List Arith Lia ZArith Bool Ring.
From Verif Require Import Prelude Alg Poly MLE MLE_Proofs Sumcheck Sumcheck_Proofs.
Import ListNotations.
Local Open Scope rs_scope.

Section CombDeg.
Context {R : Type} {RO : RingOps R} {LR : RingLaws R}.
Add Ring Rring10 : (@rlaws_th R RO LR).

Lemma comb_deg_ext n d (f g : list R -> R) :
  (forall v, length v = n -> f v = g v) -> comb_deg n d f -> comb_deg n d g.
Proof.
  intros H Hf a s Ha Hs. eapply deg_le_ext; [|apply (Hf a s); auto].
  intros y. cbn beta. apply H. rewrite zipw_length. lia.
Qed.
Lemma comb_deg_mono n d e (f : list R -> R) : (d <= e)%nat -> comb_deg n d f -> comb_deg n e f.
Proof. intros H Hf a s Ha Hs. eapply deg_le_mono; eauto. Qed.
Lemma comb_deg_const n d (c : R) : comb_deg n d (fun _ => c).
Proof. intros a s _ _. apply deg_le_const. Qed.
Lemma comb_deg_nth n i : comb_deg n 1 (fun v : list R => nth i v 0).
Proof.
  intros a s Ha Hs. destruct (Nat.lt_ge_cases i n).
  - eapply deg_le_ext; [|apply (deg_le_affine (nth i a 0) (nth i s 0))].
    intros y. cbn beta. rewrite (nth_zipw _ _ _ _ 0 0) by lia. auto.
  - eapply deg_le_ext; [|apply (deg_le_const 0)].
    intros y. cbn beta. rewrite nth_overflow; auto. rewrite zipw_length. lia.
Qed.
Lemma comb_deg_add n d (f g : list R -> R) :
  comb_deg n d f -> comb_deg n d g -> comb_deg n d (fun v => f v + g v).
Proof. intros Hf Hg a s Ha Hs. apply deg_le_add; [apply Hf|apply Hg]; auto. Qed.
Lemma comb_deg_sub n d (f g : list R -> R) :
  comb_deg n d f -> comb_deg n d g -> comb_deg n d (fun v => f v - g v).
Proof. intros Hf Hg a s Ha Hs. apply deg_le_sub; [apply Hf|apply Hg]; auto. Qed.
Lemma comb_deg_mul n d e (f g : list R -> R) :
  comb_deg n d f -> comb_deg n e g -> comb_deg n (d + e) (fun v => f v * g v).
Proof. intros Hf Hg a s Ha Hs. apply deg_le_mul; [apply Hf|apply Hg]; auto. Qed.
Lemma comb_deg_scale n d c (f : list R -> R) : comb_deg n d f -> comb_deg n d (fun v => c * f v).
Proof. intros Hf a s Ha Hs. apply deg_le_scale. apply Hf; auto. Qed.
Lemma comb_deg_sumn n d k (f : nat -> list R -> R) :
  (forall i, (i < k)%nat -> comb_deg n d (f i)) -> comb_deg n d (fun v => sumn k (fun i => f i v)).
Proof. intros H a s Ha Hs. apply (deg_le_sumn d k (fun i y => f i _)). intros. apply H; auto. Qed.
Lemma comb_deg_prodn n d k (f : nat -> list R -> R) :
  (forall i, (i < k)%nat -> comb_deg n d (f i)) -> comb_deg n (k * d) (fun v => prodn k (fun i => f i v)).
Proof. intros H a s Ha Hs. apply (deg_le_prodn d k (fun i y => f i _)). intros. apply H; auto. Qed.
Lemma comb_deg_lprod n {A} d (l : list A) (f : A -> list R -> R) :
  (forall i, In i l -> comb_deg n d (f i)) -> comb_deg n (length l * d) (fun v => lprod (map (fun i => f i v) l)).
Proof. intros H a s Ha Hs. apply (deg_le_lprod d l (fun i y => f i _)). intros. apply H; auto. Qed.
Lemma comb_deg_pow n d k (f : list R -> R) : comb_deg n d f -> comb_deg n (k * d) (fun v => rpow (f v) k).
Proof. intros Hf a s Ha Hs. apply (deg_le_pow d k (fun y => f _)). apply Hf; auto. Qed.
End CombDeg.
