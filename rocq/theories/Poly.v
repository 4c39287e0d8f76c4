(** Univariate polynomials as coefficient lists (low degree first); degree bounds on
    functions; the root bound for challenges taken from a field embedded in a ring. *)
From Coq Require Import List Arith Lia ZArith Bool Ring.
From Verif Require Import Prelude Alg.
Import ListNotations.
Local Open Scope rs_scope.

Definition peval {R} {O : RingOps R} (p : list R) (x : R) : R :=
  fold_right (fun c acc => c + x * acc) 0 p.

Fixpoint padd {R} {O : RingOps R} (p q : list R) : list R :=
  match p, q with
  | [], _ => q
  | _, [] => p
  | a :: p', b :: q' => (a + b) :: padd p' q'
  end.
Definition pscale {R} {O : RingOps R} (c : R) (p : list R) : list R := map (fun a => c * a) p.
Fixpoint pmul {R} {O : RingOps R} (p q : list R) : list R :=
  match p with
  | [] => []
  | a :: p' => padd (pscale a q) (0 :: pmul p' q)
  end.

(** [f] is a polynomial function of degree at most [d]. *)
Definition deg_le {R} {O : RingOps R} (d : nat) (f : R -> R) : Prop :=
  exists p, (length p <= S d)%nat /\ forall x, f x = peval p x.

Section Poly.
Context {R : Type} {O : RingOps R} {L : RingLaws R}.
Add Ring Rring2 : (@rlaws_th R O L).

Lemma peval_padd p q x : peval (padd p q) x = peval p x + peval q x.
Proof.
  revert q; induction p as [|a p IH]; intros [|b q]; simpl; try ring.
  rewrite IH. ring.
Qed.
Lemma padd_length p q : length (padd p q) = Nat.max (length p) (length q).
Proof. revert q; induction p as [|a p IH]; intros [|b q]; simpl; auto. Qed.
Lemma peval_pscale c p x : peval (pscale c p) x = c * peval p x.
Proof. induction p; simpl; [ring|]. rewrite IHp. ring. Qed.
Lemma pscale_length c p : length (pscale c p) = length p.
Proof. apply map_length. Qed.
Lemma peval_pmul p q x : peval (pmul p q) x = peval p x * peval q x.
Proof.
  induction p as [|a p IH]; simpl; [ring|].
  rewrite peval_padd, peval_pscale. simpl. rewrite IH. ring.
Qed.
Lemma pmul_length p q : (length (pmul p q) <= length p + length q - 1)%nat \/ p = [] \/ q = [].
Proof.
  induction p as [|a p IH]; simpl; auto.
  destruct q as [|b q]; auto. left.
  rewrite padd_length, pscale_length. simpl.
  destruct IH as [IH|[IH|IH]]; [|subst; simpl; lia|discriminate].
  simpl in IH. destruct (pmul p (b :: q)); simpl in *; lia.
Qed.
Lemma peval_all_zero p x : Forall (eq 0) p -> peval p x = 0.
Proof. induction 1; simpl; auto. subst. rewrite IHForall. ring. Qed.
Lemma peval_sum p x : peval p x = sumn (length p) (fun i => nth i p 0 * rpow x i).
Proof.
  induction p as [|a p IH]; auto.
  cbn [length]. rewrite sumn_S_first. simpl. rewrite IH, <- sumn_mul_l.
  f_equal. ring. apply sumn_ext. intros. ring.
Qed.

Lemma deg_le_ext d f g : (forall x, f x = g x) -> deg_le d f -> deg_le d g.
Proof. intros E (p & Hp & H). exists p. split; auto. intros. rewrite <- E. auto. Qed.
Lemma deg_le_mono d e f : (d <= e)%nat -> deg_le d f -> deg_le e f.
Proof. intros E (p & Hp & H). exists p. split; auto. lia. Qed.
Lemma deg_le_const c d : deg_le d (fun _ : R => c).
Proof. exists [c]. split; simpl; [lia|]. intros; ring. Qed.
Lemma deg_le_id : deg_le 1 (fun x : R => x).
Proof. exists [0; 1]. split; simpl; [lia|]. intros; ring. Qed.
Lemma deg_le_affine (a b : R) : deg_le 1 (fun x : R => a + x * b).
Proof. exists [a; b]. split; simpl; [lia|]. intros; ring. Qed.
Lemma deg_le_add d f g : deg_le d f -> deg_le d g -> deg_le d (fun x => f x + g x).
Proof.
  intros (p & Hp & Ep) (q & Hq & Eq). exists (padd p q).
  rewrite padd_length. split; [lia|]. intros. rewrite peval_padd, Ep, Eq. auto.
Qed.
Lemma deg_le_scale d c f : deg_le d f -> deg_le d (fun x => c * f x).
Proof.
  intros (p & Hp & Ep). exists (pscale c p).
  rewrite pscale_length. split; [lia|]. intros. rewrite peval_pscale, Ep. auto.
Qed.
Lemma deg_le_opp d f : deg_le d f -> deg_le d (fun x => - f x).
Proof.
  intros H. apply deg_le_ext with (fun x => (- (1)) * f x). intros; ring.
  apply deg_le_scale; auto.
Qed.
Lemma deg_le_sub d f g : deg_le d f -> deg_le d g -> deg_le d (fun x => f x - g x).
Proof.
  intros Hf Hg. apply deg_le_ext with (fun x => f x + (- g x)). intros; ring.
  apply deg_le_add; auto. apply deg_le_opp; auto.
Qed.
Lemma deg_le_mul d e f g : deg_le d f -> deg_le e g -> deg_le (d + e) (fun x => f x * g x).
Proof.
  intros (p & Hp & Ep) (q & Hq & Eq). exists (pmul p q). split.
  - destruct (pmul_length p q) as [H|[H|H]]; subst; simpl; try lia.
    destruct p as [|a p]; [simpl; lia|]. 
    assert (length (pmul (a :: p) []) <= length (a :: p))%nat; [|lia].
    clear. induction (a :: p) as [|b l IH]; simpl; auto. lia.
  - intros. rewrite peval_pmul, Ep, Eq. auto.
Qed.
Lemma deg_le_sumn d n (f : nat -> R -> R) :
  (forall i, (i < n)%nat -> deg_le d (f i)) -> deg_le d (fun x => sumn n (fun i => f i x)).
Proof.
  induction n; simpl; intros H.
  - apply deg_le_const.
  - apply deg_le_add; auto.
Qed.
Lemma deg_le_lsum {A} d (l : list A) (f : A -> R -> R) :
  (forall a, In a l -> deg_le d (f a)) -> deg_le d (fun x => lsum (map (fun a => f a x) l)).
Proof.
  induction l; simpl; intros H.
  - apply deg_le_const.
  - apply deg_le_add; auto.
Qed.
Lemma deg_le_prodn d n (f : nat -> R -> R) :
  (forall i, (i < n)%nat -> deg_le d (f i)) -> deg_le (n * d) (fun x => prodn n (fun i => f i x)).
Proof.
  induction n; simpl; intros H.
  - apply deg_le_const.
  - rewrite Nat.add_comm. apply deg_le_mul; auto.
Qed.
Lemma deg_le_lprod {A} d (l : list A) (f : A -> R -> R) :
  (forall a, In a l -> deg_le d (f a)) ->
  deg_le (length l * d) (fun x => lprod (map (fun a => f a x) l)).
Proof.
  induction l; simpl; intros H.
  - apply deg_le_const.
  - apply deg_le_mul; auto.
Qed.
Lemma deg_le_pow d n f : deg_le d f -> deg_le (n * d) (fun x => rpow (f x) n).
Proof.
  intros H. induction n; simpl.
  - apply deg_le_const.
  - apply deg_le_mul; auto.
Qed.
End Poly.

(** Synthetic division by [X - a]: quotient and remainder. *)
Fixpoint pdiv {R} {O : RingOps R} (p : list R) (a : R) : list R * R :=
  match p with
  | [] => ([], 0)
  | [c] => ([], c)
  | c :: p' => let '(q, r) := pdiv p' a in (r :: q, c + a * r)
  end.

Section Roots.
Context {K R : Type} {OK : FieldOps K} {LK : FieldLaws K} {OR : RingOps R} {LR : RingLaws R}.
Context (emb : K -> R) (Hemb : ring_hom emb).
Add Ring Rring3 : (@rlaws_th R OR LR).
Add Ring Kring3 : (@rlaws_th K _ _).

Lemma pdiv_spec p a : snd (pdiv p a) = peval p a /\
  length (fst (pdiv p a)) = pred (length p) /\
  forall x, peval p x = (x - a) * peval (fst (pdiv p a)) x + snd (pdiv p a).
Proof.
  induction p as [|c p IH]; [simpl; repeat split; auto; intros; ring|].
  destruct p as [|c' p].
  - simpl. repeat split; auto; intros; ring.
  - change (pdiv (c :: c' :: p) a) with
      (let '(q, r) := pdiv (c' :: p) a in (r :: q, c + a * r)).
    destruct (pdiv (c' :: p) a) as [q r]. simpl in IH. destruct IH as (E1 & E2 & E3).
    simpl fst. simpl snd. repeat split.
    + simpl. rewrite E1. reflexivity.
    + simpl in *. lia.
    + intros x. simpl peval at 1. rewrite E3. simpl. ring.
Qed.

Lemma pdiv_zero p a : Forall (eq 0) (fst (pdiv p a)) -> snd (pdiv p a) = 0 -> Forall (eq 0) p.
Proof.
  induction p as [|c p IH]; auto.
  destruct p as [|c' p].
  - simpl. auto.
  - change (pdiv (c :: c' :: p) a) with
      (let '(q, r) := pdiv (c' :: p) a in (r :: q, c + a * r)).
    destruct (pdiv (c' :: p) a) as [q r]. simpl fst in *. simpl snd in *.
    intros H1 H2. inversion H1 as [|? ? E1 E2]; subst.
    constructor; [|apply IH; auto]. rewrite <- H2. ring.
Qed.

Lemma emb_unit (a : K) : a <> 0 -> emb a * emb (finv a) = 1.
Proof. intros. rewrite <- (hom_mul _ Hemb), finv_r, (hom_1 _ Hemb); auto. Qed.

Lemma emb_cancel (a : K) (x : R) : a <> 0 -> emb a * x = 0 -> x = 0.
Proof.
  intros Ha H. replace x with (emb (finv a) * (emb a * x)).
  - rewrite H. ring.
  - replace (emb (finv a) * (emb a * x)) with (emb a * emb (finv a) * x) by ring.
    rewrite emb_unit by auto. ring.
Qed.

Lemma emb_inj (H01 : (1 : R) <> 0) (a b : K) : emb a = emb b -> a = b.
Proof.
  intros E. destruct (req_dec a b) as [|N]; auto. exfalso.
  assert (a - b <> 0) as H by (rewrite rsub_0_iff; auto).
  apply H01. rewrite <- (emb_unit _ H), (hom_sub _ Hemb), E. ring.
Qed.

(** A polynomial with at least as many roots among embedded distinct field elements as
    coefficients is zero. *)
Theorem root_bound p (xs : list K) :
  NoDup xs -> (length p <= length xs)%nat ->
  (forall x, In x xs -> peval p (emb x) = 0) -> Forall (eq 0) p.
Proof.
  revert p; induction xs as [|a xs IH]; intros p Hnd Hlen Hr.
  - destruct p; [constructor|simpl in Hlen; lia].
  - inversion Hnd as [|? ? Hna Hnd']; subst.
    destruct (pdiv_spec p (emb a)) as (E1 & E2 & E3).
    assert (snd (pdiv p (emb a)) = 0) as Hz by (rewrite E1; apply Hr; left; auto).
    apply pdiv_zero with (emb a); auto.
    apply IH; auto; [simpl in Hlen; lia|].
    intros x Hx. apply emb_cancel with (x - a).
    + rewrite rsub_0_iff. intros ->. contradiction.
    + rewrite (hom_sub _ Hemb).
      specialize (E3 (emb x)). rewrite Hz, (Hr x) in E3 by (right; auto).
      transitivity ((emb x - emb a) * peval (fst (pdiv p (emb a))) (emb x) + 0); [ring|auto].
Qed.

(** Two functions of degree at most [d] that agree at [d+1] distinct embedded points
    agree everywhere. *)
Theorem deg_le_agree d (f g : R -> R) (xs : list K) :
  deg_le d f -> deg_le d g -> NoDup xs -> (d < length xs)%nat ->
  (forall x, In x xs -> f (emb x) = g (emb x)) -> forall y, f y = g y.
Proof.
  intros (p & Hp & Ep) (q & Hq & Eq) Hnd Hl H y.
  assert (Forall (eq 0) (padd p (pscale (- (1)) q))) as Hz.
  { apply root_bound with xs; auto.
    - rewrite padd_length, pscale_length. lia.
    - intros x Hx. rewrite peval_padd, peval_pscale, <- Ep, <- Eq, H by auto. ring. }
  apply peval_all_zero with (x := y) in Hz.
  rewrite peval_padd, peval_pscale, <- Ep, <- Eq in Hz.
  apply rsub_0_iff. rewrite <- Hz. ring.
Qed.

(** Counting form: two distinct functions of degree at most [d] agree on at most [d]
    embedded points. *)
Theorem deg_le_agree_count d (f g : R -> R) (xs : list K) y :
  deg_le d f -> deg_le d g -> f y <> g y -> NoDup xs ->
  (forall x, In x xs -> f (emb x) = g (emb x)) -> (length xs <= d)%nat.
Proof.
  intros Hf Hg Hy Hnd H.
  destruct (Nat.le_gt_cases (length xs) d) as [|Hl]; auto.
  exfalso. apply Hy. eapply deg_le_agree; eauto.
Qed.
End Roots.

Lemma ring_hom_id {R} {O : RingOps R} : ring_hom (fun x : R => x).
Proof. constructor; auto. Qed.
