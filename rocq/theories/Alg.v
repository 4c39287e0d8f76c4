(** Rings and fields as operation records plus separate laws, finite sums, vectors. *)
From Coq Require Import List Arith Lia ZArith Bool Ring Ring_theory InitialRing Setoid.
From Verif Require Import Prelude.
Import ListNotations.

(** Operations of the Rust [Ring] trait (stark-rings, external) that the code uses. *)
Class RingOps (R : Type) := {
  rzero : R; rone : R;
  radd : R -> R -> R; rmul : R -> R -> R; rsub : R -> R -> R; ropp : R -> R;
  req : R -> R -> bool
}.

Class RingLaws (R : Type) {O : RingOps R} : Prop := {
  rlaws_th : ring_theory rzero rone radd rmul rsub ropp (@eq R);
  req_true : forall x y : R, req x y = true <-> x = y
}.

Declare Scope rs_scope.
Delimit Scope rs_scope with rs.
Notation "0" := rzero : rs_scope.
Notation "1" := rone : rs_scope.
Infix "+" := radd : rs_scope.
Infix "*" := rmul : rs_scope.
Infix "-" := rsub : rs_scope.
Notation "- x" := (ropp x) : rs_scope.
Infix "=?" := req : rs_scope.

(** [Field] trait: multiplicative inverse ([inverse().unwrap()] on nonzero elements). *)
Class FieldOps (K : Type) := { fld_ring :> RingOps K; finv : K -> K }.
Class FieldLaws (K : Type) {O : FieldOps K} : Prop := {
  fld_laws :> RingLaws K;
  finv_r : forall x : K, x <> rzero -> rmul x (finv x) = rone;
  f_1_neq_0 : (rone : K) <> rzero
}.

(** [R::from(u128)], [R::from(i16)], ... : image of an integer. *)
Definition rofZ {R} {O : RingOps R} (z : Z) : R :=
  gen_phiZ rzero rone radd rmul ropp z.
Definition rofn {R} {O : RingOps R} (n : nat) : R := rofZ (Z.of_nat n).

(** [x.pow([n])] *)
Fixpoint rpow {R} {O : RingOps R} (x : R) (n : nat) : R :=
  match n with O => rone | S k => rmul x (rpow x k) end.

(** [.sum()] and [.product()] over a list. *)
Definition lsum {R} {O : RingOps R} (l : list R) : R := fold_right radd rzero l.
Definition lprod {R} {O : RingOps R} (l : list R) : R := fold_right rmul rone l.

(** Specification-level finite sum and product over [0 .. n-1]. *)
Fixpoint sumn {R} {O : RingOps R} (n : nat) (f : nat -> R) : R :=
  match n with O => rzero | S k => radd (sumn k f) (f k) end.
Fixpoint prodn {R} {O : RingOps R} (n : nat) (f : nat -> R) : R :=
  match n with O => rone | S k => rmul (prodn k f) (f k) end.

Record ring_hom {A B} {OA : RingOps A} {OB : RingOps B} (f : A -> B) : Prop := {
  hom_0 : f rzero = rzero;
  hom_1 : f rone = rone;
  hom_add : forall x y, f (radd x y) = radd (f x) (f y);
  hom_mul : forall x y, f (rmul x y) = rmul (f x) (f y);
  hom_opp : forall x, f (ropp x) = ropp (f x);
  hom_sub : forall x y, f (rsub x y) = rsub (f x) (f y)
}.

Local Open Scope rs_scope.

Section RingFacts.
Context {R : Type} {O : RingOps R} {L : RingLaws R}.
Add Ring Rring0 : (@rlaws_th R O L).

Lemma req_refl (x : R) : (x =? x) = true.
Proof. apply req_true; auto. Qed.
Lemma req_false (x y : R) : (x =? y) = false <-> x <> y.
Proof.
  split.
  - intros H E. apply req_true in E. congruence.
  - intros H. destruct (x =? y) eqn:E; auto. apply req_true in E. contradiction.
Qed.
Lemma req_dec (x y : R) : {x = y} + {x <> y}.
Proof. destruct (x =? y) eqn:E; [left; apply req_true | right; apply req_false]; auto. Qed.

Lemma rmul_0_l (x : R) : 0 * x = 0. Proof. ring. Qed.
Lemma rmul_0_r (x : R) : x * 0 = 0. Proof. ring. Qed.
Lemma radd_0_l (x : R) : 0 + x = x. Proof. ring. Qed.
Lemma radd_0_r (x : R) : x + 0 = x. Proof. ring. Qed.
Lemma rmul_1_l (x : R) : 1 * x = x. Proof. ring. Qed.
Lemma rmul_1_r (x : R) : x * 1 = x. Proof. ring. Qed.
Lemma rsub_diag (x : R) : x - x = 0. Proof. ring. Qed.
Lemma rsub_0_iff (x y : R) : x - y = 0 <-> x = y.
Proof.
  split; intros H.
  - replace x with (x - y + y) by ring. rewrite H. ring.
  - subst. ring.
Qed.
Lemma radd_cancel_l (x y z : R) : x + y = x + z -> y = z.
Proof. intros H. replace y with (x + y - x) by ring. rewrite H. ring. Qed.

(** *** integers *)
Lemma rofZ_morph :
  ring_morph rzero rone radd rmul rsub ropp (@eq R)
    0%Z 1%Z Z.add Z.mul Z.sub Z.opp Zeq_bool rofZ.
Proof.
  unfold rofZ. apply gen_phiZ_morph.
  - apply Eqsth.
  - apply Eq_ext.
  - apply rlaws_th.
Qed.
Lemma rofZ_0 : rofZ 0 = (0 : R). Proof. apply (morph0 rofZ_morph). Qed.
Lemma rofZ_1 : rofZ 1 = (1 : R). Proof. apply (morph1 rofZ_morph). Qed.
Lemma rofZ_add a b : rofZ (a + b) = (rofZ a + rofZ b : R). Proof. apply (morph_add rofZ_morph). Qed.
Lemma rofZ_mul a b : rofZ (a * b) = (rofZ a * rofZ b : R). Proof. apply (morph_mul rofZ_morph). Qed.
Lemma rofZ_sub a b : rofZ (a - b) = (rofZ a - rofZ b : R). Proof. apply (morph_sub rofZ_morph). Qed.
Lemma rofZ_opp a : rofZ (- a) = (- rofZ a : R). Proof. apply (morph_opp rofZ_morph). Qed.
Lemma rofn_0 : rofn 0 = (0 : R). Proof. apply rofZ_0. Qed.
Lemma rofn_1 : rofn 1 = (1 : R). Proof. apply rofZ_1. Qed.
Lemma rofn_S n : rofn (S n) = (rofn n + 1 : R).
Proof. unfold rofn. rewrite Nat2Z.inj_succ, <- Z.add_1_r, rofZ_add, rofZ_1. reflexivity. Qed.
Lemma rofn_add a b : rofn (a + b) = (rofn a + rofn b : R).
Proof. unfold rofn. rewrite Nat2Z.inj_add. apply rofZ_add. Qed.
Lemma rofn_mul a b : rofn (a * b) = (rofn a * rofn b : R).
Proof. unfold rofn. rewrite Nat2Z.inj_mul. apply rofZ_mul. Qed.
Lemma rofn_sub a b : (b <= a)%nat -> rofn (a - b) = (rofn a - rofn b : R).
Proof. intros. unfold rofn. rewrite Nat2Z.inj_sub by auto. apply rofZ_sub. Qed.

(** *** powers *)
Lemma rpow_add x a b : rpow x (a + b) = rpow x a * rpow x b.
Proof. induction a; simpl; [ring|]. rewrite IHa. ring. Qed.
Lemma rpow_mul_base x y n : rpow (x * y) n = rpow x n * rpow y n.
Proof. induction n; simpl; [ring|]. rewrite IHn. ring. Qed.
Lemma rpow_mul x a b : rpow x (a * b) = rpow (rpow x a) b.
Proof.
  induction b; simpl.
  - rewrite Nat.mul_0_r. reflexivity.
  - rewrite Nat.mul_succ_r, Nat.add_comm, rpow_add, IHb. reflexivity.
Qed.
Lemma rpow_1 x : rpow x 1 = x. Proof. simpl. ring. Qed.
Lemma rpow_one n : rpow (1:R) n = 1. Proof. induction n; simpl; auto. rewrite IHn; ring. Qed.
Lemma rofZ_pow a n : rofZ (a ^ Z.of_nat n) = (rpow (rofZ a) n : R).
Proof.
  induction n.
  - simpl. apply rofZ_1.
  - rewrite Nat2Z.inj_succ, Z.pow_succ_r by lia. rewrite rofZ_mul, IHn. reflexivity.
Qed.

(** *** finite sums *)
Lemma sumn_ext n f g : (forall i, (i < n)%nat -> f i = g i) -> sumn n f = (sumn n g : R).
Proof.
  induction n; simpl; intros H; auto. rewrite IHn, H by auto. reflexivity.
Qed.
Lemma sumn_0 n f : (forall i, (i < n)%nat -> f i = 0) -> sumn n f = (0 : R).
Proof. induction n; simpl; intros H; auto. rewrite IHn, H by auto. ring. Qed.
Lemma sumn_add n f g : sumn n (fun i => f i + g i) = sumn n f + sumn n g.
Proof. induction n; simpl; [ring|]. rewrite IHn. ring. Qed.
Lemma sumn_sub n f g : sumn n (fun i => f i - g i) = sumn n f - sumn n g.
Proof. induction n; simpl; [ring|]. rewrite IHn. ring. Qed.
Lemma sumn_mul_l n c f : sumn n (fun i => c * f i) = c * sumn n f.
Proof. induction n; simpl; [ring|]. rewrite IHn. ring. Qed.
Lemma sumn_mul_r n c f : sumn n (fun i => f i * c) = sumn n f * c.
Proof. induction n; simpl; [ring|]. rewrite IHn. ring. Qed.
Lemma sumn_swap n m (f : nat -> nat -> R) :
  sumn n (fun i => sumn m (fun j => f i j)) = sumn m (fun j => sumn n (fun i => f i j)).
Proof.
  induction n; simpl.
  - symmetry. apply sumn_0; auto.
  - rewrite IHn, <- sumn_add. reflexivity.
Qed.
Lemma sumn_split a b (f : nat -> R) : sumn (a + b) f = sumn a f + sumn b (fun i => f (a + i)%nat).
Proof.
  induction b; simpl.
  - rewrite Nat.add_0_r. ring.
  - rewrite Nat.add_succ_r. simpl. rewrite IHb. ring.
Qed.
Lemma sumn_S_first n (f : nat -> R) : sumn (S n) f = f 0%nat + sumn n (fun i => f (S i)).
Proof. change (S n) with (1 + n)%nat. rewrite sumn_split. simpl. ring. Qed.
Lemma sumn_single n k (f : nat -> R) :
  (k < n)%nat -> (forall i, (i < n)%nat -> i <> k -> f i = 0) -> sumn n f = f k.
Proof.
  induction n; simpl; intros Hk H; [lia|].
  destruct (Nat.eq_dec k n) as [->|Hn].
  - rewrite sumn_0; [ring|]. intros. apply H; lia.
  - rewrite IHn, (H n) by (try lia; intros; apply H; lia). ring.
Qed.
(** pairing of even and odd indices *)
Lemma sumn_pairs n (f : nat -> R) :
  sumn (2 * n) f = sumn n (fun i => f (2 * i)%nat + f (2 * i + 1)%nat).
Proof.
  induction n; auto.
  replace (2 * S n)%nat with (2 * n + 2)%nat by lia.
  rewrite sumn_split, IHn. cbn [sumn].
  rewrite Nat.add_0_r. ring.
Qed.
(** grouping in blocks *)
Lemma sumn_blocks n m (f : nat -> R) :
  sumn (n * m) f = sumn n (fun i => sumn m (fun j => f (i * m + j)%nat)).
Proof.
  induction n; simpl; auto.
  rewrite Nat.add_comm, sumn_split, IHn. reflexivity.
Qed.

Lemma lsum_app l m : lsum (l ++ m) = lsum l + lsum m.
Proof. induction l; simpl; [ring|]. rewrite IHl. ring. Qed.
Lemma lprod_app l m : lprod (l ++ m) = lprod l * lprod m.
Proof. induction l; simpl; [ring|]. rewrite IHl. ring. Qed.
Lemma lsum_nth l : lsum l = sumn (length l) (fun i => nth i l 0).
Proof.
  induction l as [|a l IH]; auto.
  cbn [lsum fold_right length]. change (fold_right radd 0 l) with (lsum l).
  rewrite sumn_S_first, IH. reflexivity.
Qed.
Lemma lsum_map_seq n (f : nat -> R) : lsum (map f (seq 0 n)) = sumn n f.
Proof.
  rewrite lsum_nth, map_length, seq_length. apply sumn_ext. intros. apply nth_seq_map; auto.
Qed.
Lemma lsum_map_add {A} (f g : A -> R) l :
  lsum (map (fun a => f a + g a) l) = lsum (map f l) + lsum (map g l).
Proof. induction l; simpl; [ring|]. rewrite IHl. ring. Qed.
Lemma lsum_map_mul_l {A} c (f : A -> R) l :
  lsum (map (fun a => c * f a) l) = c * lsum (map f l).
Proof. induction l; simpl; [ring|]. rewrite IHl. ring. Qed.
Lemma lsum_map_mul_r {A} c (f : A -> R) l :
  lsum (map (fun a => f a * c) l) = lsum (map f l) * c.
Proof. induction l; simpl; [ring|]. rewrite IHl. ring. Qed.
Lemma lsum_map_sumn {A} n (f : A -> nat -> R) l :
  lsum (map (fun a => sumn n (f a)) l) = sumn n (fun i => lsum (map (fun a => f a i) l)).
Proof.
  induction l; simpl.
  - symmetry. apply sumn_0; auto.
  - rewrite IHl, <- sumn_add. reflexivity.
Qed.
Lemma lsum_repeat_0 n : lsum (repeat 0 n) = (0:R).
Proof. induction n; simpl; auto. rewrite IHn. ring. Qed.
Lemma lsum_all_0 l : (forall x, In x l -> x = 0) -> lsum l = (0:R).
Proof. induction l; simpl; intros H; auto. rewrite IHl, (H a) by auto. ring. Qed.
Lemma fold_left_add_lsum l (a : R) : fold_left radd l a = a + lsum l.
Proof. revert a; induction l; simpl; intros; [ring|]. rewrite IHl. ring. Qed.

Lemma prodn_ext n f g : (forall i, (i < n)%nat -> f i = g i) -> prodn n f = (prodn n g : R).
Proof.
  induction n; simpl; intros H; auto. rewrite IHn, H by auto. reflexivity.
Qed.
Lemma prodn_mul n f g : prodn n (fun i => f i * g i) = prodn n f * prodn n g.
Proof. induction n; simpl; [ring|]. rewrite IHn. ring. Qed.
Lemma prodn_S_first n (f : nat -> R) : prodn (S n) f = f 0%nat * prodn n (fun i => f (S i)).
Proof. induction n; simpl in *; [ring|]. rewrite IHn. ring. Qed.
Lemma prodn_split a b (f : nat -> R) :
  prodn (a + b) f = prodn a f * prodn b (fun i => f (a + i)%nat).
Proof.
  induction b; simpl.
  - rewrite Nat.add_0_r. ring.
  - rewrite Nat.add_succ_r. simpl. rewrite IHb. ring.
Qed.
Lemma lprod_nth l : lprod l = prodn (length l) (fun i => nth i l 1).
Proof.
  induction l as [|a l IH]; auto.
  cbn [lprod fold_right length]. change (fold_right rmul 1 l) with (lprod l).
  rewrite prodn_S_first, IH. reflexivity.
Qed.
Lemma prodn_zero n (f : nat -> R) k : (k < n)%nat -> f k = 0 -> prodn n f = 0.
Proof.
  induction n; simpl; intros Hk H; [lia|].
  destruct (Nat.eq_dec k n) as [->|Hn].
  - rewrite H. ring.
  - rewrite IHn by (auto; lia). ring.
Qed.
End RingFacts.

Section HomFacts.
Context {A B : Type} {OA : RingOps A} {OB : RingOps B} {LA : RingLaws A} {LB : RingLaws B}.
Context (f : A -> B) (Hf : ring_hom f).
Lemma hom_sumn n g : f (sumn n g) = sumn n (fun i => f (g i)).
Proof. induction n; simpl. apply Hf. rewrite (hom_add _ Hf), IHn. reflexivity. Qed.
Lemma hom_prodn n g : f (prodn n g) = prodn n (fun i => f (g i)).
Proof. induction n; simpl. apply Hf. rewrite (hom_mul _ Hf), IHn. reflexivity. Qed.
Lemma hom_lsum l : f (lsum l) = lsum (map f l).
Proof. induction l; simpl. apply Hf. rewrite (hom_add _ Hf), IHl. reflexivity. Qed.
Lemma hom_lprod l : f (lprod l) = lprod (map f l).
Proof. induction l; simpl. apply Hf. rewrite (hom_mul _ Hf), IHl. reflexivity. Qed.
Lemma hom_pow x n : f (rpow x n) = rpow (f x) n.
Proof. induction n; simpl. apply Hf. rewrite (hom_mul _ Hf), IHn. reflexivity. Qed.
Lemma hom_ofn n : f (rofn n) = rofn n.
Proof.
  induction n.
  - rewrite !rofn_0. apply Hf.
  - rewrite !rofn_S, (hom_add _ Hf), (hom_1 _ Hf), IHn. reflexivity.
Qed.
Lemma hom_ofZ z : f (rofZ z) = rofZ z.
Proof.
  destruct (Z_le_gt_dec 0%Z z) as [E|E].
  - rewrite <- (Z2Nat.id z) by lia. apply hom_ofn.
  - replace z with (- Z.of_nat (Z.to_nat (- z)))%Z by lia.
    rewrite !rofZ_opp, (hom_opp _ Hf). f_equal. apply hom_ofn.
Qed.
End HomFacts.

Section FieldFacts.
Context {K : Type} {O : FieldOps K} {L : FieldLaws K}.
Add Ring Kring0 : (@rlaws_th K _ _).
Lemma fmul_eq_0 (x y : K) : x * y = 0 -> x = 0 \/ y = 0.
Proof.
  intros H. destruct (req_dec x 0) as [|Hx]; auto. right.
  replace y with (x * finv x * y).
  - replace (x * finv x * y) with (x * y * finv x) by ring. rewrite H. ring.
  - rewrite finv_r by auto. ring.
Qed.
Lemma fmul_neq_0 (x y : K) : x <> 0 -> y <> 0 -> x * y <> 0.
Proof. intros Hx Hy H. apply fmul_eq_0 in H as []; auto. Qed.
Lemma fpow_neq_0 (x : K) n : x <> 0 -> rpow x n <> 0.
Proof. intros. induction n; simpl. apply f_1_neq_0. apply fmul_neq_0; auto. Qed.
Lemma fprodn_neq_0 n (f : nat -> K) : (forall i, (i < n)%nat -> f i <> 0) -> prodn n f <> 0.
Proof.
  induction n; simpl; intros H. apply f_1_neq_0. apply fmul_neq_0; auto.
Qed.
Lemma fprodn_eq_0 n (f : nat -> K) : prodn n f = 0 -> exists i, (i < n)%nat /\ f i = 0.
Proof.
  induction n; simpl; intros H.
  - exfalso. apply (f_1_neq_0 (K:=K)). auto.
  - apply fmul_eq_0 in H as [H|H]; [|eauto].
    destruct (IHn H) as (i & Hi & E). exists i. split; auto.
Qed.
Lemma fmul_cancel_l (x y z : K) : x <> 0 -> x * y = x * z -> y = z.
Proof.
  intros Hx H.
  assert (x * (y - z) = 0) as E by (replace (x * (y - z)) with (x*y - x*z) by ring; rewrite H; ring).
  apply fmul_eq_0 in E as [|E]; [contradiction|]. apply rsub_0_iff; auto.
Qed.
Lemma finv_neq_0 (x : K) : x <> 0 -> finv x <> 0.
Proof.
  intros Hx E. apply (f_1_neq_0 (K:=K)). rewrite <- (finv_r x Hx), E. ring.
Qed.
End FieldFacts.

(** Characteristic larger than [n]: the integers 1..n are nonzero. *)
Definition char_gt (K : Type) {O : RingOps K} (n : nat) : Prop :=
  forall i, (1 <= i <= n)%nat -> (rofn i : K) <> rzero.

(** ** Vectors *)
Definition vadd {R} {O : RingOps R} (a b : list R) : list R := zipw radd a b.
Definition vsub {R} {O : RingOps R} (a b : list R) : list R := zipw rsub a b.
Definition vscale {R} {O : RingOps R} (c : R) (a : list R) : list R := map (fun x => x * c) a.
Definition dot {R} {O : RingOps R} (a b : list R) : R := lsum (zipw rmul a b).

Fixpoint leqb {R} {O : RingOps R} (a b : list R) : bool :=
  match a, b with
  | [], [] => true
  | x :: a', y :: b' => (x =? y) && leqb a' b'
  | _, _ => false
  end.

Section VecFacts.
Context {R : Type} {O : RingOps R} {L : RingLaws R}.
Add Ring Rring1 : (@rlaws_th R O L).
Lemma leqb_true a b : leqb a b = true <-> a = b.
Proof.
  revert b; induction a as [|x a IH]; intros [|y b]; simpl; split; intros H; try discriminate; auto.
  - apply andb_prop in H as [H1 H2]. apply req_true in H1. apply IH in H2. congruence.
  - injection H as -> ->. rewrite req_refl. apply IH. auto.
Qed.
Lemma leqb_refl a : leqb a a = true. Proof. apply leqb_true; auto. Qed.
Lemma leqb_false a b : leqb a b = false <-> a <> b.
Proof.
  split.
  - intros H E. apply leqb_true in E. congruence.
  - intros H. destruct (leqb a b) eqn:E; auto. apply leqb_true in E. contradiction.
Qed.
Lemma vadd_length a b : length (vadd a b) = Nat.min (length a) (length b).
Proof. apply zipw_length. Qed.
Lemma nth_vadd a b i : length a = length b -> nth i (vadd a b) 0 = nth i a 0 + nth i b 0.
Proof.
  intros H. destruct (Nat.lt_ge_cases i (length a)).
  - unfold vadd. rewrite (nth_zipw _ _ _ _ 0 0) by lia. reflexivity.
  - rewrite !nth_overflow; try lia. ring. rewrite vadd_length. lia.
Qed.
Lemma nth_vscale c a i : nth i (vscale c a) 0 = nth i a 0 * c.
Proof.
  destruct (Nat.lt_ge_cases i (length a)).
  - unfold vscale. rewrite (nth_map_lt _ _ _ 0) by lia. reflexivity.
  - rewrite !nth_overflow; try lia. ring. unfold vscale. rewrite map_length. lia.
Qed.
Lemma dot_nth a b : dot a b = sumn (Nat.min (length a) (length b)) (fun i => nth i a 0 * nth i b 0).
Proof.
  unfold dot. rewrite lsum_nth, zipw_length. apply sumn_ext. intros i Hi.
  rewrite (nth_zipw _ _ _ _ 0 0) by lia. reflexivity.
Qed.
Lemma vadd_comm a b : vadd a b = vadd b a.
Proof. apply zipw_comm. intros; ring. Qed.
Lemma vadd_assoc a b c : vadd a (vadd b c) = vadd (vadd a b) c.
Proof.
  revert b c; induction a as [|x a IH]; intros [|y b] [|z c]; simpl; auto.
  unfold vadd in *. simpl. f_equal; [ring|apply IH].
Qed.
Lemma vadd_zero_r a n : length a = n -> vadd a (repeat 0 n) = a.
Proof.
  intros <-. induction a; simpl; auto. unfold vadd in *. simpl. f_equal; [ring|auto].
Qed.
Lemma vscale_add c a b : vscale c (vadd a b) = vadd (vscale c a) (vscale c b).
Proof.
  revert b; induction a as [|x a IH]; intros [|y b]; simpl; auto.
  unfold vadd, vscale in *. simpl. f_equal; [ring|apply IH].
Qed.
End VecFacts.
