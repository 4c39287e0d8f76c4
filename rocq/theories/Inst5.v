(** A concrete suitable ring, used for examples and counterexamples:
    F = Z/5, K = F[Y]/(Y^2-2) (25 elements), C = F[X]/(X^4+1), R = K x K with
    X |-> (Y, 2Y).  N = 2 slots of degree tau = 2. *)
From Coq Require Import List Arith Lia ZArith Bool Ring Ring_theory.
From Verif Require Import Prelude Alg MLE Transcript Arith Balanced Rings.
Import ListNotations.

Inductive f5 : Set := a0 | a1 | a2 | a3 | a4.
Definition f5n (x : f5) : nat := match x with a0 => 0 | a1 => 1 | a2 => 2 | a3 => 3 | a4 => 4 end.
Definition nf5 (n : nat) : f5 :=
  match n with 0 | 5 | 10 | 15 => a0 | 1 | 6 | 11 | 16 => a1 | 2 | 7 | 12 => a2 | 3 | 8 => a3 | _ => a4 end.
Definition f5add x y := nf5 (f5n x + f5n y).
Definition f5mul x y :=
  match x with
  | a0 => a0 | a1 => y | a2 => f5add y y | a3 => f5add y (f5add y y)
  | a4 => f5add (f5add y y) (f5add y y) end.
Definition f5opp x := match x with a0 => a0 | a1 => a4 | a2 => a3 | a3 => a2 | a4 => a1 end.
Definition f5eqb x y :=
  match x, y with a0, a0 | a1, a1 | a2, a2 | a3, a3 | a4, a4 => true | _, _ => false end.
Definition f5inv x := match x with a0 => a0 | a1 => a1 | a2 => a3 | a3 => a2 | a4 => a4 end.
#[export] Instance f5_ops : FieldOps f5 :=
  {| fld_ring := {| rzero := a0; rone := a1; radd := f5add; rmul := f5mul;
                    rsub := fun x y => f5add x (f5opp y); ropp := f5opp; req := f5eqb |};
     finv := f5inv |}.
#[export] Instance f5_laws : FieldLaws f5.
Proof.
  split.
  - split.
    + split; intros; repeat match goal with x : f5 |- _ => destruct x end; reflexivity.
    + intros x y; destruct x, y; simpl; split; congruence.
  - intros x; destruct x; simpl; intros H; try reflexivity. contradiction.
  - discriminate.
Qed.

Local Open Scope rs_scope.
(** [ring] on f5 with coefficients modulo 5. *)
Definition z5eqb (a b : Z) : bool := ((a - b) mod 5 =? 0)%Z.
Lemma rofZ_f5_mod z : (z mod 5 = 0)%Z -> (rofZ z : f5) = 0.
Proof.
  intros H. apply Z.mod_divide in H; [|lia]. destruct H as [k ->].
  rewrite (rofZ_mul k 5). change (rofZ k * (0 : f5) = 0). apply rmul_0_r.
Qed.
Lemma f5_morph : ring_morph (rzero : f5) rone radd rmul rsub ropp eq
  0%Z 1%Z Z.add Z.mul Z.sub Z.opp z5eqb rofZ.
Proof.
  split; intros.
  - apply rofZ_0.
  - apply rofZ_1.
  - apply rofZ_add.
  - apply rofZ_sub.
  - apply rofZ_mul.
  - apply rofZ_opp.
  - unfold z5eqb in H. apply Z.eqb_eq in H. apply rofZ_f5_mod in H.
    rewrite rofZ_sub in H. apply (proj1 (rsub_0_iff (rofZ x) (rofZ y))). exact H.
Qed.
Add Ring f5ring : (@rlaws_th f5 _ _) (morphism f5_morph).

Definition two : f5 := 1 + 1.
Ltac f5ify := change f5add with (@radd f5 _); change f5mul with (@rmul f5 _);
              change f5opp with (@ropp f5 _); change a0 with (0 : f5); change a1 with (1 : f5); unfold two.

(** F25 *)
Record f25 : Set := K2 { k0 : f5; k1 : f5 }.
Definition f25mul x y :=
  K2 (k0 x * k0 y + two * (k1 x * k1 y)) (k0 x * k1 y + k1 x * k0 y).
Definition f25norm x : f5 := k0 x * k0 x - two * (k1 x * k1 x).
Definition f25inv x := let n := f5inv (f25norm x) in K2 (k0 x * n) (- (k1 x * n)).
#[export] Instance f25_ops : FieldOps f25 :=
  {| fld_ring := {| rzero := K2 0 0; rone := K2 1 0;
       radd := fun x y => K2 (k0 x + k0 y) (k1 x + k1 y); rmul := f25mul;
       rsub := fun x y => K2 (k0 x - k0 y) (k1 x - k1 y); ropp := fun x => K2 (- k0 x) (- k1 x);
       req := fun x y => (k0 x =? k0 y) && (k1 x =? k1 y) |};
     finv := f25inv |}.
#[export] Instance f25_laws : FieldLaws f25.
Proof.
  split.
  - split.
    + split; intros; repeat match goal with x : f25 |- _ => destruct x end;
        cbn -[f5add f5mul f5opp two]; unfold f25mul; cbn [k0 k1]; f_equal;
        f5ify; ring.
    + intros [x y] [x' y']; simpl; destruct x, y, x', y'; simpl; split; congruence.
  - intros [x y]; destruct x, y; simpl; intros H; try reflexivity. contradiction.
  - discriminate.
Qed.

(** C = F5[X]/(X^4+1) *)
Record c4 : Set := C4 { c0 : f5; c1 : f5; c2 : f5; c3 : f5 }.
Definition c4mul x y :=
  C4 (c0 x * c0 y - c1 x * c3 y - c2 x * c2 y - c3 x * c1 y)
     (c0 x * c1 y + c1 x * c0 y - c2 x * c3 y - c3 x * c2 y)
     (c0 x * c2 y + c1 x * c1 y + c2 x * c0 y - c3 x * c3 y)
     (c0 x * c3 y + c1 x * c2 y + c2 x * c1 y + c3 x * c0 y).
#[export] Instance c4_ops : RingOps c4 :=
  {| rzero := C4 0 0 0 0; rone := C4 1 0 0 0;
     radd := fun x y => C4 (c0 x + c0 y) (c1 x + c1 y) (c2 x + c2 y) (c3 x + c3 y);
     rmul := c4mul;
     rsub := fun x y => C4 (c0 x - c0 y) (c1 x - c1 y) (c2 x - c2 y) (c3 x - c3 y);
     ropp := fun x => C4 (- c0 x) (- c1 x) (- c2 x) (- c3 x);
     req := fun x y => (c0 x =? c0 y) && (c1 x =? c1 y) && (c2 x =? c2 y) && (c3 x =? c3 y) |}.

(** R = K x K *)
Record r2 : Set := R2 { s0 : f25; s1 : f25 }.
#[export] Instance r2_ops : RingOps r2 :=
  {| rzero := R2 0 0; rone := R2 1 1;
     radd := fun x y => R2 (s0 x + s0 y) (s1 x + s1 y);
     rmul := fun x y => R2 (s0 x * s0 y) (s1 x * s1 y);
     rsub := fun x y => R2 (s0 x - s0 y) (s1 x - s1 y);
     ropp := fun x => R2 (- s0 x) (- s1 x);
     req := fun x y => (s0 x =? s0 y) && (s1 x =? s1 y) |}.

Ltac c4solve := intros; repeat match goal with x : c4 |- _ => destruct x end;
   cbn -[f5add f5mul f5opp two]; unfold c4mul; cbn [c0 c1 c2 c3]; f_equal; f5ify; ring.

#[export] Instance c4_laws : RingLaws c4.
Proof.
  split.
  - split; c4solve.
  - intros x y. destruct x as [x0 x1 x2 x3], y as [y0 y1 y2 y3]. cbn [req c4_ops c0 c1 c2 c3].
    rewrite !andb_true_iff, !req_true. split; [intros (((-> & ->) & ->) & ->); auto|].
    intros H. injection H. auto.
Qed.
#[export] Instance r2_laws : RingLaws r2.
Proof.
  split.
  - destruct (@rlaws_th f25 _ _) as [H1 H2 H3 H4 H5 H6 H7 H8 H9].
    assert (forall x y : r2, s0 x = s0 y -> s1 x = s1 y -> x = y) as E.
    { intros [x0 x1] [y0 y1]; cbn [s0 s1]; congruence. }
    split.
    + intros x; apply E; [exact (H1 (s0 x))|exact (H1 (s1 x))].
    + intros x y; apply E; [exact (H2 (s0 x) (s0 y))|exact (H2 (s1 x) (s1 y))].
    + intros x y z; apply E; [exact (H3 (s0 x) (s0 y) (s0 z))|exact (H3 (s1 x) (s1 y) (s1 z))].
    + intros x; apply E; [exact (H4 (s0 x))|exact (H4 (s1 x))].
    + intros x y; apply E; [exact (H5 (s0 x) (s0 y))|exact (H5 (s1 x) (s1 y))].
    + intros x y z; apply E; [exact (H6 (s0 x) (s0 y) (s0 z))|exact (H6 (s1 x) (s1 y) (s1 z))].
    + intros x y z; apply E; [exact (H7 (s0 x) (s0 y) (s0 z))|exact (H7 (s1 x) (s1 y) (s1 z))].
    + intros x y; apply E; [exact (H8 (s0 x) (s0 y))|exact (H8 (s1 x) (s1 y))].
    + intros x; apply E; [exact (H9 (s0 x))|exact (H9 (s1 x))].
  - intros x y. destruct x as [x0 x1], y as [y0 y1]. cbn [req r2_ops s0 s1].
    rewrite !andb_true_iff, !req_true. split; [intros (-> & ->); auto|].
    intros H. injection H. auto.
Qed.

Definition crt5 (c : c4) : r2 :=
  R2 (K2 (c0 c + two * c2 c) (c1 c + two * c3 c))
     (K2 (c0 c - two * c2 c) (two * c1 c + c3 c)).
Definition icrt5 (x : r2) : c4 :=
  let a := k0 (s0 x) in let e := k1 (s0 x) in let b := k0 (s1 x) in let g := k1 (s1 x) in
  C4 ((two + 1) * (a + b)) ((two + 1) * e + two * two * g) (b - a)
     (two * two * e - two * g).
Definition rot5 (c : c4) : c4 := C4 (- c3 c) (c0 c) (c1 c) (c2 c).
Definition signed5 (x : f5) : Z :=
  match x with a0 => 0 | a1 => 1 | a2 => 2 | a3 => -2 | a4 => -1 end%Z.

Definition sops5 : SOps f5 f25 c4 r2 :=
  {| s_F := f5_ops; s_K := f25_ops; s_C := c4_ops; s_R := r2_ops;
     s_emb := fun k => R2 k k; embFK := fun x => K2 x 0; embFC := fun x => C4 x 0 0 0;
     dimN := 2; tau := 2;
     slots := fun x => [s0 x; s1 x];
     of_slots := fun l => match l with [x; y] => R2 x y | _ => 0 end;
     coeffs := fun c => [c0 c; c1 c; c2 c; c3 c];
     of_coeffs := fun l => match l with [x; y; z; t] => C4 x y z t | _ => 0 end;
     crt := crt5; icrt := icrt5; rotX := rot5; signed := signed5 |}.
#[export] Existing Instance sops5.

#[export] Instance slaws5 : SLaws f5 f25 c4 r2 5.
Proof.
  assert (icrt5 (crt5 1) = 1) as H0 by reflexivity.
  split.
  - exact f5_laws.
  - exact f25_laws.
  - exact c4_laws.
  - exact r2_laws.
  - split; reflexivity.
  - split; try reflexivity; intros; cbn -[f5add f5mul f5opp two]; unfold f25mul; cbn [k0 k1]; f_equal; f5ify; ring.
  - split; try reflexivity; intros; cbn -[f5add f5mul f5opp two]; unfold c4mul; cbn [c0 c1 c2 c3]; f_equal; f5ify; ring.
  - simpl; lia.
  - simpl; lia.
  - reflexivity.
  - intros [|x [|y [|z l]]]; simpl; intros; try discriminate; reflexivity.
  - intros [x y]; reflexivity.
  - reflexivity.
  - reflexivity.
  - reflexivity.
  - reflexivity.
  - intros [|x [|y [|z [|t [|u l]]]]]; simpl; intros; try discriminate; reflexivity.
  - intros [x y z t]; reflexivity.
  - reflexivity.
  - intros x [y z t u]. cbn -[f5add f5mul f5opp two]. unfold c4mul; cbn [c0 c1 c2 c3].
    do 4 (apply f_equal2; [f5ify; ring|]). reflexivity.
  - intros x y. unfold rotX; cbn [sops5]. destruct x, y. unfold rot5.
    cbn -[f5add f5mul f5opp two]. unfold c4mul; cbn [c0 c1 c2 c3]. f_equal; f5ify; ring.
  - intros [x y z t]. unfold dimC. cbn -[f5add f5mul f5opp two]. unfold c4mul, rot5; cbn [c0 c1 c2 c3].
    f_equal; f5ify; ring.
  - split; try reflexivity; intros x; try (intros y; destruct y); destruct x; unfold crt; cbn [sops5]; unfold crt5;
      cbn -[f5add f5mul f5opp two]; unfold f25mul, c4mul; cbn [k0 k1 c0 c1 c2 c3]; f_equal; f_equal; f5ify; ring.
  - intros [[x y] [z t]]. unfold crt, icrt; cbn [sops5]. unfold icrt5, crt5. cbn [s0 s1 k0 k1 c0 c1 c2 c3].
    f_equal; f_equal; f5ify; ring.
  - intros [x y z t]. unfold crt, icrt; cbn [sops5]. unfold icrt5, crt5. cbn [s0 s1 k0 k1 c0 c1 c2 c3].
    f_equal; f5ify; ring.
  - lia.
  - intros x; destruct x; reflexivity.
  - intros x; destruct x; simpl; lia.
  - intros z Hz. assert (z = -2 \/ z = -1 \/ z = 0 \/ z = 1 \/ z = 2)%Z as H by lia.
    destruct H as [->|[->|[->|[->| ->]]]]; reflexivity.
Qed.
