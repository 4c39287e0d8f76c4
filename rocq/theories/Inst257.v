(** A second concrete instance of the LatticeFold+ ring interface, with a field large enough for the
    soundness statements: F257[X]/(X^4+1) over F257.  Used for examples and counterexamples only. *)
From Coq Require Import List Arith Lia ZArith Bool Ring Ring_theory Eqdep_dec.
From Verif Require Import Prelude Alg MLE Transcript Arith Balanced Rings Toy PlusRing.
Import ListNotations.

Definition q : Z := 257.
Definition inq (z : Z) : bool := (z mod q =? z)%Z.
Record fq : Set := Fq { fz : Z; fz_ok : inq fz = true }.
Lemma fq_ext (x y : fq) : fz x = fz y -> x = y.
Proof.
  destruct x as [x Hx], y as [y Hy]. cbn [fz]. intros ->. f_equal. apply UIP_dec. apply bool_dec.
Qed.
Lemma inq_mod z : inq (z mod q) = true.
Proof. unfold inq. apply Z.eqb_eq. apply Z.mod_mod. discriminate. Qed.
Definition zq (z : Z) : fq := Fq (z mod q) (inq_mod z).
Lemma fz_mod (x : fq) : (fz x mod q)%Z = fz x.
Proof. destruct x as [x Hx]. cbn [fz]. apply Z.eqb_eq. exact Hx. Qed.
Lemma fz_bound (x : fq) : (0 <= fz x < 257)%Z.
Proof. rewrite <- fz_mod. apply Z.mod_pos_bound. reflexivity. Qed.
Fixpoint powq (x : Z) (n : positive) : Z :=
  match n with
  | xH => x
  | xO m => let y := powq x m in (y * y mod q)%Z
  | xI m => let y := powq x m in (x * (y * y mod q) mod q)%Z
  end.
#[export] Instance fq_ops : FieldOps fq :=
  {| fld_ring := {| rzero := zq 0; rone := zq 1; radd := fun x y => zq (fz x + fz y); rmul := fun x y => zq (fz x * fz y);
                    rsub := fun x y => zq (fz x - fz y); ropp := fun x => zq (- fz x); req := fun x y => (fz x =? fz y)%Z |};
     finv := fun x => zq (powq (fz x) 255) |}.
Lemma inv_table : forallb (fun n => (Z.of_nat n * powq (Z.of_nat n) 255 mod q =? 1)%Z) (seq 1 256) = true.
Proof. vm_compute. reflexivity. Qed.
#[export] Instance fq_laws : FieldLaws fq.
Proof.
  split.
  - split.
    + split; intros; apply fq_ext; cbn [radd rmul rsub ropp rzero rone fq_ops fld_ring fz zq].
      * rewrite Z.mod_0_l by discriminate. apply fz_mod.
      * f_equal; lia.
      * rewrite Zplus_mod_idemp_r, Zplus_mod_idemp_l. f_equal; lia.
      * rewrite Zmult_mod_idemp_l. rewrite Z.mul_1_l. apply fz_mod.
      * f_equal; lia.
      * rewrite Zmult_mod_idemp_r, Zmult_mod_idemp_l. f_equal; lia.
      * rewrite Zmult_mod_idemp_l, Zplus_mod_idemp_r, Zplus_mod_idemp_l. f_equal; lia.
      * rewrite Zplus_mod_idemp_r. f_equal; lia.
      * rewrite Zplus_mod_idemp_r. f_equal; lia.
    + intros x y. cbn [req fq_ops fld_ring]. rewrite Z.eqb_eq. split; [apply fq_ext|congruence].
  - intros x Hx. apply fq_ext. cbn [rmul finv rone fq_ops fld_ring fz zq]. rewrite Zmult_mod_idemp_r.
    pose proof (fz_bound x) as B. assert (fz x <> 0%Z) as H0 by (intros E; apply Hx; apply fq_ext; rewrite E; reflexivity).
    pose proof inv_table as H. rewrite forallb_forall in H. specialize (H (Z.to_nat (fz x))).
    rewrite Z2Nat.id in H by lia. apply Z.eqb_eq. change (1 mod q)%Z with 1%Z. apply H. apply in_seq. lia.
  - intros H. apply (f_equal fz) in H. discriminate.
Qed.
Local Open Scope rs_scope.
Add Ring fqring : (@rlaws_th fq _ _).

Lemma fz_add (x y : fq) : fz (x + y) = ((fz x + fz y) mod q)%Z.
Proof. reflexivity. Qed.
Lemma fz_opp (x : fq) : fz (- x) = ((- fz x) mod q)%Z.
Proof. reflexivity. Qed.
Lemma rofZ_fq z : fz (rofZ z : fq) = (z mod q)%Z.
Proof.
  assert (forall p, fz (rofZ (Zpos p) : fq) = (Zpos p mod q)%Z) as HP.
  { intros p.
    pattern p. apply Pos.peano_ind; clear p; [reflexivity|].
    intros p IH. rewrite Pos2Z.inj_succ. unfold Z.succ. rewrite rofZ_add.
    rewrite fz_add, IH, rofZ_1. change (fz 1) with (1 mod q)%Z.
    rewrite Zplus_mod_idemp_r, Zplus_mod_idemp_l. reflexivity. }
  destruct z as [|p|p]; [reflexivity|apply HP|].
  change (rofZ (Zneg p) : fq) with (- (rofZ (Zpos p) : fq)). rewrite fz_opp, HP.
  rewrite <- Z.sub_0_l, Zminus_mod_idemp_r. reflexivity.
Qed.

(** F257[X]/(X^4+1) *)
Record q4 : Set := Q4 { q0 : fq; q1 : fq; q2 : fq; q3 : fq }.
Definition q4mul x y :=
  Q4 (q0 x * q0 y - q1 x * q3 y - q2 x * q2 y - q3 x * q1 y)
     (q0 x * q1 y + q1 x * q0 y - q2 x * q3 y - q3 x * q2 y)
     (q0 x * q2 y + q1 x * q1 y + q2 x * q0 y - q3 x * q3 y)
     (q0 x * q3 y + q1 x * q2 y + q2 x * q1 y + q3 x * q0 y).
#[export] Instance q4_ops : RingOps q4 :=
  {| rzero := Q4 0 0 0 0; rone := Q4 1 0 0 0;
     radd := fun x y => Q4 (q0 x + q0 y) (q1 x + q1 y) (q2 x + q2 y) (q3 x + q3 y);
     rmul := q4mul;
     rsub := fun x y => Q4 (q0 x - q0 y) (q1 x - q1 y) (q2 x - q2 y) (q3 x - q3 y);
     ropp := fun x => Q4 (- q0 x) (- q1 x) (- q2 x) (- q3 x);
     req := fun x y => (q0 x =? q0 y) && (q1 x =? q1 y) && (q2 x =? q2 y) && (q3 x =? q3 y) |}.
Ltac q4red := cbn [radd rmul rsub ropp rzero rone q4_ops]; unfold q4mul; cbn [q0 q1 q2 q3].
#[export] Instance q4_laws : RingLaws q4.
Proof.
  split.
  - split; intros; repeat match goal with x : q4 |- _ => destruct x end; q4red; f_equal; ring.
  - intros x y. destruct x as [x0 x1 x2 x3], y as [y0 y1 y2 y3]. cbn [req q4_ops q0 q1 q2 q3].
    rewrite !andb_true_iff, !req_true. split; [intros (((-> & ->) & ->) & ->); auto|].
    intros H. injection H. auto.
Qed.

#[export] Instance embq : Embed fq q4 := fun x => Q4 x 0 0 0.
Definition expq (a : fq) : option q4 :=
  if (fz a =? 0)%Z then Some (Q4 0 0 0 0) else if (fz a =? 1)%Z then Some (Q4 0 1 0 0)
  else if (fz a =? 256)%Z then Some (Q4 0 0 0 1) else None.
Definition signedq (a : fq) : Z := if (fz a <=? 128)%Z then fz a else (fz a - 257)%Z.
Definition popsq : POps fq q4 :=
  {| p_K := fq_ops; p_R := q4_ops; p_emb := embq; pdim := 4;
     pcoeffs := fun c => [q0 c; q1 c; q2 c; q3 c];
     pof_coeffs := fun l => match l with [x; y; z; t] => Q4 x y z t | _ => Q4 0 0 0 0 end;
     psigned := signedq; pexp := expq; ppsi := Q4 0 1 0 (- (1)) |}.
#[export] Existing Instance popsq.

#[export] Instance plawsq : PLaws fq q4 257.
Proof.
  split.
  - exact fq_laws.
  - exact q4_laws.
  - split; try reflexivity; intros; unfold emb; cbn [p_emb p_K p_R popsq]; unfold embq; q4red; f_equal; ring.
  - cbn; lia.
  - reflexivity.
  - intros [|x [|y [|z [|t [|u l]]]]]; simpl; intros; try discriminate; reflexivity.
  - intros [x y z t]; reflexivity.
  - reflexivity.
  - intros k [x y z t]. unfold emb; cbn [p_emb popsq]; unfold embq. cbn [pcoeffs popsq p_R p_K map]. q4red.
    repeat (f_equal; try ring).
  - reflexivity.
  - lia.
  - intros x. apply fq_ext. cbn [p_K popsq]. rewrite rofZ_fq. cbn [psigned popsq]. unfold signedq, q.
    pose proof (fz_bound x) as B. destruct (Z.leb_spec (fz x) 128); [apply Z.mod_small; lia|].
    symmetry. apply Z.mod_unique with (-1)%Z; lia.
  - intros x. cbn [psigned popsq]. unfold signedq. pose proof (fz_bound x) as B. destruct (Z.leb_spec (fz x) 128); lia.
  - intros z Hz. cbn [psigned popsq p_K]. unfold signedq. rewrite rofZ_fq. unfold q.
    destruct (Z.le_gt_cases 0 z) as [H|H].
    + rewrite Z.mod_small by lia. destruct (Z.leb_spec z 128); lia.
    + assert (z mod 257 = z + 257)%Z as -> by (symmetry; apply Z.mod_unique with (-1)%Z; lia).
      destruct (Z.leb_spec (z + 257) 128); lia.
  - intros a. cbn [psigned popsq pdim]. unfold signedq. pose proof (fz_bound a) as B. intros H.
    assert (fz a = 0 \/ fz a = 1 \/ fz a = 256)%Z as E by (destruct (Z.leb_spec (fz a) 128); lia).
    destruct E as [E|[E|E]]; cbn [pexp popsq]; unfold expq; rewrite E; cbn [Z.eqb Pos.eqb].
    + exists (Q4 0 0 0 0). split; [reflexivity|]. split; [left; reflexivity|]. apply fq_ext. rewrite E. vm_compute. reflexivity.
    + exists (Q4 0 1 0 0). split; [reflexivity|]. split; [right; exists 1%nat; split; [cbn; lia|reflexivity]|].
      apply fq_ext. rewrite E. vm_compute. reflexivity.
    + exists (Q4 0 0 0 1). split; [reflexivity|]. split; [right; exists 3%nat; split; [cbn; lia|reflexivity]|].
      apply fq_ext. rewrite E. vm_compute. reflexivity.
  - intros i Hi. cbn in Hi. destruct i as [|[|[|[|i]]]]; [| | | |lia].
    + exists 0%Z. split; [cbn; lia|]. apply fq_ext; vm_compute; reflexivity.
    + exists 1%Z. split; [cbn; lia|]. apply fq_ext; vm_compute; reflexivity.
    + exists 0%Z. split; [cbn; lia|]. apply fq_ext; vm_compute; reflexivity.
    + exists (-1)%Z. split; [cbn; lia|]. apply fq_ext; vm_compute; reflexivity.
Qed.

Definition q4z (x : q4) : Z := (fz (q0 x) + 3 * fz (q1 x) + 7 * fz (q2 x) + 11 * fz (q3 x))%Z.
#[export] Instance qtoy : TransOps Z q4 fq :=
  {| absorb := fun s x => tmix s (q4z x);
     get_challenge := fun s => (zq (s / 7), tmix s 1);
     squeeze_bytes := fun s n => (tbytes s n, tmix s (Z.of_nat n)) |}.
Lemma char257 : char_gt fq 200.
Proof.
  intros i [H1 H2] E. apply (f_equal fz) in E. unfold rofn in E. change (fz (rofZ (Z.of_nat i) : fq) = 0%Z) in E. rewrite rofZ_fq in E. unfold q in E. rewrite Z.mod_small in E by lia. lia.
Qed.
