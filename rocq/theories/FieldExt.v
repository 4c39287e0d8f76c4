(** Quadratic and cubic extensions K[Y]/(Y^2 - r), K[Y]/(Y^3 - r) of a field, as used (externally, ark_ff via stark-rings)
    for the slots of the NTT form. *)
From Coq Require Import List Arith Lia ZArith Bool Ring Znumtheory Zpow_facts.
From Verif Require Import Prelude Alg PolyInst Primes.
Import ListNotations.
Local Open Scope rs_scope.

Lemma field_integral {K} {KO : FieldOps K} {KL : FieldLaws K} (x y : K) : x * y = 0 -> x = 0 \/ y = 0.
Proof.
  intros H. destruct (req_dec x 0) as [|Hx]; auto. right.
  pose proof (@rlaws_th K _ (fld_laws (FieldLaws := KL))) as T.
  rewrite <- (Rmul_1_l T y), <- (finv_r x Hx), (Rmul_comm T x), <- (Rmul_assoc T), H. apply rmul_0_r.
Qed.

Section Quad.
Context {K : Type} {KO : FieldOps K} {KL : FieldLaws K} (r : K).
Add Ring Kring70 : (@rlaws_th K _ (fld_laws (FieldLaws := KL))).
Record quad : Type := Quad { q0 : K; q1 : K }.
Lemma quad_ext x y : q0 x = q0 y -> q1 x = q1 y -> x = y.
Proof. destruct x, y; cbn [q0 q1]; intros -> ->; auto. Qed.
Definition qnorm (x : quad) : K := q0 x * q0 x - r * (q1 x * q1 x).
Definition quad_ops : FieldOps quad :=
  {| fld_ring := {| rzero := Quad 0 0; rone := Quad 1 0;
       radd := fun x y => Quad (q0 x + q0 y) (q1 x + q1 y);
       rmul := fun x y => Quad (q0 x * q0 y + r * (q1 x * q1 y)) (q0 x * q1 y + q1 x * q0 y);
       rsub := fun x y => Quad (q0 x - q0 y) (q1 x - q1 y); ropp := fun x => Quad (- q0 x) (- q1 x);
       req := fun x y => (q0 x =? q0 y) && (q1 x =? q1 y) |};
     finv := fun x => let n := finv (qnorm x) in Quad (q0 x * n) (- (q1 x * n)) |}.
Local Existing Instance quad_ops.
Definition nonsquare {A} {AO : RingOps A} (a : A) : Prop := forall x : A, x * x <> a.
Lemma quad_rlaws : RingLaws quad.
Proof.
  split.
  - split; intros; apply quad_ext; cbn [q0 q1 radd rmul rsub ropp rzero rone fld_ring quad_ops]; ring.
  - intros x y. cbn [req fld_ring quad_ops]. rewrite andb_true_iff, !req_true. split; [intros []; apply quad_ext; auto|intros ->; auto].
Qed.
Lemma qnorm_mul x y : qnorm (x * y) = qnorm x * qnorm y.
Proof. unfold qnorm. cbn [q0 q1 rmul fld_ring quad_ops]. ring. Qed.
Lemma qnorm_0 x : nonsquare r -> qnorm x = 0 -> x = 0.
Proof.
  intros Hr H. unfold qnorm in H. destruct (req_dec (q1 x) 0) as [E|E].
  - rewrite E in H. assert (q0 x * q0 x = 0) as H0 by (rewrite <- H; ring). apply field_integral in H0 as [H0|H0]; apply quad_ext; auto.
  - exfalso. apply (Hr (q0 x * finv (q1 x))). pose proof (finv_r _ E) as I. transitivity ((q0 x * q0 x) * (finv (q1 x) * finv (q1 x))); [ring|].
    replace (q0 x * q0 x) with (r * (q1 x * q1 x)) by (symmetry; apply rsub_0_iff; auto).
    transitivity (r * (q1 x * finv (q1 x)) * (q1 x * finv (q1 x))); [ring|]. rewrite I. ring.
Qed.
Lemma quad_laws : nonsquare r -> FieldLaws quad.
Proof.
  intros Hr. split.
  - exact quad_rlaws.
  - intros x Hx. assert (qnorm x <> 0) as Hn by (intros E; apply Hx; apply qnorm_0; auto). pose proof (finv_r _ Hn) as I.
    apply quad_ext; cbn [q0 q1 rmul rone fld_ring quad_ops finv]; [rewrite <- I; unfold qnorm|]; ring.
  - intros E. apply (f_equal q0) in E. cbn in E. exact (f_1_neq_0 E).
Qed.
Definition q_emb (x : K) : quad := Quad x 0.
Lemma q_emb_hom : ring_hom q_emb.
Proof. split; intros; apply quad_ext; cbn [q0 q1 q_emb radd rmul rsub ropp rzero rone fld_ring quad_ops]; ring. Qed.
(** A square has a square norm. *)
Lemma nonsquare_norm x : nonsquare (qnorm x) -> nonsquare x.
Proof. intros H y E. apply (H (qnorm y)). rewrite <- qnorm_mul, E. auto. Qed.
End Quad.
Arguments Quad {K}. Arguments q0 {K}. Arguments q1 {K}.

Section Cub.
Context {K : Type} {KO : FieldOps K} {KL : FieldLaws K} (r : K).
Add Ring Kring71 : (@rlaws_th K _ (fld_laws (FieldLaws := KL))).
Record cub : Type := Cub { u0 : K; u1 : K; u2 : K }.
Lemma cub_ext x y : u0 x = u0 y -> u1 x = u1 y -> u2 x = u2 y -> x = y.
Proof. destruct x, y; cbn [u0 u1 u2]; intros -> -> ->; auto. Qed.
Definition cnorm (x : cub) : K :=
  let a := u0 x in let b := u1 x in let c := u2 x in
  a * a * a + r * (b * b * b) + r * r * (c * c * c) - (1 + 1 + 1) * r * (a * b * c).
Definition cub_ops : FieldOps cub :=
  {| fld_ring := {| rzero := Cub 0 0 0; rone := Cub 1 0 0;
       radd := fun x y => Cub (u0 x + u0 y) (u1 x + u1 y) (u2 x + u2 y);
       rmul := fun x y => Cub (u0 x * u0 y + r * (u1 x * u2 y + u2 x * u1 y)) (u0 x * u1 y + u1 x * u0 y + r * (u2 x * u2 y))
                             (u0 x * u2 y + u1 x * u1 y + u2 x * u0 y);
       rsub := fun x y => Cub (u0 x - u0 y) (u1 x - u1 y) (u2 x - u2 y); ropp := fun x => Cub (- u0 x) (- u1 x) (- u2 x);
       req := fun x y => (u0 x =? u0 y) && (u1 x =? u1 y) && (u2 x =? u2 y) |};
     finv := fun x => let a := u0 x in let b := u1 x in let c := u2 x in let n := finv (cnorm x) in
       Cub ((a * a - r * (b * c)) * n) ((r * (c * c) - a * b) * n) ((b * b - a * c) * n) |}.
Local Existing Instance cub_ops.
Definition noncube {A} {AO : RingOps A} (a : A) : Prop := forall x : A, x * x * x <> a.
Lemma cub_rlaws : RingLaws cub.
Proof.
  split.
  - split; intros; apply cub_ext; cbn [u0 u1 u2 radd rmul rsub ropp rzero rone fld_ring cub_ops]; ring.
  - intros x y. cbn [req fld_ring cub_ops]. rewrite !andb_true_iff, !req_true. split; [intros [[] ]; apply cub_ext; auto|intros ->; auto].
Qed.
Lemma cnorm_mul x y : cnorm (x * y) = cnorm x * cnorm y.
Proof. unfold cnorm. cbn [u0 u1 u2 rmul fld_ring cub_ops]. ring. Qed.
Lemma cube_ratio u v : noncube r -> u * u * u + r * (v * v * v) = 0 -> v = 0.
Proof.
  intros Hr H. destruct (req_dec v 0) as [|E]; auto. exfalso. pose proof (finv_r _ E) as I. apply (Hr (- u * finv v)).
  transitivity (- (u * u * u) * (finv v * finv v * finv v)); [ring|].
  replace (- (u * u * u)) with (r * (v * v * v)) by (transitivity (u * u * u + r * (v * v * v) - u * u * u); [ring|rewrite H; ring]).
  transitivity (r * (v * finv v) * (v * finv v) * (v * finv v)); [ring|]. rewrite I. ring.
Qed.
Lemma cube_0 (a : K) : a * a * a = 0 -> a = 0.
Proof. intros H. apply field_integral in H as [H|H]; auto. apply field_integral in H as [H|H]; auto. Qed.
Lemma cnorm_0 x : noncube r -> cnorm x = 0 -> x = 0.
Proof.
  intros Hr H. destruct x as [a b c]. unfold cnorm in H. cbn [u0 u1 u2] in H. cbv zeta in H. destruct (req_dec c 0) as [E|E].
  - subst c. assert (a * a * a + r * (b * b * b) = 0) as H0 by (rewrite <- H; ring). pose proof (cube_ratio _ _ Hr H0) as ->.
    assert (a * a * a = 0) as H1 by (rewrite <- H0; ring). apply cube_0 in H1 as ->. reflexivity.
  - exfalso. set (u := a * b - r * (c * c)). set (v := b * b - a * c).
    assert (u * u * u + r * (v * v * v) = 0) as H0.
    { transitivity ((a * a * a + r * (b * b * b) + r * r * (c * c * c) - (1 + 1 + 1) * r * (a * b * c)) * (b * b * b - r * (c * c * c))); [unfold u, v; ring|].
      rewrite H. ring. }
    pose proof (cube_ratio _ _ Hr H0) as Hv. rewrite Hv in H0. assert (u * u * u = 0) as Hu by (rewrite <- H0; ring). apply cube_0 in Hu.
    unfold u in Hu. unfold v in Hv. apply E. apply (cube_ratio (- b) c Hr).
    transitivity (- (b * (b * b - a * c) + c * (a * b - r * (c * c)))); [ring|]. rewrite Hu, Hv. ring.
Qed.
Lemma cub_laws : noncube r -> FieldLaws cub.
Proof.
  intros Hr. split.
  - exact cub_rlaws.
  - intros x Hx. assert (cnorm x <> 0) as Hn by (intros E; apply Hx; apply cnorm_0; auto). pose proof (finv_r _ Hn) as I.
    apply cub_ext; cbn [u0 u1 u2 rmul rone fld_ring cub_ops finv]; cbv zeta; [rewrite <- I; unfold cnorm; cbv zeta| |]; ring.
  - intros E. apply (f_equal u0) in E. cbn in E. exact (f_1_neq_0 E).
Qed.
Definition c_emb (x : K) : cub := Cub x 0 0.
Lemma c_emb_hom : ring_hom c_emb.
Proof. split; intros; apply cub_ext; cbn [u0 u1 u2 c_emb radd rmul rsub ropp rzero rone fld_ring cub_ops]; ring. Qed.
Lemma noncube_norm x : noncube (cnorm x) -> noncube x.
Proof. intros H y E. apply (H (cnorm y)). rewrite <- !cnorm_mul, E. auto. Qed.
End Cub.
Arguments Cub {K}. Arguments u0 {K}. Arguments u1 {K}. Arguments u2 {K}.

(** Residue tests in the prime field, by Fermat. *)
Lemma fpz_mul p (x y : fp p) : fpz (x * y) = ((fpz x * fpz y) mod p)%Z.
Proof. reflexivity. Qed.
Lemma nonsquare_fp p (a : Z) : prime p -> (0 < a < p)%Z -> ((p - 1) mod 2 = 0)%Z -> zpowm p a ((p - 1) / 2) <> 1%Z -> nonsquare (zp p a).
Proof.
  intros Hp Ha H2 H x E. apply H. pose proof (prime_ge_2 p Hp). rewrite zpowm_spec by (apply Z.div_pos; lia).
  apply (f_equal fpz) in E. rewrite fpz_mul in E. cbn [zp fpz] in E. rewrite (Z.mod_small a) in E by lia.
  assert (~ (p | fpz x)) as Hx. { intros [k Hk]. rewrite Hk in E. replace (k * p * (k * p))%Z with ((k * k * p) * p)%Z in E by ring. rewrite Z_mod_mult in E. lia. }
  pose proof (fermat p _ Hp Hx) as Hf. pose proof (Z.div_mod (p - 1) 2 ltac:(lia)) as D. rewrite H2 in D.
  assert (0 <= (p - 1) / 2)%Z by (apply Z.div_pos; lia).
  rewrite <- E, <- Zpower_mod by lia. rewrite <- Z.pow_2_r, <- Z.pow_mul_r by lia.
  etransitivity; [|exact Hf]. f_equal. f_equal. lia.
Qed.
Lemma noncube_fp p (a : Z) : prime p -> (0 < a < p)%Z -> ((p - 1) mod 3 = 0)%Z -> zpowm p a ((p - 1) / 3) <> 1%Z -> noncube (zp p a).
Proof.
  intros Hp Ha H2 H x E. apply H. pose proof (prime_ge_2 p Hp). rewrite zpowm_spec by (apply Z.div_pos; lia).
  apply (f_equal fpz) in E. rewrite !fpz_mul, Zmult_mod_idemp_l in E. cbn [zp fpz] in E. rewrite (Z.mod_small a) in E by lia.
  assert (~ (p | fpz x)) as Hx. { intros [k Hk]. rewrite Hk in E. replace (k * p * (k * p) * (k * p))%Z with ((k * k * p * k * p) * p)%Z in E by ring. rewrite Z_mod_mult in E. lia. }
  pose proof (fermat p _ Hp Hx) as Hf. pose proof (Z.div_mod (p - 1) 3 ltac:(lia)) as D. rewrite H2 in D.
  assert (0 <= (p - 1) / 3)%Z by (apply Z.div_pos; lia).
  rewrite <- E, <- Zpower_mod by lia. replace (fpz x * fpz x * fpz x)%Z with (fpz x ^ 3)%Z by ring. rewrite <- Z.pow_mul_r by lia.
  etransitivity; [|exact Hf]. f_equal. f_equal. lia.
Qed.
