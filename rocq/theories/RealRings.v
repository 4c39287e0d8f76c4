(** The four rings of cyclotomic-rings/src/rings/{goldilocks,babybear,frog,stark}.rs as instances of [SOps]/[SLaws]:
    their cyclotomic polynomials, numbers of slots and slot degrees are those of the doc comments of these files. *)
From Coq Require Import List Arith Lia ZArith Bool Ring Znumtheory.
From Verif Require Import Prelude Alg MLE Transcript Rings Challenge PolyInst Primes FieldExt CycInst.
Import ListNotations.
Local Open Scope rs_scope.

(** * Extension fields as vector spaces *)
Lemma ext_reuse {p K} (y y' : cyc p K) : cy_KO y' = cy_KO y -> cy_emb y' = cy_emb y -> cy_co y' = cy_co y -> cy_of y' = cy_of y -> cy_e y' = cy_e y ->
  ext_laws y -> ext_laws y'.
Proof. destruct y as [a0 a1 a2 a3 a4 a5 a6 a7 a8], y' as [b0 b1 b2 b3 b4 b5 b6 b7 b8]; cbn [cy_KO cy_emb cy_co cy_of cy_e]. intros -> -> -> -> -> [H1 H2 H3 H4 H5 H6]. split; auto. Qed.
Definition base_ext (p : Z) : cyc p (fp p) := Cyc (fp_ops p) (fun x => x) (fun x => [x]) (fun l => nth 0 l 0) 1 0 [] [] [].
Lemma base_ext_laws p : prime p -> ext_laws (base_ext p).
Proof.
  intros Hp. split; cbn [cy_KO cy_emb cy_co cy_of cy_e base_ext]; auto.
  - apply fp_laws. auto.
  - split; auto.
Qed.
Definition quad_ext_of {p K} (y : cyc p K) (r : K) : cyc p (quad (K := K)) :=
  Cyc (@quad_ops K (cy_KO y) r) (fun x => @q_emb K (cy_KO y) (cy_emb y x)) (fun x => cy_co y (q0 x) ++ cy_co y (q1 x))
    (fun l => Quad (cy_of y (firstn (cy_e y) l)) (cy_of y (skipn (cy_e y) l))) (cy_e y + cy_e y) 0 [] [] [].
Lemma app_split {A} n (l m : list A) : length l = n -> firstn n (l ++ m) = l /\ skipn n (l ++ m) = m.
Proof. intros <-. rewrite firstn_app, firstn_all, Nat.sub_diag, app_nil_r, skipn_app, skipn_all, Nat.sub_diag. auto. Qed.
Lemma zipw_app2 {A B D} (f : A -> B -> D) a a' b b' : length a = length b -> zipw f (a ++ a') (b ++ b') = zipw f a b ++ zipw f a' b'.
Proof. revert b. induction a as [|x a IH]; intros [|z b] H; cbn [length] in H; try lia; cbn [app zipw]; auto. rewrite IH by lia. auto. Qed.
Section Ext.
Context {p : Z} {K : Type} (y : cyc p K) (XL : ext_laws y) (r : K).
#[local] Hint Extern 0 (FieldOps K) => exact (cy_KO y) : typeclass_instances.
Local Instance KLx : FieldLaws K := xl_K y XL.
Add Ring Kring73 : (@rlaws_th K _ (fld_laws (FieldLaws := KLx))).
Lemma quad_ext_laws : nonsquare r -> ext_laws (quad_ext_of y r).
Proof.
  intros Hr. destruct XL as [H1 H2 H3 H4 H5 H6]. split; cbn [cy_KO cy_emb cy_co cy_of cy_e quad_ext_of].
  - apply quad_laws; auto.
  - destruct H2 as [h0 h1 ha hm ho hs]. destruct (q_emb_hom r) as [g0 g1 ga gm go gs].
    split; intros; rewrite ?ha, ?hm, ?ho, ?hs, ?h0, ?h1; auto.
  - intros x. rewrite app_length, !H3. auto.
  - intros x x'. cbn [radd fld_ring quad_ops q0 q1]. rewrite !H4. symmetry. apply zipw_app2. rewrite !H3. auto.
  - intros a x. cbn [rmul fld_ring quad_ops q0 q1 q_emb]. rewrite map_app, <- !H5. f_equal; f_equal; ring.
  - intros x. destruct (app_split (cy_e y) (cy_co y (q0 x)) (cy_co y (q1 x)) (H3 _)) as [-> ->]. rewrite !H6. destruct x; auto.
Qed.
Definition cub_ext_of : cyc p (cub (K := K)) :=
  Cyc (@cub_ops K (cy_KO y) r) (fun x => @c_emb K (cy_KO y) (cy_emb y x)) (fun x => cy_co y (u0 x) ++ cy_co y (u1 x) ++ cy_co y (u2 x))
    (fun l => Cub (cy_of y (firstn (cy_e y) l)) (cy_of y (firstn (cy_e y) (skipn (cy_e y) l))) (cy_of y (skipn (cy_e y) (skipn (cy_e y) l))))
    (cy_e y + (cy_e y + cy_e y)) 0 [] [] [].
Lemma cub_ext_laws : noncube r -> ext_laws cub_ext_of.
Proof.
  intros Hr. destruct XL as [H1 H2 H3 H4 H5 H6]. split; cbn [cy_KO cy_emb cy_co cy_of cy_e cub_ext_of].
  - apply cub_laws; auto.
  - destruct H2 as [h0 h1 ha hm ho hs]. destruct (c_emb_hom r) as [g0 g1 ga gm go gs].
    split; intros; rewrite ?ha, ?hm, ?ho, ?hs, ?h0, ?h1; auto.
  - intros x. rewrite !app_length, !H3. auto.
  - intros x x'. cbn [radd fld_ring cub_ops u0 u1 u2]. rewrite !H4. rewrite !zipw_app2 by (rewrite !H3; auto). auto.
  - intros a x. cbn [rmul fld_ring cub_ops u0 u1 u2 c_emb]. rewrite !map_app, <- !H5. f_equal; [|f_equal]; f_equal; ring.
  - intros x. destruct (app_split (cy_e y) (cy_co y (u0 x)) (cy_co y (u1 x) ++ cy_co y (u2 x)) (H3 _)) as [-> ->].
    destruct (app_split (cy_e y) (cy_co y (u1 x)) (cy_co y (u2 x)) (H3 _)) as [-> ->]. rewrite !H6. destruct x; auto.
Qed.
End Ext.

Definition mk_cyc {p K} (y : cyc p K) (psi : list Z) (theta : K) (r : fp p) (js : list nat) : cyc p K :=
  Cyc (cy_KO y) (cy_emb y) (cy_co y) (cy_of y) (cy_e y) (length js) (map (zp p) psi)
    (let pw := @powers K (@fld_ring K (cy_KO y)) theta (@rone K (@fld_ring K (cy_KO y))) (S (list_max js)) in map (fun j => nth j pw theta) js)
    (let pw := powers r 1 (S (list_max js)) in map (fun j => nth j pw r) js).
Lemma mk_cyc_ext {p K} (y : cyc p K) psi theta r js : ext_laws y -> ext_laws (mk_cyc y psi theta r js).
Proof. intros H. apply (ext_reuse y); auto. Qed.

(** The units modulo 24, the odd numbers below 8 and 32. *)
Definition units24 : list nat := [1; 5; 7; 11; 13; 17; 19; 23]%nat.
Definition odds (n : nat) : list nat := map (fun i => 2 * i + 1)%nat (seq 0 n).

(** * Goldilocks: X^24 - X^12 + 1, 8 slots of degree 3 (goldilocks.rs 10-20) *)
Definition gold_r : fp gold_p := zp gold_p 256.
Definition gold_ext : cyc gold_p cub := cub_ext_of (base_ext gold_p) gold_r.
Definition gold_cyc : cyc gold_p cub := mk_cyc gold_ext [-1; 0; 0; 0; 1]%Z (Cub 0 1 0) gold_r units24.
Lemma gold_noncube : noncube gold_r.
Proof. apply noncube_fp; [exact gold_prime|split; reflexivity|reflexivity|vm_compute; discriminate]. Qed.
Lemma gold_xl : ext_laws gold_cyc.
Proof. apply mk_cyc_ext. apply cub_ext_laws; [apply base_ext_laws; exact gold_prime|exact gold_noncube]. Qed.
Lemma gold_check : cyc_check gold_cyc = true.
Proof. vm_cast_no_check (eq_refl true). Qed.

(** * BabyBear: X^72 - X^36 + 1, 8 slots of degree 9 (babybear.rs 10-20) *)
Definition bb_r : fp bb_p := zp bb_p 1398021245.
Definition bb_ext1 : cyc bb_p cub := cub_ext_of (base_ext bb_p) bb_r.
Definition bb_ext : cyc bb_p cub := cub_ext_of bb_ext1 (Cub 0 1 0).
Definition bb_cyc : cyc bb_p cub := mk_cyc bb_ext [-1; 0; 0; 0; 1]%Z
  (@Cub cub (Cub 0 0 0) (Cub 1 0 0) (Cub 0 0 0)) bb_r units24.
Lemma bb_noncube1 : noncube bb_r.
Proof. apply noncube_fp; [exact bb_prime|split; reflexivity|reflexivity|vm_compute; discriminate]. Qed.
Lemma bb_xl1 : ext_laws bb_ext1.
Proof. apply cub_ext_laws; [apply base_ext_laws; exact bb_prime|exact bb_noncube1]. Qed.
Lemma bb_noncube : @noncube cub (@fld_ring _ (cy_KO bb_ext1)) (Cub 0 1 0).
Proof.
  pose proof (xl_K _ (base_ext_laws _ bb_prime)) as FL. cbn [cy_KO base_ext] in FL.
  apply (noncube_norm (KL := FL) bb_r). replace (cnorm bb_r (Cub 0 1 0)) with bb_r; [exact bb_noncube1|]. vm_compute. apply fp_ext. reflexivity.
Qed.
Lemma bb_xl : ext_laws bb_cyc.
Proof. apply mk_cyc_ext. apply cub_ext_laws; [exact bb_xl1|exact bb_noncube]. Qed.
Lemma bb_check : cyc_check bb_cyc = true.
Proof. vm_cast_no_check (eq_refl true). Qed.

(** * Frog: X^16 + 1, 4 slots of degree 4 (frog.rs 9-21) *)
Definition frog_r : fp frog_p := zp frog_p 2755067726615789629.
Definition frog_ext1 : cyc frog_p quad := quad_ext_of (base_ext frog_p) frog_r.
Definition frog_ext : cyc frog_p quad := quad_ext_of frog_ext1 (Quad 0 1).
Definition frog_cyc : cyc frog_p quad := mk_cyc frog_ext [-1]%Z (@Quad quad (Quad 0 0) (Quad 1 0)) frog_r (odds 4).
Lemma frog_nonsquare1 : nonsquare frog_r.
Proof. apply nonsquare_fp; [exact frog_prime|split; reflexivity|reflexivity|vm_compute; discriminate]. Qed.
Lemma frog_xl1 : ext_laws frog_ext1.
Proof. apply quad_ext_laws; [apply base_ext_laws; exact frog_prime|exact frog_nonsquare1]. Qed.
Lemma frog_nonsquare : @nonsquare quad (@fld_ring _ (cy_KO frog_ext1)) (Quad 0 1).
Proof.
  pose proof (xl_K _ (base_ext_laws _ frog_prime)) as FL. cbn [cy_KO base_ext] in FL.
  apply (nonsquare_norm (KL := FL) frog_r).
  replace (qnorm frog_r (Quad 0 1)) with (zp frog_p (frog_p - 2755067726615789629)); [|vm_compute; apply fp_ext; reflexivity].
  apply nonsquare_fp; [exact frog_prime|split; reflexivity|reflexivity|vm_compute; discriminate].
Qed.
Lemma frog_xl : ext_laws frog_cyc.
Proof. apply mk_cyc_ext. apply quad_ext_laws; [exact frog_xl1|exact frog_nonsquare]. Qed.
Lemma frog_check : cyc_check frog_cyc = true.
Proof. vm_cast_no_check (eq_refl true). Qed.

(** * Stark: X^16 + 1, 16 slots of degree 1 (stark.rs 1-21) *)
Definition stark_r : fp stark_p := zp stark_p 3409443867035641044245057348756544640549407421541289951053907001322227935403.
Definition stark_cyc : cyc stark_p (fp stark_p) := mk_cyc (base_ext stark_p) [-1]%Z stark_r stark_r (odds 16).
Lemma stark_xl : ext_laws stark_cyc.
Proof. apply mk_cyc_ext. apply base_ext_laws. exact stark_prime. Qed.
Lemma stark_check : cyc_check stark_cyc = true.
Proof. vm_cast_no_check (eq_refl true). Qed.
