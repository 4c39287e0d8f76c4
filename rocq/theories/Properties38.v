(** C122: what a constraint system made by a sequence of builder calls means. *)
From Coq Require Import String List Arith Lia ZArith Bool Ring Permutation.
From Verif Require Import Prelude Alg Poly MLE MLE_Proofs Arith Arith_Proofs Builder Decomposition_Proofs.
Import ListNotations.
Local Open Scope rs_scope.

(** The calls that make a linear combination. *)
Inductive lexp (R : Type) := LNew | LSingle (c : R) (i : nat) | LAdd (e : lexp R) (c : R) (i : nat) | LAdds (e : lexp R) (ts : list (R * nat)).
Arguments LNew {R}. Arguments LSingle {R}. Arguments LAdd {R}. Arguments LAdds {R}.
(** The calls and assignments that make a constraint system, in the order in which they are made. *)
Inductive call (R : Type) := SetInputs (n : nat) | SetAuxs (n : nat) | AddConstraint (a b c : lexp R).
Arguments SetInputs {R}. Arguments SetAuxs {R}. Arguments AddConstraint {R}.

Section Spec.
Context {R : Type} {RO : RingOps R}.
(** What the calls do. *)
Fixpoint run_l (e : lexp R) : lincomb R :=
  match e with LNew => lc_new | LSingle c i => lc_single c i | LAdd e c i => lc_add_term (run_l e) c i | LAdds e ts => lc_add_terms (run_l e) ts end.
Definition run_call (s : csys R) (k : call R) : csys R :=
  match k with SetInputs n => cs_set_ninputs s n | SetAuxs n => cs_set_nauxs s n | AddConstraint a b c => cs_add s (Constr (run_l a) (run_l b) (run_l c)) end.
Definition run (ks : list (call R)) : csys R := fold_left run_call ks cs_new.
(** What they mean: the value for an assignment of the variables, and the variables used. *)
Fixpoint mean (e : lexp R) (z : nat -> R) : R :=
  match e with LNew => 0 | LSingle c i => c * z i | LAdd e c i => mean e z + c * z i
  | LAdds e ts => fold_right (fun t v => v + fst t * z (snd t)) (mean e z) ts end.
Fixpoint uses (e : lexp R) (i : nat) : Prop :=
  match e with LNew => False | LSingle _ j => i = j | LAdd e _ j => uses e i \/ i = j | LAdds e ts => uses e i \/ exists t, In t ts /\ i = snd t end.
Fixpoint constraints (ks : list (call R)) : list (lexp R * lexp R * lexp R) :=
  match ks with [] => [] | AddConstraint a b c :: ks => (a, b, c) :: constraints ks | _ :: ks => constraints ks end.
Fixpoint inputs_set (n : nat) (ks : list (call R)) : nat := match ks with [] => n | SetInputs m :: ks => inputs_set m ks | _ :: ks => inputs_set n ks end.
Fixpoint auxs_set (n : nat) (ks : list (call R)) : nat := match ks with [] => n | SetAuxs m :: ks => auxs_set m ks | _ :: ks => auxs_set n ks end.
Definition within (n : nat) (k : lexp R * lexp R * lexp R) : Prop := forall i, uses (fst (fst k)) i \/ uses (snd (fst k)) i \/ uses (snd k) i -> (i < n)%nat.
Definition holds (z : nat -> R) (k : lexp R * lexp R * lexp R) : Prop := mean (fst (fst k)) z * mean (snd (fst k)) z = mean (snd k) z.
End Spec.

Section Proofs.
Context {R : Type} {RO : RingOps R} {LR : RingLaws R}.
Add Ring Rring109 : (@rlaws_th R _ _).
Lemma add_terms_app (ts : list (R * nat)) lc : lc_add_terms lc ts = lc ++ ts.
Proof. revert lc. unfold lc_add_terms. induction ts as [|t ts IH]; intros lc; cbn [fold_left]; [symmetry; apply app_nil_r|]. rewrite IH, <- app_assoc. reflexivity. Qed.
Lemma run_l_uses (e : lexp R) i : (exists t, In t (run_l e) /\ i = snd t) <-> uses e i.
Proof.
  induction e as [|c j|e IH c j|e IH ts]; cbn [run_l uses].
  - split; [intros (t & [] & _)|intros []].
  - split; [intros (t & [<-|[]] & ->); reflexivity|intros ->; exists (c, j); cbn; auto].
  - unfold lc_add_term. rewrite <- IH. split.
    + intros (t & Ht & ->). apply in_app_or in Ht as [Ht|[<-|[]]]; [left; eauto|right; reflexivity].
    + intros [(t & Ht & ->)| ->]; [exists t|exists (c, j)]; split; auto; apply in_or_app; cbn; auto.
  - rewrite add_terms_app, <- IH. split.
    + intros (t & Ht & ->). apply in_app_or in Ht as [Ht|Ht]; eauto.
    + intros [(t & Ht & ->)|(t & Ht & ->)]; exists t; split; auto; apply in_or_app; auto.
Qed.
Lemma lsum_terms (ts : list (R * nat)) (z : nat -> R) v : fold_right (fun t v => v + fst t * z (snd t)) v ts = v + lsum (map (fun t => fst t * z (snd t)) ts).
Proof. unfold lsum. induction ts as [|t ts IH]; cbn [fold_right map]; [|rewrite IH]; ring. Qed.
Lemma run_l_mean (e : lexp R) (z : nat -> R) : lsum (map (fun t => fst t * z (snd t)) (run_l e)) = mean e z.
Proof.
  induction e as [|c j|e IH c j|e IH ts]; cbn [run_l mean].
  - reflexivity.
  - unfold lsum, lc_single. cbn. ring.
  - rewrite <- IH. unfold lc_add_term. rewrite map_app, lsum_app. unfold lsum at 2. cbn. ring.
  - rewrite lsum_terms, add_terms_app, map_app, lsum_app, IH. reflexivity.
Qed.
Lemma lc_panic (lc : lincomb R) z : (exists t, In t lc /\ (length z <= snd t)%nat) -> lc_evaluate lc z = Panic.
Proof.
  unfold lc_evaluate. assert (forall lc : lincomb R, fold_left (fun acc t => do acc <- acc; do zi <- index z (snd t); Ok (acc + fst t * zi)) lc Panic = Panic) as HP.
  { clear. induction lc as [|t lc IH]; [reflexivity|exact IH]. }
  assert (forall a, (exists t, In t lc /\ (length z <= snd t)%nat) -> fold_left (fun acc t => do acc <- acc; do zi <- index z (snd t); Ok (acc + fst t * zi)) lc (Ok a) = Panic) as HH; [|auto].
  induction lc as [|t lc IH]; intros a (u & Hu & Hl); [destruct Hu|]. cbn [fold_left bind]. unfold index. destruct (nth_error z (snd t)) as [v|] eqn:E; cbn [bind]; [|apply HP].
  destruct Hu as [<-|Hu]; [apply nth_error_None in Hl; rewrite Hl in E; discriminate E|]. apply IH. eauto.
Qed.
(** Evaluation gives the meaning when all variables used are assigned, and otherwise panics. *)
Theorem C122_evaluate (e : lexp R) (z : list R) :
  ((forall i, uses e i -> (i < length z)%nat) -> lc_evaluate (run_l e) z = Ok (mean e (fun i => nth i z 0))) /\
  ((exists i, uses e i /\ (length z <= i)%nat) -> lc_evaluate (run_l e) z = Panic).
Proof.
  split.
  - intros H. assert (forall t, In t (run_l e) -> (snd t < length z)%nat) as HV by (intros t Ht; apply H, run_l_uses; eauto).
    rewrite lc_evaluate_row by (apply forallb_forall; intros t Ht; apply Nat.ltb_lt, HV, Ht). rewrite row_mul_ok by (apply Forall_forall; exact HV).
    f_equal. exact (run_l_mean e (fun i => nth i z 0)).
  - intros (i & Hu & Hi). apply lc_panic. apply run_l_uses in Hu as (t & Ht & ->). eauto.
Qed.
(** The order of the terms is irrelevant. *)
Theorem C122_order (l l' : list (R * nat)) (z : list R) : Permutation l l' -> lc_evaluate (lc_add_terms lc_new l) z = lc_evaluate (lc_add_terms lc_new l') z.
Proof.
  intros HP. rewrite !add_terms_app. unfold lc_new. cbn [app].
  destruct (forallb (fun t => (snd t <? length z)%nat) l) eqn:E.
  - assert (forallb (fun t => (snd t <? length z)%nat) l' = true) as E'.
    { rewrite forallb_forall in *. intros t Ht. apply E, (Permutation_in _ (Permutation_sym HP)), Ht. }
    rewrite !lc_evaluate_row by assumption. rewrite forallb_forall in E, E'.
    rewrite !row_mul_ok by (apply Forall_forall; intros t Ht; apply Nat.ltb_lt; auto). f_equal. clear E E'. induction HP; cbn [map]; unfold lsum in *; cbn [fold_right]; try congruence; ring.
  - assert (exists t, In t l /\ (length z <= snd t)%nat) as (t & Ht & Hl).
    { clear HP. induction l as [|t l IH]; [discriminate E|]. cbn [forallb] in E. apply andb_false_iff in E as [E|E]; [apply Nat.ltb_ge in E; exists t; cbn; auto|]. destruct (IH E) as (u & Hu & ?). exists u. cbn. auto. }
    rewrite !lc_panic; [reflexivity|exists t; split; [apply (Permutation_in _ HP)|]|]; eauto.
Qed.
Lemma run_fields (ks : list (call R)) s :
  s_ninputs (fold_left run_call ks s) = inputs_set (s_ninputs s) ks /\ s_nauxs (fold_left run_call ks s) = auxs_set (s_nauxs s) ks /\
  s_cons (fold_left run_call ks s) = s_cons s ++ map (fun k => Constr (run_l (fst (fst k))) (run_l (snd (fst k))) (run_l (snd k))) (constraints ks).
Proof.
  revert s. induction ks as [|k ks IH]; intros s; cbn [fold_left]; [cbn; rewrite app_nil_r; auto|].
  destruct (IH (run_call s k)) as (E1 & E2 & E3). rewrite E1, E2, E3. destruct k; cbn [run_call cs_set_ninputs cs_set_nauxs cs_add s_ninputs s_nauxs s_cons inputs_set auxs_set constraints map]; repeat split; auto.
  rewrite <- app_assoc. reflexivity.
Qed.
Theorem C122_fields (ks : list (call R)) :
  s_ninputs (run ks) = inputs_set 0 ks /\ s_nauxs (run ks) = auxs_set 0 ks /\ cs_nconstraints (run ks) = length (constraints ks) /\
  (csys_valid (run ks) = true <-> Forall (within (inputs_set 0 ks + auxs_set 0 ks)) (constraints ks)).
Proof.
  destruct (run_fields ks cs_new) as (E1 & E2 & E3). fold (run ks) in *. cbn [cs_new s_ninputs s_nauxs s_cons app] in *.
  split; [exact E1|]. split; [exact E2|]. split; [unfold cs_nconstraints; rewrite E3; apply map_length|].
  unfold csys_valid, s_nvars. rewrite E1, E2, E3. set (n := (inputs_set 0 ks + auxs_set 0 ks)%nat).
  assert (forall e : lexp R, lc_valid (run_l e) n = true <-> forall i, uses e i -> (i < n)%nat) as HL.
  { intros e. unfold lc_valid. rewrite forallb_forall. split.
    - intros H i Hi. apply run_l_uses in Hi as (t & Ht & ->). apply Nat.ltb_lt, H, Ht.
    - intros H t Ht. apply Nat.ltb_lt, H, run_l_uses. eauto. }
  assert ((n <? inputs_set 0 ks)%nat = false) as -> by (apply Nat.ltb_ge; unfold n; lia). cbn [negb andb].
  rewrite forallb_forall, Forall_forall. split.
  - intros H k Hk i Hi. specialize (H _ (in_map _ _ _ Hk)). cbn [k_a k_b k_c] in H. apply andb_prop in H as [H H3]. apply andb_prop in H as [H1 H2].
    destruct Hi as [Hi|[Hi|Hi]]; [exact (proj1 (HL _) H1 i Hi)|exact (proj1 (HL _) H2 i Hi)|exact (proj1 (HL _) H3 i Hi)].
  - intros H k' Hk'. apply in_map_iff in Hk' as (k & <- & Hk). specialize (H k Hk). cbn [k_a k_b k_c].
    rewrite !andb_true_iff, !HL. repeat split; intros i Hi; apply H; auto.
Qed.
Lemma check_from_mean z cons i : Forall (within (length z)) cons ->
  first_bad (i + length cons) (fun j => (i <= j)%nat /\ ~ holds (fun v => nth v z 0) (nth (j - i) cons (LNew, LNew, LNew)))
    (csys_check_from i (map (fun k : lexp R * lexp R * lexp R => Constr (run_l (fst (fst k))) (run_l (snd (fst k))) (run_l (snd k))) cons) z).
Proof.
  revert i. induction cons as [|[[a b] c] cons IH]; intros i H; cbn [map csys_check_from].
  - left. split; [reflexivity|]. intros j Hj [Hi _]. cbn [length] in Hj. lia.
  - apply Forall_cons_iff in H as [Hk H]. unfold within in Hk. cbn [fst snd k_a k_b k_c] in *.
    rewrite !(proj1 (C122_evaluate _ z)) by (intros v Hv; apply Hk; auto). cbn [bind].
    destruct (mean a _ * mean b _ =? mean c _) eqn:E; cbn [negb].
    + apply req_true in E. destruct (IH (S i) H) as [[E1 H1]|(j & E1 & H1 & [H2 H3] & H4)].
      * left. split; [exact E1|]. intros j Hj [Hi Hb]. destruct (Nat.eq_dec j i) as [->|N]; [apply Hb; rewrite Nat.sub_diag; exact E|].
        apply (H1 j); [cbn [length] in Hj; lia|]. split; [lia|]. replace (j - i)%nat with (S (j - S i)) in Hb by lia. exact Hb.
      * right. exists j. split; [exact E1|]. split; [cbn [length]; lia|]. split; [split; [lia|]; replace (j - i)%nat with (S (j - S i)) by lia; exact H3|].
        intros j' Hj' [Hi Hb]. destruct (Nat.eq_dec j' i) as [->|N]; [apply Hb; rewrite Nat.sub_diag; exact E|].
        apply (H4 j' Hj'). split; [lia|]. replace (j' - i)%nat with (S (j' - S i)) in Hb by lia. exact Hb.
    + right. exists i. split; [reflexivity|]. split; [cbn [length]; lia|]. split; [|intros j Hj [Hi _]; lia]. split; [lia|]. rewrite Nat.sub_diag. intros E'. unfold holds in E'. cbn [nth fst snd] in E'.
      rewrite (proj2 (req_true _ _) E') in E. discriminate E.
Qed.
(** The system is satisfied when all constraints hold; otherwise the first that does not is reported. *)
Theorem C122_satisfied (ks : list (call R)) (x w : list R) :
  length x = inputs_set 0 ks -> length w = auxs_set 0 ks -> Forall (within (length x + length w)) (constraints ks) ->
  first_bad (length (constraints ks)) (fun j => ~ holds (fun v => nth v (x ++ w) 0) (nth j (constraints ks) (LNew, LNew, LNew))) (csys_satisfied (run ks) x w) /\
  r1cs_check (csys_to_r1cs (run ks)) (x ++ w) = csys_satisfied (run ks) x w.
Proof.
  intros Hx Hw HF. destruct (C122_fields ks) as (F1 & F2 & _ & F4). split.
  - destruct (run_fields ks cs_new) as (_ & _ & E3). fold (run ks) in E3. unfold csys_satisfied, s_nvars. rewrite F1, F2, E3, Hx, Hw, !Nat.eqb_refl. cbn [negb cs_new s_cons app].
    rewrite <- app_length in HF. destruct (check_from_mean (x ++ w) (constraints ks) 0 HF) as [[E1 H1]|(j & E1 & H1 & [H2 H3] & H4)].
    + left. split; [exact E1|]. intros j Hj Hb. apply (H1 j Hj). split; [lia|]. rewrite Nat.sub_0_r. exact Hb.
    + right. exists j. split; [exact E1|]. split; [exact H1|]. rewrite Nat.sub_0_r in H3. split; [exact H3|]. intros j' Hj' Hb. apply (H4 j' Hj'). split; [lia|]. rewrite Nat.sub_0_r. exact Hb.
  - symmetry. apply csys_r1cs_equiv; [apply F4; rewrite <- Hx, <- Hw; exact HF| |]; congruence.
Qed.
(** The rows of the matrices are the terms as they were added. *)
Theorem C122_rows (ks : list (call R)) i :
  r1cs_constraint (csys_to_r1cs (run ks)) i = match nth_error (constraints ks) i with Some (a, b, c) => Ok (run_l a, run_l b, run_l c) | None => Panic end.
Proof.
  destruct (run_fields ks cs_new) as (_ & _ & E3). fold (run ks) in E3. cbn [cs_new s_cons app] in E3.
  unfold r1cs_constraint, csys_to_r1cs, index. cbn [r_A r_B r_C m_coeffs]. rewrite E3, !map_map, !nth_error_map. destruct (nth_error (constraints ks) i) as [[[a b] c]|]; reflexivity.
Qed.
End Proofs.
