(** Specification of the relations the folding protocol is about, and linear algebra used to
    reason about them. *)
From Coq Require Import List Arith Lia ZArith Bool Ring.
From Verif Require Import Prelude Alg MLE MLE_Proofs Transcript Arith Arith_Proofs Balanced Rings Rings_Proofs
  Linearization_Proofs.
Import ListNotations.
Local Open Scope rs_scope.

Section Rel.
Context {F K C R : Type} {SO : SOps F K C R} (p : Z).

(** Sizes and decomposition parameters under which the protocol is complete: base b with K digits
    covers B, base B with L digits covers the characteristic, and the witness fills exactly the
    boolean cube of the constraints (log2 of the padded witness length is s). *)
Record sizes_ok (P : dparams) (cs : ccs R) : Prop := {
  so_b : (2 <= dp_b P)%nat;
  so_K : (1 <= dp_K P)%nat;
  so_cov : covers (p := p) P;
  so_Bb : (dp_B P <= Z.of_nat (dp_b P) ^ Z.of_nat (dp_K P))%Z;
  so_wf : wf_ccs cs;
  so_sized : sized_ccs cs;
  so_n : (c_l cs + 1 < c_n cs)%nat;
  so_m : next_pow2 ((c_n cs - c_l cs - 1) * dp_L P) = c_m cs }.

(** [w] opens the commitment and has the right length. *)
Record opens (P : dparams) (A : ajtai R) (cs : ccs R) (cm : list R) (w : witness C R) : Prop := {
  op_wit : wit_consistent P w;
  op_len : length (w_f w) = ((c_n cs - c_l cs - 1) * dp_L P)%nat;
  op_cm : commit A (w_f w) = Ok cm }.

(** Linearized relation. *)
Record lcccs_rel (P : dparams) (A : ajtai R) (cs : ccs R) (lc : lcccs R) (w : witness C R) : Prop := {
  lr_open : opens P A cs (lc_cm lc) w;
  lr_r : length (lc_r lc) = c_s cs;
  lr_x : length (lc_x lc) = c_l cs;
  lr_v : lc_v lc = map (fun j => mle_spec (fun b => hat j (nth b (w_fc w) 0)) (lc_r lc)) (seq 0 tau);
  lr_u : lc_u lc = map (fun M => mle_spec (mz M (lc_x lc ++ lc_h lc :: w_ccs w)) (lc_r lc)) (c_M cs) }.

(** Committed CCS relation. *)
Record cccs_rel (P : dparams) (A : ajtai R) (cs : ccs R) (i : cccs R) (w : witness C R) : Prop := {
  cr_open : opens P A cs (i_cm i) w;
  cr_x : length (i_x i) = c_l cs;
  cr_sat : forall b, (b < c_m cs)%nat -> ccs_row cs (i_x i ++ 1 :: w_ccs w) b = 0 }.

(** All coefficients of the witness have absolute value at most [B]. *)
Definition wit_norm (B : Z) (w : witness C R) : Prop := Forall (cnorm_le B) (w_fc w).
End Rel.

(** ** Linear combinations of vectors *)
Section Lin.
Context {R : Type} {RO : RingOps R} {LR : RingLaws R}.
Add Ring Rring12 : (@rlaws_th R RO LR).

(** [v] is the combination of [vs 0 .. vs (n-1)] with coefficients [c]. *)
Definition is_lin (n : nat) (c : nat -> R) (vs : nat -> list R) (v : list R) : Prop :=
  (forall i, (i < n)%nat -> length (vs i) = length v) /\
  forall j, nth j v 0 = sumn n (fun i => c i * nth j (vs i) 0).

Lemma is_lin_intro n c vs v :
  (forall i, (i < n)%nat -> length (vs i) = length v) ->
  (forall j, (j < length v)%nat -> nth j v 0 = sumn n (fun i => c i * nth j (vs i) 0)) -> is_lin n c vs v.
Proof.
  intros H1 H2. split; auto. intros j. destruct (Nat.lt_ge_cases j (length v)); auto.
  rewrite nth_overflow by auto. symmetry. apply sumn_0. intros i Hi. rewrite nth_overflow; [ring|].
  rewrite H1; auto.
Qed.
Lemma is_lin_ext n c vs vs' v : (forall i, (i < n)%nat -> vs i = vs' i) -> is_lin n c vs v -> is_lin n c vs' v.
Proof.
  intros H [H1 H2]. split.
  - intros i Hi. rewrite <- H by auto. auto.
  - intros j. rewrite H2. apply sumn_ext. intros i Hi. rewrite H by auto. auto.
Qed.
Lemma is_lin_app n c vs ws v w : is_lin n c vs v -> is_lin n c ws w ->
  is_lin n c (fun i => vs i ++ ws i) (v ++ w).
Proof.
  intros [H1 H2] [H3 H4]. split.
  - intros i Hi. rewrite !app_length, H1, H3 by auto. auto.
  - intros j. destruct (Nat.lt_ge_cases j (length v)).
    + rewrite app_nth1 by auto. rewrite H2. apply sumn_ext. intros i Hi. rewrite app_nth1; auto. rewrite H1; auto.
    + rewrite app_nth2 by auto. rewrite H4. apply sumn_ext. intros i Hi.
      rewrite (app_nth2 (vs i)) by (rewrite H1; auto). rewrite H1 by auto. auto.
Qed.
Lemma is_lin_dot n c vs v row : is_lin n c vs v ->
  lsum (zipw rmul row v) = sumn n (fun i => c i * lsum (zipw rmul row (vs i))).
Proof.
  intros [H1 H2]. change (dot row v = sumn n (fun i => c i * dot row (vs i))). rewrite dot_nth.
  transitivity (sumn (Nat.min (length row) (length v)) (fun j => sumn n (fun i => c i * (nth j row 0 * nth j (vs i) 0)))).
  - apply sumn_ext. intros j Hj. rewrite H2. rewrite <- sumn_mul_l. apply sumn_ext. intros. ring.
  - rewrite sumn_swap. apply sumn_ext. intros i Hi. rewrite sumn_mul_l, dot_nth, H1 by auto. auto.
Qed.
Lemma is_lin_mz n c vs v M b : is_lin n c vs v ->
  mz M v b = sumn n (fun i => c i * mz M (vs i) b).
Proof.
  intros [H1 H2]. unfold mz.
  transitivity (sumn (length v) (fun j => sumn n (fun i => c i * (mat_entry M b j * nth j (vs i) 0)))).
  - apply sumn_ext. intros j Hj. rewrite H2. rewrite <- sumn_mul_l. apply sumn_ext. intros. ring.
  - rewrite sumn_swap. apply sumn_ext. intros i Hi. rewrite sumn_mul_l, H1 by auto. auto.
Qed.
Lemma is_lin_mle_mz n c vs v M r : is_lin n c vs v ->
  mle_spec (mz M v) r = sumn n (fun i => c i * mle_spec (mz M (vs i)) r).
Proof.
  intros H. rewrite (mle_spec_ext _ (fun b => sumn n (fun i => c i * mz M (vs i) b))).
  - rewrite (mle_spec_sumn n (fun i b => c i * mz M (vs i) b)). apply sumn_ext. intros. apply mle_spec_scale.
  - intros. apply is_lin_mz. auto.
Qed.
Lemma is_lin_commit n c vs v A cms : is_lin n c vs v -> length v = a_ncols A ->
  (forall i, (i < n)%nat -> commit A (vs i) = Ok (cms i)) ->
  exists cm, commit A v = Ok cm /\ length cm = kappa A /\ is_lin n c cms cm.
Proof.
  intros H Hl Hc. eexists. split; [apply commit_ok; auto|]. split; [unfold kappa; rewrite map_length; auto|].
  assert (forall i, (i < n)%nat -> cms i = map (fun row => lsum (zipw rmul row (vs i))) (a_rows A)) as Hcm.
  { intros i Hi. specialize (Hc i Hi). rewrite commit_ok in Hc by (rewrite (proj1 H) by auto; auto). congruence. }
  apply is_lin_intro.
  - intros i Hi. rewrite Hcm by auto. rewrite !map_length. auto.
  - intros j Hj. rewrite map_length in Hj. rewrite (nth_map_lt _ _ _ []) by auto. rewrite (is_lin_dot n c vs) by auto.
    apply sumn_ext. intros i Hi. rewrite Hcm by auto. rewrite (nth_map_lt _ _ _ []) by auto. auto.
Qed.
Lemma is_lin_unique n c vs v w : is_lin n c vs v -> is_lin n c vs w -> length v = length w -> v = w.
Proof. intros [_ H1] [_ H2] Hl. apply (list_ext 0); auto. intros j _. rewrite H1, H2. auto. Qed.
Lemma is_lin_map_seq n c k (f : nat -> nat -> R) (g : nat -> R) :
  (forall j, (j < k)%nat -> g j = sumn n (fun i => c i * f i j)) ->
  is_lin n c (fun i => map (f i) (seq 0 k)) (map g (seq 0 k)).
Proof.
  intros H. apply is_lin_intro.
  - intros. rewrite !map_length. auto.
  - intros j Hj. rewrite map_length, seq_length in Hj. rewrite nth_seq_map by auto. rewrite H by auto.
    apply sumn_ext. intros. rewrite (nth_seq_map (f i)) by auto. auto.
Qed.
Lemma is_lin_map {A} n c (l : list A) (f : nat -> A -> R) (g : A -> R) :
  (forall a, In a l -> g a = sumn n (fun i => c i * f i a)) ->
  is_lin n c (fun i => map (f i) l) (map g l).
Proof.
  intros H. apply is_lin_intro.
  - intros. rewrite !map_length. auto.
  - intros j Hj. rewrite map_length in Hj.
    destruct l as [|a0 l0]; [cbn in Hj; lia|]. set (l := a0 :: l0) in *.
    rewrite (nth_map_lt _ _ _ a0) by auto. rewrite H by (apply nth_In; auto).
    apply sumn_ext. intros. rewrite (nth_map_lt _ _ _ a0) by auto. auto.
Qed.

(** *** Gadget recomposition *)
Lemma chunks_cons {A} L (v : list A) : (1 <= L)%nat -> v <> [] -> chunks L v = firstn L v :: chunks L (skipn L v).
Proof.
  intros HL Hv. destruct v as [|a v]; [contradiction|]. unfold chunks. cbn [length chunks_fuel]. f_equal.
  assert (forall f f' (l : list A), (length l <= f)%nat -> (length l <= f')%nat -> chunks_fuel f L l = chunks_fuel f' L l) as HF.
  { induction f as [|f IH]; intros f' l H1 H2.
    - destruct l; [|cbn in H1; lia]. destruct f'; reflexivity.
    - destruct f' as [|f']; [destruct l; [reflexivity|cbn in H2; lia]|]. cbn [chunks_fuel].
      destruct l as [|x l]; auto. f_equal. apply IH; rewrite skipn_length; cbn [length] in *; lia. }
  apply HF; rewrite skipn_length; cbn [length]; lia.
Qed.
Lemma chunks_nil {A} L : chunks L ([] : list A) = [].
Proof. reflexivity. Qed.
Lemma nth_chunks {A} (d : A) L v t k : (1 <= L)%nat -> (k < L)%nat ->
  nth k (nth t (chunks L v) []) d = nth (t * L + k) v d.
Proof.
  intros HL Hk. revert v; induction t as [|t IH]; intros v.
  - destruct v as [|a v]; [rewrite chunks_nil; cbn; destruct k; auto|].
    rewrite chunks_cons by (auto; discriminate). set (v' := a :: v). cbn [nth Nat.mul Nat.add].
    apply nth_firstn_lt. auto.
  - destruct v as [|a v].
    + rewrite chunks_nil. destruct (S t * L + k)%nat; destruct k; auto.
    + rewrite chunks_cons by (auto; discriminate). set (v' := a :: v). cbn [nth]. rewrite IH.
      rewrite <- (firstn_skipn L v') at 2.
      destruct (Nat.lt_ge_cases (length v') L) as [Hlt|Hge].
      * rewrite skipn_all2 by lia. rewrite app_nil_r.
        rewrite (nth_overflow (firstn L v')) by (rewrite firstn_length; cbn [Nat.mul]; lia).
        destruct (t * L + k)%nat; auto.
      * rewrite app_nth2; rewrite firstn_length, Nat.min_l by auto; [|cbn [Nat.mul]; lia].
        f_equal. cbn [Nat.mul]. lia.
Qed.
Lemma chunk_length_le {A} L (v : list A) t : (1 <= L)%nat -> (length (nth t (chunks L v) []) <= L)%nat.
Proof.
  intros HL. revert v; induction t as [|t IH]; intros v; (destruct v as [|a v]; [rewrite chunks_nil; cbn; lia|]);
    rewrite chunks_cons by (auto; discriminate); cbn [nth]; auto.
  rewrite firstn_length. lia.
Qed.
Lemma chunks_length_eq {A B} L (v : list A) (w : list B) : (1 <= L)%nat -> length v = length w ->
  length (chunks L v) = length (chunks L w).
Proof.
  intros HL. remember (length v) as n eqn:Hn. revert v w Hn.
  induction n as [n IH] using lt_wf_ind. intros v w Hv Hw.
  destruct v as [|a v]; destruct w as [|b w]; cbn [length] in *; try lia; auto.
  rewrite (chunks_cons L (a :: v)), (chunks_cons L (b :: w)) by (auto; discriminate). cbn [length]. f_equal.
  eapply (IH (length (skipn L (a :: v)))); auto; rewrite ?skipn_length; cbn [length]; lia.
Qed.
Lemma sumn_extend n m (f : nat -> R) : (n <= m)%nat -> (forall i, (n <= i)%nat -> f i = 0) -> sumn m f = sumn n f.
Proof.
  intros H Hz. replace m with (n + (m - n))%nat by lia. rewrite sumn_split.
  rewrite (sumn_0 (m - n)) by (intros; apply Hz; lia). ring.
Qed.
End Lin.

Section Gad.
Context {F K C R : Type} {SO : SOps F K C R} {p : Z} {SL : SLaws F K C R p}.
Add Ring Cring13 : (@rlaws_th C _ _).
Add Ring Rring13 : (@rlaws_th R _ _).

Lemma recompose_nth {A} {AO : RingOps A} {AL : RingLaws A} L (ch : list A) b : (length ch <= L)%nat ->
  recompose ch b = sumn L (fun k => nth k ch 0 * rpow b k).
Proof.
  intros H. rewrite recompose_sum. symmetry. apply sumn_extend; auto.
  intros i Hi. rewrite nth_overflow by auto. apply rmul_0_l.
Qed.
Lemma nth_gadget_recompose B L (v : list R) t : (1 <= L)%nat ->
  nth t (gadget_recompose B L v) 0 = sumn L (fun k => nth (t * L + k) v 0 * rpow (rofZ B) k).
Proof.
  intros HL. unfold gadget_recompose.
  change 0 with (recompose [] (rofZ B : R)) at 1. rewrite (map_nth (fun ch => recompose ch (rofZ B))).
  rewrite (recompose_nth L) by (apply chunk_length_le; auto).
  apply sumn_ext. intros k Hk. rewrite nth_chunks by auto. auto.
Qed.
Lemma gadget_recompose_length_eq B L (v w : list R) : (1 <= L)%nat -> length v = length w ->
  length (gadget_recompose B L v) = length (gadget_recompose B L w).
Proof. intros. unfold gadget_recompose. rewrite !map_length. apply chunks_length_eq; auto. Qed.
Lemma gadget_recompose_length B L (v : list R) n : (1 <= L)%nat -> length v = (n * L)%nat ->
  length (gadget_recompose B L v) = n.
Proof. intros. unfold gadget_recompose. rewrite map_length. apply chunks_length; auto. Qed.
Lemma is_lin_gadget n c vs v B L : (1 <= L)%nat -> is_lin n c vs v ->
  is_lin n c (fun i => gadget_recompose B L (vs i)) (gadget_recompose B L v : list R).
Proof.
  intros HL [H1 H2]. split.
  - intros i Hi. apply gadget_recompose_length_eq; auto.
  - intros j. rewrite nth_gadget_recompose by auto.
    transitivity (sumn L (fun k => sumn n (fun i => c i * (nth (j * L + k) (vs i) 0 * rpow (rofZ B) k)))).
    + apply sumn_ext. intros k Hk. rewrite H2, <- sumn_mul_r. apply sumn_ext. intros. ring.
    + rewrite sumn_swap. apply sumn_ext. intros i Hi. rewrite sumn_mul_l, nth_gadget_recompose by auto. auto.
Qed.
Lemma opens_w_len P A cs cm (w : witness C R) : (1 <= dp_L P)%nat -> opens P A cs cm w ->
  length (w_ccs w) = (c_n cs - c_l cs - 1)%nat /\ length (w_fc w) = ((c_n cs - c_l cs - 1) * dp_L P)%nat.
Proof.
  intros HL [(H1 & H2 & H3 & H4) Hl _]. split.
  - rewrite H4. apply gadget_recompose_length; auto.
  - rewrite H2, map_length. auto.
Qed.
Lemma sizes_fhat_nv P (cs : ccs R) f : sizes_ok p P cs -> length f = ((c_n cs - c_l cs - 1) * dp_L P)%nat ->
  Forall (fun m : mle R => mle_nv m = c_s cs) (get_fhat (f : list C)).
Proof.
  intros Hs Hf. apply Forall_forall. intros m Hm. rewrite (get_fhat_nv f m Hm). unfold fhat_nv.
  rewrite Hf, (so_m _ _ _ Hs). destruct (so_sized _ _ _ Hs) as (-> & Hs1 & _).
  unfold ark_log2. apply Nat.log2_up_pow2. lia.
Qed.
End Gad.
