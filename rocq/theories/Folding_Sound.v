(** Soundness of the folding step, the norm of the folded witness, and the gap in the range check of
    the last instance. *)
From Coq Require Import String List Arith Lia ZArith Bool Ring.
From Verif Require Import Prelude Alg Poly MLE MLE_Proofs Zippel Transcript Interp Sumcheck Sumcheck_Proofs CombDeg
  Arith Arith_Proofs Balanced Rings Rings_Proofs Linearization Linearization_Proofs Relations LinRel
  Decomposition_Proofs Folding Folding_Comb Folding_Proofs Folding_Complete.
Import ListNotations.
Local Open Scope rs_scope.

(** ** Norm of the folded witness *)
Section N.
Context {F K C R : Type} {SO : SOps F K C R} {p : Z} {SL : SLaws F K C R p}.
Add Ring Cring22 : (@rlaws_th C _ _).

(** Multiplying by a power of X (below the dimension) increases norms by at most [gamma]. *)
Definition expansion (gamma : Z) : Prop :=
  forall i B (a : C), (i < dimC)%nat -> cnorm_le B a -> cnorm_le (gamma * B) (xpow i a).

Lemma signed_sumn n (f : nat -> F) (B : nat -> Z) : (forall i, (i < n)%nat -> (Z.abs (signed (f i)) <= B i)%Z) ->
  (Z.abs (signed (sumn n f)) <= zsum n B)%Z.
Proof.
  induction n as [|n IH]; intros H; cbn [sumn zsum].
  - rewrite signed_0. cbn. lia.
  - pose proof (signed_add (sumn n f) (f n)). pose proof (H n ltac:(lia)).
    assert (Z.abs (signed (sumn n f)) <= zsum n B)%Z by (apply IH; auto). lia.
Qed.
Lemma zsum_const n B : zsum n (fun _ => B) = (Z.of_nat n * B)%Z.
Proof. induction n as [|n IH]; cbn [zsum]; [lia|]. rewrite IH. lia. Qed.
Lemma zsum_le n f g : (forall i, (i < n)%nat -> (f i <= g i)%Z) -> (zsum n f <= zsum n g)%Z.
Proof. induction n as [|n IH]; intros H; cbn [zsum]; [lia|]. pose proof (H n ltac:(lia)). assert (zsum n f <= zsum n g)%Z by (apply IH; auto). lia. Qed.

Lemma cnorm_nonneg B (c : C) : cnorm_le B c -> (0 <= B)%Z.
Proof. intros H. specialize (H 0%nat). lia. Qed.
Lemma cnorm_mul gamma A B (a c : C) : expansion gamma -> cnorm_le A a -> cnorm_le B c ->
  cnorm_le (Z.of_nat dimC * gamma * A * B) (a * c).
Proof.
  intros He Ha Hc j. rewrite cf_mul.
  replace (Z.of_nat dimC * gamma * A * B)%Z with (Z.of_nat dimC * (B * (gamma * A)))%Z by ring.
  rewrite <- zsum_const. apply signed_sumn. intros i Hi.
  pose proof (signed_mul (cf i c) (cf j (xpow i a))). pose proof (Hc i). pose proof (He i A a Hi Ha j).
  eapply Z.le_trans; [eassumption|]. apply Z.mul_le_mono_nonneg; lia.
Qed.
Lemma cf_one j : cf j (1 : C) = if (j =? 0)%nat then 1 else 0.
Proof.
  pose proof dimN_pos. pose proof tau_pos. assert (0 < dimC)%nat as Hd by (unfold dimC; nia).
  set (e := map (fun i => if (i =? 0)%nat then 1 else 0 : F) (seq 0 dimC)).
  assert (length e = dimC) as He by (unfold e; rewrite map_length, seq_length; auto).
  assert (of_coeffs e = (1 : C)) as E.
  { rewrite (coeffs_X (of_coeffs e)). rewrite coeffs_of by auto.
    destruct dimC as [|d] eqn:Ed; [lia|]. rewrite sumn_S_first. rewrite sumn_0.
    - unfold e. rewrite nth_seq_map by lia. cbn [Nat.eqb Nat.iter nat_rect]. rewrite (hom_1 _ embFC_hom). ring.
    - intros i Hi. unfold e. rewrite nth_seq_map by lia. cbn [Nat.eqb]. rewrite (hom_0 _ embFC_hom). ring. }
  destruct (Nat.lt_ge_cases j dimC) as [Hj|Hj].
  - rewrite <- E, cf_of_coeffs by auto. unfold e. apply (nth_seq_map (fun i => if (i =? 0)%nat then 1 else 0)). auto.
  - rewrite cf_out by auto. destruct (Nat.eqb_spec j 0); [lia|auto].
Qed.
Lemma cnorm_one : cnorm_le 1 (1 : C).
Proof.
  intros j. rewrite cf_one. destruct (j =? 0)%nat; [|rewrite signed_0; cbn; lia].
  pose proof (signed_min (p := p) 1). rewrite rofZ_1 in H. cbn in H. lia.
Qed.
Lemma cnorm_mono A B (c : C) : (A <= B)%Z -> cnorm_le A c -> cnorm_le B c.
Proof. intros H Hc j. specialize (Hc j). lia. Qed.

(** C32 *)
Theorem folded_norm gamma k (rho : nat -> C) (fs : nat -> list C) f (A B : nat -> Z) :
  expansion gamma -> is_lin k rho fs f ->
  (forall i, (i < k)%nat -> cnorm_le (A i) (rho i)) -> (forall i, (i < k)%nat -> Forall (cnorm_le (B i)) (fs i)) ->
  Forall (cnorm_le (zsum k (fun i => Z.of_nat dimC * gamma * A i * B i)%Z)) f.
Proof.
  intros He [Hl Hlin] HA HB. apply Forall_forall. intros c Hc. apply In_nth with (d := 0) in Hc as (b & Hb & <-).
  rewrite Hlin. intros j. rewrite cf_sumn. apply signed_sumn. intros i Hi.
  apply cnorm_mul; auto. specialize (HB i Hi). rewrite Forall_forall in HB. apply HB. apply nth_In. rewrite Hl by auto. auto.
Qed.
Theorem folded_norm_uniform gamma k (rho : list C) (ws : list (witness C R)) f A B :
  (1 <= k)%nat -> expansion gamma -> (1 <= A)%Z -> length rho = (k - 1)%nat -> length ws = k ->
  is_lin k (fun i => nth i (rho ++ [1]) 0) (fun i => w_fc (nth i ws (Witness [] [] [] []))) f ->
  Forall (cnorm_le A) rho -> Forall (wit_norm B) ws ->
  Forall (cnorm_le (Z.of_nat k * (Z.of_nat dimC * gamma * A * B))) f.
Proof.
  intros Hk He HA1 Hrl Hwl Hlin HA HB. rewrite <- zsum_const. eapply (folded_norm gamma k _ _ f (fun _ => A) (fun _ => B)); eauto.
  - intros i Hi. cbn beta. destruct (Nat.lt_ge_cases i (k - 1)) as [Hlt|Hge].
    + rewrite app_nth1 by lia. rewrite Forall_forall in HA. apply HA. apply nth_In. lia.
    + rewrite app_nth2 by lia. replace (i - length rho)%nat with 0%nat by lia. cbn [nth].
      eapply cnorm_mono; [exact HA1|apply cnorm_one].
  - intros i Hi. cbn beta. rewrite Forall_forall in HB. apply HB. apply nth_In. lia.
Qed.
End N.

(** ** The range check of the last instance *)
Section A.
Context {F K C R T : Type} {SO : SOps F K C R} {p : Z} {SL : SLaws F K C R p} {TO : TransOps T R K} {HO : ShortOps T C}.
Add Ring Rring22 : (@rlaws_th R _ _).
Add Ring Fring22 : (@rlaws_th F _ _).

(** Rows 0 and 1 are opposite, the others zero. *)
Definition antisym (c : C) : Prop :=
  (forall s, (s < dimN)%nat -> cf (dimN + s) c = - cf s c) /\ forall j, (2 * dimN <= j)%nat -> cf j c = 0.
Lemma hat_opp j c : hat j (- c) = - (hat j c : R).
Proof.
  assert (hat j (- c) + hat j c = 0) as H.
  { rewrite <- hat_add. replace (- c + c) with (0 : C) by (destruct (@rlaws_th C _ _); rewrite Radd_comm; auto). apply hat_0. }
  transitivity (hat j (- c) + hat j c - hat j c); [ring|]. rewrite H. ring.
Qed.
Lemma antisym_range b (c : C) : (2 <= tau)%nat -> antisym c -> sumn tau (fun d => range_poly b (hat d c)) = (0 : R).
Proof.
  intros Ht [H1 H2]. replace tau with (2 + (tau - 2))%nat by lia. rewrite sumn_split. cbn [sumn].
  rewrite (sumn_0 (tau - 2)).
  - assert (hat 1 c = - hat 0 c :> R) as ->.
    { apply sl_ext. intros s Hs. rewrite sl_opp, !sl_hat by auto.
      replace (1 * dimN + s)%nat with (dimN + s)%nat by lia. cbn [Nat.mul Nat.add].
      rewrite H1 by auto. apply (hom_opp _ embFK_hom). }
    rewrite range_poly_odd. ring.
  - intros i Hi. replace (hat (2 + i) c) with (0 : R); [apply range_poly_0|].
    apply sl_ext. intros s Hs. rewrite sl_0, sl_hat by auto. rewrite H2 by nia. symmetry. apply (hom_0 _ embFK_hom).
Qed.

(** Instances whose last witness is antisymmetric are folded and accepted, whatever its norm. *)
Theorem folding_accepts_antisym P (A : ajtai R) (cs : ccs R) cms (ws : list (witness C R)) (w : witness C R) ts r1 r2 :
  sizes_ok p P cs -> char_gt K (2 * dp_b P) -> (2 * Z.of_nat (dp_b P) <= p + 1)%Z -> (2 <= tau)%nat ->
  halves lc_r (dp_K P) cms r1 r2 -> Forall2 (lcccs_rel P A cs) cms (ws ++ [w]) ->
  Forall (wit_norm (Z.of_nat (dp_b P) - 1)) ws -> Forall antisym (w_fc w) ->
  let mzs := zipw (fun lc w => map (Mz_mle (c_s cs) (lcccs_z lc (w_ccs w))) (c_M cs)) cms (ws ++ [w]) in
  exists lc w' pf ts',
    fold_prove P cms (ws ++ [w]) ts cs mzs = Ok (lc, w', pf, ts') /\
    fold_verify P cms pf ts cs = Ok (lc, ts') /\ lcccs_rel P A cs lc w'.
Proof.
  intros Hs Hchar Hbp Htau Hhalf HR Hn Ha mzs.
  destruct (folding_run_rel P A cs cms (ws ++ [w]) ts r1 r2) as (lc & w' & pf & ts' & rs & rho & H1 & H2 & H3 & _); auto.
  - intros mu i Hmu Hm1 Hi. pose proof (halves_length _ _ _ _ _ Hhalf) as Hlc. pose proof (so_K _ _ _ Hs).
    assert (length cms = length (ws ++ [w])) as Hl. { clear - HR. induction HR; cbn [length]; auto. }
    rewrite app_length in Hl. cbn [length] in Hl.
    assert (forall x, In x (ws ++ [w]) -> wit_consistent P x) as Hcon.
    { clear - HR. intros x Hx. induction HR as [|? ? ? ? HRR ? IH]; [contradiction|]. destruct Hx as [<-|Hx]; auto. apply (op_wit _ _ _ _ _ (lr_open _ _ _ _ _ HRR)). }
    pose proof (so_b _ _ _ Hs) as Hb.
    assert (range_table (dp_b P) (firstn (length ws) mu) (map w_fhat ws) i = 0) as E0.
    { apply (range_table_zero (dp_b P) _ ws P i (c_s cs)); auto; try lia.
      - rewrite firstn_length. lia.
      - apply Forall_forall. intros x Hx. apply Hcon. apply in_or_app. auto. }
    unfold range_table in *. rewrite Hmu. rewrite firstn_length, Hmu in E0. replace (Nat.min (length ws) (2 * dp_K P)) with (length ws) in E0 by lia.
    replace (2 * dp_K P)%nat with (length ws + 1)%nat by lia. rewrite sumn_split. rewrite map_app.
    match goal with |- ?a + ?b = 0 => assert (a = 0) as -> end.
    + etransitivity; [|exact E0]. apply sumn_ext. intros k Hk. apply sumn_ext. intros d Hd.
      rewrite nth_firstn_lt by auto. rewrite app_nth1 by (rewrite map_length; auto). auto.
    + cbn [sumn]. rewrite Nat.add_0_r. rewrite app_nth2 by (rewrite map_length; auto). rewrite map_length, Nat.sub_diag. cbn [map nth].
      replace (length ws) with (2 * dp_K P - 1)%nat by lia. rewrite Hm1.
      rewrite (sumn_ext tau _ (fun d => range_poly (dp_b P) (hat d (nth i (w_fc w) 0)))).
      * rewrite antisym_range; [ring|auto|]. destruct (Nat.lt_ge_cases i (length (w_fc w))) as [Hlt|Hge].
        -- rewrite Forall_forall in Ha. apply Ha. apply nth_In. auto.
        -- rewrite nth_overflow by auto. split; intros; rewrite !cf_0; auto.
           ring.
      * intros d Hd. replace (rpow 1 (S d) : R) with (1 : R) by (symmetry; clear - SL; induction (S d) as [|n IH]; cbn [rpow]; [auto|rewrite IH; ring]).
        destruct (Hcon w) as (_ & _ & -> & _). { apply in_or_app. right. left. auto. }
        rewrite get_fhat_get by auto. ring.
  - exists lc, w', pf, ts'. auto.
Qed.
End A.

(** ** Batched equations *)
Section B.
Context {R K : Type} {RO : RingOps R} {KO : FieldOps K} {E : Embed K R} {LR : RingLaws R} {LK : FieldLaws K} {EL : EmbedLaws K R}.
Add Ring Rring23 : (@rlaws_th R RO LR).

(** Challenge number [t] is a root of the one-variable function obtained by fixing the earlier
    challenges and setting the later ones to the reference vector; that function is not zero at the
    reference value, and has at most [d] roots. *)
Definition bad_batch (d : nat) (G : list R -> R) (ref c : list K) : Prop :=
  exists t, (t < length c)%nat /\
    let h y := G (map emb (firstn t c) ++ y :: map emb (skipn (S t) ref)) in
    h (emb (nth t ref 0)) <> 0 /\ h (emb (nth t c 0)) = 0 /\
    forall bad : list K, NoDup bad -> (forall y, In y bad -> h (emb y) = 0) -> (length bad <= d)%nat.

Lemma firstn_S_nth {A} (l : list A) t d : (t < length l)%nat -> firstn (S t) l = firstn t l ++ [nth t l d].
Proof.
  revert t; induction l as [|a l IH]; intros [|t] H; cbn in *; try lia; auto. f_equal. apply IH. lia.
Qed.
Lemma skipn_nth_S {A} (l : list A) t d : (t < length l)%nat -> skipn t l = nth t l d :: skipn (S t) l.
Proof.
  revert t; induction l as [|a l IH]; intros [|t] H; cbn in *; try lia; auto. apply IH. lia.
Qed.
Lemma batch_sound d G (ref c : list K) : var_deg (length c) d G -> length ref = length c ->
  G (map emb ref) <> 0 -> G (map emb c) = 0 -> bad_batch d G ref c.
Proof.
  intros Hd Hl Hr Hc.
  assert (forall n, (n <= length c)%nat -> bad_batch d G ref c \/ G (map emb (firstn n c ++ skipn n ref)) <> 0) as Hn.
  { induction n as [|n IH]; intros Hn; [right; exact Hr|].
    destruct IH as [IH|IH]; [lia|left; auto|].
    destruct (req_dec (G (map emb (firstn (S n) c ++ skipn (S n) ref))) 0) as [H0|H0]; [|right; auto].
    left. exists n. split; [lia|]. cbv zeta.
    rewrite (firstn_S_nth c n 0), <- app_assoc, map_app in H0 by lia. cbn [app map] in H0.
    rewrite (skipn_nth_S ref n 0), map_app in IH by lia. cbn [map] in IH.
    split; [exact IH|]. split; [exact H0|]. intros bad Hnd Hb.
    eapply (deg_le_agree_count emb emb_hom d (fun y => G (map emb (firstn n c) ++ y :: map emb (skipn (S n) ref))) (fun _ => 0) bad (emb (nth n ref 0))); [|apply deg_le_const|exact IH|auto|exact Hb].
    apply Hd. rewrite !map_length, firstn_length, skipn_length. lia. }
  destruct (Hn (length c)) as [H|H]; auto. exfalso. apply H.
  rewrite firstn_all, skipn_all2, app_nil_r by lia. auto.
Qed.

(** A nonzero value of a function of degree at most [d] in each variable can be moved to a grid of more
    than [d] points per coordinate, and found there by search. *)
Lemma grid_nonzero d (G : list R -> R) (xs : list K) n : var_deg n d G -> NoDup xs -> (d < length xs)%nat ->
  forall pre suf, (length pre + length suf)%nat = n -> G (map emb (pre ++ suf)) <> 0 ->
  exists pre', length pre' = length pre /\ Forall (fun a => In a xs) pre' /\ G (map emb (pre' ++ suf)) <> 0.
Proof.
  intros Hd Hnd Hlt pre. induction pre as [|a pre IH] using rev_ind; intros suf Hn HG.
  - exists []. auto.
  - rewrite <- app_assoc in HG. cbn [app] in HG. rewrite app_length in Hn. cbn [length] in Hn.
    assert (exists y, In y xs /\ G (map emb (pre ++ y :: suf)) <> 0) as (y & Hy & Hne).
    { assert ((forall y, In y xs -> G (map emb (pre ++ y :: suf)) = 0) \/ exists y, In y xs /\ G (map emb (pre ++ y :: suf)) <> 0) as [H|H]; auto.
      { clear - LR. induction xs as [|x xs IHx].
        - left. intros y [].
        - destruct IHx as [IHx|(y & Hy & Hq)].
          + destruct (req_dec (G (map emb (pre ++ x :: suf))) 0) as [Hq|Hq].
            * left. intros y [<-|Hy]; auto.
            * right. exists x. split; [left; auto|auto].
          + right. exists y. split; [right; auto|auto]. }
      exfalso. assert (length xs <= d)%nat; [|lia].
      eapply (deg_le_agree_count emb emb_hom d (fun y => G (map emb pre ++ y :: map emb suf)) (fun _ => 0) xs (emb a)); [|apply deg_le_const| |auto|].
      - apply Hd. rewrite !map_length. lia.
      - rewrite map_app in HG. exact HG.
      - intros y Hy. specialize (H y Hy). rewrite map_app in H. exact H. }
    destruct (IH (y :: suf)) as (pre' & H1 & H2 & H3); [cbn [length]; lia|auto|].
    exists (pre' ++ [y]). rewrite !app_length, H1. split; auto. split; [apply Forall_app; auto|]. rewrite <- app_assoc. exact H3.
Qed.
Definition batch_ref (xs : list K) (n : nat) (G : list R -> R) : list K :=
  match find (fun c => negb (G (map emb c) =? 0)) (tuples n xs) with Some c => c | None => [] end.
Lemma batch_ref_ok d (G : list R -> R) (xs : list K) n (ref : list K) : var_deg n d G -> NoDup xs -> (d < length xs)%nat ->
  length ref = n -> G (map emb ref) <> 0 -> length (batch_ref xs n G) = n /\ G (map emb (batch_ref xs n G)) <> 0.
Proof.
  intros Hd Hnd Hlt Hl HG. destruct (grid_nonzero d G xs n Hd Hnd Hlt ref []) as (c & H1 & H2 & H3).
  { cbn [length]. lia. } { rewrite app_nil_r. auto. }
  rewrite app_nil_r in H3. unfold batch_ref. destruct (find _ _) as [c'|] eqn:Ef.
  - apply find_some in Ef as [E1 E2]. apply in_tuples in E1 as [E1 _]. split; auto. intros E3. rewrite E3, (proj2 (req_true _ _) eq_refl) in E2. discriminate.
  - exfalso. assert (In c (tuples n xs)) as Hc by (apply in_tuples; split; [lia|auto]). apply (find_none _ _ Ef) in Hc.
    apply negb_false_iff, req_true in Hc. auto.
Qed.

(** A power sum that is not identically zero is nonzero somewhere. *)
Definition pad_eq (v w : list R) : Prop := forall j, nth j v 0 = nth j w 0.
Lemma pad_eq_dec v w : pad_eq v w \/ exists j, nth j v 0 <> nth j w 0.
Proof.
  destruct (all_zero_dec (fun j => nth j v 0 - nth j w 0) (Nat.max (length v) (length w))) as [H|(j & Hj & H)].
  - left. intros j. destruct (Nat.lt_ge_cases j (Nat.max (length v) (length w))) as [Hj|Hj].
    + apply (proj1 (rsub_0_iff _ _)). apply H. auto.
    + rewrite !nth_overflow by lia. auto.
  - right. exists j. intros E2. apply H. rewrite E2. ring.
Qed.
Lemma pow_sum_peval (a : R) l : pow_sum a l = peval (0 :: l) a.
Proof.
  rewrite pow_sum_spec, peval_sum. cbn [length]. rewrite sumn_S_first. cbn [nth]. rewrite rmul_0_l, radd_0_l.
  apply sumn_ext. intros. ring.
Qed.
Lemma pow_sum_pad_eq (a : R) v w : pad_eq v w -> pow_sum a v = pow_sum a w.
Proof.
  intros H. rewrite !pow_sum_spec. 
  rewrite <- (sumn_extend (length v) (Nat.max (length v) (length w))) by (try lia; intros; rewrite nth_overflow by auto; ring).
  rewrite <- (sumn_extend (length w) (Nat.max (length v) (length w))) by (try lia; intros; rewrite nth_overflow by auto; ring).
  apply sumn_ext. intros. rewrite H. auto.
Qed.
Lemma pow_sum_apart (xs : list K) v w : NoDup xs -> (length v < length xs)%nat -> (length w < length xs)%nat ->
  ~ pad_eq v w -> exists y, In y xs /\ pow_sum (emb y) v <> pow_sum (emb y) w.
Proof.
  intros Hnd Hv Hw Hne.
  assert ((forall y, In y xs -> pow_sum (emb y) v = pow_sum (emb y) w) \/ exists y, In y xs /\ pow_sum (emb y) v <> pow_sum (emb y) w) as [H|H]; auto.
  { clear Hnd Hv Hw. induction xs as [|x xs [IH|(y & Hy & Hn)]].
    - left. intros y [].
    - destruct (req_dec (pow_sum (emb x) v) (pow_sum (emb x) w)) as [Hq|Hq].
      + left. intros y [<-|Hy]; auto.
      + right. exists x. split; [left; auto|auto].
    - right. exists y. split; [right; auto|auto]. }
  exfalso. apply Hne. set (m := Nat.max (length v) (length w)).
  set (q := map (fun j => nth j v 0 - nth j w 0) (seq 0 m)).
  assert (forall y, pow_sum y q = pow_sum y v - pow_sum y w) as Hq.
  { intros y. rewrite !pow_sum_spec. unfold q at 1. rewrite map_length, seq_length.
    rewrite <- (sumn_extend (length v) m) by (try (unfold m; lia); intros; rewrite nth_overflow by auto; ring).
    rewrite <- (sumn_extend (length w) m) by (try (unfold m; lia); intros; rewrite nth_overflow by auto; ring).
    rewrite <- sumn_sub. apply sumn_ext. intros j Hj. unfold q. rewrite (nth_seq_map (fun j => nth j v 0 - nth j w 0)) by auto. ring. }
  assert (Forall (eq 0) (0 :: q)) as Hz.
  { apply (root_bound emb emb_hom (0 :: q) xs Hnd).
    - cbn [length]. unfold q. rewrite map_length, seq_length. unfold m. lia.
    - intros x Hx. rewrite <- pow_sum_peval, Hq, (H x Hx). ring. }
  inversion Hz as [|? ? _ Hzq]; subst. rewrite Forall_forall in Hzq.
  intros j. apply (proj1 (rsub_0_iff _ _)). destruct (Nat.lt_ge_cases j m) as [Hj|Hj].
  - symmetry. apply Hzq. unfold q. apply in_map_iff. exists j. split; auto. apply in_seq. lia.
  - unfold m in Hj. rewrite !nth_overflow by lia. ring.
Qed.
End B.

Section S.
Context {F K C R T : Type} {SO : SOps F K C R} {p : Z} {SL : SLaws F K C R p} {TO : TransOps T R K} {HO : ShortOps T C}.
Add Ring Rring24 : (@rlaws_th R _ _).
Add Ring Kring24 : (@rlaws_th K _ _).

(** Values of the range polynomial in the rows of instance [k] at index [i]. *)
Definition range_rows (b : nat) (fhs : list (list (mle R))) (k i : nat) : list R :=
  map (fun d => range_poly b (mle_get (nth d (nth k fhs []) (Mle 0 [])) i)) (seq 0 tau).
(** What the folding verifier's acceptance is meant to guarantee about claimed evaluations [vs], [us]
    and tables, except that the rows of the last instance are only constrained through their sum. *)
Definition fold_good (P : dparams) (s : nat) (vs us : list (list R)) (fhs mzs : list (list (mle R))) (r1 r2 : list R) : Prop :=
  (forall i, (i < 2 * dp_K P)%nat ->
     pad_eq (nth i vs []) (nth i (evs2 (dp_K P) fhs r1 r2) []) /\ pad_eq (nth i us []) (nth i (evs2 (dp_K P) mzs r1 r2) [])) /\
  (forall i, (i < 2 ^ s)%nat ->
     (forall k, (k < 2 * dp_K P - 1)%nat -> pad_eq (range_rows (dp_b P) fhs k i) []) /\
     lsum (range_rows (dp_b P) fhs (2 * dp_K P - 1) i) = 0).
(** Claimed minus true sum, as a function of the challenges alpha, zeta, mu, beta (in the order in
    which they are drawn). *)
Definition gbatch (P : dparams) (vs us : list (list R)) (fhs mzs : list (list (mle R))) (r1 r2 : list R) (c : list R) : R :=
  let k2 := (2 * dp_K P)%nat in
  sumn k2 (fun i => pow_sum (nth i c 0) (nth i vs []) - pow_sum (nth i c 0) (nth i (evs2 (dp_K P) fhs r1 r2) [])) +
  sumn k2 (fun i => pow_sum (nth (k2 + i) c 0) (nth i us []) - pow_sum (nth (k2 + i) c 0) (nth i (evs2 (dp_K P) mzs r1 r2) [])) -
  mle_spec (fun b => sumn (k2 - 1) (fun k => pow_sum (nth (2 * k2 + k) c 0) (range_rows (dp_b P) fhs k b))
                     + lsum (range_rows (dp_b P) fhs (k2 - 1) b)) (skipn (3 * k2 - 1) c).

Lemma pow_sum_deg (l : list R) : deg_le (length l) (fun y => pow_sum y l).
Proof.
  exists (0 :: l). split; [cbn [length]; lia|]. intros x. apply pow_sum_peval.
Qed.
Lemma pow_sum_one (l : list R) : pow_sum 1 l = lsum l.
Proof.
  rewrite pow_sum_spec, lsum_nth. apply sumn_ext. intros i Hi.
  assert (rpow (1:R) (S i) = 1) as ->; [|ring]. induction (S i) as [|n IH]; cbn [rpow]; [auto|rewrite IH; ring].
Qed.
Lemma nth_coord_deg d (f : R -> R) i pre suf : deg_le d f -> deg_le d (fun y => f (nth i (pre ++ y :: suf) 0)).
Proof.
  intros H. destruct (Nat.lt_trichotomy i (length pre)) as [Hi|[Hi|Hi]].
  - eapply deg_le_ext; [|apply (deg_le_const (f (nth i pre 0)))]. intros y. cbn beta. rewrite app_nth1 by auto. auto.
  - eapply deg_le_ext; [|exact H]. intros y. cbn beta. rewrite app_nth2 by lia. subst i. rewrite Nat.sub_diag. auto.
  - eapply deg_le_ext; [|apply (deg_le_const (f (nth (i - length pre - 1) suf 0)))]. intros y. cbn beta. rewrite app_nth2 by lia.
    destruct (i - length pre)%nat as [|j] eqn:E; [lia|]. cbn [nth]. f_equal. f_equal. lia.
Qed.
Lemma mle_spec_deg (t : nat -> R) pre suf : deg_le 1 (fun y => mle_spec t (pre ++ y :: suf)).
Proof.
  revert t; induction pre as [|x pre IH]; intros t; cbn [app].
  - eapply deg_le_ext; [|apply (deg_le_affine (mle_spec (fun i => t (2 * i)%nat) suf) (mle_spec (fun i => t (2 * i + 1)%nat - t (2 * i)%nat) suf))].
    intros y. cbn beta. rewrite mle_spec_cons, mle_spec_add, mle_spec_scale. auto.
  - eapply deg_le_ext; [|apply (IH (fun i => t (2 * i)%nat + x * (t (2 * i + 1)%nat - t (2 * i)%nat)))].
    intros y. cbn beta. rewrite mle_spec_cons. auto.
Qed.
Lemma gbatch_deg P vs us fhs mzs r1 r2 D n : (tau <= D)%nat ->
  (forall i, (i < 2 * dp_K P)%nat -> (length (nth i vs []) <= D /\ length (nth i us []) <= D /\
     length (nth i (evs2 (dp_K P) fhs r1 r2) []) <= D /\ length (nth i (evs2 (dp_K P) mzs r1 r2) []) <= D)%nat) ->
  var_deg n D (gbatch P vs us fhs mzs r1 r2).
Proof.
  intros HD Hlen pre suf Hn. unfold gbatch. cbv zeta. apply deg_le_sub; [apply deg_le_add|].
  - apply deg_le_sumn with (f := fun i y => _). intros i Hi. destruct (Hlen i Hi) as (H1 & H2 & H3 & H4).
    apply deg_le_sub; apply (nth_coord_deg D (fun y => pow_sum y _)); (eapply deg_le_mono; [|apply pow_sum_deg]); auto.
  - apply deg_le_sumn with (f := fun i y => _). intros i Hi. destruct (Hlen i Hi) as (H1 & H2 & H3 & H4).
    apply deg_le_sub; apply (nth_coord_deg D (fun y => pow_sum y _)); (eapply deg_le_mono; [|apply pow_sum_deg]); auto.
  - set (k2 := (2 * dp_K P)%nat). destruct (Nat.lt_ge_cases (length pre) (3 * k2 - 1)) as [Hp|Hp].
    + set (bt := skipn (3 * k2 - 1 - length pre - 1) suf).
      eapply (deg_le_ext _ (fun y => sumn (2 ^ length bt) (fun b =>
         eqw bt b * (sumn (k2 - 1) (fun k => pow_sum (nth (2 * k2 + k) (pre ++ y :: suf) 0) (range_rows (dp_b P) fhs k b))
            + lsum (range_rows (dp_b P) fhs (k2 - 1) b))))).
      * intros y. cbn beta. replace (skipn (3 * k2 - 1) (pre ++ y :: suf)) with bt.
        -- unfold mle_spec. apply sumn_ext. intros. ring.
        -- unfold bt. rewrite skipn_app. rewrite (skipn_all2 pre) by lia. cbn [app].
           destruct (3 * k2 - 1 - length pre)%nat as [|j] eqn:E; [lia|]. cbn [skipn]. f_equal. lia.
      * apply deg_le_sumn with (f := fun b y => _). intros b Hb. apply deg_le_scale. apply deg_le_add; [|apply deg_le_const].
        apply deg_le_sumn with (f := fun k y => _). intros k Hk. apply (nth_coord_deg D (fun y => pow_sum y _)).
        eapply deg_le_mono; [|apply pow_sum_deg]. unfold range_rows. rewrite map_length, seq_length. auto.
    + eapply deg_le_mono; [|eapply deg_le_ext; [|apply (mle_spec_deg (fun b => sumn (k2 - 1) (fun k => pow_sum (nth (2 * k2 + k) pre 0) (range_rows (dp_b P) fhs k b))
            + lsum (range_rows (dp_b P) fhs (k2 - 1) b)) (skipn (3 * k2 - 1) pre) suf)]].
      * pose proof tau_pos. lia.
      * intros y. cbn beta. rewrite skipn_app. replace (3 * k2 - 1 - length pre)%nat with 0%nat by lia. cbn [skipn].
        apply mle_spec_ext. intros b Hb. f_equal. apply sumn_ext. intros k Hk. rewrite app_nth1 by lia. auto.
Qed.

(** Reference challenge vectors. *)
Definition refvec (n t : nat) (y : K) (s i : nat) : list K := map (fun j => if (j =? t)%nat then y else 0) (seq 0 n) ++ bits s i.
Lemma map_emb_bits s i : map (emb : K -> R) (bits s i) = bits s i.
Proof.
  unfold bits. rewrite map_map. apply map_ext. intros j. unfold bitr. destruct (Nat.testbit i j); [apply (hom_1 _ emb_hom)|apply (hom_0 _ emb_hom)].
Qed.
Lemma nth_refvec n t y s i j : (j < n)%nat -> nth j (map (emb : K -> R) (refvec n t y s i)) 0 = if (j =? t)%nat then emb y else 0.
Proof.
  intros Hj. unfold refvec. rewrite map_app, app_nth1 by (rewrite !map_length, seq_length; auto).
  rewrite map_map, nth_seq_map by auto. destruct (j =? t)%nat; auto. apply (hom_0 _ emb_hom).
Qed.
Lemma skipn_refvec n t y s i : skipn n (map (emb : K -> R) (refvec n t y s i)) = bits s i.
Proof.
  unfold refvec. rewrite map_app, skipn_app, map_length, map_length, seq_length, Nat.sub_diag.
  rewrite skipn_all2 by (rewrite !map_length, seq_length; auto). cbn [skipn app]. apply map_emb_bits.
Qed.
Lemma pow_sum_zero (l : list R) : pow_sum 0 l = 0.
Proof. rewrite pow_sum_peval. cbn [peval fold_right]. ring. Qed.
Lemma sumn_pick n t (f : nat -> R) : (t < n)%nat -> (forall i, (i < n)%nat -> i <> t -> f i = 0) -> sumn n f = f t.
Proof.
  induction n as [|n IH]; intros Ht H; [lia|]. cbn [sumn]. destruct (Nat.eq_dec t n) as [->|Hne].
  - rewrite sumn_0; [ring|]. intros i Hi. apply H; lia.
  - rewrite IH; [rewrite (H n) by lia; ring|lia|]. intros i Hi Hit. apply H; lia.
Qed.
Lemma all_dec n (Q : nat -> Prop) : (forall i, Q i \/ ~ Q i) -> (forall i, (i < n)%nat -> Q i) \/ exists i, (i < n)%nat /\ ~ Q i.
Proof.
  intros HQ. induction n as [|n [IH|(i & Hi & Hn)]].
  - left; intros; lia.
  - destruct (HQ n); [left|right; eauto]. intros i Hi. destruct (Nat.eq_dec i n); [subst; auto|apply IH; lia].
  - right. exists i. split; [lia|auto].
Qed.
Lemma pad_eq_or v w : pad_eq v w \/ ~ pad_eq (v : list R) w.
Proof. destruct (pad_eq_dec v w) as [H|(j & H)]; [left; auto|right]. intros H2. apply H, H2. Qed.

Lemma good_or_ref P s vs us fhs mzs r1 r2 (xs : list K) :
  (1 <= dp_K P)%nat -> NoDup xs -> (tau < length xs)%nat ->
  (forall i, (i < 2 * dp_K P)%nat -> (length (nth i vs []) < length xs /\ length (nth i us []) < length xs /\
     length (nth i (evs2 (dp_K P) fhs r1 r2) []) < length xs /\ length (nth i (evs2 (dp_K P) mzs r1 r2) []) < length xs)%nat) ->
  fold_good P s vs us fhs mzs r1 r2 \/
  exists ref : list K, length ref = (3 * (2 * dp_K P) - 1 + s)%nat /\ gbatch P vs us fhs mzs r1 r2 (map emb ref) <> 0.
Proof.
  intros HK Hnd Htau Hlen. set (k2 := (2 * dp_K P)%nat) in *. set (N := (3 * k2 - 1)%nat).
  assert (forall t y i, (t < N)%nat -> (i < 2 ^ s)%nat -> length (refvec N t y s i) = (N + s)%nat /\
    gbatch P vs us fhs mzs r1 r2 (map emb (refvec N t y s i)) =
      (if (t <? k2)%nat then pow_sum (emb y) (nth t vs []) - pow_sum (emb y) (nth t (evs2 (dp_K P) fhs r1 r2) []) else 0) +
      (if (k2 <=? t)%nat && (t <? 2 * k2)%nat then pow_sum (emb y) (nth (t - k2) us []) - pow_sum (emb y) (nth (t - k2) (evs2 (dp_K P) mzs r1 r2) []) else 0) -
      ((if (2 * k2 <=? t)%nat then pow_sum (emb y) (range_rows (dp_b P) fhs (t - 2 * k2) i) else 0)
       + lsum (range_rows (dp_b P) fhs (k2 - 1) i))) as HG.
  { intros t y i Ht Hi. split.
    - unfold refvec. rewrite app_length, map_length, seq_length, bits_length. auto.
    - unfold gbatch. cbv zeta. fold k2. fold N. rewrite skipn_refvec. rewrite mle_spec_bits with (t := fun b => _) by auto.
      f_equal; [f_equal|f_equal].
      + destruct (Nat.ltb_spec t k2).
        * rewrite (sumn_pick k2 t) by (first [assumption|lia|intros j Hj Hjt; rewrite nth_refvec by (unfold N; lia); destruct (Nat.eqb_spec j t); [contradiction|rewrite !pow_sum_zero; ring]]).
          rewrite nth_refvec by (unfold N; lia). rewrite Nat.eqb_refl. auto.
        * apply sumn_0. intros j Hj. rewrite nth_refvec by (unfold N; lia). destruct (Nat.eqb_spec j t); [lia|rewrite !pow_sum_zero; ring].
      + destruct (Nat.leb_spec k2 t); [destruct (Nat.ltb_spec t (2 * k2))|]; cbn [andb].
        * rewrite (sumn_pick k2 (t - k2)) by (first [assumption|lia|intros j Hj Hjt; rewrite nth_refvec by (unfold N; lia); destruct (Nat.eqb_spec (k2 + j) t); [lia|rewrite !pow_sum_zero; ring]]).
          replace (k2 + (t - k2))%nat with t by lia. rewrite nth_refvec by (unfold N; lia). rewrite Nat.eqb_refl. auto.
        * apply sumn_0. intros j Hj. rewrite nth_refvec by (unfold N; lia). destruct (Nat.eqb_spec (k2 + j) t); [lia|rewrite !pow_sum_zero; ring].
        * apply sumn_0. intros j Hj. rewrite nth_refvec by (unfold N; lia). destruct (Nat.eqb_spec (k2 + j) t); [lia|rewrite !pow_sum_zero; ring].
      + destruct (Nat.leb_spec (2 * k2) t).
        * rewrite (sumn_pick (k2 - 1) (t - 2 * k2)) by (first [assumption|unfold N in *; lia|intros j Hj Hjt; rewrite nth_refvec by (unfold N; lia); destruct (Nat.eqb_spec (2 * k2 + j) t); [lia|rewrite !pow_sum_zero; ring]]).
          replace (2 * k2 + (t - 2 * k2))%nat with t by lia. rewrite nth_refvec by (unfold N in *; lia). rewrite Nat.eqb_refl. auto.
        * apply sumn_0. intros j Hj. rewrite nth_refvec by (unfold N; lia). destruct (Nat.eqb_spec (2 * k2 + j) t); [lia|rewrite !pow_sum_zero; ring]. }
  assert (length (@nil R) < length xs)%nat as Hx0 by (cbn; lia).
  (* range rows *)
  destruct (all_dec (2 ^ s) (fun i => lsum (range_rows (dp_b P) fhs (k2 - 1) i) = 0)) as [Hlast|(i & Hi & Hne)].
  { intros i. destruct (req_dec (lsum (range_rows (dp_b P) fhs (k2 - 1) i)) 0); auto. }
  2:{ right. exists (refvec N 0 0 s i). destruct (HG 0%nat 0 i) as [E1 E2]; auto; [unfold N, k2; lia|]. split; auto. rewrite E2.
      destruct (Nat.ltb_spec 0 k2); [|unfold k2 in *; lia]. destruct (Nat.leb_spec k2 0); [unfold k2 in *; lia|]. cbn [andb].
      destruct (Nat.leb_spec (2 * k2) 0); [unfold k2 in *; lia|]. rewrite (hom_0 _ emb_hom), !pow_sum_zero. intros E3. apply Hne.
      transitivity (- (0 - 0 + 0 - (0 + lsum (range_rows (dp_b P) fhs (k2 - 1) i)))); [ring|rewrite E3; ring]. }
  destruct (all_dec (2 ^ s) (fun i => forall k, (k < k2 - 1)%nat -> pad_eq (range_rows (dp_b P) fhs k i) [])) as [Hrows|(i & Hi & Hne)].
  { intros i. destruct (all_dec (k2 - 1) (fun k => pad_eq (range_rows (dp_b P) fhs k i) [])) as [H|(k & Hk & H)]; auto.
    intros k. apply pad_eq_or. }
  2:{ destruct (all_dec (k2 - 1) (fun k => pad_eq (range_rows (dp_b P) fhs k i) [])) as [H|(k & Hk & H)].
      { intros k. apply pad_eq_or. } { contradiction. }
      destruct (pow_sum_apart xs (range_rows (dp_b P) fhs k i) [] Hnd) as (y & _ & Hy); auto.
      { unfold range_rows. rewrite map_length, seq_length. auto. }
      right. exists (refvec N (2 * k2 + k) y s i). destruct (HG (2 * k2 + k)%nat y i) as [E1 E2]; auto; [unfold N; lia|]. split; auto. rewrite E2.
      destruct (Nat.ltb_spec (2 * k2 + k) k2); [lia|]. destruct (Nat.leb_spec k2 (2 * k2 + k)); [|lia].
      destruct (Nat.ltb_spec (2 * k2 + k) (2 * k2)); [lia|]. cbn [andb]. destruct (Nat.leb_spec (2 * k2) (2 * k2 + k)); [|lia].
      replace (2 * k2 + k - 2 * k2)%nat with k by lia. rewrite Hlast by auto. intros E3. apply Hy. rewrite pow_sum_nil.
      transitivity (- (0 + 0 - (pow_sum (emb y) (range_rows (dp_b P) fhs k i) + 0))); [ring|rewrite E3; ring]. }
  assert (0 < 2 ^ s)%nat as H2s by (pose proof (Nat.pow_nonzero 2 s); lia).
  assert (forall t y, (t < N)%nat -> (t < 2 * k2)%nat ->
     pow_sum (emb y) [] = (0:R) -> True) as _ by auto.
  destruct (all_dec k2 (fun i => pad_eq (nth i vs []) (nth i (evs2 (dp_K P) fhs r1 r2) []))) as [Hv|(t & Ht & Hne)].
  { intros i. apply pad_eq_or. }
  2:{ destruct (pow_sum_apart xs (nth t vs []) (nth t (evs2 (dp_K P) fhs r1 r2) []) Hnd) as (y & _ & Hy); auto; try apply (Hlen t Ht).
      right. exists (refvec N t y s 0). destruct (HG t y 0%nat) as [E1 E2]; auto; [unfold N; lia|]. split; auto. rewrite E2.
      destruct (Nat.ltb_spec t k2); [|lia]. destruct (Nat.leb_spec k2 t); [lia|]. cbn [andb]. destruct (Nat.leb_spec (2 * k2) t); [lia|].
      rewrite Hlast by auto. intros E3. apply Hy. apply (proj1 (rsub_0_iff _ _)). rewrite <- E3. ring. }
  destruct (all_dec k2 (fun i => pad_eq (nth i us []) (nth i (evs2 (dp_K P) mzs r1 r2) []))) as [Hu|(t & Ht & Hne)].
  { intros i. apply pad_eq_or. }
  2:{ destruct (pow_sum_apart xs (nth t us []) (nth t (evs2 (dp_K P) mzs r1 r2) []) Hnd) as (y & _ & Hy); auto; try apply (Hlen t Ht).
      right. exists (refvec N (k2 + t) y s 0). destruct (HG (k2 + t)%nat y 0%nat) as [E1 E2]; auto; [unfold N; lia|]. split; auto. rewrite E2.
      destruct (Nat.ltb_spec (k2 + t) k2); [lia|]. destruct (Nat.leb_spec k2 (k2 + t)); [|lia]. destruct (Nat.ltb_spec (k2 + t) (2 * k2)); [|lia]. cbn [andb].
      destruct (Nat.leb_spec (2 * k2) (k2 + t)); [lia|]. replace (k2 + t - k2)%nat with t by lia.
      rewrite Hlast by auto. intros E3. apply Hy. apply (proj1 (rsub_0_iff _ _)). rewrite <- E3. ring. }
  left. split; [intros i Hi; split; auto|]. intros i Hi. split; auto.
Qed.

(** The challenges the verifier draws from the transcript state [ts], in order, and the state after. *)
Definition fold_chal (P : dparams) (ts : T) (s : nat) : list K * T :=
  let '(alpha, ts) := get_challenges (absorb_tag ts "alpha_s") (2 * dp_K P) in
  let '(zeta, ts) := get_challenges (absorb_tag ts "zeta_s") (2 * dp_K P) in
  let '(mu, ts) := get_challenges (absorb_tag ts "mu_s") (2 * dp_K P - 1) in
  let '(beta, ts) := get_challenges (absorb_tag ts "beta_s") s in
  (alpha ++ zeta ++ mu ++ beta, ts).
Lemma squeeze_fold_chal P ts s : exists a b z m, let ts1 := snd (fold_chal P ts s) in
  squeeze_abzm P ts s = (map emb a, map emb b, map emb z, map emb m ++ [1], ts1) /\
  fst (fold_chal P ts s) = a ++ z ++ m ++ b /\
  length a = (2 * dp_K P)%nat /\ length b = s /\ length z = (2 * dp_K P)%nat /\ length m = (2 * dp_K P - 1)%nat.
Proof.
  unfold squeeze_abzm, fold_chal.
  pose proof (get_challenges_length (absorb_tag ts "alpha_s") (2 * dp_K P)) as H1. destruct (get_challenges (absorb_tag ts "alpha_s") _) as [a t1].
  pose proof (get_challenges_length (absorb_tag t1 "zeta_s") (2 * dp_K P)) as H2. destruct (get_challenges (absorb_tag t1 "zeta_s") _) as [z t2].
  pose proof (get_challenges_length (absorb_tag t2 "mu_s") (2 * dp_K P - 1)) as H3. destruct (get_challenges (absorb_tag t2 "mu_s") _) as [m t3].
  pose proof (get_challenges_length (absorb_tag t3 "beta_s") s) as H4. destruct (get_challenges (absorb_tag t3 "beta_s") _) as [b t4].
  cbn [fst snd] in *. exists a, b, z, m. cbn zeta. repeat split; auto.
Qed.
Lemma gbatch_diff P s vs us fhs mzs r1 r2 (a z m b : list R) : (1 <= dp_K P)%nat ->
  length a = (2 * dp_K P)%nat -> length z = (2 * dp_K P)%nat -> length m = (2 * dp_K P - 1)%nat -> length b = s ->
  gbatch P vs us fhs mzs r1 r2 (a ++ z ++ m ++ b) =
  claim_of P a z vs us - (claim_of P a z (evs2 (dp_K P) fhs r1 r2) (evs2 (dp_K P) mzs r1 r2) + mle_spec (range_table (dp_b P) (m ++ [1]) fhs) b).
Proof.
  intros HK Ha Hz Hm Hb. unfold gbatch, claim_of. cbv zeta. set (k2 := (2 * dp_K P)%nat) in *.
  rewrite !sumn_add.
  assert (skipn (3 * k2 - 1) (a ++ z ++ m ++ b) = b) as ->.
  { rewrite !app_assoc, skipn_app, skipn_all2 by (rewrite !app_length; lia). rewrite !app_length.
    replace (3 * k2 - 1 - (length a + length z + length m))%nat with 0%nat by lia. reflexivity. }
  rewrite !sumn_sub.
  assert (forall w, sumn k2 (fun i => pow_sum (nth i (a ++ z ++ m ++ b) 0) (nth i w [])) = sumn k2 (fun i => pow_sum (nth i a 0) (nth i w []))) as E1.
  { intros w. apply sumn_ext. intros i Hi. rewrite app_nth1 by lia. auto. }
  assert (forall w, sumn k2 (fun i => pow_sum (nth (k2 + i) (a ++ z ++ m ++ b) 0) (nth i w [])) = sumn k2 (fun i => pow_sum (nth i z 0) (nth i w []))) as E2.
  { intros w. apply sumn_ext. intros i Hi. rewrite app_nth2 by lia. rewrite app_nth1 by lia. do 2 f_equal. lia. }
  rewrite !E1, !E2.
  assert (forall i, range_table (dp_b P) (m ++ [1]) fhs i =
    sumn (k2 - 1) (fun k => pow_sum (nth (2 * k2 + k) (a ++ z ++ m ++ b) 0) (range_rows (dp_b P) fhs k i)) + lsum (range_rows (dp_b P) fhs (k2 - 1) i)) as E3.
  { intros i. unfold range_table. rewrite app_length, Hm. cbn [length]. rewrite Nat.add_1_r. cbn [sumn]. f_equal.
    - apply sumn_ext. intros k Hk. rewrite pow_sum_spec. unfold range_rows at 1. rewrite map_length, seq_length. apply sumn_ext. intros d Hd.
      rewrite app_nth1 by lia. rewrite !(app_nth2 _ _ 0) by lia. rewrite app_nth1 by lia.
      replace (2 * k2 + k - length a - length z)%nat with k by lia. f_equal. unfold range_rows.
      rewrite (nth_seq_map (fun d => range_poly (dp_b P) (mle_get (nth d (nth k fhs []) (Mle 0 [])) i))) by auto. auto.
    - rewrite <- pow_sum_one, pow_sum_spec. unfold range_rows at 1. rewrite map_length, seq_length. apply sumn_ext. intros d Hd.
      rewrite app_nth2 by lia. rewrite Hm, Nat.sub_diag. cbn [nth]. f_equal. unfold range_rows.
      rewrite (nth_seq_map (fun d => range_poly (dp_b P) (mle_get (nth d (nth (k2 - 1) fhs []) (Mle 0 [])) i))) by auto. auto. }
  rewrite (mle_spec_ext (range_table (dp_b P) (m ++ [1]) fhs) _ b (fun i _ => E3 i)). ring.
Qed.

(** Either a batching challenge or a sumcheck challenge of the run hits a root of a nonzero
    polynomial of low degree fixed before it was drawn. *)
Definition fold_bad (P : dparams) (cs : ccs R) (cms : list (lcccs R)) (fhs mzs : list (list (mle R))) (r1 r2 : list R)
    (D : nat) (ref : list K) (ts : T) (pf : fold_proof R) (lc : lcccs R) : Prop :=
  let '(c, ts1) := fold_chal P ts (c_s cs) in
  bad_batch D (gbatch P (map lc_v cms) (map lc_u cms) fhs mzs r1 r2) ref c \/
  exists rs alpha beta zeta mu, lc_r lc = map emb rs /\ squeeze_abzm P ts (c_s cs) = (alpha, beta, zeta, mu, ts1) /\
    sc_bad (c_s cs) (2 * dp_b P) (gfold P alpha beta zeta mu r1 r2 fhs mzs) ts1 (fp_sc pf) rs.

(** ** Soundness of the folding verifier (C60) *)
Theorem folding_sound_tables_at P (cs : ccs R) cms fhs mzs t r1 r2 (xs : list K) D :
  (1 <= dp_K P)%nat -> (1 <= dp_b P)%nat -> (1 <= c_s cs)%nat -> char_gt K (2 * dp_b P) ->
  tables_ok (c_s cs) (2 * dp_K P) tau fhs -> tables_ok (c_s cs) (2 * dp_K P) t mzs ->
  halves lc_r (dp_K P) cms r1 r2 -> length r1 = c_s cs -> length r2 = c_s cs ->
  NoDup xs -> (D < length xs)%nat -> (tau <= D)%nat -> (t <= D)%nat ->
  Forall (fun c => length (lc_v c) <= D /\ length (lc_u c) <= D)%nat cms ->
  fold_good P (c_s cs) (map lc_v cms) (map lc_u cms) fhs mzs r1 r2 \/
  forall ts pf lc ts',
    fold_verify P cms pf ts cs = Ok (lc, ts') ->
    fp_theta pf = evs fhs (lc_r lc) -> fp_eta pf = evs mzs (lc_r lc) ->
    fold_bad P cs cms fhs mzs r1 r2 D
      (batch_ref xs (3 * (2 * dp_K P) - 1 + c_s cs) (gbatch P (map lc_v cms) (map lc_u cms) fhs mzs r1 r2)) ts pf lc.
Proof.
  intros HK Hb Hs Hchar Hft Hzt Hhalf Hr1 Hr2 Hnd HD HtD HttD Hlens.
  pose proof (halves_length _ _ _ _ _ Hhalf) as Hlc.
  assert (forall i, (i < 2 * dp_K P)%nat -> (length (nth i (map lc_v cms) []) <= D /\ length (nth i (map lc_u cms) []) <= D /\
     length (nth i (evs2 (dp_K P) fhs r1 r2) []) <= D /\ length (nth i (evs2 (dp_K P) mzs r1 r2) []) <= D)%nat) as HL.
  { intros i Hi. rewrite Forall_forall in Hlens. set (c0 := nth i cms (Lcccs [] [] [] [] [] 0)).
    destruct (Hlens c0) as [L1 L2]; [apply nth_In; lia|].
    rewrite !(nth_map_lt _ _ _ (Lcccs [] [] [] [] [] 0)) by lia. fold c0. split; auto. split; auto.
    destruct Hft as [F1 F2]. destruct Hzt as [Z1 Z2]. rewrite !nth_evs2 by lia. rewrite !map_length.
    rewrite Forall_forall in F2, Z2. destruct (F2 (nth i fhs [])) as [-> _]; [apply nth_In; lia|].
    destruct (Z2 (nth i mzs [])) as [-> _]; [apply nth_In; lia|]. lia. }
  destruct (good_or_ref P (c_s cs) (map lc_v cms) (map lc_u cms) fhs mzs r1 r2 xs) as [Hg|(ref0 & Hrl0 & Hrn0)]; auto; [lia| |].
  { intros i Hi. specialize (HL i Hi). lia. }
  destruct (batch_ref_ok D (gbatch P (map lc_v cms) (map lc_u cms) fhs mzs r1 r2) xs (3 * (2 * dp_K P) - 1 + c_s cs) ref0) as [Hrl Hrn]; auto.
  { apply gbatch_deg; auto. }
  set (ref := batch_ref xs _ _) in *.
  right. intros ts pf lc ts' HV Hth Het. unfold fold_bad.
  destruct (squeeze_fold_chal P ts (c_s cs)) as (a & b & z & m & Esq & Ech & Ha & Hbl & Hz & Hm).
  destruct (fold_chal P ts (c_s cs)) as [ch ts1]. cbn [fst snd] in Esq, Ech. subst ch. cbv zeta in Esq.
  unfold fold_verify in HV. apply bind_ok_inv in HV as ([] & _ & HV). rewrite Esq in HV.
  apply bind_ok_inv in HV as ([[rs e] ts2] & Hsc & HV).
  apply bind_ok_inv in HV as ([] & Hev & HV).
  destruct (get_rhos P _) as [[rho_c rho] ts3].
  apply bind_ok_inv in HV as ([[[v0 cm0] u0] x0] & Hpub & HV).
  apply bind_ok_inv in HV as (lc' & Hout & HV). apply ok_inj in HV. injection HV as -> ->.
  assert (lc_r lc = map emb rs) as Er.
  { unfold public_output in Hout. destruct (last_opt x0); [|discriminate]. apply ok_inj in Hout. subst lc. reflexivity. }
  rewrite Er in Hth, Het.
  set (alpha := map emb a) in *. set (beta := map emb b) in *. set (zeta := map emb z) in *. set (mu := map emb m ++ [1]) in *.
  assert (length alpha = (2 * dp_K P)%nat) as Hla by (unfold alpha; rewrite map_length; auto).
  assert (length beta = c_s cs) as Hlb by (unfold beta; rewrite map_length; auto).
  assert (length zeta = (2 * dp_K P)%nat) as Hlz by (unfold zeta; rewrite map_length; auto).
  assert (length mu = (2 * dp_K P)%nat) as Hlm by (unfold mu; rewrite app_length, map_length; cbn [length]; lia).
  assert (length rs = c_s cs) as Hrs.
  { unfold sc_verify in Hsc. apply bind_ok_inv in Hsc as ([[ms cs'] tt'] & H1 & H2).
    apply verify_loop_inv in H1 as (_ & _ & H1). destruct (c_s cs =? 0)%nat; [discriminate|].
    apply bind_ok_inv in H2 as (e' & _ & H2). apply ok_inj in H2. injection H2 as <- _ _. auto. }
  set (r0 := map emb rs) in *. assert (length r0 = c_s cs) as Hr0 by (unfold r0; rewrite map_length; auto).
  set (g := gfold P alpha beta zeta mu r1 r2 fhs mzs).
  assert (e = g r0) as He.
  { unfold verify_evaluation in Hev. rewrite eq_eval_spec, Hlb, Hr0, Nat.eqb_refl in Hev. cbn [bind] in Hev.
    rewrite (eq_evals cms (dp_K P) r1 r2 r0) in Hev by (auto; lia). cbn [bind] in Hev.
    rewrite Hth, Het in Hev. rewrite final_check_agrees in Hev; auto.
    - cbn [bind] in Hev. rewrite (eqp_sym beta r0) in Hev by lia.
      match type of Hev with (if ?x =? _ then _ else _) = _ => destruct (req_dec x e) as [Eq|Nq] end.
      + rewrite <- Eq. reflexivity.
      + exfalso. rewrite (proj2 (req_false _ _) Nq) in Hev. discriminate.
    - rewrite evs_length. apply Hft.
    - rewrite evs_length. apply Hzt.
    - unfold evs. rewrite Forall_map. eapply Forall_impl; [|apply Hft]. intros ms [HLn _]. rewrite map_length. auto. }
  pose proof (gfold_sum P (c_s cs) alpha beta zeta mu r1 r2 fhs mzs t Hlb Hr1 Hr2 Hft Hzt Hlm) as Hsum. fold g in Hsum.
  assert (gbatch P (map lc_v cms) (map lc_u cms) fhs mzs r1 r2 (map emb (a ++ z ++ m ++ b)) = claim_sum alpha zeta cms - cube_sum (c_s cs) g) as HG.
  { rewrite !map_app. fold alpha zeta beta. rewrite (gbatch_diff P (c_s cs)) by (auto; rewrite map_length; auto).
    rewrite (claim_sum_spec P) by auto. rewrite Hsum. reflexivity. }
  destruct (req_dec (claim_sum alpha zeta cms) (cube_sum (c_s cs) g)) as [Eq|Nq].
  - left. apply batch_sound.
    + apply gbatch_deg; auto.
    + rewrite Hrl, !app_length. lia.
    + auto.
    + rewrite HG, Eq. ring.
  - right. exists rs, alpha, beta, zeta, mu. split; auto. split; auto. fold g.
    destruct (sumcheck_sound (c_s cs) (2 * dp_b P) g ts1 (claim_sum alpha zeta cms) (fp_sc pf) rs e ts2) as (_ & HH); auto; [lia|].
    destruct (fold_poly_ok P (c_s cs) fhs mzs t alpha beta zeta mu (map lc_r cms) r1 r2) as
      (chM1 & chM2 & mles & _ & _ & _ & Hml & Hnv & Hat); auto.
    { rewrite map_length. auto. }
    { unfold halves in Hhalf. rewrite Hhalf. rewrite app_nth1 by (rewrite repeat_length; lia).
      rewrite (nth_indep _ [] r1) by (rewrite repeat_length; lia). apply nth_repeat. }
    { unfold halves in Hhalf. rewrite Hhalf. rewrite app_nth2; rewrite repeat_length; [|lia]. rewrite Nat.sub_diag.
      rewrite (nth_indep _ [] r2) by (rewrite repeat_length; lia). apply nth_repeat. }
    intros pre suf Hl. eapply deg_le_ext; [|apply (var_deg_mles (fold_comb P mu) mles (c_s cs) (2 * dp_b P)); [|exact Hl]].
    + intros y. cbn beta. unfold g, gfold. rewrite Hat; auto. rewrite app_length. cbn [length]. auto.
    + apply fold_comb_deg. auto.
Qed.

(** The same for witnesses: the claimed evaluations are those of the witnesses, all witnesses but the
    last satisfy the norm bound, and the last satisfies it when [tau = 1]. *)
Theorem folding_sound_at P (A : ajtai R) (cs : ccs R) cms (ws : list (witness C R)) r1 r2 (xs : list K) D :
  sizes_ok p P cs -> char_gt K (2 * dp_b P) -> (2 * Z.of_nat (dp_b P) <= p + 1)%Z ->
  halves lc_r (dp_K P) cms r1 r2 -> length r1 = c_s cs -> length r2 = c_s cs ->
  Forall2 (fun lc w => opens P A cs (lc_cm lc) w /\ length (lc_x lc) = c_l cs) cms ws ->
  NoDup xs -> (D < length xs)%nat -> (tau <= D)%nat -> (c_t cs <= D)%nat ->
  Forall (fun c => length (lc_v c) <= D /\ length (lc_u c) <= D)%nat cms ->
  let fhs := map w_fhat ws in
  let mzs := zipw (fun lc w => map (Mz_mle (c_s cs) (lcccs_z lc (w_ccs w))) (c_M cs)) cms ws in
  ((forall i lc w, nth_error cms i = Some lc -> nth_error ws i = Some w ->
      pad_eq (lc_v lc) (vvec w (lc_r lc)) /\ pad_eq (lc_u lc) (uvec cs lc w (lc_r lc)) /\
      ((i < 2 * dp_K P - 1)%nat \/ tau = 1%nat -> wit_norm (Z.of_nat (dp_b P) - 1) w))) \/
  forall ts pf lc ts',
    fold_verify P cms pf ts cs = Ok (lc, ts') ->
    fp_theta pf = evs fhs (lc_r lc) -> fp_eta pf = evs mzs (lc_r lc) ->
    fold_bad P cs cms fhs mzs r1 r2 D
      (batch_ref xs (3 * (2 * dp_K P) - 1 + c_s cs) (gbatch P (map lc_v cms) (map lc_u cms) fhs mzs r1 r2)) ts pf lc.
Proof.
  intros Hsz Hchar Hbp Hhalf Hr1 Hr2 Hrel Hnd HD HtD HttD Hlens fhs mzs.
  pose proof (halves_length _ _ _ _ _ Hhalf) as Hlc.
  pose proof (so_b _ _ _ Hsz) as Hb. pose proof (so_K _ _ _ Hsz) as HK. pose proof (so_cov _ _ _ Hsz) as Hcov.
  set (dlc := Lcccs [] [] [] [] [] 0 : lcccs R). set (dw := Witness [] [] [] [] : witness C R).
  destruct (proj1 (Forall2_nth _ cms ws dlc dw) Hrel) as [Hlw Hri]. rewrite Hlc in Hlw, Hri.
  destruct (so_sized _ _ _ Hsz) as (Hm & Hs1 & _).
  assert (forall i, (i < 2 * dp_K P)%nat -> lc_r (nth i cms dlc) = if (i <? dp_K P)%nat then r1 else r2) as Hr.
  { intros i Hi. unfold halves in Hhalf. rewrite <- (nth_map_lt lc_r _ _ dlc []) by lia. rewrite Hhalf.
    destruct (Nat.ltb_spec i (dp_K P)).
    - rewrite app_nth1 by (rewrite repeat_length; lia). rewrite (nth_indep _ [] r1) by (rewrite repeat_length; lia). apply nth_repeat.
    - rewrite app_nth2; rewrite repeat_length; [|lia]. rewrite (nth_indep _ [] r2) by (rewrite repeat_length; lia). apply nth_repeat. }
  assert (tables_ok (c_s cs) (2 * dp_K P) tau fhs) as Hft.
  { split; [unfold fhs; rewrite map_length; lia|]. unfold fhs. rewrite Forall_map. apply Forall_forall. intros w Hw.
    apply In_nth with (d := dw) in Hw as (i & Hi & <-). apply (wit_tables (p := p) P A cs (lc_cm (nth i cms dlc))); auto.
    apply (Hri i ltac:(lia)). }
  assert (tables_ok (c_s cs) (2 * dp_K P) (c_t cs) mzs) as Hzt.
  { split; [unfold mzs; rewrite zipw_length; lia|]. apply Forall_forall. intros ms Hms.
    apply In_nth with (d := []) in Hms as (i & Hi & <-). unfold mzs in *. rewrite zipw_length in Hi.
    rewrite (nth_zipw _ _ _ _ dlc dw) by lia. rewrite map_length. split; [apply (so_wf _ _ _ Hsz)|].
    rewrite Forall_map. apply Forall_forall. auto. }
  destruct (folding_sound_tables_at P cs cms fhs mzs (c_t cs) r1 r2 xs D) as [[Hev Hrg]|H]; auto; [lia|].
  left. intros i lc w Elc Ew.
  assert (i < 2 * dp_K P)%nat as Hi by (rewrite <- Hlc; apply nth_error_Some; congruence).
  apply (nth_error_nth _ _ dlc) in Elc. apply (nth_error_nth _ _ dw) in Ew. subst lc w.
  destruct (Hri i Hi) as [Ho Hx]. destruct (Hev i Hi) as [Ev Eu]. rewrite Hr by auto.
  assert (length (if (i <? dp_K P)%nat then r1 else r2) = c_s cs) as Hrl by (destruct (i <? dp_K P)%nat; auto).
  split; [|split].
  - rewrite (nth_map_lt _ _ _ dlc) in Ev by lia. rewrite nth_evs2 in Ev by (destruct Hft; lia).
    unfold fhs in Ev. rewrite (nth_map_lt _ _ _ dw) in Ev by lia. rewrite (fhat_eval P) in Ev by apply (op_wit _ _ _ _ _ Ho). exact Ev.
  - rewrite (nth_map_lt _ _ _ dlc) in Eu by lia. rewrite nth_evs2 in Eu by (destruct Hzt; lia).
    unfold mzs in Eu. rewrite (nth_zipw _ _ _ _ dlc dw) in Eu by lia. rewrite map_map in Eu. unfold uvec.
    erewrite map_ext; [exact Eu|]. intros M. cbn beta. symmetry. apply Mz_mle_eval. auto.
  - intros Hc. destruct (opens_w_len P A cs _ _ (proj1 (proj2 Hcov)) Ho) as [_ Hfl].
    unfold wit_norm. apply Forall_forall. intros c Hin. apply In_nth with (d := 0) in Hin as (j & Hj & <-).
    assert (j < 2 ^ c_s cs)%nat as Hj2.
    { eapply Nat.lt_le_trans; [exact Hj|]. rewrite Hfl. rewrite <- Hm, <- (so_m _ _ _ Hsz). apply next_pow2_ge. }
    apply range_poly_hat; auto; [lia|]. intros d Hd. destruct (Hrg j Hj2) as [Hr1' Hr2'].
    assert (forall k, (k < 2 * dp_K P)%nat -> nth d (range_rows (dp_b P) fhs k j) 0 = range_poly (dp_b P) (hat d (nth j (w_fc (nth k ws dw)) 0))) as Hrow.
    { intros k Hk. unfold range_rows.
      rewrite (nth_seq_map (fun d => range_poly (dp_b P) (mle_get (nth d (nth k fhs []) (Mle 0 [])) j))) by auto.
      unfold fhs. rewrite (nth_map_lt _ _ _ dw) by lia. destruct (op_wit _ _ _ _ _ (proj1 (Hri k Hk))) as (_ & _ & -> & _).
      rewrite get_fhat_get by auto. auto. }
    rewrite <- Hrow by auto. destruct (Nat.eq_dec i (2 * dp_K P - 1)) as [->|Hne].
    + destruct Hc as [Hc|Hc]; [lia|]. rewrite lsum_nth in Hr2'. unfold range_rows at 1 in Hr2'.
      rewrite map_length, seq_length, Hc in Hr2'. cbn [sumn] in Hr2'. replace d with 0%nat by lia.
      etransitivity; [|exact Hr2']. ring.
    + rewrite (Hr1' i ltac:(lia)). destruct d; auto.
Qed.
Theorem folding_sound P (A : ajtai R) (cs : ccs R) cms (ws : list (witness C R)) r1 r2 (xs : list K) D :
  sizes_ok p P cs -> char_gt K (2 * dp_b P) -> (2 * Z.of_nat (dp_b P) <= p + 1)%Z ->
  halves lc_r (dp_K P) cms r1 r2 -> length r1 = c_s cs -> length r2 = c_s cs ->
  Forall2 (fun lc w => opens P A cs (lc_cm lc) w /\ length (lc_x lc) = c_l cs) cms ws ->
  NoDup xs -> (D < length xs)%nat -> (tau <= D)%nat -> (c_t cs <= D)%nat ->
  Forall (fun c => length (lc_v c) <= D /\ length (lc_u c) <= D)%nat cms ->
  let fhs := map w_fhat ws in
  let mzs := zipw (fun lc w => map (Mz_mle (c_s cs) (lcccs_z lc (w_ccs w))) (c_M cs)) cms ws in
  ((forall i lc w, nth_error cms i = Some lc -> nth_error ws i = Some w ->
      pad_eq (lc_v lc) (vvec w (lc_r lc)) /\ pad_eq (lc_u lc) (uvec cs lc w (lc_r lc)) /\
      ((i < 2 * dp_K P - 1)%nat \/ tau = 1%nat -> wit_norm (Z.of_nat (dp_b P) - 1) w))) \/
  exists ref : list K, forall ts pf lc ts',
    fold_verify P cms pf ts cs = Ok (lc, ts') ->
    fp_theta pf = evs fhs (lc_r lc) -> fp_eta pf = evs mzs (lc_r lc) ->
    fold_bad P cs cms fhs mzs r1 r2 D ref ts pf lc.
Proof.
  intros H1 H2 H3 H4 H5 H6 H7 H8 H9 H10 H11 H12 fhs mzs.
  destruct (folding_sound_at P A cs cms ws r1 r2 xs D H1 H2 H3 H4 H5 H6 H7 H8 H9 H10 H11 H12) as [H|H]; [left; exact H|right; eauto].
Qed.
End S.
