(** The folding scheme as a whole: completeness, chains of folds, what the transcript absorbs, and
    what acceptance does and does not guarantee. *)
From Coq Require Import String List Arith Lia ZArith Bool Ring.
From Verif Require Import Prelude Alg Poly MLE MLE_Proofs Transcript Interp Sumcheck Sumcheck_Proofs CombDeg
  Arith Arith_Proofs Balanced Rings Rings_Proofs Linearization Linearization_Proofs Relations LinRel
  Decomposition Decomposition_Proofs Folding Folding_Comb Folding_Proofs Folding_Complete Folding_Sound NIFS.
Import ListNotations.
Local Open Scope rs_scope.

Section Complete.
Context {F K C R T : Type} {SO : SOps F K C R} {p : Z} {SL : SLaws F K C R p} {TO : TransOps T R K} {HO : ShortOps T C}.
Add Ring Rring25 : (@rlaws_th R _ _).

Lemma Forall2_app' {X Y} (Q : X -> Y -> Prop) l1 l2 m1 m2 : Forall2 Q l1 m1 -> Forall2 Q l2 m2 -> Forall2 Q (l1 ++ l2) (m1 ++ m2).
Proof. intros H1 H2. induction H1; cbn [app]; auto. Qed.
Lemma zipw_app {X Y Z} (f : X -> Y -> Z) l1 l2 m1 m2 : length l1 = length m1 -> zipw f (l1 ++ l2) (m1 ++ m2) = zipw f l1 m1 ++ zipw f l2 m2.
Proof. revert m1; induction l1 as [|x l1 IH]; intros [|y m1] H; try discriminate; cbn [app zipw]; auto. f_equal. apply IH. cbn in H. lia. Qed.
Lemma map_const_repeat {X Y} (f : X -> Y) l y : Forall (fun x => f x = y) l -> map f l = repeat y (length l).
Proof. induction 1; cbn [map length repeat]; auto. f_equal; auto. Qed.
Lemma wit_norm_mono B B' (w : witness C R) : (B <= B')%Z -> wit_norm B w -> wit_norm B' w.
Proof. intros H. apply Forall_impl. intros c Hc. eapply cnorm_mono; eauto. Qed.

(** What a CCS and the parameters have to satisfy for the honest protocol to run. *)
Record params_ok (P : dparams) (cs : ccs R) : Prop := {
  po_sizes : sizes_ok p P cs;
  po_order : in_order cs;
  po_deg : degree_ok cs;
  po_chd : char_gt K (c_d cs + 1);
  po_chb : char_gt K (2 * dp_b P);
  po_p : (2 * Z.of_nat (dp_b P) <= p + 1)%Z }.

(** C34, with the shape of the folded witness. *)
Theorem nifs_complete_full P A cs acc (w_acc : witness C R) cm_i w_i ts :
  params_ok P cs ->
  lcccs_rel P A cs acc w_acc -> Forall (in_range P) (w_fc w_acc) ->
  cccs_rel P A cs cm_i w_i -> Forall (in_range P) (w_fc w_i) ->
  exists lc w pf ts' rho ws,
    nifs_prove P acc w_acc cm_i w_i ts cs A = Ok (lc, w, pf, ts') /\
    nifs_verify P acc cm_i pf ts cs = Ok (lc, ts') /\
    lcccs_rel P A cs lc w /\
    length rho = (2 * dp_K P - 1)%nat /\ Forall drawn rho /\
    length ws = (2 * dp_K P)%nat /\ Forall (wit_norm (Z.of_nat (dp_b P) / 2)) ws /\
    is_lin (2 * dp_K P) (fun i => nth i (rho ++ [1]) 0) (fun i => w_fc (nth i ws (Witness [] [] [] []))) (w_fc w).
Proof.
  intros [Hs Ho Hd Hcd Hcb Hbp] Hacc Hra Hcm Hri. pose proof (so_b _ _ _ Hs) as Hb2.
  unfold nifs_prove, nifs_verify. rewrite (sizes_sanity (p := p) P cs Hs). cbn [bind].
  set (ts0 := absorb_public_input acc cm_i ts).
  destruct (linearization_complete P A cs cm_i w_i ts0) as (lin & pfl & ts1 & L1 & L2 & L3 & _ & _); auto.
  rewrite L1. cbn [bind].
  destruct (decomposition_complete P A cs acc w_acc ts1) as (mz1 & lc1 & wt1 & pf1 & ts2 & A1 & A2 & A3 & A4 & A5 & A6 & A7 & A8 & _); auto.
  rewrite A1. cbn [bind].
  destruct (decomposition_complete P A cs lin w_i ts2) as (mz2 & lc2 & wt2 & pf2 & ts3 & B1 & B2 & B3 & B4 & B5 & B6 & B7 & B8 & _); auto.
  rewrite B1. cbn [bind].
  assert (Forall (wit_norm (Z.of_nat (dp_b P) / 2)) (wt1 ++ wt2)) as Hn by (apply Forall_app; auto).
  destruct (folding_complete P A cs (lc1 ++ lc2) (wt1 ++ wt2) ts3 (lc_r acc) (lc_r lin)) as
    (lc & w & pff & ts4 & rs & rho & F1 & F2 & F3 & _ & (F5 & F6) & F7); auto.
  - unfold halves. rewrite map_app, (map_const_repeat lc_r lc1 (lc_r acc)), (map_const_repeat lc_r lc2 (lc_r lin)) by auto.
    rewrite A3, B3. auto.
  - apply Forall2_app'; auto.
  - eapply Forall_impl; [|exact Hn]. intros w. apply wit_norm_mono.
    pose proof (Z.div_le_upper_bound (Z.of_nat (dp_b P)) 2 (Z.of_nat (dp_b P) - 1)). lia.
  - rewrite A8, B8. rewrite <- zipw_app by lia. rewrite F1. cbn [bind].
    exists lc, w, (LFProof pfl pf1 pf2 pff), ts4, rho, (wt1 ++ wt2). split; auto.
    cbn [lf_lin lf_dec_l lf_dec_r lf_fold]. rewrite L2. cbn [bind]. rewrite A2. cbn [bind]. rewrite B2. cbn [bind].
    split; auto. split; auto. split; auto. split; auto. split; [rewrite app_length; lia|]. split; auto.
Qed.

(** The capacity condition under which folded witnesses can be decomposed again: [gamma] is the
    expansion factor of the ring, [S] bounds the coefficients of short challenges. *)
Definition capacity (P : dparams) (gamma S : Z) : Prop :=
  (2 * Z.of_nat (dp_K P) * (Z.of_nat dimC * gamma * S * (Z.of_nat (dp_b P) / 2)) <= reach (dp_K P) (Z.of_nat (dp_b P)))%Z.

(** Folding 2K witnesses with digits at most b/2 by drawn challenges gives a witness that K digits
    can represent. *)
Definition folds_in_range (P : dparams) : Prop :=
  forall (rho : list C) (ws : list (witness C R)) v, length rho = (2 * dp_K P - 1)%nat -> Forall drawn rho ->
  length ws = (2 * dp_K P)%nat -> Forall (wit_norm (Z.of_nat (dp_b P) / 2)) ws ->
  is_lin (2 * dp_K P) (fun i => nth i (rho ++ [1]) 0) (fun i => w_fc (nth i ws (Witness [] [] [] []))) v ->
  Forall (in_range P) v.
(** It suffices that multiplying small witnesses by challenges gives coefficients of at most [M]. *)
Lemma opnorm_in_range P M : (1 <= dp_K P)%nat ->
  (forall c x : C, drawn c -> cnorm_le (Z.of_nat (dp_b P) / 2) x -> cnorm_le M (c * x)) ->
  ((2 * Z.of_nat (dp_K P) - 1) * M + Z.of_nat (dp_b P) / 2 <= reach (dp_K P) (Z.of_nat (dp_b P)))%Z -> folds_in_range P.
Proof.
  intros HK HM Hcap rho ws v E4 E5 E6 E7 [E8 E9]. apply Forall_forall. intros c Hc.
  apply In_nth with (d := 0) in Hc as (j & Hj & <-). rewrite E9. intros i. rewrite cf_sumn.
  eapply Z.le_trans; [|exact Hcap].
  assert (forall k, (k < 2 * dp_K P)%nat -> cnorm_le (Z.of_nat (dp_b P) / 2) (nth j (w_fc (nth k ws (Witness [] [] [] []))) 0)) as Hw.
  { intros k Hk. rewrite Forall_forall in E7. specialize (E7 (nth k ws (Witness [] [] [] [])) ltac:(apply nth_In; lia)).
    unfold wit_norm in E7. rewrite Forall_forall in E7. apply E7, nth_In. rewrite E8 by auto. auto. }
  replace (2 * dp_K P)%nat with (S (2 * dp_K P - 1)) by lia. cbn [sumn].
  eapply Z.le_trans; [apply signed_add|]. apply Z.add_le_mono.
  - replace (2 * Z.of_nat (dp_K P) - 1)%Z with (Z.of_nat (2 * dp_K P - 1)) by lia. rewrite <- zsum_const. apply signed_sumn.
    intros k Hk. rewrite app_nth1 by lia. apply HM; [|apply Hw; lia]. rewrite Forall_forall in E5. apply E5, nth_In. lia.
  - rewrite app_nth2 by lia. replace (2 * dp_K P - 1 - length rho)%nat with 0%nat by lia. cbn [nth]. rewrite (@rmul_1_l _ _ l_C). apply Hw. lia.
Qed.
Lemma capacity_in_range P gamma S : (1 <= dp_K P)%nat ->
  expansion gamma -> (1 <= S)%Z -> (forall c, drawn c -> cnorm_le S c) -> capacity P gamma S -> folds_in_range P.
Proof.
  intros HK He HS1 HS Hcap rho ws v E4 E5 E6 E7 E8.
  assert (Forall (cnorm_le (Z.of_nat (2 * dp_K P) * (Z.of_nat dimC * gamma * S * (Z.of_nat (dp_b P) / 2)))) v) as HB.
  { eapply (folded_norm_uniform gamma (2 * dp_K P) rho ws); eauto; [lia|]. eapply Forall_impl; [|exact E5]. auto. }
  eapply Forall_impl; [|exact HB]. intros c Hc j. specialize (Hc j). unfold capacity in Hcap. lia.
Qed.

Theorem nifs_step P A cs acc (w_acc : witness C R) cm_i w_i ts :
  params_ok P cs -> folds_in_range P ->
  lcccs_rel P A cs acc w_acc -> Forall (in_range P) (w_fc w_acc) ->
  cccs_rel P A cs cm_i w_i -> Forall (in_range P) (w_fc w_i) ->
  exists lc w pf ts',
    nifs_prove P acc w_acc cm_i w_i ts cs A = Ok (lc, w, pf, ts') /\
    nifs_verify P acc cm_i pf ts cs = Ok (lc, ts') /\
    lcccs_rel P A cs lc w /\ Forall (in_range P) (w_fc w).
Proof.
  intros Hp Hcap H1 H2 H3 H4.
  destruct (nifs_complete_full P A cs acc w_acc cm_i w_i ts Hp H1 H2 H3 H4) as
    (lc & w & pf & ts' & rho & ws & E1 & E2 & E3 & E4 & E5 & E6 & E7 & E8).
  exists lc, w, pf, ts'. split; auto. split; auto. split; auto. eapply Hcap; eauto.
Qed.

(** Chains of folds: the prover keeps an accumulator and its witness, the verifier only the
    accumulator; every step may use its own transcript. *)
Fixpoint fold_chain_p (P : dparams) (cs : ccs R) (A : ajtai R) (acc : lcccs R) (w : witness C R)
    (steps : list (T * cccs R * witness C R)) : result (list (lcccs R * witness C R) * list (lf_proof R)) :=
  match steps with
  | [] => Ok ([], [])
  | (ts, cm_i, w_i) :: steps =>
      do s <- nifs_prove P acc w cm_i w_i ts cs A;
      let '(acc', w', pf, _) := s in
      do r <- fold_chain_p P cs A acc' w' steps;
      Ok ((acc', w') :: fst r, pf :: snd r)
  end.
Fixpoint fold_chain_v (P : dparams) (cs : ccs R) (acc : lcccs R) (steps : list (T * cccs R)) (pfs : list (lf_proof R))
  : result (list (lcccs R)) :=
  match steps, pfs with
  | (ts, cm_i) :: steps, pf :: pfs =>
      do s <- nifs_verify P acc cm_i pf ts cs;
      do r <- fold_chain_v P cs (fst s) steps pfs;
      Ok (fst s :: r)
  | _, _ => Ok []
  end.
(** C35 *)
Theorem nifs_chain P A cs :
  params_ok P cs -> folds_in_range P ->
  forall steps acc (w : witness C R),
  lcccs_rel P A cs acc w -> Forall (in_range P) (w_fc w) ->
  Forall (fun st => cccs_rel P A cs (snd (fst st)) (snd st) /\ Forall (in_range P) (w_fc (snd st))) steps ->
  exists accs pfs,
    fold_chain_p P cs A acc w steps = Ok (accs, pfs) /\ length accs = length steps /\ length pfs = length steps /\
    fold_chain_v P cs acc (map fst steps) pfs = Ok (map fst accs) /\
    Forall (fun a => lcccs_rel P A cs (fst a) (snd a) /\ Forall (in_range P) (w_fc (snd a))) accs.
Proof.
  intros Hp Hcap. induction steps as [|[[ts cm_i] w_i] steps IH]; intros acc w Hr Hin Hst.
  - exists [], []. cbn. auto.
  - inversion Hst as [|? ? [Hc Hi] Hst']; subst. cbn [fst snd] in Hc, Hi.
    destruct (nifs_step P A cs acc w cm_i w_i ts) as (lc & w' & pf & ts' & E1 & E2 & E3 & E4); auto.
    destruct (IH lc w') as (accs & pfs & G1 & G2 & G3 & G4 & G5); auto.
    exists ((lc, w') :: accs), (pf :: pfs). cbn [fold_chain_p fold_chain_v map fst snd length].
    rewrite E1. cbn [bind]. rewrite G1. cbn [bind fst snd]. rewrite E2. cbn [bind fst]. rewrite G4. cbn [bind].
    split; auto. split; [lia|]. split; [lia|]. split; auto.
Qed.
End Complete.

(** ** Transcript operations of honest runs (C40) *)
Section Log.
Context {F K C R T : Type} {SO : SOps F K C R} {p : Z} {SL : SLaws F K C R p} {TO : TransOps T R K} {HO : ShortOps T C}.

Inductive event := EAbsorb (x : R) | EChallenge (c : K) | EBytes (n : nat) | EShort (c : C).
(** A transcript that also records every operation performed on it. *)
Definition log_trans : TransOps (T * list event) R K :=
  {| absorb := fun s x => (absorb (fst s) x, EAbsorb x :: snd s);
     get_challenge := fun s => let '(c, t) := get_challenge (fst s) in (c, (t, EChallenge c :: snd s));
     squeeze_bytes := fun s n => let '(b, t) := squeeze_bytes (fst s) n in (b, (t, EBytes n :: snd s)) |}.
Definition log_short : ShortOps (T * list event) C :=
  fun s => let '(c, t) := get_short_challenge (fst s) in (c, (t, EShort c :: snd s)).

Theorem nifs_transcripts_agree P A cs acc (w_acc : witness C R) cm_i w_i (ts : T) :
  params_ok (p := p) P cs ->
  lcccs_rel P A cs acc w_acc -> Forall (in_range P) (w_fc w_acc) ->
  cccs_rel P A cs cm_i w_i -> Forall (in_range P) (w_fc w_i) ->
  exists lc w pf ts' log,
    nifs_prove (TO := log_trans) (HO := log_short) P acc w_acc cm_i w_i (ts, []) cs A = Ok (lc, w, pf, (ts', log)) /\
    nifs_verify (TO := log_trans) (HO := log_short) P acc cm_i pf (ts, []) cs = Ok (lc, (ts', log)).
Proof.
  intros H1 H2 H3 H4 H5.
  destruct (nifs_complete_full (TO := log_trans) (HO := log_short) P A cs acc w_acc cm_i w_i (ts, [])) as
    (lc & w & pf & [ts' log] & rho & ws & E1 & E2 & _); auto.
  exists lc, w, pf, ts', log. auto.
Qed.
End Log.

(** ** What is absorbed (C37) *)
Section Absorb.
Context {F K C R T : Type} {SO : SOps F K C R} {TO : TransOps T R K}.

Definition tag_elt (s : string) : R := emb (rofZ (be_val 0 s) : K).
Definition absorbed (acc : lcccs R) (cm_i : cccs R) : list R :=
  tag_elt "acc" :: lc_r acc ++ lc_v acc ++ lc_cm acc ++ lc_u acc ++ lc_x acc ++ lc_h acc ::
  tag_elt "cm_i" :: i_cm cm_i ++ i_x cm_i.
Lemma absorb_slice_app (ts : T) l m : absorb_slice ts (l ++ m) = absorb_slice (absorb_slice ts l) m.
Proof. unfold absorb_slice. apply fold_left_app. Qed.
Theorem absorb_public_input_spec acc cm_i (ts : T) : absorb_public_input acc cm_i ts = absorb_slice ts (absorbed acc cm_i).
Proof.
  unfold absorb_public_input, absorbed. cbv zeta.
  change (absorb_slice ts (tag_elt "acc" :: ?l)) with (absorb_slice (absorb_tag ts "acc") l).
  rewrite !absorb_slice_app.
  match goal with |- _ = absorb_slice ?t (?h :: ?g :: ?l) => change (absorb_slice t (h :: g :: l)) with (absorb_slice (absorb (absorb t h) g) l) end.
  rewrite absorb_slice_app. reflexivity.
Qed.
Lemma app_inj_len {X} (a b c d : list X) : length a = length c -> a ++ b = c ++ d -> a = c /\ b = d.
Proof.
  revert c; induction a as [|x a IH]; intros [|y c] Hl H; try discriminate; auto.
  cbn [app] in H. injection H as -> H. destruct (IH c) as [-> ->]; auto.
Qed.
(** Instances of the same shape absorb different sequences unless they are equal. *)
Theorem absorbed_inj acc cm_i acc' cm_i' :
  length (lc_r acc) = length (lc_r acc') -> length (lc_v acc) = length (lc_v acc') ->
  length (lc_cm acc) = length (lc_cm acc') -> length (lc_u acc) = length (lc_u acc') ->
  length (lc_x acc) = length (lc_x acc') -> length (i_cm cm_i) = length (i_cm cm_i') ->
  absorbed acc cm_i = absorbed acc' cm_i' -> acc = acc' /\ cm_i = cm_i'.
Proof.
  destruct acc as [r v cm u x h], acc' as [r' v' cm' u' x' h'], cm_i as [ic ix], cm_i' as [ic' ix']. unfold absorbed. cbn [lc_r lc_v lc_cm lc_u lc_x lc_h i_cm i_x].
  intros H1 H2 H3 H4 H5 H6 H. injection H as H. 
  apply app_inj_len in H as [-> H]; auto. apply app_inj_len in H as [-> H]; auto. apply app_inj_len in H as [-> H]; auto.
  apply app_inj_len in H as [-> H]; auto. apply app_inj_len in H as [-> H]; auto. injection H as -> H.
  apply app_inj_len in H as [-> ->]; auto.
Qed.
(** In general they do not: an element can move from [r] to [v]. *)
Theorem absorbed_not_inj (x y : R) (cm_i : cccs R) : exists acc acc' : lcccs R, acc <> acc' /\
  forall ts : T, absorb_public_input acc cm_i ts = absorb_public_input acc' cm_i ts.
Proof.
  exists (Lcccs [x; y] [] [] [] [] 0), (Lcccs [x] [y] [] [] [] 0). split; [discriminate|].
  intros ts. rewrite !absorb_public_input_spec. reflexivity.
Qed.
End Absorb.

(** ** Acceptance does not bind the incoming instance (C36) *)
Section Forge.
Context {F K C R T : Type} {SO : SOps F K C R} {p : Z} {SL : SLaws F K C R p} {TO : TransOps T R K} {HO : ShortOps T C}.
Add Ring Rring26 : (@rlaws_th R _ _).

(** Any list of instances at the same point may be appended to a decomposition proof. *)
Lemma dec_extra_list (P : dparams) (lc : lcccs R) ts ex : forall (pf : dec_proof R) lcs ts' n,
  (1 <= dp_K P <= n)%nat -> length (dp_us pf) = n -> length (dp_vs pf) = n -> length (dp_xs pf) = n -> length (dp_ys pf) = n ->
  dec_verify P lc pf ts = Ok (lcs, ts') -> Forall (fun c => lc_r c = lc_r lc) ex ->
  exists pf' ts'', dec_verify P lc pf' ts = Ok (lcs ++ ex, ts'').
Proof.
  induction ex as [|c ex IH]; intros pf lcs ts' n HK H1 H2 H3 H4 HV Hex.
  - exists pf, ts'. rewrite app_nil_r. auto.
  - apply Forall_cons_iff in Hex as [Hc Hex'].
    destruct (dec_extra_component P lc pf ts lcs ts' n (lc_x c ++ [lc_h c]) (lc_cm c) (lc_u c) (lc_v c) HK H1 H2 H3 H4 HV) as (ts2 & HV2).
    { destruct (lc_x c); discriminate. }
    rewrite removelast_last, last_last in HV2.
    replace (Lcccs (lc_r lc) (lc_v c) (lc_cm c) (lc_u c) (lc_x c) (lc_h c)) with c in HV2 by (rewrite <- Hc; destruct c; reflexivity).
    destruct (fun a b c d e => IH _ _ _ (n + 1)%nat a b c d e HV2 Hex') as (pf' & ts'' & HV3); [lia| | | | |];
      cbn [dp_us dp_vs dp_xs dp_ys]; rewrite ?app_length; cbn [length]; try lia.
    exists pf', ts''. rewrite <- app_assoc in HV3. exact HV3.
Qed.

Lemma zipw_app_l {X Y Z} (f : X -> Y -> Z) l m m2 : (length l <= length m)%nat -> zipw f l (m ++ m2) = zipw f l m.
Proof. revert m; induction l as [|x l IH]; intros [|y m] H; cbn [app zipw length] in *; auto; [lia|]. f_equal. apply IH. lia. Qed.
Lemma index_app1 {X} (l m : list X) i : (i < length l)%nat -> index (l ++ m) i = index l i.
Proof. intros H. unfold index. rewrite nth_error_app1 by auto. auto. Qed.
Lemma mapM_ext_in {X Y} (f g : X -> result Y) l : (forall x, In x l -> f x = g x) -> mapM f l = mapM g l.
Proof.
  induction l as [|x l IH]; intros H; cbn [mapM]; auto. rewrite H by (left; auto). rewrite IH; auto. intros; apply H; right; auto.
Qed.
Lemma mapM_length {X Y} (f : X -> result Y) l r : mapM f l = Ok r -> length r = length l.
Proof.
  revert r; induction l as [|x l IH]; intros r H; cbn [mapM] in H; [apply ok_inj in H; subst; auto|].
  apply bind_ok_inv in H as (y & _ & H). apply bind_ok_inv in H as (ys & H2 & H). apply ok_inj in H. subst. cbn. f_equal. auto.
Qed.
Lemma mapM_app {X Y} (f : X -> result Y) l m a b : mapM f l = Ok a -> mapM f m = Ok b -> mapM f (l ++ m) = Ok (a ++ b).
Proof.
  revert a; induction l as [|x l IH]; intros a H1 H2; cbn [mapM app] in *; [apply ok_inj in H1; subst; auto|].
  apply bind_ok_inv in H1 as (y & -> & H). apply bind_ok_inv in H as (ys & H3 & H). apply ok_inj in H. subst. cbn [bind].
  rewrite (IH ys) by auto. reflexivity.
Qed.

(** Instances beyond the first 2K are ignored by the folding verifier. *)
Lemma fold_verify_extra P (cms ex : list (lcccs R)) pf ts cs res : (1 <= dp_K P)%nat -> length cms = (2 * dp_K P)%nat ->
  Forall (fun c => length (lc_r c) = c_s cs) ex ->
  fold_verify P cms pf ts cs = Ok res -> fold_verify P (cms ++ ex) pf ts cs = Ok res.
Proof.
  intros HK Hl Hex H. unfold fold_verify in *. apply bind_ok_inv in H as (u & -> & H). cbn [bind].
  destruct (squeeze_abzm_spec P ts (c_s cs)) as (a & b & z & m & ts1 & E & Ha & Hbl & Hz & Hm). rewrite E in *.
  assert (claim_sum (map emb a) (map emb z) (cms ++ ex) = claim_sum (map emb a) (map emb z) cms) as ->.
  { unfold claim_sum. rewrite !map_app. rewrite !zipw_app_l by (rewrite !map_length; lia). auto. }
  apply bind_ok_inv in H as ([[rs e] ts2] & Hsc & H). rewrite Hsc. cbn [bind].
  assert (length rs = c_s cs) as Hrs.
  { unfold sc_verify in Hsc. apply bind_ok_inv in Hsc as ([[ms cs'] tt'] & H1 & H2).
    apply verify_loop_inv in H1 as (_ & _ & H1). destruct (c_s cs =? 0)%nat; [discriminate|].
    apply bind_ok_inv in H2 as (e' & _ & H2). apply ok_inj in H2. injection H2 as <- _ _. auto. }
  apply bind_ok_inv in H as ([] & Hev & H).
  assert (verify_evaluation P (map emb a) (map emb b) (map emb m ++ [1]) (map emb z) (map emb rs) e pf (cms ++ ex) = Ok tt) as ->.
  { unfold verify_evaluation in *. apply bind_ok_inv in Hev as (es & -> & Hev). cbn [bind].
    apply bind_ok_inv in Hev as (es1 & E1 & Hev).
    assert (mapM (fun c : lcccs R => eq_eval (lc_r c) (map emb rs)) ex = Ok (map (fun c => eqp (lc_r c) (map emb rs)) ex)) as E2.
    { apply mapM_ok. intros c Hc. rewrite Forall_forall in Hex. rewrite eq_eval_spec, map_length, Hrs, (Hex c Hc), Nat.eqb_refl. auto. }
    rewrite (mapM_app _ _ _ _ _ E1 E2).
    cbn [bind]. apply bind_ok_inv in Hev as (v & Ev & Hev). apply mapM_length in E1.
      replace (expected_value P (map emb a) (map emb m ++ [1]) (fp_theta pf) es (es1 ++ map (fun c => eqp (lc_r c) (map emb rs)) ex) (map emb z) (fp_eta pf)) with (Ok v).
    - cbn [bind]. auto.
    - rewrite <- Ev. unfold expected_value. f_equal. apply mapM_ext_in. intros i Hi. apply in_seq in Hi.
      rewrite (index_app1 es1) by lia. auto. }
  cbn [bind]. destruct (get_rhos_spec P (absorb_slices (absorb_slices ts2 (fp_theta pf)) (fp_eta pf))) as (rho & ts3 & Er & Hrl & _).
  rewrite Er in *. apply bind_ok_inv in H as (pub & Hp & H).
  assert (fold_public (rho ++ [1]) (map crt (rho ++ [1])) (fp_theta pf) (cms ++ ex) (fp_eta pf) cs = Ok pub) as ->; [|exact H].
  unfold fold_public in *. apply bind_ok_inv in Hp as (v0 & -> & Hp). cbn [bind].
  assert (length (map (crt : C -> R) (rho ++ [1])) = length cms) as HL by (rewrite map_length, app_length; cbn [length]; lia).
  set (rr := map (crt : C -> R) (rho ++ [1])) in *. rewrite map_app.
  unfold fold_vecs in *. rewrite !zipw_app_l by (rewrite ?map_length; lia).
  destruct cms as [|c0 cms]; [cbn in Hl; lia|]. exact Hp.
Qed.

(** A sumcheck transcript for the zero polynomial. *)
Lemma zero_sumcheck (ts : T) n d : (1 <= n)%nat -> (1 <= d)%nat -> char_gt K d ->
  exists proof rs ts', sc_verify ts n d (0 : R) proof = Ok (rs, 0, ts') /\ length rs = n.
Proof.
  intros Hn Hd Hc. destruct (sumcheck_complete ts [Mle n []] n d (fun _ => 0)) as (proof & r & ts' & _ & H1 & _ & H2); auto.
  - intros a b _ _. apply deg_le_const.
  - exists proof, r, ts'. split; auto. rewrite <- H2. f_equal. symmetry. unfold cube_sum. apply sumn_0. auto.
Qed.
Lemma lprod_zero (l : list nat) n : l <> [] -> lprod (map (fun j => nth j (repeat 0 n) 0) l) = (0 : R).
Proof.
  destruct l as [|j l]; [contradiction|]. intros _. cbn [map lprod fold_right].
  assert (nth j (repeat 0 n) 0 = (0 : R)) as ->; [|ring].
  destruct (Nat.lt_ge_cases j n); [apply nth_repeat|apply nth_overflow; rewrite repeat_length; auto].
Qed.
(** The linearization verifier accepts a proof with all evaluations zero, for every instance. *)
Lemma lin_zero (cm_i : cccs R) (ts : T) (cs : ccs R) (v : list R) : wf_ccs cs -> (1 <= c_s cs)%nat -> char_gt K (c_d cs + 1) ->
  Forall (fun s => s <> []) (c_S cs) ->
  exists pf rs ts', length rs = c_s cs /\
    lin_verify cm_i pf ts cs = Ok (Lcccs (map emb rs) v (i_cm cm_i) (repeat 0 (c_t cs)) (i_x cm_i) 1, ts').
Proof.
  intros Hw Hs Hc HS. unfold lin_verify, squeeze_beta.
  pose proof (get_challenges_length (absorb_tag ts "beta_s") (c_s cs)) as Hb. destruct (get_challenges _ _) as [bs ts1]. cbn [fst] in Hb.
  destruct (zero_sumcheck ts1 (c_s cs) (c_d cs + 1)) as (proof & rs & ts2 & Hsc & Hrs); auto; [lia|].
  exists (LinProof proof v (repeat 0 (c_t cs))), rs. eexists. split; auto. cbn [lp_sc]. rewrite Hsc. cbn [bind].
  rewrite lin_check_claim_ok; auto.
  - cbn [lp_u]. assert (ccs_poly cs (repeat 0 (c_t cs)) = 0) as ->.
    { unfold ccs_poly. apply sumn_0. intros i Hi. rewrite lprod_zero; [ring|].
      rewrite Forall_forall in HS. apply HS. apply nth_In. destruct Hw as (_ & -> & _). auto. }
    rewrite (proj2 (req_true _ _)) by ring. cbn [bind lp_v lp_u]. reflexivity.
  - rewrite !map_length. lia.
  - apply repeat_length.
Qed.

(** For every incoming instance, satisfiable or not, and every accumulator the prover can open, there
    is an accepted proof whose output accumulator the prover can open. *)
Theorem nifs_forgery P A cs acc (w_acc : witness C R) (cm_i : cccs R) ts :
  params_ok (p := p) P cs -> Forall (fun s => s <> []) (c_S cs) ->
  lcccs_rel P A cs acc w_acc -> Forall (in_range P) (w_fc w_acc) ->
  exists pf lc w ts' rho ws,
    nifs_verify P acc cm_i pf ts cs = Ok (lc, ts') /\ lcccs_rel P A cs lc w /\
    length rho = (2 * dp_K P - 1)%nat /\ Forall drawn rho /\
    length ws = (2 * dp_K P)%nat /\ Forall (wit_norm (Z.of_nat (dp_b P) / 2)) ws /\
    is_lin (2 * dp_K P) (fun i => nth i (rho ++ [1]) 0) (fun i => w_fc (nth i ws (Witness [] [] [] []))) (w_fc w).
Proof.
  intros [Hs Ho Hd Hcd Hcb Hbp] HS Hacc Hra. pose proof (so_b _ _ _ Hs) as Hb2. pose proof (so_K _ _ _ Hs) as HK.
  destruct (so_sized _ _ _ Hs) as (_ & Hs1 & _).
  unfold nifs_verify. rewrite (sizes_sanity (p := p) P cs Hs). cbn [bind].
  set (ts0 := absorb_public_input acc cm_i ts).
  destruct (lin_zero cm_i ts0 cs []) as (pfl & rs & ts1 & Hrs & HL); auto. { apply (so_wf _ _ _ Hs). }
  set (lin := Lcccs (map emb rs) [] (i_cm cm_i) (repeat 0 (c_t cs)) (i_x cm_i) 1) in *.
  destruct (decomposition_complete P A cs acc w_acc ts1) as (mz1 & lc1 & wt1 & pf1 & ts2 & _ & A2 & A3 & A4 & A5 & A6 & A7 & _ & (U1 & U2 & U3 & U4)); auto.
  destruct (dec_extra_list P acc ts1 lc1 pf1 lc1 ts2 (dp_K P)) as (pf2 & ts3 & HD); auto.
  destruct (dec_trivial_proof P lin ts3 HK) as (ts4 & HT).
  assert (Forall (wit_norm (Z.of_nat (dp_b P) / 2)) (wt1 ++ wt1)) as Hn by (apply Forall_app; auto).
  destruct (folding_complete P A cs (lc1 ++ lc1) (wt1 ++ wt1) ts4 (lc_r acc) (lc_r acc)) as
    (lc & w & pff & ts5 & rs' & rho & F1 & F2 & F3 & _ & (F5 & F6) & F7); auto.
  - unfold halves. rewrite map_app, (map_const_repeat lc_r lc1 (lc_r acc)) by auto. rewrite A3. auto.
  - apply Forall2_app'; auto.
  - eapply Forall_impl; [|exact Hn]. intros w. apply wit_norm_mono.
    pose proof (Z.div_le_upper_bound (Z.of_nat (dp_b P)) 2 (Z.of_nat (dp_b P) - 1)). lia.
  - eexists (LFProof pfl pf2 _ pff), lc, w, ts5, rho, (wt1 ++ wt1).
    cbn [lf_lin lf_dec_l lf_dec_r lf_fold]. rewrite HL. cbn [bind]. rewrite HD. cbn [bind]. rewrite HT. cbn [bind].
    split; [|split; [auto|split; [auto|split; [auto|split; [rewrite app_length; lia|split; auto]]]]].
    apply fold_verify_extra; auto; [rewrite app_length; lia|].
    constructor; auto. unfold lin. cbn [lc_r]. rewrite map_length. auto.
Qed.
End Forge.

(** ** Soundness of well-shaped proofs *)
Section Sound.
Context {F K C R T : Type} {SO : SOps F K C R} {p : Z} {SL : SLaws F K C R p} {TO : TransOps T R K} {HO : ShortOps T C}.
Add Ring Rring27 : (@rlaws_th R _ _).

(** A decomposition proof with exactly K components of the expected lengths. *)
Definition dec_shape (P : dparams) (cs : ccs R) (pf : dec_proof R) : Prop :=
  length (dp_us pf) = dp_K P /\ length (dp_vs pf) = dp_K P /\ length (dp_xs pf) = dp_K P /\ length (dp_ys pf) = dp_K P /\
  Forall (fun u => length u = c_t cs) (dp_us pf) /\ Forall (fun v => length v = tau) (dp_vs pf) /\
  Forall (fun x => length x = (c_l cs + 1)%nat) (dp_xs pf).
(** A challenge of the linearization step hits a root of a nonzero polynomial fixed before. *)
Definition lin_bad (cs : ccs R) (z : list R) (ts : T) (pf : lin_proof R) (lc : lcccs R) : Prop :=
  let betas := fst (get_challenges (absorb_tag ts "beta_s") (c_s cs)) in
  let ts1 := snd (get_challenges (absorb_tag ts "beta_s") (c_s cs)) in
  bad_coord (ccs_row cs z) betas \/
  (exists rs, lc_r lc = map emb rs /\
     sc_bad (c_s cs) (c_d cs + 1)
       (fun x => ccs_poly cs (map (fun M => mle_spec (mz M z) x) (c_M cs)) * eqp x (map emb betas))
       ts1 (lp_sc pf) rs).

Lemma dec_verify_shape P cs (lc : lcccs R) pf (ts : T) lcs ts' : dec_shape P cs pf -> dec_verify P lc pf ts = Ok (lcs, ts') ->
  length lcs = dp_K P /\
  Forall (fun c => lc_r c = lc_r lc /\ length (lc_v c) = tau /\ length (lc_u c) = c_t cs /\ length (lc_x c) = c_l cs) lcs.
Proof.
  intros (H1 & H2 & H3 & H4 & H5 & H6 & H7) HV. unfold dec_verify in HV.
  destruct (dec_absorb _ _ _) as [[lcs0 ts0]| |] eqn:EA; cbn [bind] in HV; try discriminate.
  assert (lcs0 = lcs) as ->.
  { repeat match type of HV with
    | bind ?x _ = Ok _ => destruct x; cbn [bind] in HV; try discriminate
    | (if ?x then _ else _) = Ok _ => destruct x; try discriminate
    end. apply ok_inj in HV. congruence. }
  apply dec_absorb_inv in EA as [-> _]. split.
  - rewrite map_length, zip4_length. lia.
  - rewrite Forall_map. apply Forall_forall. intros q Hq. apply In_nth with (d := ([], [], [], [])) in Hq as (i & Hi & <-).
    rewrite zip4_length in Hi. rewrite (zip4_nth _ _ _ _ i (dp_K P)) by (auto; lia). cbn [fst snd lc_r lc_v lc_u lc_x].
    rewrite Forall_forall in H5, H6, H7. split; auto. split; [apply H6, nth_In; lia|]. split; [apply H5, nth_In; lia|].
    rewrite removelast_length. rewrite H7 by (apply nth_In; lia). lia.
Qed.
Lemma pad_eq_eq (v w : list R) : length v = length w -> pad_eq v w -> v = w.
Proof. intros H1 H2. apply (list_ext 0); auto. Qed.

(** The reference point [ref] of the batching event depends on the instances and witnesses folded,
    not on the transcript. *)
Theorem nifs_sound_at P A cs acc cm_i lin lcs_l lcs_r (ws_l ws_r : list (witness C R)) (xs : list K) :
  sizes_ok p P cs -> degree_ok cs -> char_gt K (c_d cs + 1) -> char_gt K (2 * dp_b P) -> (2 * Z.of_nat (dp_b P) <= p + 1)%Z ->
  NoDup xs -> (Nat.max tau (c_t cs) < length xs)%nat -> length (lc_r acc) = c_s cs ->
  Forall2 (fun c w => opens P A cs (lc_cm c) w) lcs_l ws_l -> Forall2 (fun c w => opens P A cs (lc_cm c) w) lcs_r ws_r ->
  let cms := lcs_l ++ lcs_r in
  let ws := ws_l ++ ws_r in
  let fhs := map w_fhat ws in
  let mzs := zipw (fun c w => map (Mz_mle (c_s cs) (lcccs_z c (w_ccs w))) (c_M cs)) cms ws in
  let n := ((c_n cs - c_l cs - 1) * dp_L P)%nat in
  let ref := batch_ref xs (3 * (2 * dp_K P) - 1 + c_s cs) (gbatch P (map lc_v cms) (map lc_u cms) fhs mzs (lc_r acc) (lc_r lin)) in
  forall pf (ts : T) lc ts' ts1 ts2 ts3,
    dec_shape P cs (lf_dec_l pf) -> dec_shape P cs (lf_dec_r pf) ->
    nifs_verify P acc cm_i pf ts cs = Ok (lc, ts') ->
    (* the instances met inside the run *)
    lin_verify cm_i (lf_lin pf) (absorb_public_input acc cm_i ts) cs = Ok (lin, ts1) ->
    dec_verify P acc (lf_dec_l pf) ts1 = Ok (lcs_l, ts2) ->
    dec_verify P lin (lf_dec_r pf) ts2 = Ok (lcs_r, ts3) ->
    fp_theta (lf_fold pf) = evs fhs (lc_r lc) -> fp_eta (lf_fold pf) = evs mzs (lc_r lc) ->
    (lcccs_rel P A cs acc (wsum P n ws_l) /\ cccs_rel P A cs cm_i (wsum P n ws_r) /\
     forall i w, nth_error ws i = Some w -> (i < 2 * dp_K P - 1)%nat \/ tau = 1%nat -> wit_norm (Z.of_nat (dp_b P) - 1) w) \/
    fold_bad P cs cms fhs mzs (lc_r acc) (lc_r lin) (Nat.max tau (c_t cs)) ref ts3 (lf_fold pf) lc \/
    lin_bad cs (i_x cm_i ++ 1 :: w_ccs (wsum P n ws_r)) (absorb_public_input acc cm_i ts) (lf_lin pf) lin.
Proof.
  intros Hsz Hd Hcd Hcb Hbp Hnd Hxs Hra Hwl Hwr cms ws fhs mzs n ref.
  (* what the shape of an accepted run says about the instances *)
  set (fits := length lcs_l = dp_K P /\ length lcs_r = dp_K P /\ length (lc_r lin) = c_s cs /\
    Forall (fun c => lc_r c = lc_r acc /\ length (lc_v c) = tau /\ length (lc_u c) = c_t cs /\ length (lc_x c) = c_l cs) lcs_l /\
    Forall (fun c => lc_r c = lc_r lin /\ length (lc_v c) = tau /\ length (lc_u c) = c_t cs /\ length (lc_x c) = c_l cs) lcs_r).
  assert (fits ->
    (forall i lc w, nth_error cms i = Some lc -> nth_error ws i = Some w ->
      pad_eq (lc_v lc) (vvec w (lc_r lc)) /\ pad_eq (lc_u lc) (uvec cs lc w (lc_r lc)) /\
      ((i < 2 * dp_K P - 1)%nat \/ tau = 1%nat -> wit_norm (Z.of_nat (dp_b P) - 1) w)) \/
    forall ts pf lc ts', fold_verify P cms pf ts cs = Ok (lc, ts') ->
      fp_theta pf = evs fhs (lc_r lc) -> fp_eta pf = evs mzs (lc_r lc) ->
      fold_bad P cs cms fhs mzs (lc_r acc) (lc_r lin) (Nat.max tau (c_t cs)) ref ts pf lc) as Href.
  { intros (Ll & Lr & Hrl & Sl & Sr).
  assert (Forall2 (fun c w => opens P A cs (lc_cm c) w /\ length (lc_x c) = c_l cs) cms ws) as Hop.
  { apply Forall2_app'.
    - clear - Hwl Sl. induction Hwl; constructor; inversion Sl; subst; auto. split; auto. tauto.
    - clear - Hwr Sr. induction Hwr; constructor; inversion Sr; subst; auto. split; auto. tauto. }
    destruct (folding_sound_at P A cs cms ws (lc_r acc) (lc_r lin) xs (Nat.max tau (c_t cs))) as [Hg|Hb]; auto; try lia.
    - unfold halves, cms. rewrite map_app.
      rewrite (map_const_repeat lc_r lcs_l (lc_r acc)) by (eapply Forall_impl; [|exact Sl]; cbn beta; tauto).
      rewrite (map_const_repeat lc_r lcs_r (lc_r lin)) by (eapply Forall_impl; [|exact Sr]; cbn beta; tauto).
      rewrite Ll, Lr. auto.
    - apply Forall_app. split; (eapply Forall_impl; [|eassumption]); cbn beta; intros c (_ & E1 & E2 & _); lia. }
  assert ({fits} + {~ fits}) as [Hf|Hnf].
  { unfold fits. repeat first [ apply Nat.eq_dec | apply Forall_dec; intros ? | apply list_eq_dec; apply req_dec
                 | match goal with |- {?a /\ ?b} + {_} => cut ({a} + {~ a}); [intros [?|?]; [cut ({b} + {~ b}); [intros [?|?]; [left; split; assumption|right; tauto]|]|right; tauto]|] end ]. }
  2: { intros pf ts lc ts' ts1 ts2 ts3 Hshl Hshr _ HL HDl HDr. destruct Hnf.
       destruct (dec_verify_shape P cs _ _ _ _ _ Hshl HDl). destruct (dec_verify_shape P cs _ _ _ _ _ Hshr HDr).
       destruct (lin_verify_inv _ _ _ _ _ _ (so_wf _ _ _ Hsz) HL) as (rs & e & tsx & _ & Hrs & El & _ & _).
       unfold fits. rewrite El at 1. cbn [lc_r]. rewrite map_length. auto. }
  pose proof (Href Hf) as Hcase. destruct Hf as (Ll & Lr & Hrl & Sl & Sr). clear fits Href.
  intros pf ts lc ts' ts1 ts2 ts3 Hshl Hshr HV HL HDl HDr Hth Het. set (ts0 := absorb_public_input acc cm_i ts) in *.
  unfold nifs_verify in HV. apply bind_ok_inv in HV as (u & _ & HV). fold ts0 in HV.
  rewrite HL in HV. cbn [bind] in HV. rewrite HDl in HV. cbn [bind] in HV. rewrite HDr in HV. cbn [bind] in HV.
  destruct (lin_verify_inv _ _ _ _ _ _ (so_wf _ _ _ Hsz) HL) as (rs & e & tsx & _ & Hrs & El & _ & _).
  assert (Forall2 (fun c w => opens P A cs (lc_cm c) w /\ length (lc_x c) = c_l cs) cms ws) as Hop.
  { apply Forall2_app'.
    - clear - Hwl Sl. induction Hwl; constructor; inversion Sl; subst; auto. split; auto. tauto.
    - clear - Hwr Sr. induction Hwr; constructor; inversion Sr; subst; auto. split; auto. tauto. }
  destruct Hcase as [Hg|Hb].
  - (* relations of the components *)
    assert (length cms = (2 * dp_K P)%nat) as Lc by (unfold cms; rewrite app_length; lia).
    assert (Forall2 (lcccs_rel P A cs) cms ws) as Hrel.
    { set (dlc := Lcccs [] [] [] [] [] 0 : lcccs R). set (dw := Witness [] [] [] [] : witness C R).
      apply (proj2 (Forall2_nth (lcccs_rel P A cs) cms ws dlc dw)).
      destruct (proj1 (Forall2_nth _ cms ws dlc dw) Hop) as [E1 E2]. split; auto. intros i Hi.
      assert (nth_error cms i = Some (nth i cms dlc)) as N1 by (apply nth_error_nth'; lia).
      assert (nth_error ws i = Some (nth i ws dw)) as N2 by (apply nth_error_nth'; lia).
      destruct (Hg i _ _ N1 N2) as (G1 & G2 & _). destruct (E2 i Hi) as [O1 O2].
      assert (In (nth i cms dlc) cms) as Hin by (apply nth_In; auto).
      assert (length (lc_r (nth i cms dlc)) = c_s cs /\ length (lc_v (nth i cms dlc)) = tau /\ length (lc_u (nth i cms dlc)) = c_t cs) as (Q1 & Q2 & Q3).
      { unfold cms in Hin. apply in_app_iff in Hin as [Hin|Hin].
        - rewrite Forall_forall in Sl. destruct (Sl _ Hin) as (Q1 & Q2 & Q3 & _). fold cms in Q1, Q2, Q3. rewrite Q1. auto.
        - rewrite Forall_forall in Sr. destruct (Sr _ Hin) as (Q1 & Q2 & Q3 & _). fold cms in Q1, Q2, Q3. rewrite Q1. auto. }
      split; auto.
      - apply pad_eq_eq; auto. rewrite map_length, seq_length. auto.
      - apply pad_eq_eq; auto. rewrite map_length. destruct (so_wf _ _ _ Hsz) as (-> & _). auto. }
    assert (Forall2 (lcccs_rel P A cs) lcs_l ws_l /\ Forall2 (lcccs_rel P A cs) lcs_r ws_r) as [Rl Rr].
    { assert (length lcs_l = length ws_l) as LW by (clear - Hwl; induction Hwl; cbn; auto).
      unfold cms, ws in Hrel. clear - Hrel LW. revert ws_l LW Hrel.
      induction lcs_l as [|c l IH]; intros [|w wl] LW Hrel; try discriminate; cbn [app] in *; auto.
      inversion Hrel; subst. destruct (IH wl) as [I1 I2]; auto. }
    destruct Hshl as (s1 & s2 & s3 & s4 & _). destruct Hshr as (r1 & r2 & r3 & r4 & _).
    pose proof (so_cov _ _ _ Hsz) as (_ & HL1 & _).
    destruct (decomposition_sound P A cs acc (lf_dec_l pf) ts1 lcs_l ts2 ws_l HL1 s1 s2 s3 s4 HDl Rl) as [_ Ra].
    destruct (decomposition_sound P A cs lin (lf_dec_r pf) ts2 lcs_r ts3 ws_r HL1 r1 r2 r3 r4 HDr Rr) as [_ Ri].
    fold n in Ra, Ri.
    assert (lc_cm lin = i_cm cm_i /\ lc_x lin = i_x cm_i /\ lc_h lin = 1) as (X1 & X2 & X3) by (rewrite El; auto).
    destruct (lin_sound cm_i (lf_lin pf) ts0 cs lin ts1 (i_x cm_i ++ 1 :: w_ccs (wsum P n ws_r))) as [Hsat|Hbad]; auto.
    + apply (so_wf _ _ _ Hsz).
    + intros j Hj. rewrite (lr_u _ _ _ _ _ Ri) at 1. rewrite X2, X3.
      rewrite (nth_map_lt _ _ _ (SMat 0 0 [])); auto. destruct (so_wf _ _ _ Hsz) as (-> & _). auto.
    + left. split; auto. split.
      * split.
        -- rewrite <- X1. apply (lr_open _ _ _ _ _ Ri).
        -- rewrite <- X2. apply (lr_x _ _ _ _ _ Ri).
        -- destruct (so_sized _ _ _ Hsz) as (-> & _). auto.
      * intros i w Hw Hi. assert (i < length cms)%nat as Hic.
        { assert (length cms = length ws) as -> by (clear - Hop; induction Hop; cbn; auto). apply nth_error_Some. congruence. }
        destruct (nth_error cms i) as [c|] eqn:Ec; [|apply nth_error_None in Ec; lia].
        apply (Hg i c w); auto.
  - right. left. eapply Hb; eauto.
Qed.
Theorem nifs_sound P A cs acc cm_i lin lcs_l lcs_r (ws_l ws_r : list (witness C R)) (xs : list K) :
  sizes_ok p P cs -> degree_ok cs -> char_gt K (c_d cs + 1) -> char_gt K (2 * dp_b P) -> (2 * Z.of_nat (dp_b P) <= p + 1)%Z ->
  NoDup xs -> (Nat.max tau (c_t cs) < length xs)%nat -> length (lc_r acc) = c_s cs ->
  Forall2 (fun c w => opens P A cs (lc_cm c) w) lcs_l ws_l -> Forall2 (fun c w => opens P A cs (lc_cm c) w) lcs_r ws_r ->
  let cms := lcs_l ++ lcs_r in
  let ws := ws_l ++ ws_r in
  let fhs := map w_fhat ws in
  let mzs := zipw (fun c w => map (Mz_mle (c_s cs) (lcccs_z c (w_ccs w))) (c_M cs)) cms ws in
  let n := ((c_n cs - c_l cs - 1) * dp_L P)%nat in
  exists ref : list K, forall pf (ts : T) lc ts' ts1 ts2 ts3,
    dec_shape P cs (lf_dec_l pf) -> dec_shape P cs (lf_dec_r pf) ->
    nifs_verify P acc cm_i pf ts cs = Ok (lc, ts') ->
    (* the instances met inside the run *)
    lin_verify cm_i (lf_lin pf) (absorb_public_input acc cm_i ts) cs = Ok (lin, ts1) ->
    dec_verify P acc (lf_dec_l pf) ts1 = Ok (lcs_l, ts2) ->
    dec_verify P lin (lf_dec_r pf) ts2 = Ok (lcs_r, ts3) ->
    fp_theta (lf_fold pf) = evs fhs (lc_r lc) -> fp_eta (lf_fold pf) = evs mzs (lc_r lc) ->
    (lcccs_rel P A cs acc (wsum P n ws_l) /\ cccs_rel P A cs cm_i (wsum P n ws_r) /\
     forall i w, nth_error ws i = Some w -> (i < 2 * dp_K P - 1)%nat \/ tau = 1%nat -> wit_norm (Z.of_nat (dp_b P) - 1) w) \/
    fold_bad P cs cms fhs mzs (lc_r acc) (lc_r lin) (Nat.max tau (c_t cs)) ref ts3 (lf_fold pf) lc \/
    lin_bad cs (i_x cm_i ++ 1 :: w_ccs (wsum P n ws_r)) (absorb_public_input acc cm_i ts) (lf_lin pf) lin.
Proof.
  intros H1 H2 H3 H4 H5 H6 H7 H8 H9 H10 cms ws fhs mzs n.
  eexists. exact (nifs_sound_at P A cs acc cm_i lin lcs_l lcs_r ws_l ws_r xs H1 H2 H3 H4 H5 H6 H7 H8 H9 H10).
Qed.

(** With K components of equal commitment length in each decomposition proof, the output commitment is
    the challenge combination of the components and the right components recompose to the incoming
    commitment. *)
Lemma dec_verify_cm P cs (lc : lcccs R) pf (ts : T) lcs ts' k : (1 <= dp_K P)%nat -> dec_shape P cs pf ->
  Forall (fun y => length y = k) (dp_ys pf) -> dec_verify P lc pf ts = Ok (lcs, ts') ->
  map lc_cm lcs = dp_ys pf /\ is_lin (dp_K P) (fun i => bw P i) (fun i => nth i (dp_ys pf) []) (lc_cm lc).
Proof.
  intros HK (H1 & H2 & H3 & H4 & _) Hy HV. unfold dec_verify in HV.
  destruct (dec_absorb _ _ _) as [[lcs0 ts0]| |] eqn:EA; cbn [bind] in HV; try discriminate.
  destruct (recompose_commitment_lin (dp_ys pf) (calculate_b_s P) k) as (y & Ey & _ & Hl).
  { destruct (dp_ys pf); [simpl in H4; lia|discriminate]. }
  { rewrite calculate_b_s_length. auto. }
  { apply Forall_forall. auto. }
  rewrite Ey in HV. cbn [bind] in HV. destruct (leqb y (lc_cm lc)) eqn:Ec; cbn [negb] in HV; [|discriminate].
  apply leqb_true in Ec. subst y. rewrite H4 in Hl.
  assert (lcs0 = lcs) as ->.
  { repeat match type of HV with
    | bind ?x _ = Ok _ => destruct x; cbn [bind] in HV; try discriminate
    | (if ?x then _ else _) = Ok _ => destruct x; try discriminate
    end. apply ok_inj in HV. congruence. }
  apply dec_absorb_inv in EA as [-> _]. split.
  - rewrite map_map. apply (list_ext []).
    + rewrite map_length, zip4_length. lia.
    + intros i. destruct (Nat.lt_ge_cases i (dp_K P)) as [Hi|Hi].
      * rewrite (nth_map_lt _ _ _ ([], [], [], [])) by (rewrite zip4_length; lia).
        rewrite (zip4_nth _ _ _ _ i (dp_K P)) by (auto; lia). reflexivity.
      * rewrite !nth_overflow; auto; [lia|]. rewrite map_length, zip4_length. lia.
  - destruct Hl as [L1 L2]. split; [auto|]. intros j. rewrite L2. apply sumn_ext. intros i Hi.
    rewrite nth_calculate_b_s by auto. auto.
Qed.
Theorem nifs_binds P cs acc cm_i pf (ts : T) lc ts' k :
  (1 <= dp_K P)%nat -> dec_shape P cs (lf_dec_l pf) -> dec_shape P cs (lf_dec_r pf) ->
  Forall (fun y => length y = k) (dp_ys (lf_dec_l pf)) -> Forall (fun y => length y = k) (dp_ys (lf_dec_r pf)) ->
  nifs_verify P acc cm_i pf ts cs = Ok (lc, ts') ->
  let yl := dp_ys (lf_dec_l pf) in let yr := dp_ys (lf_dec_r pf) in
  exists rho : list C, length rho = (2 * dp_K P - 1)%nat /\ Forall drawn rho /\
    is_lin (dp_K P) (fun i => bw P i) (fun i => nth i yl []) (lc_cm acc) /\
    is_lin (dp_K P) (fun i => bw P i) (fun i => nth i yr []) (i_cm cm_i) /\
    is_lin (2 * dp_K P) (fun i => nth i (map crt (rho ++ [1])) 0) (fun i => nth i (yl ++ yr) []) (lc_cm lc).
Proof.
  intros HK Hshl Hshr Hyl Hyr HV yl yr. unfold nifs_verify in HV.
  apply bind_ok_inv in HV as (u & _ & HV). set (ts0 := absorb_public_input acc cm_i ts) in *.
  apply bind_ok_inv in HV as ([lin ts1] & HL & HV). apply bind_ok_inv in HV as ([lcs_l ts2] & HDl & HV).
  apply bind_ok_inv in HV as ([lcs_r ts3] & HDr & HV).
  destruct (dec_verify_cm P cs _ _ _ _ _ k HK Hshl Hyl HDl) as [Ml Rl].
  destruct (dec_verify_cm P cs _ _ _ _ _ k HK Hshr Hyr HDr) as [Mr Rr].
  assert (lc_cm lin = i_cm cm_i) as Ecm.
  { unfold lin_verify in HL. destruct (squeeze_beta _ _) as [be t1].
    apply bind_ok_inv in HL as ([[pt s] t2] & _ & HL). apply bind_ok_inv in HL as (u' & _ & HL).
    apply ok_inj in HL. inversion HL. auto. }
  rewrite Ecm in Rr. fold yl in Ml, Rl. fold yr in Mr, Rr.
  unfold fold_verify in HV. apply bind_ok_inv in HV as (u1 & _ & HV).
  destruct (squeeze_abzm P ts3 (c_s cs)) as [[[[al be] ze] mu] t4].
  apply bind_ok_inv in HV as ([[pt s] t5] & _ & HV). apply bind_ok_inv in HV as (u2 & _ & HV).
  match type of HV with context [get_rhos P ?t] => destruct (get_rhos_spec P t) as (rho & t6 & Er & Lr & Dr); rewrite Er in HV end.
  apply bind_ok_inv in HV as ([[[v0 cm0] u0] x0] & HP & HV). apply bind_ok_inv in HV as (lc' & HO' & HV).
  apply ok_inj in HV. assert (lc' = lc) as -> by congruence. clear HV.
  exists rho. split; auto. split; auto. split; auto. split; auto.
  unfold public_output in HO'. apply bind_ok_inv in HO' as (h & _ & HO'). apply ok_inj in HO'. subst lc. cbn [lc_cm].
  unfold fold_public in HP. apply bind_ok_inv in HP as (v0' & _ & HP). apply ok_inj in HP.
  assert (length yl = dp_K P /\ length yr = dp_K P) as [Ll' Lr'] by (split; [apply Hshl|apply Hshr]).
  assert (map lc_cm (lcs_l ++ lcs_r) = yl ++ yr) as EM by (rewrite map_app; congruence).
  injection HP as _ <- _ _.
  replace (match lcs_l ++ lcs_r with [] => 0%nat | c :: _ => length (lc_cm c) end) with k.
  2: { destruct (lcs_l ++ lcs_r) as [|c l] eqn:EC.
       - apply (f_equal (@length _)) in EM. rewrite app_length in EM. simpl in EM. lia.
       - assert (In (lc_cm c) (yl ++ yr)) as Hin by (rewrite <- EM; left; auto).
         rewrite Forall_forall in Hyl, Hyr. symmetry. apply in_app_iff in Hin as [|]; auto. }
  replace (zipw (fun (r : R) c => cm_scale (lc_cm c) r) (map crt (rho ++ [1])) (lcs_l ++ lcs_r))
    with (zipw (fun r v => map (rmul r) v) (map crt (rho ++ [1])) (yl ++ yr)).
  2: { rewrite <- EM, zipw_map_r. apply zipw_ext_eq. intros. symmetry. apply cm_scale_comm. }
  apply fold_zip_lin.
  - rewrite map_length, app_length. cbn [length]. lia.
  - rewrite app_length. lia.
  - rewrite Forall_forall in Hyl, Hyr. intros v Hv. apply in_app_iff in Hv as [|]; auto.
Qed.

(** ** No panic on well-shaped proofs *)
Lemma bind_no_panic {X Y} (x : result X) (f : X -> result Y) :
  x <> Panic -> (forall a, x = Ok a -> f a <> Panic) -> bind x f <> Panic.
Proof. destruct x; cbn [bind]; intros H1 H2; auto; discriminate. Qed.
Lemma mapM_no_panic {X Y} (f : X -> result Y) l : (forall x, In x l -> f x <> Panic) -> mapM f l <> Panic.
Proof.
  induction l as [|x l IH]; intros H; cbn [mapM]; [discriminate|]. apply bind_no_panic; [apply H; left; auto|].
  intros a _. apply bind_no_panic; [apply IH; intros; apply H; right; auto|discriminate].
Qed.
Lemma index_no_panic {X} (l : list X) i : (i < length l)%nat -> index l i <> Panic.
Proof. intros H. unfold index. destruct (nth_error l i) eqn:E; [discriminate|]. apply nth_error_None in E. lia. Qed.
Lemma eq_eval_no_panic (x y : list R) : eq_eval x y <> Panic.
Proof. unfold eq_eval. destruct (negb _); discriminate. Qed.

(** The shape the verifier relies on without checking it. *)
Record nifs_shape (P : dparams) (cs : ccs R) (pf : lf_proof R) : Prop := {
  ns_lin : proof_shape (c_s cs) (c_d cs + 1) (lp_sc (lf_lin pf));
  ns_lu : length (lp_u (lf_lin pf)) = c_t cs;
  ns_dl : dec_shape P cs (lf_dec_l pf);
  ns_dr : dec_shape P cs (lf_dec_r pf);
  ns_fold : proof_shape (c_s cs) (2 * dp_b P) (fp_sc (lf_fold pf));
  ns_theta : length (fp_theta (lf_fold pf)) = (2 * dp_K P)%nat /\ Forall (fun v => length v = tau) (fp_theta (lf_fold pf));
  ns_eta : length (fp_eta (lf_fold pf)) = (2 * dp_K P)%nat }.

Lemma recompose_vecs_no_panic (s : list (list R)) b n : Forall (fun v => length v = n) s -> recompose_vecs s b <> Panic.
Proof.
  intros H. unfold recompose_vecs. destruct s as [|s0 s']; [discriminate|].
  inversion H as [|? ? H0 H']; subst. apply mapM_no_panic. intros j Hj. apply in_seq in Hj. rewrite rec_fold.
  replace (forallb _ _) with true; [discriminate|]. symmetry. apply forallb_forall. intros [si bi] Hin. cbn [fst].
  apply Nat.ltb_lt. apply in_combine_l in Hin. rewrite Forall_forall in H. rewrite (H si Hin). lia.
Qed.
Lemma dec_absorb_no_panic r (ts : T) l : dec_absorb (R := R) r ts l <> Panic.
Proof.
  revert ts; induction l as [|[[[x y] u] v] l IH]; intros ts; cbn [dec_absorb]; [discriminate|].
  apply bind_no_panic; [destruct (last_opt x); discriminate|]. intros h _. apply bind_no_panic; [apply IH|discriminate].
Qed.
Lemma dec_verify_no_panic P cs lc pf (ts : T) : dec_shape P cs pf -> dec_verify P lc pf ts <> Panic.
Proof.
  intros (_ & _ & _ & _ & H5 & H6 & H7). unfold dec_verify.
  apply bind_no_panic; [apply dec_absorb_no_panic|]. intros res _.
  apply bind_no_panic; [unfold recompose_commitment; destruct (zipw _ _ _); discriminate|]. intros y _.
  destruct (negb _); [discriminate|]. apply bind_no_panic; [eapply recompose_vecs_no_panic; eauto|]. intros v _.
  destruct (negb _); [discriminate|]. apply bind_no_panic; [eapply recompose_vecs_no_panic; eauto|]. intros u _.
  destruct (negb _); [discriminate|]. apply bind_no_panic; [eapply recompose_vecs_no_panic; eauto|]. intros xw _.
  apply bind_no_panic; [destruct (last_opt xw); discriminate|]. intros h _.
  destruct (negb _); [discriminate|]. destruct (negb _); discriminate.
Qed.
Lemma lin_verify_no_panic (cs : ccs R) cm_i pf (ts : T) : wf_ccs cs -> (1 <= c_s cs)%nat -> char_gt K (c_d cs + 1) ->
  proof_shape (c_s cs) (c_d cs + 1) (lp_sc pf) -> length (lp_u pf) = c_t cs -> lin_verify cm_i pf ts cs <> Panic.
Proof.
  intros Hwf Hs Hc Hsh Hu. unfold lin_verify. destruct (squeeze_beta _ _) as [be t1].
  apply bind_no_panic; [apply sc_verify_no_panic; auto; lia|]. intros [[pt s] t2] _.
  apply bind_no_panic; [|discriminate]. unfold lin_check_claim.
  apply bind_no_panic; [apply eq_eval_no_panic|]. intros e _.
  apply bind_no_panic; [|intros; destruct (_ =? _); discriminate].
  destruct Hwf as (W1 & W2 & W3 & W4 & W5). apply mapM_no_panic. intros [i c] Hin. cbn [fst snd].
  apply in_combine_l, in_seq in Hin.
  apply bind_no_panic; [apply index_no_panic; lia|]. intros Si HSi.
  apply bind_no_panic; [|discriminate]. apply mapM_no_panic. intros j Hj. apply index_no_panic.
  apply (index_ok_inv _ _ _ []) in HSi as [HSi ->]. rewrite Hu.
  rewrite Forall_forall in W5. specialize (W5 (nth i (c_S cs) []) (nth_In _ _ HSi)).
  rewrite Forall_forall in W5. apply W5. auto.
Qed.
Lemma fold_verify_no_panic P (cs : ccs R) cms pf (ts : T) : (1 <= dp_K P)%nat -> (1 <= dp_b P)%nat -> (c_l cs < c_n cs)%nat ->
  (1 <= c_s cs)%nat -> char_gt K (2 * dp_b P) -> length cms = (2 * dp_K P)%nat ->
  proof_shape (c_s cs) (2 * dp_b P) (fp_sc pf) -> length (fp_theta pf) = (2 * dp_K P)%nat ->
  Forall (fun v => length v = tau) (fp_theta pf) -> length (fp_eta pf) = (2 * dp_K P)%nat ->
  fold_verify P cms pf ts cs <> Panic.
Proof.
  intros HK Hb Hn Hs Hc Hcm Hsh Hth1 Hth2 Het. unfold fold_verify.
  apply bind_no_panic.
  { unfold sanity_check. destruct (Nat.leb_spec (c_n cs) (c_l cs)); [lia|]. destruct (negb _); discriminate. }
  intros _ _. destruct (squeeze_abzm_spec P ts (c_s cs)) as (a & b & z & m & t' & Es & La & Lb & Lz & Lm). rewrite Es.
  apply bind_no_panic; [apply sc_verify_no_panic; auto; lia|]. intros [[pt s] t2] Hsub.
  apply bind_no_panic.
  { unfold verify_evaluation. apply bind_no_panic; [apply eq_eval_no_panic|]. intros estar _.
    apply bind_no_panic; [apply mapM_no_panic; intros; apply eq_eval_no_panic|]. intros es Hes.
    apply mapM_length in Hes.
    apply bind_no_panic; [|intros; destruct (_ =? _); discriminate].
    unfold expected_value. apply bind_no_panic; [|discriminate]. apply mapM_no_panic. intros i Hi. apply in_seq in Hi.
    rewrite ?map_length in *.
    repeat (apply bind_no_panic; [apply index_no_panic; rewrite ?app_length, ?map_length; cbn [length] in *; lia|intros ? _]). discriminate. }
  intros _ _.
  match goal with |- context [get_rhos P ?t] => destruct (get_rhos_spec P t) as (rho & t6 & Er & Lr & _); rewrite Er end.
  apply bind_no_panic.
  { unfold fold_public. apply bind_no_panic; [|discriminate].
    destruct (rot_lin_combination_ok (rho ++ [1]) (fp_theta pf)) as (v & -> & _); [| | |discriminate].
    - rewrite app_length. cbn [length]. lia.
    - destruct (fp_theta pf); [simpl in Hth1; lia|discriminate].
    - apply Forall_forall. auto. }
  intros [[[v0 cm0] u0] x0] _. apply bind_no_panic; [|discriminate].
  unfold public_output. apply bind_no_panic; [destruct (last_opt x0); discriminate|discriminate].
Qed.
Theorem nifs_no_panic P (cs : ccs R) acc cm_i pf (ts : T) :
  (1 <= dp_K P)%nat -> (1 <= dp_b P)%nat -> wf_ccs cs -> (c_l cs < c_n cs)%nat -> (1 <= c_s cs)%nat ->
  char_gt K (c_d cs + 1) -> char_gt K (2 * dp_b P) -> nifs_shape P cs pf ->
  nifs_verify P acc cm_i pf ts cs <> Panic.
Proof.
  intros HK Hb Hwf Hn Hs Hcd Hcb [N1 N2 N3 N4 N5 [N6 N7] N8]. unfold nifs_verify.
  apply bind_no_panic.
  { unfold sanity_check. destruct (Nat.leb_spec (c_n cs) (c_l cs)); [lia|]. destruct (negb _); discriminate. }
  intros _ _. apply bind_no_panic; [apply lin_verify_no_panic; auto|]. intros [lin t1] _.
  apply bind_no_panic; [eapply dec_verify_no_panic; eauto|]. intros [ll t2] H2.
  apply bind_no_panic; [eapply dec_verify_no_panic; eauto|]. intros [lr t3] H3.
  apply fold_verify_no_panic; auto. rewrite app_length.
  destruct (dec_verify_shape P cs _ _ _ _ _ N3 H2) as [-> _]. destruct (dec_verify_shape P cs _ _ _ _ _ N4 H3) as [-> _]. lia.
Qed.
End Sound.
