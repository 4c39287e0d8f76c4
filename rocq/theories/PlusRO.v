(** Soundness of the LatticeFold+ subprotocols in the random oracle model, by counting (see [RandomOracle] for the setting).  The statement
    (columns, vectors, R1CS) is fixed before the oracle: these verifiers draw their first challenges before anything about it is absorbed. *)
From Coq Require Import String List Arith Lia ZArith Bool Ring.
From Verif Require Import Prelude Alg Poly MLE MLE_Proofs Zippel Counting Transcript Interp Interp_Proofs Sumcheck Sumcheck_Proofs CombDeg Arith Arith_Proofs
  Balanced Linearization_Proofs Folding_Sound Rings Rings_Proofs PlusRing PlusUtils_Proofs SetCheck SetCheck_Proofs SetCheck_Sound
  RangeCheck RangeCheck_Proofs RangeCheck_Sound Cm Cm_Proofs Plus Plus_Sound Decomposition_Proofs SoundErr Properties4 PlusErr RandomOracle.
Import ListNotations.
Local Open Scope rs_scope.

Section B.
Context {R K : Type} {RO : RingOps R} {KO : FieldOps K} {E : Embed K R} {LR : RingLaws R} {LK : FieldLaws K} {EL : EmbedLaws K R}.
Notation log := (list (RandomOracle.ev R K)).
(** A bad answer in round [length cs] of a sumcheck, for a predicate on the challenges of the rounds, after a context of length [len]. *)
Definition rd_B (len n d : nat) (pr : list K -> K -> Prop) (l : log) (c : K) : Prop :=
  exists e ms cs msg, length e = len /\ length ms = length cs /\ (length cs < n)%nat /\ Forall (fun m => length m = (d + 1)%nat) ms /\
    length msg = (d + 1)%nat /\ l = e ++ sc_head n d ++ rounds ms cs ++ map EvA msg /\
    pr cs c /\ forall bad : list K, NoDup bad -> (forall c, In c bad -> pr cs c) -> (length bad <= 1)%nat.
Lemma few_rd_B len n d (pr : list K -> K -> Prop) l : few (rd_B len n d pr l) 1.
Proof.
  apply few_if. intros c0 (e & ms & cs & msg & Le & L1 & L2 & F1 & Lm & El & _ & Hall) L HL HF.
  apply Hall; auto. intros c Hc. rewrite Forall_forall in HF. apply HF in Hc as (e' & ms' & cs' & msg' & Le' & L1' & L2' & F1' & Lm' & El' & Hb & _).
  rewrite El in El'. apply app_split_len in El' as [E1 E2]; [|congruence]. apply app_inv_head in E2.
  apply (rounds_inj (d + 1)) in E2 as (<- & <- & <-); auto.
Qed.
Lemma mapC_length (cs : list K) : length (map (EvC (R := R)) cs) = length cs.
Proof. apply map_length. Qed.

(** A block of [M] challenges followed by a sumcheck whose polynomial depends on them: the questions that can have bad answers. *)
Definition blk_B (l0 : log) (M n D : nat) (pr : list K -> K -> Prop) (g : list K -> list R -> R) (l : log) (c : K) : Prop :=
  co_B (fun _ : unit => True) (fun _ => l0) (map EvC) M D (fun _ => pr) l c \/
  sc_B (fun cs : list K => length cs = M) (fun cs => l0 ++ map EvC cs) n 3 g l c.
Lemma few_blk_B l0 M n D pr g l : few (blk_B l0 M n D pr g l) (Nat.max D 3).
Proof.
  apply few_disj.
  - eapply few_weaken; [| |apply (few_co_B (fun _ : unit => True) (fun _ => l0) (map EvC) (length l0) M D (fun _ => pr) l)]; auto; [lia|apply mapC_inj].
  - eapply few_weaken; [| |apply (few_sc_B (fun cs : list K => length cs = M) (fun cs => l0 ++ map EvC cs) (length l0 + M) n 3 g l)]; auto; [lia|..].
    + intros cs Hcs. rewrite app_length, map_length. lia.
    + intros a b _ _ Eq. apply app_inv_head, mapC_inj in Eq. congruence.
  - intros a b (u & pre & _ & Hp & El & _) H. apply (sc_B_len (fun cs : list K => length cs = M) (fun cs => l0 ++ map EvC cs) (length l0 + M)) in H; [|intros cs Hcs; rewrite app_length, map_length; lia].
    rewrite El, app_length, map_length in H. lia.
Qed.
Lemma vanish_hit tab (t : nat -> R) l cs : bad_coord t cs ->
  (forall i, (i < length cs)%nat -> lookup tab (l ++ map EvC (firstn i cs)) = Some (nth i cs 0)) ->
  exists l' c, lookup tab l' = Some c /\ co_B (fun _ : unit => True) (fun _ => l) (map EvC) (length cs) 1
    (fun _ pre c => vanishes_at t (map emb pre) (length cs - 1 - length pre) (emb c)) l' c.
Proof.
  intros (i & Hi & _ & Hv & Hall) Hq. do 2 eexists. split; [apply (Hq i Hi)|]. exists tt, (firstn i cs).
  assert (length (firstn i cs) = i) as -> by (rewrite firstn_length; lia). auto.
Qed.
Lemma batch_hit tab D (G : list R -> R) ref l cs : bad_batch D G ref cs ->
  (forall i, (i < length cs)%nat -> lookup tab (l ++ map EvC (firstn i cs)) = Some (nth i cs 0)) ->
  exists l' c, lookup tab l' = Some c /\ co_B (fun _ : unit => True) (fun _ => l) (map EvC) (length cs) D
    (fun _ pre c => G (map emb pre ++ emb c :: map emb (skipn (Datatypes.S (length pre)) ref)) = 0) l' c.
Proof.
  intros (i & Hi & _ & Hv & Hall) Hq. do 2 eexists. split; [apply (Hq i Hi)|]. exists tt, (firstn i cs).
  assert (length (firstn i cs) = i) as -> by (rewrite firstn_length; lia). auto.
Qed.
Lemma ro_ok_slices tab (l : list (list R)) (t : ro R K) : ro_ok (fold_left (absorb_slice (TO := ro_trans tab)) l t) = ro_ok t.
Proof. revert t; induction l as [|x l IH]; intros t; auto. cbn [fold_left]. rewrite IH, ro_absorb_slice. auto. Qed.
End B.

Section P.
Context {K R : Type} {PO : POps K R} {p : Z} {PL : PLaws K R p}.
Add Ring Rring90 : (@rlaws_th R _ (pl_R (p := p))).
Add Ring Kring90 : (@rlaws_th K _ (fld_laws (FieldLaws := pl_K (p := p)))).
Notation log := (list (RandomOracle.ev R K)).

Lemma sc_absorb_ok tab e b (t : ro R K) : ro_ok (sc_absorb (TO := ro_trans tab) e b t) = ro_ok t.
Proof.
  unfold sc_absorb. rewrite ro_absorb_slice. cbn [ro_ok]. revert t; induction e as [|x e IH]; intros t; auto. cbn [fold_left]. rewrite IH. apply ro_ok_slices.
Qed.
Lemma rg_absorb_ok tab evs (t : ro R K) : ro_ok (rg_absorb (TO := ro_trans tab) evs t) = ro_ok t.
Proof.
  unfold rg_absorb. revert t; induction evs as [|x e IH]; intros t; auto. cbn [fold_left]. rewrite IH, !ro_absorb_slice. auto.
Qed.

(** ** The linearization *)
Definition lin_fooled_ro (rc : r1cs R) (f : list R) (n : nat) (l0 : log) (qry : list K -> log) (out : list K -> r1cs_proof R) (x : list K) : Prop :=
  let TO := ro_trans (ro_table qry x) in let pf := out x in
  rp_nvars pf = n /\ (exists t', Plus.lin_verify pf (Ro l0 true) = Ok (true, t') /\ ro_ok t' = true) /\
  let '(_, ts1) := get_challenges (Ro l0 true) n in
  exists point s ts2, sc_verify ts1 n 3 0 (rp_sc pf) = Ok (point, s, ts2) /\
    rp_va pf = open_mul point (r_A rc) f /\ rp_vb pf = open_mul point (r_B rc) f /\ rp_vc pf = open_mul point (r_C rc) f.
Theorem lin_ro rc f n l0 (S : list K) Q qry out : char_gt K 3 -> ~ r1cs_holds rc f n ->
  few (fun x => In x (tuples Q S) /\ lin_fooled_ro rc f n l0 qry out x) (Q * 3 * length S ^ (Q - 1)).
Proof.
  intros Hc Hno.
  eapply few_weaken; [|apply le_n|apply (few_queries qry S Q (blk_B l0 n n 1
    (fun pre c => vanishes_at (r1cs_gap rc f) (map emb pre) (n - 1 - length pre) (emb c)) (fun pre => lin_poly rc f pre))); intros l; apply few_blk_B].
  intros x [Hx HF]. split; auto. unfold lin_fooled_ro in HF. set (tab := ro_table qry x) in *. cbv zeta in HF.
  destruct HF as (Hn & (t' & HV & Hok) & HF).
  pose proof (plus_lin_sound (TO := ro_trans tab) (p := p) rc f (out x) (Ro l0 true) t' Hc HV) as H. rewrite Hn in H. cbv zeta in H.
  destruct (get_challenges (Ro l0 true) n) as [r ts1] eqn:Er. destruct HF as (point & s & ts2 & Hsc & Ha & Hb & Hcc).
  destruct H as (point' & s' & ts2' & Hsc' & Lp & H). rewrite Hsc in Hsc'. apply ok_inj in Hsc'. injection Hsc' as <- <- <-.
  assert (ro_ok ts2 = true) as Hok2.
  { unfold Plus.lin_verify in HV. rewrite Hn, Er, Hsc in HV. cbn [unwrap bind] in HV. apply bind_ok_inv in HV as (e & _ & HV).
    destruct (_ =? _); [|discriminate]. apply ok_inj in HV. injection HV as HV. rewrite <- HV in Hok. exact Hok. }
  destruct (ro_sc_verify _ _ _ _ _ _ _ _ _ Hsc Hok2) as (Hok1 & _). destruct (ro_challenges _ _ _ _ _ Er Hok1) as (_ & Lr & G & Hq). cbn [ro_log] in G, Hq.
  destruct (H Ha Hb Hcc) as [H'|[H'|H']]; [destruct (Hno H')|..].
  - destruct (vanish_hit tab _ l0 r H') as (l & c & H1 & H2); [intros i Hi; apply Hq; lia|]. rewrite Lr in H2. exists l, c. split; auto. left. exact H2.
  - destruct (ro_sc_bad tab ts1 n 3 0 (rp_sc (out x)) point s ts2 (lin_poly rc f r) (fun cs => length cs = n) (fun cs => l0 ++ map EvC cs) (fun pre => lin_poly rc f pre) r) as (l & c & H1 & H2); auto.
    + destruct H' as (i & Hi & H'). exists i. split; auto. cbv zeta in *. tauto.
    + exists l, c. split; auto. right. exact H2.
Qed.

(** ** The set check *)
Definition set_fooled_ro n (cols : list (list (list R))) vecs (l0 : log) (qry : list K -> log) (out : list K -> sc_out K R) (x : list K) : Prop :=
  let TO := ro_trans (ro_table qry x) in
  set_fooled n cols vecs (out x) (Ro l0 true) /\ exists t', set_verify (out x) (Ro l0 true) = Ok t' /\ ro_ok t' = true.
(** Every state of an accepting run whose last state is unflagged. *)
Lemma set_run tab n m w (o : sc_out K R) (l0 : log) t' e0 cs ts2 point v ts3 : let TO := ro_trans tab in
  so_nvars o = n -> index (so_e o) 0 = Ok e0 -> length e0 = w -> (length e0 + length (so_b o))%nat = m ->
  set_verify o (Ro l0 true) = Ok t' -> ro_ok t' = true ->
  get_challenges (Ro l0 true) (n_batch m n w) = (cs, ts2) -> sc_verify ts2 n 3 0 (so_sc o) = Ok (point, v, ts3) ->
  ro_ok ts3 = true /\ length cs = n_batch m n w /\ ro_log ts2 = l0 ++ map EvC cs /\
  forall i, (i < length cs)%nat -> lookup tab (l0 ++ map EvC (firstn i cs)) = Some (nth i cs 0).
Proof.
  intros TO Hn He Hw Hm HV Hok Hg Hsc. unfold set_verify in HV. rewrite He in HV. cbn [bind] in HV. rewrite Hm, Hn, Hw in HV.
  destruct (cba_loop m n (Ro l0 true)) as [cba ts1] eqn:E1. destruct (opt_challenge w ts1) as [rc ts2'] eqn:E2.
  destruct (cba_cvec (TO := ro_trans tab) m n w _ cba ts1 rc ts2' E1 E2) as (G1 & _). unfold TO in *. rewrite Hg in G1. injection G1 as _ <-.
  rewrite Hsc in HV. cbn [bind] in HV. apply bind_ok_inv in HV as (ver & _ & HV). destruct (_ =? _); [|discriminate]. apply ok_inj in HV.
  assert (ro_ok ts3 = true) as Hok3 by (rewrite <- HV, sc_absorb_ok in Hok; exact Hok). split; auto.
  destruct (ro_sc_verify _ _ _ _ _ _ _ _ _ Hsc Hok3) as (Hok2 & _). destruct (ro_challenges _ _ _ _ _ Hg Hok2) as (_ & Lr & G & Hq).
  split; auto. split; auto. rewrite Lr. exact Hq.
Qed.
Lemma set_index {T} {TO : TransOps T R K} (o : sc_out K R) (t t' : T) : set_verify o t = Ok t' -> index (so_e o) 0 = Ok (nth 0 (so_e o) []).
Proof. unfold set_verify. destruct (so_e o) as [|a l]; cbn [index nth_error bind nth]; [discriminate|auto]. Qed.

Theorem set_ro n (cols : list (list (list R))) vecs nc l0 (S : list K) Q qry out :
  NoDup S -> (Nat.max (2 * pdim - 1) (Nat.max nc (length cols + length vecs)) <= length S)%nat -> char_gt K 3 ->
  set_sizes n nc cols vecs -> Exists claim_bad (claims cols vecs) ->
  few (fun x => In x (tuples Q S) /\ set_fooled_ro n cols vecs l0 qry out x)
    (Q * Nat.max (sc_degree nc (length cols + length vecs)) 3 * length S ^ (Q - 1)).
Proof.
  intros HS HL Hc Hsz Hbad. set (m := (length cols + length vecs)%nat) in *. set (w := length cols). set (M := n_batch m n w).
  set (G := sc_G n (1 <? w)%nat (claims cols vecs)).
  destruct (set_fooled_bad (p := p) n cols vecs nc S HS HL Hc Hsz Hbad) as (ref & Href). fold m w in Href. change (n_batch m n w) with M in Href. fold G in Href.
  eapply few_weaken; [|apply le_n|apply (few_queries qry S Q (blk_B l0 M n (sc_degree nc m)
    (fun pre c => G (map emb pre ++ emb c :: map emb (skipn (Datatypes.S (length pre)) ref)) = 0)
    (fun cs => sc_g (claims cols vecs) (cba_of m n cs) (rc_of m n w cs)))); intros l; apply few_blk_B].
  intros x [Hx (HF & t' & HV & Hok)]. split; auto. set (tab := ro_table qry x) in *.
  pose proof (Href _ (ro_trans tab) (out x) (Ro l0 true) HF) as H. destruct HF as (Hn & _ & point & HP & O1 & O2).
  destruct (get_challenges (Ro l0 true) M) as [cs ts2] eqn:Eg. destruct H as (point' & v & ts3 & Hsc & H).
  pose proof (set_index _ _ _ HV) as He.
  assert (length (nth 0 (so_e (out x)) []) = w) as Lw by (rewrite O1, map_length; auto).
  assert (length (nth 0 (so_e (out x)) []) + length (so_b (out x)) = m)%nat as Lm by (rewrite O1, O2, !map_length; auto).
  destruct (set_run tab n m w (out x) l0 t' _ cs ts2 point' v ts3 Hn He Lw Lm HV Hok Eg Hsc) as (Hok3 & Lc & G2 & Hq).
  destruct H as [H|H].
  - destruct (batch_hit tab _ _ _ l0 cs H Hq) as (l & c & H1 & H2). rewrite Lc in H2. exists l, c. split; auto. left. exact H2.
  - destruct (ro_sc_bad tab ts2 n 3 0 (so_sc (out x)) point' v ts3 (sc_g (claims cols vecs) (cba_of m n cs) (rc_of m n w cs)) (fun cs => length cs = M)
      (fun cs => l0 ++ map EvC cs) (fun cs => sc_g (claims cols vecs) (cba_of m n cs) (rc_of m n w cs)) cs) as (l & c & H1 & H2); auto.
    + destruct H as (i & Hi & H'). exists i. split; auto. cbv zeta in *. tauto.
    + exists l, c. split; auto. right. exact H2.
Qed.

(** ** The range check *)
Definition range_fooled_ro n k insts (l0 : log) (qry : list K -> log) (out : list K -> dcom K R) (x : list K) : Prop :=
  let TO := ro_trans (ro_table qry x) in
  range_fooled n k insts (out x) (Ro l0 true) /\ exists t', rg_verify (out x) (Ro l0 true) = Ok t' /\ ro_ok t' = true.
Lemma rg_set_ok tab (dc : dcom K R) (t t' : ro R K) : let TO := ro_trans tab in rg_verify dc t = Ok t' -> ro_ok t' = true ->
  exists t1, set_verify (dc_out dc) t = Ok t1 /\ ro_ok t1 = true.
Proof.
  intros TO HV Hok. unfold rg_verify in HV. destruct (set_verify (dc_out dc) t) as [t1| |] eqn:E1; [|discriminate..]. cbn [unwrap bind] in HV. exists t1. split; auto.
  apply bind_ok_inv in HV as (u & _ & HV). apply ok_inj in HV. subst t'. unfold TO in Hok. rewrite rg_absorb_ok in Hok. auto.
Qed.
Theorem range_ro n N k insts l0 (S : list K) Q qry out :
  NoDup S -> (Nat.max (2 * pdim - 1) (length insts * k + length insts) <= length S)%nat -> char_gt K 3 -> (N <= 2 ^ n)%nat ->
  Forall (rg_data N k) insts -> ~ Forall (rg_wf ri_f N k) insts ->
  few (fun x => In x (tuples Q S) /\ range_fooled_ro n k insts l0 qry out x)
    (Q * Nat.max (sc_degree pdim (length insts * k + length insts)) 3 * length S ^ (Q - 1)).
Proof.
  intros HS HL Hc HN HD Hno. destruct (range_lengths N k insts HD) as [L1 L2]. pose proof (pdim_pos (p := p)) as Hd.
  set (m := (length insts * k + length insts)%nat) in *.
  destruct (claims_bad_dec (claims (range_cols insts) (range_vecs insts))) as [Hbad|HG].
  - pose proof (set_ro n (range_cols insts) (range_vecs insts) pdim l0 S Q qry (fun x => dc_out (out x)) HS) as H. rewrite L1, L2 in H. fold m in H.
    eapply few_weaken; [|apply le_n|apply H; auto].
    + intros x [Hx (HF & t' & HV & Hok)]. split; auto. split; [exact (range_fooled_set n N k insts _ _ HD HF)|]. exact (rg_set_ok _ _ _ _ HV Hok).
    + lia.
    + eapply range_sizes; eauto.
  - destruct (range_gap_witness n N k insts HN HD Hno HG) as (t & (b & Hb & Hne) & Ht).
    set (w := (length insts * k)%nat) in *. set (M := n_batch m n w).
    eapply few_weaken; [| |apply (few_queries qry S Q (rd_B (length l0 + M) n 3 (fun pre c => vanishes_at (fun b => emb (t b)) (map emb pre) (n - 1 - length pre) (emb c))) 1); intros l; apply few_rd_B].
    + intros x [Hx ((Hn & Hk & HV0 & point & HP & HO) & t' & HV & Hok)]. split; auto. set (tab := ro_table qry x) in *.
      specialize (Ht _ (ro_trans tab) (out x) (Ro l0 true) point Hk HV0 HO).
      destruct (rg_set_ok _ _ _ _ HV Hok) as (t1 & HV1 & Hok1). fold tab in HV1. pose proof (set_index _ _ _ HV1) as He.
      destruct HO as (O1 & O2 & _).
      assert (length (nth 0 (so_e (dc_out (out x))) []) = w) as Lw by (rewrite O1, map_length; auto).
      assert (length (nth 0 (so_e (dc_out (out x))) []) + length (so_b (dc_out (out x))) = m)%nat as Lm by (rewrite Lw, O2, !map_length; auto).
      unfold set_point in HP. fold w in HP. change (w + length insts)%nat with m in HP.
      destruct (cba_loop (TO := ro_trans tab) m n (Ro l0 true)) as [cba ts1] eqn:E1. destruct (opt_challenge (TO := ro_trans tab) w ts1) as [rc ts2] eqn:E2.
      destruct (cba_cvec (TO := ro_trans tab) m n w _ cba ts1 rc ts2 E1 E2) as (Eg & _). destruct HP as (v & ts3 & Hsc).
      destruct (set_run tab n m w (dc_out (out x)) l0 t1 _ _ ts2 point v ts3 Hn He Lw Lm HV1 Hok1 Eg Hsc) as (Hok3 & Lc & G2 & _).
      destruct (ro_sc_verify _ _ _ _ _ _ _ _ _ Hsc Hok3) as (_ & Lr & Lp & FL & _ & Hlk).
      assert (bad_coord (fun b => emb (t b) : R) point) as (i & Hi & _ & Hv & Hall).
      { apply (zero_mle_bad_coord _ _ b); [rewrite Lr; auto|intros E0; apply Hne, (emb_0_inv (p := p)), E0|].
        rewrite <- (hom_mle_spec emb emb_hom), Ht. apply (hom_0 _ emb_hom). }
      rewrite Lr in *. do 2 eexists. split; [apply (Hlk i Hi)|]. rewrite G2. exists (l0 ++ map EvC (sc_cvec cba rc)), (firstn i (firstn n (so_sc (dc_out (out x))))), (firstn i point), (nth i (so_sc (dc_out (out x))) []).
      assert (length (firstn i point) = i) as Li by (rewrite firstn_length; lia). rewrite Li.
      split; [rewrite app_length, map_length, Lc; auto|]. split; [rewrite firstn_length; lia|]. split; auto.
      split; [apply Forall_forall; intros mm Hm; rewrite Forall_forall in FL; apply FL; rewrite <- (firstn_skipn i (firstn n (so_sc (dc_out (out x))))); apply in_app_iff; auto|].
      split; [|auto].
      assert (nth i (firstn n (so_sc (dc_out (out x)))) [] = nth i (so_sc (dc_out (out x))) []) as En.
      { rewrite <- (firstn_skipn n (so_sc (dc_out (out x)))) at 2. rewrite app_nth1; auto. lia. }
      rewrite <- En. rewrite Forall_forall in FL. apply FL, nth_In. lia.
    + apply Nat.mul_le_mono_r. nia.
Qed.
End P.
