(** Soundness of the range check of latticefold-plus/src/rgchk.rs, and what its verifier leaves open. *)
From Coq Require Import String List Arith Lia ZArith Bool Ring.
From Verif Require Import Prelude Alg Poly MLE MLE_Proofs Transcript Sumcheck Sumcheck_Proofs CombDeg Arith Arith_Proofs Balanced
  Linearization_Proofs Folding_Sound Rings Rings_Proofs PlusRing PlusUtils_Proofs SetCheck SetCheck_Proofs SetCheck_Sound
  RangeCheck RangeCheck_Proofs Decomposition_Proofs.
Import ListNotations.
Local Open Scope rs_scope.

Section Sound.
Context {K R T : Type} {PO : POps K R} {TO : TransOps T R K} {p : Z} {PL : PLaws K R p}.
Add Ring Rring65 : (@rlaws_th R _ (pl_R (p := p))).
Add Ring Kring65 : (@rlaws_th K _ (fld_laws (FieldLaws := pl_K (p := p)))).

(** Tables of the right sizes, with any contents. *)
Record rg_data (N k : nat) (x : rg_inst K R) : Prop := RgData {
  rd_f : length (ri_f x) = N;
  rd_k : length (ri_Mf x) = k;
  rd_rows : Forall (fun M => length M = N /\ Forall (fun row => length row = pdim) M) (ri_Mf x);
  rd_mtau : length (ri_mtau x) = N;
  rd_tau : length (ri_tau x) = N }.

(** The openings in the proof are the true evaluations of the tables at the point. *)
Definition coeff_evals (point : list K) (f : list R) : list K :=
  map (fun j => mle_spec (fun i => nth j (pcoeffs (nth i f 0)) 0) point) (seq 0 pdim).
Definition rg_opens (dc : dcom K R) (insts : list (rg_inst K R)) (point : list K) : Prop :=
  nth 0 (so_e (dc_out dc)) [] = map (map (open point)) (flat_map inst_cols insts) /\
  so_b (dc_out dc) = map (fun x => open point (ri_mtau x)) insts /\
  Forall2 (fun ev x => de_v ev = coeff_evals point (ri_f x) /\
      nth_error (de_a ev) 0 = Some (mle_spec (fun i => nth i (ri_tau x) 0) point) /\
      nth_error (de_b ev) 0 = Some (open point (ri_mtau x))) (dc_evals dc) insts.

(** By how much the digits miss the coefficients [c], and the exponents miss [tau]. *)
Definition digit_gap (k : nat) (x : rg_inst K R) (c b : nat) : K :=
  sumn k (fun i => psi_ct (nth c (nth b (nth i (ri_Mf x) []) []) 0) * rpow (rofn (pdim / 2)) i) - nth c (pcoeffs (nth b (ri_f x) 0)) 0.
Definition tau_gap (x : rg_inst K R) (b : nat) : K := psi_ct (nth b (ri_mtau x) 0) - nth b (ri_tau x) 0.

Lemma claim_bad_dec (cl : claim (R := R)) : claim_bad cl \/ ~ claim_bad cl.
Proof.
  unfold claim_bad. induction (cl_cols cl) as [|col cols IH].
  - right. intros (c & x & [] & _).
  - assert ((exists x, In x col /\ ~ in_monos x) \/ ~ (exists x, In x col /\ ~ in_monos x)) as HC.
    { clear IH. induction col as [|x col IHc].
      - right. intros (x & [] & _).
      - destruct (in_monos_dec (p := p) x) as [Hx|Hx].
        + destruct IHc as [(y & Hy & Hm)|Hn].
          * left. exists y. split; [right|]; auto.
          * right. intros (y & [<-|Hy] & Hm); [auto|]. apply Hn. eauto.
        + left. exists x. split; [left|]; auto. }
    destruct HC as [(x & Hx & Hm)|Hn].
    + left. exists col, x. split; [left|]; auto.
    + destruct IH as [(c & x & Hc & Hx & Hm)|Hn'].
      * left. exists c, x. split; [right|]; auto.
      * right. intros (c & x & [<-|Hc] & Hx & Hm); [apply Hn|apply Hn']; eauto.
Qed.
Lemma claims_bad_dec cls : Exists claim_bad cls \/ Forall (fun cl => ~ claim_bad cl) cls.
Proof.
  induction cls as [|cl cls IH]; [right; apply Forall_nil|].
  destruct (claim_bad_dec cl); [left; apply Exists_cons_hd; auto|]. destruct IH; [left; apply Exists_cons_tl; auto|right; apply Forall_cons; auto].
Qed.
Lemma not_bad cl : ~ claim_bad cl -> Forall (Forall in_monos) (cl_cols cl).
Proof.
  intros H. apply Forall_forall. intros col Hc. apply Forall_forall. intros x Hx. destruct (in_monos_dec (p := p) x) as [|Hm]; auto.
  exfalso. apply H. exists col, x. auto.
Qed.

Lemma emb_0_inv (a : K) : emb a = (0 : R) -> a = 0.
Proof. intros H. apply (f_equal pct) in H. rewrite (pct_emb (p := p)) in H. rewrite H. apply (klin_0 (p := p)), klin_pct. Qed.
(** A table of field elements that is not zero has a zero evaluation only at a bad point. *)
Lemma gap_bad (g : nat -> K) n N (point : list K) : length point = n -> (N <= 2 ^ n)%nat -> (forall b, (N <= b)%nat -> g b = 0) ->
  mle_spec g point = 0 -> (forall b, (b < N)%nat -> g b = 0) \/ bad_coord (fun b => emb (g b) : R) point.
Proof.
  intros Hl HN Hout H0.
  assert ((forall b, (b < N)%nat -> g b = 0) \/ exists b, (b < N)%nat /\ g b <> 0) as [H|(b & Hb & Hne)]; [|left; auto|right].
  { clear - PL. induction N as [|N IH]; [left; intros; lia|]. destruct IH as [H|(b & Hb & Hne)].
    - destruct (req_dec (g N) 0) as [E|E]; [left|right; exists N; split; [lia|auto]].
      intros b Hb. destruct (Nat.eq_dec b N) as [->|]; auto. apply H. lia.
    - right. exists b. split; [lia|auto]. }
  apply (zero_mle_bad_coord _ _ b).
  - rewrite Hl. lia.
  - intros E. apply Hne, emb_0_inv, E.
  - rewrite <- (hom_mle_spec emb emb_hom). rewrite H0. apply (hom_0 _ emb_hom).
Qed.
Lemma mle_spec_sub' (f g : nat -> K) pt : mle_spec (fun b => f b - g b) pt = mle_spec f pt - mle_spec g pt.
Proof.
  unfold mle_spec. transitivity (sumn (2 ^ length pt) (fun b => f b * eqw pt b) + sumn (2 ^ length pt) (fun b => - g b * eqw pt b)).
  - rewrite <- sumn_add. apply sumn_ext. intros; ring.
  - assert (sumn (2 ^ length pt) (fun b => - g b * eqw pt b) = - sumn (2 ^ length pt) (fun b => g b * eqw pt b)) as ->; [|ring].
    induction (2 ^ length pt)%nat as [|m IH]; cbn [sumn]; [ring|]. rewrite IH. ring.
Qed.

Lemma check_eval_inv P e0 es l ev : check_eval P (e0 :: es) l ev = Ok tt ->
  de_v ev = map psi_ct (u_comb (rp_k P) l e0) /\
  (forall a b, nth_error (de_a ev) 0 = Some a -> nth_error (de_b ev) 0 = Some b -> psi_ct b = a).
Proof.
  unfold check_eval. intros H. apply bind_ok_inv in H as (u & Hg & H). split.
  - cbn [length seq combine mapM fst snd] in H. apply bind_ok_inv in H as (w & H & _). apply bind_ok_inv in H as (w' & H & _).
    destruct (leqb (de_v ev) (map psi_ct (u_comb (rp_k P) l e0))) eqn:E; [|discriminate]. apply leqb_true. auto.
  - intros a b Ha Hb. destruct (de_a ev) as [|a' la]; [discriminate|]. destruct (de_b ev) as [|b' lb]; [discriminate|].
    injection Ha as ->. injection Hb as ->. cbn [combine forallb fst snd] in Hg. destruct (psi_ct b =? a) eqn:E; [|discriminate]. apply req_true. auto.
Qed.

Lemma sc_verify_point (ts : T) n d e prf point v ts' : sc_verify ts n d e prf = Ok (point, v, ts') -> length point = n.
Proof.
  unfold sc_verify. intros Hsc. destruct (verify_loop n _ prf) as [[[ms cs] t]| |] eqn:EL; try discriminate. cbn [bind] in Hsc.
  destruct (n =? 0)%nat; [discriminate|]. destruct (check_loop d ms cs e); try discriminate. cbn [bind] in Hsc. injection Hsc as <- <- <-.
  destruct (verify_loop_inv _ _ _ _ _ _ EL) as (_ & _ & H2). auto.
Qed.

Definition range_cols (insts : list (rg_inst K R)) : list (list (list R)) := flat_map inst_cols insts.
Definition range_vecs (insts : list (rg_inst K R)) : list (list R) := map ri_mtau insts.

Lemma inst_cols_monos N k x : rg_data N k x -> Forall (Forall (Forall in_monos)) (inst_cols x) ->
  Forall (fun M => length M = N /\ Forall (fun row => length row = pdim /\ Forall in_monos row) M) (ri_Mf x).
Proof.
  intros [D1 D2 D3 D4 D5] H. unfold inst_cols in H. rewrite Forall_map in H. rewrite Forall_forall in D3, H |- *. intros M HM.
  destruct (D3 M HM) as [LM FM]. split; auto. specialize (H M HM). rewrite Forall_forall in FM |- *. intros row Hrow. split; auto.
  apply Forall_forall. intros e He. apply (In_nth _ _ 0) in He as (j & Hj & <-). rewrite (FM row Hrow) in Hj.
  unfold dcols in H. rewrite Forall_map, Forall_forall in H. specialize (H j ltac:(apply in_seq; lia)). rewrite Forall_map, Forall_forall in H. auto.
Qed.

(** The evaluations that an accepting verifier compares: the digits and the exponents miss their targets by tables that vanish at the point. *)
Lemma range_gaps_vanish N k insts dc (ts ts' : T) point l : Forall (rg_data N k) insts -> rp_k (dc_params dc) = k ->
  rg_verify dc ts = Ok ts' -> rg_opens dc insts point -> (l < length insts)%nat -> let x := nth l insts inst0 in
  (forall c, (c < pdim)%nat -> mle_spec (digit_gap k x c) point = 0) /\ mle_spec (tau_gap x) point = 0.
Proof.
  intros HD Hk HV (O1 & O2 & O3) Hl x.
  unfold rg_verify in HV. apply bind_ok_inv in HV as (tsa & HS & HV). apply bind_ok_inv in HV as (us & HM & _).
  assert (set_verify (dc_out dc) ts = Ok tsa) as HS' by (destruct (set_verify (dc_out dc) ts); cbn [unwrap] in HS; congruence). clear HS.
  assert (exists e0 es, so_e (dc_out dc) = e0 :: es) as (e0 & es & Ee).
  { unfold set_verify in HS'. apply bind_ok_inv in HS' as (e0 & He0 & _). unfold index in He0. destruct (so_e (dc_out dc)); [discriminate|eauto]. }
  assert (In x insts) as Hx by (apply nth_In; auto).
  assert (rg_data N k x) as D by (rewrite Forall_forall in HD; auto).
  assert (length (dc_evals dc) = length insts) as Lev by exact (proj1 (proj1 (Forall2_nth _ _ _ (DcomEvals [] [] [] []) inst0) O3)).
  set (ev := nth l (dc_evals dc) (DcomEvals [] [] [] [])).
  pose proof (proj2 (proj1 (Forall2_nth _ _ _ (DcomEvals [] [] [] []) inst0) O3) l ltac:(lia)) as (V1 & V2 & V3). fold ev x in V1, V2, V3.
  assert (check_eval (dc_params dc) (so_e (dc_out dc)) l ev = Ok tt) as HCE.
  { apply mapM_inv in HM. apply (Forall2_nth _ _ _ (0%nat, DcomEvals [] [] [] []) tt) in HM as [_ HM]. rewrite combine_length, seq_length, Nat.min_id in HM.
    specialize (HM l ltac:(lia)). rewrite combine_nth, seq_nth in HM by (rewrite ?seq_length; lia). cbn [fst snd Nat.add] in HM. fold ev in HM. rewrite HM. destruct (nth l us tt). auto. }
  rewrite Ee in HCE. apply check_eval_inv in HCE as [C1 C2]. specialize (C2 _ _ V2 V3).
  rewrite Ee in O1. cbn [nth] in O1.
  rewrite Hk in C1. rewrite (u_comb_spec k l e0 (open point) (ri_Mf x) insts inst0 O1) in C1; auto.
  2:{ intros y Hy. rewrite Forall_forall in HD. apply (HD y Hy). }
  rewrite V1 in C1. unfold coeff_evals in C1. rewrite map_map in C1.
  assert (forall c, (c < pdim)%nat -> mle_spec (digit_gap k x c) point = 0) as Hdig.
  { intros c Hcc. assert (E := f_equal (fun l => nth c l 0) C1). cbv beta in E. rewrite !nth_seq_map in E by auto.
    unfold digit_gap. rewrite mle_spec_sub', E. rewrite (klin_sumn (p := p)) by apply klin_psi.
    rewrite mle_spec_sumn. rewrite (sumn_ext k _ (fun i => psi_ct (open point (map (fun row => nth c row 0) (nth i (ri_Mf x) [])) * emb (rpow (rofn (pdim / 2)) i : K)))); [ring|].
    intros i Hi. 
    transitivity (psi_ct (emb (rpow (rofn (pdim / 2)) i : K) * open point (map (fun row => nth c row 0) (nth i (ri_Mf x) [])))); [|f_equal; ring].
    rewrite (proj2 klin_psi), (klin_open (p := p)) by apply klin_psi. unfold mle_spec. rewrite <- sumn_mul_l. apply sumn_ext. intros b Hb.
    assert (nth b (map (fun row => nth c row 0) (nth i (ri_Mf x) [])) 0 = nth c (nth b (nth i (ri_Mf x) []) []) 0) as ->; [|ring].
    destruct (Nat.lt_ge_cases b (length (nth i (ri_Mf x) []))); [rewrite (nth_map_lt _ _ _ []) by auto; auto|].
    rewrite nth_overflow by (rewrite map_length; auto). rewrite (nth_overflow (nth i (ri_Mf x) [])) by auto. destruct c; auto. }
  assert (mle_spec (tau_gap x) point = 0) as Htau.
  { unfold tau_gap. rewrite mle_spec_sub', <- C2. rewrite (klin_open (p := p)) by apply klin_psi. ring. }
  auto.
Qed.

Theorem range_check_sound n N k insts (pts : list K) : let L := length insts in
  NoDup pts -> (Nat.max (2 * pdim - 1) (L * k + L) <= length pts)%nat -> char_gt K 3 -> (N <= 2 ^ n)%nat ->
  Forall (rg_data N k) insts ->
  exists ref, forall (dc : dcom K R) (ts ts' : T),
    so_nvars (dc_out dc) = n -> rp_k (dc_params dc) = k -> length (nth 0 (so_e (dc_out dc)) []) = (L * k)%nat -> length (so_b (dc_out dc)) = L ->
    rg_verify dc ts = Ok ts' ->
    let '(cba, ts1) := cba_loop (L * k + L) n ts in
    let '(rc, ts2) := opt_challenge (L * k) ts1 in
    exists point v ts3, sc_verify ts2 n 3 0 (so_sc (dc_out dc)) = Ok (point, v, ts3) /\ length point = n /\
    (rg_opens dc insts point ->
      Forall (rg_wf ri_f N k) insts \/
      bad_batch (sc_degree pdim (L * k + L)) (sc_G n (1 <? L * k)%nat (claims (range_cols insts) (range_vecs insts))) ref (sc_cvec cba rc) \/
      sc_bad n 3 (sc_g (claims (range_cols insts) (range_vecs insts)) cba rc) ts2 (so_sc (dc_out dc)) point \/
      exists x, In x insts /\ ((exists c, (c < pdim)%nat /\ bad_coord (fun b => emb (digit_gap k x c b) : R) point) \/ bad_coord (fun b => emb (tau_gap x b) : R) point)).
Proof.
  intros L Hnd Hpts Hc HN HD. set (cols := range_cols insts). set (vecs := range_vecs insts).
  assert (length cols = (L * k)%nat) as Lc.
  { unfold cols, range_cols, L. clear - HD. induction HD as [|x l W _ IH]; auto. cbn [flat_map length]. rewrite app_length, IH. unfold inst_cols. rewrite map_length, (rd_k _ _ _ W). lia. }
  assert (length vecs = L) as Lv by (unfold vecs, range_vecs; rewrite map_length; auto).
  assert (Forall (fun cl => (length (cl_cols cl) <= pdim)%nat /\ Forall (fun col => (length col <= 2 ^ n)%nat) (cl_cols cl)) (claims cols vecs)) as HF.
  { unfold claims. apply Forall_app. split; apply Forall_map, Forall_forall.
    - intros css Hcs. cbn [cl_cols]. unfold cols, range_cols in Hcs. apply in_flat_map in Hcs as (x & Hx & Hcs). unfold inst_cols in Hcs.
      apply in_map_iff in Hcs as (M & <- & HM). rewrite Forall_forall in HD. destruct (HD x Hx) as [_ _ D _ _]. rewrite Forall_forall in D. destruct (D M HM) as [LM _].
      unfold dcols. rewrite map_length, seq_length. split; auto. apply Forall_map, Forall_forall. intros j _. rewrite map_length. lia.
    - intros v Hv. cbn [cl_cols length]. pose proof (pdim_pos (p := p)). split; [lia|]. apply Forall_cons; [|apply Forall_nil]. unfold vecs, range_vecs in Hv.
      apply in_map_iff in Hv as (x & <- & Hx). rewrite Forall_forall in HD. rewrite (rd_mtau _ _ _ (HD x Hx)). auto. }
  assert (exists ref, Exists claim_bad (claims cols vecs) -> forall (o : sc_out K R) (ts ts' : T),
    so_nvars o = n -> set_verify o ts = Ok ts' ->
    let '(cba, ts1) := cba_loop (length cols + length vecs) n ts in
    let '(rc, ts2) := opt_challenge (length cols) ts1 in
    (forall point v ts3, sc_verify ts2 n 3 0 (so_sc o) = Ok (point, v, ts3) ->
       nth 0 (so_e o) [] = map (map (open point)) cols /\ so_b o = map (open point) vecs) ->
    length (nth 0 (so_e o) []) = length cols -> length (so_b o) = length vecs ->
    bad_batch (sc_degree pdim (length cols + length vecs)) (sc_G n (1 <? length cols)%nat (claims cols vecs)) ref (sc_cvec cba rc) \/
    exists point v ts3, sc_verify ts2 n 3 0 (so_sc o) = Ok (point, v, ts3) /\
      sc_bad n 3 (sc_g (claims cols vecs) cba rc) ts2 (so_sc o) point) as (ref & Href).
  { destruct (claims_bad_dec (claims cols vecs)) as [HE|HG].
    - destruct (set_check_sound (T := T) (p := p) n cols vecs pdim pts) as (ref & H); auto; [rewrite Lc, Lv; lia|]. exists ref. intros _. exact H.
    - exists []. intros HE. exfalso. apply Exists_exists in HE as (cl & Hcl & Hb). rewrite Forall_forall in HG. apply (HG cl); auto. }
  exists ref. intros dc ts ts' Hn Hk Le Lb HV. pose proof HV as HV0. rewrite Lc, Lv in Href.
  unfold rg_verify in HV. apply bind_ok_inv in HV as (tsa & HS & HV). apply bind_ok_inv in HV as (us & HM & _).
  assert (set_verify (dc_out dc) ts = Ok tsa) as HS' by (destruct (set_verify (dc_out dc) ts); cbn [unwrap] in HS; congruence). clear HS.
  assert (exists e0 es, so_e (dc_out dc) = e0 :: es) as (e0 & es & Ee).
  { unfold set_verify in HS'. apply bind_ok_inv in HS' as (e0 & He0 & _). unfold index in He0. destruct (so_e (dc_out dc)); [discriminate|eauto]. }
  assert (forall cba ts1 rc ts2, cba_loop (L * k + L) n ts = (cba, ts1) -> opt_challenge (L * k) ts1 = (rc, ts2) ->
    exists point v ts3, sc_verify ts2 n 3 0 (so_sc (dc_out dc)) = Ok (point, v, ts3)) as HP.
  { intros cba ts1 rc ts2 E1 E2. unfold set_verify in HS'. rewrite Ee in HS', Le. unfold index in HS'. cbn [nth_error of_option bind nth] in HS', Le.
    rewrite Le, Lb, Hn, E1, E2 in HS'. apply bind_ok_inv in HS' as ([[point v] ts3] & Hsc & _). eauto. }
  specialize (fun HE => Href HE (dc_out dc) ts tsa Hn HS').
  destruct (cba_loop (L * k + L) n ts) as [cba ts1] eqn:ECB. destruct (opt_challenge (L * k) ts1) as [rc ts2] eqn:ERC.
  destruct (HP _ _ _ _ eq_refl ERC) as (point & v & ts3 & Hsc). exists point, v, ts3. split; [auto|].
  pose proof (sc_verify_point _ _ _ _ _ _ _ _ Hsc) as Lp. split; [auto|]. intros Hopn. pose proof Hopn as (O1 & O2 & O3).
  destruct (claims_bad_dec (claims cols vecs)) as [HE|HG].
  - right. specialize (Href HE). destruct Href as [H|(pt & v' & ts3' & Hsc' & H)]; auto.
    + intros pt v' ts3' Hsc'. rewrite Hsc in Hsc'. injection Hsc' as <- <- <-. split; [exact O1|]. rewrite O2. unfold vecs, range_vecs. rewrite map_map. auto.
    + rewrite Hsc in Hsc'. injection Hsc' as <- <- <-. auto.
  - (* every instance *)
    assert (forall l, (l < L)%nat -> rg_wf ri_f N k (nth l insts inst0) \/
       (exists c, (c < pdim)%nat /\ bad_coord (fun b => emb (digit_gap k (nth l insts inst0) c b) : R) point) \/
       bad_coord (fun b => emb (tau_gap (nth l insts inst0) b) : R) point) as HX.
    { intros l Hl. set (x := nth l insts inst0). assert (In x insts) as Hx by (apply nth_In; auto).
      assert (rg_data N k x) as D by (rewrite Forall_forall in HD; auto).
      destruct (range_gaps_vanish N k insts dc ts _ point l HD Hk HV0 Hopn Hl) as [Hdig Htau]. fold x in Hdig, Htau.
      destruct D as [D1 D2 D3 D4 D5].
      destruct (gap_bad (tau_gap x) n N point Lp HN) as [T1|T1]; auto.
      { intros b Hb. unfold tau_gap. rewrite !nth_overflow by lia. rewrite (klin_0 (p := p)) by apply klin_psi. ring. }
      assert ((forall c, (c < pdim)%nat -> forall b, (b < N)%nat -> digit_gap k x c b = 0) \/ exists c, (c < pdim)%nat /\ bad_coord (fun b => emb (digit_gap k x c b) : R) point) as [G|G]; auto.
      { assert (forall m, (m <= pdim)%nat -> (forall c, (c < m)%nat -> forall b, (b < N)%nat -> digit_gap k x c b = 0) \/ exists c, (c < m)%nat /\ bad_coord (fun b => emb (digit_gap k x c b) : R) point) as HH; [|apply HH; auto].
        induction m as [|m IH]; intros Hm; [left; intros; lia|]. destruct (IH ltac:(lia)) as [IH'|(c & Hcc & Hb)].
        - destruct (gap_bad (digit_gap k x m) n N point Lp HN) as [T2|T2]; auto.
          + intros b Hb. unfold digit_gap. rewrite (nth_overflow (ri_f x)) by lia. rewrite (nth_pcoeffs_0 (p := p)). rewrite sumn_0; [ring|].
            intros i Hi. rewrite Forall_forall in D3. rewrite (nth_overflow (nth i (ri_Mf x) [])) by (rewrite (proj1 (D3 (nth i (ri_Mf x) []) ltac:(apply nth_In; lia))); auto).
            destruct m; cbn [nth]; rewrite (klin_0 (p := p)) by apply klin_psi; ring.
          + left. intros c Hcc b Hb. destruct (Nat.eq_dec c m) as [->|]; auto. apply IH'; auto. lia.
          + right. exists m. split; auto.
        - right. exists c. split; auto. }
      left. rewrite Forall_forall in HG. split; auto.
      - apply (inst_cols_monos N k); [split; auto|]. apply Forall_forall. intros cs Hcs. apply (not_bad (CMat cs)), HG. unfold claims. apply in_or_app. left. apply in_map.
        apply in_flat_map. eauto.
      - split; auto. intros r c Hr Hcc. specialize (G c Hcc r Hr). unfold digit_gap in G.
        set (A := sumn k _) in *. set (B := nth c _ 0) in *. transitivity (A - B + B); [ring|]. rewrite G. ring.
      - assert (Forall (Forall in_monos) [ri_mtau x]) as Hmt; [|apply (Forall_inv Hmt)]. apply (not_bad (CVec (ri_mtau x))), HG. unfold claims. apply in_or_app. right. apply in_map.
        unfold vecs, range_vecs. apply in_map. auto.
      - apply (list_ext 0); [rewrite map_length; lia|]. intros b Hb. rewrite map_length in Hb. rewrite (nth_map_lt _ _ _ 0) by auto.
        specialize (T1 b ltac:(lia)). unfold tau_gap in T1. set (A := psi_ct (nth b (ri_mtau x) 0)) in *. set (B := nth b (ri_tau x) 0) in *. transitivity (A - B + B); [ring|]. rewrite T1. ring. }
    assert ((forall l, (l < L)%nat -> rg_wf ri_f N k (nth l insts inst0)) \/ exists l, (l < L)%nat /\
       ((exists c, (c < pdim)%nat /\ bad_coord (fun b => emb (digit_gap k (nth l insts inst0) c b) : R) point) \/ bad_coord (fun b => emb (tau_gap (nth l insts inst0) b) : R) point)) as [G|(l & Hl & G)].
    { clear - HX. revert HX. generalize L. induction L0 as [|m IH]; intros HX; [left; intros; lia|].
      destruct IH as [G|(l & Hl & G)]; [intros; apply HX; lia| |right; exists l; split; [lia|auto]].
      destruct (HX m ltac:(lia)) as [H|H]; [left|right; exists m; auto]. intros l Hl. destruct (Nat.eq_dec l m) as [->|]; auto. apply G. lia. }
    + left. apply Forall_forall. intros x Hx. apply (In_nth _ _ inst0) in Hx as (l & Hl & <-). apply G. auto.
    + right. right. right. exists (nth l insts inst0). split; auto. apply nth_In. auto.
Qed.
End Sound.
