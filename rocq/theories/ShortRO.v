(** The short folding challenges as answers of the random oracle: chains of folding steps of which only the last output is assumed true.

    The oracle answers a question with a challenge and with a vector of [m] byte strings (or other seeds) for the short challenges; the
    transcript uses the one or the other.  This is one oracle with long answers in place of two. *)
From Coq Require Import String List Arith Lia ZArith Bool Ring.
From Verif Require Import Prelude Alg Poly MLE MLE_Proofs Zippel Counting Transcript Interp Sumcheck Sumcheck_Proofs CombDeg
  Arith Arith_Proofs Balanced Rings Rings_Proofs Linearization Linearization_Proofs Relations LinRel
  Decomposition Decomposition_Proofs Folding Folding_Comb Folding_Proofs Folding_Complete Folding_Sound NIFS NIFS_Proofs
  SoundErr RandomOracle NIFS_RO Extract Fork RhoErr AdaptRO.
Import ListNotations.
Local Open Scope rs_scope.

(** ** Counting *)
Lemma few_nn {X} (P B : X -> Prop) n : (forall x, P x -> ~ ~ B x) -> few B n -> few P n.
Proof.
  intros H HB L HL HF. destruct (le_lt_dec (length L) n) as [|Hgt]; auto. exfalso.
  assert (~ ~ Forall B L) as HH.
  { clear - H HF. induction HF as [|x L Hx _ IH]; [intros G; apply G; auto|]. intros G. apply IH. intros HL. apply (H x Hx). intros Hb. apply G. auto. }
  apply HH. intros HE. specialize (HB L HL HE). lia.
Qed.
Section CoordsX.
Context {X : Type} (d0 : X) (eqX : forall a b : X, {a = b} + {a <> b}).
Lemma few_coordX (S : list X) n i (B : list X -> X -> Prop) d : (i < n)%nat ->
  (forall pre, In pre (tuples i S) -> few (fun c => In c S /\ B pre c) d) ->
  few (fun x => In x (tuples n S) /\ B (firstn i x) (nth i x d0)) (length S ^ (n - 1) * d).
Proof.
  intros Hi HB. rewrite <- (tuples_length (n - 1) S).
  apply (few_fibre (list_eq_dec eqX) (drop i)).
  - intros x [Hx _]. apply drop_in; auto.
  - intros g Hg. apply (few_inj (fun x => nth i x d0) _ (fun c => In c S /\ B (firstn i g) c)).
    + intros x [[Hx Hb] E]. apply in_tuples in Hx as [Hl HS]. rewrite Forall_forall in HS. split; [apply HS, nth_In; lia|].
      assert (firstn i g = firstn i x) as ->; auto. unfold drop in E.
      rewrite <- E, firstn_app. rewrite firstn_firstn, Nat.min_id, firstn_length, Hl.
      replace (i - Nat.min i n)%nat with 0%nat by lia. cbn [firstn]. apply app_nil_r.
    + intros x y [[Hx _] Ex] [[Hy _] Ey] Hn. apply in_tuples in Hx as [Lx _]. apply in_tuples in Hy as [Ly _].
      rewrite <- Ey in Ex. destruct (drop_same d0 eqX n i x y Hi Lx Ly Ex) as [|(_ & _ & V)]; auto. exfalso. apply (proj1 (V i Hi) (eq_sym Hn)). reflexivity.
    + apply HB. apply in_tuples in Hg as [H1 H2]. apply in_tuples. split; [rewrite firstn_length; lia|].
      apply Forall_forall. intros a Ha. rewrite Forall_forall in H2. apply H2. rewrite <- (firstn_skipn i g). apply in_app_iff. auto.
Qed.
Lemma few_anyX (S : list X) n (B : list X -> X -> Prop) d : (forall pre, few (fun c => In c S /\ B pre c) d) ->
  few (fun x => In x (tuples n S) /\ exists i, (i < n)%nat /\ B (firstn i x) (nth i x d0)) (n * d * length S ^ (n - 1)).
Proof.
  intros HB. apply (few_weaken (fun x => exists i, (i < n)%nat /\ (In x (tuples n S) /\ B (firstn i x) (nth i x d0))) _ (n * (length S ^ (n - 1) * d))).
  - intros x (H1 & i & Hi & H2). eauto.
  - lia.
  - apply few_lt. intros i Hi. apply few_coordX; auto.
Qed.
End CoordsX.
(** One of two independent draws restricted. *)
Lemma few_pair {X Y} (eqX : forall a b : X, {a = b} + {a <> b}) (eqY : forall a b : Y, {a = b} + {a <> b}) (S : list X) (V : list Y) (P : X -> Prop) (Q : Y -> Prop) a b :
  few P a -> few (fun v => In v V /\ Q v) b ->
  few (fun z => In z (list_prod S V) /\ (P (fst z) \/ Q (snd z))) (a * length V + length S * b).
Proof.
  intros HP HQ. apply (few_weaken (fun z => (In (snd z) V /\ P (fst z)) \/ (In (fst z) S /\ In (snd z) V /\ Q (snd z))) _ (length V * a + length S * b)).
  - intros [x v] [Hz H]. apply in_prod_iff in Hz as [H1 H2]. cbn [fst snd] in *. tauto.
  - lia.
  - apply few_or.
    + apply (few_fibre eqY snd V); [tauto|]. intros h Hh. apply (few_inj fst _ P); [|intros [x h1] [x' h2] [_ E1] [_ E2] E; cbn in *; congruence|exact HP].
      intros [x h'] [[H1 H2] E]. exact H2.
    + apply (few_fibre eqX fst S); [tauto|]. intros g Hg. apply (few_inj snd _ (fun v => In v V /\ Q v)); [|intros [x h1] [x' h2] [_ E1] [_ E2] E; cbn in *; congruence|exact HQ].
      intros [x h'] [[H1 H2] E]. exact H2.
Qed.

Section N.
Context {F K C R : Type} {SO : SOps F K C R} {p : Z} {SL : SLaws F K C R p}.
Add Ring Rring106 : (@rlaws_th R _ _).
Notation log := (list (ev R K)).
(** Seeds of short challenges, and what they decode to. *)
Context {X : Type} (d0 : X) (eqX : forall a b : X, {a = b} + {a <> b}) (dec : X -> C).
Variables (P : dparams) (A : ajtai R) (cs : ccs R) (opn : list R -> witness C R) (opw opf : list R -> list R).
Notation ptab := (list (log * (K * list X))).
Notation m := (2 * dp_K P - 1)%nat.
Notation nW := ((c_n cs - c_l cs - 1) * dp_L P)%nat.

(** ** The table *)
Fixpoint plookup (tab : ptab) (l : log) : option (K * list X) :=
  match tab with [] => None | (q, a) :: tab => if log_eqb q l then Some a else plookup tab l end.
Definition ktab (tab : ptab) : list (log * K) := map (fun e => (fst e, fst (snd e))) tab.
Lemma lookup_ktab tab l : lookup (ktab tab) l = match plookup tab l with Some a => Some (fst a) | None => None end.
Proof. induction tab as [|[q a] tab IH]; [reflexivity|]. cbn [ktab map lookup plookup fst snd]. fold (ktab tab). destruct (log_eqb q l); auto. Qed.
Definition p_table (qry : list (K * list X) -> log) (x : list (K * list X)) : ptab :=
  map (fun i => (qry (firstn i x), nth i x (0, []))) (seq 0 (length x)).
Lemma plookup_in tab l c : plookup tab l = Some c -> In (l, c) tab.
Proof.
  induction tab as [|[q a] tab IH]; cbn [plookup]; [discriminate|]. destruct (log_eqb q l) eqn:Eq; [apply log_eqb_true in Eq; subst q|].
  - intros H. injection H as ->. left. auto.
  - right. auto.
Qed.
Lemma plookup_table qry x l c : plookup (p_table qry x) l = Some c -> exists i, (i < length x)%nat /\ qry (firstn i x) = l /\ nth i x (0, []) = c.
Proof. intros H. apply plookup_in, in_map_iff in H as (i & Ei & Hi). injection Ei as <- <-. apply in_seq in Hi. exists i. split; auto. lia. Qed.

(** The short challenges squeezed after the last absorption: the [i]-th one comes from the [i]-th seed in the answer to the history up to there. *)
Fixpoint lead (r : log) : nat * log := match r with EvS :: r => let '(n, b) := lead r in (Datatypes.S n, b) | _ => (0%nat, r) end.
Definition strip (l : log) : nat * log := let '(n, b) := lead (rev l) in (n, rev b).
Lemma strip_app (b : log) x n : strip ((b ++ [EvA x]) ++ repeat EvS n) = (n, b ++ [EvA x]).
Proof.
  unfold strip. rewrite rev_app_distr. assert (rev (repeat (EvS : ev R K) n) = repeat EvS n) as ->.
  { induction n as [|n IH]; [reflexivity|]. cbn [repeat rev]. rewrite IH. clear. induction n as [|n IH]; [reflexivity|]. cbn [repeat app]. f_equal. exact IH. }
  assert (lead (repeat EvS n ++ rev (b ++ [EvA x])) = (n, rev (b ++ [EvA x]))) as ->.
  { induction n as [|n IH]; cbn [repeat app lead]; [rewrite rev_app_distr; reflexivity|]. rewrite IH. reflexivity. }
  rewrite rev_involutive. reflexivity.
Qed.
Definition hs_of (tab : ptab) (l : log) : C := match plookup tab (snd (strip l)) with Some a => dec (nth (fst (strip l)) (snd a) d0) | None => 0 end.
(** The folding coefficients that the seeds [v] decode to; the last one is 1. *)
Definition rho_vec (v : list X) : list C := map dec v ++ [1].
Lemma small_map (hs : log -> C) n : forall t : ro R K, get_small_challenges (HO := ro_short hs) t n = (map (fun i => hs (ro_log t ++ repeat EvS i)) (seq 0 n), Ro (ro_log t ++ repeat EvS n) (ro_ok t)).
Proof.
  induction n as [|n IH]; intros t; cbn [get_small_challenges]; [cbn [seq map repeat]; rewrite app_nil_r; destruct t; reflexivity|].
  unfold get_short_challenge, ro_short. fold (ro_short hs). rewrite IH. cbn [ro_log ro_ok seq map]. f_equal.
  - f_equal; [cbn [repeat]; rewrite app_nil_r; reflexivity|]. rewrite <- seq_shift, map_map. apply map_ext. intros i. rewrite <- app_assoc. reflexivity.
  - rewrite <- app_assoc. reflexivity.
Qed.
Lemma rhos_vec tab (t : ro R K) b x k v : ro_log t = b ++ [EvA x] -> plookup tab (ro_log t) = Some (k, v) -> length v = m ->
  rhos (ro_short (hs_of tab)) P t = rho_vec v.
Proof.
  intros Hl Hp Hv. unfold rhos, rho_vec. rewrite small_map. cbn [fst]. f_equal. rewrite <- Hv.
  rewrite (map_ext_in _ (fun i => dec (nth i v d0))).
  - apply (list_ext (dec d0)); [rewrite !map_length, seq_length; reflexivity|]. intros i Hi. rewrite !map_length, seq_length in Hi.
    rewrite (nth_map_lt _ _ _ 0%nat), seq_nth by (rewrite ?seq_length; lia). rewrite (nth_map_lt _ _ _ d0) by lia. reflexivity.
  - intros i _. unfold hs_of. rewrite Hl, strip_app. cbn [fst snd]. rewrite <- Hl, Hp. reflexivity.
Qed.
Lemma rho_vec_unit (S0 : list X) i bs bs' : (forall a b, In a S0 -> In b S0 -> a <> b -> exists d, d * (dec a - dec b) = 1) ->
  (i < m)%nat -> In bs (tuples m S0) -> In bs' (tuples m S0) -> varies d0 m i bs bs' -> unit_at m i (rho_vec bs) (rho_vec bs').
Proof.
  intros HU Hi Hb Hb' (L1 & L2 & V). apply in_tuples in Hb as [_ Hb], Hb' as [_ Hb']. rewrite Forall_forall in Hb, Hb'.
  assert (forall l k, length l = m -> (k < m)%nat -> nth k (rho_vec l) 0 = dec (nth k l d0)) as Nv.
  { intros l k Hl Hk. unfold rho_vec. rewrite app_nth1 by (rewrite map_length; lia). rewrite (nth_map_lt _ _ _ d0) by lia. reflexivity. }
  split.
  - intros k Hk Hn. destruct (Nat.eq_dec k m) as [->|]; [|rewrite !Nv by (auto; lia); f_equal; apply V; [lia|exact Hn]].
    unfold rho_vec. rewrite !app_nth2 by (rewrite map_length; lia). rewrite !map_length, L1, L2. reflexivity.
  - rewrite !Nv by auto. apply HU; [apply Hb', nth_In; lia|apply Hb, nth_In; lia|]. intros E. apply (proj1 (V i Hi) E). reflexivity.
Qed.

(** ** The history before the short challenges *)
Definition fin_ok (x : ctx) (fc : list K) (ms : list (list R)) (pt : list K) (theta eta : list (list R)) : Prop :=
  ctx_ok P A cs x /\ length fc = m_fold P cs /\ length ms = c_s cs /\ Forall (fun m => length m = (2 * dp_b P + 1)%nat) ms /\ length pt = c_s cs /\
  length theta = (2 * dp_K P)%nat /\ Forall (fun v => length v = tau) theta /\ length eta = (2 * dp_K P)%nat /\ Forall (fun v => length v = c_t cs) eta.
Definition rho_enc acc cm_i (l0 : log) x fc ms pt theta eta : log :=
  enc4 P cs acc cm_i l0 (x, fc) ++ (sc_head (c_s cs) (2 * dp_b P) ++ rounds ms pt ++ map EvA (concat theta) ++ map EvA (concat eta)) ++ [tg "rho_s"].
Lemma concat_len {Y} (l : list (list Y)) w : Forall (fun v => length v = w) l -> length (concat l) = (length l * w)%nat.
Proof. induction 1 as [|a l Ha _ IH]; [reflexivity|]. cbn [concat length]. rewrite app_length, IH, Ha. lia. Qed.
Lemma concat_inj {Y} w (l : list (list Y)) : forall l', length l = length l' -> Forall (fun v => length v = w) l -> Forall (fun v => length v = w) l' -> concat l = concat l' -> l = l'.
Proof.
  induction l as [|a l IH]; intros [|a' l'] HL H H' E; try discriminate; auto. inversion H; inversion H'; subst. cbn [concat] in E.
  apply app_split_len in E as [-> E]; [|congruence]. f_equal. auto.
Qed.
Lemma rho_enc_inj acc cm_i l0 x fc ms pt theta eta acc' cm_i' l0' x' fc' ms' pt' theta' eta' :
  st_ok A cs acc cm_i -> fin_ok x fc ms pt theta eta -> st_ok A cs acc' cm_i' -> fin_ok x' fc' ms' pt' theta' eta' ->
  rho_enc acc cm_i l0 x fc ms pt theta eta = rho_enc acc' cm_i' l0' x' fc' ms' pt' theta' eta' ->
  acc = acc' /\ x = x' /\ pt = pt' /\ theta = theta' /\ eta = eta'.
Proof.
  intros Hst (H1 & H2 & H3 & H4 & H5 & H6 & H7 & H8 & H9) Hst' (G1 & G2 & G3 & G4 & G5 & G6 & G7 & G8 & G9) E.
  assert (length (enc1 acc cm_i l0) = length l0 + publen A cs + 1)%nat as L1 by (unfold enc1; rewrite !app_length, (publog_length A cs) by exact Hst; cbn [length]; lia).
  assert (length (enc1 acc' cm_i' l0') = length l0' + publen A cs + 1)%nat as L1' by (unfold enc1; rewrite !app_length, (publog_length A cs) by exact Hst'; cbn [length]; lia).
  assert (length l0 = length l0') as L0.
  { pose proof (f_equal (@length _) E) as L. unfold rho_enc in L. rewrite !app_length, !map_length in L.
    rewrite (concat_len theta tau), (concat_len theta' tau), (concat_len eta (c_t cs)), (concat_len eta' (c_t cs)) in L by auto. rewrite !(rounds_length (2 * dp_b P + 1)) in L by (auto; congruence).
    rewrite !(enc4_length P A cs) in L by auto. unfold len3 in L. rewrite L1, L1', H5, G5, H6, G6, H8, G8 in L. lia. }
  unfold rho_enc in E. apply app_split_len in E as [E4 E].
  2: { rewrite !(enc4_length P A cs) by auto. unfold len3. rewrite L1, L1', L0. reflexivity. }
  apply app_inv_tail in E. apply app_inv_head in E.
  apply app_split_len in E as [E5 E]; [|rewrite !(rounds_length (2 * dp_b P + 1)) by (auto; congruence); congruence].
  apply (rounds_inj0 (2 * dp_b P + 1)) in E5 as [_ E5]; auto; try congruence.
  apply app_split_len in E as [E6 E7]; [|rewrite !map_length, (concat_len theta tau), (concat_len theta' tau) by auto; congruence].
  apply mapA_inj, (concat_inj tau) in E6; auto; [|congruence]. apply mapA_inj, (concat_inj (c_t cs)) in E7; auto; [|congruence].
  unfold enc4 in E4. cbn [fst snd] in E4. apply app_split_len in E4 as [E3 _].
  2: { rewrite !(enc3_length P A cs) by auto. unfold len3. rewrite L1, L1', L0. reflexivity. }
  assert (l0 = l0' /\ acc = acc' /\ cm_i = cm_i') as (-> & -> & ->).
  { pose proof E3 as Q. unfold enc3, enc2, enc1 in Q. rewrite <- !app_assoc in Q. apply app_split_len in Q as [Q1 Q]; [|exact L0].
    apply app_split_len in Q as [Q2 _]; [|rewrite !(publog_length A cs) by auto; reflexivity]. destruct (publog_inj A cs _ _ _ _ Hst Hst' Q2) as [Q3 Q4]. auto. }
  apply (enc3_inj P A cs) in E3; auto.
Qed.
(** A bad vector of seeds for the question [l]. *)
Definition bad_seeds (l : log) (v : list X) : Prop :=
  exists acc cm_i l0 x fc ms pt theta eta, st_ok A cs acc cm_i /\ fin_ok x fc ms pt theta eta /\ l = rho_enc acc cm_i l0 x fc ms pt theta eta /\
    delta_bad cs (x_cms acc x) (x_ws acc opn x) theta eta (map emb pt) m (rho_vec v).
Lemma few_bad_seeds (S0 : list X) l : (1 <= dp_K P)%nat -> length (c_M cs) = c_t cs ->
  (forall a b, In a S0 -> In b S0 -> a <> b -> exists d, d * (dec a - dec b) = 1) ->
  few (fun v => In v (tuples m S0) /\ bad_seeds l v) (length S0 ^ (m - 1)).
Proof.
  intros HK HM HU. apply few_if. intros v0 [Hv0 (acc & cm_i & l0 & x & fc & ms & pt & theta & eta & Hst & Hf & El & _)].
  pose proof Hf as (_ & _ & _ & _ & _ & F1 & F2 & F3 & F4).
  eapply few_weaken; [|apply le_n|apply (delta_error d0 eqX S0 (fun v => map dec (firstn m (v ++ repeat d0 m)) ++ [1]) cs (x_cms acc x) (x_ws acc opn x) theta eta (map emb pt) m); auto; try lia].
  - intros v [Hv (acc' & cm_i' & l0' & x' & fc' & ms' & pt' & theta' & eta' & Hst' & Hf' & El' & Hd)]. split; [exact Hv|]. rewrite El in El'.
    destruct (rho_enc_inj _ _ _ _ _ _ _ _ _ _ _ _ _ _ _ _ _ _ Hst Hf Hst' Hf' El') as (<- & <- & <- & <- & <-).
    apply in_tuples in Hv as [Lv _]. rewrite <- Lv, firstn_app, Nat.sub_diag, firstn_all. cbn [firstn]. rewrite app_nil_r. rewrite Lv. exact Hd.
  - intros bs. assert (length (map dec (firstn m (bs ++ repeat d0 m))) = m) as L by (rewrite map_length, firstn_length, app_length, repeat_length; lia).
    rewrite app_nth2 by lia. rewrite L, Nat.sub_diag. reflexivity.
  - intros i bs bs' Hi Hb Hb' V. pose proof Hb as Lb. pose proof Hb' as Lb'. apply in_tuples in Lb as [Lb _], Lb' as [Lb' _].
    assert (forall l, length l = m -> firstn m (l ++ repeat d0 m) = l) as E. { intros l' Hl. rewrite <- Hl at 1. rewrite firstn_app, Nat.sub_diag, firstn_all. cbn [firstn]. apply app_nil_r. }
    rewrite !E by auto. apply (rho_vec_unit S0); auto.
Qed.

(** ** Steps *)
(** One step from the history [l]: accepted, everything asked is in the table (the seeds [v] are the answer to the question of the short
    challenges), and all openings of one commitment agree: [opn] opens the commitments sent, [opw] and [opf] are the openings of the incoming commitments. *)
Definition step_seeds (tab : ptab) (l : log) (acc : lcccs R) (cm_i : cccs R) (pf : lf_proof R) (lc : lcccs R) (t' : ro R K) : Prop :=
  let TO := ro_trans (ktab tab) in
  let HO := ro_short (hs_of tab) in
  nifs_verify P acc cm_i pf (Ro l true) cs = Ok (lc, t') /\ ro_ok t' = true /\ st_ok A cs acc cm_i /\ fold_shape P cs (lf_fold pf) /\
  dec_shape P cs (lf_dec_l pf) /\ dec_shape P cs (lf_dec_r pf) /\
  exists lin t1 k v, lin_verify cm_i (lf_lin pf) (absorb_public_input acc cm_i (Ro l true)) cs = Ok (lin, t1) /\
    plookup tab (snd (strip (ro_log t'))) = Some (k, v) /\
    let lcs_l := dec_parts (lc_r acc) (lf_dec_l pf) in
    let lcs_r := dec_parts (lc_r lin) (lf_dec_r pf) in
    let ws_l := map (fun c => opn (lc_cm c)) lcs_l in
    let ws_r := map (fun c => opn (lc_cm c)) lcs_r in
    Forall (fun c => opens P A cs (lc_cm c) (opn (lc_cm c))) (lcs_l ++ lcs_r) /\
    w_ccs (wsum P nW ws_r) = opw (i_cm cm_i) /\ w_f (wsum P nW ws_l) = opf (lc_cm acc) /\ w_f (comb_wit P nW (rho_vec v) (ws_l ++ ws_r)) = opf (lc_cm lc).

(** The run of a step up to the short challenges. *)
Lemma step_run tab (hs : log -> C) l0 acc cm_i pf lc t' lin t1 : sizes_ok p P cs -> st_ok A cs acc cm_i ->
  nifs_verify (TO := ro_trans tab) (HO := ro_short hs) P acc cm_i pf (Ro l0 true) cs = Ok (lc, t') -> ro_ok t' = true ->
  lin_verify (TO := ro_trans tab) cm_i (lf_lin pf) (absorb_public_input (TO := ro_trans tab) acc cm_i (Ro l0 true)) cs = Ok (lin, t1) ->
  dec_ok P A cs (lf_dec_l pf) -> dec_ok P A cs (lf_dec_r pf) -> fold_shape P cs (lf_fold pf) ->
  let cms := dec_parts (lc_r acc) (lf_dec_l pf) ++ dec_parts (lc_r lin) (lf_dec_r pf) in
  exists x fc ms pt t3 tr, fin_ok x fc ms pt (fp_theta (lf_fold pf)) (fp_eta (lf_fold pf)) /\ x_cms acc x = cms /\
    fold_verify (TO := ro_trans tab) (HO := ro_short hs) P cms (lf_fold pf) t3 cs = Ok (lc, t') /\
    rho_state (TO := ro_trans tab) P cms (lf_fold pf) t3 cs = Ok tr /\
    (let '(alpha, _, zeta, _, ts1) := squeeze_abzm (TO := ro_trans tab) P t3 (c_s cs) in
     exists s ts2, sc_verify (TO := ro_trans tab) ts1 (c_s cs) (2 * dp_b P) (claim_sum alpha zeta cms) (fp_sc (lf_fold pf)) = Ok (pt, s, ts2)) /\
    ro_log tr = rho_enc acc cm_i l0 x fc ms pt (fp_theta (lf_fold pf)) (fp_eta (lf_fold pf)) /\ ro_log t' = ro_log tr ++ repeat EvS m.
Proof.
  intros Hsz Hst HV Hok HL Dl Dr (F1 & F2 & F3 & F4) cms. pose proof (so_K _ _ _ Hsz) as HK. destruct (so_sized _ _ _ Hsz) as (_ & Hs1 & _).
  pose proof HV as HV'. unfold nifs_verify in HV'. apply bind_ok_inv in HV' as (u0 & _ & HV').
  rewrite HL in HV'. cbn [bind] in HV'. apply bind_ok_inv in HV' as ([l1 t2] & HDl & HV'). apply bind_ok_inv in HV' as ([l2 t3] & HDr & HV').
  destruct (dec_verify_parts _ _ _ _ _ _ HDl) as [Ha1 EL1]. destruct (dec_verify_parts _ _ _ _ _ _ HDr) as [Ha2 EL2].
  apply ro_dec_absorb in Ha1. apply ro_dec_absorb in Ha2. fold (dlog (K := K) (lf_dec_l pf)) in Ha1. fold (dlog (K := K) (lf_dec_r pf)) in Ha2.
  subst l1 l2. fold cms in HV'.
  destruct (dec_verify_lens P cs _ _ _ _ _ HK (proj1 Dr) HDr) as [Lv Lu].
  destruct (lin_verify_inv _ _ _ _ _ _ (so_wf _ _ _ Hsz) HL) as (rs & e0 & tsx & Hsc & Hrs & El & _ & Ets1).
  pose proof HV' as HF. unfold fold_verify in HF. apply bind_ok_inv in HF as (u1 & _ & HF).
  destruct (squeeze_abzm P t3 (c_s cs)) as [[[[al be] ze] mu] t4] eqn:Esq.
  apply bind_ok_inv in HF as ([[pt sv] t5] & Hscf & HF). apply bind_ok_inv in HF as (u2 & _ & HF).
  destruct (get_rhos P _) as [[rho_c rho] t6] eqn:Erh. apply bind_ok_inv in HF as ([[[v0 cm0] u3] x0] & _ & HF).
  apply bind_ok_inv in HF as (lc' & Hout & HF). apply ok_inj in HF. injection HF as -> ->.
  set (tr := absorb_tag (TO := ro_trans tab) (absorb_slices (TO := ro_trans tab) (absorb_slices (TO := ro_trans tab) t5 (fp_theta (lf_fold pf))) (fp_eta (lf_fold pf))) "rho_s").
  unfold get_rhos in Erh. fold tr in Erh. rewrite small_map in Erh. pose proof (f_equal snd Erh) as Et'. cbn [snd] in Et'. clear Erh.
  assert (forall (l : list (list R)) (t : ro R K), absorb_slices (TO := ro_trans tab) t l = Ro (ro_log t ++ map EvA (concat l)) (ro_ok t)) as SL0.
  { unfold absorb_slices. induction l as [|a l IH]; intros t; cbn [fold_left concat map]; [rewrite app_nil_r; destruct t; reflexivity|].
    rewrite IH, ro_absorb_slice. cbn [ro_log ro_ok]. rewrite map_app, <- app_assoc. reflexivity. }
  assert (tr = Ro (((ro_log t5 ++ map EvA (concat (fp_theta (lf_fold pf)))) ++ map EvA (concat (fp_eta (lf_fold pf)))) ++ [tg "rho_s"]) (ro_ok t5)) as Etr.
  { unfold tr. rewrite ro_tag, !SL0. cbn [ro_log ro_ok]. reflexivity. }
  assert (ro_ok t5 = true) as Hok5. { rewrite <- Et' in Hok. rewrite Etr in Hok. cbn [ro_ok] in Hok. exact Hok. }
  destruct (ro_sc_verify _ _ _ _ _ _ _ _ _ Hscf Hok5) as (Hok4 & Lpt & Lmf & Fmf & Gf & _).
  pose proof Esq as Esq'. rewrite squeeze_tape in Esq' by auto. destruct (fold_chal P t3 (c_s cs)) as [fc t4'] eqn:Efc. cbn [fst snd] in Esq'.
  destruct (tape_abzm P (c_s cs) fc) as [[[al' be'] ze'] mu'] eqn:Etp. injection Esq' as -> -> -> -> ->.
  destruct (ro_fold_chal _ _ _ _ _ _ HK Hs1 Efc Hok4) as (Hok3 & Lfc & Gfc & _).
  assert (ro_ok t1 = true) as Hok1 by (rewrite Ha2, Ha1 in Hok3; exact Hok3).
  rewrite ro_public, ro_tag in Hsc. cbn [ro_log ro_ok] in Hsc.
  destruct (get_challenges (Ro ((l0 ++ publog acc cm_i) ++ [tg "beta_s"]) true) (c_s cs)) as [betas tb] eqn:Ebt. cbn [snd] in Hsc.
  assert (ro_ok tsx = true) as Hokx by (rewrite Ets1, !ro_absorb_slice in Hok1; exact Hok1).
  destruct (ro_sc_verify _ _ _ _ _ _ _ _ _ Hsc Hokx) as (Hokb & _ & Lms & Fms & Gx & _).
  destruct (ro_challenges _ _ _ _ _ Ebt Hokb) as (_ & Lb & Gb & _). cbn [ro_log] in Gb.
  set (Y := Ctx betas (firstn (c_s cs) (lp_sc (lf_lin pf))) rs (lp_v (lf_lin pf)) (lp_u (lf_lin pf)) (lf_dec_l pf) (lf_dec_r pf)).
  assert (lc_r lin = map emb rs /\ lc_v lin = lp_v (lf_lin pf) /\ lc_u lin = lp_u (lf_lin pf)) as (El1 & El2 & El3) by (rewrite El; auto).
  assert (ctx_ok P A cs Y) as HX.
  { unfold ctx_ok, Y. cbn [x_betas x_ms x_rs x_v x_u x_l x_r]. rewrite <- El2, <- El3. exact (conj Lb (conj Lms (conj Hrs (conj Fms (conj Lv (conj Lu (conj Dl Dr))))))). }
  assert (ro_log t3 = enc3 cs acc cm_i l0 Y) as G3.
  { rewrite Ha2, Ha1, Ets1, !ro_absorb_slice. cbn [ro_log]. rewrite Gx, Gb. unfold enc3, Y, enc2, enc1. cbn [x_betas x_ms x_rs x_v x_u x_l x_r].
    rewrite <- !app_assoc. reflexivity. }
  exists Y, fc, (firstn (c_s cs) (fp_sc (lf_fold pf))), pt, t3, tr.
  split; [exact (conj HX (conj Lfc (conj Lmf (conj Fmf (conj Lpt (conj F1 (conj F2 (conj F3 F4))))))))|].
  split; [unfold x_cms, Y, cms; cbn [x_rs x_l x_r]; rewrite El1; reflexivity|].
  split; [exact HV'|]. split; [unfold rho_state; rewrite Esq, Hscf; reflexivity|]. rewrite Esq. split; [eauto|].
  split; [|rewrite <- Et'; reflexivity].
  rewrite Etr. cbn [ro_log]. rewrite Gf, Gfc, G3. unfold rho_enc, enc4. cbn [fst snd]. rewrite <- !app_assoc. reflexivity.
Qed.

(** A bad answer in the table. *)
Definition tab_bad (S : list K) W len0 (tab : ptab) : Prop := exists l k v, plookup tab l = Some (k, v) /\
  ((exists l0 acc cm_i, (exists j, length l0 = len0 + j * W)%nat /\ st_ok A cs acc cm_i /\ bad_for P A cs opn opw S acc cm_i l0 l k) \/ bad_seeds l v).
Lemma nn_em (Q : Prop) : ~ ~ (Q \/ ~ Q).
Proof. tauto. Qed.

(** If the output of a step holds then so do both inputs, or there is a bad answer. *)
Lemma step_true S W len0 tab l acc cm_i pf lc t' w :
  sizes_ok p P cs -> degree_ok cs -> char_gt K (c_d cs + 1) -> char_gt K (2 * dp_b P) -> (2 * Z.of_nat (dp_b P) <= p + 1)%Z ->
  NoDup S -> (Nat.max tau (c_t cs) < length S)%nat -> (forall q k v, plookup tab q = Some (k, v) -> length v = m) -> (exists j, length l = len0 + j * W)%nat ->
  step_seeds tab l acc cm_i pf lc t' -> lcccs_rel P A cs lc w -> w_f w = opf (lc_cm lc) -> ~ tab_bad S W len0 tab -> ~ ~ step_holds P A cs opn acc cm_i pf.
Proof.
  intros Hsz Hd Hcd Hcb Hbp HS Hq Hm Hl (HV & Hok & Hst & Sf & Sl & Sr & lin & t1 & k & v & HL & Hp & Ho & Hw0 & _ & Hcf) HR Hw NB NH.
  pose proof (so_K _ _ _ Hsz) as HK. pose proof (so_cov _ _ _ Hsz) as (_ & HLp & _). pose proof Ho as Ho'. apply Forall_app in Ho' as [Ho1 Ho2].
  pose proof (dec_ok_of P A cs opn _ _ Sl Ho1) as Dl. pose proof (dec_ok_of P A cs opn _ _ Sr Ho2) as Dr.
  destruct (step_run (ktab tab) (hs_of tab) l acc cm_i pf lc t' lin t1 Hsz Hst HV Hok HL Dl Dr Sf) as (x & fc & ms & pt & t3 & tr & Hfin & Xc & HF & ET & ES & Elog & Elog').
  set (lcs_l := dec_parts (lc_r acc) (lf_dec_l pf)) in *. set (lcs_r := dec_parts (lc_r lin) (lf_dec_r pf)) in *.
  set (cms := lcs_l ++ lcs_r) in *. set (ws := map (fun c => opn (lc_cm c)) lcs_l ++ map (fun c => opn (lc_cm c)) lcs_r) in *.
  assert (x_ws acc opn x = ws) as Xw by (unfold x_ws, ws; rewrite Xc; unfold cms; apply map_app).
  assert (exists b e, ro_log tr = b ++ [EvA e]) as (b & e & Eb) by (rewrite Elog; unfold rho_enc; rewrite app_assoc; unfold tg; eauto).
  rewrite Elog', Eb, strip_app in Hp. cbn [snd] in Hp. rewrite <- Eb in Hp.
  pose proof (rhos_vec tab tr b e k v Eb Hp (Hm _ _ _ Hp)) as Erv.
  assert (Forall2 (fun c w => opens P A cs (lc_cm c) w) cms ws) as Hop.
  { unfold ws. rewrite <- map_app. fold cms. clear - Ho. induction Ho; cbn [map]; auto. }
  assert (length cms = (2 * dp_K P)%nat /\ Forall (fun c => length (lc_x c) = c_l cs) cms) as [Lc Scx].
  { pose proof HV as HV'. unfold nifs_verify in HV'. apply bind_ok_inv in HV' as (u0 & _ & HV').
    rewrite HL in HV'. cbn [bind] in HV'. apply bind_ok_inv in HV' as ([l1 t2] & HDl & HV'). apply bind_ok_inv in HV' as ([l2 t4] & HDr & HV').
    destruct (dec_verify_parts _ _ _ _ _ _ HDl) as [_ EL1]. destruct (dec_verify_parts _ _ _ _ _ _ HDr) as [_ EL2].
    destruct (dec_verify_shape P cs _ _ _ _ _ Sl HDl) as [Ll Gl]. destruct (dec_verify_shape P cs _ _ _ _ _ Sr HDr) as [Lr Gr].
    subst l1 l2. fold lcs_l in Ll, Gl. fold lcs_r in Lr, Gr. unfold cms. split; [rewrite app_length; lia|]. apply Forall_app; split; [eapply Forall_impl; [|exact Gl]|eapply Forall_impl; [|exact Gr]]; cbv beta; intros; tauto. }
  pose proof (comb_opens (TO := ro_trans (ktab tab)) (ro_short (hs_of tab)) P A cs cms ws (lf_fold pf) t3 tr lc t' HK HLp Lc Scx Sf ET Hop HF) as O. rewrite Erv in O.
  assert (lcccs_rel P A cs lc (comb_wit P nW (rho_vec v) ws)) as HR'.
  { rewrite <- (opens_wit_eq _ _ _ _ _ _ (lr_open _ _ _ _ _ HR) O); [exact HR|]. rewrite Hw. symmetry. exact Hcf. }
  apply (nn_em (evals_right cs cms ws (lf_fold pf) (lc_r lc))). intros [[Th Et]|HN]; apply NB.
  - destruct (fooled_bad P A cs acc cm_i opn (opw (i_cm cm_i)) l (hs_of tab) S (ktab tab) pf Hsz Hd Hcd Hcb Hbp HS Hq (proj1 Hst)) as (l1 & c & H1 & H2).
    { exists lc, t', lin, t1. split; [exact HV|]. split; [exact Hok|]. split; [exact HL|]. cbv zeta. fold lcs_l lcs_r. fold cms ws.
      split; [exact Sl|]. split; [exact Sr|]. split; [exact Ho|]. split; [exact Th|]. split; [exact Et|]. split; [exact Hw0|].
      intros (Q1 & Q2 & Q3). apply NH. unfold step_holds. cbv zeta. unfold ws, lcs_l, lcs_r in *. rewrite !(parts_ws P cs) in * by assumption. auto. }
    rewrite lookup_ktab in H1. destruct (plookup tab l1) as [[k1 v1]|] eqn:E1; [|discriminate]. injection H1 as <-. cbn [fst] in H2.
    exists l1, k1, v1. split; [exact E1|]. left. exists l, acc, cm_i. auto.
  - exists (ro_log tr), k, v. split; [exact Hp|]. right. rewrite Elog.
    exists acc, cm_i, l, x, fc, ms, pt, (fp_theta (lf_fold pf)), (fp_eta (lf_fold pf)). split; [exact Hst|]. split; [exact Hfin|]. split; [reflexivity|].
    rewrite Xc, Xw, <- Erv. apply (fooled_delta (TO := ro_trans (ktab tab)) (ro_short (hs_of tab)) P A cs cms ws (lf_fold pf) t3 tr lc t' pt Hsz Lc Scx Sf ET Hop HF ES); [rewrite Erv; exact HR'|exact HN].
Qed.

(** ** Chains *)
(** A chain of accepted steps whose last output holds for the witness [w]. *)
Fixpoint seeds_chain (cont : bool) (tab : ptab) (l0 l : log) (acc : lcccs R) (steps : list (cccs R * lf_proof R)) (w : witness C R) : Prop :=
  match steps with
  | [] => lcccs_rel P A cs acc w /\ w_f w = opf (lc_cm acc)
  | (cm_i, pf) :: rest => exists lc t', step_seeds tab l acc cm_i pf lc t' /\ seeds_chain cont tab l0 (if cont then ro_log t' else l0) lc rest w
  end.
(** The answers [x] admit a chain, of any length and from any accumulator, whose last output holds although some step has an input that does not. *)
Definition fools_last (cont : bool) (qry : list (K * list X) -> log) (l0 : log) (x : list (K * list X)) : Prop :=
  exists acc steps w, let tab := p_table qry x in
    seeds_chain cont tab l0 l0 acc steps w /\ chain_lies P A cs opn (hs_of tab) (ktab tab) cont l0 l0 acc steps.

Lemma chain_seeds S cont tab l0 :
  sizes_ok p P cs -> degree_ok cs -> char_gt K (c_d cs + 1) -> char_gt K (2 * dp_b P) -> (2 * Z.of_nat (dp_b P) <= p + 1)%Z ->
  NoDup S -> (Nat.max tau (c_t cs) < length S)%nat -> (forall q k v, plookup tab q = Some (k, v) -> length v = m) ->
  ~ tab_bad S (len_step P A cs) (length l0) tab ->
  forall steps l acc w, (exists j, length l = length l0 + j * len_step P A cs)%nat -> seeds_chain cont tab l0 l acc steps w ->
    ~ chain_lies P A cs opn (hs_of tab) (ktab tab) cont l0 l acc steps /\ ~ ~ exists w', lcccs_rel P A cs acc w' /\ w_f w' = opf (lc_cm acc).
Proof.
  intros Hsz Hd Hcd Hcb Hbp HS Hq Hm NB. induction steps as [|[cm_i pf] rest IH]; intros l acc w Hl Hc; cbn [seeds_chain chain_lies] in *; [split; [auto|eauto]|].
  destruct Hc as (lc & t' & Hs & Hc).
  assert (exists j, length (if cont then ro_log t' else l0) = length l0 + j * len_step P A cs)%nat as Hl'.
  { destruct cont; [|exists 0%nat; lia]. destruct Hl as [j Hl].
    destruct Hs as (HV & Hok & Hst & Sf & Sl & Sr & lin & t1 & k & v & HL & Hp & Ho & _). apply Forall_app in Ho as [Ho1 Ho2].
    rewrite (step_log_length P A cs (ktab tab) (hs_of tab) l acc cm_i pf lc t' Hsz Hst HV Hok (dec_ok_of P A cs opn _ _ Sl Ho1) (dec_ok_of P A cs opn _ _ Sr Ho2) Sf).
    exists (Datatypes.S j). rewrite Hl. lia. }
  destruct (IH _ lc w Hl' Hc) as [NL HW].
  assert (~ ~ step_holds P A cs opn acc cm_i pf) as HH.
  { intros NH. apply HW. intros (w' & Hr & Hw'). exact (step_true S _ _ tab l acc cm_i pf lc t' w' Hsz Hd Hcd Hcb Hbp HS Hq Hm Hl Hs Hr Hw' NB NH). }
  split.
  - intros [NH|(lc' & t'' & HV' & Hlies)]; [exact (HH NH)|]. destruct Hs as (HV & _). rewrite HV in HV'. apply ok_inj in HV'. injection HV' as <- <-. exact (NL Hlies).
  - intros NW. apply HH. intros Hh. apply NW. destruct Hs as (_ & _ & _ & _ & Sl & _ & lin & t1 & k & v & _ & _ & _ & _ & Hwf & _).
    destruct Hh as (Hh & _). rewrite (parts_ws P cs) in Hwf by exact Sl. eauto.
Qed.

(** ** C119 *)
Theorem chain_last cont (S : list K) (S0 : list X) Q (qry : list (K * list X) -> log) l0 :
  sizes_ok p P cs -> degree_ok cs -> char_gt K (c_d cs + 1) -> char_gt K (2 * dp_b P) -> (2 * Z.of_nat (dp_b P) <= p + 1)%Z ->
  NoDup S -> (Nat.max tau (c_t cs) < length S)%nat ->
  (forall a b, In a S0 -> In b S0 -> a <> b -> exists d, d * (dec a - dec b) = 1) ->
  few (fun x => In x (tuples Q (list_prod S (tuples m S0))) /\ fools_last cont qry l0 x)
    (Q * (Nat.max (c_d cs + 1) (Nat.max (Nat.max tau (c_t cs)) (2 * dp_b P)) * length S0 ^ m + length S * length S0 ^ (m - 1)) * (length S * length S0 ^ m) ^ (Q - 1)).
Proof.
  intros Hsz Hd Hcd Hcb Hbp HS Hq HU. pose proof (so_K _ _ _ Hsz) as HK. destruct (so_sized _ _ _ Hsz) as (_ & Hs1 & _).
  assert (forall a b : K * list X, {a = b} + {a <> b}) as eqA by (intros [a1 a2] [b1 b2]; destruct (req_dec a1 b1) as [->|N1]; [|right; congruence]; destruct (list_eq_dec eqX a2 b2) as [->|N2]; [left; reflexivity|right; congruence]).
  set (N1 := Nat.max (c_d cs + 1) _).
  set (Bad := fun (pre : list (K * list X)) (a : K * list X) =>
    (exists l0' acc cm_i, (exists j, length l0' = length l0 + j * len_step P A cs)%nat /\ st_ok A cs acc cm_i /\ bad_for P A cs opn opw S acc cm_i l0' (qry pre) (fst a)) \/ bad_seeds (qry pre) (snd a)).
  replace (length S * length S0 ^ m)%nat with (length (list_prod S (tuples m S0))) by (rewrite prod_length, tuples_length; reflexivity).
  apply (few_nn _ (fun x => In x (tuples Q (list_prod S (tuples m S0))) /\ exists i, (i < Q)%nat /\
    Bad (firstn i x) (nth i x (0, [])))).
  - intros x [Hx (acc & steps & w & Hc & Hl)] NB.
    assert (forall q k v, plookup (p_table qry x) q = Some (k, v) -> length v = m) as Hm.
    { intros q k v Hp. apply plookup_table in Hp as (i & Hi & _ & E). apply in_tuples in Hx as [_ HF]. rewrite Forall_forall in HF.
      assert (In (k, v) (list_prod S (tuples m S0))) as Hin by (rewrite <- E; apply HF, nth_In, Hi). apply in_prod_iff in Hin as [_ Hin]. apply in_tuples in Hin. apply Hin. }
    assert (~ tab_bad S (len_step P A cs) (length l0) (p_table qry x)) as NT.
    { intros (l & k & v & Hp & Hb). apply NB. split; [exact Hx|]. apply plookup_table in Hp as (i & Hi & E1 & E2). apply in_tuples in Hx as [Lx _].
      exists i. split; [lia|]. unfold Bad. rewrite E1, E2. exact Hb. }
    assert (exists j, length l0 = length l0 + j * len_step P A cs)%nat as H0 by (exists 0%nat; lia).
    apply (proj1 (chain_seeds S cont (p_table qry x) l0 Hsz Hd Hcd Hcb Hbp HS Hq Hm NT steps l0 acc w H0 Hc)). exact Hl.
  - apply (few_anyX (0, []) eqA _ _ Bad). intros pre.
    assert (length S0 ^ m = length (tuples m S0))%nat as -> by (rewrite tuples_length; reflexivity).
    apply (few_pair req_dec (list_eq_dec eqX) S (tuples m S0)
      (fun k => exists l0' acc cm_i, (exists j, length l0' = length l0 + j * len_step P A cs)%nat /\ st_ok A cs acc cm_i /\ bad_for P A cs opn opw S acc cm_i l0' (qry pre) k) (bad_seeds (qry pre))).
    + apply few_bad_any; auto. unfold len_step. lia.
    + apply few_bad_seeds; auto. apply (so_wf _ _ _ Hsz).
Qed.
End N.
