(** The folding step in the random oracle model: the log of a run, and the number of answer vectors on
    which a cheating prover passes. *)
From Coq Require Import String List Arith Lia ZArith Bool Ring.
From Verif Require Import Prelude Alg Poly MLE MLE_Proofs Zippel Counting Transcript Interp Sumcheck Sumcheck_Proofs CombDeg
  Arith Arith_Proofs Balanced Rings Rings_Proofs Linearization Linearization_Proofs Relations LinRel
  Decomposition Decomposition_Proofs Folding Folding_Comb Folding_Proofs Folding_Complete Folding_Sound NIFS NIFS_Proofs
  SoundErr RandomOracle.
Import ListNotations.
Local Open Scope rs_scope.

Section N.
Context {F K C R : Type} {SO : SOps F K C R} {p : Z} {SL : SLaws F K C R p}.
Add Ring Rring84 : (@rlaws_th R _ _).
Notation log := (list (ev R K)).

(** Short challenges are an arbitrary function of the history. *)
Definition ro_short (hs : log -> C) : ShortOps (ro R K) C := fun t => (hs (ro_log t), Ro (ro_log t ++ [EvS]) (ro_ok t)).

Definition tg (s : string) : ev R K := EvA (emb (rofZ (be_val 0 s) : K)).
(** The tags absorbed before challenge number [i] of the folding step. *)
Definition tag_at (P : dparams) (i : nat) : log :=
  if (i =? 0)%nat then [tg "alpha_s"] else if (i =? 2 * dp_K P)%nat then [tg "zeta_s"]
  else if (i =? 4 * dp_K P)%nat then [tg "mu_s"] else if (i =? 6 * dp_K P - 1)%nat then [tg "beta_s"] else [].
Fixpoint chlog (P : dparams) (i : nat) (c : list K) : log :=
  tag_at P i ++ match c with [] => [] | x :: c => EvC x :: chlog P (S i) c end.
(** The absorptions of one decomposition proof, and of the public input. *)
Definition dlog (pf : dec_proof R) : log :=
  map EvA (concat (map (fun '(x, y, u, v) => x ++ y ++ u ++ v) (zip4 (dp_xs pf) (dp_ys pf) (dp_us pf) (dp_vs pf)))).
Definition publog (acc : lcccs R) (cm_i : cccs R) : log :=
  [tg "acc"] ++ map EvA (lc_r acc) ++ map EvA (lc_v acc) ++ map EvA (lc_cm acc) ++ map EvA (lc_u acc) ++ map EvA (lc_x acc) ++ [EvA (lc_h acc)] ++
  [tg "cm_i"] ++ map EvA (i_cm cm_i) ++ map EvA (i_x cm_i).

Lemma chlog_inj P a : forall i b, chlog P i a = chlog P i b -> a = b.
Proof.
  induction a as [|x a IH]; intros i [|y b] H; cbn [chlog] in H; auto; apply app_inv_head in H; try discriminate.
  injection H as -> H. f_equal. eapply IH; eauto.
Qed.
Lemma chlog_in P c : forall i, (forall j, (1 <= j <= length c)%nat -> tag_at P (i + j) = []) -> chlog P i c = tag_at P i ++ map EvC c.
Proof.
  induction c as [|x c IH]; intros i H; cbn [chlog map]; auto. f_equal. f_equal. rewrite IH.
  - specialize (H 1%nat). rewrite Nat.add_1_r in H. rewrite H by (cbn; lia). auto.
  - intros j Hj. replace (S i + j)%nat with (i + S j)%nat by lia. apply H. cbn [length]. lia.
Qed.
Lemma chlog_app P c1 c2 : forall i, (1 <= length c1)%nat -> (forall j, (1 <= j < length c1)%nat -> tag_at P (i + j) = []) ->
  chlog P i (c1 ++ c2) = tag_at P i ++ map EvC c1 ++ chlog P (i + length c1) c2.
Proof.
  induction c1 as [|x c1 IH]; intros i Hl H; [cbn in Hl; lia|]. cbn [app chlog map length]. f_equal. f_equal.
  destruct c1 as [|y c1].
  - cbn [app map length]. rewrite Nat.add_1_r. auto.
  - rewrite IH; [|cbn; lia|].
    + specialize (H 1%nat). rewrite Nat.add_1_r in H. rewrite H by (cbn; lia). cbn [app length map]. rewrite !Nat.add_succ_r. cbn [Nat.add]. auto.
    + intros j Hj. replace (S i + j)%nat with (i + S j)%nat by lia. apply H. cbn [length] in *. lia.
Qed.
Lemma chlog_len P a : forall b i, (length a <= length b)%nat -> (length (chlog P i a) <= length (chlog P i b))%nat.
Proof.
  induction a as [|x a IH]; intros b i H; cbn [chlog].
  - destruct b; cbn [chlog]; rewrite !app_length; cbn [length]; lia.
  - destruct b as [|y b]; [cbn in H; lia|]. cbn [chlog]. rewrite !app_length. cbn [length] in *. specialize (IH b (S i)). lia.
Qed.
Lemma chlog_len_eq P a : forall b i, length a = length b -> length (chlog P i a) = length (chlog P i b).
Proof. intros b i H. apply Nat.le_antisymm; apply chlog_len; lia. Qed.
Lemma tag_at_none P i : i <> 0%nat -> i <> (2 * dp_K P)%nat -> i <> (4 * dp_K P)%nat -> i <> (6 * dp_K P - 1)%nat -> tag_at P i = [].
Proof. unfold tag_at. intros. repeat match goal with |- context [(?a =? ?b)%nat] => destruct (Nat.eqb_spec a b); [contradiction|] end. auto. Qed.

Section Tab.
Variable tab : list (log * K).
#[local] Hint Extern 0 (TransOps (ro _ _) _ _) => exact (ro_trans tab) : typeclass_instances.

Lemma ro_tag (t : ro R K) s : absorb_tag t s = Ro (ro_log t ++ [tg s]) (ro_ok t).
Proof. reflexivity. Qed.
Lemma ro_public acc cm_i (t : ro R K) : absorb_public_input acc cm_i t = Ro (ro_log t ++ publog acc cm_i) (ro_ok t).
Proof.
  unfold absorb_public_input. cbv zeta. rewrite ?ro_tag, ?ro_absorb_slice. cbn [absorb ro_trans ro_log ro_ok]. rewrite ?ro_tag, ?ro_absorb_slice.
  cbn [ro_log ro_ok]. unfold publog. rewrite <- !app_assoc. reflexivity.
Qed.
Lemma ro_dec_absorb r l : forall (t : ro R K) lcs t', dec_absorb r t l = Ok (lcs, t') ->
  t' = Ro (ro_log t ++ map EvA (concat (map (fun '(x, y, u, v) => x ++ y ++ u ++ v) l))) (ro_ok t).
Proof.
  induction l as [|[[[x y] u] v] l IH]; intros t lcs t' H; cbn [dec_absorb map concat] in *.
  - apply ok_inj in H. injection H as _ <-. rewrite app_nil_r. destruct t; auto.
  - apply bind_ok_inv in H as (h & _ & H). apply bind_ok_inv in H as ([lcs' t1] & H & H'). apply ok_inj in H'. injection H' as _ <-.
    apply IH in H. cbn [snd]. rewrite H, !ro_absorb_slice. cbn [ro_log ro_ok]. rewrite !map_app, <- !app_assoc. auto.
Qed.
Lemma ro_fold_chal P (t : ro R K) s c t' : (1 <= dp_K P)%nat -> (1 <= s)%nat -> fold_chal P t s = (c, t') -> ro_ok t' = true ->
  ro_ok t = true /\ length c = (6 * dp_K P - 1 + s)%nat /\ ro_log t' = ro_log t ++ chlog P 0 c /\
  forall i, (i < 6 * dp_K P - 1 + s)%nat -> lookup tab (ro_log t ++ chlog P 0 (firstn i c)) = Some (nth i c 0).
Proof.
  intros HK Hs H Hok. unfold fold_chal in H. rewrite ro_tag in H. destruct (get_challenges _ _) as [a t1] eqn:E1.
  rewrite ro_tag in H. destruct (get_challenges _ (2 * dp_K P)) as [z t2] eqn:E2 in H.
  rewrite ro_tag in H. destruct (get_challenges _ (2 * dp_K P - 1)) as [m t3] eqn:E3 in H.
  rewrite ro_tag in H. destruct (get_challenges _ s) as [b t4] eqn:E4 in H. injection H as <- <-.
  destruct (ro_challenges _ _ _ _ _ E4 Hok) as (K4 & L4 & G4 & Q4). cbn [ro_ok ro_log] in *.
  destruct (ro_challenges _ _ _ _ _ E3 K4) as (K3 & L3 & G3 & Q3). cbn [ro_ok ro_log] in *.
  destruct (ro_challenges _ _ _ _ _ E2 K3) as (K2 & L2 & G2 & Q2). cbn [ro_ok ro_log] in *.
  destruct (ro_challenges _ _ _ _ _ E1 K2) as (K1 & L1 & G1 & Q1). cbn [ro_ok ro_log] in *.
  set (k := dp_K P) in *.
  assert (tag_at P 0 = [tg "alpha_s"]) as T0 by reflexivity.
  assert (tag_at P (2 * k) = [tg "zeta_s"]) as T1.
  { unfold tag_at. fold k. destruct (Nat.eqb_spec (2 * k) 0); [lia|]. rewrite Nat.eqb_refl. auto. }
  assert (tag_at P (2 * k + 2 * k) = [tg "mu_s"]) as T2.
  { unfold tag_at. fold k. destruct (Nat.eqb_spec (2 * k + 2 * k) 0); [lia|]. destruct (Nat.eqb_spec (2 * k + 2 * k) (2 * k)); [lia|].
    destruct (Nat.eqb_spec (2 * k + 2 * k) (4 * k)); [auto|lia]. }
  assert (tag_at P (2 * k + 2 * k + (2 * k - 1)) = [tg "beta_s"]) as T3.
  { unfold tag_at. fold k. repeat match goal with |- context [(?a =? ?b)%nat] => destruct (Nat.eqb_spec a b); [try lia; auto|] end. lia. }
  assert (forall j, (j <> 0 /\ j <> 2 * k /\ j <> 4 * k /\ j <> 6 * k - 1)%nat -> tag_at P j = []) as Tn.
  { intros j (? & ? & ? & ?). apply tag_at_none; auto. }
  assert (forall c, chlog P 0 (a ++ c) = tg "alpha_s" :: map EvC a ++ chlog P (2 * k) c) as C0.
  { intros c. rewrite chlog_app by (try lia; intros j Hj; apply Tn; lia). rewrite T0, L1. auto. }
  assert (forall c, chlog P (2 * k) (z ++ c) = tg "zeta_s" :: map EvC z ++ chlog P (2 * k + 2 * k) c) as C1.
  { intros c. rewrite chlog_app by (try lia; intros j Hj; apply Tn; lia). rewrite T1, L2. auto. }
  assert (forall c, chlog P (2 * k + 2 * k) (m ++ c) = tg "mu_s" :: map EvC m ++ chlog P (2 * k + 2 * k + (2 * k - 1)) c) as C2.
  { intros c. rewrite chlog_app by (try lia; intros j Hj; apply Tn; lia). rewrite T2, L3. auto. }
  split; auto. split; [rewrite !app_length; lia|]. split.
  - rewrite G4, G3, G2, G1, C0, C1, C2. rewrite chlog_in by (intros j Hj; apply Tn; lia). rewrite T3. cbn [app]. rewrite <- !app_assoc. cbn [app].
    rewrite <- ?app_assoc. cbn [app]. rewrite <- ?app_assoc. cbn [app]. rewrite <- ?app_assoc. reflexivity.
  - intros i Hi.
    destruct (Nat.lt_ge_cases i (2 * k)) as [I1|I1].
    { specialize (Q1 i I1). rewrite firstn_app, (app_nth1 a) by lia. replace (i - length a)%nat with 0%nat by lia. cbn [firstn]. rewrite app_nil_r.
      rewrite chlog_in by (rewrite firstn_length; intros j Hj; apply Tn; lia). rewrite T0. rewrite <- app_assoc in Q1. exact Q1. }
    rewrite firstn_app, (app_nth2 a) by lia. rewrite (firstn_all2 a) by lia. rewrite L1. rewrite C0.
    destruct (Nat.lt_ge_cases (i - 2 * k) (2 * k)) as [I2|I2].
    { specialize (Q2 _ I2). rewrite G1 in Q2. rewrite firstn_app, (app_nth1 z) by lia. replace (i - 2 * k - length z)%nat with 0%nat by lia. cbn [firstn]. rewrite app_nil_r.
      rewrite chlog_in by (rewrite firstn_length; intros j Hj; apply Tn; lia). rewrite T1. rewrite <- !app_assoc in Q2. exact Q2. }
    rewrite firstn_app, (app_nth2 z) by lia. rewrite (firstn_all2 z) by lia. rewrite L2. rewrite C1.
    destruct (Nat.lt_ge_cases (i - 2 * k - 2 * k) (2 * k - 1)) as [I3|I3].
    { specialize (Q3 _ I3). rewrite G2, G1 in Q3. rewrite firstn_app, (app_nth1 m) by lia. replace (i - 2 * k - 2 * k - length m)%nat with 0%nat by lia. cbn [firstn]. rewrite app_nil_r.
      rewrite chlog_in by (rewrite firstn_length; intros j Hj; apply Tn; lia). rewrite T2. rewrite <- !app_assoc in Q3. cbn [app] in Q3. rewrite <- ?app_assoc in Q3. exact Q3. }
    rewrite firstn_app, (app_nth2 m) by lia. rewrite (firstn_all2 m) by lia. rewrite L3. rewrite C2.
    specialize (Q4 (i - 2 * k - 2 * k - (2 * k - 1))%nat ltac:(lia)). rewrite G3, G2, G1 in Q4.
    rewrite chlog_in by (rewrite firstn_length; intros j Hj; apply Tn; lia). rewrite T3.
    rewrite <- !app_assoc in Q4. cbn [app] in Q4. rewrite <- ?app_assoc in Q4. cbn [app] in Q4. rewrite <- ?app_assoc in Q4. exact Q4.
Qed.
Lemma squeeze_tape {T} {TT : TransOps T R K} P (ts : T) s : (1 <= dp_K P)%nat ->
  squeeze_abzm P ts s = (tape_abzm P s (fst (fold_chal P ts s)), snd (fold_chal P ts s)).
Proof.
  intros HK. destruct (squeeze_fold_chal P ts s) as (a & b & z & m & E1 & E2 & La & Lb & Lz & Lm). cbv zeta in E1. rewrite E1, E2. f_equal.
  unfold tape_abzm. cbv zeta. set (k := (2 * dp_K P)%nat) in *.
  assert (firstn k (a ++ z ++ m ++ b) = a) as ->. { rewrite firstn_app, La, Nat.sub_diag. cbn [firstn]. rewrite app_nil_r. apply firstn_all2. lia. }
  assert (skipn k (a ++ z ++ m ++ b) = z ++ m ++ b) as Ek. { rewrite skipn_app, La, Nat.sub_diag, skipn_all2 by lia. auto. }
  rewrite Ek. assert (firstn k (z ++ m ++ b) = z) as ->. { rewrite firstn_app, Lz, Nat.sub_diag. cbn [firstn]. rewrite app_nil_r. apply firstn_all2. lia. }
  assert (skipn (k + k) (a ++ z ++ m ++ b) = m ++ b) as Ekk. { rewrite <- skipn_skipn', Ek, skipn_app, Lz, Nat.sub_diag, skipn_all2 by lia. auto. }
  rewrite Ekk. assert (firstn (k - 1) (m ++ b) = m) as ->. { rewrite firstn_app, Lm, Nat.sub_diag. cbn [firstn]. rewrite app_nil_r. apply firstn_all2. lia. }
  replace (3 * k - 1)%nat with ((k - 1) + (k + k))%nat by (unfold k; lia). rewrite <- skipn_skipn', Ekk.
  rewrite skipn_app, Lm, Nat.sub_diag, skipn_all2 by lia. cbn [skipn app]. rewrite firstn_all2 by lia. auto.
Qed.
Lemma ro_slices (l : list (list R)) : forall t : ro R K, ro_ok (absorb_slices t l) = ro_ok t.
Proof. unfold absorb_slices. induction l as [|a l IH]; intros t; cbn [fold_left]; auto. rewrite IH, ro_absorb_slice. auto. Qed.
Lemma ro_small hs n : forall (t : ro R K) cs t', get_small_challenges (HO := ro_short hs) t n = (cs, t') -> ro_ok t' = ro_ok t.
Proof.
  induction n as [|n IH]; intros t cs t' H; cbn [get_small_challenges] in H; [injection H as _ <-; auto|].
  destruct (get_short_challenge t) as [c t1] eqn:Ec. destruct (get_small_challenges t1 n) as [cs' t2] eqn:Es. injection H as _ <-.
  apply IH in Es. injection Ec as _ <-. auto.
Qed.
End Tab.

(** ** Logs determine the messages *)
Lemma rounds_inj0 w ms cs ms' cs' : length ms = length cs -> length ms' = length cs' ->
  Forall (fun m : list R => length m = w) ms -> Forall (fun m => length m = w) ms' ->
  rounds ms cs = rounds ms' cs' -> ms = ms' /\ cs = cs'.
Proof.
  intros H1 H2 H3 H4 H. destruct (rounds_inj w ms cs (repeat 0 w) ms' cs' (repeat 0 w)) as (E1 & E2 & _); auto; try apply repeat_length.
  rewrite H. auto.
Qed.
Definition blk (q : list R * list R * list R * list R) : list R := let '(x, y, u, v) := q in x ++ y ++ u ++ v.
Definition blk_ok (a b c d : nat) (q : list R * list R * list R * list R) : Prop :=
  let '(x, y, u, v) := q in length x = a /\ length y = b /\ length u = c /\ length v = d.
Lemma blk_inj a b c d q q' : blk_ok a b c d q -> blk_ok a b c d q' -> blk q = blk q' -> q = q'.
Proof.
  destruct q as [[[x y] u] v], q' as [[[x' y'] u'] v']. cbn [blk blk_ok]. intros (A1 & A2 & A3 & A4) (B1 & B2 & B3 & B4) H.
  apply app_split_len in H as [-> H]; [|congruence]. apply app_split_len in H as [-> H]; [|congruence]. apply app_split_len in H as [-> ->]; [|congruence]. auto.
Qed.
Lemma blk_length a b c d q : blk_ok a b c d q -> length (blk q) = (a + b + c + d)%nat.
Proof. destruct q as [[[x y] u] v]. cbn [blk blk_ok]. rewrite !app_length. lia. Qed.
Lemma blks_inj a b c d l : forall l', length l = length l' -> Forall (blk_ok a b c d) l -> Forall (blk_ok a b c d) l' ->
  concat (map blk l) = concat (map blk l') -> l = l'.
Proof.
  induction l as [|q l IH]; intros [|q' l'] HL H1 H2 H; try discriminate; auto. inversion H1; inversion H2; subst. cbn [map concat] in H.
  apply app_split_len in H as [E1 E2]; [|rewrite !(blk_length a b c d) by auto; auto]. rewrite (blk_inj a b c d q q') by auto. f_equal. auto.
Qed.
Lemma blks_length a b c d l : Forall (blk_ok a b c d) l -> length (concat (map blk l)) = (length l * (a + b + c + d))%nat.
Proof. induction 1 as [|q l H _ IH]; auto. cbn [map concat length]. rewrite app_length, (blk_length a b c d), IH by auto. lia. Qed.
Lemma combine_inj {A B} (a a' : list A) (b b' : list B) : length a = length b -> length a' = length b' -> combine a b = combine a' b' -> a = a' /\ b = b'.
Proof. intros H1 H2 H. apply (f_equal (@split A B)) in H. rewrite !combine_split in H by auto. injection H; auto. Qed.

(** Shape of a decomposition proof, with the length of the commitments. *)
Definition dec_ok (P : dparams) (A : ajtai R) (cs : ccs R) (pf : dec_proof R) : Prop :=
  dec_shape P cs pf /\ Forall (fun y => length y = kappa A) (dp_ys pf).
Lemma dec_blks P A cs pf : dec_ok P A cs pf ->
  length (zip4 (dp_xs pf) (dp_ys pf) (dp_us pf) (dp_vs pf)) = dp_K P /\
  Forall (blk_ok (c_l cs + 1) (kappa A) (c_t cs) tau) (zip4 (dp_xs pf) (dp_ys pf) (dp_us pf) (dp_vs pf)).
Proof.
  intros [(H1 & H2 & H3 & H4 & H5 & H6 & H7) H8]. split; [rewrite zip4_length; lia|]. apply Forall_forall. intros [[[x y] u] v] Hq. unfold zip4 in Hq.
  pose proof (in_combine_r _ _ _ _ Hq) as Hv. apply in_combine_l in Hq. pose proof (in_combine_r _ _ _ _ Hq) as Hu. apply in_combine_l in Hq.
  pose proof (in_combine_r _ _ _ _ Hq) as Hy. apply in_combine_l in Hq. rewrite Forall_forall in H5, H6, H7, H8. cbn [blk_ok]. auto.
Qed.
Lemma dlog_blk pf : dlog pf = map EvA (concat (map blk (zip4 (dp_xs pf) (dp_ys pf) (dp_us pf) (dp_vs pf)))).
Proof. reflexivity. Qed.
Lemma dlog_length P A cs pf : dec_ok P A cs pf -> length (dlog pf) = (dp_K P * (c_l cs + 1 + kappa A + c_t cs + tau))%nat.
Proof. intros H. apply dec_blks in H as [H1 H2]. rewrite dlog_blk, map_length, (blks_length (c_l cs + 1) (kappa A) (c_t cs) tau), H1 by auto. auto. Qed.
Lemma dlog_inj P A cs pf pf' : dec_ok P A cs pf -> dec_ok P A cs pf' -> dlog pf = dlog pf' -> pf = pf'.
Proof.
  intros H H' E. pose proof (dec_blks _ _ _ _ H) as [B1 B2]. pose proof (dec_blks _ _ _ _ H') as [B1' B2'].
  rewrite !dlog_blk in E. apply mapA_inj, (blks_inj (c_l cs + 1) (kappa A) (c_t cs) tau) in E; auto; [|congruence].
  destruct H as [(H1 & H2 & H3 & H4 & _) _], H' as [(H1' & H2' & H3' & H4' & _) _]. unfold zip4 in E.
  apply combine_inj in E as [E Ev]; [|rewrite !combine_length; lia|rewrite !combine_length; lia].
  apply combine_inj in E as [E Eu]; [|rewrite !combine_length; lia|rewrite !combine_length; lia].
  apply combine_inj in E as [Ex Ey]; [|lia|lia]. destruct pf, pf'; cbn in *. congruence.
Qed.

(** Everything sent and drawn before the challenges of the folding step. *)
Record ctx := Ctx { x_betas : list K; x_ms : list (list R); x_rs : list K; x_v : list R; x_u : list R; x_l : dec_proof R; x_r : dec_proof R }.

Section Main.
Variables (P : dparams) (A : ajtai R) (cs : ccs R) (acc : lcccs R) (cm_i : cccs R).
Variables (opn : list R -> witness C R) (w0 : list R) (l0 : log).

Definition ctx_ok (x : ctx) : Prop :=
  length (x_betas x) = c_s cs /\ length (x_ms x) = c_s cs /\ length (x_rs x) = c_s cs /\
  Forall (fun m => length m = (c_d cs + 1 + 1)%nat) (x_ms x) /\ length (x_v x) = tau /\ length (x_u x) = c_t cs /\
  dec_ok P A cs (x_l x) /\ dec_ok P A cs (x_r x).
Definition enc1 : log := l0 ++ publog acc cm_i ++ [tg "beta_s"].
Definition enc2 (betas : list K) : log := enc1 ++ map EvC betas.
Definition enc3 (x : ctx) : log :=
  enc2 (x_betas x) ++ sc_head (c_s cs) (c_d cs + 1) ++ rounds (x_ms x) (x_rs x) ++ map EvA (x_v x) ++ map EvA (x_u x) ++ dlog (x_l x) ++ dlog (x_r x).
Definition enc4 (xc : ctx * list K) : log := enc3 (fst xc) ++ chlog P 0 (snd xc).
Definition m_fold : nat := (6 * dp_K P - 1 + c_s cs)%nat.

Definition x_cms (x : ctx) : list (lcccs R) := dec_parts (lc_r acc) (x_l x) ++ dec_parts (map emb (x_rs x)) (x_r x).
Definition x_ws (x : ctx) : list (witness C R) := map (fun c => opn (lc_cm c)) (x_cms x).
Definition x_fhs (x : ctx) := map w_fhat (x_ws x).
Definition x_mzs (x : ctx) := zipw (fun c w => map (Mz_mle (c_s cs) (lcccs_z c (w_ccs w))) (c_M cs)) (x_cms x) (x_ws x).
Definition x_batch (x : ctx) : list R -> R :=
  gbatch P (map lc_v (x_cms x)) (map lc_u (x_cms x)) (x_fhs x) (x_mzs x) (lc_r acc) (map emb (x_rs x)).
Definition x_ref (S : list K) (x : ctx) : list K := batch_ref S (3 * (2 * dp_K P) - 1 + c_s cs) (x_batch x).

Definition zvec : list R := i_x cm_i ++ 1 :: w0.
Definition B1 : log -> K -> Prop :=
  co_B (fun _ : unit => True) (fun _ => enc1) (map EvC) (c_s cs) 1
    (fun _ pre c => vanishes_at (ccs_row cs zvec) (map emb pre) (c_s cs - 1 - length pre) (emb c)).
Definition B2 : log -> K -> Prop :=
  sc_B (fun betas => length betas = c_s cs) enc2 (c_s cs) (c_d cs + 1)
    (fun betas x => ccs_poly cs (map (fun M => mle_spec (mz M zvec) x) (c_M cs)) * eqp x (map emb betas)).
Definition B3 (S : list K) : log -> K -> Prop :=
  co_B ctx_ok enc3 (chlog P 0) m_fold (Nat.max tau (c_t cs))
    (fun x pre c => x_batch x (map emb pre ++ emb c :: map emb (skipn (Datatypes.S (length pre)) (x_ref S x))) = 0).
Definition B4 : log -> K -> Prop :=
  sc_B (fun xc => ctx_ok (fst xc) /\ length (snd xc) = m_fold) enc4 (c_s cs) (2 * dp_b P)
    (fun xc => let '(al, be, ze, mu) := tape_abzm P (c_s cs) (snd xc) in gfold P al be ze mu (lc_r acc) (map emb (x_rs (fst xc))) (x_fhs (fst xc)) (x_mzs (fst xc))).

Lemma enc2_length betas : length betas = c_s cs -> length (enc2 betas) = (length enc1 + c_s cs)%nat.
Proof. intros H. unfold enc2. rewrite app_length, map_length, H. auto. Qed.
Definition len3 : nat :=
  (length enc1 + c_s cs + 2 + c_s cs * (c_d cs + 1 + 3) + tau + c_t cs + 2 * (dp_K P * (c_l cs + 1 + kappa A + c_t cs + tau)))%nat.
Lemma enc3_length x : ctx_ok x -> length (enc3 x) = len3.
Proof.
  intros (H1 & H2 & H3 & H4 & H5 & H6 & H7 & H8). unfold enc3, len3, sc_head. rewrite !app_length, enc2_length, (rounds_length (c_d cs + 1 + 1)), !map_length by (auto; congruence).
  rewrite !(dlog_length P A cs) by auto. cbn [length]. rewrite H3, H5, H6. lia.
Qed.
Lemma enc3_inj x y : ctx_ok x -> ctx_ok y -> enc3 x = enc3 y -> x = y.
Proof.
  intros (H1 & H2 & H3 & H4 & H5 & H6 & H7 & H8) (G1 & G2 & G3 & G4 & G5 & G6 & G7 & G8) E. unfold enc3 in E.
  apply app_split_len in E as [E1 E]; [|rewrite !enc2_length by auto; auto]. apply app_inv_head in E1. apply mapC_inj in E1.
  apply app_inv_head in E. apply app_split_len in E as [E2 E]; [|rewrite !(rounds_length (c_d cs + 1 + 1)) by (auto; congruence); congruence].
  apply (rounds_inj0 (c_d cs + 1 + 1)) in E2 as [E2 E3]; auto; try congruence.
  apply app_split_len in E as [E4 E]; [|rewrite !map_length; congruence]. apply app_split_len in E as [E5 E]; [|rewrite !map_length; congruence].
  apply app_split_len in E as [E6 E7]; [|rewrite !(dlog_length P A cs) by auto; auto].
  apply mapA_inj in E4, E5. apply (dlog_inj P A cs) in E6; auto. apply (dlog_inj P A cs) in E7; auto. destruct x, y; cbn in *. congruence.
Qed.
Lemma enc4_length xc : ctx_ok (fst xc) /\ length (snd xc) = m_fold -> length (enc4 xc) = (len3 + length (chlog P 0 (repeat (0%rs : K) m_fold)))%nat.
Proof. intros [H1 H2]. unfold enc4. rewrite app_length, enc3_length by auto. f_equal. apply chlog_len_eq. rewrite repeat_length. auto. Qed.

(** At most [max(d + 1, tau, t, 2b)] answers to any one question are bad. *)
Lemma few_bad (S : list K) (l : log) : (1 <= c_s cs)%nat ->
  few (fun c => ((B1 l c \/ B2 l c) \/ B3 S l c) \/ B4 l c) (Nat.max (c_d cs + 1) (Nat.max (Nat.max tau (c_t cs)) (2 * dp_b P))).
Proof.
  intros Hs. set (N := Nat.max _ _).
  assert (forall c, B1 l c -> (length l < length enc1 + c_s cs)%nat) as L1.
  { intros c (x & pre & _ & Hp & -> & _). rewrite app_length, map_length. lia. }
  assert (forall c, B2 l c -> (length enc1 + c_s cs < length l < len3)%nat) as L2.
  { intros c H. apply (sc_B_len _ _ (length enc1 + c_s cs)) in H; [|intros; apply enc2_length; auto]. unfold len3. lia. }
  assert (forall c, B3 S l c -> (len3 <= length l <= len3 + length (chlog P 0 (repeat (0%rs : K) m_fold)))%nat) as L3.
  { intros c (x & pre & Hx & Hp & -> & _). rewrite app_length, enc3_length by auto. pose proof (chlog_len P pre (repeat (0%rs : K) m_fold) 0) as H.
    rewrite repeat_length in H. lia. }
  assert (forall c, B4 l c -> (len3 + length (chlog P 0 (repeat (0%rs : K) m_fold)) < length l)%nat) as L4.
  { intros c H. apply (sc_B_len _ _ _ _ _ _ _ _ enc4_length) in H. lia. }
  apply few_disj; [apply few_disj; [apply few_disj|..]|..].
  - apply (few_weaken (B1 l) _ 1); [auto|unfold N; lia|]. apply (few_co_B _ _ _ (length enc1)); auto. intros a b. apply mapC_inj.
  - apply (few_weaken (B2 l) _ (c_d cs + 1)); [auto|unfold N; lia|]. apply (few_sc_B _ _ (length enc1 + c_s cs)); [intros; apply enc2_length; auto|].
    intros x y _ _ E. apply app_inv_head, mapC_inj in E. subst. auto.
  - intros a b Ha Hb. apply L1 in Ha. apply L2 in Hb. lia.
  - apply (few_weaken (B3 S l) _ (Nat.max tau (c_t cs))); [auto|unfold N; lia|]. apply (few_co_B _ _ _ len3); [apply enc3_length|intros a b; apply chlog_inj|].
    intros x y Hx Hy E. rewrite (enc3_inj x y) by auto. auto.
  - intros a b [Ha|Ha] Hb; [apply L1 in Ha|apply L2 in Ha]; apply L3 in Hb; unfold len3 in *; lia.
  - apply (few_weaken (B4 l) _ (2 * dp_b P)); [auto|unfold N; lia|].
    apply (few_sc_B _ _ (len3 + length (chlog P 0 (repeat (0%rs : K) m_fold)))); [apply enc4_length|].
    intros [x c] [y c'] [Hx Hc] [Hy Hc'] E. unfold enc4 in E. cbn [fst snd] in *. apply app_split_len in E as [E1 E2]; [|rewrite !enc3_length; auto].
    apply enc3_inj in E1; auto. apply chlog_inj in E2. subst. auto.
  - intros a b [[Ha|Ha]|Ha] Hb; [apply L1 in Ha|apply L2 in Ha|apply L3 in Ha]; apply L4 in Hb; unfold len3 in *; lia.
Qed.

(** The proof [pf] fools the verifier: everything the verifier asks about it is in the table, the verifier accepts, the openings are
    consistent with everything sent, and nevertheless one of the instances that went in does not hold. *)
Definition fooled_tab (hs : log -> C) (tab : list (log * K)) (pf : lf_proof R) : Prop :=
  let TO := ro_trans tab in
  let HO := ro_short hs in
  let n := ((c_n cs - c_l cs - 1) * dp_L P)%nat in
  exists lc t' lin t1,
    nifs_verify P acc cm_i pf (Ro l0 true) cs = Ok (lc, t') /\ ro_ok t' = true /\
    lin_verify cm_i (lf_lin pf) (absorb_public_input acc cm_i (Ro l0 true)) cs = Ok (lin, t1) /\
    let lcs_l := dec_parts (lc_r acc) (lf_dec_l pf) in
    let lcs_r := dec_parts (lc_r lin) (lf_dec_r pf) in
    let ws_l := map (fun c => opn (lc_cm c)) lcs_l in
    let ws_r := map (fun c => opn (lc_cm c)) lcs_r in
    dec_shape P cs (lf_dec_l pf) /\ dec_shape P cs (lf_dec_r pf) /\
    Forall (fun c => opens P A cs (lc_cm c) (opn (lc_cm c))) (lcs_l ++ lcs_r) /\
    fp_theta (lf_fold pf) = evs (map w_fhat (ws_l ++ ws_r)) (lc_r lc) /\
    fp_eta (lf_fold pf) = evs (zipw (fun c w => map (Mz_mle (c_s cs) (lcccs_z c (w_ccs w))) (c_M cs)) (lcs_l ++ lcs_r) (ws_l ++ ws_r)) (lc_r lc) /\
    w_ccs (wsum P n ws_r) = w0 /\
    ~ (lcccs_rel P A cs acc (wsum P n ws_l) /\ cccs_rel P A cs cm_i (wsum P n ws_r) /\
       forall i w, nth_error (ws_l ++ ws_r) i = Some w -> (i < 2 * dp_K P - 1)%nat \/ tau = 1%nat -> wit_norm (Z.of_nat (dp_b P) - 1) w).
(** The answers [x] fool the verifier: the proof is the output of the adversary with questions [qry] and proof [out]. *)
Definition fooled_ro (hs : log -> C) (qry : list K -> log) (out : list K -> lf_proof R) (x : list K) : Prop := fooled_tab hs (ro_table qry x) (out x).

Lemma combine_map_fst {X Y} (a : list X) (b : list Y) : length a = length b -> map fst (combine a b) = a.
Proof. revert b; induction a as [|x a IH]; intros [|y b] H; try discriminate; auto. cbn [combine map fst]. f_equal. auto. Qed.
Lemma combine_map_snd {X Y} (a : list X) (b : list Y) : length a = length b -> map snd (combine a b) = b.
Proof. revert b; induction a as [|x a IH]; intros [|y b] H; try discriminate; auto. cbn [combine map snd]. f_equal. auto. Qed.
Lemma dec_parts_cm r pf : dec_shape P cs pf -> map lc_cm (dec_parts r pf) = dp_ys pf.
Proof.
  intros (H1 & H2 & H3 & H4 & _). unfold dec_parts. rewrite map_map. unfold zip4.
  assert (map (fun q : list R * list R * list R * list R => snd (fst (fst q))) (combine (combine (combine (dp_xs pf) (dp_ys pf)) (dp_us pf)) (dp_vs pf)) = dp_ys pf) as Ey.
  { rewrite <- (map_map fst (fun q : list R * list R * list R => snd (fst q))), combine_map_fst by (rewrite !combine_length; lia).
    rewrite <- (map_map fst snd), combine_map_fst by (rewrite !combine_length; lia). apply combine_map_snd. lia. }
  rewrite <- Ey at 2. apply map_ext. intros [[[x y] u] v]. auto.
Qed.
Lemma dec_ok_of r pf : dec_shape P cs pf -> Forall (fun c => opens P A cs (lc_cm c) (opn (lc_cm c))) (dec_parts r pf) -> dec_ok P A cs pf.
Proof.
  intros Hs Ho. split; auto. rewrite <- (dec_parts_cm r) by auto. apply Forall_map. eapply Forall_impl; [|exact Ho]. cbn beta. intros c O.
  pose proof (op_cm _ _ _ _ _ O) as Ec. destruct (Nat.eqb_spec (length (w_f (opn (lc_cm c)))) (a_ncols A)) as [Q|Q].
  - rewrite commit_ok in Ec by auto. apply ok_inj in Ec. rewrite <- Ec, map_length. auto.
  - unfold commit in Ec. apply Nat.eqb_neq in Q. rewrite Q in Ec. discriminate.
Qed.
Lemma dec_verify_lens {T} {TT : TransOps T R K} (lc : lcccs R) pf (ts : T) lcs ts' : (1 <= dp_K P)%nat -> dec_shape P cs pf -> dec_verify P lc pf ts = Ok (lcs, ts') ->
  length (lc_v lc) = tau /\ length (lc_u lc) = c_t cs.
Proof.
  intros HK (H1 & H2 & H3 & H4 & H5 & H6 & H7) HV. unfold dec_verify in HV. apply bind_ok_inv in HV as (res & _ & HV).
  apply bind_ok_inv in HV as (y & _ & HV). destruct (negb _); [discriminate|].
  apply bind_ok_inv in HV as (v & Ev & HV). destruct (leqb v (lc_v lc)) eqn:Qv; [|discriminate]. apply leqb_true in Qv. cbn [negb] in HV.
  apply bind_ok_inv in HV as (u & Eu & HV). destruct (leqb u (lc_u lc)) eqn:Qu; [|discriminate]. apply leqb_true in Qu.
  apply recompose_vecs_inv in Ev as [Lv _]. apply recompose_vecs_inv in Eu as [Lu _]. rewrite Forall_forall in H5, H6.
  rewrite <- Qv, <- Qu, Lv, Lu. split; [apply H6|apply H5]; apply nth_In; lia.
Qed.

(** A proof that fools the verifier leaves a bad answer in the table. *)
Lemma fooled_bad hs (S : list K) tab pf :
  sizes_ok p P cs -> degree_ok cs -> char_gt K (c_d cs + 1) -> char_gt K (2 * dp_b P) -> (2 * Z.of_nat (dp_b P) <= p + 1)%Z ->
  NoDup S -> (Nat.max tau (c_t cs) < length S)%nat -> length (lc_r acc) = c_s cs -> fooled_tab hs tab pf ->
  exists l c, lookup tab l = Some c /\ (((B1 l c \/ B2 l c) \/ B3 S l c) \/ B4 l c).
Proof.
  intros Hsz Hd Hcd Hcb Hbp HS Hq Hra Hf. pose proof (so_K _ _ _ Hsz) as HK. destruct (so_sized _ _ _ Hsz) as (_ & Hs1 & _).
  destruct Hf as (lc & t' & lin & t1 & HV & Hok & HL & Hs2 & Hs3 & Ho & Hth & Het & Hw0 & Hno).
  assert (forall B C D E : log -> K -> Prop, (exists l c, lookup tab l = Some c /\ B l c) \/ (exists l c, lookup tab l = Some c /\ C l c) \/
    (exists l c, lookup tab l = Some c /\ D l c) \/ (exists l c, lookup tab l = Some c /\ E l c) ->
    exists l c, lookup tab l = Some c /\ (((B l c \/ C l c) \/ D l c) \/ E l c)) as Hcase.
  { intros B C0 D E [(l & c & H1 & H2)|[(l & c & H1 & H2)|[(l & c & H1 & H2)|(l & c & H1 & H2)]]]; exists l, c; tauto. }
  apply Hcase. clear Hcase.
  apply Forall_app in Ho as [Ho1 Ho2].
  set (lcs_l := dec_parts (lc_r acc) (lf_dec_l pf)) in *. set (lcs_r := dec_parts (lc_r lin) (lf_dec_r pf)) in *.
  set (ws_l := map (fun c => opn (lc_cm c)) lcs_l) in *. set (ws_r := map (fun c => opn (lc_cm c)) lcs_r) in *.
  pose proof (dec_ok_of _ _ Hs2 Ho1) as Dl. pose proof (dec_ok_of _ _ Hs3 Ho2) as Dr.
  (* the run *)
  pose proof HV as HV'. unfold nifs_verify in HV'. apply bind_ok_inv in HV' as (u0 & _ & HV').
  rewrite HL in HV'. cbn [bind] in HV'. apply bind_ok_inv in HV' as ([l1 t2] & HDl & HV'). apply bind_ok_inv in HV' as ([l2 t3] & HDr & HV').
  destruct (dec_verify_parts _ _ _ _ _ _ HDl) as [Ha1 EL1]. destruct (dec_verify_parts _ _ _ _ _ _ HDr) as [Ha2 EL2].
  apply ro_dec_absorb in Ha1. apply ro_dec_absorb in Ha2. fold (dlog (lf_dec_l pf)) in Ha1. fold (dlog (lf_dec_r pf)) in Ha2.
  change (dec_parts (lc_r acc) (lf_dec_l pf)) with lcs_l in EL1. change (dec_parts (lc_r lin) (lf_dec_r pf)) with lcs_r in EL2. subst l1 l2.
  destruct (dec_verify_lens _ _ _ _ _ HK Hs3 HDr) as [Lv Lu].
  destruct (lin_verify_inv _ _ _ _ _ _ (so_wf _ _ _ Hsz) HL) as (rs & e0 & tsx & Hsc & Hrs & El & _ & Ets1).
  (* the folding step *)
  pose proof HV' as HF. unfold fold_verify in HF. apply bind_ok_inv in HF as (u1 & _ & HF).
  rewrite squeeze_tape in HF by auto. destruct (fold_chal P t3 (c_s cs)) as [fc t4] eqn:Efc. cbn [fst snd] in HF.
  destruct (tape_abzm P (c_s cs) fc) as [[[al be] ze] mu] eqn:Etp.
  apply bind_ok_inv in HF as ([[pt sv] t5] & Hscf & HF). apply bind_ok_inv in HF as (u2 & _ & HF).
  destruct (get_rhos P _) as [[rho_c rho] t6] eqn:Erh. apply bind_ok_inv in HF as ([[[v0 cm0] u3] x0] & _ & HF).
  apply bind_ok_inv in HF as (lc' & Hout & HF). apply ok_inj in HF. injection HF as -> ->.
  assert (lc_r lc = map emb pt) as Elc.
  { unfold public_output in Hout. destruct (last_opt x0); [|discriminate]. apply ok_inj in Hout. subst lc. reflexivity. }
  assert (ro_ok t5 = true) as Hok5.
  { unfold get_rhos in Erh. destruct (get_small_challenges _ _) as [rr t7] eqn:Es in Erh. injection Erh as _ _ <-.
    apply (ro_small hs) in Es. rewrite ro_tag in Es. cbn [ro_ok] in Es. rewrite !ro_slices in Es. congruence. }
  destruct (ro_sc_verify _ _ _ _ _ _ _ _ _ Hscf Hok5) as (Hok4 & _).
  destruct (ro_fold_chal _ _ _ _ _ _ HK Hs1 Efc Hok4) as (Hok3 & Lfc & Gfc & Qfc).
  assert (ro_ok t1 = true) as Hok1 by (rewrite Ha2, Ha1 in Hok3; exact Hok3).
  (* the linearization *)
  rewrite ro_public, ro_tag in Hsc. cbn [ro_log ro_ok] in Hsc.
  destruct (get_challenges (Ro ((l0 ++ publog acc cm_i) ++ [tg "beta_s"]) true) (c_s cs)) as [betas tb] eqn:Ebt. cbn [snd] in Hsc.
  assert (ro_ok tsx = true) as Hokx by (rewrite Ets1, !ro_absorb_slice in Hok1; exact Hok1).
  destruct (ro_sc_verify _ _ _ _ _ _ _ _ _ Hsc Hokx) as (Hokb & _ & Lms & Fms & Gx & _).
  destruct (ro_challenges _ _ _ _ _ Ebt Hokb) as (_ & Lb & Gb & Qb). cbn [ro_log] in Gb, Qb.
  assert ((l0 ++ publog acc cm_i) ++ [tg "beta_s"] = enc1) as Ee by (symmetry; apply app_assoc). rewrite Ee in Gb, Qb.
  set (X := Ctx betas (firstn (c_s cs) (lp_sc (lf_lin pf))) rs (lp_v (lf_lin pf)) (lp_u (lf_lin pf)) (lf_dec_l pf) (lf_dec_r pf)).
  assert (lc_r lin = map emb rs /\ lc_v lin = lp_v (lf_lin pf) /\ lc_u lin = lp_u (lf_lin pf)) as (El1 & El2 & El3) by (rewrite El; auto).
  assert (ctx_ok X) as HX.
  { unfold ctx_ok, X. cbn [x_betas x_ms x_rs x_v x_u x_l x_r]. rewrite <- El2, <- El3. exact (conj Lb (conj Lms (conj Hrs (conj Fms (conj Lv (conj Lu (conj Dl Dr))))))). }
  assert (ro_log t3 = enc3 X) as G3.
  { rewrite Ha2, Ha1, Ets1, !ro_absorb_slice. cbn [ro_log]. rewrite Gx, Gb. unfold enc3, X, enc2. cbn [x_betas x_ms x_rs x_v x_u x_l x_r].
    rewrite <- !app_assoc. reflexivity. }
  assert (x_cms X = lcs_l ++ lcs_r) as Xc by (unfold x_cms, X, lcs_l, lcs_r; cbn [x_rs x_l x_r]; rewrite El1; auto).
  assert (x_ws X = ws_l ++ ws_r) as Xw by (unfold x_ws, ws_l, ws_r; rewrite Xc, map_app; auto).
  (* the deterministic theorem *)
  assert (Forall2 (fun c w => opens P A cs (lc_cm c) w) lcs_l ws_l /\ Forall2 (fun c w => opens P A cs (lc_cm c) w) lcs_r ws_r) as [Hol Hor].
  { clear - Ho1 Ho2. unfold ws_l, ws_r. split; [induction Ho1|induction Ho2]; cbn [map]; auto. }
  destruct (nifs_sound_at (TO := ro_trans tab) (HO := ro_short hs) P A cs acc cm_i lin lcs_l lcs_r ws_l ws_r S Hsz Hd Hcd Hcb Hbp HS Hq Hra Hol Hor pf (Ro l0 true) lc t' t1 t2 t3) as [Hgood|[Hfb|Hlb]]; auto.
  - destruct (Hno Hgood).
  - unfold fold_bad in Hfb. rewrite Efc in Hfb. destruct Hfb as [Hb|(rs' & al' & be' & ze' & mu' & E1 & E2 & Hb)].
    + right. right. left. destruct Hb as (t & Ht & _ & Hb0 & Hall). rewrite Lfc in Ht. do 2 eexists. split; [apply (Qfc t Ht)|].
      exists X, (firstn t fc). assert (length (firstn t fc) = t) as Lt by (rewrite firstn_length; lia). rewrite Lt.
      split; auto. split; [unfold m_fold; lia|]. split; [rewrite G3; auto|].
      unfold x_ref, x_batch, x_fhs, x_mzs. rewrite Xw, Xc. change (map emb (x_rs X)) with (map (emb : K -> R) rs). rewrite <- El1. split; [exact Hb0|exact Hall].
    + right. right. right. rewrite Elc in E1. pose proof (sc_bad_point _ _ _ _ _ _ _ Hb E1) as Ept. subst rs'.
      rewrite squeeze_tape, Efc in E2 by auto. cbn [fst snd] in E2. rewrite Etp in E2.
      assert (al' = al /\ be' = be /\ ze' = ze /\ mu' = mu) as (-> & -> & -> & ->) by (repeat split; congruence).
      unfold B4. destruct Hb as (i & Hi & Lm & _ & Hbc & _ & Hall).
      eapply (ro_sc_bad _ _ _ _ _ _ _ _ _ _ _ _ _ (X, fc)); [exact Hscf|exact Hok5|split; [exact HX|exact Lfc]| |reflexivity|].
      * unfold enc4. cbn [fst snd]. rewrite Gfc, G3. auto.
      * exists i. split; auto. cbn [fst snd]. rewrite Etp. unfold x_fhs, x_mzs. rewrite Xw, Xc. change (map emb (x_rs X)) with (map (emb : K -> R) rs). rewrite <- El1. auto.
  - rewrite Hw0 in Hlb. fold zvec in Hlb. unfold lin_bad in Hlb. rewrite ro_public, ro_tag in Hlb. cbn [ro_log ro_ok] in Hlb. rewrite Ebt in Hlb. cbn [fst snd] in Hlb.
    destruct Hlb as [Hb|(rs' & E1 & Hb)].
    + left. destruct Hb as (i & Hi & _ & Hb0 & Hall). rewrite Lb in Hi. do 2 eexists. split; [apply (Qb i Hi)|].
      exists tt, (firstn i betas). assert (length (firstn i betas) = i) as Li by (rewrite firstn_length; lia). rewrite Li. rewrite Lb in Hb0, Hall. auto.
    + right. left. rewrite El1 in E1. pose proof (sc_bad_point _ _ _ _ _ _ _ Hb E1) as Ept. subst rs'.
      unfold B2. destruct Hb as (i & Hi & Lm & _ & Hbc & _ & Hall).
      eapply (ro_sc_bad _ _ _ _ _ _ _ _ _ _ _ _ _ betas); [exact Hsc|exact Hokx|exact Lb|exact Gb|reflexivity|]. exists i. auto.
Qed.

(** ** C92: the folding step *)
Theorem nifs_ro hs (S : list K) Q (qry : list K -> log) (out : list K -> lf_proof R) :
  sizes_ok p P cs -> degree_ok cs -> char_gt K (c_d cs + 1) -> char_gt K (2 * dp_b P) -> (2 * Z.of_nat (dp_b P) <= p + 1)%Z ->
  NoDup S -> (Nat.max tau (c_t cs) < length S)%nat -> length (lc_r acc) = c_s cs ->
  few (fun x => In x (tuples Q S) /\ fooled_ro hs qry out x)
    (Q * Nat.max (c_d cs + 1) (Nat.max (Nat.max tau (c_t cs)) (2 * dp_b P)) * length S ^ (Q - 1)).
Proof.
  intros Hsz Hd Hcd Hcb Hbp HS Hq Hra. destruct (so_sized _ _ _ Hsz) as (_ & Hs1 & _).
  eapply few_weaken; [|apply le_n|apply (few_queries qry S Q (fun l c => ((B1 l c \/ B2 l c) \/ B3 S l c) \/ B4 l c)); intros l; apply few_bad; exact Hs1].
  intros x [Hx Hf]. split; auto. exact (fooled_bad hs S (ro_table qry x) (out x) Hsz Hd Hcd Hcb Hbp HS Hq Hra Hf).
Qed.
End Main.
End N.
