(** Completeness of the folding step and openedness of the folded instance. *)
From Coq Require Import String List Arith Lia ZArith Bool Ring.
From Verif Require Import Prelude Alg Poly MLE MLE_Proofs Transcript Interp Sumcheck Sumcheck_Proofs CombDeg
  Arith Arith_Proofs Balanced Rings Rings_Proofs Linearization Linearization_Proofs Relations LinRel
  Decomposition_Proofs Folding Folding_Comb.
Import ListNotations.
Local Open Scope rs_scope.

(** ** Sums of tables *)
Section M.
Context {R : Type} {RO : RingOps R} {LR : RingLaws R}.
Add Ring Rring19 : (@rlaws_th R RO LR).

(** [a] is the variable-free zero and [f] vanishes, or [a] is the table of [f]. *)
Definition rep (s : nat) (a : mle R) (f : nat -> R) : Prop :=
  (mle_is_zero a = true /\ forall b, (b < 2 ^ s)%nat -> f b = 0) \/
  (mle_nv a = s /\ forall b, (b < 2 ^ s)%nat -> mle_get a b = f b).
Lemma is_zero_nv (a : mle R) : (1 <= mle_nv a)%nat -> mle_is_zero a = false.
Proof. intros H. unfold mle_is_zero. destruct (Nat.eqb_spec (mle_nv a) 0); [lia|reflexivity]. Qed.
Lemma rep_full s a f : (1 <= s)%nat -> rep s a f -> mle_nv a = s -> forall b, (b < 2 ^ s)%nat -> mle_get a b = f b.
Proof. intros Hs [[H _]|[_ H]] Ha; auto. rewrite is_zero_nv in H by lia. discriminate. Qed.
Lemma rep_ext s a f g : (forall b, (b < 2 ^ s)%nat -> f b = g b) -> rep s a f -> rep s a g.
Proof.
  intros H [[H1 H2]|[H1 H2]]; [left|right]; split; auto; intros b Hb; rewrite <- H by auto; auto.
Qed.
Lemma rep_table s a : mle_nv a = s -> rep s a (mle_get a).
Proof. intros. right. auto. Qed.
Lemma rep_zero s : rep s mle_zero (fun _ => 0).
Proof. left. split; auto. unfold mle_is_zero. cbn. apply req_refl. Qed.
Lemma rep_add s a b f g : (1 <= s)%nat -> rep s a f -> rep s b g ->
  exists c, mle_add a b = Ok c /\ rep s c (fun i => f i + g i) /\ (mle_nv a = s \/ mle_nv b = s -> mle_nv c = s).
Proof.
  intros Hs [[A1 A2]|[A1 A2]] [[B1 B2]|[B1 B2]]; unfold mle_add.
  - rewrite B1. eexists. split; [reflexivity|]. split.
    + left. split; auto. intros i Hi. rewrite A2, B2 by auto. ring.
    + unfold mle_is_zero in A1, B1. apply andb_true_iff in A1 as [A1 _]. apply andb_true_iff in B1 as [B1 _].
      apply Nat.eqb_eq in A1, B1. lia.
  - rewrite (is_zero_nv b) by lia. rewrite A1. eexists. split; [reflexivity|]. split; [|auto].
    right. split; auto. intros i Hi. rewrite A2, B2 by auto. ring.
  - rewrite B1. eexists. split; [reflexivity|]. split; [|auto].
    right. split; auto. intros i Hi. rewrite A2, B2 by auto. ring.
  - rewrite !is_zero_nv by lia. rewrite A1, B1, Nat.eqb_refl. cbn [negb]. eexists. split; [reflexivity|].
    cbn [mle_nv]. split; [|auto]. right. cbn [mle_nv]. split; auto. intros i Hi.
    unfold mle_get at 1. cbn [mle_evals]. rewrite nth_seq_map by auto. rewrite A2, B2 by auto. auto.
Qed.
Lemma mle_get_scale (a : mle R) c i : mle_get (mle_scale a c) i = mle_get a i * c.
Proof.
  unfold mle_get, mle_scale. cbn [mle_evals]. replace (0 : R) with (0 * c) at 1 by ring.
  rewrite (map_nth (fun x => x * c)). auto.
Qed.
Lemma rep_scale s a f c : rep s a f -> rep s (mle_scale a c) (fun i => f i * c).
Proof.
  intros [[A1 A2]|[A1 A2]]; [left|right].
  - split.
    + unfold mle_is_zero in *. apply andb_true_iff in A1 as [A1 A3]. cbn [mle_nv mle_scale]. rewrite A1. cbn [andb].
      apply req_true in A3. rewrite mle_get_scale, A3. apply req_true. ring.
    + intros i Hi. rewrite A2 by auto. ring.
  - split; auto. intros i Hi. rewrite mle_get_scale, A2 by auto. auto.
Qed.
(** Evaluations of a list of tables at an index. *)
Definition at_idx (ms : list (mle R)) (b : nat) : list R := map (fun m => mle_get m b) ms.
Lemma pow_sum_cons (c x : R) l : pow_sum c (x :: l) = (x + pow_sum c l) * c.
Proof.
  rewrite !pow_sum_spec. cbn [length]. rewrite sumn_S_first. cbn [nth].
  rewrite (sumn_ext _ (fun i => rpow c (S (S i)) * nth i l 0) (fun i => rpow c (S i) * nth i l 0 * c)).
  - rewrite sumn_mul_r. cbn [rpow]. ring.
  - intros. cbn [rpow]. ring.
Qed.
Lemma pow_sum_nil (c : R) : pow_sum c [] = 0.
Proof. reflexivity. Qed.
Lemma horner_mle_ok s c ms : (1 <= s)%nat -> Forall (fun m => mle_nv m = s) ms ->
  exists m, horner_mle c ms = Ok m /\ rep s m (fun b => pow_sum c (at_idx ms b)) /\ (ms <> [] -> mle_nv m = s).
Proof.
  intros Hs H. unfold horner_mle. rewrite fold_left_rev. induction H as [|m ms Hm H IH]; cbn [fold_right].
  - eexists. split; [reflexivity|]. split; [apply rep_zero|contradiction].
  - destruct IH as (a & -> & Ha & _). cbn [bind].
    destruct (rep_add s a m _ _ Hs Ha (rep_table s m Hm)) as (x & -> & Hx & Hxn). cbn [bind].
    eexists. split; [reflexivity|]. split.
    + eapply rep_ext; [|apply rep_scale; exact Hx]. intros b Hb. cbn beta. unfold at_idx. cbn [map].
      rewrite pow_sum_cons. ring.
    + intros _. cbn [mle_scale mle_nv]. auto.
Qed.
Lemma challenged_ok_gen s l acc f : (1 <= s)%nat -> rep s acc f ->
  Forall (fun cm : R * list (mle R) => Forall (fun m => mle_nv m = s) (snd cm)) l ->
  exists m, fold_left (fun acc cm => do a <- acc; do h <- horner_mle (fst cm) (snd cm); mle_add a h) l (Ok acc) = Ok m /\
    rep s m (fun b => f b + lsum (map (fun cm => pow_sum (fst cm) (at_idx (snd cm) b)) l)) /\
    (mle_nv acc = s \/ (exists cm, In cm l /\ snd cm <> []) -> mle_nv m = s).
Proof.
  intros Hs. revert acc f; induction l as [|[c ms] l IH]; intros acc f Ha HF; cbn [fold_left].
  - eexists. split; [reflexivity|]. split.
    + eapply rep_ext; [|exact Ha]. intros. cbn [map lsum fold_right]. ring.
    + intros [H|(cm & [] & _)]. auto.
  - inversion HF as [|? ? H1 H2]; subst. cbn [fst snd] in *. cbn [bind].
    destruct (horner_mle_ok s c ms Hs H1) as (h & -> & Hh & Hhn). cbn [bind].
    destruct (rep_add s acc h _ _ Hs Ha Hh) as (x & -> & Hx & Hxn).
    destruct (IH x _ Hx H2) as (m & -> & Hm & Hmn). eexists. split; [reflexivity|]. split.
    + eapply rep_ext; [|exact Hm]. intros b Hb. cbn [map lsum fold_right fst snd]. unfold lsum. ring.
    + intros [H|(cm & [<-|Hin] & Hne)]; apply Hmn; auto.
      right. exists cm. auto.
Qed.
Lemma lsum_map_combine {X Y} (g : X -> Y -> R) (l : list X) (m : list Y) dx dy : length l = length m ->
  lsum (map (fun xy => g (fst xy) (snd xy)) (combine l m)) = sumn (length l) (fun i => g (nth i l dx) (nth i m dy)).
Proof.
  intros H. rewrite lsum_nth, map_length, combine_length, <- H, Nat.min_id. apply sumn_ext. intros i Hi.
  rewrite (nth_map_lt _ _ _ (dx, dy)) by (rewrite combine_length; lia). rewrite combine_nth by auto. auto.
Qed.
Lemma challenged_ok s cs mss : (1 <= s)%nat -> length cs = length mss ->
  Forall (Forall (fun m => mle_nv m = s)) mss ->
  exists m, challenged_mle cs mss = Ok m /\
    rep s m (fun b => sumn (length cs) (fun i => pow_sum (nth i cs 0) (at_idx (nth i mss []) b))) /\
    ((exists ms, In ms mss /\ ms <> []) -> mle_nv m = s).
Proof.
  intros Hs Hl HF. destruct (challenged_ok_gen s (combine cs mss) mle_zero _ Hs (rep_zero s)) as (m & E & Hm & Hn).
  - apply Forall_forall. intros [c ms] Hin. cbn [snd]. rewrite Forall_forall in HF. apply HF. eapply in_combine_r; eauto.
  - exists m. split; [exact E|]. split.
    + eapply rep_ext; [|exact Hm]. intros b Hb. cbn beta. rewrite radd_0_l.
      apply (lsum_map_combine (fun c ms => pow_sum c (at_idx ms b))). auto.
    + intros (ms & Hin & Hne). apply Hn. right. apply In_nth with (d := []) in Hin as (i & Hi & E2).
      exists (nth i cs 0, nth i mss []). split; [|rewrite E2; auto].
      rewrite <- combine_nth by auto. apply nth_In. rewrite combine_length. lia.
Qed.

(** Evaluations of lists of tables at a point. *)
Definition evs (mss : list (list (mle R))) (x : list R) : list (list R) :=
  map (fun ms => map (fun m => mle_spec (mle_get m) x) ms) mss.
Lemma evs_length mss x : length (evs mss x) = length mss.
Proof. apply map_length. Qed.
Lemma nth_evs mss x i : nth i (evs mss x) [] = map (fun m => mle_spec (mle_get m) x) (nth i mss []).
Proof. unfold evs. change (@nil R) with (map (fun m => mle_spec (mle_get m) x) []) at 1. apply map_nth. Qed.
Lemma mle_spec_pow_sum c ms x :
  mle_spec (fun b => pow_sum c (at_idx ms b)) x = pow_sum c (map (fun m => mle_spec (mle_get m) x) ms).
Proof.
  rewrite pow_sum_spec, map_length.
  rewrite (mle_spec_ext _ (fun b => sumn (length ms) (fun j => rpow c (S j) * mle_get (nth j ms (Mle 0 [])) b))).
  - rewrite (mle_spec_sumn (length ms) (fun j b => rpow c (S j) * mle_get (nth j ms (Mle 0 [])) b)).
    apply sumn_ext. intros j Hj. rewrite mle_spec_scale. rewrite (nth_map_lt _ _ _ (Mle 0 [])) by auto. auto.
  - intros b Hb. rewrite pow_sum_spec. unfold at_idx. rewrite map_length. apply sumn_ext. intros j Hj.
    rewrite (nth_map_lt _ _ _ (Mle 0 [])) by auto. auto.
Qed.

(** Folding vectors. *)
Lemma nth_map_rmul (c : R) v j : nth j (map (rmul c) v) 0 = c * nth j v 0.
Proof. rewrite <- (map_nth (rmul c)). f_equal. ring. Qed.
Lemma fold_zip_lin n k (rho : list R) (vs : list (list R)) : length rho = k -> length vs = k ->
  (forall v, In v vs -> length v = n) ->
  length (fold_left cm_add (zipw (fun r v => map (rmul r) v) rho vs) (repeat 0 n)) = n /\
  is_lin k (fun i => nth i rho 0) (fun i => nth i vs []) (fold_left cm_add (zipw (fun r v => map (rmul r) v) rho vs) (repeat 0 n)).
Proof.
  intros Hr Hv Hn.
  assert (forall y, In y (zipw (fun r v => map (rmul r) v) rho vs) -> length y = length (repeat (0:R) n)) as Hz.
  { intros y Hy. rewrite repeat_length. apply In_nth with (d := []) in Hy as (i & Hi & <-). rewrite zipw_length in Hi.
    rewrite (nth_zipw _ _ _ _ 0 []) by lia. rewrite map_length. apply Hn. apply nth_In. lia. }
  pose proof (fold_cm_add _ _ 0 Hz) as [_ HL]. rewrite repeat_length in HL. split; auto. split.
  - intros i Hi. rewrite HL. apply Hn. apply nth_In. lia.
  - intros j. rewrite (proj1 (fold_cm_add _ _ j Hz)). rewrite nth_repeat, zipw_length, Hr, Hv, Nat.min_id, radd_0_l.
    apply sumn_ext. intros i Hi. rewrite (nth_zipw _ _ _ _ 0 []) by lia.
    apply nth_map_rmul.
Qed.
Lemma zipw_map_r {X Y Z W} (f : X -> Z -> W) (g : Y -> Z) l m : zipw f l (map g m) = zipw (fun x y => f x (g y)) l m.
Proof. revert m; induction l as [|x l IH]; intros [|y m]; cbn [zipw map]; f_equal; auto. Qed.
Lemma cm_scale_comm (v : list R) r : cm_scale v r = map (rmul r) v.
Proof. unfold cm_scale. apply map_ext. intros. ring. Qed.
Lemma zipw_add_map (r : R) acc f : length acc = length f -> zipw (fun a x => a + r * x) acc f = cm_add acc (map (rmul r) f).
Proof.
  revert f; induction acc as [|a acc IH]; intros [|x f] H; try discriminate; auto.
  cbn [map zipw]. unfold cm_add. cbn [zipl]. f_equal. apply IH. cbn in H. lia.
Qed.
End M.

(** ** The sumcheck polynomial *)
Section G.
Context {F K C R T : Type} {SO : SOps F K C R} {p : Z} {SL : SLaws F K C R p} {TO : TransOps T R K} {HO : ShortOps T C}.
Add Ring Rring20 : (@rlaws_th R _ _).
Add Ring Kring20 : (@rlaws_th K _ _).
Add Ring Cring20 : (@rlaws_th C _ _).

Lemma fold_vecs_lin n k (rho : list R) (vs : list (list R)) : length rho = k -> length vs = k ->
  (forall v, In v vs -> length v = n) ->
  length (fold_vecs n rho vs) = n /\ is_lin k (fun i => nth i rho 0) (fun i => nth i vs []) (fold_vecs n rho vs).
Proof. apply fold_zip_lin. Qed.

Definition gpart (P : dparams) (alpha zeta : list R) (theta eta : list (list R)) (lo : nat) : R :=
  sumn (dp_K P) (fun i => pow_sum (nth (lo + i) alpha 0) (nth (lo + i) theta [])
                        + pow_sum (nth (lo + i) zeta 0) (nth (lo + i) eta [])).
Definition gvals (P : dparams) (alpha beta zeta r1 r2 : list R) (fhs mzs : list (list (mle R))) (x : list R) : list R :=
  [eqp x r1; gpart P alpha zeta (evs fhs x) (evs mzs x) 0%nat; eqp x r2;
   gpart P alpha zeta (evs fhs x) (evs mzs x) (dp_K P); eqp x beta] ++ concat (evs fhs x).
(** The polynomial g of the folding sumcheck. *)
Definition gfold P alpha beta zeta mu r1 r2 fhs mzs (x : list R) : R :=
  fold_comb P mu (gvals P alpha beta zeta r1 r2 fhs mzs x).

Definition tables_ok (s n k : nat) (mss : list (list (mle R))) : Prop :=
  length mss = n /\ Forall (fun ms => length ms = k /\ Forall (fun m => mle_nv m = s) ms) mss.
Lemma tables_nv s n k mss : tables_ok s n k mss -> Forall (Forall (fun m => mle_nv m = s)) mss.
Proof. intros [_ H]. eapply Forall_impl; [|exact H]. intros ms [_ H2]. auto. Qed.

Lemma skipn_nth {A} n (l : list A) i d : nth i (skipn n l) d = nth (n + i) l d.
Proof.
  revert l; induction n as [|n IH]; intros l; cbn [skipn Nat.add]; auto.
  destruct l as [|a l]; [destruct i; auto|]. cbn [nth]. apply IH.
Qed.
Lemma Forall_skipn' {A} (Q : A -> Prop) n l : Forall Q l -> Forall Q (skipn n l).
Proof. intros H. revert n; induction H; intros [|n]; cbn [skipn]; auto. Qed.
Lemma Forall_firstn' {A} (Q : A -> Prop) n l : Forall Q l -> Forall Q (firstn n l).
Proof. intros H. revert n; induction H; intros [|n]; cbn [firstn]; auto. Qed.

Lemma eq_table_at (r x : list R) s : length r = s -> length x = s ->
  mle_spec (mle_get (Mle s (map (eqw r) (seq 0 (2 ^ s))))) x = eqp x r.
Proof.
  intros Hr Hx. rewrite <- mle_spec_eqw by lia. apply mle_spec_ext. intros b Hb. rewrite Hx in Hb.
  unfold mle_get. cbn [mle_evals]. apply nth_seq_map. auto.
Qed.
Lemma part_at s (m : mle R) (x cs : list R) fs zs ms n : length x = s -> (1 <= s)%nat -> mle_nv m = s ->
  rep s m (fun b => sumn n (fun i => pow_sum (nth i cs 0) (at_idx (nth i fs []) b)) +
                    sumn n (fun i => pow_sum (nth i zs 0) (at_idx (nth i ms []) b))) ->
  mle_spec (mle_get m) x =
  sumn n (fun i => pow_sum (nth i cs 0) (nth i (evs fs x) []) + pow_sum (nth i zs 0) (nth i (evs ms x) [])).
Proof.
  intros Hx Hs Hn H. pose proof (rep_full s m _ Hs H Hn) as Hf. subst s.
  rewrite (mle_spec_ext _ (fun b => sumn n (fun i => pow_sum (nth i cs 0) (at_idx (nth i fs []) b)) +
                    sumn n (fun i => pow_sum (nth i zs 0) (at_idx (nth i ms []) b)))) by exact Hf.
  rewrite mle_spec_add.
  rewrite (mle_spec_sumn n (fun i b => pow_sum (nth i cs 0) (at_idx (nth i fs []) b))).
  rewrite (mle_spec_sumn n (fun i b => pow_sum (nth i zs 0) (at_idx (nth i ms []) b))).
  rewrite <- sumn_add. apply sumn_ext. intros i Hi. rewrite !mle_spec_pow_sum, !nth_evs. auto.
Qed.

Lemma fold_poly_ok P s fhs mzs t alpha beta zeta mu rs r1 r2 :
  (1 <= s)%nat -> (1 <= dp_K P)%nat -> tables_ok s (2 * dp_K P) tau fhs -> tables_ok s (2 * dp_K P) t mzs ->
  length alpha = (2 * dp_K P)%nat -> length zeta = (2 * dp_K P)%nat -> length mu = (2 * dp_K P)%nat -> length beta = s ->
  length rs = (2 * dp_K P)%nat -> nth 0 rs [] = r1 -> nth (dp_K P) rs [] = r2 -> length r1 = s -> length r2 = s ->
  exists chM1 chM2 mles,
    challenged_mle (firstn (dp_K P) zeta) (firstn (dp_K P) mzs) = Ok chM1 /\
    challenged_mle (firstn (dp_K P) (skipn (dp_K P) zeta)) (firstn (dp_K P) (skipn (dp_K P) mzs)) = Ok chM2 /\
    create_sumcheck_polynomial P s fhs alpha chM1 chM2 rs beta mu = Ok (mles, (2 * dp_b P)%nat) /\
    length mles = (5 + length mu * tau)%nat /\ Forall (fun m => mle_nv m = s) mles /\
    forall x, length x = s -> mles_at mles x = gvals P alpha beta zeta r1 r2 fhs mzs x.
Proof.
  intros Hs HK Hf Hz Hla Hlz Hlm Hlb Hlr E1 E2 Hr1 Hr2.
  pose proof (tables_nv _ _ _ _ Hf) as Hfn. pose proof (tables_nv _ _ _ _ Hz) as Hzn.
  destruct Hf as [Hfl Hff]. destruct Hz as [Hzl Hzf].
  destruct (challenged_ok s (firstn (dp_K P) zeta) (firstn (dp_K P) mzs) Hs) as (chM1 & EM1 & HM1 & _).
  { rewrite !firstn_length. lia. } { apply Forall_firstn'. auto. }
  destruct (challenged_ok s (firstn (dp_K P) (skipn (dp_K P) zeta)) (firstn (dp_K P) (skipn (dp_K P) mzs)) Hs) as (chM2 & EM2 & HM2 & _).
  { rewrite !firstn_length, !skipn_length. lia. } { apply Forall_firstn', Forall_skipn'. auto. }
  destruct (challenged_ok s (firstn (dp_K P) alpha) (firstn (dp_K P) fhs) Hs) as (c1 & EC1 & HC1 & HN1).
  { rewrite !firstn_length. lia. } { apply Forall_firstn'. auto. }
  destruct (challenged_ok s (skipn (dp_K P) alpha) (skipn (dp_K P) fhs) Hs) as (c2 & EC2 & HC2 & HN2).
  { rewrite !skipn_length. lia. } { apply Forall_skipn'. auto. }
  assert (mle_nv c1 = s) as Hc1n.
  { apply HN1. exists (nth 0 fhs []). assert (In (nth 0 fhs []) (firstn (dp_K P) fhs)) as Hin.
    { rewrite <- (nth_firstn_lt fhs (dp_K P) 0) by lia. apply nth_In. rewrite firstn_length. lia. }
    split; auto. intros E. rewrite Forall_forall in Hff. destruct (Hff (nth 0 fhs [])) as [HL _]; [apply nth_In; lia|].
    rewrite E in HL. cbn in HL. pose proof tau_pos. lia. }
  assert (mle_nv c2 = s) as Hc2n.
  { apply HN2. exists (nth (dp_K P) fhs []). assert (In (nth (dp_K P) fhs []) (skipn (dp_K P) fhs)) as Hin.
    { replace (nth (dp_K P) fhs []) with (nth 0 (skipn (dp_K P) fhs) []) by (rewrite skipn_nth; f_equal; lia).
      apply nth_In. rewrite skipn_length. lia. }
    split; auto. intros E. rewrite Forall_forall in Hff. destruct (Hff (nth (dp_K P) fhs [])) as [HL _]; [apply nth_In; lia|].
    rewrite E in HL. cbn in HL. pose proof tau_pos. lia. }
  destruct (rep_add s c1 chM1 _ _ Hs HC1 HM1) as (d1 & ED1 & HD1 & HDn1).
  destruct (rep_add s c2 chM2 _ _ Hs HC2 HM2) as (d2 & ED2 & HD2 & HDn2).
  exists chM1, chM2. eexists. split; [auto|]. split; [auto|].
  assert (r1 <> [] /\ r2 <> [] /\ beta <> []) as (N1 & N2 & N3).
  { repeat split; intros E; match goal with H : length ?l = s |- _ => rewrite E in H; cbn in H; lia end. }
  split; [|split; [|split]].
  - unfold create_sumcheck_polynomial. rewrite Hla, Hfl, Hlr, Hlb, Hlm, !Nat.eqb_refl. cbn [negb orb].
    rewrite (index_ok rs 0 []) by lia. rewrite E1. cbn [bind]. rewrite build_eq_mle by auto. cbn [bind].
    unfold prepare_g13. rewrite EC1. cbn [bind]. rewrite ED1. cbn [bind].
    rewrite (index_ok rs (dp_K P) []) by lia. rewrite E2. cbn [bind]. rewrite build_eq_mle by auto. cbn [bind].
    rewrite EC2. cbn [bind]. rewrite ED2. cbn [bind]. rewrite build_eq_mle by auto. cbn [bind]. cbn [app].
    rewrite Hr1, Hr2, Hlb. reflexivity.
  - cbn [length]. rewrite (concat_length_const tau).
    + rewrite Hfl, Hlm. lia.
    + intros ms Hin. rewrite Forall_forall in Hff. apply Hff. auto.
  - repeat (apply Forall_cons; [cbn [mle_nv]; auto|]). apply Forall_concat. auto.
  - intros x Hx. unfold mles_at, gvals. cbn [map app]. f_equal; [apply eq_table_at; auto|]. f_equal; [|f_equal; [apply eq_table_at; auto|f_equal; [|f_equal; [apply eq_table_at; auto|]]]].
    + rewrite firstn_length, firstn_length in HD1. rewrite Hla, Hlz in HD1.
      replace (Nat.min (dp_K P) (2 * dp_K P)) with (dp_K P) in HD1 by lia.
      rewrite (part_at s d1 x _ _ _ _ _ Hx Hs (HDn1 (or_introl Hc1n)) HD1).
      unfold gpart. apply sumn_ext. intros i Hi. rewrite !nth_evs. cbn [Nat.add].
      rewrite !nth_firstn_lt by auto. auto.
    + rewrite skipn_length, firstn_length, skipn_length in HD2. rewrite Hla, Hlz in HD2.
      replace (2 * dp_K P - dp_K P)%nat with (dp_K P) in HD2 by lia. rewrite Nat.min_id in HD2.
      rewrite (part_at s d2 x _ _ _ _ _ Hx Hs (HDn2 (or_introl Hc2n)) HD2).
      unfold gpart. apply sumn_ext. intros i Hi. rewrite !nth_evs.
      rewrite !nth_firstn_lt by auto. rewrite !skipn_nth. auto.
    + rewrite concat_map. auto.
Qed.

(** Sum of g over the cube, for arbitrary tables. *)
Definition range_table (b : nat) (mu : list R) (fhs : list (list (mle R))) (i : nat) : R :=
  sumn (length mu) (fun k => sumn tau (fun d =>
    rpow (nth k mu 0) (S d) * range_poly b (mle_get (nth d (nth k fhs []) (Mle 0 [])) i))).
Definition claim_of (P : dparams) (alpha zeta : list R) (vs us : list (list R)) : R :=
  sumn (2 * dp_K P) (fun i => pow_sum (nth i alpha 0) (nth i vs []) + pow_sum (nth i zeta 0) (nth i us [])).
Definition evs2 (k : nat) (mss : list (list (mle R))) (r1 r2 : list R) : list (list R) :=
  evs (firstn k mss) r1 ++ evs (skipn k mss) r2.
Lemma nth_evs2 k mss r1 r2 i : (k <= length mss)%nat ->
  nth i (evs2 k mss r1 r2) [] = map (fun m => mle_spec (mle_get m) (if (i <? k)%nat then r1 else r2)) (nth i mss []).
Proof.
  intros H. unfold evs2. destruct (Nat.ltb_spec i k).
  - rewrite app_nth1 by (rewrite evs_length, firstn_length; lia). rewrite nth_evs, nth_firstn_lt by auto. auto.
  - rewrite app_nth2; rewrite evs_length, firstn_length, Nat.min_l by lia; [|auto].
    rewrite nth_evs, skipn_nth. replace (k + (i - k))%nat with i by lia. auto.
Qed.
Lemma gpart_lin P alpha zeta fhs mzs lo s (r : list R) : length r = s ->
  sumn (2 ^ s) (fun b => eqw r b * gpart P alpha zeta (evs fhs (bits s b)) (evs mzs (bits s b)) lo) =
  gpart P alpha zeta (evs fhs r) (evs mzs r) lo.
Proof.
  intros <-. unfold gpart.
  transitivity (mle_spec (fun b => sumn (dp_K P) (fun i => pow_sum (nth (lo + i) alpha 0) (at_idx (nth (lo + i) fhs []) b)
     + pow_sum (nth (lo + i) zeta 0) (at_idx (nth (lo + i) mzs []) b))) r).
  - unfold mle_spec. apply sumn_ext. intros b Hb. rewrite <- sumn_mul_l, <- sumn_mul_r. apply sumn_ext. intros i Hi.
    rewrite !nth_evs.
    assert (forall ms, map (fun m : mle R => mle_spec (mle_get m) (bits (length r) b)) ms = at_idx ms b) as Hb'.
    { intros ms. unfold at_idx. apply map_ext. intros m. apply mle_spec_bits. auto. }
    rewrite !Hb'. ring.
  - rewrite (mle_spec_sumn (dp_K P) (fun i b => _)). apply sumn_ext. intros i Hi.
    rewrite mle_spec_add, !mle_spec_pow_sum, !nth_evs. auto.
Qed.
Lemma gfold_sum P s alpha beta zeta mu r1 r2 fhs mzs t : length beta = s -> length r1 = s -> length r2 = s ->
  tables_ok s (2 * dp_K P) tau fhs -> tables_ok s (2 * dp_K P) t mzs -> length mu = (2 * dp_K P)%nat ->
  cube_sum s (gfold P alpha beta zeta mu r1 r2 fhs mzs) =
  claim_of P alpha zeta (evs2 (dp_K P) fhs r1 r2) (evs2 (dp_K P) mzs r1 r2) + mle_spec (range_table (dp_b P) mu fhs) beta.
Proof.
  intros Hb Hr1 Hr2 [Hfl Hff] [Hzl Hzf] Hmu. unfold cube_sum.
  transitivity (sumn (2 ^ s) (fun b => eqw r1 b * gpart P alpha zeta (evs fhs (bits s b)) (evs mzs (bits s b)) 0
    + eqw r2 b * gpart P alpha zeta (evs fhs (bits s b)) (evs mzs (bits s b)) (dp_K P)
    + range_table (dp_b P) mu fhs b * eqw beta b)).
  - apply sumn_ext. intros b Hb'. unfold gfold. rewrite fold_comb_spec. unfold fold_comb_closed, gvals. cbn [app nth].
    rewrite !eqp_bits by auto. f_equal. unfold range_table. rewrite <- sumn_mul_r. apply sumn_ext. intros k Hk.
    rewrite <- sumn_mul_r. apply sumn_ext. intros d Hd.
    change (5 + (k * tau + d))%nat with (S (S (S (S (S (k * tau + d)))))). cbn [nth].
    assert (length (nth k fhs []) = tau) as HL.
    { rewrite Forall_forall in Hff. apply Hff. apply nth_In. lia. }
    rewrite (nth_concat_const tau (evs fhs (bits s b)) k d 0).
    + rewrite nth_evs. rewrite (nth_map_lt _ _ _ (Mle 0 [])) by lia. rewrite mle_spec_bits by auto. ring.
    + apply tau_pos.
    + intros c Hc. apply in_map_iff in Hc as (ms & <- & Hin). rewrite map_length. rewrite Forall_forall in Hff. apply Hff. auto.
    + rewrite evs_length. lia.
    + auto.
  - rewrite !sumn_add, !gpart_lin by auto. f_equal; [|unfold mle_spec; rewrite Hb; reflexivity].
    unfold claim_of, gpart. replace (2 * dp_K P)%nat with (dp_K P + dp_K P)%nat by lia. rewrite (sumn_split (dp_K P) (dp_K P)).
    f_equal; apply sumn_ext; intros i Hi; rewrite !nth_evs2, !nth_evs by lia.
    + cbn [Nat.add]. rewrite (proj2 (Nat.ltb_lt i (dp_K P))) by auto. auto.
    + rewrite (proj2 (Nat.ltb_ge (dp_K P + i) (dp_K P))) by lia. auto.
Qed.
End G.
