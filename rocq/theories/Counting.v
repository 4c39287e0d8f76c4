(** Counting: how many of a finite set of challenge vectors meet a predicate.  Used to turn the
    deterministic soundness theorems into bounds on the number of challenge vectors that let a
    cheating prover pass. *)
From Coq Require Import List Arith Lia ZArith Bool Permutation.
From Verif Require Import Prelude Alg Zippel.
Import ListNotations.

(** At most [N] objects have property [P]. *)
Definition few {A} (P : A -> Prop) (N : nat) : Prop := forall L, NoDup L -> Forall P L -> (length L <= N)%nat.

Section Few.
Context {A : Type}.
Implicit Types P Q : A -> Prop.
Lemma few_weaken P Q n m : (forall x, Q x -> P x) -> (n <= m)%nat -> few P n -> few Q m.
Proof. intros H Hn HP L HL HF. specialize (HP L HL (Forall_impl _ H HF)). lia. Qed.
Lemma few_none P n : (forall x, ~ P x) -> few P n.
Proof. intros H L _ HF. destruct HF as [|x L Hx _]; [cbn; lia|]. destruct (H x Hx). Qed.
(** To bound the objects with property [P] one may assume that there is one. *)
Lemma few_if P n : (forall x, P x -> few P n) -> few P n.
Proof. intros H L HL HF. destruct HF as [|x L Hx HF]; [cbn; lia|]. apply (H x Hx); auto. Qed.
Lemma split_or P Q L : Forall (fun x => P x \/ Q x) L -> exists L1 L2, Permutation L (L1 ++ L2) /\ Forall P L1 /\ Forall Q L2.
Proof.
  induction 1 as [|x L [H|H] _ (L1 & L2 & E & H1 & H2)]; [exists [], []; auto| |].
  - exists (x :: L1), L2. cbn [app]. auto.
  - exists L1, (x :: L2). split; [|auto]. etransitivity; [apply perm_skip, E|]. apply Permutation_middle.
Qed.
Lemma nodup_app (L1 L2 : list A) : NoDup (L1 ++ L2) -> NoDup L1 /\ NoDup L2.
Proof.
  induction L1 as [|x L1 IH]; cbn [app]; [split; [constructor|auto]|]. intros H. inversion H; subst. destruct IH; auto.
  split; auto. constructor; auto. intros Hx. apply H2. apply in_app_iff. auto.
Qed.
Lemma few_or P Q n m : few P n -> few Q m -> few (fun x => P x \/ Q x) (n + m).
Proof.
  intros HP HQ L HL HF. destruct (split_or _ _ _ HF) as (L1 & L2 & E & H1 & H2).
  pose proof (Permutation_NoDup E HL) as HN. apply nodup_app in HN as [N1 N2].
  rewrite (Permutation_length E), app_length. specialize (HP L1 N1 H1). specialize (HQ L2 N2 H2). lia.
Qed.
(** Case distinction without deciding the case: the bound on a length is stable under double negation. *)
Lemma few_em P Q n m : few (fun x => P x /\ Q x) n -> few (fun x => P x /\ ~ Q x) m -> few P (n + m).
Proof.
  intros HP HQ L HL HF. destruct (le_lt_dec (length L) (n + m)) as [|Hgt]; auto. exfalso.
  assert (~ ~ Forall (fun x => (P x /\ Q x) \/ (P x /\ ~ Q x)) L) as HH.
  { clear - HF. induction HF as [|x L Hx _ IH]; [intros H; apply H; auto|]. intros H. apply IH. intros HL.
    apply H. constructor; auto. right. split; auto. intros HQ. apply H. constructor; auto. }
  apply HH. intros HE. pose proof (few_or _ _ _ _ HP HQ L HL HE). lia.
Qed.
Lemma few_lt (P : nat -> A -> Prop) m n : (forall i, (i < m)%nat -> few (P i) n) -> few (fun x => exists i, (i < m)%nat /\ P i x) (m * n).
Proof.
  induction m as [|m IH]; intros H; [apply few_none; intros x (i & Hi & _); lia|].
  apply (few_weaken (fun x => (exists i, (i < m)%nat /\ P i x) \/ P m x) _ (m * n + n)); [|lia|].
  - intros x (i & Hi & Hx). destruct (Nat.eq_dec i m) as [->|]; [right; auto|]. left. exists i. split; auto. lia.
  - apply few_or; [apply IH|]; auto.
Qed.
Lemma few_disj P Q n : few P n -> few Q n -> (forall x y, P x -> Q y -> False) -> few (fun x => P x \/ Q x) n.
Proof.
  intros HP HQ Hd. apply few_if. intros x [Hx|Hx].
  - eapply few_weaken; [|apply le_n|exact HP]. intros y [Hy|Hy]; auto. destruct (Hd x y Hx Hy).
  - eapply few_weaken; [|apply le_n|exact HQ]. intros y [Hy|Hy]; auto. destruct (Hd y x Hy Hx).
Qed.
Lemma few_in (L : list A) P : (forall x, P x -> In x L) -> few P (length L).
Proof. intros H L' HL HF. apply NoDup_incl_length; auto. intros x Hx. rewrite Forall_forall in HF. auto. Qed.
End Few.

Lemma map_nodup_on {A B} (f : A -> B) (P : A -> Prop) L : (forall x y, P x -> P y -> f x = f y -> x = y) ->
  Forall P L -> NoDup L -> NoDup (map f L).
Proof.
  intros Hf HF HL. induction HL as [|x L Hx HL IH]; cbn [map]; [constructor|]. inversion HF as [|? ? Hpx HF']; subst.
  constructor; [|apply IH; auto]. intros Hin. apply in_map_iff in Hin as (y & E & Hy). rewrite Forall_forall in HF'.
  rewrite (Hf y x) in Hy by auto. auto.
Qed.
Lemma few_inj {A B} (f : A -> B) (P : A -> Prop) (Q : B -> Prop) n :
  (forall x, P x -> Q (f x)) -> (forall x y, P x -> P y -> f x = f y -> x = y) -> few Q n -> few P n.
Proof.
  intros H1 H2 HQ L HL HF. rewrite <- (map_length f L). apply HQ; [eapply map_nodup_on; eauto|].
  apply Forall_map. eapply Forall_impl; eauto.
Qed.
Lemma filter_split_len {A} (f : A -> bool) L : length L = (length (filter f L) + length (filter (fun x => negb (f x)) L))%nat.
Proof. induction L as [|x L IH]; cbn [filter length]; auto. destruct (f x); cbn [negb length]; lia. Qed.
(** Counting fibre by fibre. *)
Lemma few_fibre {A B} (eqB : forall a b : B, {a = b} + {a <> b}) (key : A -> B) (G : list B) (P : A -> Prop) n :
  (forall x, P x -> In (key x) G) -> (forall g, In g G -> few (fun x => P x /\ key x = g) n) -> few P (length G * n).
Proof.
  revert P; induction G as [|g G IH]; intros P H1 H2; [apply few_none; intros x Hx; apply (H1 x Hx)|].
  intros L HL HF. rewrite (filter_split_len (fun x => if eqB (key x) g then true else false) L). cbn [length Nat.mul].
  rewrite Forall_forall in HF. apply Nat.add_le_mono.
  - apply (H2 g); [left; auto|apply NoDup_filter; auto|]. apply Forall_forall. intros x Hx. apply filter_In in Hx as [Hx Hk].
    destruct (eqB (key x) g); [auto|discriminate].
  - apply (IH (fun x => P x /\ key x <> g)); [| |apply NoDup_filter; auto|].
    + intros x [Hx Hk]. destruct (H1 x Hx) as [E|]; [congruence|auto].
    + intros g' Hg'. eapply few_weaken; [|apply le_n|apply (H2 g'); right; auto]. intros x [[Hx _] Hk]. auto.
    + apply Forall_forall. intros x Hx. apply filter_In in Hx as [Hx Hk].
      destruct (eqB (key x) g); [discriminate|auto].
Qed.

Lemma app_split_len {A} (a b c d : list A) : a ++ b = c ++ d -> length a = length c -> a = c /\ b = d.
Proof.
  revert c; induction a as [|x a IH]; intros [|y c] E H; cbn in *; try discriminate; auto.
  injection E as -> E. destruct (IH c) as [-> ->]; auto.
Qed.

(** ** Vectors of coins *)
Section Coords.
Context {K : Type} {KO : FieldOps K} {KL : FieldLaws K}.
Lemma kl_dec : forall a b : list K, {a = b} + {a <> b}.
Proof. apply list_eq_dec, req_dec. Qed.
Lemma tuples_firstn i n (S : list K) x : (i <= n)%nat -> In x (tuples n S) -> In (firstn i x) (tuples i S).
Proof.
  rewrite !in_tuples. intros Hi [H1 H2]. split; [rewrite firstn_length; lia|]. apply Forall_forall. intros a Ha.
  rewrite Forall_forall in H2. apply H2. rewrite <- (firstn_skipn i x). apply in_app_iff. auto.
Qed.
Lemma tuples_skipn i n (S : list K) x : In x (tuples n S) -> In (skipn i x) (tuples (n - i) S).
Proof.
  rewrite !in_tuples. intros [H1 H2]. split; [rewrite skipn_length; lia|]. apply Forall_forall. intros a Ha.
  rewrite Forall_forall in H2. apply H2. rewrite <- (firstn_skipn i x). apply in_app_iff. auto.
Qed.
Lemma tuples_app n m (S : list K) x y : In x (tuples n S) -> In y (tuples m S) -> In (x ++ y) (tuples (n + m) S).
Proof. rewrite !in_tuples. intros [H1 H2] [H3 H4]. split; [rewrite app_length; lia|]. apply Forall_app; auto. Qed.
Lemma tuples_nth i n (S : list K) x : (i < n)%nat -> In x (tuples n S) -> In (nth i x 0%rs) S.
Proof. rewrite in_tuples. intros Hi [H1 H2]. rewrite Forall_forall in H2. apply H2, nth_In. lia. Qed.

(** One coordinate restricted to few values by the coordinates before it. *)
Lemma few_coord (S : list K) n i (B : list K -> K -> Prop) d : (i < n)%nat ->
  (forall pre, In pre (tuples i S) -> few (fun c => In c S /\ B pre c) d) ->
  few (fun x => In x (tuples n S) /\ B (firstn i x) (nth i x 0%rs)) (length S ^ (n - 1) * d).
Proof.
  intros Hi HB. rewrite <- (tuples_length (n - 1) S).
  apply (few_fibre kl_dec (fun x => firstn i x ++ skipn (Datatypes.S i) x)).
  - intros x [Hx _]. replace (n - 1)%nat with (i + (n - Datatypes.S i))%nat by lia.
    apply tuples_app; [apply (tuples_firstn _ n)|apply tuples_skipn]; auto; lia.
  - intros g Hg. apply (few_inj (fun x => nth i x 0%rs) _ (fun c => In c S /\ B (firstn i g) c)).
    + intros x [[Hx Hb] E]. split; [apply (tuples_nth i n); auto|].
      apply in_tuples in Hx as [Hl _]. assert (firstn i g = firstn i x) as ->; auto.
      rewrite <- E, firstn_app. rewrite firstn_firstn, Nat.min_id, firstn_length, Hl.
      replace (i - Nat.min i n)%nat with 0%nat by lia. cbn [firstn]. apply app_nil_r.
    + intros x y [[Hx _] Ex] [[Hy _] Ey] Hn. apply in_tuples in Hx as [Lx _]. apply in_tuples in Hy as [Ly _].
      rewrite <- Ey in Ex. apply app_split_len in Ex as [E1 E2].
      * rewrite <- (firstn_skipn i x), <- (firstn_skipn i y), E1. f_equal.
        assert (forall z : list K, length z = n -> skipn i z = nth i z 0%rs :: skipn (Datatypes.S i) z) as Hs.
        { intros z Hz. clear - Hz Hi. revert i n z Hz Hi. induction i as [|i IH]; intros n [|a z] Hz Hi; cbn in *; try lia; auto.
          apply (IH (n - 1)%nat); lia. }
        rewrite !Hs by auto. congruence.
      * rewrite !firstn_length. lia.
    + apply HB. apply (tuples_firstn i (n - 1)) in Hg; auto. lia.
Qed.
(** Some coordinate of a block so restricted. *)
Lemma few_block (S : list K) n a k (B : nat -> list K -> K -> Prop) d : (a + k <= n)%nat ->
  (forall i pre, (i < k)%nat -> In pre (tuples (a + i) S) -> few (fun c => In c S /\ B i pre c) d) ->
  few (fun x => In x (tuples n S) /\ exists i, (i < k)%nat /\ B i (firstn (a + i) x) (nth (a + i) x 0%rs)) (k * d * length S ^ (n - 1)).
Proof.
  intros Hk HB.
  apply (few_weaken (fun x => exists i, (i < k)%nat /\ (In x (tuples n S) /\ B i (firstn (a + i) x) (nth (a + i) x 0%rs))) _ (k * (length S ^ (n - 1) * d))).
  - intros x (H1 & i & Hi & H2). eauto.
  - lia.
  - apply few_lt. intros i Hi. apply (few_coord S n (a + i) (B i)); [lia|]. intros. apply HB; auto.
Qed.
End Coords.
