(** Forking by counting: among more than n |S|^(n-1) vectors over S there is one that can be varied in every coordinate. *)
From Coq Require Import List Arith Lia Bool.
From Verif Require Import Zippel Counting.
Import ListNotations.

Section Fork.
Context {A : Type} (d0 : A) (eqA : forall a b : A, {a = b} + {a <> b}).
(** [y] differs from [x] in coordinate [i] and in no other one. *)
Definition varies (m i : nat) (x y : list A) : Prop := length x = m /\ length y = m /\ (forall k, (k < m)%nat -> nth k y d0 = nth k x d0 <-> k <> i).
Definition drop (i : nat) (x : list A) : list A := firstn i x ++ skipn (S i) x.
Lemma split_at i (x : list A) : (i < length x)%nat -> x = firstn i x ++ nth i x d0 :: skipn (S i) x.
Proof. revert i. induction x as [|a x IH]; intros [|i] H; cbn [length firstn nth skipn app] in *; try lia; [auto|]. f_equal. rewrite (IH i) at 1 by lia. reflexivity. Qed.
Lemma drop_in m (S0 : list A) i x : (i < m)%nat -> In x (tuples m S0) -> In (drop i x) (tuples (m - 1) S0).
Proof.
  rewrite !in_tuples. intros Hi [H1 H2]. unfold drop. split; [rewrite app_length, firstn_length, skipn_length; lia|].
  rewrite (split_at i x) in H2 by lia. apply Forall_app in H2 as [H2 H3]. apply Forall_app. split; auto. apply Forall_inv_tail in H3. auto.
Qed.
Lemma drop_same m i x y : (i < m)%nat -> length x = m -> length y = m -> drop i x = drop i y -> x = y \/ varies m i x y.
Proof.
  intros Hi Hx Hy E. unfold drop in E. apply app_split_len in E as [E1 E2]; [|rewrite !firstn_length; lia].
  assert (x = firstn i x ++ nth i x d0 :: skipn (S i) x) as Ex by (apply split_at; lia).
  assert (y = firstn i x ++ nth i y d0 :: skipn (S i) x) as Ey by (rewrite E1, E2; apply split_at; lia).
  assert (length (firstn i x) = i) as Lf by (rewrite firstn_length; lia). destruct (eqA (nth i x d0) (nth i y d0)) as [E|N].
  - left. rewrite Ex, Ey, E. rewrite <- E at 1. congruence.
  - right. split; [auto|]. split; [auto|]. intros k Hk. split.
    + intros E ->. congruence.
    + intros Hk'. rewrite Ex, Ey. destruct (Nat.lt_ge_cases k i) as [H|H]; [rewrite !app_nth1 by lia; auto|]. rewrite !app_nth2 by lia. rewrite Lf. destruct (k - i)%nat as [|j] eqn:Ej; [lia|reflexivity].
Qed.
Definition variesb (m i : nat) (x y : list A) : bool :=
  ((length x =? m) && (length y =? m))%nat && forallb (fun k => Bool.eqb (if eqA (nth k y d0) (nth k x d0) then true else false) (negb (k =? i)%nat)) (seq 0 m).
Lemma variesb_ok m i x y : variesb m i x y = true <-> varies m i x y.
Proof.
  unfold variesb, varies. rewrite !andb_true_iff, !Nat.eqb_eq, forallb_forall. split.
  - intros [[H1 H2] H]. split; auto. split; auto. intros k Hk. specialize (H k ltac:(apply in_seq; lia)). apply eqb_prop in H.
    destruct (eqA _ _), (Nat.eqb_spec k i); cbn [negb] in H; try discriminate; split; intros; try congruence; auto.
  - intros (H1 & H2 & H). split; auto. intros k Hk. apply in_seq in Hk. specialize (H k ltac:(lia)). destruct (eqA _ _), (Nat.eqb_spec k i); cbn [negb]; auto; exfalso; intuition congruence.
Qed.
Theorem fork_exists m (S0 : list A) (L : list (list A)) : NoDup L -> Forall (fun x => In x (tuples m S0)) L -> (m * length S0 ^ (m - 1) < length L)%nat ->
  exists x, In x L /\ forall i, (i < m)%nat -> exists y, In y L /\ varies m i x y.
Proof.
  intros ND HF HL. set (good := fun x => forallb (fun i => existsb (variesb m i x) L) (seq 0 m)).
  destruct (existsb good L) eqn:E.
  - apply existsb_exists in E as (x & Hx & G). exists x. split; auto. intros i Hi. unfold good in G. rewrite forallb_forall in G. specialize (G i ltac:(apply in_seq; lia)).
    apply existsb_exists in G as (y & Hy & V). exists y. split; auto. apply variesb_ok, V.
  - exfalso. rewrite Forall_forall in HF.
    assert (few (fun x => exists i, (i < m)%nat /\ (In x L /\ forall y, In y L -> ~ varies m i x y)) (m * length S0 ^ (m - 1))) as FW.
    { apply few_lt. intros i Hi. rewrite <- tuples_length. apply (few_inj (drop i) _ (fun z => In z (tuples (m - 1) S0))).
      - intros x [Hx _]. apply drop_in; auto.
      - intros x y [Hx Nx] [Hy _] Ed. assert (length x = m /\ length y = m) as [Lx Ly]. { pose proof (HF x Hx) as Q1. pose proof (HF y Hy) as Q2. apply in_tuples in Q1, Q2. tauto. }
        destruct (drop_same m i x y Hi Lx Ly Ed) as [|V]; auto. exfalso. exact (Nx y Hy V).
      - apply few_in. auto. }
    assert (length L <= m * length S0 ^ (m - 1))%nat; [|lia]. apply FW; auto. apply Forall_forall. intros x Hx.
    assert (good x = false) as Gx. { destruct (good x) eqn:G; auto. assert (existsb good L = true) by (apply existsb_exists; eauto). congruence. }
    unfold good in Gx. clear - Gx Hx.
    assert (exists i, In i (seq 0 m) /\ existsb (variesb m i x) L = false) as (i & Hi & Ei).
    { induction (seq 0 m) as [|i l IH]; cbn [forallb] in Gx; [discriminate|]. destruct (existsb (variesb m i x) L) eqn:Q; [|exists i; split; [left|]; auto].
      destruct (IH Gx) as (j & Hj & Ej). exists j. split; [right|]; auto. }
    exists i. split; [apply in_seq in Hi; lia|]. split; auto. intros y Hy V. assert (existsb (variesb m i x) L = true); [|congruence]. apply existsb_exists. exists y. split; auto. apply variesb_ok, V.
Qed.
End Fork.
