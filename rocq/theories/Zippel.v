(** The Schwartz-Zippel bound for multilinear extensions, by counting points. *)
From Coq Require Import List Arith Lia ZArith Bool Ring FinFun.
From Verif Require Import Prelude Alg MLE MLE_Proofs.
Import ListNotations.
Local Open Scope rs_scope.

(** All lists of length [n] with entries in [S]. *)
Fixpoint tuples {A} (n : nat) (S : list A) : list (list A) :=
  match n with O => [[]] | Datatypes.S n' => flat_map (fun y => map (fun x => x :: y) S) (tuples n' S) end.
Lemma in_tuples {A} n (S : list A) x : In x (tuples n S) <-> length x = n /\ Forall (fun a => In a S) x.
Proof.
  revert x; induction n as [|n IH]; intros x; cbn [tuples].
  - split; [intros [<-|[]]; auto|]. intros [H _]. destruct x; [left; auto|discriminate].
  - rewrite in_flat_map. split.
    + intros (y & Hy & Hx). apply in_map_iff in Hx as (a & <- & Ha). apply IH in Hy as [H1 H2]. cbn [length]. auto.
    + intros [H1 H2]. destruct x as [|a y]; [discriminate|]. injection H1 as H1. inversion H2; subst. exists y. split; [apply IH; auto|].
      apply in_map_iff. eauto.
Qed.
Lemma tuples_length {A} n (S : list A) : length (tuples n S) = (length S ^ n)%nat.
Proof.
  induction n as [|n IH]; [reflexivity|]. cbn [tuples Nat.pow]. rewrite <- IH. generalize (tuples n S). intros l. clear IH.
  induction l as [|y l IH]; cbn [flat_map length]; [lia|]. rewrite app_length, map_length, IH. lia.
Qed.
Lemma tuples_NoDup {A} n (S : list A) : NoDup S -> NoDup (tuples n S).
Proof.
  intros HS. induction n as [|n IH]; cbn [tuples]; [repeat constructor; auto|]. revert IH. generalize (tuples n S). intros l Hl.
  induction Hl as [|y l Hy Hl IH]; cbn [flat_map]; [constructor|].
  assert (NoDup (map (fun x => x :: y) S)) as H1 by (apply Injective_map_NoDup; auto; intros a b E; injection E; auto).
  revert H1 IH. clear Hl. intros H1 IH. assert (forall z, In z (map (fun x => x :: y) S) -> ~ In z (flat_map (fun y0 => map (fun x => x :: y0) S) l)) as H2.
  { intros z Hz Hz'. apply in_map_iff in Hz as (a & <- & _). apply in_flat_map in Hz' as (y' & Hy' & Hz'). apply in_map_iff in Hz' as (a' & E & _). injection E as _ ->. auto. }
  induction (map (fun x => x :: y) S) as [|z zs IHz]; [exact IH|]. cbn [app]. inversion H1; subst. constructor.
  - rewrite in_app_iff. intros [H|H]; [auto|]. apply (H2 z); [left; auto|auto].
  - apply IHz; auto. intros. apply H2. right. auto.
Qed.

Section Z.
Context {K : Type} {KO : FieldOps K} {KL : FieldLaws K}.
Add Ring Kring77 : (@rlaws_th K _ _).
Lemma count_flat {A B} (f : B -> bool) (g : A -> list B) (bad : A -> bool) q l :
  (forall y, bad y = true -> length (filter f (g y)) <= q)%nat -> (forall y, bad y = false -> length (filter f (g y)) <= 1)%nat ->
  (length (filter f (flat_map g l)) <= q * length (filter bad l) + length l)%nat.
Proof.
  intros H1 H2. induction l as [|y l IH]; cbn [flat_map filter length]; [lia|]. rewrite filter_app, app_length.
  destruct (bad y) eqn:E; [specialize (H1 y E)|specialize (H2 y E)]; cbn [length]; lia.
Qed.
Lemma filter_len {A} (f : A -> bool) l : (length (filter f l) <= length l)%nat.
Proof. induction l as [|a l IH]; cbn [filter length]; [lia|]. destruct (f a); cbn [length]; lia. Qed.
Lemma one_root (e o : K) S : NoDup S -> e <> 0 \/ o <> 0 -> (length (filter (fun x => (e + x * (o - e) =? 0)%rs) S) <= 1)%nat.
Proof.
  intros HS He. pose proof (NoDup_filter (fun x => e + x * (o - e) =? 0) HS) as HN.
  assert (forall x, In x (filter (fun x => e + x * (o - e) =? 0) S) -> e + x * (o - e) = 0) as HR by (intros x Hx; apply filter_In in Hx as [_ Hx]; apply req_true in Hx; exact Hx).
  destruct (filter _ S) as [|a [|b l]]; cbn [length]; [lia|lia|]. exfalso.
  pose proof (HR a ltac:(left; auto)) as Ha. pose proof (HR b ltac:(right; left; auto)) as Hb.
  assert ((a - b) * (o - e) = 0) as E. { transitivity ((e + a * (o - e)) - (e + b * (o - e))); [ring|]. rewrite Ha, Hb. ring. }
  apply fmul_eq_0 in E as [E|E].
  - apply (proj1 (rsub_0_iff _ _)) in E. subst b. inversion HN as [|? ? Hn _]. apply Hn. left. auto.
  - assert (e = 0) as E0. { rewrite E in Ha. transitivity (e + a * 0); [ring|exact Ha]. }
    apply (proj1 (rsub_0_iff _ _)) in E. subst o. destruct He; auto.
Qed.
Lemma filter_map_cons (f : list K -> bool) (y : list K) S : length (filter f (map (fun x => x :: y) S)) = length (filter (fun x => f (x :: y)) S).
Proof. induction S as [|a S IH]; cbn [map filter]; [reflexivity|]. destruct (f (a :: y)); cbn [length]; auto. Qed.
Theorem zippel n (t : nat -> K) S : NoDup S -> (exists b, (b < 2 ^ n)%nat /\ t b <> 0%rs) ->
  (length S * length (filter (fun x => (mle_spec t x =? 0)%rs) (tuples n S)) <= n * length S ^ n)%nat.
Proof.
  intros HS. revert t. induction n as [|n IH]; intros t (b & Hb & Ht).
  - assert (b = 0)%nat as -> by (cbn in Hb; lia). cbn [tuples filter]. rewrite mle_spec_nil. destruct (t 0%nat =? 0) eqn:E; [apply req_true in E; contradiction|].
    cbn [length]. lia.
  - cbn [tuples]. set (e := fun i => t (2 * i)%nat). set (o := fun i => t (2 * i + 1)%nat).
    assert (forall x y, mle_spec t (x :: y) = mle_spec e y + x * (mle_spec o y - mle_spec e y)) as EM.
    { intros x y. rewrite mle_spec_cons, (mle_spec_add e (fun i => x * (o i - e i))), mle_spec_scale, mle_spec_sub. reflexivity. }
    assert (exists s, (s = e \/ s = o) /\ exists i, (i < 2 ^ n)%nat /\ s i <> 0%rs) as (s & Hs & Hi).
    { rewrite Nat.pow_succ_r' in Hb. destruct (Nat.Even_or_Odd b) as [[i ->]|[i ->]]; [exists e|exists o]; (split; [auto|]); exists i; split; auto; lia. }
    specialize (IH s Hi).
    pose proof (count_flat (fun x => (mle_spec t x =? 0)%rs) (fun y => map (fun x => x :: y) S) (fun y => (mle_spec s y =? 0)%rs) (length S) (tuples n S)) as HC.
    rewrite tuples_length in HC.
    assert (length (filter (fun x => (mle_spec t x =? 0)%rs) (flat_map (fun y => map (fun x => x :: y) S) (tuples n S)))
      <= length S * length (filter (fun y => (mle_spec s y =? 0)%rs) (tuples n S)) + length S ^ n)%nat as HB.
    { apply HC.
      - intros y _. rewrite filter_map_cons. apply filter_len.
      - intros y Hy. rewrite filter_map_cons. apply req_false in Hy.
        rewrite (filter_ext _ (fun x => mle_spec e y + x * (mle_spec o y - mle_spec e y) =? 0)) by (intros x; rewrite EM; reflexivity).
        apply one_root; auto. destruct Hs as [->| ->]; auto. }
    cbn [Nat.pow]. nia.
Qed.
End Z.
