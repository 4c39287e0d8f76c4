(** Proofs about latticefold-plus/src/utils.rs: tensors, [split], short challenges. *)
From Coq Require Import String List Arith Lia ZArith Bool Ring.
From Verif Require Import Prelude Alg MLE Transcript Arith Balanced Rings PlusRing.
Import ListNotations.
Local Open Scope rs_scope.

Section Tensor.
Context {R : Type} {RO : RingOps R} {LR : RingLaws R}.
Add Ring Rring28 : (@rlaws_th R RO LR).

Lemma flat_map_length {A B} (f : A -> list B) l c : (forall a, length (f a) = c) -> length (flat_map f l) = (length l * c)%nat.
Proof. intros H. induction l as [|a l IH]; cbn [flat_map length]; auto. rewrite app_length, IH, H. lia. Qed.
Lemma nth_flat_map {A B} (f : A -> list B) l c i j da db : (forall a, length (f a) = c) ->
  (i < length l)%nat -> (j < c)%nat -> nth (i * c + j) (flat_map f l) db = nth j (f (nth i l da)) db.
Proof.
  intros H. revert i; induction l as [|a l IH]; intros i Hi Hj; cbn [length] in Hi; [lia|].
  cbn [flat_map]. destruct i as [|i].
  - rewrite app_nth1 by (rewrite H; lia). f_equal. 
  - rewrite app_nth2 by (rewrite H; lia). rewrite H.
    replace (S i * c + j - c)%nat with (i * c + j)%nat by lia. cbn [nth]. apply IH; lia.
Qed.

Lemma tp_nonempty (a b : list R) : a <> [] -> b <> [] -> tensor_product a b = flat_map (fun x => map (fun y => x * y) b) a.
Proof. destruct a, b; intros; try congruence; reflexivity. Qed.
Lemma tp_length (a b : list R) : a <> [] -> b <> [] -> length (tensor_product a b) = (length a * length b)%nat.
Proof. intros. rewrite tp_nonempty by auto. apply flat_map_length. intros. apply map_length. Qed.
Lemma tp_nth (a b : list R) i j : (i < length a)%nat -> (j < length b)%nat ->
  nth (i * length b + j) (tensor_product a b) 0 = nth i a 0 * nth j b 0.
Proof.
  intros Hi Hj. rewrite tp_nonempty by (intros ->; cbn in *; lia).
  rewrite (nth_flat_map _ a (length b) i j 0) by (auto; intros; apply map_length).
  rewrite (nth_map_lt _ b j 0) by auto. reflexivity.
Qed.

Lemma tensor_snoc (r : list R) x : tensor (r ++ [x]) = tensor_product (tensor r) [1 - x; x].
Proof. unfold tensor. rewrite fold_left_app. reflexivity. Qed.
Lemma tensor_length (r : list R) : length (tensor r) = (2 ^ length r)%nat.
Proof.
  induction r as [|x r IH] using rev_ind; [reflexivity|].
  rewrite tensor_snoc, tp_length, IH, app_length by (try (intros E; rewrite E in IH; cbn in IH; pose proof (Nat.pow_nonzero 2 (length r)); lia); discriminate).
  cbn [length]. rewrite Nat.add_1_r. cbn. lia.
Qed.
Lemma tensor_nth (r : list R) b : (b < 2 ^ length r)%nat ->
  nth b (tensor r) 0 =
  prodn (length r) (fun i => if Nat.testbit b (length r - 1 - i) then nth i r 0 else 1 - nth i r 0).
Proof.
  revert b; induction r as [|x r IH] using rev_ind; intros b Hb.
  - cbn in *. replace b with 0%nat by lia. reflexivity.
  - rewrite app_length in *. cbn [length] in *. rewrite Nat.add_1_r in *.
    rewrite tensor_snoc. pose proof (tensor_length r) as HL.
    assert (2 ^ S (length r) = 2 * 2 ^ length r)%nat as E2 by reflexivity.
    pose proof (Nat.div_mod b 2 ltac:(lia)) as Ed. pose proof (Nat.mod_upper_bound b 2 ltac:(lia)) as Hm.
    replace b with (b / 2 * length [(1 - x)%rs; x] + b mod 2)%nat at 1 by (cbn [length]; lia).
    assert (b / 2 < 2 ^ length r)%nat by (apply Nat.div_lt_upper_bound; lia).
    rewrite tp_nth by (rewrite ?HL; cbn [length]; auto). rewrite IH by auto.
    cbn [prodn]. f_equal.
    + apply prodn_ext. intros i Hi. rewrite app_nth1 by auto.
      replace (S (length r) - 1 - i)%nat with (S (length r - 1 - i)) by lia.
      cbn [Nat.testbit]. rewrite Nat.div2_div. reflexivity.
    + rewrite app_nth2, Nat.sub_diag by lia. replace (S (length r) - 1 - length r)%nat with 0%nat by lia.
      rewrite Nat.bit0_odd. rewrite <- Nat.bit0_mod, Nat.bit0_odd. destruct (Nat.odd b); reflexivity.
Qed.
(** The entries are the eq weights of the reversed point. *)
Lemma tensor_eqw (r : list R) b : (b < 2 ^ length r)%nat -> nth b (tensor r) 0 = eqw (rev r) b.
Proof.
  intros Hb. rewrite tensor_nth by auto. unfold eqw. rewrite rev_length.
  set (n := length r). 
  assert (forall (f : nat -> R) m, prodn m f = prodn m (fun i => f (m - 1 - i)%nat)) as rev_prod.
  { clear - LR. intros f m. assert (forall a, prodn a (fun i => f (m - 1 - i)%nat) * prodn (m - a) f = prodn m f \/ (m < a)%nat) as H.
    { induction a as [|a IH]; [left; rewrite Nat.sub_0_r; cbn [prodn]; ring|].
      destruct IH as [IH|IH]; [|right; lia]. destruct (Nat.eq_dec a m) as [->|Hne]; [right; lia|].
      destruct (le_lt_dec m a); [right; lia|]. left. rewrite <- IH.
      replace (m - a)%nat with (S (m - S a)) by lia. cbn [prodn].
      replace (m - 1 - a)%nat with (m - S a)%nat by lia. ring. }
    destruct (H m) as [E|]; [|lia]. rewrite <- E, Nat.sub_diag. cbn [prodn]. ring. }
  rewrite rev_prod. apply prodn_ext. intros i Hi.
  replace (n - 1 - (n - 1 - i))%nat with i by lia.
  rewrite rev_nth by (fold n; lia). fold n. replace (n - S i)%nat with (n - 1 - i)%nat by lia. reflexivity.
Qed.
End Tensor.

Section Split.
Context {K R T : Type} {PO : POps K R} {TO : TransOps T R K} {p : Z} {PL : PLaws K R p}.

(** The data [split] lays out: entry after entry, digit after digit, coefficient after coefficient. *)
Definition split_data (com : list (list R)) (b : Z) (k : nat) : list K :=
  flat_map pcoeffs (concat (map (pgadget b k) com)).

Lemma split_ok com n b k : (length (split_data com b k) < n)%nat ->
  split com n b k = Ok (split_data com b k ++ repeat 0 (n - length (split_data com b k))).
Proof.
  intros H. unfold split. fold (split_data com b k). destruct (Nat.ltb_spec (length (split_data com b k)) n); [|lia].
  unfold resize. rewrite firstn_all2 by lia. reflexivity.
Qed.
Lemma split_panics com n b k : (n <= length (split_data com b k))%nat -> split com n b k = Panic.
Proof.
  intros H. unfold split. fold (split_data com b k). destruct (Nat.ltb_spec (length (split_data com b k)) n); [lia|reflexivity].
Qed.
End Split.

Section Short.
Context {K R T : Type} {PO : POps K R} {TO : TransOps T R K} {p : Z} {PL : PLaws K R p}.
Add Ring Rring29 : (@rlaws_th R _ (pl_R (p := p))).
Add Ring Rring30 : (@rlaws_th K _ (fld_laws (FieldLaws := pl_K (p := p)))).

(** A squeezed byte string has the requested length and bytes in range. *)
Definition good_bytes : Prop := forall (ts : T) n, length (fst (squeeze_bytes ts n)) = n /\
  Forall (fun b => (0 <= b < 256)%Z) (fst (squeeze_bytes ts n)).

Lemma short_challenge_range lambda (ts : T) : good_bytes -> (lambda / pdim < 64)%nat ->
  exists c zs, short_challenge lambda ts = Ok (c, snd (squeeze_bytes ts pdim)) /\
    pcoeffs c = map rofZ zs /\
    Forall (fun z => (- (2 ^ Z.of_nat (lambda / pdim) / 2) <= z < 2 ^ Z.of_nat (lambda / pdim) - 2 ^ Z.of_nat (lambda / pdim) / 2)%Z) zs.
Proof.
  intros HB Hl. unfold short_challenge. destruct (Nat.leb_spec 64 (lambda / pdim)); [lia|].
  destruct (HB ts pdim) as [HL HF]. destruct (squeeze_bytes ts pdim) as [bs ts1]. cbn [fst snd] in *.
  set (u := (2 ^ Z.of_nat (lambda / pdim))%Z). assert (0 < u)%Z by (apply Z.pow_pos_nonneg; lia).
  exists (pof_coeffs (map (fun b => rofZ (b mod u)%Z - rofZ (u / 2)%Z) bs)), (map (fun b => (b mod u - u / 2)%Z) bs).
  split; [reflexivity|]. split.
  - rewrite pcoeffs_of by (rewrite map_length; auto). rewrite map_map. apply map_ext. intros b. symmetry. apply rofZ_sub.
  - apply Forall_forall. intros z Hz. apply in_map_iff in Hz as (b & <- & _). pose proof (Z.mod_pos_bound b u ltac:(lia)). lia.
Qed.
(** For a security parameter below the dimension every challenge is zero. *)
Lemma short_challenge_degenerate lambda (ts : T) : good_bytes -> (lambda < pdim)%nat ->
  short_challenge lambda ts = Ok (0, snd (squeeze_bytes ts pdim)).
Proof.
  intros HB Hl. unfold short_challenge. rewrite Nat.div_small by auto. cbn [Nat.leb].
  destruct (HB ts pdim) as [HL _]. destruct (squeeze_bytes ts pdim) as [bs ts1]. cbn [fst snd] in *.
  do 2 f_equal. rewrite <- (pof_coeffs_coeffs (0 : R)). f_equal.
  transitivity (map (fun _ : Z => 0 : K) bs).
  - apply map_ext. intros b. change (2 ^ Z.of_nat 0)%Z with 1%Z. change (1 / 2)%Z with 0%Z. rewrite Z.mod_1_r. apply rsub_diag.
  - assert (pcoeffs (0 : R) = map (fun _ => 0) (pcoeffs (0 : R))) as E.
    { assert (0 = emb (0 : K) * (0 : R)) as E0 by ring. rewrite E0 at 1. rewrite pcoeffs_scale.
      apply map_ext. intros. ring. }
    rewrite E. pose proof (pcoeffs_length (0 : R)) as HP. revert HL HP. generalize (pcoeffs (0 : R)). revert bs. clear - PL.
    generalize pdim. intros d bs l H1 H2. rewrite <- H2 in H1. clear H2.
    revert l H1; induction bs as [|b bs IH]; intros [|x l] H; cbn in *; try discriminate; auto. f_equal. auto.
Qed.
(** Different low bits give different challenges. *)
Lemma short_challenge_inj lambda (ts ts' : T) c t1 t2 : good_bytes -> (2 ^ Z.of_nat (lambda / pdim) < p)%Z ->
  short_challenge lambda ts = Ok (c, t1) -> short_challenge lambda ts' = Ok (c, t2) ->
  map (fun b => (b mod 2 ^ Z.of_nat (lambda / pdim))%Z) (fst (squeeze_bytes ts pdim)) =
  map (fun b => (b mod 2 ^ Z.of_nat (lambda / pdim))%Z) (fst (squeeze_bytes ts' pdim)).
Proof.
  intros HB Hu. unfold short_challenge. destruct (Nat.leb_spec 64 (lambda / pdim)); [discriminate|].
  destruct (HB ts pdim) as [HL _]. destruct (HB ts' pdim) as [HL' _].
  destruct (squeeze_bytes ts pdim) as [bs ts1]. destruct (squeeze_bytes ts' pdim) as [bs' ts1']. cbn [fst snd] in *.
  set (u := (2 ^ Z.of_nat (lambda / pdim))%Z) in *. assert (0 < u)%Z by (apply Z.pow_pos_nonneg; lia).
  intros E1 E2. assert (forall A (a b : A), Ok a = Ok b -> a = b) as ok_inj by (intros A a b E; congruence).
  apply ok_inj in E1. apply ok_inj in E2. apply (f_equal fst) in E1. apply (f_equal fst) in E2. cbn [fst] in E1, E2.
  rewrite <- E2 in E1. clear E2. apply (f_equal pcoeffs) in E1. rewrite !pcoeffs_of in E1 by (rewrite map_length; auto).
  apply (list_ext 0%Z); [rewrite !map_length; congruence|]. rewrite map_length. intros i Hi.
  apply (f_equal (fun l => nth i l (0 : K))) in E1.
  rewrite !(nth_map_lt _ _ i 0%Z) in E1 by lia. rewrite !(nth_map_lt _ _ i 0%Z) by lia.
  rewrite <- !rofZ_sub in E1.
  pose proof (Z.mod_pos_bound (nth i bs 0%Z) u ltac:(lia)) as B1. pose proof (Z.mod_pos_bound (nth i bs' 0%Z) u ltac:(lia)) as B2.
  pose proof (Z.div_mod u 2 ltac:(lia)) as Ed. pose proof (Z.mod_pos_bound u 2 ltac:(lia)) as Hm.
  apply (f_equal psigned) in E1. rewrite !psigned_small in E1 by lia. lia.
Qed.
End Short.
