(** Basic vocabulary: results with errors and panics, list helpers, powers of two. *)
From Coq Require Import List Arith Lia ZArith Bool PeanoNat.
Import ListNotations.

(** All error values of the Rust code that the model distinguishes (the [String] and ring-element
    payloads of the Rust variants are dropped).
    arith/error.rs:8-29, utils/sumcheck.rs:22-29, commitment.rs, nifs/error.rs,
    utils/mle_helpers.rs:15-19, challenge_set/error.rs, latticefold-plus/src/{setchk,rgchk}.rs *)
Inductive err : Set :=
| NotSatisfied (i : nat)
| LengthsNotEqual (a b : nat)
| InvalidSizeBounds (m n L : nat)
| WrongWitnessLength (a b : nat)
| MleIncorrectLength (a b : nat)
| SumCheckFailed
| InvalidParameters
| IncorrectLength
| RecomposedError
| TooFewBytes (a b : nat)
| ExpectedEvaluation
| PsiCheckAB
| PsiCheckVU.

(** Outcome of a Rust computation: a value, a returned [Err], or a panic
    (explicit panic, failed assertion, out-of-bounds index, [unwrap] of a missing value). *)
Inductive result (A : Type) : Type :=
| Ok (a : A)
| Err (e : err)
| Panic.
Arguments Ok {A}. Arguments Err {A}. Arguments Panic {A}.

(** Rust's [?] and the propagation of panics. *)
Definition bind {A B} (x : result A) (f : A -> result B) : result B :=
  match x with Ok a => f a | Err e => Err e | Panic => Panic end.
Notation "'do' x <- a ; b" := (bind a (fun x => b))
  (at level 200, x pattern, a at level 100, b at level 200).

(** [ok_or], [unwrap]: the result for [None] is given. *)
Definition of_option {A} (e : result A) (o : option A) : result A :=
  match o with Some a => Ok a | None => e end.

(** A check that fails with the given result. *)
Definition guard (b : bool) (e : result unit) : result unit := if b then Ok tt else e.

(** [iter().map(f).collect::<Result<Vec<_>,_>>()] *)
Fixpoint mapM {A B} (f : A -> result B) (l : list A) : result (list B) :=
  match l with
  | [] => Ok []
  | a :: t => do b <- f a; do bs <- mapM f t; Ok (b :: bs)
  end.

(** Rust [zip]+[map]: stops at the shorter list. *)
Fixpoint zipw {A B C} (f : A -> B -> C) (l : list A) (m : list B) : list C :=
  match l, m with
  | a :: l', b :: m' => f a b :: zipw f l' m'
  | _, _ => []
  end.

(** In-place [a.iter_mut().zip(b).for_each]: keeps the tail of the left list. *)
Fixpoint zipl {A B} (f : A -> B -> A) (l : list A) (m : list B) : list A :=
  match l, m with
  | a :: l', b :: m' => f a b :: zipl f l' m'
  | _, _ => l
  end.

(** [Vec::resize(n, z)] : truncates or pads. *)
Definition resize {A} (n : nat) (z : A) (l : list A) : list A :=
  firstn n l ++ repeat z (n - length l).

(** [slice::chunks(n)] for n >= 1 (fuel = length). *)
Fixpoint chunks_fuel {A} (fuel n : nat) (l : list A) : list (list A) :=
  match fuel with
  | O => []
  | S k => match l with
           | [] => []
           | _ => firstn n l :: chunks_fuel k n (skipn n l)
           end
  end.
(** Rust's [chunks]. *)
Definition chunks {A} (n : nat) (l : list A) : list (list A) := chunks_fuel (length l) n l.

(** Transposition of a [k]-column matrix given by its rows ([Transpose] of stark-rings-linalg on
    [Vec<Vec<_>>]; the number of columns is that of the first row; external). *)
Definition column {A} (d : A) (j : nat) (rows : list (list A)) : list A :=
  map (fun r => nth j r d) rows.
(** External [transpose] for [k] columns. *)
Definition transpose {A} (d : A) (k : nat) (rows : list (list A)) : list (list A) :=
  map (fun j => column d j rows) (seq 0 k).

(** [Vec::last] *)
Definition last_opt {A} (l : list A) : option A :=
  match rev l with [] => None | a :: _ => Some a end.

(** [usize::next_power_of_two] : least power of two >= n (1 for n = 0). *)
Definition next_pow2 (n : nat) : nat := 2 ^ (Nat.log2_up n).
(** [ark_std::log2] : ceiling of the base-2 logarithm, 0 for 0. *)
Definition ark_log2 (n : nat) : nat := Nat.log2_up n.


Lemma bind_ok_inv {A B : Type} (x : result A) (f : A -> result B) b :
  bind x f = Ok b -> exists a, x = Ok a /\ f a = Ok b.
Proof. destruct x; simpl; intros; try discriminate; eauto. Qed.

Lemma zipw_length {A B C : Type} (f : A -> B -> C) l m : length (zipw f l m) = Nat.min (length l) (length m).
Proof. revert m; induction l as [|a l IH]; intros [|b m]; simpl; auto. Qed.

Lemma zipl_length {A B : Type} (f : A -> B -> A) l m : length (zipl f l m) = length l.
Proof. revert m; induction l as [|a l IH]; intros [|b m]; simpl; auto. Qed.

Lemma nth_zipw {A B C : Type} (f : A -> B -> C) l m i da db dc :
  i < length l -> i < length m ->
  nth i (zipw f l m) dc = f (nth i l da) (nth i m db).
Proof.
  revert m i; induction l as [|a l IH]; intros [|b m] [|i]; simpl; intros; try lia; auto.
  apply IH; lia.
Qed.

Lemma zipl_zipw {A B : Type} (f : A -> B -> A) l m :
  length l = length m -> zipl f l m = zipw f l m.
Proof.
  revert m; induction l as [|a l IH]; intros [|b m]; simpl; intros H; try discriminate; auto.
  f_equal; apply IH; lia.
Qed.

Lemma nth_zipl {A B : Type} (f : A -> B -> A) l m i da db :
  i < length l -> i < length m ->
  nth i (zipl f l m) da = f (nth i l da) (nth i m db).
Proof.
  revert m i; induction l as [|a l IH]; intros [|b m] [|i]; simpl; intros; try lia; auto.
  apply IH; lia.
Qed.

Lemma resize_length {A : Type} n (z : A) l : length (resize n z l) = n.
Proof.
  unfold resize. rewrite app_length, repeat_length, firstn_length. lia.
Qed.

Lemma nth_resize {A : Type} n (z : A) l i :
  i < n -> nth i (resize n z l) z = nth i l z.
Proof.
  intros Hi. unfold resize.
  destruct (Nat.lt_ge_cases i (length l)) as [Hl|Hl].
  - rewrite app_nth1 by (rewrite firstn_length; lia).
    revert n Hi l Hl. clear. induction i; intros [|n] Hi [|a l] Hl; simpl in *; try lia; auto.
    apply IHi; lia.
  - rewrite app_nth2 by (rewrite firstn_length; lia).
    rewrite (nth_overflow l) by lia.
    apply nth_repeat.
Qed.

Lemma list_ext {A : Type} (d : A) l m :
  length l = length m -> (forall i, i < length l -> nth i l d = nth i m d) -> l = m.
Proof.
  revert m; induction l as [|a l IH]; intros [|b m]; simpl; intros H H1; try discriminate; auto.
  f_equal.
  - apply (H1 0); lia.
  - apply IH; [lia|]. intros i Hi. apply (H1 (S i)); lia.
Qed.

Lemma nth_map_lt {A B : Type} (f : A -> B) l i da db :
  i < length l -> nth i (map f l) db = f (nth i l da).
Proof.
  intros. rewrite (nth_indep _ db (f da)) by (rewrite map_length; auto). apply map_nth.
Qed.

Lemma mapM_ok {A B : Type} (f : A -> result B) (g : A -> B) l :
  (forall a, In a l -> f a = Ok (g a)) -> mapM f l = Ok (map g l).
Proof.
  induction l as [|a l IH]; simpl; intros H; auto.
  rewrite H by auto. simpl. rewrite IH by auto. reflexivity.
Qed.

Lemma mapM_length {A B : Type} (f : A -> result B) l bs : mapM f l = Ok bs -> length bs = length l.
Proof.
  revert bs; induction l as [|a l IH]; simpl; intros bs H.
  - injection H as <-; auto.
  - apply bind_ok_inv in H as (b & Hb & H). apply bind_ok_inv in H as (bs' & Hbs & H).
    injection H as <-. simpl. f_equal. apply IH; auto.
Qed.

Lemma mapM_inv {A B : Type} (f : A -> result B) l bs :
  mapM f l = Ok bs -> Forall2 (fun a b => f a = Ok b) l bs.
Proof.
  revert bs; induction l as [|a l IH]; simpl; intros bs H.
  - injection H as <-; constructor.
  - apply bind_ok_inv in H as (b & Hb & H). apply bind_ok_inv in H as (bs' & Hbs & H).
    injection H as <-. constructor; auto.
Qed.

Lemma last_opt_app {A : Type} (l : list A) a : last_opt (l ++ [a]) = Some a.
Proof. unfold last_opt. rewrite rev_app_distr. reflexivity. Qed.

Lemma last_opt_None {A : Type} (l : list A) : last_opt l = None <-> l = [].
Proof.
  unfold last_opt. destruct (rev l) eqn:E.
  - split; auto. intros _. rewrite <- (rev_involutive l), E. reflexivity.
  - split; [discriminate|]. intros ->. discriminate.
Qed.

Lemma last_opt_Some {A : Type} (l : list A) a : last_opt l = Some a -> l = removelast l ++ [a].
Proof.
  unfold last_opt. destruct (rev l) eqn:E; [discriminate|]. intros [= <-].
  assert (l = rev l0 ++ [a0]) as ->.
  { rewrite <- (rev_involutive l), E. reflexivity. }
  rewrite removelast_last. reflexivity.
Qed.

Lemma nth_seq_map {A} (f : nat -> A) n i d : i < n -> nth i (map f (seq 0 n)) d = f i.
Proof.
  intros. rewrite (nth_map_lt f _ i 0) by (rewrite seq_length; auto).
  rewrite seq_nth; auto.
Qed.

Lemma map_seq_nth {A} (l : list A) d : map (fun i => nth i l d) (seq 0 (length l)) = l.
Proof.
  apply (list_ext d).
  - rewrite map_length, seq_length; auto.
  - intros i Hi. rewrite map_length, seq_length in Hi. rewrite nth_seq_map; auto.
Qed.


Lemma zipw_map {A B C D E} (f : C -> D -> E) (g : A -> C) (h : B -> D) l m :
  zipw f (map g l) (map h m) = zipw (fun a b => f (g a) (h b)) l m.
Proof. revert m; induction l as [|a l IH]; intros [|b m]; simpl; f_equal; auto. Qed.

Lemma map_zipw {A B C D} (f : C -> D) (g : A -> B -> C) l m :
  map f (zipw g l m) = zipw (fun a b => f (g a b)) l m.
Proof. revert m; induction l as [|a l IH]; intros [|b m]; simpl; f_equal; auto. Qed.

Lemma zipw_same {A B} (f : A -> A -> B) l : zipw f l l = map (fun a => f a a) l.
Proof. induction l; simpl; f_equal; auto. Qed.

Lemma zipw_ext {A B C} (f g : A -> B -> C) l m :
  (forall a b, f a b = g a b) -> zipw f l m = zipw g l m.
Proof. intros H. revert m; induction l as [|a l IH]; intros [|b m]; simpl; f_equal; auto. Qed.

Lemma zipw_comm {A C} (f : A -> A -> C) l m :
  (forall a b, f a b = f b a) -> zipw f l m = zipw f m l.
Proof. intros H. revert m; induction l as [|a l IH]; intros [|b m]; simpl; f_equal; auto. Qed.

(** ** chunks *)
Lemma chunks_fuel_concat {A} fuel n (l : list A) :
  1 <= n -> length l <= fuel -> concat (chunks_fuel fuel n l) = l.
Proof.
  intros Hn. revert l; induction fuel as [|k IH]; intros l Hl; cbn [chunks_fuel].
  - destruct l; simpl in *; auto; lia.
  - destruct l as [|a l]; [reflexivity|].
    cbn [concat]. rewrite IH.
    + apply firstn_skipn.
    + rewrite skipn_length. cbn [length] in *. lia.
Qed.

Lemma chunks_concat {A} n (l : list A) : 1 <= n -> concat (chunks n l) = l.
Proof. intros. apply chunks_fuel_concat; auto. Qed.

Lemma chunks_fuel_of_concat {A} n (ls : list (list A)) fuel :
  1 <= n -> (forall c, In c ls -> length c = n) -> length ls <= fuel ->
  chunks_fuel fuel n (concat ls) = ls.
Proof.
  intros Hn. revert fuel. induction ls as [|c ls IH]; intros fuel Hc Hf.
  - destruct fuel; reflexivity.
  - destruct fuel as [|k]; [simpl in Hf; lia|].
    assert (length c = n) as Hlc by (apply Hc; left; auto).
    simpl concat. cbn [chunks_fuel].
    destruct (c ++ concat ls) eqn:E.
    { apply app_eq_nil in E as [-> _]. simpl in Hlc. lia. }
    rewrite <- E. f_equal.
    + rewrite firstn_app, Hlc, Nat.sub_diag. simpl. rewrite app_nil_r.
      rewrite <- Hlc. apply firstn_all.
    + rewrite skipn_app, Hlc, Nat.sub_diag.
      replace (skipn n c) with (@nil A) by (rewrite <- Hlc; symmetry; apply skipn_all). simpl.
      apply IH; [intros; apply Hc; right; auto | simpl in Hf; lia].
Qed.

Lemma concat_length_const {A} n (ls : list (list A)) :
  (forall c, In c ls -> length c = n) -> length (concat ls) = length ls * n.
Proof.
  induction ls as [|c ls IH]; simpl; intros H; auto.
  rewrite app_length, H, IH; auto.
Qed.

Lemma chunks_of_concat {A} n (ls : list (list A)) :
  1 <= n -> (forall c, In c ls -> length c = n) -> chunks n (concat ls) = ls.
Proof.
  intros Hn Hc. unfold chunks. apply chunks_fuel_of_concat; auto.
  rewrite (concat_length_const n) by auto. nia.
Qed.

Lemma nth_concat_const {A} n (ls : list (list A)) i j d :
  1 <= n -> (forall c, In c ls -> length c = n) -> i < length ls -> j < n ->
  nth (i * n + j) (concat ls) d = nth j (nth i ls []) d.
Proof.
  intros Hn. revert i; induction ls as [|c ls IH]; simpl; intros i Hc Hi Hj; [lia|].
  destruct i as [|i].
  - simpl. rewrite app_nth1; auto. rewrite Hc; auto.
  - simpl. rewrite app_nth2; rewrite Hc by auto; [|lia].
    replace (n + i * n + j - n) with (i * n + j) by lia. apply IH; auto; lia.
Qed.

Lemma chunks_fuel_length {A} n k (l : list A) fuel :
  1 <= n -> length l = k * n -> k <= fuel -> length (chunks_fuel fuel n l) = k.
Proof.
  intros Hn. revert l fuel. induction k as [|k IH]; intros l fuel Hl Hf.
  - destruct l; [|simpl in Hl; lia]. destruct fuel; reflexivity.
  - destruct fuel as [|f]; [lia|]. destruct l as [|a l]; [simpl in Hl; lia|].
    cbn [chunks_fuel length]. f_equal. apply IH; [|lia].
    rewrite skipn_length, Hl. simpl. lia.
Qed.

Lemma chunks_length {A} n k (l : list A) :
  1 <= n -> length l = k * n -> length (chunks n l) = k.
Proof. intros. unfold chunks. apply chunks_fuel_length; auto. nia. Qed.

Lemma chunks_fuel_in_length {A} n k (l : list A) fuel c :
  1 <= n -> length l = k * n -> In c (chunks_fuel fuel n l) -> length c = n.
Proof.
  intros Hn. revert l fuel. induction k as [|k IH]; intros l fuel Hl Hin.
  - destruct l; [|simpl in Hl; lia]. destruct fuel; destruct Hin.
  - destruct fuel as [|f]; [destruct Hin|]. destruct l as [|a l]; [destruct Hin|].
    cbn [chunks_fuel] in Hin. destruct Hin as [<-|Hin].
    + rewrite firstn_length, Hl. simpl. lia.
    + eapply IH; [|exact Hin]. rewrite skipn_length, Hl. simpl. lia.
Qed.

Lemma chunks_in_length {A} n k (l : list A) c :
  1 <= n -> length l = k * n -> In c (chunks n l) -> length c = n.
Proof. intros. eapply chunks_fuel_in_length; eauto. Qed.

(** ** powers of two *)
Lemma next_pow2_ge n : n <= next_pow2 n.
Proof.
  unfold next_pow2. destruct (Nat.le_gt_cases n 1) as [H|H].
  - rewrite Nat.log2_up_eqn0 by auto. simpl. auto.
  - apply Nat.log2_up_spec; auto.
Qed.

Lemma next_pow2_is_pow2 n : exists k, next_pow2 n = 2 ^ k.
Proof. eexists; reflexivity. Qed.

Lemma next_pow2_pow2 k : next_pow2 (2 ^ k) = 2 ^ k.
Proof. unfold next_pow2. rewrite Nat.log2_up_pow2; auto. lia. Qed.

Lemma next_pow2_least n k : n <= 2 ^ k -> next_pow2 n <= 2 ^ k.
Proof.
  intros H. unfold next_pow2. apply Nat.pow_le_mono_r; [lia|].
  destruct (Nat.le_gt_cases n 1) as [H1|H1].
  - rewrite Nat.log2_up_eqn0 by auto. lia.
  - apply Nat.log2_up_le_pow2; auto. lia.
Qed.

Lemma ark_log2_next_pow2 n : 2 ^ ark_log2 (next_pow2 n) = next_pow2 n.
Proof. unfold ark_log2, next_pow2. rewrite Nat.log2_up_pow2 by lia. reflexivity. Qed.

Lemma transpose_length {A} (d : A) k rows : length (transpose d k rows) = k.
Proof. unfold transpose. rewrite map_length, seq_length. reflexivity. Qed.

Lemma nth_transpose {A} (d : A) k rows j :
  j < k -> nth j (transpose d k rows) [] = column d j rows.
Proof. intros. unfold transpose. rewrite nth_seq_map; auto. Qed.

Lemma Forall2_nth {A B} (P : A -> B -> Prop) l m da db :
  Forall2 P l m <-> length l = length m /\ forall i, i < length l -> P (nth i l da) (nth i m db).
Proof.
  split.
  - induction 1; simpl; split; try lia.
    destruct IHForall2 as [Hl Hi]. intros [|i] H1; auto. apply Hi; lia.
  - revert m; induction l as [|a l IH]; intros [|b m]; simpl; intros [H H1]; try discriminate;
      constructor.
    + apply (H1 0); lia.
    + apply IH. split; [lia|]. intros i Hi. apply (H1 (S i)); lia.
Qed.

Lemma nth_firstn_lt {A : Type} (l : list A) n i d : i < n -> nth i (firstn n l) d = nth i l d.
Proof.
  revert n i; induction l as [|a l IH]; intros [|n] [|i] H; simpl; auto; try lia.
  apply IH. lia.
Qed.
