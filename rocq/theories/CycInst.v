(** The ring interface [SLaws] is satisfied by F_p[X]/(Phi) in coefficient form together with its NTT form, a product of copies of
    an extension field, whenever the roots of Phi are given (checked by computation for
    the four rings of the repository in RealRings.v).  The rings are external (stark-rings); this file shows that the laws assumed
    of them hold of the mathematical objects documented in cyclotomic-rings/src/rings/*.rs.  The order of the slots and the basis
    of the extension field are not those of stark-rings; [SLaws] does not depend on them. *)
From Coq Require Import List Arith Lia ZArith Bool Ring Znumtheory.
From Verif Require Import Prelude Alg Poly MLE Transcript Rings PlusUtils_Proofs PolyInst Primes FieldExt.
Import ListNotations.
Local Open Scope rs_scope.

(** [cy_emb] embeds F_p in K; [cy_co] are the coordinates of K over F_p, [cy_e] their number; [cy_k] the number of slots; the
    cyclotomic polynomial is Y^k - sum of [cy_psi]_m Y^m at Y = X^e; [cy_roots] the images of X in the slots, [cy_rr] their e-th powers. *)
Record cyc (p : Z) (K : Type) := Cyc {
  cy_KO : FieldOps K; cy_emb : fp p -> K; cy_co : K -> list (fp p); cy_of : list (fp p) -> K;
  cy_e : nat; cy_k : nat; cy_psi : list (fp p); cy_roots : list K; cy_rr : list (fp p) }.
Arguments Cyc {p K}. Arguments cy_KO {p K}. Arguments cy_emb {p K}. Arguments cy_co {p K}. Arguments cy_of {p K}.
Arguments cy_e {p K}. Arguments cy_k {p K}. Arguments cy_psi {p K}. Arguments cy_roots {p K}. Arguments cy_rr {p K}.

(** Laws of the extension field as a vector space. *)
Record ext_laws {p K} (y : cyc p K) : Prop := {
  xl_K : @FieldLaws K (cy_KO y);
  xl_hom : @ring_hom _ _ _ (@fld_ring K (cy_KO y)) (cy_emb y);
  xl_len : forall x, length (cy_co y x) = cy_e y;
  xl_add : forall x x' : K, cy_co y (@radd K (@fld_ring K (cy_KO y)) x x') = zipw radd (cy_co y x) (cy_co y x');
  xl_scale : forall a (x : K), cy_co y (@rmul K (@fld_ring K (cy_KO y)) (cy_emb y a) x) = map (rmul a) (cy_co y x);
  xl_of : forall x, cy_of y (cy_co y x) = x
}.
(** Powers cur, cur x, ..., cur x^(n-1). *)
Fixpoint powers {A} {AO : RingOps A} (x cur : A) (n : nat) : list A :=
  match n with O => [] | S m => cur :: powers x (cur * x) m end.

Lemma nth_skipn' {A} n (l : list A) i d : nth i (skipn n l) d = nth (n + i) l d.
Proof. revert l. induction n as [|n IH]; intros [|a l]; cbn [skipn Nat.add nth]; auto. destruct i; auto. Qed.

(** * Lagrange interpolation in coefficient form *)
Section Lag.
Context {F : Type} {FO : FieldOps F} {FL : FieldLaws F}.
Add Ring Fring74 : (@rlaws_th F _ (fld_laws (FieldLaws := FL))).
(** (Y - r) * l + c *)
Fixpoint mul_lin (r c : F) (l : list F) : list F := match l with [] => [c] | a :: l' => (c - r * a) :: mul_lin r a l' end.
Definition lag_num (others : list F) : list F := fold_right (fun r l => mul_lin r 0 l) [1] others.
Definition lagrange (rr : list F) (j : nat) : list F :=
  let num := lag_num (firstn j rr ++ skipn (S j) rr) in map (rmul (finv (peval num (nth j rr 0)))) num.
Lemma mul_lin_eval r l : forall c x, peval (mul_lin r c l) x = c + (x - r) * peval l x.
Proof. induction l as [|a l IH]; intros c x; cbn [mul_lin peval fold_right]; [ring|]. change (fold_right _ 0 (mul_lin r a l)) with (peval (mul_lin r a l) x). rewrite IH. change (fold_right _ 0 l) with (peval l x). ring. Qed.
Lemma mul_lin_length r l : forall c, length (mul_lin r c l) = S (length l).
Proof. induction l as [|a l IH]; intros c; cbn [mul_lin length]; auto. Qed.
Lemma lag_num_length o : length (lag_num o) = S (length o).
Proof. induction o as [|r o IH]; cbn [lag_num fold_right length]; auto. rewrite mul_lin_length. f_equal. exact IH. Qed.
Lemma lag_num_cons r o x : peval (lag_num (r :: o)) x = (x - r) * peval (lag_num o) x.
Proof. cbn [lag_num fold_right]. rewrite mul_lin_eval. fold (lag_num o). ring. Qed.
Lemma lag_num_zero o x : In x o -> peval (lag_num o) x = 0.
Proof. induction o as [|r o IH]; intros H; [destruct H|]. rewrite lag_num_cons. destruct H as [->|H]; [|rewrite IH by auto]; ring. Qed.
Lemma lag_num_nz o x : ~ In x o -> peval (lag_num o) x <> 0.
Proof.
  induction o as [|r o IH]; intros H.
  - cbn [lag_num fold_right peval]. replace (1 + x * 0) with (1 : F) by ring. apply f_1_neq_0.
  - rewrite lag_num_cons. intros E. apply field_integral in E as [E|E].
    + apply H. left. symmetry. apply rsub_0_iff. auto.
    + apply IH; auto. intros G. apply H. right. auto.
Qed.
Lemma peval_map_scale c l x : peval (map (rmul c) l) x = c * peval l x.
Proof. apply (peval_pscale c l x). Qed.
Lemma others_in rr j (x : F) : In x (firstn j rr ++ skipn (S j) rr) <-> exists l, (l < length rr)%nat /\ l <> j /\ nth l rr 0 = x.
Proof.
  rewrite in_app_iff. split.
  - intros [H|H]; apply (In_nth _ _ 0) in H as (l & Hl & <-).
    + rewrite firstn_length in Hl. exists l. rewrite nth_firstn_lt by lia. split; [lia|split; [lia|auto]].
    + rewrite skipn_length in Hl. exists (S j + l)%nat. rewrite nth_skipn'. split; [lia|split; [lia|auto]].
  - intros (l & Hl & Hne & <-). destruct (Nat.lt_ge_cases l j).
    + left. rewrite <- (nth_firstn_lt rr j l 0) by lia. apply nth_In. rewrite firstn_length. lia.
    + right. replace l with (S j + (l - S j))%nat by lia. rewrite <- nth_skipn'. apply nth_In. rewrite skipn_length. lia.
Qed.
Lemma lagrange_delta rr j l : NoDup rr -> (j < length rr)%nat -> (l < length rr)%nat -> peval (lagrange rr j) (nth l rr 0) = if (l =? j)%nat then 1 else 0.
Proof.
  intros Hnd Hj Hl. unfold lagrange. cbv zeta. rewrite peval_map_scale. destruct (Nat.eqb_spec l j) as [->|Hne].
  - assert (peval (lag_num (firstn j rr ++ skipn (S j) rr)) (nth j rr 0) <> 0) as H.
    { apply lag_num_nz. rewrite others_in. intros (l & Hl' & Hn & E). apply Hn. apply (proj1 (NoDup_nth rr 0) Hnd); auto. }
    pose proof (finv_r _ H) as I. etransitivity; [|exact I]. ring.
  - rewrite (lag_num_zero _ (nth l rr 0)); [ring|]. apply others_in. exists l. auto.
Qed.
Lemma lagrange_length rr j : (j < length rr)%nat -> length (lagrange rr j) = length rr.
Proof. intros Hj. unfold lagrange. cbv zeta. rewrite map_length, lag_num_length, app_length, firstn_length, skipn_length. lia. Qed.
Lemma id_hom : ring_hom (fun x : F => x).
Proof. split; auto. Qed.
(** Interpolating the values of a polynomial gives its coefficients back. *)
Lemma lagrange_coeffs rr (g : nat -> F) m : NoDup rr -> (m < length rr)%nat ->
  sumn (length rr) (fun j => nth m (lagrange rr j) 0 * sumn (length rr) (fun m' => g m' * rpow (nth j rr 0) m')) = g m.
Proof.
  intros Hnd Hm. set (k := length rr) in *. set (P := fun x => sumn k (fun m' => g m' * rpow x m')).
  set (q := map (fun m => sumn k (fun j => nth m (lagrange rr j) 0 * P (nth j rr 0)) - g m) (seq 0 k)).
  assert (Forall (eq 0) q) as Hq.
  { apply (root_bound (fun x : F => x) id_hom q rr Hnd); [unfold q; rewrite map_length, seq_length; auto|].
    intros x Hx. apply (In_nth _ _ 0) in Hx as (l & Hl & <-). rewrite peval_sum. unfold q at 1. rewrite map_length, seq_length.
    rewrite (sumn_ext k _ (fun i => sumn k (fun j => (nth i (lagrange rr j) 0 * rpow (nth l rr 0) i) * P (nth j rr 0)) - g i * rpow (nth l rr 0) i)).
    2:{ intros i Hi. unfold q. rewrite nth_seq_map by auto. rewrite (sumn_ext k (fun j => nth i (lagrange rr j) 0 * rpow (nth l rr 0) i * P (nth j rr 0)) (fun j => (nth i (lagrange rr j) 0 * P (nth j rr 0)) * rpow (nth l rr 0) i)) by (intros; ring).
        rewrite sumn_mul_r. ring. }
    rewrite sumn_sub. rewrite (sumn_swap k k).
    rewrite (sumn_ext k _ (fun j => (if (l =? j)%nat then 1 else 0) * P (nth j rr 0))).
    2:{ intros j Hj. rewrite sumn_mul_r. f_equal. rewrite <- (lagrange_delta rr j l Hnd Hj Hl). rewrite peval_sum, lagrange_length by auto. reflexivity. }
    rewrite (sumn_single k l); auto.
    - rewrite Nat.eqb_refl. unfold P. ring.
    - intros i Hi Hne. destruct (Nat.eqb_spec l i); [congruence|]. ring. }
  rewrite Forall_forall in Hq. assert (nth m q 0 = 0) as E. { symmetry. apply Hq. apply nth_In. unfold q. rewrite map_length, seq_length. auto. }
  unfold q in E. rewrite nth_seq_map in E by auto. apply (proj1 (rsub_0_iff _ _)) in E. exact E.
Qed.
End Lag.

Section Data.
Context {p : Z} {K : Type} (y : cyc p K).
#[local] Hint Extern 0 (FieldOps K) => exact (cy_KO y) : typeclass_instances.
Notation F := (fp p).
Definition cy_d : nat := (cy_k y * cy_e y)%nat.
(** Evaluation of a coefficient list (Horner). *)
Definition ev_at (rho : K) (l : list F) : K := fold_right (fun c acc => cy_emb y c + rho * acc) 0 l.
(** The coordinates of 1, rho, ..., rho^(e-1); the place of the first nonzero coordinate. *)
Definition cy_basis (rho : K) : list (list F) := map (cy_co y) (powers rho 1 (cy_e y)).
Definition pivot (v : list F) : nat := match find (fun l => negb (nth l v 0 =? 0)) (seq 0 (length v)) with Some l => l | None => O end.
(** Every power of rho below e has exactly one nonzero coordinate, and every coordinate belongs to exactly one power. *)
Definition mono_check (rho : K) : bool :=
  let vs := cy_basis rho in let pv := map pivot vs in
  forallb (fun i => forallb (fun l => Bool.eqb (nth l (nth i vs []) 0 =? 0) (negb (l =? nth i pv 0)%nat)) (seq 0 (cy_e y))) (seq 0 (cy_e y))
  && forallb (fun i => (nth i pv 0 <? cy_e y)%nat && forallb (fun i' => (i =? i')%nat || negb (nth i pv 0 =? nth i' pv 0)%nat) (seq 0 (cy_e y))) (seq 0 (cy_e y))
  && forallb (fun l => existsb (fun i => (nth i pv 0 =? l)%nat) (seq 0 (cy_e y))) (seq 0 (cy_e y)).
Definition distinct (l : list F) : bool := forallb (fun i => forallb (fun j => (i =? j)%nat || negb (nth i l 0 =? nth j l 0)) (seq 0 (length l))) (seq 0 (length l)).
Definition cyc_check : bool :=
  (1 <=? cy_e y)%nat && (1 <=? cy_k y)%nat && (length (cy_roots y) =? cy_k y)%nat && (length (cy_rr y) =? cy_k y)%nat
  && distinct (cy_rr y)
  && forallb (fun r => rpow r (cy_k y) =? peval (resize (cy_k y) 0 (cy_psi y)) r) (cy_rr y)
  && (let rr := cy_rr y in let roots := cy_roots y in forallb (fun j => rpow (nth j roots 0) (cy_e y) =? cy_emb y (nth j rr 0)) (seq 0 (cy_k y)))
  && forallb mono_check (cy_roots y).
End Data.

Section Cyc.
Context {p : Z} {K : Type} (y : cyc p K) (Hp : prime p) (Hp2 : (2 < p)%Z) (XL : ext_laws y) (CK : cyc_check y = true).
#[local] Hint Extern 0 (FieldOps K) => exact (cy_KO y) : typeclass_instances.
Local Instance KL : FieldLaws K := xl_K y XL.
Notation F := (fp p).
Notation e := (cy_e y).
Notation k := (cy_k y).
Notation d := (cy_d y).
Notation eK := (cy_emb y).
Notation C := (pol (fp p) (cy_d y)).
Notation R := (pol K (cy_k y)).
Add Ring Fring72 : (@rlaws_th F _ (fp_rlaws p)).
Add Ring Kring72 : (@rlaws_th K _ (fld_laws (FieldLaws := KL))).
Let eKh : ring_hom eK := xl_hom y XL.

(** * Unpacking the check *)
Lemma nth_powers {A} {AO : RingOps A} {AL : RingLaws A} (x cur : A) n i : (i < n)%nat -> nth i (powers x cur n) 0 = cur * rpow x i.
Proof.
  pose proof (@rlaws_th A _ AL) as T. revert cur i. induction n as [|n IH]; intros cur i Hi; [lia|]. cbn [powers]. destruct i as [|i]; cbn [nth rpow].
  - symmetry. apply rmul_1_r.
  - rewrite IH by lia. symmetry. apply (Rmul_assoc T).
Qed.
Lemma powers_length {A} {AO : RingOps A} (x cur : A) n : length (powers x cur n) = n.
Proof. revert cur. induction n; intros cur; cbn [powers length]; auto. Qed.
Lemma unpack : (1 <= e)%nat /\ (1 <= k)%nat /\ length (cy_roots y) = k /\ length (cy_rr y) = k /\ NoDup (cy_rr y) /\
  (forall j, (j < k)%nat -> rpow (nth j (cy_rr y) 0) k = sumn k (fun m => nth m (resize k 0 (cy_psi y)) 0 * rpow (nth j (cy_rr y) 0) m)) /\
  (forall j, (j < k)%nat -> rpow (nth j (cy_roots y) 0) e = eK (nth j (cy_rr y) 0)) /\
  forall j, (j < k)%nat -> mono_check y (nth j (cy_roots y) 0) = true.
Proof.
  pose proof CK as H. unfold cyc_check in H. cbv zeta in H. rewrite !andb_true_iff in H.
  destruct H as (((((((H1 & H2) & H3) & H4) & H5) & H6) & H7) & H8).
  apply Nat.leb_le in H1, H2. apply Nat.eqb_eq in H3, H4. rewrite forallb_forall in H6, H7, H8.
  repeat (split; [solve [auto]|]). split; [|split; [|split]].
  - apply (NoDup_nth _ 0). intros i j Hi Hj E. unfold distinct in H5. rewrite forallb_forall in H5. specialize (H5 i ltac:(apply in_seq; lia)).
    rewrite forallb_forall in H5. specialize (H5 j ltac:(apply in_seq; lia)). apply orb_true_iff in H5 as [H5|H5]; [apply Nat.eqb_eq; auto|].
    apply negb_true_iff, req_false in H5. contradiction.
  - intros j Hj. assert (In (nth j (cy_rr y) 0) (cy_rr y)) as Hin by (apply nth_In; lia). specialize (H6 _ Hin). apply req_true in H6. rewrite H6.
    rewrite (peval_sum (R := F)), resize_length. reflexivity.
  - intros j Hj. specialize (H7 j). apply req_true, H7, in_seq. lia.
  - intros j Hj. apply H8. apply nth_In. lia.
Qed.
Lemma d_pos : (1 <= d)%nat.
Proof. unfold cy_d. destruct unpack as (? & ? & _). nia. Qed.
Definition root (j : nat) : K := nth j (cy_roots y) 0.
Definition rt (j : nat) : F := nth j (cy_rr y) 0.
Lemma rt_root j : (j < k)%nat -> rpow (root j) e = eK (rt j).
Proof. apply unpack. Qed.
(** Where power [i] of root [j] has its nonzero coordinate, and that coordinate. *)
Definition pvt (j i : nat) : nat := pivot (nth i (cy_basis y (root j)) []).
Definition pval (j i : nat) : F := nth (pvt j i) (cy_co y (rpow (root j) i)) 0.
Lemma basis_nth j i : (i < e)%nat -> nth i (cy_basis y (root j)) [] = cy_co y (rpow (root j) i).
Proof. intros Hi. unfold cy_basis. rewrite (nth_map_lt _ _ _ 0) by (rewrite powers_length; auto). rewrite nth_powers by auto. f_equal. ring. Qed.
Lemma mono_facts j : (j < k)%nat ->
  (forall i l, (i < e)%nat -> (l < e)%nat -> nth l (cy_co y (rpow (root j) i)) 0 = 0 <-> l <> pvt j i) /\
  (forall i, (i < e)%nat -> (pvt j i < e)%nat) /\
  (forall i i', (i < e)%nat -> (i' < e)%nat -> pvt j i = pvt j i' -> i = i') /\
  (forall l, (l < e)%nat -> exists i, (i < e)%nat /\ pvt j i = l).
Proof.
  intros Hj. destruct unpack as (_ & _ & _ & _ & _ & _ & _ & HM). specialize (HM j Hj). fold (root j) in HM. unfold mono_check in HM. cbv zeta in HM.
  rewrite !andb_true_iff in HM. destruct HM as ((H1 & H2) & H3). rewrite forallb_forall in H1, H2, H3.
  assert (forall i, (i < e)%nat -> nth i (map pivot (cy_basis y (root j))) 0%nat = pvt j i) as HP.
  { intros i Hi. rewrite (nth_map_lt _ _ _ []) by (unfold cy_basis; rewrite map_length, powers_length; auto). reflexivity. }
  split; [|split; [|split]].
  - intros i l Hi Hl. specialize (H1 i ltac:(apply in_seq; lia)). rewrite forallb_forall in H1. specialize (H1 l ltac:(apply in_seq; lia)).
    rewrite HP, basis_nth in H1 by auto. apply eqb_prop in H1. rewrite <- (req_true (R := F)), H1, negb_true_iff, Nat.eqb_neq. reflexivity.
  - intros i Hi. specialize (H2 i ltac:(apply in_seq; lia)). apply andb_true_iff in H2 as [H2 _]. rewrite HP in H2 by auto. apply Nat.ltb_lt. auto.
  - intros i i' Hi Hi' E. specialize (H2 i ltac:(apply in_seq; lia)). apply andb_true_iff in H2 as [_ H2]. rewrite forallb_forall in H2.
    specialize (H2 i' ltac:(apply in_seq; lia)). rewrite !HP in H2 by auto. apply orb_true_iff in H2 as [H2|H2]; [apply Nat.eqb_eq; auto|].
    apply negb_true_iff, Nat.eqb_neq in H2. contradiction.
  - intros l Hl. specialize (H3 l ltac:(apply in_seq; lia)). apply existsb_exists in H3 as (i & Hi & E). apply in_seq in Hi. exists i. split; [lia|].
    apply Nat.eqb_eq in E. rewrite HP in E by lia. auto.
Qed.
Lemma pval_nz j i : (j < k)%nat -> (i < e)%nat -> pval j i <> 0.
Proof.
  intros Hj Hi E. destruct (mono_facts j Hj) as (H1 & H2 & _). apply (H1 i (pvt j i)) in E; auto.
Qed.

(** * The NTT form *)
Definition r_ops : RingOps R :=
  {| rzero := mk (fun _ => 0); rone := mk (fun _ => 1); radd := fun a b => mk (fun i => co a i + co b i); rmul := fun a b => mk (fun i => co a i * co b i);
     rsub := fun a b => mk (fun i => co a i - co b i); ropp := fun a => mk (fun i => - co a i);
     req := fun a b => forallb (fun ab => fst ab =? snd ab) (combine (pl_l a) (pl_l b)) |}.
Local Existing Instance r_ops.
Lemma pol_req {A} {AO : RingOps A} {AL : RingLaws A} n (a b : pol A n) : forallb (fun ab => fst ab =? snd ab) (combine (pl_l a) (pl_l b)) = true <-> a = b.
Proof.
  rewrite forallb_forall. split.
  - intros H. apply pol_ext. intros i Hi. unfold co. specialize (H (nth i (pl_l a) 0, nth i (pl_l b) 0)). cbn [fst snd] in H. apply req_true, H.
    rewrite <- combine_nth by (rewrite !pol_len; auto). apply nth_In. rewrite combine_length, !pol_len. lia.
  - intros -> [x z] Hin. apply (In_nth _ _ (0, 0)) in Hin as (i & Hi & E). rewrite combine_nth in E by auto. injection E as <- <-. apply req_true. auto.
Qed.
Lemma r_laws : RingLaws R.
Proof.
  split.
  - split; intros; apply pol_ext; intros i Hi; cbn [radd rmul rsub ropp rzero rone r_ops]; repeat rewrite co_mk by auto; ring.
  - intros a b. apply (pol_req (A := K)).
Qed.
Local Existing Instance r_laws.
Add Ring Rring72 : (@rlaws_th R _ r_laws).

(** * The coefficient form *)
(** Multiplication by X. *)
Definition c_rot (x : C) : C := mk (fun t => (match t with O => 0 | S t' => co x t' end) + co x (d - 1) * (if (t mod e =? 0)%nat then nth (t / e) (resize k 0 (cy_psi y)) 0 else 0)).
Definition c_mul (x z : C) : C := fold_right (fun xi acc => padd (psc xi z) (c_rot acc)) pzero (pl_l x).
Definition c_ops : RingOps C :=
  {| rzero := pzero; rone := punit 0; radd := padd; rmul := c_mul;
     rsub := fun a b => mk (fun i => co a i - co b i); ropp := fun a => mk (fun i => - co a i);
     req := fun a b => forallb (fun ab => fst ab =? snd ab) (combine (pl_l a) (pl_l b)) |}.
Local Existing Instance c_ops.

(** * Evaluation *)
Definition ev (rho : K) (c : C) : K := sumn d (fun i => eK (co c i) * rpow rho i).
Lemma ev_at_sumn rho l n : length l = n -> ev_at y rho l = sumn n (fun i => eK (nth i l 0) * rpow rho i).
Proof.
  revert n. induction l as [|a l IH]; intros n <-; cbn [ev_at fold_right length]; [reflexivity|]. rewrite (sumn_S_first (R := K)). cbn [nth rpow].
  change (fold_right _ _ l) with (ev_at y rho l). rewrite (IH _ eq_refl). rewrite <- (sumn_mul_l (R := K)).
  replace (eK a * 1) with (eK a) by ring. f_equal. apply sumn_ext. intros i Hi. ring.
Qed.
Lemma ev_add rho a b : ev rho (a + b) = ev rho a + ev rho b.
Proof. unfold ev. rewrite <- (sumn_add (R := K)). apply sumn_ext. intros i Hi. cbn [radd c_ops]. rewrite co_padd, (hom_add _ eKh) by auto. ring. Qed.
Lemma ev_sub rho a b : ev rho (a - b) = ev rho a - ev rho b.
Proof. unfold ev. rewrite <- (sumn_sub (R := K)). apply sumn_ext. intros i Hi. cbn [rsub c_ops]. rewrite co_mk, (hom_sub _ eKh) by auto. ring. Qed.
Lemma ev_opp rho a : ev rho (- a) = - ev rho a.
Proof. unfold ev. replace (- sumn d (fun i => eK (co a i) * rpow rho i)) with (- (1) * sumn d (fun i => eK (co a i) * rpow rho i)) by ring. rewrite <- (sumn_mul_l (R := K)). apply sumn_ext. intros i Hi. cbn [ropp c_ops]. rewrite co_mk, (hom_opp _ eKh) by auto. ring. Qed.
Lemma ev_0 rho : ev rho 0 = 0.
Proof. unfold ev. apply (sumn_0 (R := K)). intros i Hi. cbn [rzero c_ops]. unfold pzero. rewrite co_mk, (hom_0 _ eKh) by auto. ring. Qed.
Lemma ev_sc rho a x : ev rho (psc a x) = eK a * ev rho x.
Proof. unfold ev. rewrite <- (sumn_mul_l (R := K)). apply sumn_ext. intros i Hi. rewrite co_psc, (hom_mul _ eKh) by auto. ring. Qed.
Lemma ev_1 rho : ev rho 1 = 1.
Proof.
  unfold ev. pose proof d_pos. rewrite (sumn_single (R := K) d 0).
  - cbn [rone c_ops]. rewrite co_punit by lia. cbn [Nat.eqb rpow]. rewrite (hom_1 _ eKh). ring.
  - lia.
  - intros i Hi Hne. cbn [rone c_ops]. rewrite co_punit by lia. destruct (Nat.eqb_spec i 0); [congruence|]. rewrite (hom_0 _ eKh). ring.
Qed.
Lemma root_pow j m i : (j < k)%nat -> rpow (root j) (m * e + i) = eK (rpow (rt j) m) * rpow (root j) i.
Proof. intros Hj. rewrite (rpow_add (R := K)), (Nat.mul_comm m e), (rpow_mul (R := K)), rt_root, (hom_pow _ eKh) by auto. reflexivity. Qed.
Lemma root_d j : (j < k)%nat -> rpow (root j) d = sumn d (fun t => eK (if (t mod e =? 0)%nat then nth (t / e) (resize k 0 (cy_psi y)) 0 else 0) * rpow (root j) t).
Proof.
  intros Hj. destruct unpack as (He & _ & _ & _ & _ & Hpsi & _). specialize (Hpsi j Hj). fold (rt j) in Hpsi.
  transitivity (sumn (k * e) (fun t => eK (if (t mod e =? 0)%nat then nth (t / e) (resize k 0 (cy_psi y)) 0 else 0) * rpow (root j) t)); [|reflexivity].
  rewrite (sumn_blocks (R := K)). replace d with (k * e + 0)%nat by (unfold cy_d; lia). rewrite root_pow, Hpsi, (hom_sumn _ eKh) by auto.
  rewrite <- (sumn_mul_r (R := K)). apply sumn_ext. intros m Hm. rewrite (sumn_single (R := K) e 0).
  - rewrite root_pow, Nat.add_0_r, Nat.mod_mul, Nat.div_mul by (auto; lia). cbn [Nat.eqb]. rewrite (hom_mul _ eKh). ring.
  - lia.
  - intros i Hi Hne. rewrite Nat.add_comm, Nat.mod_add, Nat.mod_small by lia. destruct (Nat.eqb_spec i 0); [congruence|]. rewrite (hom_0 _ eKh). ring.
Qed.
Lemma ev_rot j x : (j < k)%nat -> ev (root j) (c_rot x) = root j * ev (root j) x.
Proof.
  intros Hj. pose proof (root_d j Hj) as Hroot.
  pose proof d_pos as Hd. assert (exists d', d = S d') as [d' Ed] by (exists (d - 1)%nat; lia).
  unfold ev. unfold c_rot. set (t := fun i => if (i mod e =? 0)%nat then nth (i / e) (resize k 0 (cy_psi y)) 0 else 0) in *. set (rho := root j) in *.
  change (rpow rho d = sumn d (fun i => eK (t i) * rpow rho i)) in Hroot.
  rewrite (sumn_ext d _ (fun i => eK (match i with O => 0 | S t' => co x t' end) * rpow rho i + eK (co x (d - 1)) * (eK (t i) * rpow rho i))).
  2:{ intros i Hi. rewrite co_mk, (hom_add _ eKh), (hom_mul _ eKh) by auto. fold (t i). ring. }
  rewrite (sumn_add (R := K)), (sumn_mul_l (R := K)).
  rewrite <- Hroot.
  assert (forall f : nat -> K, sumn d f = f 0%nat + sumn d' (fun i => f (S i))) as A1 by (intros f; rewrite Ed; apply (sumn_S_first (R := K))).
  assert (forall f : nat -> K, sumn d f = sumn d' f + f d') as A2 by (intros f; rewrite Ed; reflexivity).
  rewrite A1, A2. replace (d - 1)%nat with d' by lia. rewrite (hom_0 _ eKh).
  rewrite (sumn_ext d' (fun i => eK (co x i) * rpow rho (S i)) (fun i => rho * (eK (co x i) * rpow rho i))) by (intros i Hi; cbn [rpow]; ring).
  rewrite (sumn_mul_l (R := K)). replace (rpow rho d) with (rho * rpow rho d') by (rewrite Ed; reflexivity). ring.
Qed.
Lemma ev_list rho (x : C) : ev rho x = ev_at y rho (pl_l x).
Proof. rewrite (ev_at_sumn rho _ d (pol_len x)). reflexivity. Qed.
Lemma ev_mul j a b : (j < k)%nat -> ev (root j) (a * b) = ev (root j) a * ev (root j) b.
Proof.
  intros Hr. rewrite (ev_list (root j) a). cbn [rmul c_ops]. unfold c_mul. induction (pl_l a) as [|c l IH]; cbn [fold_right ev_at].
  - change (ev (root j) 0 = 0 * ev (root j) b). rewrite ev_0. ring.
  - change (padd (psc c b) ?q) with (psc c b + q). rewrite ev_add, ev_sc, ev_rot, IH by auto. change (fold_right _ 0 l) with (ev_at y (root j) l). ring.
Qed.

(** * The transform and its inverse *)
Definition c_crt (c : C) : R := mk (fun j => ev_at y (root j) (pl_l c)).
(** Coefficient of [v] at power [i] of root [j]. *)
Definition bco (j i : nat) (v : K) : F := nth (pvt j i) (cy_co y v) 0 * finv (pval j i).
Definition c_icrt (x : R) : C := mk (fun t => sumn k (fun j => nth (t / e) (lagrange (cy_rr y) j) 0 * bco j (t mod e) (co x j))).
Lemma co_crt c j : (j < k)%nat -> co (c_crt c) j = ev (root j) c.
Proof. intros Hj. unfold c_crt. rewrite co_mk by auto. symmetry. apply ev_list. Qed.
Lemma nth_co_add l (a b : K) : (l < e)%nat -> nth l (cy_co y (a + b)) 0 = nth l (cy_co y a) 0 + nth l (cy_co y b) 0.
Proof. intros Hl. change (a + b) with (@radd K (@fld_ring K (cy_KO y)) a b). rewrite (xl_add y XL). apply nth_zipw; rewrite (xl_len y XL); auto. Qed.
Lemma nth_co_scale l a (b : K) : (l < e)%nat -> nth l (cy_co y (eK a * b)) 0 = a * nth l (cy_co y b) 0.
Proof. intros Hl. change (eK a * b) with (@rmul K (@fld_ring K (cy_KO y)) (eK a) b). rewrite (xl_scale y XL). apply nth_map_lt. rewrite (xl_len y XL); auto. Qed.
Lemma nth_co_0 l : (l < e)%nat -> nth l (cy_co y (0 : K)) 0 = 0.
Proof. intros Hl. replace (0 : K) with (eK 0 * 0) by ring. rewrite nth_co_scale by auto. ring. Qed.
Lemma nth_co_sumn l n (f : nat -> K) : (l < e)%nat -> nth l (cy_co y (sumn n f)) 0 = sumn n (fun i => nth l (cy_co y (f i)) 0).
Proof. intros Hl. induction n as [|n IH]; cbn [sumn]; [apply nth_co_0; auto|]. rewrite nth_co_add, IH by auto. auto. Qed.
Lemma basis_expand j (v : K) : (j < k)%nat -> sumn e (fun i => eK (bco j i v) * rpow (root j) i) = v.
Proof.
  intros Hj. destruct (mono_facts j Hj) as (M1 & M2 & M3 & M4). rewrite <- (xl_of y XL v), <- (xl_of y XL (sumn e _)). f_equal.
  apply (list_ext 0); [rewrite !(xl_len y XL); auto|]. intros l Hl. rewrite (xl_len y XL) in Hl. rewrite nth_co_sumn by auto.
  destruct (M4 l Hl) as (i & Hi & El). rewrite (sumn_single (R := F) e i); auto.
  - rewrite nth_co_scale by auto. unfold bco, pval. rewrite El. rewrite (xl_of y XL).
    transitivity (nth l (cy_co y v) 0 * (pval j i * finv (pval j i))); [unfold pval; rewrite El; ring|].
    pose proof (fp_laws p Hp) as FL. rewrite (finv_r (FieldLaws := FL)) by (apply pval_nz; auto). ring.
  - intros i' Hi' Hne. rewrite nth_co_scale by auto. replace (nth l (cy_co y (rpow (root j) i')) 0) with (0 : F); [ring|].
    symmetry. apply M1; auto. intros E. apply Hne. apply M3; auto. congruence.
Qed.
Lemma bco_expand j (g : nat -> F) i : (j < k)%nat -> (i < e)%nat -> bco j i (sumn e (fun i' => eK (g i') * rpow (root j) i')) = g i.
Proof.
  intros Hj Hi. destruct (mono_facts j Hj) as (M1 & M2 & M3 & M4). unfold bco. rewrite nth_co_sumn by auto.
  rewrite (sumn_single (R := F) e i); auto.
  - rewrite nth_co_scale by auto. fold (pval j i). pose proof (fp_laws p Hp) as FL.
    transitivity (g i * (pval j i * finv (pval j i))); [ring|]. rewrite (finv_r (FieldLaws := FL)) by (apply pval_nz; auto). ring.
  - intros i' Hi' Hne. rewrite nth_co_scale by auto. replace (nth (pvt j i) (cy_co y (rpow (root j) i')) 0) with (0 : F); [ring|].
    symmetry. apply M1; auto.
Qed.
(** Residue class [i] of the coefficients at the e-th power of root [j]. *)
Definition cls (c : C) (j i : nat) : F := sumn k (fun m => co c (m * e + i) * rpow (rt j) m).
Lemma ev_cls c j : (j < k)%nat -> ev (root j) c = sumn e (fun i => eK (cls c j i) * rpow (root j) i).
Proof.
  intros Hj. unfold ev. transitivity (sumn (k * e) (fun i => eK (co c i) * rpow (root j) i)); [reflexivity|].
  rewrite (sumn_blocks (R := K)), (sumn_swap (R := K) k e). apply sumn_ext. intros i Hi. unfold cls. rewrite (hom_sumn _ eKh), <- (sumn_mul_r (R := K)).
  apply sumn_ext. intros m Hm. rewrite root_pow, (hom_mul _ eKh) by auto. ring.
Qed.
Lemma bco_crt c j i : (j < k)%nat -> (i < e)%nat -> bco j i (co (c_crt c) j) = cls c j i.
Proof. intros Hj Hi. rewrite co_crt, ev_cls by auto. apply bco_expand; auto. Qed.
Lemma index_split t : (t < d)%nat -> (t / e < k)%nat /\ (t mod e < e)%nat /\ (t / e * e + t mod e = t)%nat.
Proof.
  intros Ht. destruct unpack as (He & _). pose proof (Nat.div_mod t e ltac:(lia)). unfold cy_d in Ht.
  split; [apply Nat.div_lt_upper_bound; lia|]. split; [apply Nat.mod_upper_bound; lia|lia].
Qed.
Lemma c_icrt_crt c : c_icrt (c_crt c) = c.
Proof.
  apply pol_ext. intros t Ht. destruct (index_split t Ht) as (Hm & Hi & Et). unfold c_icrt. rewrite co_mk by auto.
  destruct unpack as (_ & _ & _ & Hrr & Hnd & _).
  rewrite (sumn_ext k _ (fun j => nth (t / e) (lagrange (cy_rr y) j) 0 * sumn k (fun m => co c (m * e + t mod e) * rpow (nth j (cy_rr y) 0) m))).
  2:{ intros j Hj. rewrite bco_crt by auto. reflexivity. }
  pose proof (fp_laws p Hp) as FL. pose proof (lagrange_coeffs (FL := FL) (cy_rr y) (fun m => co c (m * e + t mod e)) (t / e) Hnd) as L. rewrite Hrr in L. rewrite L by auto.
  rewrite Et. reflexivity.
Qed.
Lemma c_crt_icrt x : c_crt (c_icrt x) = x.
Proof.
  apply pol_ext. intros j Hj. rewrite co_crt, ev_cls by auto. rewrite <- (basis_expand j (co x j) Hj). apply sumn_ext. intros i Hi. f_equal. f_equal.
  destruct unpack as (He & _ & _ & Hrr & Hnd & _). unfold cls.
  rewrite (sumn_ext k _ (fun m => sumn k (fun j' => (nth m (lagrange (cy_rr y) j') 0 * rpow (rt j) m) * bco j' i (co x j')))).
  2:{ intros m Hm. unfold c_icrt. rewrite co_mk by (unfold cy_d; nia). rewrite Nat.div_add_l, Nat.div_small, Nat.add_0_r by lia.
      rewrite (Nat.add_comm (m * e)), Nat.mod_add, Nat.mod_small by lia. rewrite <- (sumn_mul_r (R := F)). apply sumn_ext. intros. ring. }
  rewrite (sumn_swap (R := F)). rewrite (sumn_ext k _ (fun j' => (if (j =? j')%nat then 1 else 0) * bco j' i (co x j'))).
  2:{ intros j' Hj'. rewrite (sumn_mul_r (R := F)). f_equal. pose proof (fp_laws p Hp) as FL.
      rewrite <- (lagrange_delta (FL := FL) (cy_rr y) j' j Hnd) by lia. rewrite (peval_sum (R := F)), lagrange_length, Hrr by lia. reflexivity. }
  rewrite (sumn_single (R := F) k j); auto.
  - rewrite Nat.eqb_refl. ring.
  - intros j' Hj' Hne. destruct (Nat.eqb_spec j j'); [congruence|]. ring.
Qed.
Lemma crt_inj a b : c_crt a = c_crt b -> a = b.
Proof. intros H. rewrite <- (c_icrt_crt a), <- (c_icrt_crt b), H. auto. Qed.
Lemma c_crt_hom : ring_hom c_crt.
Proof.
  split; intros; apply pol_ext; intros j Hj; rewrite ?co_crt by auto; cbn [radd rmul rsub ropp rzero rone r_ops]; rewrite co_mk by auto; rewrite ?co_crt by auto.
  - apply ev_0.
  - apply ev_1.
  - apply ev_add.
  - apply ev_mul. auto.
  - apply ev_opp.
  - apply ev_sub.
Qed.
Lemma c_laws : RingLaws C.
Proof.
  destruct c_crt_hom as [H0 H1 Ha Hm Ho Hs]. split.
  - split; intros; apply crt_inj; rewrite ?Ha, ?Hm, ?Hs, ?Ho, ?Ha, ?Hm, ?Hs, ?Ho, ?H0, ?H1; ring.
  - intros a b. apply (pol_req (A := F)).
Qed.
Local Existing Instance c_laws.
Add Ring Cring72 : (@rlaws_th C _ c_laws).

(** * The instance *)
Definition cyc_ops : SOps F K C R :=
  {| s_F := fp_ops p; s_K := cy_KO y; s_C := c_ops; s_R := r_ops; s_emb := (fun x => mk (fun _ => x)) : Embed K R;
     embFK := eK; embFC := fun a => psc a (punit 0); dimN := k; tau := e;
     slots := fun x : R => pl_l x; of_slots := fun l => mk (fun i => nth i l 0); coeffs := fun c : C => pl_l c; of_coeffs := fun l => mk (fun i => nth i l 0);
     crt := c_crt; icrt := c_icrt; rotX := c_rot; signed := zsigned p |}.
Local Existing Instance cyc_ops.
Lemma crt_sc a x j : (j < k)%nat -> co (c_crt (psc a x)) j = eK a * co (c_crt x) j.
Proof. intros Hj. rewrite !co_crt by auto. apply ev_sc. Qed.
Lemma crt_embFC a j : (j < k)%nat -> co (c_crt (psc a (punit 0))) j = eK a.
Proof. intros Hj. rewrite crt_sc by auto. rewrite co_crt by auto. change (ev ?r (punit 0)) with (ev r 1). rewrite ev_1. ring. Qed.
Lemma crt_rot x j : (j < k)%nat -> co (c_crt (c_rot x)) j = root j * co (c_crt x) j.
Proof. intros Hj. rewrite !co_crt by auto. apply ev_rot. auto. Qed.
Lemma sc_mul a (c : C) : psc a (punit 0) * c = psc a c.
Proof.
  apply crt_inj. rewrite (hom_mul _ c_crt_hom). apply pol_ext. intros j Hj. cbn [rmul r_ops]. rewrite co_mk by auto. rewrite crt_embFC, crt_sc by auto. reflexivity.
Qed.
Lemma co_list n (l : list F) (x : pol F n) : (forall i, (i < n)%nat -> nth i l 0 = co x i) -> length l = n -> pl_l x = l.
Proof. intros H Hl. apply (list_ext 0); [rewrite pol_len; auto|]. intros i Hi. rewrite pol_len in Hi. symmetry. apply H. auto. Qed.
Lemma odd_prime : (p mod 2 = 1)%Z.
Proof.
  destruct (Z.eq_dec (p mod 2) 0) as [E|E]; [|pose proof (Z.mod_pos_bound p 2); lia].
  exfalso. apply Z.mod_divide in E; [|lia]. apply prime_divisors in E; auto. lia.
Qed.
Lemma cyc_laws : SLaws F K C R p.
Proof.
  destruct unpack as (He & Hk & _).
  split.
  - apply fp_laws. auto.
  - exact KL.
  - exact c_laws.
  - exact r_laws.
  - split; intros; unfold emb; cbn [s_emb cyc_ops]; apply pol_ext; intros i Hi; cbn [s_K s_R cyc_ops radd rmul rsub ropp rzero rone r_ops fld_ring]; repeat rewrite co_mk by auto; auto.
  - exact eKh.
  - split; intros; cbn [s_F s_C embFC cyc_ops]; apply crt_inj; rewrite ?(hom_add _ c_crt_hom), ?(hom_mul _ c_crt_hom), ?(hom_opp _ c_crt_hom), ?(hom_sub _ c_crt_hom), ?(hom_0 _ c_crt_hom), ?(hom_1 _ c_crt_hom);
      apply pol_ext; intros j Hj; rewrite ?crt_embFC by auto; cbn [radd rmul rsub ropp rzero rone r_ops]; rewrite co_mk by auto; rewrite ?crt_embFC by auto.
    + apply (hom_0 _ eKh).
    + apply (hom_1 _ eKh).
    + apply (hom_add _ eKh).
    + apply (hom_mul _ eKh).
    + apply (hom_opp _ eKh).
    + apply (hom_sub _ eKh).
  - exact Hk.
  - exact He.
  - intros x. apply pol_len.
  - intros l Hl. cbn [slots of_slots cyc_ops dimN] in *. apply (list_ext 0); [rewrite pol_len; auto|]. intros i Hi. rewrite pol_len in Hi. exact (co_mk (fun i => nth i l 0) i Hi).
  - intros x. cbn [slots of_slots cyc_ops]. apply pol_ext. intros i Hi. rewrite co_mk by auto. reflexivity.
  - intros a b. cbn [slots cyc_ops s_R s_K]. apply (list_ext 0); [rewrite zipw_length, !pol_len; lia|]. intros i Hi. rewrite pol_len in Hi.
    rewrite (nth_zipw _ _ _ _ 0 0) by (rewrite pol_len; auto). apply (co_mk (fun i => co a i + co b i)). auto.
  - intros a b. cbn [slots cyc_ops s_R s_K]. apply (list_ext 0); [rewrite zipw_length, !pol_len; lia|]. intros i Hi. rewrite pol_len in Hi.
    rewrite (nth_zipw _ _ _ _ 0 0) by (rewrite pol_len; auto). apply (co_mk (fun i => co a i * co b i)). auto.
  - intros x. unfold emb. cbn [slots cyc_ops s_emb dimN]. apply (list_ext 0); [rewrite pol_len, repeat_length; auto|]. intros i Hi. rewrite pol_len in Hi.
    rewrite (nth_indep _ 0 x) by (rewrite pol_len; auto). rewrite (nth_indep (repeat x k) 0 x) by (rewrite repeat_length; auto). rewrite nth_repeat.
    rewrite (nth_indep _ x 0) by (rewrite pol_len; auto). exact (co_mk (fun _ => x) i Hi).
  - intros c. apply pol_len.
  - intros l Hl. cbn [coeffs of_coeffs cyc_ops]. apply co_list; auto. intros i Hi. rewrite co_mk by auto. auto.
  - intros c. cbn [coeffs of_coeffs cyc_ops]. apply pol_ext. intros i Hi. rewrite co_mk by auto. reflexivity.
  - intros a b. cbn [coeffs cyc_ops s_C s_F radd c_ops]. apply co_list; [|rewrite zipw_length, !pol_len; lia]. intros i Hi.
    rewrite (nth_zipw _ _ _ _ 0 0) by (rewrite pol_len; auto). symmetry. apply co_padd. auto.
  - intros x c. cbn [coeffs cyc_ops s_C s_F embFC]. rewrite sc_mul. apply co_list; [|rewrite map_length, pol_len; auto]. intros i Hi.
    rewrite (nth_map_lt _ _ _ 0) by (rewrite pol_len; auto). symmetry. apply co_psc. auto.
  - intros a b. cbn [rotX cyc_ops s_C]. apply crt_inj. rewrite (hom_mul _ c_crt_hom). apply pol_ext. intros j Hj. cbn [rmul r_ops].
    rewrite crt_rot, co_mk, crt_rot, (hom_mul _ c_crt_hom) by auto. cbn [rmul r_ops]. rewrite co_mk by auto. ring.
  - intros c. cbn [rotX cyc_ops s_C s_F coeffs embFC]. apply crt_inj. rewrite (hom_sumn _ c_crt_hom). apply pol_ext. intros j Hj. rewrite co_crt by auto.
    assert (forall n (f : nat -> R), co (sumn n f) j = sumn n (fun i => co (f i) j)) as G.
    { intros n f. induction n as [|n IH]; cbn [sumn]; [cbn [rzero r_ops]; rewrite co_mk; auto|]. cbn [radd r_ops]. rewrite co_mk, IH by auto. reflexivity. }
    rewrite G. unfold ev. apply sumn_ext. intros i Hi. rewrite (hom_mul _ c_crt_hom). cbn [rmul r_ops]. rewrite co_mk, crt_embFC by auto. f_equal.
    clear Hi. induction i as [|i IH].
    + change (Nat.iter 0 c_rot 1) with (1 : C). rewrite co_crt, ev_1 by auto. reflexivity.
    + change (Nat.iter (S i) c_rot 1) with (c_rot (Nat.iter i c_rot 1)). rewrite crt_rot, <- IH by auto. reflexivity.
  - exact c_crt_hom.
  - exact c_crt_icrt.
  - exact c_icrt_crt.
  - exact Hp2.
  - intros x. cbn [signed cyc_ops]. apply fp_ext. rewrite rofZ_fp. unfold zsigned. pose proof (fpz_bound x ltac:(lia)).
    destruct (Z.ltb_spec (2 * fpz x) p); [apply Z.mod_small; lia|]. symmetry. apply Z.mod_unique with (-1)%Z; lia.
  - intros x. cbn [signed cyc_ops]. unfold zsigned. pose proof (fpz_bound x ltac:(lia)). pose proof odd_prime. pose proof (Z.div_mod p 2 ltac:(lia)).
    destruct (Z.ltb_spec (2 * fpz x) p); lia.
  - intros z Hz. cbn [signed cyc_ops s_F]. unfold zsigned. rewrite rofZ_fp. destruct (Z.le_gt_cases 0 z) as [H|H].
    + rewrite Z.mod_small by lia. destruct (Z.ltb_spec (2 * z) p); lia.
    + assert (z mod p = z + p)%Z as -> by (symmetry; apply Z.mod_unique with (-1)%Z; lia). destruct (Z.ltb_spec (2 * (z + p)) p); lia.
Qed.

(** * Slots *)
(** A slot of the transform vanishes only if every residue class of coefficients vanishes at the e-th power of the root. *)
Lemma slot_zero c j : (j < k)%nat -> co (c_crt c) j = 0 -> forall i, (i < e)%nat -> sumn k (fun m => co c (m * e + i) * rpow (nth j (cy_rr y) 0) m) = 0.
Proof.
  intros Hj H i Hi. fold (rt j). change (cls c j i = 0). rewrite <- bco_crt by auto. rewrite H. unfold bco. destruct (mono_facts j Hj) as (_ & M2 & _).
  rewrite nth_co_0 by auto. ring.
Qed.
(** An element none of whose slots vanishes is invertible. *)
Lemma unit_of_slots c : (forall j, (j < k)%nat -> co (c_crt c) j <> 0) -> exists u : C, u * c = 1.
Proof.
  intros H. exists (c_icrt (mk (fun j => finv (co (c_crt c) j)))). apply crt_inj. rewrite (hom_mul _ c_crt_hom), c_crt_icrt, (hom_1 _ c_crt_hom).
  apply pol_ext. intros j Hj. cbn [rmul rone r_ops]. repeat rewrite co_mk by auto. rewrite <- (finv_r (co (c_crt c) j)) by auto. ring.
Qed.
End Cyc.
