(** C113: sizes that are reported as errors. *)
From Coq Require Import String List Arith Lia ZArith Bool Ring.
From Verif Require Import Prelude Alg Poly MLE MLE_Proofs Transcript Interp Sumcheck Sumcheck_Proofs
  Arith Arith_Proofs Balanced Rings Rings_Proofs Linearization Decomposition Decomposition_Proofs Folding NIFS.
Import ListNotations.
Local Open Scope rs_scope.

Section P.
Context {F K C R T : Type} {SO : SOps F K C R} {TO : TransOps T R K} {HO : ShortOps T C}.
(** * C113
    The folding prover refuses to set up its sumcheck unless there are 2K alphas, witnesses, points and mus, and a beta for every variable. *)
Theorem C113_poly_lengths P log_m (fhs : list (list (mle R))) alpha chM1 chM2 rs beta mu :
  let k2 := (2 * dp_K P)%nat in
  ~ (length alpha = k2 /\ length fhs = k2 /\ length rs = k2 /\ length beta = log_m /\ length mu = k2) ->
  create_sumcheck_polynomial P log_m fhs alpha chM1 chM2 rs beta mu = Err IncorrectLength.
Proof.
  intros k2 H. unfold create_sumcheck_polynomial. fold k2.
  destruct (Nat.eqb_spec (length alpha) k2), (Nat.eqb_spec (length fhs) k2), (Nat.eqb_spec (length rs) k2), (Nat.eqb_spec (length beta) log_m), (Nat.eqb_spec (length mu) k2); cbn [negb orb]; tauto.
Qed.
(** With the right number of everything this error does not occur. *)
Theorem C113_poly_lengths_ok P log_m (fhs : list (list (mle R))) alpha chM1 chM2 rs beta mu :
  let k2 := (2 * dp_K P)%nat in
  length alpha = k2 -> length fhs = k2 -> length rs = k2 -> length beta = log_m -> length mu = k2 ->
  create_sumcheck_polynomial P log_m fhs alpha chM1 chM2 rs beta mu <> Err IncorrectLength.
Proof.
  intros k2 H1 H2 H3 H4 H5. unfold create_sumcheck_polynomial. fold k2. rewrite H1, H2, H3, H4, H5, !Nat.eqb_refl. cbn [negb orb].
  assert (forall X Y (r : result X) (f : X -> result Y), r <> Err IncorrectLength -> (forall x, f x <> Err IncorrectLength) -> bind r f <> Err IncorrectLength) as B.
  { intros X Y [x|e|] f Hr Hf; cbn [bind]; [apply Hf|congruence|discriminate]. }
  assert (forall X (l : list X) i, index l i <> Err IncorrectLength) as I by (intros X l i; unfold index; destruct (nth_error l i); discriminate).
  assert (forall r : list R, build_eq_x_r r <> Err IncorrectLength) as E.
  { intros r. unfold build_eq_x_r. apply B; [|intros x; unfold mle_from_vec; destruct (_ <=? _)%nat; discriminate]. unfold build_eq_x_r_vec. induction r as [|x r IH]; cbn [build_eq_helper]; [discriminate|].
    destruct r; [discriminate|]. apply B; [exact IH|]. intros; discriminate. }
  assert (forall a b : mle R, mle_add a b <> Err IncorrectLength) as M.
  { intros a b. unfold mle_add. destruct (mle_is_zero b); [discriminate|]. destruct (mle_is_zero a); [discriminate|]. destruct (negb _); discriminate. }
  assert (forall X Y (g : X -> Y -> result X) l a, a <> Err IncorrectLength -> (forall x y, g x y <> Err IncorrectLength) -> fold_left (fun acc y => do x <- acc; g x y) l a <> Err IncorrectLength) as L.
  { intros X Y g l. induction l as [|u l IH]; intros a Ha Hg; [exact Ha|]. cbn [fold_left]. apply IH; auto. }
  assert (forall (a : list R) (ms : list (list (mle R))), challenged_mle a ms <> Err IncorrectLength) as Ch.
  { intros a ms. unfold challenged_mle. apply (L _ _ (fun a cm => do h <- horner_mle (fst cm) (snd cm); mle_add a h)); [discriminate|]. intros x [c l]. apply B; [|intros; apply M].
    unfold horner_mle. apply (L _ _ (fun a m => do s <- mle_add a m; Ok (mle_scale s c))); [discriminate|]. intros u v. apply B; [apply M|]. intros; discriminate. }
  assert (forall (e : mle R) ms (a : list R) c, prepare_g13 e ms a c <> Err IncorrectLength) as G.
  { intros e ms a c. unfold prepare_g13. apply B; [apply Ch|]. intros u. apply B; [apply M|]. intros; discriminate. }
  repeat (apply B; [auto|intros ?]). discriminate.
Qed.
(** The folding prover: not 2K instances is an error; without 2K witnesses, or with fewer than 2K lists of tables, there is no proof. *)
Theorem C113_fold_prove P (cms : list (lcccs R)) (ws : list (witness C R)) (ts : T) cs mzs : sanity_check cs (dp_L P) = Ok tt ->
  (length cms <> (2 * dp_K P)%nat -> fold_prove P cms ws ts cs mzs = Err IncorrectLength) /\
  forall r, fold_prove P cms ws ts cs mzs = Ok r -> length cms = (2 * dp_K P)%nat /\ length ws = (2 * dp_K P)%nat /\ (2 * dp_K P <= length mzs)%nat.
Proof.
  intros HS. unfold fold_prove. rewrite HS. cbn [bind]. split.
  - intros H. apply Nat.eqb_neq in H. rewrite H. reflexivity.
  - intros r. destruct (Nat.eqb_spec (length cms) (2 * dp_K P)) as [H|H]; cbn [negb]; [|discriminate].
    destruct (squeeze_abzm _ _ _) as [[[[al be] ze] mu] tz]. intros HP. apply bind_ok_inv in HP as (u & HG & HP). unfold guard in HG. destruct (Nat.leb_spec (2 * dp_K P) (length mzs)) as [Hm|Hm]; [|discriminate].
    apply bind_ok_inv in HP as (c1 & _ & HP). apply bind_ok_inv in HP as (c2 & _ & HP). apply bind_ok_inv in HP as (g & EG & _).
    split; [exact H|]. split; [|exact Hm]. destruct (Nat.eq_dec (length ws) (2 * dp_K P)) as [E|N]; [exact E|]. exfalso.
    rewrite C113_poly_lengths in EG; [discriminate|]. rewrite map_length. tauto.
Qed.
(** The decomposition verifier: a component whose public part is empty (so that it has no last entry, the h of the instance) is an error. *)
Theorem C113_empty_x P (cm_i : lcccs R) pf (ts : T) i x y u v :
  nth_error (dp_xs pf) i = Some x -> nth_error (dp_ys pf) i = Some y -> nth_error (dp_us pf) i = Some u -> nth_error (dp_vs pf) i = Some v -> x = [] ->
  dec_verify P cm_i pf ts = Err IncorrectLength.
Proof.
  intros Hx Hy Hu Hv ->. unfold dec_verify.
  assert (forall l (ts : T), (exists y u v, In ([], y, u, v) l) -> dec_absorb (lc_r cm_i) ts l = Err IncorrectLength) as H.
  { clear. induction l as [|[[[x y] u] v] l IH]; intros ts (y0 & u0 & v0 & H); [destruct H|]. cbn [dec_absorb]. destruct x as [|a x]; [reflexivity|].
    destruct H as [H|H]; [discriminate|]. unfold last_opt. destruct (rev (a :: x)) eqn:E; [apply (f_equal (@length _)) in E; rewrite rev_length in E; discriminate|].
    cbn [of_option bind]. rewrite IH; [reflexivity|]. eauto. }
  rewrite H; [reflexivity|]. exists y, u, v. unfold zip4.
  assert (forall A B (l : list A) (k : list B) j a b, nth_error l j = Some a -> nth_error k j = Some b -> nth_error (combine l k) j = Some (a, b)) as N.
  { clear. intros A B l. induction l as [|a0 l IH]; intros [|b0 k] [|j] a b Ha Hb; cbn [nth_error combine] in *; try discriminate; [congruence|auto]. }
  apply (nth_error_In _ i). auto.
Qed.
End P.
Section M.
Context {R : Type} {RO : RingOps R} {LR : RingLaws R}.
Add Ring Rring101 : (@rlaws_th R RO LR).
(** Adding tables: entry by entry if they have equally many variables; with different numbers there is a sum only if one of them
    is the table of no variables with entry 0, and then it is the other one. *)
Theorem C113_mle_add (a b s : mle R) : mle_add a b = Ok s ->
  (mle_nv a = mle_nv b /\ mle_nv s = mle_nv a /\ forall i, (i < 2 ^ mle_nv a)%nat -> mle_get s i = mle_get a i + mle_get b i) \/
  (mle_nv a <> mle_nv b /\ (mle_nv b = 0%nat /\ mle_get b 0 = 0 /\ s = a \/ mle_nv a = 0%nat /\ mle_get a 0 = 0 /\ s = b)).
Proof.
  unfold mle_add. assert (forall m : mle R, mle_is_zero m = true -> mle_nv m = 0%nat /\ mle_get m 0 = 0) as Z.
  { intros m H. unfold mle_is_zero in H. apply andb_true_iff in H as [H1 H2]. apply Nat.eqb_eq in H1. apply req_true in H2. auto. }
  destruct (mle_is_zero b) eqn:Eb; [|destruct (mle_is_zero a) eqn:Ea; [|destruct (Nat.eqb_spec (mle_nv a) (mle_nv b)) as [E|E]; cbn [negb]; [|discriminate]]]; intros H; apply ok_inj in H; subst s.
  - destruct (Z b Eb) as [E1 E2]. destruct (Nat.eq_dec (mle_nv a) (mle_nv b)) as [E|E]; [left|right; auto]. split; [auto|]. split; [auto|].
    intros i Hi. rewrite E, E1 in Hi. cbn in Hi. replace i with 0%nat by lia. rewrite E2. ring.
  - destruct (Z a Ea) as [E1 E2]. destruct (Nat.eq_dec (mle_nv a) (mle_nv b)) as [E|E]; [left|right; auto]. split; [auto|]. split; [auto|].
    intros i Hi. rewrite E1 in Hi. cbn in Hi. replace i with 0%nat by lia. rewrite E2. ring.
  - left. split; [auto|]. split; [reflexivity|]. intros i Hi. unfold mle_get at 1. cbn [mle_evals]. rewrite nth_seq_map by exact Hi. reflexivity.
Qed.
Theorem C113_mle_add_ok (a b : mle R) : mle_nv a = mle_nv b -> exists s, mle_add a b = Ok s.
Proof. intros E. unfold mle_add. rewrite E, Nat.eqb_refl. cbn [negb]. destruct (mle_is_zero b), (mle_is_zero a); eauto. Qed.
End M.
