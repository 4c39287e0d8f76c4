(** Two transcripts whose states are related so that they answer alike make the verifiers answer alike. *)
From Coq Require Import String List Arith Lia ZArith Bool.
From Verif Require Import Prelude Alg MLE Transcript Interp Sumcheck Arith Balanced Rings Linearization Decomposition Folding NIFS.
Import ListNotations.
Local Open Scope rs_scope.

(** Results that agree up to the final states. *)
Definition rsim {A T T'} (Rel : T -> T' -> Prop) (x : result (A * T)) (x' : result (A * T')) : Prop :=
  match x, x' with
  | Ok (a, t), Ok (a', t') => a = a' /\ Rel t t'
  | Err e, Err e' => e = e'
  | Panic, Panic => True
  | _, _ => False
  end.
Lemma bind_rsim {A B T T'} (Rel : T -> T' -> Prop) (x : result (A * T)) (x' : result (A * T')) (f : A * T -> result (B * T)) (f' : A * T' -> result (B * T')) :
  rsim Rel x x' -> (forall a t t', Rel t t' -> rsim Rel (f (a, t)) (f' (a, t'))) -> rsim Rel (bind x f) (bind x' f').
Proof. destruct x as [[a t]|e|], x' as [[a' t']|e'|]; cbn [rsim bind]; try contradiction; auto. intros [<- Ht] H. auto. Qed.
Lemma bind_same {A B T T'} (Rel : T -> T' -> Prop) (x : result A) (f : A -> result (B * T)) (f' : A -> result (B * T')) :
  (forall a, rsim Rel (f a) (f' a)) -> rsim Rel (bind x f) (bind x f').
Proof. destruct x; cbn [rsim bind]; auto. Qed.

Section Sim.
Context {F K C R T T' : Type} {SO : SOps F K C R} {TO : TransOps T R K} {HO : ShortOps T C} {TO' : TransOps T' R K} {HO' : ShortOps T' C}.
Variable Rel : T -> T' -> Prop.
Hypothesis Ha : forall t t' x, Rel t t' -> Rel (absorb t x) (absorb t' x).
Hypothesis Hc : forall t t', Rel t t' -> fst (get_challenge t) = fst (get_challenge t') /\ Rel (snd (get_challenge t)) (snd (get_challenge t')).
Hypothesis Hs : forall t t', Rel t t' -> fst (get_short_challenge t) = fst (get_short_challenge t') /\ Rel (snd (get_short_challenge t)) (snd (get_short_challenge t')).

Lemma sim_slice l : forall t t', Rel t t' -> Rel (absorb_slice t l) (absorb_slice t' l).
Proof. induction l as [|x l IH]; intros t t' H; [exact H|]. apply IH, Ha, H. Qed.
Lemma sim_slices ls : forall t t', Rel t t' -> Rel (absorb_slices t ls) (absorb_slices t' ls).
Proof. induction ls as [|x l IH]; intros t t' H; [exact H|]. apply IH, sim_slice, H. Qed.
Lemma sim_tag t t' s : Rel t t' -> Rel (absorb_tag t s) (absorb_tag t' s).
Proof. apply Ha. Qed.
Lemma sim_challenges n : forall t t', Rel t t' -> fst (get_challenges t n) = fst (get_challenges t' n) /\ Rel (snd (get_challenges t n)) (snd (get_challenges t' n)).
Proof.
  induction n as [|n IH]; intros t t' H; cbn [get_challenges]; [auto|]. destruct (Hc _ _ H) as [E1 H1].
  destruct (get_challenge t) as [c t1], (get_challenge t') as [c' t1']. cbn [fst snd] in E1, H1. subst c'. destruct (IH _ _ H1) as [E2 H2].
  destruct (get_challenges t1 n) as [l t2], (get_challenges t1' n) as [l' t2']. cbn [fst snd] in *. subst l'. auto.
Qed.
Lemma sim_small n : forall t t', Rel t t' -> fst (get_small_challenges t n) = fst (get_small_challenges t' n) /\ Rel (snd (get_small_challenges t n)) (snd (get_small_challenges t' n)).
Proof.
  induction n as [|n IH]; intros t t' H; cbn [get_small_challenges]; [auto|]. destruct (Hs _ _ H) as [E1 H1].
  destruct (get_short_challenge t) as [c t1], (get_short_challenge t') as [c' t1']. cbn [fst snd] in E1, H1. subst c'. destruct (IH _ _ H1) as [E2 H2].
  destruct (get_small_challenges t1 n) as [l t2], (get_small_challenges t1' n) as [l' t2']. cbn [fst snd] in *. subst l'. auto.
Qed.
Lemma sim_verify_loop k : forall t t' proof, Rel t t' -> rsim Rel (verify_loop k t proof) (verify_loop k t' proof).
Proof.
  induction k as [|k IH]; intros t t' proof H; cbn [verify_loop]; [cbn [rsim]; auto|]. destruct proof as [|m proof]; [exact I|].
  pose proof (sim_slice m _ _ H) as H1. destruct (Hc _ _ H1) as [E2 H2].
  destruct (get_challenge (absorb_slice t m)) as [c t1], (get_challenge (absorb_slice t' m)) as [c' t1']. cbn [fst snd] in E2, H2. subst c'.
  apply (bind_rsim Rel); [apply IH, Ha, H2|]. intros [ms cs] t2 t2' H3. cbn [rsim]. auto.
Qed.
Theorem sim_sc_verify t t' nv deg claim proof : Rel t t' -> rsim Rel (sc_verify t nv deg claim proof) (sc_verify t' nv deg claim proof).
Proof.
  intros H. unfold sc_verify. apply (bind_rsim Rel); [apply sim_verify_loop, Ha, Ha, H|]. intros [ms cs] t1 t1' H1.
  destruct (nv =? 0)%nat; [exact I|]. apply bind_same. intros e. cbn [rsim]. auto.
Qed.
Lemma sim_lin t t' cm_i pf cs : Rel t t' -> rsim Rel (lin_verify cm_i pf t cs) (lin_verify cm_i pf t' cs).
Proof.
  intros H. unfold lin_verify, squeeze_beta. destruct (sim_challenges (c_s cs) _ _ (sim_tag _ _ "beta_s" H)) as [E1 H1].
  destruct (get_challenges (absorb_tag t "beta_s") (c_s cs)) as [b t1], (get_challenges (absorb_tag t' "beta_s") (c_s cs)) as [b' t1']. cbn [fst snd] in E1, H1. subst b'.
  apply (bind_rsim Rel); [apply sim_sc_verify, H1|]. intros [pt e] t2 t2' H2. apply bind_same. intros _. cbn [rsim]. split; [auto|]. apply sim_slice, sim_slice, H2.
Qed.
Lemma sim_dec_absorb r l : forall t t', Rel t t' -> rsim Rel (dec_absorb r t l) (dec_absorb r t' l).
Proof.
  induction l as [|[[[x y] u] v] l IH]; intros t t' H; cbn [dec_absorb]; [cbn [rsim]; auto|]. apply bind_same. intros h.
  apply (bind_rsim Rel); [apply IH; do 4 apply sim_slice; exact H|]. intros a t1 t1' H1. cbn [rsim fst snd]. auto.
Qed.
Lemma sim_dec t t' P lc pf : Rel t t' -> rsim Rel (dec_verify P lc pf t) (dec_verify P lc pf t').
Proof.
  intros H. unfold dec_verify. apply (bind_rsim Rel); [apply sim_dec_absorb, H|]. intros a t1 t1' H1.
  repeat match goal with
  | |- rsim _ (bind ?x _) (bind ?x _) => apply bind_same; intros
  | |- rsim _ (if ?b then _ else _) _ => destruct b
  end; cbn [rsim]; auto.
Qed.
Lemma sim_fold t t' P cms pf cs : Rel t t' -> rsim Rel (fold_verify P cms pf t cs) (fold_verify P cms pf t' cs).
Proof.
  intros H. unfold fold_verify, squeeze_abzm. apply bind_same. intros _.
  destruct (sim_challenges (2 * dp_K P) _ _ (sim_tag _ _ "alpha_s" H)) as [E1 H1].
  destruct (get_challenges (absorb_tag t "alpha_s") (2 * dp_K P)) as [al t1], (get_challenges (absorb_tag t' "alpha_s") (2 * dp_K P)) as [al' t1']. cbn [fst snd] in E1, H1. subst al'.
  destruct (sim_challenges (2 * dp_K P) _ _ (sim_tag _ _ "zeta_s" H1)) as [E2 H2].
  destruct (get_challenges (absorb_tag t1 "zeta_s") (2 * dp_K P)) as [ze t2], (get_challenges (absorb_tag t1' "zeta_s") (2 * dp_K P)) as [ze' t2']. cbn [fst snd] in E2, H2. subst ze'.
  destruct (sim_challenges (2 * dp_K P - 1) _ _ (sim_tag _ _ "mu_s" H2)) as [E3 H3].
  destruct (get_challenges (absorb_tag t2 "mu_s") (2 * dp_K P - 1)) as [mu t3], (get_challenges (absorb_tag t2' "mu_s") (2 * dp_K P - 1)) as [mu' t3']. cbn [fst snd] in E3, H3. subst mu'.
  destruct (sim_challenges (c_s cs) _ _ (sim_tag _ _ "beta_s" H3)) as [E4 H4].
  destruct (get_challenges (absorb_tag t3 "beta_s") (c_s cs)) as [be t4], (get_challenges (absorb_tag t3' "beta_s") (c_s cs)) as [be' t4']. cbn [fst snd] in E4, H4. subst be'.
  apply (bind_rsim Rel); [apply sim_sc_verify, H4|]. intros [pt e] t5 t5' H5. apply bind_same. intros _. unfold get_rhos.
  destruct (sim_small (2 * dp_K P - 1) _ _ (sim_tag _ _ "rho_s" (sim_slices (fp_eta pf) _ _ (sim_slices (fp_theta pf) _ _ H5)))) as [E6 H6].
  destruct (get_small_challenges (absorb_tag (absorb_slices (absorb_slices t5 (fp_theta pf)) (fp_eta pf)) "rho_s") (2 * dp_K P - 1)) as [rho t6],
    (get_small_challenges (absorb_tag (absorb_slices (absorb_slices t5' (fp_theta pf)) (fp_eta pf)) "rho_s") (2 * dp_K P - 1)) as [rho' t6']. cbn [fst snd] in E6, H6. subst rho'.
  apply bind_same. intros [[[v0 cm0] u0] x0]. apply bind_same. intros lc. cbn [rsim]. auto.
Qed.
Theorem sim_nifs t t' P acc cm_i pf cs : Rel t t' -> rsim Rel (nifs_verify P acc cm_i pf t cs) (nifs_verify P acc cm_i pf t' cs).
Proof.
  intros H. unfold nifs_verify. apply bind_same. intros _. apply (bind_rsim Rel).
  - apply sim_lin. unfold absorb_public_input. repeat first [apply sim_slice | apply sim_tag | apply Ha]. exact H.
  - intros lin t1 t1' H1. apply (bind_rsim Rel); [apply sim_dec, H1|]. intros ll t2 t2' H2. apply (bind_rsim Rel); [apply sim_dec, H2|]. intros lr t3 t3' H3. apply sim_fold, H3.
Qed.
End Sim.
