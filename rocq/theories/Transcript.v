(** Model of the transcript trait: every protocol is parameterised by an arbitrary
    implementation of it. *)
From Coq Require Import List Arith Lia ZArith Bool.
From Verif Require Import Prelude Alg.
Import ListNotations.

(** [OverField]: a ring with a base field embedded by [From<BaseRing>] (stark-rings,
    external). *)
Class Embed (K R : Type) := emb : K -> R.
Class EmbedLaws (K R : Type) {OK : FieldOps K} {OR : RingOps R} {E : Embed K R} : Prop :=
  emb_hom : ring_hom (emb : K -> R).

(** latticefold/src/transcript.rs 13-38, trait [Transcript]: the three primitive
    operations.  [new] only builds the initial state, which is an arbitrary value here. *)
Class TransOps (T R K : Type) := {
  absorb : T -> R -> T;
  get_challenge : T -> K * T;
  squeeze_bytes : T -> nat -> list Z * T
}.

Section T.
Context {T R K : Type} {TO : TransOps T R K} {E : Embed K R}.

(** transcript.rs 20-22 [absorb_field_element] *)
Definition absorb_field_element (ts : T) (v : K) : T := absorb ts (emb v).

(** transcript.rs 24-28 [absorb_slice] *)
Definition absorb_slice (ts : T) (l : list R) : T := fold_left absorb l ts.

(** transcript.rs 32-36 [get_challenges] *)
Fixpoint get_challenges (ts : T) (n : nat) : list K * T :=
  match n with
  | O => ([], ts)
  | S n' => let '(c, ts1) := get_challenge ts in
            let '(cs, ts2) := get_challenges ts1 n' in (c :: cs, ts2)
  end.

Lemma get_challenges_length ts n : length (fst (get_challenges ts n)) = n.
Proof.
  revert ts; induction n; intros; simpl; auto.
  destruct (get_challenge ts) as [c ts1]. specialize (IHn ts1).
  destruct (get_challenges ts1 n). simpl in *. auto.
Qed.
Lemma absorb_slice_app ts l m : absorb_slice ts (l ++ m) = absorb_slice (absorb_slice ts l) m.
Proof. apply fold_left_app. Qed.
End T.

(** A transcript that records everything: the sequence of operations performed so far.
    Challenges are drawn from a tape.  Used for examples and for the synchronisation
    properties. *)
Record log_tr (R K : Type) := LogTr { lt_log : list R; lt_tape : list K }.
Arguments LogTr {R K}. Arguments lt_log {R K}. Arguments lt_tape {R K}.
