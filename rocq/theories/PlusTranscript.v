(** latticefold-plus/src/transcript.rs 57-79: challenges drawn under a name.  The rest of the file is the sponge
    transcript of Poseidon.v without the short challenges. *)
From Coq Require Import String List ZArith.
From Verif Require Import Prelude Alg Transcript Linearization PlusRing.
Import ListNotations.
Local Open Scope rs_scope.

Section N.
Context {K R T : Type} {PO : POps K R} {TO : TransOps T R K}.
(** transcript.rs 57-67 [squeeze_challenges]; the name is any string, its bytes are read as a big-endian number modulo
    the characteristic *)
Definition squeeze_challenges (ts : T) (name : string) (n : nat) : list K * T :=
  let ts := absorb_field_element ts (rofZ (be_val 0 name) : K) in
  get_challenges ts n.
(** transcript.rs 69-79 [squeeze_rchallenges] *)
Definition squeeze_rchallenges (ts : T) (name : string) (n : nat) : list R * T :=
  let '(l, ts) := squeeze_challenges ts name n in (map emb l, ts).
End N.
