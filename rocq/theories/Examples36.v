(** Concrete cases for the theorems of Properties40.v: the ring F_p[X]/(X^16+1) over the Frog prime. *)
From Coq Require Import Ascii String List Arith Lia ZArith Bool.
From Verif Require Import Prelude Alg Transcript Linearization PlusRing Challenge Primes FieldExt PolyInst PlusTranscript Properties18 Properties40.
Import ListNotations.
Local Open Scope rs_scope.

Notation FK := (fp frog_p).
Notation FR := (pol (fp frog_p) 16).
#[local] Instance FPO : POps FK FR := poly_ops frog_p 16.
#[local] Instance FPL : PLaws FK FR frog_p.
Proof. apply poly_laws; [exact frog_prime|reflexivity|lia|reflexivity]. Qed.

(** Two names of seven letters are kept apart. *)
Example ex_C123_short : (emb (rofZ (big_endian (bytes_of "range_b")) : FK) : FR) <> emb (rofZ (big_endian (bytes_of "range_c")) : FK).
Proof.
  refine (C123_short (PL := FPL) "range_b" "range_c" _ _ _); [reflexivity|discriminate|].
  intros x [<-|[<-|[]]]; (split; [vm_compute; discriminate|vm_compute; discriminate]).
Qed.
(** Two names of twelve letters are not. *)
Example ex_C123_collision {T} {TO : TransOps T FR FK} (ts : T) n :
  squeeze_rchallenges ts "mzmazzzmmmmm" n = squeeze_rchallenges ts "vieqjljjlcan" n.
Proof.
  unfold squeeze_rchallenges. replace (squeeze_challenges ts "mzmazzzmmmmm" n) with (squeeze_challenges ts "vieqjljjlcan" n); [reflexivity|].
  symmetry. refine (proj2 (C123_same (PL := FPL) "mzmazzzmmmmm" "vieqjljjlcan" _) _ T TO ts n); [reflexivity|vm_compute; reflexivity].
Qed.
(** A leading zero byte is not seen either, in any ring: the second condition of C123_short is needed. *)
Example ex_C123_nul {T} {TO : TransOps T FR FK} (ts : T) n :
  squeeze_challenges ts (String "000"%char "a") n = squeeze_challenges ts "a" n.
Proof. reflexivity. Qed.
(** What is absorbed under a name, and the drawn challenges. *)
Definition rec_trans : TransOps (list FR * list FK) FR FK :=
  {| absorb := fun t x => (fst t ++ [x], snd t); get_challenge := fun t => (hd 0 (snd t), (fst t, tl (snd t))); squeeze_bytes := fun t _ => ([], t) |}.
Example ex_C123_named : squeeze_challenges (TO := rec_trans) ([], [rofZ 3; rofZ 5; rofZ 7]) "ab" 2 =
  ([rofZ 3; rofZ 5], ([emb (rofZ (97 * 256 + 98) : FK)], [rofZ 7])).
Proof. reflexivity. Qed.
