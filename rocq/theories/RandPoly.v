(** Model of [rand_poly] (latticefold/src/utils/sumcheck/utils.rs 24-62). *)
From Coq Require Import List Arith.
From Verif Require Import Prelude Alg MLE Sumcheck.
Import ListNotations.
Local Open Scope rs_scope.

Section RandPoly.
Context {R : Type} {RO : RingOps R}.
(** External [random_mle_list(nv, k, rng)]: k random tables and the sum of the entrywise product. *)
Definition product_sum (nv : nat) (ms : list (mle R)) : R :=
  lsum (map (fun b => fold_left rmul (map (fun m => mle_get m b) ms) 1) (seq 0 (2 ^ nv))).
(** utils.rs 24-62.  What the random generator yields per product is an argument: the coefficient and the tables. *)
Definition rand_poly (nv : nat) (draws : list (R * list (mle R)))
  : (list (mle R) * nat) * list (R * list nat) * R :=
  let '(mles, degree, products, sum, _) :=
    fold_left (fun st d =>
      let '(mles, degree, products, sum, cur) := st in
      let n := length (snd d) in
      (mles ++ snd d, Nat.max n degree, products ++ [(fst d, seq cur n)],
       sum + product_sum nv (snd d) * fst d, (cur + n)%nat))
      draws (([], 0%nat, [], 0, 0%nat) : list (mle R) * nat * list (R * list nat) * R * nat) in
  (mles, degree, products, sum).
End RandPoly.
