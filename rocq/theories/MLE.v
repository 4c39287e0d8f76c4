(** Model of the multilinear-extension helpers and of the eq polynomial. *)
From Coq Require Import List Arith Lia ZArith Bool Ring.
From Verif Require Import Prelude Alg.
Import ListNotations.
Local Open Scope rs_scope.

(** stark-rings [DenseMultilinearExtension] (external): number of variables and table.
    The external type may drop trailing zero entries; indexing past the stored entries
    gives zero, so the model keeps the full table. *)
Record mle (R : Type) := Mle { mle_nv : nat; mle_evals : list R }.
Arguments Mle {R}. Arguments mle_nv {R}. Arguments mle_evals {R}.

Section MLE.
Context {R : Type} {RO : RingOps R}.

(** External [DenseMultilinearExtension::from_evaluations_vec/_slice(n, v)]: asserts that
    the table fits in 2^n entries and pads with zeros. *)
Definition mle_from_vec (nv : nat) (l : list R) : result (mle R) :=
  if (length l <=? 2 ^ nv)%nat then Ok (Mle nv (resize (2 ^ nv) 0 l)) else Panic.

(** External [Index]: [poly[i]]. *)
Definition mle_get (m : mle R) (i : nat) : R := nth i (mle_evals m) 0.

(** External [fix_variables(&[r])]: substitutes [r] for the variable with the lowest
    index; entry [i] of the result is [t[2i] + r*(t[2i+1]-t[2i])]. *)
Fixpoint fix1 (r : R) (t : list R) : list R :=
  match t with
  | [] => []
  | [a] => [a + r * (0 - a)]
  | a :: b :: t' => (a + r * (b - a)) :: fix1 r t'
  end.

(** External [fix_variables(&[r])] on the table with its number of variables; asserts that there is one. *)
Definition mle_fix_var (r : R) (m : mle R) : result (mle R) :=
  match mle_nv m with
  | O => Panic
  | S n => Ok (Mle n (fix1 r (mle_evals m)))
  end.

(** External [evaluate(point)]: [None] unless the point has [num_vars] coordinates,
    otherwise all variables are fixed in order. *)
Definition mle_evaluate (m : mle R) (p : list R) : option R :=
  if (length p =? mle_nv m)%nat
  then Some (nth 0 (fold_left (fun t r => fix1 r t) p (mle_evals m)) 0)
  else None.

(** utils/mle_helpers.rs 25-34 [Evaluate for Vec<R>] and 36-44 [for &[R]]. *)
Definition vec_evaluate (l : list R) (p : list R) : result R :=
  do m <- mle_from_vec (length p) l;
  of_option (Err (MleIncorrectLength (length p) (length l))) (mle_evaluate m p).

(** utils/mle_helpers.rs 46-51 [Evaluate for &DenseMultilinearExtension<R>]. *)
Definition dml_evaluate (m : mle R) (p : list R) : result R :=
  of_option (Err (MleIncorrectLength (length p) (length (mle_evals m)))) (mle_evaluate m p).

(** utils/mle_helpers.rs 53-62 [Evaluate for &Vec<R>]: requires exactly 2^n entries. *)
Definition vecref_evaluate (l : list R) (p : list R) : result R :=
  if negb (length l =? 2 ^ length p)%nat
  then Err (MleIncorrectLength (length p) (length l))
  else do m <- mle_from_vec (length p) l;
       of_option (Err (MleIncorrectLength (length p) (length l))) (mle_evaluate m p).

(** utils/mle_helpers.rs 65-88 [evaluate_mles] at the three item types. *)
Definition evaluate_mles_dml (ms : list (mle R)) (p : list R) : result (list R) :=
  mapM (fun m => dml_evaluate m p) ms.
(** utils/mle_helpers.rs 65-88 [evaluate_mles] on [&Vec]. *)
Definition evaluate_mles_vecref (ms : list (list R)) (p : list R) : result (list R) :=
  mapM (fun m => vecref_evaluate m p) ms.

(** utils/mle_helpers.rs 91-134 [to_mles_err] (both builds: results are collected in
    order, the first error is returned). *)
Definition to_mles_err (nv : nat) (ms : list (result (list R))) : result (list (mle R)) :=
  mapM (fun rm => do m <- rm;
                  if (2 ^ nv <? length m)%nat
                  then Err (MleIncorrectLength (2 ^ nv) (length m))
                  else mle_from_vec nv m) ms.

(** utils/sumcheck/utils.rs 78-92 [eq_eval] *)
Definition eq_eval (x y : list R) : result R :=
  if negb (length x =? length y)%nat then Err InvalidParameters
  else Ok (fold_left (fun res xy => let xi_yi := fst xy * snd xy in
                        res * (xi_yi + xi_yi - fst xy - snd xy + 1)) (combine x y) 1).

(** utils/sumcheck/utils.rs 134-170 [build_eq_x_r_helper] *)
Fixpoint build_eq_helper (r : list R) : result (list R) :=
  match r with
  | [] => Err InvalidParameters
  | r0 :: r' =>
    match r' with
    | [] => Ok [1 - r0; r0]
    | _ => do buf <- build_eq_helper r';
           Ok (map (fun i => let bi := nth (i / 2) buf 0 in
                             let tmp := r0 * bi in
                             if Nat.even i then bi - tmp else tmp)
                   (seq 0 (2 * length buf)))
    end
  end.

(** utils/sumcheck/utils.rs 113-129 [build_eq_x_r_vec] *)
Definition build_eq_x_r_vec (r : list R) : result (list R) := build_eq_helper r.

(** utils/sumcheck/utils.rs 100-105 [build_eq_x_r] *)
Definition build_eq_x_r (r : list R) : result (mle R) :=
  do e <- build_eq_x_r_vec r; mle_from_vec (length r) e.

(** utils/sumcheck/utils.rs 174-182 [bit_decompose] *)
Fixpoint bit_decompose (i : nat) (nv : nat) : list bool :=
  match nv with
  | O => []
  | S n => Nat.odd i :: bit_decompose (i / 2) n
  end.

End MLE.

(** ** Specification: eq weights and the multilinear extension of a table. *)
Definition bitr {R} {RO : RingOps R} (b i : nat) : R := if Nat.testbit b i then 1 else 0.

(** prod_{i<n} (p_i if bit i of b is set, 1 - p_i otherwise) *)
Definition eqw {R} {RO : RingOps R} (p : list R) (b : nat) : R :=
  prodn (length p) (fun i => if Nat.testbit b i then nth i p 0 else 1 - nth i p 0).

(** Specification: the value of the multilinear extension of [t] at [p] (no counterpart in the code). *)
Definition mle_spec {R} {RO : RingOps R} (t : nat -> R) (p : list R) : R :=
  sumn (2 ^ length p) (fun b => t b * eqw p b).

(** The boolean point with the bits of [b]. *)
Definition bits {R} {RO : RingOps R} (n b : nat) : list R := map (fun i => bitr b i) (seq 0 n).
