(** Model of nifs/decomposition.rs, nifs/decomposition/utils.rs. *)
From Coq Require Import String List Arith Lia ZArith Bool Ring.
From Verif Require Import Prelude Alg MLE Transcript Arith Balanced Rings Linearization.
Import ListNotations.
Local Open Scope rs_scope.

(** nifs/decomposition/structs.rs, struct [DecompositionProof] *)
Record dec_proof (R : Type) := DecProof {
  dp_us : list (list R); dp_vs : list (list R); dp_xs : list (list R); dp_ys : list (list R) }.
Arguments DecProof {R}. Arguments dp_us {R}. Arguments dp_vs {R}. Arguments dp_xs {R}. Arguments dp_ys {R}.

Section Rec.
Context {R : Type} {RO : RingOps R}.
(** decomposition.rs 262-274 [recompose]; [s_i[j]] panics out of bounds. *)
Definition recompose_vecs (s : list (list R)) (b : list R) : result (list R) :=
  match s with
  | [] => Err RecomposedError
  | s0 :: _ =>
    mapM (fun j => fold_left (fun acc sb => do acc <- acc; do x <- index (fst sb) j; Ok (acc + x * snd sb))
                             (combine s b) (Ok 0)) (seq 0 (length s0))
  end.
(** decomposition.rs 277-286 [recompose_commitment] *)
Definition recompose_commitment (ys : list (list R)) (b : list R) : result (list R) :=
  match zipw (fun y bi => cm_scale y bi) ys b with
  | [] => Err RecomposedError
  | y0 :: rest => Ok (fold_left cm_add rest y0)
  end.

End Rec.

Section Dec.
Context {F K C R T : Type} {SO : SOps F K C R} {TO : TransOps T R K}.

(** External [Transpose] of a rectangular matrix (the transpose of no rows is empty; the width is
    [P::K], the length of every row produced by [decompose_to_vec]). *)
Definition transpose_k {A} (d : A) (k : nat) (rows : list (list A)) : list (list A) :=
  match rows with [] => [] | _ => transpose d k rows end.

(** decomposition/utils.rs 45-49 [decompose_B_vec_into_k_vec] *)
Definition decompose_B_vec (P : dparams) (x : list C) : list (list C) :=
  transpose_k 0 (dp_K P) (map (decompose_c (Z.of_nat (dp_b P)) (dp_K P)) x).

(** decomposition/utils.rs 12-42 [decompose_big_vec_into_k_vec_and_compose_back] *)
Definition decompose_big_vec (P : dparams) (x : list R) : list (list R) :=
  let dB := gadget_decompose (dp_B P) (dp_L P) (map icrt x) in
  map (fun vec => map (fun ch => crt (recompose ch (rofZ (dp_B P)))) (chunks (dp_L P) vec))
      (decompose_B_vec P dB).

(** decomposition.rs 162-167 [decompose_witness] *)
Definition decompose_witness (P : dparams) (w : witness C R) : list (witness C R) :=
  map (wit_from_f_coeff P) (decompose_B_vec P (w_fc w)).
(** decomposition.rs 172-175 [compute_x_s] *)
Definition compute_x_s (P : dparams) (x_w : list R) (h : R) : list (list R) :=
  decompose_big_vec P (x_w ++ [h]).
(** decomposition.rs 178-201 [commit_witnesses]; [wit_s[1..]] panics on an empty slice. *)
Definition commit_witnesses (P : dparams) (wits : list (witness C R)) (A : ajtai R) (cm_i : lcccs R)
  : result (list (list R)) :=
  match wits with
  | [] => Panic
  | _ :: rest =>
    do cms <- mapM (wit_commit A) rest;
    let b : R := rofZ (Z.of_nat (dp_b P)) in
    let b_sum := fold_left (fun acc y => cm_scale (cm_add acc y) b) (rev cms) (cm_zeroed (kappa A)) in
    Ok (cm_sub (lc_cm cm_i) b_sum :: cms)
  end.
(** decomposition.rs 204-211 [compute_v_s] *)
Definition compute_v_s (wits : list (witness C R)) (r : list R) : result (list (list R)) :=
  mapM (fun w => evaluate_mles_dml (w_fhat w) r) wits.
(** decomposition.rs 229-256 [compute_mz_mles] *)
Definition compute_mz_mles (wits : list (witness C R)) (M : list (smat R)) (xs : list (list R)) (nv : nat)
  : result (list (list (mle R))) :=
  mapM (fun iw => do x <- index xs (fst iw);
                  to_mles_err nv (map (fun m => mat_vec_mul m (x ++ w_ccs (snd iw))) M))
       (combine (seq 0 (length wits)) wits).
(** decomposition.rs 214-228 [compute_u_s] *)
Definition compute_u_s (mzs : list (list (mle R))) (r : list R) : result (list (list R)) :=
  mapM (fun ms => evaluate_mles_dml ms r) mzs.

(** decomposition.rs 56-77 (prover) and 102-129 (verifier): the loop over the components. *)
Fixpoint dec_absorb (r : list R) (ts : T) (xyuv : list (list R * list R * list R * list R))
  : result (list (lcccs R) * T) :=
  match xyuv with
  | [] => Ok ([], ts)
  | (x, y, u, v) :: rest =>
    let ts := absorb_slice ts x in
    let ts := absorb_slice ts y in
    let ts := absorb_slice ts u in
    let ts := absorb_slice ts v in
    do h <- of_option (Err IncorrectLength) (last_opt x);
    do res <- dec_absorb r ts rest;
    Ok (Lcccs r v y u (removelast x) h :: fst res, snd res)
  end.
(** The nested [zip] over four lists (decomposition.rs 65, 104-108): stops at the shortest. *)
Definition zip4 (xs ys us vs : list (list R)) : list (list R * list R * list R * list R) :=
  combine (combine (combine xs ys) us) vs.

(** decomposition.rs 33-88 [prove] *)
Definition dec_prove (P : dparams) (cm_i : lcccs R) (wit : witness C R) (ts : T) (cs : ccs R) (A : ajtai R)
  : result (list (list (mle R)) * list (lcccs R) * list (witness C R) * dec_proof R * T) :=
  do _ <- sanity_check cs (dp_L P);
  let wits := decompose_witness P wit in
  let xs := compute_x_s P (lc_x cm_i) (lc_h cm_i) in
  do ys <- commit_witnesses P wits A cm_i;
  do vs <- compute_v_s wits (lc_r cm_i);
  do mzs <- compute_mz_mles wits (c_M cs) xs (c_s cs);
  do us <- compute_u_s mzs (lc_r cm_i);
  do res <- dec_absorb (lc_r cm_i) ts (zip4 xs ys us vs);
  Ok (mzs, fst res, wits, DecProof us vs xs ys, snd res).

(** decomposition.rs 288-292 [calculate_b_s].  The overflow of the u128 power is in Overflow.v. *)
Definition calculate_b_s (P : dparams) : list R :=
  map (fun i => rofZ (Z.of_nat (dp_b P) ^ Z.of_nat i)) (seq 0 (dp_K P)).
(** decomposition.rs 94-155 [verify] *)
Definition dec_verify (P : dparams) (cm_i : lcccs R) (pf : dec_proof R) (ts : T)
  : result (list (lcccs R) * T) :=
  do res <- dec_absorb (lc_r cm_i) ts (zip4 (dp_xs pf) (dp_ys pf) (dp_us pf) (dp_vs pf));
  let bs := calculate_b_s P in
  do y <- recompose_commitment (dp_ys pf) bs;
  if negb (leqb y (lc_cm cm_i)) then Err RecomposedError else
  do v <- recompose_vecs (dp_vs pf) bs;
  if negb (leqb v (lc_v cm_i)) then Err RecomposedError else
  do u <- recompose_vecs (dp_us pf) bs;
  if negb (leqb u (lc_u cm_i)) then Err RecomposedError else
  do xw <- recompose_vecs (dp_xs pf) bs;
  do h <- of_option (Err IncorrectLength) (last_opt xw);
  if negb (leqb (removelast xw) (lc_x cm_i)) then Err RecomposedError else
  if negb (h =? lc_h cm_i) then Err RecomposedError else
  Ok res.
End Dec.
