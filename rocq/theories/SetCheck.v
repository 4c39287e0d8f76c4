(** Model of latticefold-plus/src/setchk.rs: the monomial set check. *)
From Coq Require Import String List Arith Lia ZArith Bool Ring.
From Verif Require Import Prelude Alg MLE Transcript Sumcheck Arith Rings PlusRing.
Import ListNotations.
Local Open Scope rs_scope.

(** setchk.rs 17-21 [MonomialSet] *)
Inductive mset (R : Type) := MMat (M : smat R) | MVec (v : list R).
Arguments MMat {R}. Arguments MVec {R}.
(** setchk.rs 29-36 [Out] *)
Record sc_out (K R : Type) := ScOut {
  so_nvars : nat; so_r : list K; so_sc : list (list R); so_e : list (list (list R)); so_b : list R }.
Arguments ScOut {K R}. Arguments so_nvars {K R}. Arguments so_r {K R}. Arguments so_sc {K R}.
Arguments so_e {K R}. Arguments so_b {K R}.

Section SC.
Context {K R T : Type} {PO : POps K R} {TO : TransOps T R K}.

(** setchk.rs 46-57 [ev]: the coefficients evaluated as a polynomial at [x]. *)
Definition ev (r : R) (x : K) : K :=
  fst (fold_left (fun ae c => (fst ae + c * snd ae, snd ae * x)) (pcoeffs r) (0, 1)).

(** setchk.rs 66-80: the two kinds of sets. *)
Definition set_mats (sets : list (mset R)) : list (smat R) :=
  flat_map (fun s => match s with MMat M => [M] | MVec _ => [] end) sets.
(** setchk.rs 66-80: the sets given as vectors. *)
Definition set_vecs (sets : list (mset R)) : list (list R) :=
  flat_map (fun s => match s with MMat _ => [] | MVec v => [v] end) sets.

(** setchk.rs 102-115, 133-141: the two tables of one column. *)
Definition col_mles (tnvars : nat) (beta : K) (col : list R) : result (list (mle R)) :=
  let m_j := map (fun x => emb (ev x beta) : R) col in
  do a <- mle_from_vec tnvars m_j;
  do b <- mle_from_vec tnvars (map (fun z => z * z) m_j);
  Ok [a; b].
(** setchk.rs 89-121 and 124-150: the tables of one set given by its columns, and its [alpha].
    Simplification: a matrix is transposed and scattered by [sm_cols]; absent entries evaluate to
    [emb (ev 0 beta)], which is zero. *)
Definition claim_mles (nvars tnvars : nat) (cols : list (list R)) (ts : T) : result (list (mle R) * K * T) :=
  let '(c, ts) := get_challenges ts nvars in
  let '(beta, ts) := get_challenge ts in
  do ms <- mapM (col_mles tnvars beta) cols;
  do e <- unwrap (build_eq_x_r (map emb c : list R));
  let '(alpha, ts) := get_challenge ts in
  Ok (concat ms ++ [e], alpha, ts).

(** setchk.rs 155-186 [comb_fn].  Indices out of range read as zero; [set_check] panics beforehand
    when the list is too short. *)
Definition set_comb (nM nm ncols : nat) (alphas : list K) (rc : option K) (vals : list R) : R :=
  let v i := nth i vals 0 in
  let mat i :=
    let s := (i * (2 * ncols + 1))%nat in
    lsum (map (fun j => (v (s + j * 2)%nat * v (s + j * 2)%nat - v (s + j * 2 + 1)%nat)
                        * emb (rpow (nth i alphas 0) j)) (seq 0 ncols)) * v (s + 2 * ncols)%nat in
  let vec i :=
    let s := (nM * (2 * ncols + 1) + i * 3)%nat in
    (v s * v s - v (s + 1)%nat) * emb (nth (nM + i) alphas 0) * v (s + 2)%nat in
  match rc with
  | Some rc => lsum (map (fun i => mat i * emb (rpow rc i)) (seq 0 nM))
               + lsum (map (fun i => vec i * emb (rpow rc (nM + i))) (seq 0 nm))
  | None => match nM with
            | S _ => mat 0%nat
            | O => match nm with S _ => vec 0%nat | O => 0 end
            end
  end.

(** setchk.rs 344-355 [absorb_evaluations] *)
Definition sc_absorb (e : list (list (list R))) (b : list R) (ts : T) : T :=
  absorb_slice (fold_left (fun ts ek => fold_left absorb_slice ek ts) e ts) b.

(** setchk.rs 153 and 282: the optional batching challenge. *)
Definition opt_challenge (n : nat) (ts : T) : option K * T :=
  if (1 <? n)%nat then let '(c, ts) := get_challenge ts in (Some c, ts) else (None, ts).

(** setchk.rs 65-262 [set_check] *)
Definition set_check (nvars : nat) (sets : list (mset R)) (M : list (smat R)) (ts : T) : result (sc_out K R * T) :=
  let Ms := set_mats sets in
  let ms := set_vecs sets in
  match Ms with
  | [] => Panic
  | M0 :: _ =>
    let ncols := m_ncols M0 in
    let tnvars := ark_log2 (next_pow2 (m_nrows M0)) in
    let cols := map sm_cols Ms in
    do ct <- mapT (fun cs ts => do x <- claim_mles nvars tnvars cs ts; let '(m, a, ts) := x in Ok ((m, a), ts))
               (cols ++ map (fun m => [m]) ms) ts;
    let '(blocks, ts) := ct in
    let mles := concat (map fst blocks) in
    let alphas := map snd blocks in
    let '(rc, ts) := opt_challenge (length Ms) ts in
    do _ <- guard ((length Ms <=? 1)%nat || (length Ms * (2 * ncols + 1) + length ms * 3 <=? length mles)%nat) Panic;
    do sp <- sc_prove ts mles nvars 3 (set_comb (length Ms) (length ms) ncols alphas rc);
    let '(proof, r, ts) := sp in
    let rp := map emb r in
    do e0 <- mapM (mapM (fun col => eval_vec tnvars col rp)) cols;
    do es <- mapM (fun Mi => mapM (mapM (fun col => do v <- sm_mul_vec Mi col; eval_vec tnvars v rp)) cols) M;
    do b <- mapM (fun m => eval_vec tnvars m rp) ms;
    Ok (ScOut nvars r proof (e0 :: es) b, sc_absorb (e0 :: es) b ts)
  end.

(** setchk.rs 269-279: the challenges of one claim. *)
Definition claim_challenges (nvars : nat) (ts : T) : list K * K * K * T :=
  let '(c, ts) := get_challenges ts nvars in
  let '(beta, ts) := get_challenge ts in
  let '(alpha, ts) := get_challenge ts in
  (c, beta, alpha, ts).
(** setchk.rs 269-279 for all claims. *)
Fixpoint cba_loop (n nvars : nat) (ts : T) : list (list K * K * K) * T :=
  match n with
  | O => ([], ts)
  | S n' => let '(c, beta, alpha, ts) := claim_challenges nvars ts in
            let '(l, ts) := cba_loop n' nvars ts in ((c, beta, alpha) :: l, ts)
  end.

(** [rc.unwrap_or(1).pow(i)] *)
Definition rc_pow (rc : option K) (i : nat) : K := rpow (match rc with Some c => c | None => 1 end) i.
(** setchk.rs 311-313, 329-331: the test value of one opening. *)
Definition ev_claim (beta : K) (x : R) : R :=
  emb (ev x beta) * emb (ev x beta) - emb (ev x (beta * beta)).

(** setchk.rs 300-334: the recomputed evaluation; the indices into [cba] are in range. *)
Definition set_expected (r : list R) (cba : list (list K * K * K)) (rc : option K)
    (e0 : list (list R)) (b : list R) : result R :=
  do ms <- mapM (fun ie =>
      let '(c, beta, alpha) := nth (fst ie) cba ([], 0, 0) in
      do eq <- unwrap (eq_eval (map emb c) r);
      Ok (eq * lsum (zipw (fun j x => ev_claim beta x * emb (rpow alpha j)) (seq 0 (length (snd ie))) (snd ie))
          * emb (rc_pow rc (fst ie))))
    (combine (seq 0 (length e0)) e0);
  do vs <- mapM (fun ib =>
      let i := (fst ib + length e0)%nat in
      let '(c, beta, alpha) := nth i cba ([], 0, 0) in
      do eq <- unwrap (eq_eval (map emb c) r);
      Ok (eq * emb alpha * ev_claim beta (snd ib) * emb (rc_pow rc i)))
    (combine (seq 0 (length b)) b);
  Ok (lsum ms + lsum vs).

(** setchk.rs 266-341 [Out::verify]; returns the transcript state. *)
Definition set_verify (o : sc_out K R) (ts : T) : result T :=
  do e0 <- index (so_e o) 0;
  let '(cba, ts) := cba_loop (length e0 + length (so_b o)) (so_nvars o) ts in
  let '(rc, ts) := opt_challenge (length e0) ts in
  do sub <- sc_verify ts (so_nvars o) 3 0 (so_sc o);
  let '(point, v, ts) := sub in
  let ts := sc_absorb (so_e o) (so_b o) ts in
  do ver <- set_expected (map emb point) cba rc e0 (so_b o);
  if ver =? v then Ok ts else Err ExpectedEvaluation.
End SC.
