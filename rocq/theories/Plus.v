(** Model of latticefold-plus/src/r1cs.rs, lin.rs, mlin.rs, decomp.rs and plus.rs. *)
From Coq Require Import String List Arith Lia ZArith Bool Ring.
From Verif Require Import Prelude Alg MLE Transcript Sumcheck Arith Rings PlusRing SetCheck RangeCheck Cm.
Import ListNotations.
Local Open Scope rs_scope.

(** r1cs.rs 22-35 [ComR1CS], [ComR1CSX] (flattened) *)
Record com_r1cs (R : Type) := ComR1cs { cr_r1cs : r1cs R; cr_z : list R; cr_cm : list R; cr_lin : nat; cr_f : list R }.
Arguments ComR1cs {R}. Arguments cr_r1cs {R}. Arguments cr_z {R}. Arguments cr_cm {R}. Arguments cr_lin {R}. Arguments cr_f {R}.
(** r1cs.rs 37-46 [ComR1CSProof] *)
Record r1cs_proof (R : Type) := R1csProof {
  rp_sc : list (list R); rp_nvars : nat; rp_r : list R; rp_v : R; rp_va : R; rp_vb : R; rp_vc : R }.
Arguments R1csProof {R}. Arguments rp_sc {R}. Arguments rp_nvars {R}. Arguments rp_r {R}. Arguments rp_v {R}.
Arguments rp_va {R}. Arguments rp_vb {R}. Arguments rp_vc {R}.
(** lin.rs 29-40 [LinBX], [LinB] (flattened) *)
Record linb (R : Type) := LinB { lb_f : list R; lb_cm : list R; lb_r : list (R * R); lb_v : list (R * R) }.
Arguments LinB {R}. Arguments lb_f {R}. Arguments lb_cm {R}. Arguments lb_r {R}. Arguments lb_v {R}.
(** mlin.rs 21-26 [LinB2X] *)
Record linb2x (R : Type) := LinB2X { l2_cm : list R; l2_ro : list (R * R); l2_vo : list (R * R) }.
Arguments LinB2X {R}. Arguments l2_cm {R}. Arguments l2_ro {R}. Arguments l2_vo {R}.
(** decomp.rs 20-25 [DecompProof] *)
Record dec_proof (R : Type) := DecProof { dp_C0 : list R; dp_C1 : list R; dp_v0 : list (R * R); dp_v1 : list (R * R) }.
Arguments DecProof {R}. Arguments dp_C0 {R}. Arguments dp_C1 {R}. Arguments dp_v0 {R}. Arguments dp_v1 {R}.
(** plus.rs 35-41 [PlusProof] *)
Record plus_proof (K R : Type) := PlusProof {
  pp_x : linb2x R; pp_l : list (r1cs_proof R); pp_cm : cm_proof K R; pp_d : dec_proof R }.
Arguments PlusProof {K R}. Arguments pp_x {K R}. Arguments pp_l {K R}. Arguments pp_cm {K R}. Arguments pp_d {K R}.
(** lin.rs 23-27 [LinParameters] and plus.rs 43-47 [PlusParameters] (flattened) *)
Record plus_params := PlusParams { pl_kappa : nat; pl_dec : rparams; pl_B : Z }.

Section P.
Context {K R T : Type} {PO : POps K R} {TO : TransOps T R K}.

(** r1cs.rs 48-59 [ComR1CS::new] *)
Definition com_r1cs_new (rc : r1cs R) (z : list R) (l_in : nat) (b : Z) (k : nat) (A : ajtai R) : result (com_r1cs R) :=
  let f := pgadget b k z in
  do cm <- dm_mul_vec A f;
  Ok (ComR1cs rc z cm l_in f).
(** r1cs.rs 61-69 [matrices] *)
Definition r1cs_mats (rc : r1cs R) : list (smat R) := [r_A rc; r_B rc; r_C rc].

(** r1cs.rs 92 [comb_fn]; the four tables are always present. *)
Definition r1cs_comb (vals : list R) : R :=
  nth 0 vals 0 * (nth 1 vals 0 * nth 2 vals 0 - nth 3 vals 0).

(** r1cs.rs 74-133 [linearize] *)
Definition linearize (c : com_r1cs R) (ts : T) : result (linb R * r1cs_proof R * T) :=
  let nvars := ark_log2 (next_pow2 (length (cr_f c))) in
  do ga <- sm_mul_vec (r_A (cr_r1cs c)) (cr_f c);
  do gb <- sm_mul_vec (r_B (cr_r1cs c)) (cr_f c);
  do gc <- sm_mul_vec (r_C (cr_r1cs c)) (cr_f c);
  let '(r, ts) := get_challenges ts nvars in
  do eq <- unwrap (build_eq_x_r (map emb r : list R));
  do mf <- mle_from_vec nvars (cr_f c);
  do ma <- mle_from_vec nvars ga;
  do mb <- mle_from_vec nvars gb;
  do mc <- mle_from_vec nvars gc;
  do sp <- sc_prove ts [eq; ma; mb; mc] nvars 3 r1cs_comb;
  let '(proof, ro, ts) := sp in
  let ro := map emb ro in
  do v <- of_option Panic (mle_evaluate mf ro);
  do va <- of_option Panic (mle_evaluate ma ro);
  do vb <- of_option Panic (mle_evaluate mb ro);
  do vc <- of_option Panic (mle_evaluate mc ro);
  let ts := absorb_slice ts [v; va; vb; vc] in
  Ok (LinB (cr_f c) (cr_cm c) (map (fun x => (x, x)) ro) [(v, v); (va, va); (vb, vb); (vc, vc)],
      R1csProof proof nvars ro v va vb vc, ts).

(** r1cs.rs 136-162 [ComR1CSProof::verify]; every failure panics. *)
Definition lin_verify (p : r1cs_proof R) (ts : T) : result (bool * T) :=
  let '(r, ts) := get_challenges ts (rp_nvars p) in
  do sub <- unwrap (sc_verify ts (rp_nvars p) 3 0 (rp_sc p));
  let '(point, s, ts) := sub in
  let ro := map emb point : list R in
  let ts := absorb_slice ts [rp_v p; rp_va p; rp_vb p; rp_vc p] in
  do e <- unwrap (eq_eval (map emb r) ro);
  if e * (rp_va p * rp_vb p - rp_vc p) =? s then Ok (true, ts) else Panic.

(** mlin.rs 77-88: pairwise sums; [acc[i]] panics past the end of the first list. *)
Definition add2 (x y : R * R) : R * R := (fst x + fst y, snd x + snd y).
(** mlin.rs 77-88: the sum over the instances *)
Definition sum_vo (vos : list (list (R * R))) : result (list (R * R)) :=
  do v0 <- index vos 0;
  if forallb (fun v => (length v <=? length v0)%nat) vos
  then Ok (fold_left (fun acc v => zipl add2 acc v) vos (repeat (0, 0) (length v0)))
  else Panic.

(** mlin.rs 42-105 [Mlin::mlin]; returns [g], the public part, the proof and the transcript.
    lin.rs 50-63 [LinB::lin] is the case of one instance. *)
Definition mlin (lins : list (linb R)) (pp : plus_params) (A : ajtai R) (M : list (smat R)) (ts : T)
  : result (list R * linb2x R * cm_proof K R * T) :=
  match lins with
  | [] => Panic
  | l0 :: _ =>
    let n := length (lb_f l0) in
    do insts <- mapM (fun l => from_f (lb_f l) A (pl_dec pp)) lins;
    do pr <- cm_prove (Rg (ark_log2 n) insts (pl_dec pp)) M ts;
    let '(gs, x, proof, ts) := pr in
    let cm_g := fold_left (fun acc c => zipl radd acc c) (cx_cm x) (repeat 0 (pl_kappa pp)) in
    do vo <- sum_vo (cx_vo x);
    let g := fold_left (fun acc c => zipl radd acc c) gs (repeat 0 n) in
    Ok (g, LinB2X cm_g (cx_ro x) vo, proof, ts)
  end.
(** lin.rs 50-63 [LinB::lin] *)
Definition lin (l : linb R) (pp : plus_params) (A : ajtai R) (M : list (smat R)) (ts : T) :=
  mlin [l] pp A M ts.

(** decomp.rs 38-70: the evaluations of one half. *)
Definition vi_calc (nvars : nat) (r : list (R * R)) (M : list (smat R)) (F : list R) : result (list (R * R)) :=
  do a <- eval_vec nvars F (map fst r);
  do b <- eval_vec nvars F (map snd r);
  do ms <- mapM (fun m => do w <- sm_mul_vec m F; do x <- eval_vec nvars w (map fst r);
                          do y <- eval_vec nvars w (map snd r); Ok (x, y)) M;
  Ok ((a, b) :: ms).
(** decomp.rs 32-98 [Decomp::decompose]; with an empty [f] the transposed decomposition is empty and
    [next().unwrap()] panics. *)
Definition decompose (f : list R) (r : list (R * R)) (M : list (smat R)) (A : ajtai R) (B : Z)
  : result (linb R * linb R * dec_proof R) :=
  let nvars := ark_log2 (a_ncols A) in
  match f with
  | [] => Panic
  | _ =>
    let F0 := map (fun x => nth 0 (pdecompose B 2 x) 0) f in
    let F1 := map (fun x => nth 1 (pdecompose B 2 x) 0) f in
    do v0 <- vi_calc nvars r M F0;
    do v1 <- vi_calc nvars r M F1;
    do C0 <- dm_mul_vec A F0;
    do C1 <- dm_mul_vec A F1;
    Ok (LinB F0 C0 r v0, LinB F1 C1 r v1, DecProof C0 C1 v0 v1)
  end.

(** Equality of lists of pairs, [assert_eq] on slices. *)
Fixpoint leqb2 (a b : list (R * R)) : bool :=
  match a, b with
  | [], [] => true
  | x :: a', y :: b' => (fst x =? fst y) && (snd x =? snd y) && leqb2 a' b'
  | _, _ => false
  end.
(** decomp.rs 102-122 [DecompProof::verify] *)
Definition dec_verify (p : dec_proof R) (cm_f : list R) (v : list (R * R)) (B : Z) : result unit :=
  let Br := rofZ B : R in
  let rec_cm := zipw (fun a b => recompose [a; b] Br) (dp_C0 p) (dp_C1 p) in
  let rec_v := zipw (fun a b => (recompose [fst a; fst b] Br, recompose [snd a; snd b] Br)) (dp_v0 p) (dp_v1 p) in
  do _ <- guard (leqb rec_cm cm_f) Panic;
  guard (leqb2 rec_v v) Panic.

(** plus.rs 77-108 [PlusProver::prove]; the state is the accumulator and the transcript. *)
Definition plus_prove (acc : list (linb R)) (A : ajtai R) (M : list (smat R)) (pp : plus_params)
    (comps : list (com_r1cs R)) (ts : T) : result (plus_proof K R * list (linb R) * T) :=
  do ls <- mapT (fun c ts => do x <- linearize c ts; let '(lb, lp, ts) := x in Ok ((lb, lp), ts)) comps ts;
  let '(ls, ts) := ls in
  do ml <- mlin (acc ++ map fst ls) pp A M ts;
  let '(g, x, cmp, ts) := ml in
  do d <- decompose g (l2_ro x) M A (pl_B pp);
  let '(lb0, lb1, dp) := d in
  Ok (PlusProof x (map snd ls) cmp dp, [lb0; lb1], ts).

(** plus.rs 133-142 [PlusVerifier::verify]: the results of [lp.verify] and of [cmproof.verify] are
    dropped; a failure in any of them panics. *)
Definition plus_verify (M : list (smat R)) (pp : plus_params) (p : plus_proof K R) (ts : T) : result (bool * T) :=
  do lt <- mapT lin_verify (pp_l p) ts;
  let '(_, ts) := lt in
  do xt <- unwrap (cm_verify (pp_cm p) M ts);
  let '(_, ts) := xt in
  do _ <- dec_verify (pp_d p) (l2_cm (pp_x p)) (l2_vo (pp_x p)) (pl_B pp);
  Ok (true, ts).

(** r1cs.rs 171-185 [r1cs_decomposed_square], with external [SparseMatrix::gadget_decompose(b, k)]
    read as: each entry [a] in column [j] becomes the entries [a * b^i] in columns [j*k + i], [i < k]
    (the row of the matrix times the gadget matrix). *)
Definition sm_gadget (b : Z) (k : nat) (M : smat R) : smat R :=
  SMat (m_nrows M) (m_ncols M * k)
    (map (flat_map (fun vc => map (fun i => (fst vc * rofZ (b ^ Z.of_nat i)%Z, (snd vc * k + i)%nat)) (seq 0 k))) (m_coeffs M)).
(** r1cs.rs 171-185 [r1cs_decomposed_square] *)
Definition r1cs_decomposed_square (rc : r1cs R) (n : nat) (b : Z) (k : nat) : r1cs R :=
  R1cs (r_l rc) (pad_rows n (sm_gadget b k (r_A rc))) (pad_rows n (sm_gadget b k (r_B rc)))
       (pad_rows n (sm_gadget b k (r_C rc))).
End P.
