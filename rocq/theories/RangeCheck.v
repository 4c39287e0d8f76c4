(** Model of latticefold-plus/src/rgchk.rs: the range check. *)
From Coq Require Import String List Arith Lia ZArith Bool Ring.
From Verif Require Import Prelude Alg MLE Transcript Sumcheck Arith Balanced Rings PlusRing SetCheck.
Import ListNotations.
Local Open Scope rs_scope.

(** rgchk.rs 20-24 [DecompParameters] *)
Record rparams := RParams { rp_b : Z; rp_k : nat; rp_l : nat }.
(** rgchk.rs 26-31 [FComs] *)
Record fcoms (R : Type) := FComs { fc_f : list R; fc_Mf : list R; fc_mtau : list R }.
Arguments FComs {R}. Arguments fc_f {R}. Arguments fc_Mf {R}. Arguments fc_mtau {R}.
(** rgchk.rs 40-48 [RgInstance]; dense matrices are lists of rows. *)
Record rg_inst (K R : Type) := RgInst {
  ri_Mf : list (list (list R)); ri_tau : list K; ri_mtau : list R; ri_f : list R;
  ri_comMf : list (list (list R)); ri_coms : fcoms R }.
Arguments RgInst {K R}. Arguments ri_Mf {K R}. Arguments ri_tau {K R}. Arguments ri_mtau {K R}.
Arguments ri_f {K R}. Arguments ri_comMf {K R}. Arguments ri_coms {K R}.
(** rgchk.rs 33-38 [Rg] *)
Record rg (K R : Type) := Rg { rg_nvars : nat; rg_insts : list (rg_inst K R); rg_params : rparams }.
Arguments Rg {K R}. Arguments rg_nvars {K R}. Arguments rg_insts {K R}. Arguments rg_params {K R}.
(** rgchk.rs 58-64 [DcomEvals] *)
Record dcom_evals (K R : Type) := DcomEvals { de_v : list K; de_a : list K; de_b : list R; de_c : list R }.
Arguments DcomEvals {K R}. Arguments de_v {K R}. Arguments de_a {K R}. Arguments de_b {K R}. Arguments de_c {K R}.
(** rgchk.rs 50-56 [Dcom] *)
Record dcom (K R : Type) := Dcom {
  dc_evals : list (dcom_evals K R); dc_coms : list (fcoms R); dc_out : sc_out K R; dc_params : rparams }.
Arguments Dcom {K R}. Arguments dc_evals {K R}. Arguments dc_coms {K R}. Arguments dc_out {K R}. Arguments dc_params {K R}.

Section RC.
Context {K R T : Type} {PO : POps K R} {TO : TransOps T R K}.

(** rgchk.rs 263-284: digit [i] of every coefficient of every entry, for [i < k]. *)
Definition digit_mats (b : Z) (k : nat) (f : list R) : list (list (list K)) :=
  map (fun i => map (fun x => map (fun c => rofZ (nth i (decompose_z k b (psigned c)) 0%Z)) (pcoeffs x)) f) (seq 0 k).
(** [exp::<R>(c).unwrap()] *)
Definition exp_unwrap (c : K) : result R := of_option Panic (pexp c).
(** External [Matrix::hconcat] of matrices with the same number of rows; an error (unwrapped at
    rgchk.rs 304) on an empty list. *)
Definition hconcat (Ms : list (list (list R))) : result (list (list R)) :=
  match Ms with
  | [] => Panic
  | M0 :: Ms' => Ok (fold_left (fun acc M => zipw (@app R) acc M) Ms' M0)
  end.

(** rgchk.rs 260-332 [RgInstance::from_f] *)
Definition from_f (f : list R) (A : ajtai R) (P : rparams) : result (rg_inst K R) :=
  let n := length f in
  do Mf <- mapM (mapM (mapM exp_unwrap)) (digit_mats (rp_b P) (rp_k P) f);
  do comMf <- mapM (dm_mul_mat A pdim) Mf;
  do com <- hconcat comMf;
  do tau <- split com n (Z.of_nat (pdim / 2)) (rp_l P);
  do mtau <- mapM exp_unwrap tau;
  do cm_f <- dm_mul_vec A f;
  do cm_Mf <- dm_mul_vec A (map emb tau);
  do cm_mtau <- dm_mul_vec A mtau;
  Ok (RgInst Mf tau mtau f comMf (FComs cm_f cm_Mf cm_mtau)).

(** rgchk.rs 245-253 [RgInstance::sets] *)
Definition ri_sets (i : rg_inst K R) : list (mset R) :=
  map (fun m => MMat (sm_from_dense pdim m)) (ri_Mf i) ++ [MVec (ri_mtau i)].

(** rgchk.rs 86-94: all matrices first, then all vectors. *)
Definition rg_sets (insts : list (rg_inst K R)) : list (mset R) :=
  flat_map (fun i => map (fun m => MMat (sm_from_dense pdim m)) (ri_Mf i)) insts
  ++ map (fun i => MVec (ri_mtau i)) insts.

(** rgchk.rs 105-171: the evaluations of instance [l]. *)
Definition rg_evals (nvars : nat) (M : list (smat R)) (o : sc_out K R) (l : nat) (i : rg_inst K R)
  : result (dcom_evals K R) :=
  let r := map emb (so_r o) : list R in
  do v <- mapM (fun j => eval_vec nvars (map (fun x => nth j (pcoeffs x) 0) (ri_f i)) (so_r o)) (seq 0 pdim);
  do a0 <- eval_vec nvars (ri_tau i) (so_r o);
  do b0 <- index (so_b o) l;
  do c0 <- eval_vec nvars (ri_f i) r;
  do a <- mapM (fun m => do w <- sm_mul_vec m (map emb (ri_tau i)); do x <- eval_vec nvars w r; Ok (pct x)) M;
  do b <- mapM (fun m => do w <- sm_mul_vec m (ri_mtau i); eval_vec nvars w r) M;
  do c <- mapM (fun m => do w <- sm_mul_vec m (ri_f i); eval_vec nvars w r) M;
  Ok (DcomEvals v (a0 :: a) (b0 :: b) (c0 :: c)).

(** rgchk.rs 335-340 [absorb_evaluations] *)
Definition rg_absorb (evals : list (dcom_evals K R)) (ts : T) : T :=
  fold_left (fun ts e => absorb_slice (absorb_slice ts (map emb (de_a e))) (de_c e)) evals ts.

(** rgchk.rs 81-186 [range_check] *)
Definition range_check (g : rg K R) (M : list (smat R)) (ts : T) : result (dcom K R * T) :=
  match rg_insts g with
  | [] => Panic
  | _ =>
    do ot <- set_check (rg_nvars g) (rg_sets (rg_insts g)) M ts;
    let '(o, ts) := ot in
    do evals <- mapM (fun li => rg_evals (rg_nvars g) M o (fst li) (snd li))
                     (combine (seq 0 (length (rg_insts g))) (rg_insts g));
    Ok (Dcom evals (map ri_coms (rg_insts g)) o (rg_params g), rg_absorb evals ts)
  end.

(** [(psi::<R>() * x).ct()] *)
Definition psi_ct (x : R) : K := pct (ppsi * x).
(** rgchk.rs 209-220: [sum_i d'^i u_i] over the [k] columns-lists of instance [l]; a list of
    [d] elements, a [u_i] of another length is cut or leaves the tail alone. *)
Definition u_comb (k l : nat) (en : list (list R)) : list R :=
  fold_left (fun acc iu => zipl (fun a x => a + x * emb (rpow (rofn (pdim / 2)) (fst iu))) acc (snd iu))
            (combine (seq 0 k) (firstn k (skipn (k * l) en))) (repeat 0 pdim).

(** rgchk.rs 198-238: the checks on the evaluations of instance [l]. *)
Definition check_eval (P : rparams) (e : list (list (list R))) (l : nat) (ev : dcom_evals K R) : result unit :=
  do _ <- guard (forallb (fun ab => psi_ct (snd ab) =? fst ab) (combine (de_a ev) (de_b ev))) (Err PsiCheckAB);
  do _ <- mapM (fun ne =>
      let v_rec := map psi_ct (u_comb (rp_k P) l (snd ne)) in
      match fst ne with
      | O => guard (leqb (de_v ev) v_rec) (Err PsiCheckVU)
      | _ => do c <- index (de_c ev) (fst ne); guard (leqb (pcoeffs c) v_rec) (Err PsiCheckVU)
      end) (combine (seq 0 (length e)) e);
  Ok tt.

(** rgchk.rs 193-241 [Dcom::verify] *)
Definition rg_verify (dc : dcom K R) (ts : T) : result T :=
  do ts <- unwrap (set_verify (dc_out dc) ts);
  let ts := rg_absorb (dc_evals dc) ts in
  do _ <- mapM (fun le => check_eval (dc_params dc) (so_e (dc_out dc)) (fst le) (snd le))
               (combine (seq 0 (length (dc_evals dc))) (dc_evals dc));
  Ok ts.
End RC.
