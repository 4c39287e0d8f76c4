(** Model of nifs.rs: the folding scheme. *)
From Coq Require Import String List Arith Lia ZArith Bool Ring.
From Verif Require Import Prelude Alg MLE Transcript Interp Sumcheck Arith Balanced Rings Linearization
  Decomposition Folding.
Import ListNotations.
Local Open Scope rs_scope.

(** nifs.rs 27-34, struct [LFProof] *)
Record lf_proof (R : Type) := LFProof {
  lf_lin : lin_proof R; lf_dec_l : dec_proof R; lf_dec_r : dec_proof R; lf_fold : fold_proof R }.
Arguments LFProof {R}. Arguments lf_lin {R}. Arguments lf_dec_l {R}. Arguments lf_dec_r {R}. Arguments lf_fold {R}.

Section NIFS.
Context {F K C R T : Type} {SO : SOps F K C R} {TO : TransOps T R K} {HO : ShortOps T C}.

(** nifs.rs 175-197 [absorb_public_input] *)
Definition absorb_public_input (acc : lcccs R) (cm_i : cccs R) (ts : T) : T :=
  let ts := absorb_tag ts "acc" in
  let ts := absorb_slice ts (lc_r acc) in
  let ts := absorb_slice ts (lc_v acc) in
  let ts := absorb_slice ts (lc_cm acc) in
  let ts := absorb_slice ts (lc_u acc) in
  let ts := absorb_slice ts (lc_x acc) in
  let ts := absorb ts (lc_h acc) in
  let ts := absorb_tag ts "cm_i" in
  let ts := absorb_slice ts (i_cm cm_i) in
  absorb_slice ts (i_x cm_i).

(** nifs.rs 48-102 [NIFSProver::prove].  The wrapping of errors of the three steps into
    [LatticefoldError] (nifs/error.rs 12-22) is dropped. *)
Definition nifs_prove (P : dparams) (acc : lcccs R) (w_acc : witness C R) (cm_i : cccs R) (w_i : witness C R)
    (ts : T) (cs : ccs R) (A : ajtai R) : result (lcccs R * witness C R * lf_proof R * T) :=
  do _ <- sanity_check cs (dp_L P);
  let ts := absorb_public_input acc cm_i ts in
  do l <- lin_prove cm_i w_i ts cs;
  let '(lin, pf_lin, ts) := l in
  do dl <- dec_prove P acc w_acc ts cs A;
  let '(mz_l, lc_l, wit_l, pf_l, ts) := dl in
  do dr <- dec_prove P lin w_i ts cs A;
  let '(mz_r, lc_r, wit_r, pf_r, ts) := dr in
  do f <- fold_prove P (lc_l ++ lc_r) (wit_l ++ wit_r) ts cs (mz_l ++ mz_r);
  let '(lc, wit, pf_f, ts) := f in
  Ok (lc, wit, LFProof pf_lin pf_l pf_r pf_f, ts).

(** nifs.rs 117-162 [NIFSVerifier::verify] *)
Definition nifs_verify (P : dparams) (acc : lcccs R) (cm_i : cccs R) (pf : lf_proof R) (ts : T) (cs : ccs R)
  : result (lcccs R * T) :=
  do _ <- sanity_check cs (dp_L P);
  let ts := absorb_public_input acc cm_i ts in
  do l <- lin_verify cm_i (lf_lin pf) ts cs;
  let '(lin, ts) := l in
  do dl <- dec_verify P acc (lf_dec_l pf) ts;
  let '(lc_l, ts) := dl in
  do dr <- dec_verify P lin (lf_dec_r pf) ts;
  let '(lc_r, ts) := dr in
  fold_verify P (lc_l ++ lc_r) (lf_fold pf) ts cs.
End NIFS.
