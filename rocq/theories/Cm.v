(** Model of latticefold-plus/src/cm.rs: the commitment transformation. *)
From Coq Require Import String List Arith Lia ZArith Bool Ring.
From Verif Require Import Prelude Alg MLE Transcript Sumcheck Arith Rings PlusRing SetCheck RangeCheck.
Import ListNotations.
Local Open Scope rs_scope.

(** cm.rs 27-29 [InstanceEvals]: the evaluations of [tau, m_tau, f, h] and of [M_i] times them; each
    entry is a [[R; 4]] array. *)
Definition ev4 (R : Type) : Type := R * R * R * R.
(** A [[R; 4]] array as a list (cm.rs 27-29). *)
Definition l4 {R} (x : ev4 R) : list R := let '(a, b, c, d) := x in [a; b; c; d].
(** cm.rs 31-37 [CmProof] *)
Record cm_proof (K R : Type) := CmProof {
  cp_dcom : dcom K R; cp_comh : list (list R); cp_sc : list (list R) * list (list R);
  cp_evals : list (list (ev4 R)) * list (list (ev4 R)) }.
Arguments CmProof {K R}. Arguments cp_dcom {K R}. Arguments cp_comh {K R}. Arguments cp_sc {K R}. Arguments cp_evals {K R}.
(** cm.rs 45-50 [ComX] *)
Record comx (R : Type) := ComX { cx_cm : list (list R); cx_ro : list (R * R); cx_vo : list (list (R * R)) }.
Arguments ComX {R}. Arguments cx_cm {R}. Arguments cx_ro {R}. Arguments cx_vo {R}.

Section CM.
Context {K R T : Type} {PO : POps K R} {TO : TransOps T R K}.

(** cm.rs 598-606 [calculate_t_z] *)
Definition calculate_t_z (c s_prime dpp xp : list R) : list R :=
  tensor_product (tensor_product (tensor_product (tensor c) s_prime) dpp) xp.
(** cm.rs 142-145, 435-438: powers of [d'] and of [X]. *)
Definition dp_pows (l : nat) : list R := map (fun i => emb (rpow (rofn (pdim / 2)) i)) (seq 0 l).
(** cm.rs 145 and 438: the powers of [X]. *)
Definition x_pows : list R := map pmono (seq 0 pdim).

(** cm.rs 582-584 [absorb_comh], 586-595 [absorb_evaluations] *)
Definition absorb_comh (comh : list (list R)) (ts : T) : T := fold_left absorb_slice comh ts.
(** cm.rs 586-595 [absorb_evaluations] *)
Definition absorb_evals (evals : list (list (ev4 R))) (ts : T) : T :=
  fold_left (fun ts ie => fold_left (fun ts v => absorb_slice ts (l4 v)) ie ts) evals ts.

(** cm.rs 69-80: three short challenges, then [k] lists of [d]. *)
Definition cm_challenges (k : nat) (ts : T) : result (list R * list (list R) * T) :=
  do st <- short_challenges 128 3 ts;
  let '(s, ts) := st in
  do spt <- mapT (fun _ ts => short_challenges 128 pdim ts) (seq 0 k) ts;
  let '(s', ts) := spt in Ok (s, s', ts).

(** cm.rs 95-101 and 117-123: sum of vectors into a zero vector of length [n]; an index past the end
    panics. *)
Definition sum_into (n : nat) (vs : list (list R)) : result (list R) :=
  if forallb (fun v => (length v <=? n)%nat) vs then Ok (fold_left (fun acc v => zipl radd acc v) vs (repeat 0 n))
  else Panic.
(** External [Matrix::try_mul_vec(..).unwrap()] for a matrix with [d] columns given by its rows. *)
Definition rows_mul_vec (M : list (list R)) (s : list R) : result (list R) := dm_mul_vec (Ajtai pdim M) s.

(** cm.rs 82-103 *)
Definition cm_h (nvars : nat) (s' : list (list R)) (i : rg_inst K R) : result (list R) :=
  do vs <- mapM (fun Ms => rows_mul_vec (fst Ms) (snd Ms)) (combine (ri_Mf i) s');
  sum_into (2 ^ nvars) vs.
(** cm.rs 105-125 *)
Definition cm_comh (s' : list (list R)) (i : rg_inst K R) : result (list R) :=
  do vs <- mapM (fun Ms => rows_mul_vec (fst Ms) (snd Ms)) (combine (ri_comMf i) s');
  do M0 <- index (ri_comMf i) 0;
  sum_into (length M0) vs.

(** cm.rs 227-254: the tables of one instance. *)
Definition inst_vecs (M : list (smat R)) (i : rg_inst K R) (h : list R) : result (list (list R)) :=
  let vs := [map emb (ri_tau i); ri_mtau i; ri_f i; h] in
  do ms <- mapM (fun m => mapM (sm_mul_vec m) vs) M;
  Ok (vs ++ concat ms).
(** cm.rs 285-307 [comb_fn].  The four terms of an instance and the sum over the matrices are
    written as one sum over the [4 + 4 |M|] tables; the pre-computed powers [rcps] (lines 264-283)
    are [rc^i]. *)
Definition cm_comb (L Mlen : nat) (rc : K) (vals : list R) : R :=
  let v i := nth i vals 0 in
  let w := (4 + 4 * Mlen)%nat in
  lsum (map (fun l => v 0%nat * lsum (map (fun j => v (1 + l * w + j)%nat * emb (rpow rc (l * w + j))) (seq 0 w))
                      + v (1 + l * w)%nat * v (1 + L * w)%nat * emb (rpow rc (L * w))
                      + v (1 + l * w)%nat * v (2 + L * w)%nat * emb (rpow rc (L * w + 1))) (seq 0 L)).

(** Groups of four evaluations (cm.rs 316-336). *)
Fixpoint group4 (l : list R) : list (ev4 R) :=
  match l with
  | a :: b :: c :: d :: l' => (a, b, c, d) :: group4 l'
  | _ => []
  end.

(** cm.rs 201-342 [sumchecker] *)
Definition sumchecker (nvars : nat) (insts : list (rg_inst K R)) (dc : dcom K R) (hs : list (list R))
    (t0 t1 : list R) (M : list (smat R)) (ts : T)
  : result (list (list R) * list (list (ev4 R)) * list R * T) :=
  let r := map emb (so_r (dc_out dc)) : list R in
  let '(rc, ts) := get_challenge ts in
  do eq <- unwrap (build_eq_x_r r);
  do vs <- mapM (fun ih => inst_vecs M (fst ih) (snd ih)) (combine insts hs);
  do ms <- mapM (mapM (mle_from_vec nvars)) vs;
  do m0 <- mle_from_vec nvars t0;
  do m1 <- mle_from_vec nvars t1;
  do sp <- sc_prove ts (eq :: concat ms ++ [m0; m1]) nvars 2 (cm_comb (length insts) (length M) rc);
  let '(proof, ro, ts) := sp in
  let ro := map emb ro in
  do es <- mapM (mapM (fun m => of_option Panic (mle_evaluate m ro))) ms;
  let evals := map group4 es in
  Ok (proof, evals, ro, absorb_evals evals ts).

(** cm.rs 540-579 [CmProof::x]; zips stop at the shorter list. *)
Definition lin3 (s : list R) (a b c d : R) : R := nth 0 s 0 * a + nth 1 s 0 * b + nth 2 s 0 * c + d.
(** cm.rs 540-579 [CmProof::x]; [lin3] is the sum inside. *)
Definition cm_x (p : cm_proof K R) (s : list R) (ro : list (R * R)) : result (comx R) :=
  let coms := dc_coms (cp_dcom p) in
  do cm_g <- mapM (fun lc =>
      do ch <- index (cp_comh p) (fst lc);
      Ok (map (fun q => let '(((a, b), c), d) := q in lin3 s a b c d)
            (combine (combine (combine (fc_Mf (snd lc)) (fc_mtau (snd lc))) (fc_f (snd lc))) ch)))
    (combine (seq 0 (length coms)) coms);
  do vo <- mapM (fun l =>
      do e0 <- index (fst (cp_evals p)) l;
      do e1 <- index (snd (cp_evals p)) l;
      Ok (zipw (fun x y => let '(a, b, c, d) := x in let '(a', b', c', d') := y in
                           (lin3 s a b c d, lin3 s a' b' c' d')) e0 e1))
    (seq 0 (length coms));
  Ok (ComX cm_g ro vo).

(** cm.rs 129-140 / 376-387: the two challenge vectors for the rows of [comh]. *)
Definition c_challenges (comh : list (list R)) (ts : T) : result (list R * list R * T) :=
  do ch0 <- index comh 0;
  let lk := ark_log2 (length ch0) in
  let '(c0, ts) := get_challenges ts lk in
  let '(c1, ts) := get_challenges ts lk in
  Ok (map emb c0, map emb c1, ts).

(** cm.rs 56-199 [Cm::prove]; returns [(g, x)], the proof and the transcript. *)
Definition cm_prove (g : rg K R) (M : list (smat R)) (ts : T)
  : result (list (list R) * comx R * cm_proof K R * T) :=
  match rg_insts g with
  | [] => Panic
  | i0 :: _ =>
    let n := length (ri_tau i0) in
    let P := rg_params g in
    do dt <- range_check g M ts;
    let '(dc, ts) := dt in
    do ch <- cm_challenges (rp_k P) ts;
    let '(s, s', ts) := ch in
    do hs <- mapM (cm_h (rg_nvars g) s') (rg_insts g);
    do comh <- mapM (cm_comh s') (rg_insts g);
    let ts := absorb_comh comh ts in
    do cc <- c_challenges comh ts;
    let '(c0, c1, ts) := cc in
    let t0 := calculate_t_z c0 (concat s') (dp_pows (rp_l P)) x_pows in
    let t1 := calculate_t_z c1 (concat s') (dp_pows (rp_l P)) x_pows in
    do _ <- guard (length t0 <=? n)%nat Panic;
    do _ <- guard (length t1 <=? n)%nat Panic;
    let t0 := resize n 0 t0 in
    let t1 := resize n 0 t1 in
    do sa <- sumchecker (rg_nvars g) (rg_insts g) dc hs t0 t1 M ts;
    let '(proof_a, evals_a, ro_a, ts) := sa in
    do sb <- sumchecker (rg_nvars g) (rg_insts g) dc hs t0 t1 M ts;
    let '(proof_b, evals_b, ro_b, ts) := sb in
    let gs := map (fun ih =>
        map (fun q => let '(((a, b), c), d) := q in lin3 s (emb a) b c d)
            (combine (combine (combine (ri_tau (fst ih)) (ri_mtau (fst ih))) (ri_f (fst ih))) (snd ih)))
      (combine (rg_insts g) hs) in
    let proof := CmProof dc comh (proof_a, proof_b) (evals_a, evals_b) in
    do x <- cm_x proof s (combine ro_a ro_b);
    Ok (gs, x, proof, ts)
  end.

(** cm.rs 389-406: [u_l] for each [e_i]. *)
Definition cm_u (k l : nat) (sflat : list R) (e : list (list (list R))) : list R :=
  map (fun ei => lsum (zipw rmul (concat (firstn k (skipn (l * k) ei))) sflat)) e.
(** cm.rs 408-431 *)
Definition cm_tcch (c : list R) (comh : list (list R)) : list R :=
  map (fun com => lsum (zipw rmul (tensor c) com)) comh.

(** cm.rs 446-470: the claimed sum; every index may panic. *)
Definition cm_claimed (L Mlen : nat) (rc : R) (evals : list (dcom_evals K R)) (u : list (list R))
    (tcch0 tcch1 : list R) : result R :=
  let w := (4 + 4 * Mlen)%nat in
  do terms <- mapM (fun le =>
      let l := fst le in let ev := snd le in
      do rows <- mapM (fun i =>
          do a <- index (de_a ev) i;
          do b <- index (de_b ev) i;
          do c <- index (de_c ev) i;
          do ul <- index u l;
          do ui <- index ul i;
          let idx := (l * w + 4 * i)%nat in
          Ok (emb a * rpow rc idx + b * rpow rc (idx + 1) + c * rpow rc (idx + 2) + ui * rpow rc (idx + 3)))
        (seq 0 (1 + Mlen));
      do t0 <- index tcch0 l;
      do t1 <- index tcch1 l;
      Ok (lsum rows + t0 * rpow rc (L * w) + t1 * rpow rc (L * w + 1)))
    (combine (seq 0 (length evals)) evals);
  Ok (lsum terms).

(** cm.rs 500-524: the evaluation recomputed from the prover's evaluations. *)
Definition cm_expected (L Mlen : nat) (rc eq t0 t1 : R) (evals : list (list (ev4 R))) : result R :=
  let w := (4 + 4 * Mlen)%nat in
  do terms <- mapM (fun le =>
      let l := fst le in
      do rows <- mapM (fun i =>
          do x <- index (snd le) i;
          let '(a, b, c, d) := x in
          let idx := (l * w + 4 * i)%nat in
          Ok (a * rpow rc idx + b * rpow rc (idx + 1) + c * rpow rc (idx + 2) + d * rpow rc (idx + 3)))
        (seq 0 (1 + Mlen));
      do x <- index (snd le) 0;
      let '(a, _, _, _) := x in
      Ok (eq * lsum rows + t0 * a * rpow rc (L * w) + t1 * a * rpow rc (L * w + 1)))
    (combine (seq 0 (length evals)) evals);
  Ok (lsum terms).

(** cm.rs 440-529 [verify_sumcheck]; [assert_eq] panics. *)
Definition cm_verify_sc (L Mlen : nat) (dc : dcom K R) (u : list (list R)) (tcch0 tcch1 t0 t1 : list R)
    (proof : list (list R)) (evals : list (list (ev4 R))) (ts : T) : result (list R * T) :=
  let nvars := so_nvars (dc_out dc) in
  let '(rck, ts) := get_challenge ts in
  let rc := emb rck : R in
  do claimed <- cm_claimed L Mlen rc (dc_evals dc) u tcch0 tcch1;
  do sub <- unwrap (sc_verify ts nvars 2 claimed proof);
  let '(point, expected, ts) := sub in
  let r := map emb (so_r (dc_out dc)) in
  let ro := map emb point in
  do t0r <- eval_vec nvars t0 ro;
  do t1r <- eval_vec nvars t1 ro;
  let ts := absorb_evals evals ts in
  do eq <- unwrap (eq_eval r ro);
  do e <- cm_expected L Mlen rc eq t0r t1r evals;
  if expected =? e then Ok (ro, ts) else Panic.

(** cm.rs 349-538 [CmProof::verify] *)
Definition cm_verify (p : cm_proof K R) (M : list (smat R)) (ts : T) : result (comx R * T) :=
  let dc := cp_dcom p in
  let P := dc_params dc in
  let L := length (fst (cp_evals p)) in
  do ts <- unwrap (rg_verify dc ts);
  do ch <- cm_challenges (rp_k P) ts;
  let '(s, s', ts) := ch in
  let ts := absorb_comh (cp_comh p) ts in
  do cc <- c_challenges (cp_comh p) ts;
  let '(c0, c1, ts) := cc in
  let u := map (fun l => cm_u (rp_k P) l (concat s') (so_e (dc_out dc))) (seq 0 L) in
  let tcch0 := cm_tcch c0 (cp_comh p) in
  let tcch1 := cm_tcch c1 (cp_comh p) in
  let t0 := calculate_t_z c0 (concat s') (dp_pows (rp_l P)) x_pows in
  let t1 := calculate_t_z c1 (concat s') (dp_pows (rp_l P)) x_pows in
  do a <- cm_verify_sc L (length M) dc u tcch0 tcch1 t0 t1 (fst (cp_sc p)) (fst (cp_evals p)) ts;
  let '(ro0, ts) := a in
  do b <- cm_verify_sc L (length M) dc u tcch0 tcch1 t0 t1 (snd (cp_sc p)) (snd (cp_evals p)) ts;
  let '(ro1, ts) := b in
  do x <- cm_x p s (combine ro0 ro1);
  Ok (x, ts).
End CM.
