(** Model of utils/sumcheck.rs, utils/sumcheck/prover.rs, utils/sumcheck/verifier.rs. *)
From Coq Require Import List Arith Lia ZArith Bool Ring.
From Verif Require Import Prelude Alg MLE Transcript Interp.
Import ListNotations.
Local Open Scope rs_scope.

(** Overwriting the entries of a slice by those of an iterator
    ([dst.iter_mut().zip(src).for_each(|(d, s)| *d = s)]). *)
Definition overwrite {A} (dst src : list A) : list A := zipl (fun _ y => y) dst src.
(** [l[i] = x]. *)
Definition set_nth {A} (i : nat) (x : A) (l : list A) : list A :=
  firstn i l ++ match skipn i l with [] => [] | _ :: t => x :: t end.

(** prover.rs 90-97, struct [Scratch] *)
Record scratch (R : Type) := Scratch {
  sc_evals : list R; sc_steps : list R; sc_vals0 : list R; sc_vals1 : list R;
  sc_vals : list R; sc_levals : list R }.
Arguments Scratch {R}. Arguments sc_evals {R}. Arguments sc_steps {R}.
Arguments sc_vals0 {R}. Arguments sc_vals1 {R}. Arguments sc_vals {R}. Arguments sc_levals {R}.

Section Sumcheck.
Context {R K T : Type} {RO : RingOps R} {KO : FieldOps K} {E : Embed K R} {TO : TransOps T R K}.

(** prover.rs 98-105 *)
Definition scratch0 (degree npolys : nat) : scratch R :=
  Scratch (repeat 0 (degree + 1)) (repeat 0 npolys) (repeat 0 npolys) (repeat 0 npolys)
          (repeat 0 npolys) (repeat 0 (degree + 1)).

(** prover.rs 131-136: [for eval_point in levals.iter_mut().take(degree+1).skip(2)]; the
    argument is the list of the entries that the loop overwrites. *)
Fixpoint ext_evals (comb : list R -> R) (steps vals todo : list R) : list R * list R :=
  match todo with
  | [] => ([], vals)
  | _ :: todo' => let vals := zipl radd vals steps in
                  let '(es, vals') := ext_evals comb steps vals todo' in
                  (comb vals :: es, vals')
  end.

(** prover.rs 112-143: one step of the fold over [b]. *)
Definition round_step (degree : nat) (comb : list R -> R) (polys : list (mle R))
    (s : scratch R) (b : nat) : scratch R :=
  let index := (2 * b)%nat in
  let vals0 := overwrite (sc_vals0 s) (map (fun p => mle_get p index) polys) in
  let levals := set_nth 0 (comb vals0) (sc_levals s) in
  let vals1 := overwrite (sc_vals1 s) (map (fun p => mle_get p (index + 1)) polys) in
  let levals := set_nth 1 (comb vals1) levals in
  let steps := overwrite (sc_steps s) (zipw rsub vals1 vals0) in
  let vals := overwrite (sc_vals s) vals1 in
  let '(es, vals) := ext_evals comb steps vals (skipn 2 (firstn (degree + 1) levals)) in
  let levals := firstn 2 levals ++ overwrite (skipn 2 levals) es in
  Scratch (zipl radd (sc_evals s) levals) steps vals0 vals1 vals levals.

(** prover.rs 56-162 [prove_round] (sequential build), after the variable fixing of lines
    61-76; [k] is [nv - i].  [levals[1]] is out of bounds when the degree is 0. *)
Definition prove_round (degree : nat) (comb : list R -> R) (polys : list (mle R)) (k : nat)
  : result (list R) :=
  if (degree =? 0)%nat then Panic
  else Ok (sc_evals (fold_left (round_step degree comb polys) (seq 0 (2 ^ k))
                               (scratch0 degree (length polys)))).

(** prover.rs 112-159, parallel build: rayon splits the range into consecutive pieces, each
    folded from a fresh scratch, and reduces the pieces' [evals] with an arbitrary tree in
    which the identity may appear. *)
Inductive schedule := SLeaf (l : list nat) | SId | SNode (a b : schedule).
(** The indices a schedule covers, in order. *)
Fixpoint sched_range (s : schedule) : list nat :=
  match s with SLeaf l => l | SId => [] | SNode a b => sched_range a ++ sched_range b end.
(** prover.rs 112-159 under a schedule. *)
Fixpoint prove_round_par (degree : nat) (comb : list R -> R) (polys : list (mle R))
    (s : schedule) : list R :=
  match s with
  | SLeaf l => sc_evals (fold_left (round_step degree comb polys) l (scratch0 degree (length polys)))
  | SId => repeat 0 (degree + 1)
  | SNode a b => zipl radd (prove_round_par degree comb polys a) (prove_round_par degree comb polys b)
  end.

(** sumcheck.rs 64-75: the round loop of [prove_as_subprotocol], [k] rounds remaining.
    The fixing of the variable by the sampled challenge happens at the beginning of the next
    [prove_round] call (prover.rs 61-73), hence not after the last round. *)
Fixpoint prove_loop (k : nat) (degree : nat) (comb : list R -> R) (ts : T)
    (mles : list (mle R)) : result (list (list R) * list K * T) :=
  match k with
  | O => Ok ([], [], ts)
  | S k' =>
    do msg <- prove_round degree comb mles k';
    let ts := absorb_slice ts msg in
    let '(c, ts) := get_challenge ts in
    let ts := absorb ts (emb c) in
    do mles' <- (match k' with O => Ok mles | _ => mapM (mle_fix_var (emb c)) mles end);
    do rest <- prove_loop k' degree comb ts mles';
    let '(msgs, cs, ts) := rest in
    Ok (msg :: msgs, c :: cs, ts)
  end.

(** sumcheck.rs 53-80 [prove_as_subprotocol]: proof, randomness of the prover state,
    transcript.  [prover_init] (prover.rs 35-51) panics on zero variables. *)
Definition sc_prove (ts : T) (mles : list (mle R)) (nvars degree : nat)
    (comb : list R -> R) : result (list (list R) * list K * T) :=
  let ts := absorb ts (rofn nvars) in
  let ts := absorb ts (rofn degree) in
  if (nvars =? 0)%nat then Panic
  else prove_loop nvars degree comb ts mles.

(** sumcheck.rs 95-101: the loop of [verify_as_subprotocol] with [verify_round]
    (verifier.rs 56-85); returns the messages received and the challenges. *)
Fixpoint verify_loop (k : nat) (ts : T) (proof : list (list R))
  : result (list (list R) * list K * T) :=
  match k with
  | O => Ok ([], [], ts)
  | S k' =>
    match proof with
    | [] => Panic
    | msg :: proof' =>
      let ts := absorb_slice ts msg in
      let '(c, ts) := get_challenge ts in
      let ts := absorb ts (emb c) in
      do rest <- verify_loop k' ts proof';
      let '(msgs, cs, ts) := rest in
      Ok (msg :: msgs, c :: cs, ts)
    end
  end.

(** verifier.rs 104-115: the loop of [check_and_generate_subclaim]. *)
Fixpoint check_loop (degree : nat) (msgs : list (list R)) (cs : list K) (expected : R) : result R :=
  match msgs, cs with
  | msg :: msgs', c :: cs' =>
    if negb (length msg =? degree + 1)%nat then Panic
    else match msg with
         | p0 :: p1 :: _ =>
           if negb (p0 + p1 =? expected) then Err SumCheckFailed
           else do e <- interpolate msg c; check_loop degree msgs' cs' e
         | _ => Panic
         end
  | _, _ => Ok expected
  end.

(** sumcheck.rs 84-104 [verify_as_subprotocol] with verifier.rs 92-121
    [check_and_generate_subclaim]: subclaim point, expected evaluation, transcript.  With
    zero variables the verifier state never becomes finished, which panics. *)
Definition sc_verify (ts : T) (nvars degree : nat) (claimed : R) (proof : list (list R))
  : result (list K * R * T) :=
  let ts := absorb ts (rofn nvars) in
  let ts := absorb ts (rofn degree) in
  do v <- verify_loop nvars ts proof;
  let '(msgs, cs, ts) := v in
  if (nvars =? 0)%nat then Panic
  else do e <- check_loop degree msgs cs claimed; Ok (cs, e, ts).

(** sumcheck.rs 46-48 [extract_sum] *)
Definition extract_sum (proof : list (list R)) : result R :=
  match proof with
  | (p0 :: p1 :: _) :: _ => Ok (p0 + p1)
  | _ => Panic
  end.

(** utils/sumcheck/utils.rs 64-75 [rand_poly_comb_fn]; an index outside [vals] panics. *)
Definition rand_poly_comb_fn (products : list (R * list nat)) (vals : list R) : result R :=
  fold_left (fun acc ci =>
     do result <- acc;
     do term <- fold_left (fun t i => do t <- t; of_option Panic (option_map (rmul t) (nth_error vals i)))
                          (snd ci) (Ok (fst ci));
     Ok (result + term)) products (Ok 0).
End Sumcheck.
