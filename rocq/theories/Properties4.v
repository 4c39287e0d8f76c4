(** Final statements, part 4: LatticeFold+ utilities and the monomial set check.  Proofs are one-line
    references. *)
From Coq Require Import String List Arith Lia ZArith Bool.
From Verif Require Import Prelude Alg MLE MLE_Proofs Transcript Sumcheck Sumcheck_Proofs Arith Arith_Proofs Linearization_Proofs Folding_Sound
  Rings PlusRing PlusUtils_Proofs SetCheck SetCheck_Proofs SetCheck_Sound.
Import ListNotations.
Local Open Scope rs_scope.

Section T.
Context {R : Type} {RO : RingOps R} {LR : RingLaws R}.
(** * C43 *)
Theorem C43_tensor (r : list R) b : (b < 2 ^ length r)%nat -> length (tensor r) = (2 ^ length r)%nat /\
  nth b (tensor r) 0 = prodn (length r) (fun i => if Nat.testbit b (length r - 1 - i) then nth i r 0 else 1 - nth i r 0).
Proof. exact (fun H => conj (tensor_length r) (tensor_nth r b H)). Qed.
Theorem C43_tensor_product (a b : list R) i j : (i < length a)%nat -> (j < length b)%nat ->
  nth (i * length b + j) (tensor_product a b) 0 = nth i a 0 * nth j b 0.
Proof. exact (tp_nth a b i j). Qed.
Theorem C43_tensor_product_length (a b : list R) : a <> [] -> b <> [] -> length (tensor_product a b) = (length a * length b)%nat.
Proof. exact (tp_length a b). Qed.
(** The tensor is the eq table of the reversed point. *)
Theorem C43_tensor_eq (r : list R) b : (b < 2 ^ length r)%nat -> nth b (tensor r) 0 = eqw (rev r) b.
Proof. exact (tensor_eqw r b). Qed.
End T.

Section P.
Context {K R T : Type} {PO : POps K R} {TO : TransOps T R K} {p : Z} {PL : PLaws K R p}.

(** * C44 *)
Theorem C44_set_check_complete nvars n nc sets M (ts : T) :
  (1 <= nvars)%nat -> nvars = ark_log2 (next_pow2 n) -> char_gt K 3 ->
  Forall (mono_set n nc) sets -> set_mats sets <> [] ->
  (2 <= length (set_mats sets))%nat \/ set_vecs sets = [] ->
  Forall (fun Mi : smat R => wf_mat n Mi /\ (length (m_coeffs Mi) <= 2 ^ nvars)%nat) M ->
  exists o ts', set_check nvars sets M ts = Ok (o, ts') /\ set_verify o ts = Ok ts' /\
    so_nvars o = nvars /\ length (so_r o) = nvars /\ length (so_sc o) = nvars /\
    so_e o = map (map (open (so_r o))) (map sm_cols (set_mats sets))
             :: map (fun Mi => map (map (open_mul (so_r o) Mi)) (map sm_cols (set_mats sets))) M /\
    so_b o = map (open (so_r o)) (set_vecs sets).
Proof. exact (set_check_complete nvars n nc sets M ts). Qed.

(** * C46 *)
Theorem C46_monomials_pass (x : R) (b : K) : in_monos x -> ev x b * ev x b = ev x (b * b).
Proof. rewrite !(ev_spec (p := p)). exact (evp_square (p := p) x b). Qed.
Theorem C46_only_monomials_pass (x : R) (pts : list K) : NoDup pts -> (2 * pdim - 1 <= length pts)%nat ->
  (forall y, In y pts -> ev x y * ev x y = ev x (y * y)) -> in_monos x.
Proof.
  intros H1 H2 H3. apply (monomial_test (p := p) x pts H1 H2). intros y Hy. rewrite <- !(ev_spec (p := p)). exact (H3 y Hy).
Qed.

(** * C62 *)
Theorem C62_set_check_sound n (cols : list (list (list R))) vecs nc (pts : list K) :
  NoDup pts -> (Nat.max (2 * pdim - 1) (Nat.max nc (length cols + length vecs)) <= length pts)%nat -> char_gt K 3 ->
  Forall (fun cl => (length (cl_cols cl) <= nc)%nat /\ Forall (fun col => (length col <= 2 ^ n)%nat) (cl_cols cl)) (claims cols vecs) ->
  Exists claim_bad (claims cols vecs) ->
  exists ref, forall (o : sc_out K R) (ts ts' : T),
    so_nvars o = n -> set_verify o ts = Ok ts' ->
    let '(cba, ts1) := cba_loop (length cols + length vecs) n ts in
    let '(rc, ts2) := opt_challenge (length cols) ts1 in
    (forall point v ts3, sc_verify ts2 n 3 0 (so_sc o) = Ok (point, v, ts3) ->
       nth 0 (so_e o) [] = map (map (open point)) cols /\ so_b o = map (open point) vecs) ->
    length (nth 0 (so_e o) []) = length cols -> length (so_b o) = length vecs ->
    bad_batch (sc_degree nc (length cols + length vecs)) (sc_G n (1 <? length cols)%nat (claims cols vecs)) ref (sc_cvec cba rc) \/
    exists point v ts3, sc_verify ts2 n 3 0 (so_sc o) = Ok (point, v, ts3) /\
      sc_bad n 3 (sc_g (claims cols vecs) cba rc) ts2 (so_sc o) point.
Proof. exact (set_check_sound n cols vecs nc pts). Qed.

(** The batching values of C62, C74 and C79 are the first [m (n + 2)] challenges of the transcript, followed by one more if there is
    more than one matrix. *)
Lemma get_challenges_app (ts : T) a b : get_challenges ts (a + b) =
  let '(x, ts1) := get_challenges ts a in let '(y, ts2) := get_challenges ts1 b in (x ++ y, ts2).
Proof.
  revert ts; induction a as [|a IH]; intros ts; cbn [get_challenges Nat.add]; [destruct (get_challenges ts b); auto|].
  destruct (get_challenge ts) as [c ts1]. rewrite IH. destruct (get_challenges ts1 a) as [x ts2]. destruct (get_challenges ts2 b). auto.
Qed.
Theorem C62_challenges n m w (ts : T) :
  let '(cba, ts1) := cba_loop m n ts in
  let '(rc, ts2) := opt_challenge w ts1 in
  get_challenges ts (m * (n + 2) + (if (1 <? w)%nat then 1 else 0)) =
    (concat (map (fun c => fst (fst c) ++ [snd (fst c); snd c]) cba) ++ match rc with Some c => [c] | None => [] end, ts2).
Proof.
  destruct (cba_loop m n ts) as [cba ts1] eqn:E.
  assert (get_challenges ts (m * (n + 2)) = (concat (map (fun c => fst (fst c) ++ [snd (fst c); snd c]) cba), ts1)) as H.
  { revert ts cba ts1 E. induction m as [|m IH]; intros ts cba ts1 E; cbn [cba_loop Nat.mul] in *.
    - injection E as <- <-. reflexivity.
    - unfold claim_challenges in E. rewrite <- Nat.add_assoc, get_challenges_app. destruct (get_challenges ts n) as [c t1]. cbn [Nat.add get_challenges].
      destruct (get_challenge t1) as [beta t2]. destruct (get_challenge t2) as [alpha t3]. destruct (cba_loop m n t3) as [l t4] eqn:E1.
      injection E as <- <-. rewrite (IH _ _ _ E1). cbn [map concat fst snd]. rewrite <- app_assoc. reflexivity. }
  unfold opt_challenge. destruct (1 <? w)%nat.
  - destruct (get_challenge ts1) as [c ts2] eqn:E1. rewrite get_challenges_app, H. cbn [get_challenges]. rewrite E1. reflexivity.
  - rewrite Nat.add_0_r, H, app_nil_r. reflexivity.
Qed.

(** * C55 *)
Theorem C55_split_partial com n b k : (length (split_data com b k) < n)%nat ->
  split com n b k = Ok (split_data com b k ++ repeat 0 (n - length (split_data com b k))).
Proof. exact (split_ok com n b k). Qed.
Theorem C55_split_panics com n b k : (n <= length (split_data com b k))%nat -> split com n b k = Panic.
Proof. exact (split_panics com n b k). Qed.

(** * C56 *)
Theorem C56_range_partial lambda (ts : T) : good_bytes -> (lambda / pdim < 64)%nat ->
  exists c zs, short_challenge lambda ts = Ok (c, snd (squeeze_bytes ts pdim)) /\
    pcoeffs c = map rofZ zs /\
    Forall (fun z => (- (2 ^ Z.of_nat (lambda / pdim) / 2) <= z < 2 ^ Z.of_nat (lambda / pdim) - 2 ^ Z.of_nat (lambda / pdim) / 2)%Z) zs.
Proof. exact (short_challenge_range (p := p) lambda ts). Qed.
Theorem C56_injective lambda (ts ts' : T) c t1 t2 : good_bytes -> (2 ^ Z.of_nat (lambda / pdim) < p)%Z ->
  short_challenge lambda ts = Ok (c, t1) -> short_challenge lambda ts' = Ok (c, t2) ->
  map (fun b => (b mod 2 ^ Z.of_nat (lambda / pdim))%Z) (fst (squeeze_bytes ts pdim)) =
  map (fun b => (b mod 2 ^ Z.of_nat (lambda / pdim))%Z) (fst (squeeze_bytes ts' pdim)).
Proof. exact (short_challenge_inj (p := p) lambda ts ts' c t1 t2). Qed.
Theorem C56_degenerate lambda (ts : T) : good_bytes -> (lambda < pdim)%nat ->
  short_challenge lambda ts = Ok (0, snd (squeeze_bytes ts pdim)).
Proof. exact (short_challenge_degenerate (p := p) lambda ts). Qed.
End P.
