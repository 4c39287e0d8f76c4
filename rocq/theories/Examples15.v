(** Concrete cases for the theorems of Properties16.v: false statements that do pass on some challenges. *)
From Coq Require Import String List Arith Lia ZArith Bool Ring.
From Verif Require Import Prelude Alg Poly MLE MLE_Proofs Zippel Counting Transcript Interp Sumcheck Sumcheck_Proofs CombDeg
  Arith Arith_Proofs Balanced Rings Rings_Proofs Linearization Linearization_Proofs Relations LinRel
  Decomposition Decomposition_Proofs Folding Folding_Comb Folding_Proofs Folding_Complete Folding_Sound NIFS NIFS_Proofs
  Inst5 Toy Properties1 Examples1 Properties2 Examples2 PolyInst CycInst Sampling Shipped Properties13 Examples13 SoundErr RandomOracle NIFS_RO Properties16.
Import ListNotations.
Local Open Scope rs_scope.

(** ** C88, C91: the bounds are attained *)
(** The sum of X over the cube is 1; the prover claims 3 and sends the polynomial 2 - X, which agrees with X at 1. *)
Definition ex_g (x : list r2) : r2 := nth 0 x 0.
Definition ex_msg (_ : list f25) : list r2 := [rz 2; rz 1].
Example ex_C88 : (1 <= 1)%nat /\ char_gt f25 1 /\ var_deg (R := r2) 1 1 ex_g /\ rz 3 <> cube_sum 1 ex_g /\
  In [1 : f25] (tuples 1 [0; 1; K2 a2 a0]) /\
  exists r e ts', sc_verify (TO := coin_trans) [1 : f25] 1 1 (rz 3) (sc_messages ex_msg 0 1 [1]) = Ok (r, e, ts') /\ e = ex_g (map emb r).
Proof.
  split; [lia|]. split; [apply char5_le; lia|]. split.
  { intros pre suf H. destruct pre; [|cbn in H; lia]. apply deg_le_id. }
  split; [vm_compute; discriminate|]. split; [cbn; auto|].
  do 3 eexists. split; [vm_compute; reflexivity|]. vm_compute. reflexivity.
Qed.
(** With one question to the oracle: what the verifier has absorbed before the challenge. *)
Definition ex_qry (_ : list f25) : list (ev r2 f25) := [EvA (rz 1); EvA (rz 1); EvA (rz 2); EvA (rz 1)].
Example ex_C91 : exists r e t',
  sc_verify (TO := ro_trans (ro_table ex_qry [1 : f25])) (Ro [] true) 1 1 (rz 3) [[rz 2; rz 1]] = Ok (r, e, t') /\ ro_ok t' = true /\ e = ex_g (map emb r).
Proof. do 3 eexists. split; [vm_compute; reflexivity|]. split; vm_compute; reflexivity. Qed.
(** Without the question the flag is cleared. *)
Example ex_C91_flag : exists r e t',
  sc_verify (TO := ro_trans (ro_table (fun _ => []) [1 : f25])) (Ro [] true) 1 1 (rz 3) [[rz 2; rz 1]] = Ok (r, e, t') /\ ro_ok t' = false.
Proof. do 3 eexists. split; vm_compute; reflexivity. Qed.

(** ** C89: a false instance accepted *)
(** A witness of the system of Toy.v whose last constraint is wrong; the first challenge 0 hides it. *)
Definition liarW : list r2 := [xi * xi; xi * xi * xi; xi * xi * xi + xi; xi * xi * xi + xi + rz 2].
Definition liarWit : witness c4 r2 := wit_from_w_ccs exP liarW.
Definition liarI : cccs r2 := Cccs (match commit exA (w_f liarWit) with Ok c => c | _ => [] end) [xi].
Definition ex_coins : list f25 := map (fun n => K2 (nf5 (n mod 5)) (nf5 (n * n mod 5))) (seq 0 19).
#[local] Instance coin_short : ShortOps (list f25) c4 := fun ts => (C4 a0 a1 a0 a4, ts).
Definition liarPf : lf_proof r2 := Eval vm_compute in
  match nifs_prove (TO := coin_trans) exP exAcc (exWit xi) liarI liarWit ex_coins exCs exA with
  | Ok (_, _, pf, _) => pf | _ => LFProof (LinProof [] [] []) (DecProof [] [] [] []) (DecProof [] [] [] []) (FoldProof [] [] []) end.
(** The strategy sends the messages of that proof in order, whatever the coins. *)
Definition liarSt : strategy (K := f25) (R := r2) := {|
  st_lin := fun pre => nth (length pre - 2) (lp_sc (lf_lin liarPf)) [];
  st_v := fun _ => lp_v (lf_lin liarPf); st_u := fun _ => lp_u (lf_lin liarPf);
  st_l := fun _ => lf_dec_l liarPf; st_r := fun _ => lf_dec_r liarPf;
  st_fold := fun pre => nth (length pre - 17) (fp_sc (lf_fold liarPf)) [];
  st_theta := fun _ => fp_theta (lf_fold liarPf); st_eta := fun _ => fp_eta (lf_fold liarPf) |}.
Example ex_play : play exP exCs liarSt ex_coins = liarPf.
Proof. vm_compute. reflexivity. Qed.
Definition ex_ws : list (witness c4 r2) := decompose_witness exP (exWit xi) ++ decompose_witness exP liarWit.
Definition ex_opn (cm : list r2) : witness c4 r2 :=
  match find (fun w => match commit exA (w_f w) with Ok c => leqb c cm | _ => false end) ex_ws with Some w => w | None => Witness [] [] [] [] end.
Lemma ex_opens : Forall (fun c => opens exP exA exCs (lc_cm c) (ex_opn (lc_cm c)))
  (dec_parts (lc_r exAcc) (lf_dec_l liarPf) ++ dec_parts (map emb (firstn 2 (skipn 2 ex_coins))) (lf_dec_r liarPf)).
Proof.
  assert (forall c, match find (fun w => match commit exA (w_f w) with Ok c' => leqb c' c | _ => false end) ex_ws with
                    | Some w => true | None => false end = true -> opens exP exA exCs c (ex_opn c)) as Hc.
  { intros c Hf. unfold ex_opn. destruct (find _ ex_ws) as [w|] eqn:E; [|discriminate]. apply find_some in E as [Hi Hw].
    destruct (commit exA (w_f w)) as [c'| |] eqn:Ec; try discriminate. apply leqb_true in Hw. subst c'.
    assert (exists f, w = wit_from_f_coeff exP f /\ length f = 4%nat) as (f & -> & Hl).
    { unfold ex_ws in Hi. apply in_app_or in Hi as [Hi|Hi]; unfold decompose_witness in Hi; apply in_map_iff in Hi as (f & <- & Hi); exists f; split; auto;
        revert Hi; vm_compute; intuition (subst; reflexivity). }
    split; [apply from_f_coeff_consistent|cbn [wit_from_f_coeff w_f]; rewrite map_length; exact Hl|exact Ec]. }
  apply Forall_forall. intros c Hi. apply Hc.
  assert (forallb (fun c => match find (fun w => match commit exA (w_f w) with Ok c' => leqb c' (lc_cm c) | _ => false end) ex_ws with Some w => true | None => false end)
    (dec_parts (lc_r exAcc) (lf_dec_l liarPf) ++ dec_parts (map emb (firstn 2 (skipn 2 ex_coins))) (lf_dec_r liarPf)) = true) as Hall by (vm_compute; reflexivity).
  rewrite forallb_forall in Hall. apply Hall. exact Hi.
Qed.
Lemma liar_false (w : witness c4 r2) : w_ccs w = liarW -> ~ cccs_rel exP exA exCs liarI w.
Proof.
  intros Hw [_ _ Hs]. specialize (Hs 3%nat ltac:(cbn; lia)). rewrite Hw in Hs. revert Hs. vm_compute. discriminate.
Qed.

Lemma ok_some {A} (x : result A) (f : A -> bool) : match x with Ok a => f a | _ => false end = true -> exists a, x = Ok a /\ f a = true.
Proof. destruct x; try discriminate. eauto. Qed.
Ltac shape := repeat split; try (vm_compute; reflexivity); repeat (constructor; [vm_compute; reflexivity|]); constructor.
Example ex_C89 : sizes_ok 5 exP exCs /\ degree_ok exCs /\ char_gt f25 (c_d exCs + 1) /\ char_gt f25 (2 * dp_b exP) /\ (2 * Z.of_nat (dp_b exP) <= 5 + 1)%Z /\
  (Nat.max tau (c_t exCs) < 25)%nat /\ length (lc_r exAcc) = c_s exCs /\ length ex_coins = n_coins exP exCs /\
  fooled exP exA exCs exAcc liarI ex_opn liarW liarSt ex_coins.
Proof.
  split; [apply ex_sizes|]. split; [apply ex_in_order|]. split; [apply char5_le; cbn; lia|]. split; [apply char5_le; cbn; lia|]. split; [cbn; lia|].
  split; [cbn; lia|]. split; [reflexivity|]. split; [reflexivity|].
  unfold fooled. cbv zeta. rewrite ex_play.
  assert (map (emb : f25 -> r2) (skipn (c_s exCs) (firstn (2 * c_s exCs) ex_coins)) = map emb (firstn 2 (skipn 2 ex_coins))) as -> by (vm_compute; reflexivity).
  destruct (ok_some (nifs_verify (TO := coin_trans) exP exAcc liarI liarPf ex_coins exCs) (fun r => leqb (lc_r (fst r)) (map emb (skipn 17 ex_coins))))
    as ([lc ts'] & E & Er); [vm_compute; reflexivity|]. apply leqb_true in Er. cbn [fst] in Er.
  exists lc, ts'. split; [exact E|]. split; [shape|]. split; [shape|]. split; [apply ex_opens|]. rewrite Er.
  split; [vm_compute; reflexivity|]. split; [vm_compute; reflexivity|]. split; [vm_compute; reflexivity|].
  intros (_ & H & _). revert H. apply liar_false. vm_compute. reflexivity.
Qed.

(** ** C92: the same proof against the oracle *)
(** The questions that the verifier asks: its states at the challenges, listed by a transcript that reads a tape. *)
Definition ask_trans : TransOps (list (ev r2 f25) * list f25 * list (list (ev r2 f25))) r2 f25 := {|
  absorb := fun '(l, c, q) x => (l ++ [EvA x], c, q);
  get_challenge := fun '(l, c, q) => (hd 0 c, (l ++ [EvC (hd 0 c)], tl c, q ++ [l]));
  squeeze_bytes := fun t _ => ([], t) |}.
Definition ask_short : ShortOps (list (ev r2 f25) * list f25 * list (list (ev r2 f25))) c4 := fun '(l, c, q) => (C4 a0 a1 a0 a4, (l ++ [EvS], c, q)).
Definition liarAsk : list (list (ev r2 f25)) := Eval vm_compute in
  match nifs_verify (TO := ask_trans) (HO := ask_short) exP exAcc liarI liarPf ([], ex_coins, []) exCs with Ok (_, (_, _, q)) => q | _ => [] end.
Definition ex_hs (_ : list (ev r2 f25)) : c4 := C4 a0 a1 a0 a4.
Definition liarQry (a : list f25) : list (ev r2 f25) := nth (length a) liarAsk [].
Example ex_C92 : length ex_coins = 19%nat /\ fooled_ro exP exA exCs exAcc liarI ex_opn liarW [] ex_hs liarQry (fun _ => liarPf) ex_coins.
Proof.
  split; [reflexivity|]. unfold fooled_ro, fooled_tab. cbv beta zeta.
  set (tab := ro_table liarQry ex_coins).
  destruct (ok_some (nifs_verify (TO := ro_trans tab) (HO := ro_short ex_hs) exP exAcc liarI liarPf (Ro [] true) exCs)
    (fun r => ro_ok (snd r) && leqb (lc_r (fst r)) (map emb (skipn 17 ex_coins)))) as ([lc t'] & E & HV); [vm_compute; reflexivity|].
  cbn [fst snd] in HV. apply andb_true_iff in HV as [Hok Er]. apply leqb_true in Er.
  destruct (ok_some (lin_verify (TO := ro_trans tab) liarI (lf_lin liarPf) (absorb_public_input (TO := ro_trans tab) exAcc liarI (Ro [] true)) exCs)
    (fun r => leqb (lc_r (fst r)) (map emb (firstn 2 (skipn 2 ex_coins))))) as ([lin t1] & EL & HL); [vm_compute; reflexivity|].
  cbn [fst] in HL. apply leqb_true in HL.
  exists lc, t', lin, t1. split; [exact E|]. split; [exact Hok|]. split; [exact EL|]. split; [shape|]. split; [shape|]. rewrite HL. split; [apply ex_opens|]. rewrite Er.
  split; [vm_compute; reflexivity|]. split; [vm_compute; reflexivity|]. split; [vm_compute; reflexivity|].
  intros (_ & H & _). revert H. apply liar_false. vm_compute. reflexivity.
Qed.

(** ** C90: squares over the shipped rings, with all their parameters *)
Example ex_C90 {p K} (y : cyc p K) decode need W G P Q : forall SH : shipped p K y decode need W G, In P (W ++ G) -> (1 <= Q)%nat -> (Z.of_nat Q <= 2 ^ 50)%Z ->
  forall A acc cm_i opn w0 l0 hs qry out, length (lc_r acc) = Nat.log2_up (dp_L P) ->
  forall L, NoDup L -> Forall (fun x => In x (tuples Q (all_challenges y)) /\ fooled_ro (SO := cyc_ops y)
      P A (sq_cs y P) acc cm_i opn w0 l0 hs qry out x) L ->
    (2 ^ 128 * Z.of_nat (length L) <= Z.of_nat (length (all_challenges y)) ^ Z.of_nat Q)%Z.
Proof.
  intros SH HP HQ HQ2 A acc cm_i opn w0 l0 hs qry out Hr.
  apply (C90_shipped y decode need W G SH P HP A (sq_cs y P)); auto; try (cbn [sq_cs c_d c_t]; lia).
  apply (sq_good y decode need W G SH P HP). apply (ex_L y decode need W G P SH HP).
Qed.
