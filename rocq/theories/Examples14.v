(** Concrete cases for C85 to C87: the values in the tests of latticefold/src/transcript/poseidon.rs, and histories that meet the hypotheses. *)
From Coq Require Import String List Arith Lia ZArith Bool Znumtheory.
From Verif Require Import Prelude Alg Poly Transcript Rings Challenge PolyInst Primes FieldExt CycInst RealRings Sampling
  Poseidon PoseidonParams PoseidonCert Poseidon_Proofs Sponge_Proofs PTrans_Proofs SpongeBind PShipped Shipped Properties15 Linearization Decomposition Folding NIFS NIFS_Proofs Relations LinRel Examples13.
Import ListNotations.
Local Open Scope rs_scope.

(** * The permutation on integers, reduced once per entry *)
Section ZPerm.
Context (p : Z) (c : poseidon_cfg).
Definition zsbox (x : Z) : Z := (x ^ Z.of_nat (pc_alpha c) mod p)%Z.
Definition zround (s : list Z) (k : nat) : list Z :=
  let u := zipw Z.add s (nth k (pc_ark c) []) in
  let v := if is_full c k then map zsbox u else match u with x :: u' => zsbox x :: u' | [] => [] end in
  map (fun row => (fold_right Z.add 0%Z (zipw Z.mul row v) mod p)%Z) (pc_mds c).
Definition zpermute (s : list Z) : list Z := fold_left zround (seq 0 (pc_full c + pc_partial c)) s.
Lemma zp_mod z : zp p (z mod p) = zp p z.
Proof. apply fp_ext. cbn [fpz zp]. apply Zmod_mod. Qed.
Lemma zsbox_ok x : sbox c (zp p x) = zp p (zsbox x).
Proof. unfold sbox, zsbox. rewrite zp_mod. apply zp_pow. Qed.
Lemma zark_ok s l : zipw (fun x a => x + zp p a) (map (zp p) s) l = map (zp p) (zipw Z.add s l).
Proof. revert l. induction s as [|x s IH]; intros [|a l]; cbn [zipw map]; auto. rewrite IH, zp_add. auto. Qed.
Lemma zrow_ok l s : lsum (zipw (fun a x => x * zp p a) l (map (zp p) s)) = zp p (fold_right Z.add 0%Z (zipw Z.mul l s)).
Proof.
  revert s. induction l as [|a l IH]; intros [|x s]; try reflexivity. cbn [zipw map]. unfold lsum in *. cbn [fold_right]. rewrite IH, zp_mul, zp_add. f_equal. lia.
Qed.
Lemma zround_ok s k : round c (map (zp p) s) k = map (zp p) (zround s k).
Proof.
  unfold round, zround, apply_mds, apply_ark, apply_s_box. rewrite zark_ok. set (u := zipw Z.add s (nth k (pc_ark c) [])).
  assert ((if is_full c k then map (sbox c) (map (zp p) u) else match map (zp p) u with x :: s' => sbox c x :: s' | [] => [] end) =
    map (zp p) (if is_full c k then map zsbox u else match u with x :: u' => zsbox x :: u' | [] => [] end)) as ->.
  { destruct (is_full c k); [|destruct u; cbn [map]; rewrite ?zsbox_ok; auto]. rewrite !map_map. apply map_ext. exact zsbox_ok. }
  rewrite map_map. apply map_ext. intros row. rewrite zp_mod. apply zrow_ok.
Qed.
Lemma zpermute_ok s : permute c (map (zp p) s) = map (zp p) (zpermute s).
Proof.
  unfold permute, zpermute. generalize (seq 0 (pc_full c + pc_partial c)). intros l. revert s. induction l as [|k l IH]; intros s; cbn [fold_left]; auto. rewrite zround_ok. apply IH.
Qed.
End ZPerm.

(** * The values in the tests *)
(** poseidon.rs 85-150: the sponge after absorbing 255, and its state once permuted. *)
Definition kat_sponge : sponge gold_p := sp_absorb cfg24 (sp_new cfg24) [zp gold_p 255].
Definition kat_in : list Z := repeat 0%Z 4 ++ 255%Z :: repeat 0%Z 19.
Definition kat_out : list Z := Eval vm_compute in zpermute gold_p cfg24 kat_in.
Lemma kat_zpermute : zpermute gold_p cfg24 kat_in = kat_out.
Proof. vm_compute. reflexivity. Qed.
Lemma kat_permute : permute cfg24 (sp_state kat_sponge) = map (zp gold_p) kat_out.
Proof. rewrite <- kat_zpermute, <- zpermute_ok. reflexivity. Qed.
Lemma kat_squeeze n : sp_squeeze cfg24 kat_sponge n = squeeze_internal cfg24 n 0 n (map (zp gold_p) kat_out).
Proof.
  unfold sp_squeeze. assert (sp_mode kat_sponge = Absorbing 1) as -> by reflexivity. rewrite kat_permute. reflexivity.
Qed.
(** poseidon.rs 86-102 [test_get_big_challenge] *)
Example ex_big : match pt_challenge gold_cyc cfg24 kat_sponge with Ok (k, _) => map fpz (cy_co gold_cyc k) = [10462816198028961279; 17217694161994925895; 6163269596856181508]%Z | _ => False end.
Proof. unfold pt_challenge. rewrite kat_squeeze. generalize (@sp_absorb gold_p cfg24). vm_compute. reflexivity. Qed.
(** poseidon.rs 104-145 [test_get_small_challenge] *)
Example ex_small : match pt_short gold_cyc cfg24 gold_challenge 18 kat_sponge with
  | Ok (h, _) => map (fun x => if (2 * fpz x <? gold_p)%Z then fpz x else (fpz x - gold_p)%Z) (pl_l h) = [31; -9; -30; 14; -15; -9; 30; -8; 19; -4; 20; -15; -26; 4; -1; 7; -23; -26; -17; -31; 3; -17; 25; -17]%Z
  | _ => False end.
Proof. unfold pt_short, sp_bytes. rewrite kat_squeeze. vm_compute. reflexivity. Qed.

(** * Histories *)
(** C86_no_panic and C86_binding: histories of each kind of operation over any of the rings. *)
Example ex_kinds {p K} (y : cyc p K) (v v' : pol K (cy_k y)) : Forall2 (op_kind y) [OAbsorb y v; OChallenge y; OShort y] [OAbsorb y v'; OChallenge y; OShort y].
Proof. repeat constructor. Qed.
(** C86_zero_refuted: its second part is not about zero elements only. *)
Definition frog_one : pol quad (cy_k frog_cyc) := @rone _ (r_ops frog_cyc).
Example ex_frog : frog_one <> r_zero frog_cyc.
Proof. intros E. apply (f_equal (fun v => map (fun x => map fpz (cy_co frog_cyc x)) (pl_l v))) in E. revert E. vm_compute. discriminate. Qed.
(** C87_chain: squares over any ring with the wide parameters, every proof over a new sponge. *)
Example ex_pchain {p K} (y : cyc p K) decode need c (RC : real_cfg p K y decode need c) W G (SH : shipped p K y decode need W G) P (a x : pol K (cy_k y)) r (bs : list (pol K (cy_k y))) :
  In P W -> length r = Nat.log2_up (dp_L P) ->
  exists accs pfs,
    fold_chain_v (SO := cyc_ops y) (TO := pw_trans y decode need c RC) (HO := short_of y decode (pw_bytes y decode need c RC)) P (sq_cs y P) (sq_lc y P r (wit_from_w_ccs (SO := cyc_ops y) P [a]) x)
      (map (fun b => (w_new c, sq_cm y P b)) bs) pfs = Ok accs /\ length accs = length bs.
Proof.
  intros HP Hr. assert (2 <= dp_L P)%nat as HL by (apply (ex_L y decode need W G P SH); apply in_or_app; auto).
  destruct (ex_chain y decode need W G SH (TO := pw_trans y decode need c RC) (pw_bytes y decode need c RC) P a x r (map (fun b => (w_new c, b)) bs) HP (pw_squeezer y decode need c RC) HL Hr) as (accs & pfs & _ & E2 & E3).
  exists (map fst accs), pfs. rewrite !map_map in E3. rewrite !map_length in *. auto.
Qed.
