(** C123: challenges drawn under a name (latticefold-plus/src/transcript.rs). *)
From Coq Require Import String Ascii List Arith Lia ZArith Bool Ring.
From Verif Require Import Prelude Alg Transcript Linearization PlusRing PlusUtils_Proofs Challenge PlusTranscript Properties18.
Import ListNotations.
Local Open Scope rs_scope.

Section P.
Context {K R : Type} {PO : POps K R} {p : Z} {PL : PLaws K R p}.
Add Ring Rring111 : (@rlaws_th K _ (fld_laws (FieldLaws := pl_K (p := p)))).
Add Ring Rring112 : (@rlaws_th R _ (pl_R (p := p))).

Lemma be_val_big s : be_val 0 s = big_endian (bytes_of s).
Proof. rewrite be_val_spec. lia. Qed.
(** What is absorbed and what comes out. *)
Theorem C123_named {T} {TO : TransOps T R K} (ts : T) (name : string) n :
  squeeze_challenges ts name n = get_challenges (absorb ts (emb (rofZ (big_endian (bytes_of name)) : K))) n /\
  List.length (fst (squeeze_challenges ts name n)) = n /\
  squeeze_rchallenges ts name n = (map emb (fst (squeeze_challenges ts name n)), snd (squeeze_challenges ts name n)).
Proof.
  unfold squeeze_rchallenges, squeeze_challenges, absorb_field_element. rewrite be_val_big. split; [reflexivity|]. split; [apply get_challenges_length|].
  destruct (get_challenges _ n); reflexivity.
Qed.

Lemma pl_signed_inj z w : (2 * Z.abs z < p)%Z -> (2 * Z.abs w < p)%Z -> (rofZ z : K) = rofZ w -> z = w.
Proof. intros Hz Hw E. rewrite <- (psigned_small (p := p) z Hz), <- (psigned_small (p := p) w Hw), E. reflexivity. Qed.
Lemma pl_p : Z.odd p = true -> (rofZ p : K) = 0.
Proof.
  intros Ho. set (h := (p / 2)%Z). assert (p = 2 * h + 1)%Z as Ep by (unfold h; rewrite (Zdiv2_odd_eqn p) at 1; rewrite Ho, Z.div2_div; lia).
  pose proof (pp_odd (PLaws := PL)) as Hp. set (s := psigned (rofZ (h + 1) : K)).
  assert (rofZ s = (rofZ (h + 1) : K)) as Es by apply (psigned_val (p := p)).
  pose proof (psigned_bound (p := p) (rofZ (h + 1) : K)) as Hs. fold s in Hs. set (d := (h + 1 - s)%Z).
  assert ((rofZ d : K) = 0) as Ed. { unfold d. rewrite rofZ_sub, Es. ring. }
  destruct (Z.eq_dec d p) as [Edp|N]; [rewrite <- Edp; exact Ed|]. exfalso.
  assert (h = h - d)%Z as E; [|lia].
  apply pl_signed_inj; [lia|lia|]. rewrite rofZ_sub, Ed. ring.
Qed.
Lemma pl_modp z : Z.odd p = true -> (rofZ (z mod p) : K) = rofZ z.
Proof.
  intros Ho. pose proof (pp_odd (PLaws := PL)). replace (rofZ z : K) with (rofZ (p * (z / p) + z mod p) : K) by (rewrite <- Z.div_mod by lia; auto).
  rewrite rofZ_add, rofZ_mul, pl_p by auto. ring.
Qed.
Lemma pl_eq_iff z w : Z.odd p = true -> ((rofZ z : K) = rofZ w <-> (z mod p = w mod p)%Z).
Proof.
  intros Ho. pose proof (pp_odd (PLaws := PL)) as Hp. split; [|intros E; rewrite <- (pl_modp z), <- (pl_modp w), E by auto; auto].
  intros E. pose proof (Z.mod_pos_bound z p ltac:(lia)). pose proof (Z.mod_pos_bound w p ltac:(lia)).
  rewrite <- (pl_modp z), <- (pl_modp w) in E by auto. set (x := (z mod p)%Z) in *. set (y := (w mod p)%Z) in *.
  assert (p = 2 * (p / 2) + 1)%Z as Ep by (rewrite (Zdiv2_odd_eqn p) at 1; rewrite Ho, Z.div2_div; lia).
  assert (x - p / 2 = y - p / 2)%Z; [|lia].
  apply pl_signed_inj; [lia|lia|]. rewrite !rofZ_sub, E. auto.
Qed.
Lemma pl_emb_inj (a b : K) : (emb a : R) = emb b -> a = b.
Proof.
  intros E. apply (f_equal (fun x : R => pcoeffs (x * 1))) in E. rewrite !(pcoeffs_scale (p := p)), !(pcoeffs_one (p := p)) in E.
  pose proof (pdim_pos (PLaws := PL)) as Hd. unfold unit_vec in E. destruct pdim as [|d]; [lia|]. cbn [seq map Nat.eqb] in E. injection E as E _.
  transitivity (a * 1); [ring|]. rewrite E. ring.
Qed.

(** Two names give the same challenges on every transcript exactly when their values agree modulo the characteristic. *)
Theorem C123_same (s s' : string) : Z.odd p = true ->
  ((forall T (TO : TransOps T R K) (ts : T) n, squeeze_challenges ts s n = squeeze_challenges ts s' n) <->
   (big_endian (bytes_of s) mod p = big_endian (bytes_of s') mod p)%Z).
Proof.
  intros Ho. split.
  - intros H. specialize (H (list R) {| absorb := fun l x => x :: l; get_challenge := fun l => (0, l); squeeze_bytes := fun l _ => ([], l) |} [] 0%nat).
    unfold squeeze_challenges, absorb_field_element in H. cbn [get_challenges absorb] in H. injection H as H. apply pl_emb_inj in H.
    apply pl_eq_iff in H; [|exact Ho]. rewrite !be_val_big in H. exact H.
  - intros H T TO ts n. unfold squeeze_challenges. rewrite !be_val_big. apply pl_eq_iff in H; [|exact Ho]. rewrite H. reflexivity.
Qed.

Lemma big_endian_bound l : Forall (fun b => (0 <= b < 256)%Z) l -> (0 <= big_endian l < 256 ^ Z.of_nat (List.length l))%Z.
Proof.
  induction 1 as [|b l Hb _ IH]; [cbn; lia|]. rewrite big_endian_cons. cbn [List.length]. rewrite Nat2Z.inj_succ, Z.pow_succ_r by lia. nia.
Qed.
Lemma big_endian_inj l : forall l', Forall (fun b => (0 <= b < 256)%Z) l -> Forall (fun b => (0 <= b < 256)%Z) l' -> List.length l = List.length l' ->
  big_endian l = big_endian l' -> l = l'.
Proof.
  induction l as [|b l IH]; intros [|b' l'] H H' E1 E2; try discriminate E1; [reflexivity|].
  apply Forall_inv in H as Hb. apply Forall_inv_tail in H. apply Forall_inv in H' as Hb'. apply Forall_inv_tail in H'. cbn [List.length] in E1. injection E1 as E1.
  rewrite !big_endian_cons, <- E1 in E2. pose proof (big_endian_bound _ H). pose proof (big_endian_bound _ H'). rewrite <- E1 in H1.
  assert (b = b') by nia. subst b'. f_equal. apply IH; auto. lia.
Qed.
Lemma bytes_of_range s : Forall (fun b => (0 <= b < 256)%Z) (bytes_of s).
Proof.
  unfold bytes_of. apply Forall_forall. intros b Hb. apply in_map_iff in Hb as (a & <- & _). pose proof (N_ascii_bounded a). lia.
Qed.
Lemma bytes_of_inj s s' : bytes_of s = bytes_of s' -> s = s'.
Proof.
  unfold bytes_of. intros E. rewrite <- (string_of_list_ascii_of_string s), <- (string_of_list_ascii_of_string s'). f_equal.
  revert E. generalize (list_ascii_of_string s) (list_ascii_of_string s'). induction l as [|a l IH]; intros [|a' l'] E; try discriminate E; [reflexivity|].
  cbn [map] in E. injection E as E1 E2. f_equal; [|auto]. apply N2Z.inj in E1. rewrite <- (ascii_N_embedding a), <- (ascii_N_embedding a'), E1. reflexivity.
Qed.
Lemma big_endian_low b l : Forall (fun b => (0 <= b < 256)%Z) (b :: l) -> b <> 0%Z -> (256 ^ Z.of_nat (List.length l) <= big_endian (b :: l))%Z.
Proof.
  intros H Hb. pose proof (Forall_inv H). pose proof (big_endian_bound _ (Forall_inv_tail H)). cbn beta in H0. rewrite big_endian_cons.
  assert (0 < 256 ^ Z.of_nat (List.length l))%Z by (apply Z.pow_pos_nonneg; lia). nia.
Qed.
(** Names no longer than the characteristic, not starting with a zero byte, are kept apart. *)
Theorem C123_short (s s' : string) : Z.odd p = true -> s <> s' ->
  (forall x, In x [s; s'] -> nth 0 (bytes_of x) 0%Z <> 0%Z /\ (256 ^ Z.of_nat (List.length (bytes_of x)) <= p)%Z) ->
  (emb (rofZ (big_endian (bytes_of s)) : K) : R) <> emb (rofZ (big_endian (bytes_of s')) : K).
Proof.
  intros Ho N H E. apply pl_emb_inj, pl_eq_iff in E; [|exact Ho]. apply N, bytes_of_inj.
  destruct (H s ltac:(left; reflexivity)) as [H1 H2]. destruct (H s' ltac:(right; left; reflexivity)) as [H3 H4]. clear H N.
  pose proof (bytes_of_range s) as F. pose proof (bytes_of_range s') as F'. revert H1 H2 H3 H4 F F' E. generalize (bytes_of s) (bytes_of s'). clear s s'. intros l l' H1 H2 H3 H4 F F' E.
  pose proof (big_endian_bound l F) as B. pose proof (big_endian_bound l' F') as B'. rewrite !Z.mod_small in E by lia.
  apply big_endian_inj; auto. destruct l as [|b l]; [contradiction H1; reflexivity|]. destruct l' as [|b' l']; [contradiction H3; reflexivity|]. cbn [nth] in H1, H3.
  pose proof (big_endian_low b l F H1) as W. pose proof (big_endian_low b' l' F' H3) as W'. cbn [List.length] in *.
  destruct (lt_eq_lt_dec (List.length l) (List.length l')) as [[G|G]|G]; [exfalso| lia |exfalso].
  - assert (256 ^ Z.of_nat (S (List.length l)) <= 256 ^ Z.of_nat (List.length l'))%Z by (apply Z.pow_le_mono_r; lia). lia.
  - assert (256 ^ Z.of_nat (S (List.length l')) <= 256 ^ Z.of_nat (List.length l))%Z by (apply Z.pow_le_mono_r; lia). lia.
Qed.

(** Longer names are not: in each of the four characteristics two names of small letters give the same challenges always. *)
Theorem C123_collision_refuted : In p [gold_p; bb_p; frog_p; stark_p] ->
  exists s s' : string, s <> s' /\ Forall (fun b => (97 <= b <= 122)%Z) (bytes_of s ++ bytes_of s') /\
  forall T (TO : TransOps T R K) (ts : T) n, squeeze_challenges ts s n = squeeze_challenges ts s' n.
Proof.
  intros Hp. assert (forall s s', (negb (s =? s')%string && forallb (fun b => (97 <=? b) && (b <=? 122))%Z (bytes_of s ++ bytes_of s') &&
     (Z.odd p) && (big_endian (bytes_of s) mod p =? big_endian (bytes_of s') mod p)%Z)%bool = true ->
     exists s s' : string, s <> s' /\ Forall (fun b => (97 <= b <= 122)%Z) (bytes_of s ++ bytes_of s') /\
     forall T (TO : TransOps T R K) (ts : T) n, squeeze_challenges ts s n = squeeze_challenges ts s' n) as G.
  { intros s s' H. rewrite !andb_true_iff in H. destruct H as [[[H1 H2] H3] H4]. exists s, s'. split; [|split].
    - intros ->. rewrite String.eqb_refl in H1. discriminate H1.
    - apply Forall_forall. intros b Hb. rewrite forallb_forall in H2. specialize (H2 b Hb). apply andb_true_iff in H2. lia.
    - apply C123_same; [exact H3|]. apply Z.eqb_eq. exact H4. }
  cbn [In] in Hp. destruct Hp as [E|[E|[E|[E|[]]]]].
  - apply (G "challenge" "dhalkengf")%string. rewrite <- E. vm_compute. reflexivity.
  - apply (G "alpha" "idphr")%string. rewrite <- E. vm_compute. reflexivity.
  - apply (G "mzmazzzmmmmm" "vieqjljjlcan")%string. rewrite <- E. vm_compute. reflexivity.
  - apply (G "mmmmmmmammmmmmmmmmmmmmmmmmmmmmmm" "ummmmmmrmmmmmmmmmmmmmmmmmmmmmmmn")%string. rewrite <- E. vm_compute. reflexivity.
Qed.
End P.
