(** Short challenges: range, injectivity, surjectivity.  Specification: a challenge is correct for a
    ring of dimension [d] with bounds [lo, hi) when it is the residue vector of [d] integers of
    that range. *)
From Coq Require Import List Arith Lia ZArith Bool.
From Verif Require Import Prelude Challenge.
Import ListNotations.
Local Open Scope Z_scope.

(** Residues modulo [p] of exactly [d] integers in [lo, hi). *)
Definition short_vec (p : Z) (d : nat) (lo hi : Z) (c : list Z) : Prop :=
  exists xs, length xs = d /\ Forall (fun x => lo <= x < hi) xs /\ c = map (fun x => x mod p) xs.

Definition bytes (n : nat) (bs : list Z) : Prop := length bs = n /\ Forall is_byte bs.

(** Exhaustive case analysis over bytes. *)
Lemma all_bytes (P : Z -> bool) :
  forallb P (map Z.of_nat (seq 0 256)) = true -> forall b, is_byte b -> P b = true.
Proof.
  intros H b Hb. apply (proj1 (forallb_forall P _) H). apply in_map_iff.
  exists (Z.to_nat b). unfold is_byte in Hb. split; [lia|]. apply in_seq. lia.
Qed.
Lemma all_bytes_eq (f g : Z -> Z) :
  forallb (fun b => f b =? g b) (map Z.of_nat (seq 0 256)) = true -> forall b, is_byte b -> f b = g b.
Proof. intros H b Hb. apply Z.eqb_eq. exact (all_bytes (fun b => f b =? g b) H b Hb). Qed.
Lemma all_bytes2_eq (f g : Z -> Z -> Z) :
  forallb (fun a => forallb (fun b => f a b =? g a b) (map Z.of_nat (seq 0 256))) (map Z.of_nat (seq 0 256)) = true ->
  forall a b, is_byte a -> is_byte b -> f a b = g a b.
Proof.
  intros H a b Ha Hb.
  pose proof (all_bytes (fun a => forallb (fun b => f a b =? g a b) (map Z.of_nat (seq 0 256))) H a Ha) as H1.
  cbv beta in H1. apply Z.eqb_eq. exact (all_bytes (fun b => f a b =? g a b) H1 b Hb).
Qed.

(** The four six-bit digits in arithmetic form. *)
Lemma decode3_arith b0 b1 b2 : is_byte b0 -> is_byte b1 -> is_byte b2 ->
  decode3 b0 b1 b2 = [b0 mod 64 - 32; b0 / 64 + 4 * (b1 mod 16) - 32; b1 / 16 + 16 * (b2 mod 4) - 32; b2 / 4 - 32].
Proof.
  intros H0 H1 H2. unfold decode3, max_coeff.
  rewrite (all_bytes_eq (fun b => Z.land b 63) (fun b => b mod 64)) by (vm_compute; auto).
  rewrite (all_bytes2_eq (fun a b => Z.lor (Z.shiftr (Z.land a 192) 6) (shl8 (Z.land b 15) 2)) (fun a b => a / 64 + 4 * (b mod 16))) by (vm_compute; auto).
  rewrite (all_bytes2_eq (fun a b => Z.lor (Z.shiftr (Z.land a 240) 4) (shl8 (Z.land b 3) 4)) (fun a b => a / 16 + 16 * (b mod 4))) by (vm_compute; auto).
  rewrite (all_bytes_eq (fun b => Z.shiftr (Z.land b 252) 2) (fun b => b / 4)) by (vm_compute; auto).
  reflexivity.
Qed.
Ltac zdm := Z.to_euclidean_division_equations; unfold is_byte in *; lia.
Lemma decode3_range b0 b1 b2 : is_byte b0 -> is_byte b1 -> is_byte b2 ->
  Forall (fun x => -32 <= x < 32) (decode3 b0 b1 b2).
Proof. intros. rewrite decode3_arith by auto. repeat constructor; zdm. Qed.
Lemma decode3_inj b0 b1 b2 c0 c1 c2 :
  is_byte b0 -> is_byte b1 -> is_byte b2 -> is_byte c0 -> is_byte c1 -> is_byte c2 ->
  decode3 b0 b1 b2 = decode3 c0 c1 c2 -> b0 = c0 /\ b1 = c1 /\ b2 = c2.
Proof.
  intros H0 H1 H2 G0 G1 G2. rewrite !decode3_arith by auto. intros E.
  pose proof (f_equal (fun l => nth 0 l 0) E) as E0. pose proof (f_equal (fun l => nth 1 l 0) E) as E1.
  pose proof (f_equal (fun l => nth 2 l 0) E) as E2. pose proof (f_equal (fun l => nth 3 l 0) E) as E3.
  cbn [nth] in E0, E1, E2, E3. clear E.
  assert (b2 / 4 = c2 / 4) by lia.
  assert (b2 mod 4 = c2 mod 4 /\ b1 / 16 = c1 / 16) by zdm.
  assert (b1 mod 16 = c1 mod 16 /\ b0 / 64 = c0 / 64) by zdm.
  repeat split; zdm.
Qed.
Lemma decode3_surj x0 x1 x2 x3 :
  -32 <= x0 < 32 -> -32 <= x1 < 32 -> -32 <= x2 < 32 -> -32 <= x3 < 32 ->
  exists b0 b1 b2, is_byte b0 /\ is_byte b1 /\ is_byte b2 /\ decode3 b0 b1 b2 = [x0; x1; x2; x3].
Proof.
  intros.
  set (b0 := (x0 + 32) + 64 * ((x1 + 32) mod 4)).
  set (b1 := (x1 + 32) / 4 + 16 * ((x2 + 32) mod 16)).
  set (b2 := (x2 + 32) / 16 + 4 * (x3 + 32)).
  assert (is_byte b0) by (unfold b0; zdm).
  assert (is_byte b1) by (unfold b1; zdm).
  assert (is_byte b2) by (unfold b2; zdm).
  exists b0, b1, b2. repeat (split; [assumption|]).
  rewrite decode3_arith by auto.
  assert (b0 mod 64 = x0 + 32 /\ b0 / 64 = (x1 + 32) mod 4) as [-> ->] by (unfold b0; zdm).
  assert (b1 mod 16 = (x1 + 32) / 4 /\ b1 / 16 = (x2 + 32) mod 16) as [-> ->] by (unfold b1; zdm).
  assert (b2 mod 4 = (x2 + 32) / 16 /\ b2 / 4 = x3 + 32) as [-> ->] by (unfold b2; zdm).
  repeat (f_equal; [zdm|]). repeat f_equal. zdm.
Qed.

(** Splitting 18 bytes into six triples and 24 coefficients into six quadruples. *)
Ltac dest_list l n H :=
  lazymatch n with
  | O => destruct l; [|discriminate H]
  | S ?m => let a := fresh "b" in destruct l as [|a l]; [discriminate H|]; dest_list l m H
  end.
Lemma decode_loop_18 bs : bytes 18 bs ->
  exists a0 a1 a2 b0 b1 b2 c0 c1 c2 d0 d1 d2 e0 e1 e2 f0 f1 f2,
    bs = [a0;a1;a2;b0;b1;b2;c0;c1;c2;d0;d1;d2;e0;e1;e2;f0;f1;f2] /\ Forall is_byte bs /\
    decode_loop bs = decode3 a0 a1 a2 ++ decode3 b0 b1 b2 ++ decode3 c0 c1 c2 ++ decode3 d0 d1 d2 ++ decode3 e0 e1 e2 ++ decode3 f0 f1 f2.
Proof.
  intros [Hl Hb]. dest_list bs 18%nat Hl. do 18 eexists. split; [reflexivity|]. split; [exact Hb|].
  unfold decode_loop. cbn [seq flat_map Nat.mul Nat.add nth]. rewrite app_nil_r. reflexivity.
Qed.
Ltac forall_inv :=
  repeat match goal with H : Forall _ (_ :: _) |- _ => let a := fresh in let b := fresh in
    pose proof (Forall_inv H) as a; pose proof (Forall_inv_tail H) as b; clear H; cbn beta in a end.
Lemma decode_loop_range bs : bytes 18 bs ->
  length (decode_loop bs) = 24%nat /\ Forall (fun x => -32 <= x < 32) (decode_loop bs).
Proof.
  intros H. destruct (decode_loop_18 bs H) as (a0&a1&a2&b0&b1&b2&c0&c1&c2&d0&d1&d2&e0&e1&e2&f0&f1&f2&->&Hb&->).
  split; [reflexivity|]. forall_inv. repeat rewrite Forall_app. repeat split; apply decode3_range; assumption.
Qed.
Lemma decode_loop_inj bs bs' : bytes 18 bs -> bytes 18 bs' -> decode_loop bs = decode_loop bs' -> bs = bs'.
Proof.
  intros H H'.
  destruct (decode_loop_18 bs H) as (a0&a1&a2&b0&b1&b2&c0&c1&c2&d0&d1&d2&e0&e1&e2&f0&f1&f2&->&Hb&->).
  destruct (decode_loop_18 bs' H') as (a0'&a1'&a2'&b0'&b1'&b2'&c0'&c1'&c2'&d0'&d1'&d2'&e0'&e1'&e2'&f0'&f1'&f2'&->&Hb'&->).
  forall_inv. clear H H'. intros E.
  assert (forall x0 x1 x2 y0 y1 y2 l m, decode3 x0 x1 x2 ++ l = decode3 y0 y1 y2 ++ m -> decode3 x0 x1 x2 = decode3 y0 y1 y2 /\ l = m) as Happ.
  { intros x0 x1 x2 y0 y1 y2 l m Q. unfold decode3 in *. cbn [app] in Q. inversion Q. split; congruence. }
  apply Happ in E as [E0 E]. apply Happ in E as [E1 E]. apply Happ in E as [E2 E]. apply Happ in E as [E3 E]. apply Happ in E as [E4 E5].
  repeat match goal with Q : decode3 _ _ _ = decode3 _ _ _ |- _ => apply decode3_inj in Q; [destruct Q as (->&->&->)|assumption..] end.
  reflexivity.
Qed.
Lemma decode_loop_surj xs : length xs = 24%nat -> Forall (fun x => -32 <= x < 32) xs ->
  exists bs, bytes 18 bs /\ decode_loop bs = xs.
Proof.
  intros Hl HF. dest_list xs 24%nat Hl. forall_inv.
  repeat match goal with
  | |- exists bs, bytes 18 bs /\ decode_loop bs = [?x0;?x1;?x2;?x3;?y0;?y1;?y2;?y3;?z0;?z1;?z2;?z3;?u0;?u1;?u2;?u3;?v0;?v1;?v2;?v3;?w0;?w1;?w2;?w3] =>
    destruct (decode3_surj x0 x1 x2 x3) as (a0&a1&a2&A0&A1&A2&EA); [assumption..|];
    destruct (decode3_surj y0 y1 y2 y3) as (b0'&b1'&b2'&B0&B1&B2&EB); [assumption..|];
    destruct (decode3_surj z0 z1 z2 z3) as (c0&c1&c2&C0&C1&C2&EC); [assumption..|];
    destruct (decode3_surj u0 u1 u2 u3) as (d0&d1&d2&D0&D1&D2&ED); [assumption..|];
    destruct (decode3_surj v0 v1 v2 v3) as (e0&e1&e2&E0&E1&E2&EE); [assumption..|];
    destruct (decode3_surj w0 w1 w2 w3) as (f0&f1&f2&F0&F1&F2&EF); [assumption..|];
    exists [a0;a1;a2;b0';b1';b2';c0;c1;c2;d0;d1;d2;e0;e1;e2;f0;f1;f2];
    split; [split; [reflexivity | repeat (apply Forall_cons; [assumption|]); apply Forall_nil]|];
    unfold decode_loop; cbn [seq flat_map Nat.mul Nat.add nth]; rewrite EA, EB, EC, ED, EE, EF; reflexivity
  end.
Qed.

(** [poly_of] on exactly [d] coefficients. *)
Lemma poly_of_full p d xs : length xs = d -> poly_of p d xs = map (fun x => x mod p) xs.
Proof.
  intros <-. unfold poly_of, resize. rewrite map_length, Nat.sub_diag, app_nil_r.
  rewrite <- (map_length (fun x => x mod p) xs) at 1. apply firstn_all.
Qed.
Lemma ok_inj {A} (a b : A) : Ok a = Ok b -> a = b.
Proof. congruence. Qed.
Lemma mod_inj p lo hi x y : 0 < p -> hi - lo <= p -> lo <= x < hi -> lo <= y < hi -> x mod p = y mod p -> x = y.
Proof.
  intros Hp Hr Hx Hy E.
  assert (Z.divide p (x - y)) as [q Hq].
  { apply Z.mod_divide; [lia|]. rewrite Zminus_mod, E, Z.sub_diag. apply Z.mod_0_l. lia. }
  assert (q = 0) by nia. nia.
Qed.
Lemma map_mod_inj p lo hi xs ys : 0 < p -> hi - lo <= p ->
  Forall (fun x => lo <= x < hi) xs -> Forall (fun x => lo <= x < hi) ys ->
  map (fun x => x mod p) xs = map (fun x => x mod p) ys -> xs = ys.
Proof.
  intros Hp Hr. revert ys. induction xs as [|x xs IH]; intros [|y ys] HX HY E; try discriminate; auto.
  inversion HX; inversion HY; subst. cbn [map] in E. injection E as E1 E2. f_equal; eauto using mod_inj.
Qed.
(** Padded to a larger dimension, the given coefficients are still readable. *)
Lemma poly_of_firstn p d xs : (length xs <= d)%nat -> firstn (length xs) (poly_of p d xs) = map (fun x => x mod p) xs.
Proof.
  intros H. unfold poly_of, resize. rewrite firstn_app, map_length.
  rewrite firstn_firstn, Nat.min_l by lia.
  rewrite firstn_length, map_length, Nat.min_r by lia. rewrite Nat.sub_diag, firstn_O, app_nil_r.
  rewrite <- (map_length (fun x => x mod p) xs) at 1. apply firstn_all.
Qed.
Lemma poly_of_inj p d lo hi xs ys : 0 < p -> hi - lo <= p -> length xs = length ys -> (length xs <= d)%nat ->
  Forall (fun x => lo <= x < hi) xs -> Forall (fun x => lo <= x < hi) ys ->
  poly_of p d xs = poly_of p d ys -> xs = ys.
Proof.
  intros Hp Hr Hl Hd HX HY E. apply (map_mod_inj p lo hi xs ys Hp Hr HX HY).
  rewrite <- (poly_of_firstn p d xs Hd), E, Hl. apply poly_of_firstn. lia.
Qed.

(** What a correct decoder does: fails exactly on a wrong number of bytes, yields a short vector
    otherwise, injectively. *)
Definition good_decoder (decode : list Z -> result (list Z)) (n : nat) (p : Z) (d : nat) (lo hi : Z) : Prop :=
  (forall bs, length bs <> n -> decode bs = Err (TooFewBytes (length bs) n)) /\
  (forall bs, bytes n bs -> exists c, decode bs = Ok c /\ short_vec p d lo hi c) /\
  (forall bs bs', bytes n bs -> bytes n bs' -> decode bs = decode bs' -> bs = bs').
Definition onto_decoder (decode : list Z -> result (list Z)) (n : nat) (p : Z) (d : nat) (lo hi : Z) : Prop :=
  forall c, short_vec p d lo hi c -> exists bs, bytes n bs /\ decode bs = Ok c.

Lemma eqb_neq_false a b : a <> b -> (a =? b)%nat = false.
Proof. intros; apply Nat.eqb_neq; auto. Qed.

Lemma gold_good : good_decoder gold_challenge 18 gold_p 24 (-32) 32.
Proof.
  repeat split.
  - intros bs H. unfold gold_challenge, gb_bytes. rewrite eqb_neq_false; auto.
  - intros bs H. destruct (decode_loop_range bs H) as [Hl HR].
    unfold gold_challenge, gb_bytes. rewrite (proj1 H), Nat.eqb_refl. eexists. split; [reflexivity|].
    exists (decode_loop bs). split; [exact Hl|]. split; [exact HR|]. apply poly_of_full, Hl.
  - intros bs bs' H H'. destruct (decode_loop_range bs H) as [Hl HR]. destruct (decode_loop_range bs' H') as [Hl' HR'].
    unfold gold_challenge, gb_bytes. rewrite (proj1 H), (proj1 H'), Nat.eqb_refl. intros E. apply ok_inj in E.
    apply decode_loop_inj; auto. apply (poly_of_inj gold_p gold_d (-32) 32); auto; first [unfold gold_p; lia | congruence | rewrite Hl; unfold gold_d; lia].
Qed.
Lemma gold_onto : onto_decoder gold_challenge 18 gold_p 24 (-32) 32.
Proof.
  intros c (xs & Hl & HF & ->). destruct (decode_loop_surj xs Hl HF) as (bs & Hb & E).
  exists bs. split; [exact Hb|]. unfold gold_challenge, gb_bytes. rewrite (proj1 Hb), Nat.eqb_refl, E. f_equal.
  apply poly_of_full, Hl.
Qed.

Lemma bb_good : good_decoder bb_challenge 18 bb_p 72 (-32) 32.
Proof.
  repeat split.
  - intros bs H. unfold bb_challenge, gb_bytes. rewrite eqb_neq_false; auto.
  - intros bs H. destruct (decode_loop_range bs H) as [Hl HR].
    unfold bb_challenge, gb_bytes. rewrite (proj1 H), Nat.eqb_refl. eexists. split; [reflexivity|].
    exists (decode_loop bs ++ repeat 0 48). split; [rewrite app_length, repeat_length, Hl; reflexivity|]. split.
    + apply Forall_app. split; [exact HR|]. apply Forall_forall. intros x Hx. apply repeat_spec in Hx. lia.
    + unfold poly_of, resize. rewrite firstn_all2 by (rewrite map_length, Hl; unfold bb_d; lia).
      rewrite map_app, map_length, Hl. f_equal.
  - intros bs bs' H H'. destruct (decode_loop_range bs H) as [Hl HR]. destruct (decode_loop_range bs' H') as [Hl' HR'].
    unfold bb_challenge, gb_bytes. rewrite (proj1 H), (proj1 H'), Nat.eqb_refl. intros E. apply ok_inj in E.
    apply decode_loop_inj; auto. apply (poly_of_inj bb_p bb_d (-32) 32); auto; first [unfold bb_p; lia | congruence | rewrite Hl; unfold bb_d; lia].
Qed.
(** BabyBear challenges have zero coefficients from the 25th on. *)
Lemma bb_tail_zero bs c i : bytes 18 bs -> bb_challenge bs = Ok c -> (24 <= i)%nat -> nth i c 0 = 0.
Proof.
  intros H. destruct (decode_loop_range bs H) as [Hl HR].
  unfold bb_challenge, gb_bytes. rewrite (proj1 H), Nat.eqb_refl. intros E Hi. apply ok_inj in E; subst c.
  unfold poly_of, resize. rewrite firstn_all2 by (rewrite map_length, Hl; unfold bb_d; lia).
  rewrite map_length, Hl, app_nth2 by (rewrite map_length, Hl; lia).
  generalize (i - length (map (fun x => Z.modulo x bb_p) (decode_loop bs)))%nat. intros j.
  destruct (Nat.lt_ge_cases j 48); [|apply nth_overflow; rewrite repeat_length; unfold bb_d; lia].
  apply (repeat_spec (bb_d - 24)). apply nth_In. rewrite repeat_length. unfold bb_d. lia.
Qed.

Lemma frog_good : good_decoder frog_challenge 16 frog_p 16 (-128) 128.
Proof.
  assert (forall bs, Forall is_byte bs -> Forall (fun x => -128 <= x < 128) (map (fun x => x - 128) bs)) as HR.
  { intros bs H. apply Forall_map. apply Forall_forall. intros x Hx. pose proof (proj1 (Forall_forall _ _) H x Hx) as Hb. unfold is_byte in Hb. lia. }
  repeat split.
  - intros bs H. unfold frog_challenge, fs_bytes. rewrite eqb_neq_false; auto.
  - intros bs [Hl Hb]. unfold frog_challenge, fs_bytes. rewrite Hl, Nat.eqb_refl. eexists. split; [reflexivity|].
    exists (map (fun x => x - 128) bs). rewrite map_length. split; [exact Hl|]. split; [auto|]. apply poly_of_full. rewrite map_length. exact Hl.
  - intros bs bs' [Hl Hb] [Hl' Hb']. unfold frog_challenge, fs_bytes. rewrite Hl, Hl', Nat.eqb_refl. intros E. apply ok_inj in E.
    apply (poly_of_inj frog_p frog_d (-128) 128) in E; auto; try (unfold frog_p; lia); rewrite ?map_length; try congruence; try (unfold frog_d; lia).
    clear - E. revert bs' E. induction bs; intros [|b' bs'] E; try discriminate; auto. cbn [map] in E. injection E as E1 E2. f_equal; [lia|auto].
Qed.
Lemma frog_onto : onto_decoder frog_challenge 16 frog_p 16 (-128) 128.
Proof.
  intros c (xs & Hl & HF & ->). exists (map (fun x => x + 128) xs). split.
  - split; [rewrite map_length; exact Hl|]. apply Forall_map. apply Forall_forall. intros x Hx.
    pose proof (proj1 (Forall_forall _ _) HF x Hx) as Hb. cbv beta in Hb. unfold is_byte. lia.
  - unfold frog_challenge, fs_bytes. rewrite map_length, Hl, Nat.eqb_refl. f_equal. rewrite map_map.
    rewrite (map_ext _ (fun x => x)) by (intros; lia). rewrite map_id. apply poly_of_full, Hl.
Qed.

Lemma stark_good : good_decoder stark_challenge 16 stark_p 16 0 256.
Proof.
  repeat split.
  - intros bs H. unfold stark_challenge, fs_bytes. rewrite eqb_neq_false; auto.
  - intros bs [Hl Hb]. unfold stark_challenge, fs_bytes. rewrite Hl, Nat.eqb_refl. eexists. split; [reflexivity|].
    exists bs. split; [exact Hl|]. split; [exact Hb|]. apply poly_of_full. exact Hl.
  - intros bs bs' [Hl Hb] [Hl' Hb']. unfold stark_challenge, fs_bytes. rewrite Hl, Hl', Nat.eqb_refl. intros E. apply ok_inj in E.
    apply (poly_of_inj stark_p stark_d 0 256) in E; auto; try (vm_compute; intuition congruence); try congruence; try (unfold stark_d; lia).
Qed.
Lemma stark_onto : onto_decoder stark_challenge 16 stark_p 16 0 256.
Proof.
  intros c (xs & Hl & HF & ->). exists xs. split; [split; auto|].
  unfold stark_challenge, fs_bytes. rewrite Hl, Nat.eqb_refl. f_equal. apply poly_of_full, Hl.
Qed.

(** [get_short_challenge] never panics with a sponge that returns as many bytes as asked for. *)
Lemma poseidon_short_ok {T} (squeeze : T -> nat -> list Z * T) decode n p d lo hi ts :
  good_decoder decode n p d lo hi -> bytes n (fst (squeeze ts n)) ->
  exists c, poseidon_short squeeze decode n ts = Ok (c, snd (squeeze ts n)) /\ short_vec p d lo hi c.
Proof.
  intros (_ & G & _) Hb. unfold poseidon_short. destruct (squeeze ts n) as [bs ts']. cbn [fst snd] in *.
  destruct (G bs Hb) as (c & -> & Hc). exists c. auto.
Qed.
