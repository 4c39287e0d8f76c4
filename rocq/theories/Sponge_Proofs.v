(** The sponge and the Poseidon transcript: element-wise specification, absence of panics, bytes of challenges. *)
From Coq Require Import String List Arith Lia ZArith Bool Ring Znumtheory Permutation.
From Verif Require Import Prelude Alg Poly Transcript Rings Challenge Challenge_Proofs PolyInst Primes FieldExt CycInst Sampling Zippel Poseidon Poseidon_Proofs.
Import ListNotations.
Local Open Scope rs_scope.

Section Sponge.
Context {p : Z} (Hp : prime p) (c : poseidon_cfg) (HC : cfg_ok c).
Notation F := (fp p).
Notation t := (width c).
Notation rate := (pc_rate c).
Notation cap := (pc_cap c).
Local Instance FLs : FieldLaws F := fp_laws p Hp.
Add Ring Rring81 : (@rlaws_th F _ _).
Lemma rate_pos : (0 < rate)%nat.
Proof. exact (proj2 HC). Qed.

(** * The duplex, one element at a time *)
(** The element goes into the next free place of the rate part; a full block, or a change from squeezing, is permuted first. *)
Definition put (i : nat) (x : F) (s : list F) : list F := map (fun j => if (j =? cap + i)%nat then nth j s 0 + x else nth j s 0) (seq 0 (length s)).
Definition absorb1 (sp : sponge p) (x : F) : sponge p :=
  match sp_mode sp with
  | Absorbing i => if (i <? rate)%nat then Sponge (put i x (sp_state sp)) (Absorbing (S i)) else Sponge (put 0 x (permute c (sp_state sp))) (Absorbing 1)
  | Squeezing _ => Sponge (put 0 x (permute c (sp_state sp))) (Absorbing 1)
  end.
Definition squeeze1 (sp : sponge p) : F * sponge p :=
  match sp_mode sp with
  | Squeezing i => if (i <? rate)%nat then (nth (cap + i) (sp_state sp) 0, Sponge (sp_state sp) (Squeezing (S i)))
                   else (nth cap (permute c (sp_state sp)) 0, Sponge (permute c (sp_state sp)) (Squeezing 1))
  | Absorbing _ => (nth cap (permute c (sp_state sp)) 0, Sponge (permute c (sp_state sp)) (Squeezing 1))
  end.
Fixpoint squeezes (n : nat) (sp : sponge p) : list F * sponge p :=
  match n with O => ([], sp) | S m => let '(x, sp1) := squeeze1 sp in let '(xs, sp2) := squeezes m sp1 in (x :: xs, sp2) end.
(** States of the right length with an index within the rate. *)
Definition index (m : mode) : nat := match m with Absorbing i => i | Squeezing i => i end.
Definition sp_wf (sp : sponge p) : Prop := length (sp_state sp) = t /\ (index (sp_mode sp) <= rate)%nat.

Lemma add_at_length a xs (s : list F) : length (add_at a xs s) = length s.
Proof. revert a xs. induction s as [|y s IH]; intros [|a] xs; cbn [add_at]; auto; [destruct xs; cbn [length]; auto|cbn [length]; auto]. Qed.
Lemma add_at_cons a x xs (s : list F) : add_at a (x :: xs) s = add_at (S a) xs (add_at a [x] s).
Proof.
  revert a. induction s as [|y s IH]; intros [|a]; cbn [add_at]; auto; f_equal; auto. destruct s; reflexivity.
Qed.
Lemma add_at_nil a (s : list F) : add_at a [] s = s.
Proof. revert a. induction s as [|y s IH]; intros [|a]; cbn [add_at]; auto. f_equal; auto. Qed.
Lemma add_at_put i x (s : list F) : add_at (cap + i) [x] s = put i x s.
Proof.
  unfold put. generalize (cap + i)%nat as a. induction s as [|y s IH]; intros [|a]; cbn [add_at length seq map]; auto.
  - cbn [Nat.eqb nth]. f_equal. rewrite add_at_nil, <- seq_shift, map_map. apply (nth_ext _ _ 0 0); [rewrite map_length, seq_length; auto|].
    intros n Hn. rewrite nth_seq_map by auto. reflexivity.
  - cbn [Nat.eqb nth]. f_equal. rewrite IH, <- seq_shift, map_map. reflexivity.
Qed.
Lemma put_length i x (s : list F) : length (put i x s) = length s.
Proof. unfold put. rewrite map_length, seq_length. auto. Qed.
Lemma absorb1_wf sp x : sp_wf sp -> sp_wf (absorb1 sp x).
Proof.
  pose proof rate_pos as RP. intros [H1 H2]. unfold absorb1. destruct (sp_mode sp) as [i|i] eqn:E; [destruct (Nat.ltb_spec i rate)|]; split; cbn [sp_state sp_mode index];
    rewrite ?put_length; auto; try apply permute_length; auto; lia.
Qed.
Lemma fold_absorb_wf xs : forall sp, sp_wf sp -> sp_wf (fold_left absorb1 xs sp).
Proof. induction xs as [|x xs IH]; intros sp H; cbn [fold_left]; auto. apply IH, absorb1_wf, H. Qed.
Lemma fold_add xs : forall start (s : list F), (start + length xs <= rate)%nat ->
  fold_left absorb1 xs (Sponge s (Absorbing start)) = Sponge (add_at (cap + start) xs s) (Absorbing (start + length xs)).
Proof.
  induction xs as [|x xs IH]; intros start s Hs; cbn [fold_left length] in *; [rewrite add_at_nil, Nat.add_0_r; auto|].
  unfold absorb1 at 2. cbn [sp_mode sp_state]. destruct (Nat.ltb_spec start rate); [|lia]. rewrite IH by lia. rewrite add_at_cons, add_at_put.
  f_equal; [f_equal; lia|f_equal; lia].
Qed.
Lemma fold_full xs (s : list F) i : xs <> [] -> i = rate -> fold_left absorb1 xs (Sponge s (Absorbing i)) = fold_left absorb1 xs (Sponge (permute c s) (Absorbing 0)).
Proof.
  pose proof rate_pos as RP. intros Hx ->. destruct xs as [|x xs]; [congruence|]. cbn [fold_left]. f_equal. unfold absorb1. cbn [sp_mode sp_state]. rewrite Nat.ltb_irrefl.
  destruct (Nat.ltb_spec 0 rate); [auto|lia].
Qed.
Lemma absorb_internal_spec fuel : forall start xs (s : list F), (start <= rate)%nat -> (start < rate \/ length xs = 0)%nat -> (length xs <= fuel)%nat ->
  absorb_internal c fuel start xs s = fold_left absorb1 xs (Sponge s (Absorbing start)).
Proof.
  pose proof rate_pos as RP. induction fuel as [|f IH]; intros start xs s Hs H0 Hf; cbn [absorb_internal]; destruct (Nat.leb_spec (start + length xs) rate) as [H|H]; try (symmetry; apply fold_add; auto); [lia|].
  cbv zeta. rewrite IH; [|lia|lia|rewrite skipn_length; lia].
  transitivity (fold_left absorb1 (firstn (rate - start) xs ++ skipn (rate - start) xs) (Sponge s (Absorbing start))); [|rewrite firstn_skipn; auto].
  rewrite fold_left_app, (fold_add (firstn (rate - start) xs)) by (rewrite firstn_length; lia). rewrite firstn_length.
  symmetry. apply fold_full; [|lia]. intros E. apply (f_equal (@length F)) in E. rewrite skipn_length in E. cbn in E. lia.
Qed.
Theorem absorb_spec sp xs : sp_wf sp -> sp_absorb c sp xs = fold_left absorb1 xs sp.
Proof.
  pose proof rate_pos as RP. intros [Hl Hi]. unfold sp_absorb. destruct xs as [|x xs]; auto. destruct sp as [s m]. cbn [sp_mode sp_state] in *.
  destruct m as [i|i]; cbn [index] in Hi.
  - destruct (Nat.eqb_spec i rate) as [E|E].
    + rewrite absorb_internal_spec by (auto; lia). symmetry. apply fold_full; auto; discriminate.
    + apply absorb_internal_spec; auto; lia.
  - rewrite absorb_internal_spec by (auto; lia). cbn [fold_left]. f_equal. unfold absorb1. cbn [sp_mode sp_state]. destruct (Nat.ltb_spec 0 rate); [auto|lia].
Qed.
Theorem absorb_app sp xs ys : sp_wf sp -> sp_absorb c (sp_absorb c sp xs) ys = sp_absorb c sp (xs ++ ys).
Proof. intros H. rewrite (absorb_spec sp xs), (absorb_spec sp (xs ++ ys)), fold_left_app by auto. apply absorb_spec, fold_absorb_wf, H. Qed.
Theorem absorb_wf sp xs : sp_wf sp -> sp_wf (sp_absorb c sp xs).
Proof. intros H. rewrite absorb_spec by auto. apply fold_absorb_wf, H. Qed.

Lemma squeeze1_wf sp : sp_wf sp -> sp_wf (snd (squeeze1 sp)).
Proof.
  pose proof rate_pos as RP. intros [H1 H2]. unfold squeeze1. destruct (sp_mode sp) as [i|i] eqn:E; [|destruct (Nat.ltb_spec i rate)]; split; cbn [snd sp_state sp_mode index];
    auto; try apply permute_length; auto; lia.
Qed.
Lemma squeezes_wf n : forall sp, sp_wf sp -> sp_wf (snd (squeezes n sp)).
Proof.
  induction n as [|n IH]; intros sp H; cbn [squeezes]; auto. pose proof (squeeze1_wf sp H) as H1. destruct (squeeze1 sp) as [x sp1]. cbn [snd] in H1.
  specialize (IH sp1 H1). destruct (squeezes n sp1) as [xs sp2]. auto.
Qed.
Lemma squeezes_length n : forall sp, length (fst (squeezes n sp)) = n.
Proof. induction n as [|n IH]; intros sp; cbn [squeezes]; auto. destruct (squeeze1 sp) as [x sp1]. specialize (IH sp1). destruct (squeezes n sp1). cbn [fst length] in *. auto. Qed.
Lemma skipn_nth_cons {A} n (l : list A) d : (n < length l)%nat -> skipn n l = nth n l d :: skipn (S n) l.
Proof. revert l. induction n as [|n IH]; intros [|a l] H; cbn [length] in H; try lia; auto. cbn [nth]. rewrite skipn_cons, IH by lia. auto. Qed.
Lemma squeezes_block n : forall start (s : list F), length s = t -> (start + n <= rate)%nat ->
  squeezes n (Sponge s (Squeezing start)) = (firstn n (skipn (cap + start) s), Sponge s (Squeezing (start + n))).
Proof.
  induction n as [|n IH]; intros start s Hl Hs; cbn [squeezes]; [rewrite Nat.add_0_r; auto|].
  unfold squeeze1. cbn [sp_mode sp_state]. destruct (Nat.ltb_spec start rate); [|lia]. rewrite IH by (auto; lia). f_equal; [|f_equal; f_equal; lia].
  rewrite (skipn_nth_cons (cap + start) s 0) by (rewrite Hl; unfold width; lia). cbn [firstn]. f_equal. f_equal. f_equal. lia.
Qed.
Lemma squeezes_app a b sp : squeezes (a + b) sp = let '(xs, sp1) := squeezes a sp in let '(ys, sp2) := squeezes b sp1 in (xs ++ ys, sp2).
Proof.
  revert sp. induction a as [|a IH]; intros sp; cbn [squeezes Nat.add]; [destruct (squeezes b sp); auto|]. destruct (squeeze1 sp) as [x sp1]. rewrite IH.
  destruct (squeezes a sp1) as [xs sp2]. destruct (squeezes b sp2). auto.
Qed.
Lemma squeezes_full n (s : list F) i : (0 < n)%nat -> i = rate -> squeezes n (Sponge s (Squeezing i)) = squeezes n (Sponge (permute c s) (Squeezing 0)).
Proof.
  pose proof rate_pos as RP. intros Hn ->. destruct n as [|n]; [lia|]. cbn [squeezes]. unfold squeeze1. cbn [sp_mode sp_state]. rewrite Nat.ltb_irrefl. destruct (Nat.ltb_spec 0 rate); [|lia].
  rewrite Nat.add_0_r. reflexivity.
Qed.
Lemma squeeze_internal_spec fuel : forall start n (s : list F), length s = t -> (start < rate)%nat -> (n <= fuel)%nat -> (start = 0 \/ n <> rate)%nat ->
  squeeze_internal c fuel start n s = squeezes n (Sponge s (Squeezing start)).
Proof.
  pose proof rate_pos as RP. induction fuel as [|f IH]; intros start n s Hl Hs Hf HR; cbn [squeeze_internal]; destruct (Nat.leb_spec (start + n) rate) as [H|H]; try (symmetry; apply squeezes_block; auto); [lia|].
  cbv zeta. assert ((n =? rate)%nat = false) as -> by (apply Nat.eqb_neq; lia). rewrite IH; [|apply permute_length; auto|lia|lia|left; auto].
  transitivity (squeezes ((rate - start) + (n - (rate - start))) (Sponge s (Squeezing start))); [|f_equal; lia]. rewrite squeezes_app, (squeezes_block (rate - start)) by (auto; lia).
  rewrite (squeezes_full (n - (rate - start)) s) by lia. reflexivity.
Qed.
(** One squeeze of [n] elements; a request for exactly the rate in the middle of a block is excluded (see [squeeze_rate]). *)
Theorem squeeze_spec sp n : sp_wf sp -> (1 <= n)%nat -> n <> rate -> sp_squeeze c sp n = squeezes n sp.
Proof.
  pose proof rate_pos as RP. intros [Hl Hi] H1 HR. unfold sp_squeeze. destruct sp as [s m]. cbn [sp_mode sp_state] in *. destruct m as [i|i]; cbn [index] in Hi.
  - rewrite squeeze_internal_spec by (auto using permute_length; lia). destruct n as [|n]; [lia|]. cbn [squeezes]. unfold squeeze1. cbn [sp_mode sp_state].
    destruct (Nat.ltb_spec 0 rate); [|lia]. rewrite Nat.add_0_r. reflexivity.
  - destruct (Nat.eqb_spec i rate) as [E|E].
    + rewrite squeeze_internal_spec by (auto using permute_length; lia). symmetry. apply squeezes_full; auto; lia.
    + apply squeeze_internal_spec; auto; lia.
Qed.
(** The excluded request returns elements of the current block again, which have been given out before. *)
Lemma squeeze_rate (s : list F) i : length s = t -> (0 < i < rate)%nat ->
  fst (sp_squeeze c (Sponge s (Squeezing i)) rate) = firstn (rate - i) (skipn (cap + i) s) ++ firstn i (skipn cap s).
Proof.
  intros Hl Hi. unfold sp_squeeze. cbn [sp_mode sp_state]. destruct (Nat.eqb_spec i rate); [lia|].
  replace (squeeze_internal c rate i rate s) with (squeeze_internal c (S (S (rate - 2))) i rate s) by (f_equal; lia). cbn [squeeze_internal].
  destruct (Nat.leb_spec (i + rate) rate); [lia|]. cbv zeta. rewrite Nat.eqb_refl. replace (rate - (rate - i))%nat with i by lia.
  cbn [Nat.add]. destruct (Nat.leb_spec i rate); [|lia]. cbn [fst]. rewrite Nat.add_0_r. reflexivity.
Qed.
Lemma squeeze_wf sp n : sp_wf sp -> (1 <= n)%nat -> n <> rate -> sp_wf (snd (sp_squeeze c sp n)) /\ length (fst (sp_squeeze c sp n)) = n.
Proof. intros H H1 HR. rewrite squeeze_spec by auto. split; [apply squeezes_wf; auto|apply squeezes_length]. Qed.
Lemma new_wf : sp_wf (sp_new c).
Proof. split; [apply repeat_length|cbn; lia]. Qed.

(** * Absorbing loses nothing about the state *)
Context (HA : alpha_ok (p := p) c) (HM : mds_regular (p := p) c).
Lemma put_inj i x (s s' : list F) : length s = length s' -> put i x s = put i x s' -> s = s'.
Proof.
  intros Hl E. apply (nth_ext _ _ 0 0); auto. intros n Hn. apply (f_equal (fun l => nth n l 0)) in E. unfold put in E. rewrite !nth_seq_map in E by lia.
  destruct (n =? cap + i)%nat; auto. replace (nth n s 0) with (nth n s 0 + x - x) by ring. rewrite E. ring.
Qed.
Lemma absorb1_inj x sp sp' : sp_wf sp -> sp_wf sp' -> sp_mode sp = sp_mode sp' -> absorb1 sp x = absorb1 sp' x -> sp = sp'.
Proof.
  intros [Hl _] [Hl' _] Em E. destruct sp as [s m], sp' as [s' m']. cbn [sp_state sp_mode] in *. subst m'. f_equal. unfold absorb1 in E. cbn [sp_mode sp_state] in E.
  destruct m as [i|i]; [destruct (i <? rate)%nat|]; injection E as E; apply put_inj in E; try congruence; try (rewrite !permute_length; congruence);
    apply (permute_inj Hp c HC) in E; auto.
Qed.
Lemma absorb1_mode x sp sp' : sp_mode sp = sp_mode sp' -> sp_mode (absorb1 sp x) = sp_mode (absorb1 sp' x).
Proof. intros E. unfold absorb1. rewrite E. destruct (sp_mode sp') as [i|i]; [destruct (i <? rate)%nat|]; auto. Qed.
Theorem absorb_state_inj xs : forall sp sp', sp_wf sp -> sp_wf sp' -> sp_mode sp = sp_mode sp' -> sp_absorb c sp xs = sp_absorb c sp' xs -> sp = sp'.
Proof.
  intros sp sp' H H' Em. rewrite !absorb_spec by auto. revert sp sp' H H' Em. induction xs as [|x xs IH]; intros sp sp' H H' Em E; cbn [fold_left] in E; auto.
  apply IH in E; auto using absorb1_wf, absorb1_mode. apply absorb1_inj in E; auto.
Qed.
(** Within one block the input is determined too. *)
Lemma add_at_inj xs : forall xs' a (s : list F), length xs = length xs' -> (a + length xs <= length s)%nat -> add_at a xs s = add_at a xs' s -> xs = xs'.
Proof.
  induction xs as [|x xs IH]; intros [|x' xs'] a s Hl Hs E; try discriminate; auto. cbn [length] in *.
  assert (nth a (add_at a (x :: xs) s) 0 = nth a s 0 + x /\ nth a (add_at a (x' :: xs') s) 0 = nth a s 0 + x') as [E1 E2].
  { clear - Hs. assert (a < length s)%nat as Ha by lia. clear Hs. revert s Ha. induction a as [|a IHa]; intros [|y s] Ha; cbn [length] in Ha; try lia; cbn [add_at nth]; auto. apply IHa. lia. }
  assert (x = x') as <-. { rewrite E, E2 in E1. replace x with (nth a s 0 + x - nth a s 0) by ring. rewrite <- E1. ring. }
  f_equal. rewrite (add_at_cons a x xs), (add_at_cons a x xs') in E. apply (IH xs' (S a) (add_at a [x] s)); [lia|rewrite add_at_length; lia|exact E].
Qed.
Theorem absorb_input_inj (s : list F) i xs xs' : length s = t -> (i + length xs <= rate)%nat -> (i + length xs' <= rate)%nat ->
  sp_absorb c (Sponge s (Absorbing i)) xs = sp_absorb c (Sponge s (Absorbing i)) xs' -> xs = xs'.
Proof.
  intros Hl Hi Hi' E. rewrite !absorb_spec in E by (split; cbn [sp_state sp_mode index]; auto; lia). rewrite !fold_add in E by auto. injection E as E1 E2.
  apply (add_at_inj xs xs' (cap + i) s); auto; [lia|rewrite Hl; unfold width; lia].
Qed.

(** * Zeros at the end of a block *)
Lemma add_zeros a n (s : list F) : add_at a (repeat 0 n) s = s.
Proof.
  revert a n. induction s as [|y s IH]; intros [|a] n; cbn [add_at]; auto; [|f_equal; auto]. destruct n as [|n]; cbn [repeat]; auto. rewrite IH. f_equal. ring.
Qed.
(** Zeros that fit into the current block leave the state as it is, and the next squeeze forgets the index. *)
Theorem zeros_squeeze (s : list F) i m n : length s = t -> (i + m <= rate)%nat ->
  sp_squeeze c (sp_absorb c (Sponge s (Absorbing i)) (repeat 0 m)) n = sp_squeeze c (Sponge s (Absorbing i)) n.
Proof.
  intros Hl Hi. rewrite absorb_spec by (split; cbn [sp_state sp_mode index]; auto; lia). rewrite fold_add by (rewrite repeat_length; auto). rewrite add_zeros. reflexivity.
Qed.
End Sponge.
