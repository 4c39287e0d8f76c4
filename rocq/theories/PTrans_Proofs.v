(** The Poseidon transcript of the four rings: no panics, injective encodings, the distribution of challenges. *)
From Coq Require Import String List Arith Lia ZArith Bool Ring Znumtheory.
From Verif Require Import Prelude Alg Poly Transcript Rings Challenge Challenge_Proofs PolyInst Primes FieldExt CycInst RealRings Sampling Zippel
  Poseidon Poseidon_Proofs Sponge_Proofs.
Import ListNotations.
Local Open Scope rs_scope.

(** * Counting *)
Definition count {A} (f : A -> bool) (l : list A) : nat := length (filter f l).
Definition zl_eqb (a b : list Z) : bool := if list_eq_dec Z.eq_dec a b then true else false.
Lemma zl_eqb_true a b : zl_eqb a b = true <-> a = b.
Proof. unfold zl_eqb. destruct (list_eq_dec Z.eq_dec a b); split; auto; discriminate. Qed.
Lemma count_ext {A} (f g : A -> bool) l : (forall x, In x l -> f x = g x) -> count f l = count g l.
Proof. intros H. unfold count. rewrite (filter_ext_in f g); auto. Qed.
Lemma count_le {A} (f g : A -> bool) l : (forall x, In x l -> f x = true -> g x = true) -> (count f l <= count g l)%nat.
Proof.
  unfold count. induction l as [|x l IH]; intros H; cbn [filter]; auto. specialize (IH ltac:(intros; apply H; auto; right; auto)). pose proof (H x ltac:(left; auto)) as Hx.
  destruct (f x), (g x); cbn [length]; try lia.
Qed.
Lemma count_app {A} (f : A -> bool) l m : count f (l ++ m) = (count f l + count f m)%nat.
Proof. unfold count. rewrite filter_app, app_length. auto. Qed.
Lemma count_map {A B} (f : B -> bool) (g : A -> B) l : count f (map g l) = count (fun x => f (g x)) l.
Proof. unfold count. induction l as [|x l IH]; cbn [map filter]; auto. destruct (f (g x)); cbn [length]; auto. Qed.
Lemma count_product {A} (P : A -> bool) (Q : list A -> bool) (f : list A -> bool) n S : (forall x xs, f (x :: xs) = P x && Q xs) ->
  count f (tuples (Datatypes.S n) S) = (count P S * count Q (tuples n S))%nat.
Proof.
  intros Hf. cbn [tuples]. generalize (tuples n S). induction l as [|xs l IH]; cbn [flat_map]; [unfold count; cbn; lia|].
  rewrite count_app, IH, count_map. transitivity ((if Q xs then count P S else 0) + count P S * count Q l)%nat.
  - f_equal. destruct (Q xs) eqn:E; [apply count_ext; intros; rewrite Hf, E; apply andb_true_r|].
    unfold count. replace (filter _ S) with (@nil A); auto. symmetry. apply filter_none. intros. rewrite Hf, E. apply andb_false_r.
  - assert (count Q (xs :: l) = (if Q xs then 1 else 0) + count Q l)%nat as -> by (unfold count; cbn [filter]; destruct (Q xs); reflexivity). destruct (Q xs); lia.
Qed.
Lemma le_bytes_length n x : length (le_bytes n x) = n.
Proof. unfold le_bytes. rewrite map_length, seq_length. auto. Qed.
Lemma le_bytes_bytes n x : Forall is_byte (le_bytes n x).
Proof. unfold le_bytes. apply Forall_map, Forall_forall. intros i _. unfold is_byte. apply Z.mod_pos_bound. lia. Qed.

(** * Any number of squeezed elements *)
Section Any.
Context {p : Z} (Hp : prime p) (c : poseidon_cfg) (HC : cfg_ok c).
Notation F := (fp p).
Notation t := (width c).
Notation rate := (pc_rate c).
Local Instance FLa : FieldLaws F := fp_laws p Hp.
Lemma squeeze_internal_any fuel : forall start n (s : list F), length s = t -> (start < rate)%nat -> (n <= fuel)%nat ->
  length (fst (squeeze_internal c fuel start n s)) = n /\ sp_wf c (snd (squeeze_internal c fuel start n s)).
Proof.
  pose proof (rate_pos c HC) as RP.
  induction fuel as [|f IH]; intros start n s Hl Hs Hf; cbn [squeeze_internal]; destruct (Nat.leb_spec (start + n) rate) as [H|H]; [| lia | |].
  1, 2: cbn [fst snd]; rewrite firstn_length, skipn_length, Hl; unfold width; split; [lia|split; cbn [sp_state sp_mode index]; [exact Hl|lia]].
  cbv zeta. set (s' := if (n =? rate)%nat then s else permute c s). assert (length s' = t) as Hs' by (unfold s'; destruct (n =? rate)%nat; auto; apply permute_length; auto).
  destruct (IH 0%nat (n - (rate - start))%nat s' Hs' ltac:(lia) ltac:(lia)) as [I1 I2]. destruct (squeeze_internal c f 0 (n - (rate - start)) s') as [out sp]. cbn [fst snd] in *.
  split; auto. rewrite app_length, I1, firstn_length, skipn_length, Hl. unfold width. lia.
Qed.
Lemma squeeze_any (sp : sponge p) n : sp_wf c sp -> length (fst (sp_squeeze c sp n)) = n /\ sp_wf c (snd (sp_squeeze c sp n)).
Proof.
  pose proof (rate_pos c HC) as RP. intros [Hl Hi]. unfold sp_squeeze. destruct (sp_mode sp) as [i|i]; cbn [index] in Hi;
    [|destruct (Nat.eqb_spec i rate)]; apply squeeze_internal_any; auto; try apply permute_length; auto; lia.
Qed.

(** * Bytes *)
Context (HU : (0 < usable (p := p))%nat).
Notation u := (usable (p := p)).
Definition all_of (xs : list F) : list Z := flat_map (fun x => le_bytes u (fpz x)) xs.
Lemma all_of_length xs : length (all_of xs) = (length xs * u)%nat.
Proof. unfold all_of. induction xs as [|x xs IH]; cbn [flat_map length]; auto. rewrite app_length, le_bytes_length, IH. lia. Qed.
Lemma all_of_bytes xs : Forall is_byte (all_of xs).
Proof. unfold all_of. induction xs as [|x xs IH]; cbn [flat_map]; auto. apply Forall_app. split; auto. apply le_bytes_bytes. Qed.
Lemma chunks n : (n <= (n + u - 1) / u * u)%nat.
Proof. pose proof (Nat.div_mod (n + u - 1) u ltac:(lia)) as E. pose proof (Nat.mod_upper_bound (n + u - 1) u ltac:(lia)). nia. Qed.
Lemma bytes_any (sp : sponge p) n : sp_wf c sp -> bytes n (fst (sp_bytes c sp n)) /\ sp_wf c (snd (sp_bytes c sp n)).
Proof.
  intros H. unfold sp_bytes. destruct (squeeze_any sp ((n + u - 1) / u) H) as [H1 H2]. destruct (sp_squeeze c sp ((n + u - 1) / u)) as [xs sp']. cbn [fst snd] in *. split; auto.
  change (flat_map _ xs) with (all_of xs). split.
  - rewrite firstn_length, all_of_length, H1. pose proof (chunks n). lia.
  - apply Forall_forall. intros b Hb. apply (proj1 (Forall_forall _ _) (all_of_bytes xs)). rewrite <- (firstn_skipn n (all_of xs)). apply in_or_app. auto.
Qed.
(** Well-formed sponges as the state of a transcript. *)
Definition wsponge : Type := { sp : sponge p | sp_wf c sp }.
Definition w_new : wsponge := exist _ (sp_new c) (new_wf c).
Definition w_absorb (ws : wsponge) (xs : list F) : wsponge := exist _ (sp_absorb c (proj1_sig ws) xs) (absorb_wf c HC _ xs (proj2_sig ws)).
Definition w_squeeze (ws : wsponge) (n : nat) : list F * wsponge :=
  (fst (sp_squeeze c (proj1_sig ws) n), exist _ (snd (sp_squeeze c (proj1_sig ws) n)) (proj2 (squeeze_any _ n (proj2_sig ws)))).
Definition w_bytes (n : nat) (ws : wsponge) : list Z * wsponge :=
  (fst (sp_bytes c (proj1_sig ws) n), exist _ (snd (sp_bytes c (proj1_sig ws) n)) (proj2 (bytes_any _ n (proj2_sig ws)))).

(** * How many field elements give the same bytes *)
Lemma le_bytes_mod n : forall x x' : Z, (0 <= x)%Z -> (0 <= x')%Z -> le_bytes n x = le_bytes n x' <-> (x mod 256 ^ Z.of_nat n = x' mod 256 ^ Z.of_nat n)%Z.
Proof.
  induction n as [|n IH]; intros x x' Hx Hx'.
  - change (256 ^ Z.of_nat 0)%Z with 1%Z. rewrite !Z.mod_1_r. split; auto.
  - assert (forall z, (0 <= z)%Z -> (z mod 256 ^ Z.of_nat (S n) = z mod 256 ^ Z.of_nat n + 256 ^ Z.of_nat n * ((z / 256 ^ Z.of_nat n) mod 256))%Z) as HZ.
    { intros z Hz. rewrite Nat2Z.inj_succ, Z.pow_succ_r by lia. rewrite (Z.mul_comm 256). apply Z.rem_mul_r; [apply Z.pow_nonzero; lia|lia]. }
    rewrite !HZ by auto. unfold le_bytes. rewrite seq_S, !map_app. cbn [map Nat.add]. split.
    + intros E. apply app_inj_tail in E. destruct E as [E1 E2]. apply IH in E1; auto. lia.
    + intros E. pose proof (Z.mod_pos_bound x (256 ^ Z.of_nat n) ltac:(apply Z.pow_pos_nonneg; lia)). pose proof (Z.mod_pos_bound x' (256 ^ Z.of_nat n) ltac:(apply Z.pow_pos_nonneg; lia)).
      destruct (Z.div_mod_unique (256 ^ Z.of_nat n) ((x / 256 ^ Z.of_nat n) mod 256) ((x' / 256 ^ Z.of_nat n) mod 256) (x mod 256 ^ Z.of_nat n) (x' mod 256 ^ Z.of_nat n)) as [E2 E1]; [lia|lia|lia|].
      f_equal; [|congruence]. apply IH; auto.
Qed.
(** Counting residues below [p]. *)
Lemma residues M v : (0 < M)%Z -> (0 <= v < M)%Z ->
  (p / M <= Z.of_nat (count (fun x : F => fpz x mod M =? v)%Z (fp_all (p := p))) <= p / M + 1)%Z.
Proof.
  intros HM Hv. pose proof (prime_ge_2 p Hp) as H2. unfold count. set (L := filter _ _).
  assert (NoDup L) as HN by (apply NoDup_filter, fp_all_NoDup; auto). assert (forall x, In x L <-> (fpz x mod M = v)%Z) as HL.
  { intros x. unfold L. rewrite filter_In, Z.eqb_eq. split; [tauto|]. intros; split; auto. apply in_fp_all; auto. }
  pose proof (Z.div_pos p M ltac:(lia) HM) as Hq. split.
  - assert (length (map (fun i => zp p (v + M * Z.of_nat i)) (seq 0 (Z.to_nat (p / M)))) <= length L)%nat as Hc; [|rewrite map_length, seq_length in Hc; lia].
    assert (forall i, (i < Z.to_nat (p / M))%nat -> 0 <= v + M * Z.of_nat i < p)%Z as Hb.
    { intros i Hi. pose proof (Z.mul_div_le p M HM). assert (Z.of_nat i <= p / M - 1)%Z by lia. nia. }
    apply NoDup_incl_length.
    + assert (forall i, In i (seq 0 (Z.to_nat (p / M))) -> (i < Z.to_nat (p / M))%nat) as Hi by (intros i Hi; apply in_seq in Hi; lia).
      revert Hi. generalize (seq_NoDup (Z.to_nat (p / M)) 0). generalize (seq 0 (Z.to_nat (p / M))). induction l as [|a l IH]; intros Nl Hi; cbn [map]; constructor.
      * intros Ha. apply in_map_iff in Ha. destruct Ha as (b & E & Hbl). apply (f_equal fpz) in E. cbn [zp fpz] in E.
        rewrite (Z.mod_small (v + M * Z.of_nat b)), (Z.mod_small (v + M * Z.of_nat a)) in E by (apply Hb, Hi; solve [left; auto|right; auto]).
        assert (a = b) as -> by nia. inversion Nl; auto.
      * inversion Nl; subst. apply IH; auto. intros; apply Hi; right; auto.
    + intros x Hx. apply in_map_iff in Hx. destruct Hx as (i & <- & Hi). apply in_seq in Hi. apply HL. cbn [zp fpz]. rewrite (Z.mod_small (v + M * Z.of_nat i)) by (apply Hb; lia).
      rewrite Z.mul_comm, Z.mod_add, Z.mod_small by lia. auto.
  - assert (length (map (fun x : F => Z.to_nat (fpz x / M)) L) <= length (seq 0 (Z.to_nat (p / M + 1))))%nat as Hc; [|rewrite map_length, seq_length in Hc; lia].
    assert (forall x : F, 0 <= fpz x < p)%Z as Hx by (intros; apply fpz_bound; lia).
    apply NoDup_incl_length.
    + assert (forall x, In x L -> (fpz x mod M = v)%Z) as Hi by (intros; apply HL; auto). clear HL. clearbody L.
      induction HN as [|a l Na Nl IH]; cbn [map]; constructor.
      * intros Ha. apply in_map_iff in Ha. destruct Ha as (b & E & Hbl). assert (a = b) as ->; [|auto]. apply fp_ext.
        pose proof (Z.div_pos (fpz a) M ltac:(apply Hx) HM). pose proof (Z.div_pos (fpz b) M ltac:(apply Hx) HM). assert (fpz b / M = fpz a / M)%Z as E' by lia.
        rewrite (Z.div_mod (fpz a) M), (Z.div_mod (fpz b) M), E', (Hi a), (Hi b) by (try lia; solve [left; auto|right; auto]). auto.
      * apply IH. intros; apply Hi; right; auto.
    + intros n Hn. apply in_map_iff in Hn. destruct Hn as (x & <- & _). apply in_seq. pose proof (Z.div_le_mono (fpz x) p M HM ltac:(specialize (Hx x); lia)).
      pose proof (Z.div_pos (fpz x) M ltac:(apply Hx) HM). lia.
Qed.
(** One element read for [n] bytes. *)
Lemma one_count n bs : (Z.of_nat (count (fun x : F => zl_eqb (le_bytes n (fpz x)) bs) (fp_all (p := p))) <= p / 256 ^ Z.of_nat n + 1)%Z.
Proof.
  pose proof (prime_ge_2 p Hp) as H2. assert (0 < 256 ^ Z.of_nat n)%Z as HM by (apply Z.pow_pos_nonneg; lia).
  destruct (filter (fun x : F => zl_eqb (le_bytes n (fpz x)) bs) (fp_all (p := p))) as [|x0 l] eqn:E.
  - unfold count. rewrite E. cbn [length]. pose proof (Z.div_pos p (256 ^ Z.of_nat n) ltac:(lia) HM). lia.
  - assert (In x0 (filter (fun x : F => zl_eqb (le_bytes n (fpz x)) bs) (fp_all (p := p)))) as H0 by (rewrite E; left; auto). apply filter_In in H0. destruct H0 as [_ H0]. apply zl_eqb_true in H0.
    etransitivity; [|apply (residues (256 ^ Z.of_nat n) (fpz x0 mod 256 ^ Z.of_nat n) HM (Z.mod_pos_bound _ _ HM))].
    apply Nat2Z.inj_le, count_le. intros x _ Hx. apply zl_eqb_true in Hx. apply Z.eqb_eq. apply le_bytes_mod; [apply fpz_bound; lia..|congruence].
Qed.
(** Every byte string is read from at least [p / 256^n] elements: no challenge is left out. *)
Lemma one_count_low n bs : bytes n bs -> (p / 256 ^ Z.of_nat n <= Z.of_nat (count (fun x : F => zl_eqb (le_bytes n (fpz x)) bs) (fp_all (p := p))))%Z.
Proof.
  intros [Hl Hb]. pose proof (prime_ge_2 p Hp) as H2. assert (0 < 256 ^ Z.of_nat n)%Z as HM by (apply Z.pow_pos_nonneg; lia).
  assert (exists v, (0 <= v < 256 ^ Z.of_nat n)%Z /\ le_bytes n v = bs) as (v & Hv & Ev).
  { revert n Hl HM. induction bs as [|b bs IH] using rev_ind; intros n Hl HM.
    - destruct n; [|discriminate]. exists 0%Z. split; [cbn; lia|reflexivity].
    - rewrite app_length in Hl. cbn [length] in Hl. destruct n as [|n]; [lia|]. apply Forall_app in Hb. destruct Hb as [Hb1 Hb2]. inversion Hb2 as [|? ? Hb3 _]; subst. unfold is_byte in Hb3.
      destruct (IH Hb1 n ltac:(lia) ltac:(apply Z.pow_pos_nonneg; lia)) as (v & Hv & Ev). set (M := (256 ^ Z.of_nat n)%Z) in *. assert (0 < M)%Z by (apply Z.pow_pos_nonneg; lia).
      exists (v + b * M)%Z. rewrite Nat2Z.inj_succ, Z.pow_succ_r by lia. fold M. split; [nia|]. unfold le_bytes. rewrite seq_S, map_app. cbn [map Nat.add]. f_equal.
      + rewrite <- Ev. change (le_bytes n (v + b * M) = le_bytes n v). apply le_bytes_mod; [nia|lia|]. fold M. apply Z.mod_add. lia.
      + f_equal. fold M. rewrite Z.div_add by lia. rewrite (Z.div_small v M) by lia. cbn [Z.add]. apply Z.mod_small. lia. }
  etransitivity; [apply (residues (256 ^ Z.of_nat n) v HM Hv)|]. apply Nat2Z.inj_le, count_le. intros x _ Hx. apply Z.eqb_eq in Hx. apply zl_eqb_true.
  rewrite <- Ev. apply le_bytes_mod; [apply fpz_bound; lia|lia|]. rewrite Hx. symmetry. apply Z.mod_small. lia.
Qed.
(** The number of ways to read [n] bytes from [m] elements. *)
Fixpoint ways (m n : nat) : Z := match m with O => 1 | S m' => (p / 256 ^ Z.of_nat (Nat.min n u) + 1) * ways m' (n - u) end%Z.
Lemma ways_pos m : forall n, (0 < ways m n)%Z.
Proof.
  pose proof (prime_ge_2 p Hp) as H2. induction m as [|m IH]; intros n; cbn [ways]; [lia|]. specialize (IH (n - u)%nat).
  pose proof (Z.div_pos p (256 ^ Z.of_nat (Nat.min n u)) ltac:(lia) ltac:(apply Z.pow_pos_nonneg; lia)). nia.
Qed.
Lemma firstn_le_bytes k n x : (k <= n)%nat -> firstn k (le_bytes n x) = le_bytes k x.
Proof. intros H. unfold le_bytes. rewrite firstn_map. f_equal. replace n with (k + (n - k))%nat by lia. rewrite seq_app. apply app_split. apply seq_length. Qed.
Lemma tuple_count m : forall n bs, (Z.of_nat (count (fun xs : list F => zl_eqb (firstn n (all_of xs)) bs) (tuples m (fp_all (p := p)))) <= ways m n)%Z.
Proof.
  induction m as [|m IH]; intros n bs; cbn [ways].
  - unfold count. cbn [tuples filter]. destruct (zl_eqb _ bs); cbn; lia.
  - etransitivity.
    { apply Nat2Z.inj_le. apply (count_le _ (fun xs => match xs with [] => false | x :: xs => zl_eqb (le_bytes (Nat.min n u) (fpz x)) (firstn u bs) && zl_eqb (firstn (n - u) (all_of xs)) (skipn u bs) end)).
      intros xs Hxs Hb. apply in_tuples in Hxs. destruct Hxs as [Hl _]. destruct xs as [|x xs]; [discriminate|]. apply zl_eqb_true in Hb. apply andb_true_iff. rewrite !zl_eqb_true.
      rewrite <- Hb. change (all_of (x :: xs)) with (le_bytes u (fpz x) ++ all_of xs). rewrite firstn_app, le_bytes_length. destruct (le_lt_dec n u) as [H|H].
      - rewrite firstn_le_bytes by auto. replace (n - u)%nat with 0%nat by lia. rewrite firstn_O, app_nil_r, Nat.min_l by auto.
        rewrite firstn_all2, skipn_all2 by (rewrite le_bytes_length; auto). auto.
      - rewrite (firstn_all2 (le_bytes u (fpz x))) by (rewrite le_bytes_length; lia). rewrite Nat.min_r by lia. destruct (app_split u (le_bytes u (fpz x)) (firstn (n - u) (all_of xs)) (le_bytes_length _ _)) as [-> ->]. auto. }
    rewrite (count_product (fun x : F => zl_eqb (le_bytes (Nat.min n u) (fpz x)) (firstn u bs)) (fun xs => zl_eqb (firstn (n - u) (all_of xs)) (skipn u bs))) by auto.
    rewrite Nat2Z.inj_mul. apply Z.mul_le_mono_nonneg; try lia; [apply one_count|apply IH].
Qed.
End Any.
