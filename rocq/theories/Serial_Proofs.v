(** Lawful codecs: what is written can be read back, nothing else can be read, and the sizes. *)
From Coq Require Import String List Arith Lia ZArith Bool.
From Verif Require Import Prelude Alg Arith Rings Linearization Decomposition Folding NIFS PolyInst CycInst RealRings PShipped Serial ProofSize.
Import ListNotations.
Local Open Scope Z_scope.

Definition is_byte (b : Z) : Prop := 0 <= b < 256.
(** [w] says which values can be written (lengths fit 64 bits). *)
Record lawful {A} (w : A -> Prop) (c : codec A) : Prop := {
  lw_back : forall a rest, w a -> dec c (enc c a ++ rest) = Some (a, rest);
  lw_bytes : forall a, w a -> Forall is_byte (enc c a);
  lw_only : forall l a rest, Forall is_byte l -> dec c l = Some (a, rest) -> w a /\ l = enc c a ++ rest }.

Lemma le_bytes_len n z : length (le_bytes n z) = n.
Proof. revert z. induction n as [|n IH]; intros z; cbn [le_bytes length]; auto. Qed.
Lemma le_bytes_byte n z : Forall is_byte (le_bytes n z).
Proof. revert z. induction n as [|n IH]; intros z; cbn [le_bytes]; constructor; auto. apply Z.mod_pos_bound. lia. Qed.
Lemma le_value_bytes n z : 0 <= z < 256 ^ Z.of_nat n -> le_value (le_bytes n z) = z.
Proof.
  revert z. induction n as [|n IH]; intros z H; cbn [le_bytes le_value]; [change (256 ^ Z.of_nat 0) with 1 in H; lia|].
  rewrite Nat2Z.inj_succ, Z.pow_succ_r in H by lia. rewrite IH; [pose proof (Z.div_mod z 256); lia|].
  split; [apply Z.div_pos; lia|apply Z.div_lt_upper_bound; lia].
Qed.
Lemma le_bytes_value l : Forall is_byte l -> le_bytes (length l) (le_value l) = l.
Proof.
  induction 1 as [|b l Hb Hl IH]; [reflexivity|]. cbn [length le_bytes le_value]. unfold is_byte in Hb.
  replace (b + 256 * le_value l) with (b + le_value l * 256) by ring. rewrite Z.mod_add, Z.div_add by lia. rewrite Z.mod_small, Z.div_small by lia. cbn [Z.add]. rewrite IH. reflexivity.
Qed.
Lemma le_value_bound l : Forall is_byte l -> 0 <= le_value l < 256 ^ Z.of_nat (length l).
Proof.
  induction 1 as [|b l Hb Hl IH]; [cbn; lia|]. cbn [length le_value]. rewrite Nat2Z.inj_succ, Z.pow_succ_r by lia. unfold is_byte in Hb. nia.
Qed.
Lemma take_app n b rest : length b = n -> take n (b ++ rest) = Some (b, rest).
Proof.
  intros <-. unfold take. rewrite app_length. destruct (Nat.leb_spec (length b) (length b + length rest)); [|lia].
  rewrite firstn_app, Nat.sub_diag, firstn_all, skipn_app, Nat.sub_diag, skipn_all. cbn [firstn skipn app]. rewrite app_nil_r. reflexivity.
Qed.
Lemma take_inv n l b r : take n l = Some (b, r) -> l = b ++ r /\ length b = n.
Proof.
  unfold take. destruct (Nat.leb_spec n (length l)); [|discriminate]. intros E. injection E as <- <-. split; [symmetry; apply firstn_skipn|]. rewrite firstn_length. lia.
Qed.

Lemma u64_lawful : lawful (fun z => 0 <= z < 2 ^ 64) c_u64.
Proof.
  split; cbn [enc dec c_u64].
  - intros z rest H. rewrite take_app by apply le_bytes_len. rewrite le_value_bytes; [reflexivity|]. change (256 ^ Z.of_nat 8) with (2 ^ 64). exact H.
  - intros z _. apply le_bytes_byte.
  - intros l z rest Hl H. destruct (take 8 l) as [[b r]|] eqn:E; [|discriminate]. injection H as <- <-. apply take_inv in E as [-> E]. apply Forall_app in Hl as [Hb _]. split.
    + pose proof (le_value_bound b Hb) as B. rewrite E in B. change (256 ^ Z.of_nat 8) with (2 ^ 64) in B. exact B.
    + f_equal. rewrite <- E. symmetry. apply le_bytes_value. exact Hb.
Qed.
Lemma fp_bytes_enough p : 0 < p -> p <= 256 ^ Z.of_nat (fp_bytes p).
Proof.
  intros H. pose proof (Z.log2_nonneg p) as G. unfold fp_bytes. rewrite Z2Nat.id by (apply Z.div_pos; lia).
  destruct (Z.log2_spec p H) as [_ H2]. etransitivity; [apply Z.lt_le_incl, H2|]. change 256 with (2 ^ 8). rewrite <- Z.pow_mul_r by (try lia; apply Z.div_pos; lia).
  apply Z.pow_le_mono_r; [lia|]. pose proof (Z.div_mod (Z.log2 p + 8) 8). pose proof (Z.mod_pos_bound (Z.log2 p + 8) 8). lia.
Qed.
Lemma fp_lawful p : 0 < p -> lawful (fun _ => True) (c_fp p).
Proof.
  intros Hp. split; cbn [enc dec c_fp].
  - intros x rest _. rewrite take_app by apply le_bytes_len. pose proof (fpz_bound x Hp) as B. pose proof (fp_bytes_enough p Hp). rewrite le_value_bytes by lia.
    destruct (Z.ltb_spec (fpz x) p); [|lia]. do 2 f_equal. apply fp_ext. cbn [fpz zp]. apply fpz_mod.
  - intros x _. apply le_bytes_byte.
  - intros l x rest Hl H. split; [exact I|]. destruct (take (fp_bytes p) l) as [[b r]|] eqn:E; [|discriminate]. destruct (Z.ltb_spec (le_value b) p) as [L|L]; [|discriminate].
    injection H as <- <-. apply take_inv in E as [-> E]. apply Forall_app in Hl as [Hb _]. f_equal. cbn [fpz zp]. pose proof (le_value_bound b Hb).
    rewrite Z.mod_small by lia. rewrite <- E. symmetry. apply le_bytes_value. exact Hb.
Qed.
Lemma arr_back {A} w (c : codec A) : lawful w c -> forall l rest, Forall w l -> dec_arr c (length l) (concat (map (enc c) l) ++ rest) = Some (l, rest).
Proof.
  intros L l rest H. induction H as [|a l Ha Hl IH]; [reflexivity|]. cbn [length dec_arr map concat]. rewrite <- app_assoc, (lw_back w c L) by exact Ha. rewrite IH. reflexivity.
Qed.
Lemma arr_bytes {A} w (c : codec A) : lawful w c -> forall l, Forall w l -> Forall is_byte (concat (map (enc c) l)).
Proof. intros L l H. induction H as [|a l Ha Hl IH]; [constructor|]. cbn [map concat]. apply Forall_app. split; [apply (lw_bytes w c L); exact Ha|exact IH]. Qed.
Lemma arr_only {A} w (c : codec A) : lawful w c -> forall n l a rest, Forall is_byte l -> dec_arr c n l = Some (a, rest) ->
  length a = n /\ Forall w a /\ l = concat (map (enc c) a) ++ rest.
Proof.
  intros L. induction n as [|n IH]; intros l a rest Hl H; cbn [dec_arr] in H; [injection H as <- <-; auto|].
  destruct (dec c l) as [[x l1]|] eqn:E; [|discriminate]. destruct (dec_arr c n l1) as [[t l2]|] eqn:E2; [|discriminate]. injection H as <- <-.
  apply (lw_only w c L) in E as [W ->]; [|exact Hl]. apply Forall_app in Hl as [_ Hl]. apply IH in E2 as (N & F & ->); [|exact Hl].
  cbn [length map concat]. rewrite <- app_assoc. auto.
Qed.
Lemma arr_lawful {A} n w (c : codec A) : lawful w c -> lawful (fun l => length l = n /\ Forall w l) (c_arr n c).
Proof.
  intros L. split; cbn [enc dec c_arr].
  - intros l rest [<- H]. apply (arr_back w); auto.
  - intros l [_ H]. apply (arr_bytes w); auto.
  - intros l a rest Hl H. destruct (arr_only w c L n l a rest Hl H) as (A1 & A2 & A3). auto.
Qed.
Definition fits {A} (w : A -> Prop) (l : list A) : Prop := Z.of_nat (length l) < 2 ^ 64 /\ Forall w l.
Lemma vec_lawful {A} w (c : codec A) : lawful w c -> lawful (fits w) (c_vec c).
Proof.
  intros L. pose proof u64_lawful as U. split; unfold c_vec; cbn [enc dec].
  - intros l rest [H1 H2]. rewrite <- app_assoc. change (le_bytes 8 (Z.of_nat (length l))) with (enc c_u64 (Z.of_nat (length l))). change (match take 8 ?q with Some (b, r) => Some (le_value b, r) | None => None end) with (dec c_u64 q).
    rewrite (lw_back _ _ U) by lia. rewrite Nat2Z.id. apply (arr_back w); auto.
  - intros l [H1 H2]. apply Forall_app. split; [apply (lw_bytes _ _ U); lia|apply (arr_bytes w); auto].
  - intros l a rest Hl H. destruct (dec c_u64 l) as [[n r]|] eqn:E; [|discriminate]. apply (lw_only _ _ U) in E as [W ->]; [|exact Hl].
    apply Forall_app in Hl as [_ Hl]. apply (arr_only w c L) in H as (N & F & ->); [|exact Hl].
    assert (Z.of_nat (length a) = n) as <- by lia. split; [split; [lia|exact F]|]. rewrite <- app_assoc. reflexivity.
Qed.
Lemma pair_lawful {A B} wa wb (a : codec A) (b : codec B) : lawful wa a -> lawful wb b -> lawful (fun x => wa (fst x) /\ wb (snd x)) (c_pair a b).
Proof.
  intros LA LB. split; cbn [enc dec c_pair].
  - intros [x z] rest [H1 H2]. cbn [fst snd] in *. rewrite <- app_assoc, (lw_back _ _ LA), (lw_back _ _ LB) by assumption. reflexivity.
  - intros [x z] [H1 H2]. apply Forall_app. split; [apply (lw_bytes _ _ LA)|apply (lw_bytes _ _ LB)]; auto.
  - intros l [x z] rest Hl H. destruct (dec a l) as [[x' l1]|] eqn:E; [|discriminate]. destruct (dec b l1) as [[z' l2]|] eqn:E2; [|discriminate]. injection H as <- <- <-.
    apply (lw_only _ _ LA) in E as [W ->]; [|exact Hl]. apply Forall_app in Hl as [_ Hl]. apply (lw_only _ _ LB) in E2 as [W2 ->]; [|exact Hl]. cbn [fst snd]. rewrite <- app_assoc. auto.
Qed.
Lemma map_lawful {A B} (f : A -> B) g (wa : A -> Prop) (wb : B -> Prop) c : lawful wa c -> (forall b, wb b -> wa (g b) /\ f (g b) = b) ->
  (forall a, wa a -> wb (f a) /\ g (f a) = a) -> lawful wb (c_map f g c).
Proof.
  intros L H1 H2. split; cbn [enc dec c_map].
  - intros b rest Hb. destruct (H1 b Hb) as [W E]. rewrite (lw_back _ _ L) by exact W. rewrite E. reflexivity.
  - intros b Hb. apply (lw_bytes _ _ L). apply H1. exact Hb.
  - intros l b rest Hl H. destruct (dec c l) as [[a r]|] eqn:E; [|discriminate]. injection H as <- <-. apply (lw_only _ _ L) in E as [W ->]; [|exact Hl].
    destruct (H2 a W) as [W2 ->]. auto.
Qed.
(** Lengths that fit 64 bits *)
Section Wf.
Context {R : Type} (w : R -> Prop).
Definition lin_fits (q : lin_proof R) : Prop := fits (fits w) (lp_sc q) /\ fits w (lp_v q) /\ fits w (lp_u q).
Definition dec_fits (q : dec_proof R) : Prop := fits (fits w) (dp_us q) /\ fits (fits w) (dp_vs q) /\ fits (fits w) (dp_xs q) /\ fits (fits w) (dp_ys q).
Definition fold_fits (q : fold_proof R) : Prop := fits (fits w) (fp_sc q) /\ fits (fits w) (fp_theta q) /\ fits (fits w) (fp_eta q).
Definition lf_fits (q : lf_proof R) : Prop := lin_fits (lf_lin q) /\ dec_fits (lf_dec_l q) /\ dec_fits (lf_dec_r q) /\ fold_fits (lf_fold q).
Context (c : codec R) (L : lawful w c).
Lemma lin_lawful : lawful lin_fits (c_lin c).
Proof.
  pose proof (vec_lawful _ _ L) as V. pose proof (vec_lawful _ _ V) as VV.
  apply (map_lawful _ _ _ _ _ (pair_lawful _ _ _ _ VV (pair_lawful _ _ _ _ V V))).
  - intros [a b d] H. split; [exact H|reflexivity].
  - intros [a [b d]] H. split; [exact H|reflexivity].
Qed.
Lemma dec_lawful : lawful dec_fits (c_dec c).
Proof.
  pose proof (vec_lawful _ _ L) as V. pose proof (vec_lawful _ _ V) as VV.
  apply (map_lawful _ _ _ _ _ (pair_lawful _ _ _ _ VV (pair_lawful _ _ _ _ VV (pair_lawful _ _ _ _ VV VV)))).
  - intros [a b d e] H. split; [exact H|reflexivity].
  - intros [a [b [d e]]] H. split; [exact H|reflexivity].
Qed.
Lemma fold_lawful : lawful fold_fits (c_fold c).
Proof.
  pose proof (vec_lawful _ _ L) as V. pose proof (vec_lawful _ _ V) as VV.
  apply (map_lawful _ _ _ _ _ (pair_lawful _ _ _ _ VV (pair_lawful _ _ _ _ VV VV))).
  - intros [a b d] H. split; [exact H|reflexivity].
  - intros [a [b d]] H. split; [exact H|reflexivity].
Qed.
Lemma lf_lawful : lawful lf_fits (c_lf c).
Proof.
  apply (map_lawful _ _ _ _ _ (pair_lawful _ _ _ _ lin_lawful (pair_lawful _ _ _ _ dec_lawful (pair_lawful _ _ _ _ dec_lawful fold_lawful)))).
  - intros [a b d e] H. split; [exact H|reflexivity].
  - intros [a [b [d e]]] H. split; [exact H|reflexivity].
Qed.
End Wf.
(** The ring elements of the four rings *)
Section Ring.
Context {p : Z} {K : Type} (y : cyc p K) (Hp : 0 < p) (XL : ext_laws y) (OC : of_co y).
Lemma Forall_triv {A} (l : list A) : Forall (fun _ => True) l. Proof. induction l; constructor; auto. Qed.
Lemma ext_lawful : lawful (fun _ => True) (c_ext y).
Proof.
  apply (map_lawful _ _ _ _ _ (arr_lawful (cy_e y) _ _ (fp_lawful p Hp))).
  - intros b _. split; [split; [apply (xl_len y XL)|apply Forall_triv]|apply (xl_of y XL)].
  - intros a [H _]. split; [exact I|apply OC; exact H].
Qed.
Lemma ring_lawful : lawful (fun _ => True) (c_ring y).
Proof.
  apply (map_lawful _ _ _ _ _ (arr_lawful (cy_k y) _ _ ext_lawful)).
  - intros b _. split; [split; [apply pol_len|apply Forall_triv]|]. apply (@pol_ext K (@fld_ring K (cy_KO y))). intros i Hi. rewrite co_mk by exact Hi. reflexivity.
  - intros a [H _]. split; [exact I|]. unfold mk. cbn [pl_l]. rewrite <- H. apply map_seq_nth.
Qed.
(** Sizes *)
Lemma concat_len {A B} (f : A -> list B) n l : (forall a, In a l -> length (f a) = n) -> length (concat (map f l)) = (n * length l)%nat.
Proof.
  induction l as [|a l IH]; intros H; cbn [map concat length]; [lia|]. rewrite app_length, (H a), IH by (intros; try apply H; cbn [In]; auto). lia.
Qed.
Lemma ring_bytes x : length (enc (c_ring y) x) = (cy_k y * cy_e y * fp_bytes p)%nat.
Proof.
  cbn [enc c_ring c_map c_arr c_ext]. rewrite (concat_len _ (cy_e y * fp_bytes p)%nat), pol_len; [lia|].
  intros a _. rewrite (concat_len _ (fp_bytes p)); [rewrite (xl_len y XL); lia|]. intros b _. apply le_bytes_len.
Qed.
End Ring.
Section Size.
Context {R : Type} (c : codec R) (n : nat) (Hn : forall x, length (enc c x) = n).
Lemma vec_size l : length (enc (c_vec c) l) = (8 + n * length l)%nat.
Proof. cbn [enc c_vec c_u64]. rewrite app_length, le_bytes_len, (concat_len _ n) by auto. reflexivity. Qed.
Lemma vecs_size l : length (enc (c_vec (c_vec c)) l) = (8 + 8 * length l + n * length (concat l))%nat.
Proof.
  unfold c_vec at 1. cbn [enc c_u64]. rewrite app_length, le_bytes_len. rewrite <- Nat.add_assoc. f_equal.
  induction l as [|a l IH]; cbn [map concat length]; [lia|]. rewrite !app_length, IH, vec_size. lia.
Qed.
End Size.
