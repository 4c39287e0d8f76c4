(** Two histories of the sponge of the same shape end in the same state only if they are equal or collide on the capacity part. *)
From Coq Require Import String List Arith Lia ZArith Bool Ring Znumtheory.
From Verif Require Import Prelude Alg Transcript Rings PolyInst Primes Poseidon Poseidon_Proofs Sponge_Proofs.
Import ListNotations.
Local Open Scope rs_scope.

Section Bind.
Context {p : Z} (Hp : prime p) (c : poseidon_cfg) (HC : cfg_ok c) (HA : alpha_ok (p := p) c) (HM : mds_regular (p := p) c).
Notation F := (fp p).
Notation t := (width c).
Notation rate := (pc_rate c).
Notation cap := (pc_cap c).
Local Instance FLb : FieldLaws F := fp_laws p Hp.
Add Ring Rring82 : (@rlaws_th F _ _).

(** Single steps: an element absorbed or squeezed. *)
Inductive event := EA (x : F) | ES.
Definition step (sp : sponge p) (ev : event) : sponge p := match ev with EA x => absorb1 c sp x | ES => snd (squeeze1 c sp) end.
Definition run (evs : list event) (sp : sponge p) : sponge p := fold_left step evs sp.
Definition same_kind (a b : event) : Prop := match a, b with EA _, EA _ => True | ES, ES => True | _, _ => False end.
(** After equally many steps the two histories are in different states that the permutation maps to the same capacity part. *)
Definition collide (evs evs' : list event) (sp sp' : sponge p) : Prop :=
  exists k, (k <= length evs)%nat /\ let A := sp_state (run (firstn k evs) sp) in let B := sp_state (run (firstn k evs') sp') in
    A <> B /\ firstn cap (permute c A) = firstn cap (permute c B).
Definition agree (m : mode) (s s' : list F) : Prop :=
  match m with
  | Absorbing i => if (i <? rate)%nat then firstn (cap + i) s = firstn (cap + i) s' else s = s'
  | Squeezing _ => s = s'
  end.
Lemma step_wf sp ev : sp_wf c sp -> sp_wf c (step sp ev).
Proof. intros H. destruct ev; [apply absorb1_wf|apply squeeze1_wf]; auto. Qed.
Lemma run_wf evs : forall sp, sp_wf c sp -> sp_wf c (run evs sp).
Proof. induction evs as [|e evs IH]; intros sp H; cbn [run fold_left]; auto. apply IH, step_wf, H. Qed.
Lemma step_mode sp sp' e e' : sp_mode sp = sp_mode sp' -> same_kind e e' -> sp_mode (step sp e) = sp_mode (step sp' e').
Proof.
  intros E K. destruct e, e'; cbn [same_kind] in K; try contradiction; cbn [step]; [unfold absorb1|unfold squeeze1]; rewrite E;
    destruct (sp_mode sp') as [i|i]; try destruct (i <? rate)%nat; auto.
Qed.
Lemma firstn_nth (s s' : list F) n : length s = length s' -> (firstn n s = firstn n s' <-> (forall j, (j < n)%nat -> (j < length s)%nat -> nth j s 0 = nth j s' 0)).
Proof.
  intros Hl. split.
  - intros E j Hj Hs. rewrite <- (firstn_skipn n s), <- (firstn_skipn n s') at 1. rewrite !app_nth1 by (rewrite firstn_length; lia). rewrite E. auto.
  - intros H. apply (nth_ext _ _ 0 0); [rewrite !firstn_length; lia|]. intros j Hj. rewrite firstn_length in Hj.
    assert (forall l : list F, (j < length (firstn n l))%nat -> nth j (firstn n l) 0 = nth j l 0) as Hn.
    { intros l Hj'. transitivity (nth j (firstn n l ++ skipn n l) 0); [rewrite app_nth1 by auto; auto|rewrite firstn_skipn; auto]. }
    rewrite !Hn by (rewrite firstn_length; lia). apply H; lia.
Qed.
Lemma put_nth i x (s : list F) j : (j < length s)%nat -> nth j (put c i x s) 0 = if (j =? cap + i)%nat then nth j s 0 + x else nth j s 0.
Proof. intros H. unfold put. rewrite nth_seq_map by auto. auto. Qed.
(** Agreement up to and including the place of the element just absorbed. *)
Lemma agree_put i x x' (s s' : list F) : length s = t -> length s' = t -> (i < rate)%nat -> agree (Absorbing (S i)) (put c i x s) (put c i x' s') ->
  firstn (cap + i) s = firstn (cap + i) s' /\ (s = s' -> x = x').
Proof.
  intros Hl Hl' Hi H.
  assert (forall j, (j < cap + S i)%nat -> nth j (put c i x s) 0 = nth j (put c i x' s') 0) as E.
  { cbn [agree] in H. destruct (S i <? rate)%nat; [|intros; rewrite H; auto]. intros j Hj. apply firstn_nth with (j := j) in H; auto; rewrite ?put_length; try congruence. unfold width in *. lia. }
  split.
  - apply firstn_nth; [congruence|]. intros j Hj Hs. specialize (E j ltac:(lia)). rewrite !put_nth in E by (unfold width in *; lia).
    assert ((j =? cap + i)%nat = false) as N by (apply Nat.eqb_neq; lia). rewrite N in E. auto.
  - intros <-. specialize (E (cap + i)%nat ltac:(lia)). rewrite !put_nth, Nat.eqb_refl in E by (unfold width in *; lia).
    replace x with (nth (cap + i) s 0 + x - nth (cap + i) s 0) by ring. rewrite E. ring.
Qed.
Lemma collide_cons e e' evs evs' sp sp' : collide evs evs' (step sp e) (step sp' e') -> collide (e :: evs) (e' :: evs') sp sp'.
Proof. intros (k & Hk & H). exists (S k). split; [cbn [length]; lia|]. exact H. Qed.
Lemma state_dec (s s' : list F) : {s = s'} + {s <> s'}.
Proof. apply list_eq_dec. intros x z. destruct (x =? z) eqn:E; [left; apply req_true; auto|right; apply req_false; auto]. Qed.
Lemma bind_gen evs : forall evs' sp sp', Forall2 same_kind evs evs' -> sp_wf c sp -> sp_wf c sp' -> sp_mode sp = sp_mode sp' -> run evs sp = run evs' sp' ->
  collide evs evs' sp sp' \/ (agree (sp_mode sp) (sp_state sp) (sp_state sp') /\ (sp = sp' -> evs = evs')).
Proof.
  pose proof (rate_pos c HC) as RP.
  induction evs as [|e evs IH]; intros evs' sp sp' K W W' Em E; inversion K as [|? e' ? evs0 Ke Kr]; subst.
  - right. cbn [run fold_left] in E. split; [|auto]. subst sp'. destruct (sp_mode sp) as [i|i]; cbn [agree]; auto. destruct (i <? rate)%nat; auto.
  - pose proof (step_mode sp sp' e e' Em Ke) as Em1.
    destruct (IH evs0 (step sp e) (step sp' e') Kr (step_wf _ _ W) (step_wf _ _ W') Em1 E) as [HCl|[Ha He]]; [left; apply collide_cons; auto|].
    assert (forall s s' : list F, sp_state sp = s -> sp_state sp' = s' -> firstn cap (permute c s) = firstn cap (permute c s') ->
      collide (e :: evs) (e' :: evs0) sp sp' \/ s = s') as Hcol.
    { intros s s' E1 E2 E3. destruct (state_dec s s') as [|N]; [right; auto|left]. exists 0%nat. split; [lia|]. cbn [firstn run fold_left]. cbv zeta. subst; split; auto. }
    pose proof (permute_length (p := p) c HC) as PL. destruct W as [Wl Wi], W' as [Wl' Wi'].
    destruct sp as [s m], sp' as [s' m']. cbn [sp_state sp_mode] in *. subst m'.
    destruct e as [x|], e' as [x'|]; cbn [same_kind] in Ke; try contradiction; cbn [step] in *.
    + destruct m as [i|i]; unfold absorb1 in Ha, He; cbn [sp_mode sp_state] in Ha, He.
      * destruct (Nat.ltb_spec i rate) as [Hi|Hi]; cbn [sp_mode sp_state] in Ha.
        -- right. destruct (agree_put i x x' s s' Wl Wl' Hi Ha) as [A1 A2]. cbn [agree]. rewrite (proj2 (Nat.ltb_lt _ _) Hi). split; auto.
           intros Es. injection Es as <-. specialize (A2 eq_refl). subst x'. f_equal. apply He. auto.
        -- destruct (agree_put 0 x x' (permute c s) (permute c s') (PL s Wl) (PL s' Wl') RP Ha) as [A1 A2]. rewrite Nat.add_0_r in A1.
           destruct (Hcol s s' eq_refl eq_refl A1) as [|<-]; [left; auto|right]. cbn [agree]. rewrite (proj2 (Nat.ltb_ge _ _) Hi). split; auto.
           intros _. specialize (A2 eq_refl). subst x'. f_equal. apply He. auto.
      * destruct (agree_put 0 x x' (permute c s) (permute c s') (PL s Wl) (PL s' Wl') RP Ha) as [A1 A2]. rewrite Nat.add_0_r in A1.
        destruct (Hcol s s' eq_refl eq_refl A1) as [|<-]; [left; auto|right]. cbn [agree]. split; auto.
        intros _. specialize (A2 eq_refl). subst x'. f_equal. apply He. auto.
    + right. assert (s = s') as <-.
      { unfold squeeze1 in Ha. cbn [sp_mode sp_state] in Ha. destruct m as [i|i]; [|destruct (i <? rate)%nat]; cbn [snd sp_mode sp_state agree] in Ha; auto;
          apply (permute_inj Hp c HC) in Ha; auto. }
      split; [destruct m as [i|i]; cbn [agree]; auto; destruct (i <? rate)%nat; auto|]. intros _. f_equal. apply He. auto.
Qed.
Theorem bind_events evs evs' sp : sp_wf c sp -> Forall2 same_kind evs evs' -> run evs sp = run evs' sp -> evs = evs' \/ collide evs evs' sp sp.
Proof. intros W K E. destruct (bind_gen evs evs' sp sp K W W eq_refl E) as [|[_ H]]; auto. Qed.
End Bind.
