From Coq Require Import Reals ZArith List Lra Lia.
From Verif.Base Require Import Outcome ListLemmas RSum.
From Verif.Model Require Import Locks.
Import ListNotations.
Open Scope R_scope.

(** total added to cell [c] by a list of additions *)
Definition adds_to (c : cell) (adds : list (cell * R)) : R :=
  rsum (map (fun a => if cell_eq_dec (fst a) c then snd a else 0) adds).
Definition sections_to (c : cell) (l : list section) : R :=
  rsum (map (fun s => adds_to c (cs_adds s)) l).
Definition remaining (c : cell) (w : worker) : R :=
  sections_to c (wk_todo w) +
  match wk_cur w with Some (_, adds) => adds_to c adds | None => 0 end.

Section Own.
Variable own : cell -> Z.

Definition well_locked (s : section) : Prop := forall c d, In (c, d) (cs_adds s) -> own c = cs_lock s.

Record LInv (m0 : cell -> R) (tot : cell -> R) (s : lstate) : Prop := {
  li_sum : forall c, l_mem s c + rsum (map (remaining c) (l_workers s)) = m0 c + tot c;
  li_lock : forall k w i adds, nth_error (l_workers s) k = Some w -> wk_cur w = Some (i, adds) ->
              l_lock s i = Some k;
  li_held : forall i k, l_lock s i = Some k ->
              exists w adds, nth_error (l_workers s) k = Some w /\ wk_cur w = Some (i, adds);
  li_wl : forall k w, nth_error (l_workers s) k = Some w ->
              Forall well_locked (wk_todo w) /\
              (forall i adds, wk_cur w = Some (i, adds) -> forall c d, In (c, d) adds -> own c = i);
  li_reg : forall k w v, nth_error (l_workers s) k = Some w -> wk_reg w = Some v ->
              exists i c d adds, wk_cur w = Some (i, (c, d) :: adds) /\ v = l_mem s c }.

Lemma linv_init m0 progs :
  (forall p, In p progs -> Forall well_locked p) ->
  LInv m0 (fun c => rsum (map (sections_to c) progs)) (linit m0 progs).
Proof.
  intros H. constructor; simpl.
  - intros c. f_equal. rewrite map_map. apply rsum_map_ext. intros p _. unfold remaining; simpl. lra.
  - intros k w i adds Hk Hc. apply nth_error_In, in_map_iff in Hk. destruct Hk as [p [<- _]]. discriminate.
  - discriminate.
  - intros k w Hk. apply nth_error_In, in_map_iff in Hk. destruct Hk as [p [<- Hp]]. simpl.
    split; [apply H; assumption|discriminate].
  - intros k w v Hk Hr. apply nth_error_In, in_map_iff in Hk. destruct Hk as [p [<- _]]. discriminate.
Qed.

Lemma adds_to_cons c a adds :
  adds_to c (a :: adds) = (if cell_eq_dec (fst a) c then snd a else 0) + adds_to c adds.
Proof. reflexivity. Qed.

Ltac upd_cases H k j :=
  rewrite nth_error_update in H; destruct (Nat.eqb_spec k j) as [->|];
  [destruct (Nat.ltb_spec j (length _)) in H; [injection H as <-|discriminate]|].

Lemma linv_step m0 tot s s' : LInv m0 tot s -> lstep s s' -> LInv m0 tot s'.
Proof.
  intros [H1 H2 H3 H4 H5] Hst.
  destruct Hst as [m l ws k i adds rest Hk Hl | m l ws k i c d adds rest Hk
                  | m l ws k i c d adds rest v Hk | m l ws k i rest Hk]; simpl in *;
  assert (Hlt : (k < length ws)%nat) by (eapply nth_error_lt; eauto).
  - constructor; simpl.
    + intros c. rewrite <- H1. rewrite (rsum_map_update _ _ _ _ _ Hk). unfold remaining; simpl.
      unfold sections_to; simpl. rewrite rsum_cons. lra.
    + intros j w i' adds' Hj Hc. rewrite nth_error_update in Hj.
      destruct (Nat.eqb_spec k j) as [->|Hne].
      * destruct (Nat.ltb_spec j (length ws)); [|lia]. injection Hj as <-. simpl in Hc. injection Hc as <- <-.
        unfold set_lock. destruct (Z.eq_dec i i); congruence.
      * unfold set_lock. destruct (Z.eq_dec i' i) as [->|].
        { rewrite (H2 _ _ _ _ Hj Hc) in Hl. discriminate. }
        { eapply H2; eauto. }
    + intros i' j Hj. unfold set_lock in Hj. destruct (Z.eq_dec i' i) as [->|].
      * injection Hj as <-. do 2 eexists. split; [apply nth_error_update_eq; assumption|reflexivity].
      * destruct (H3 _ _ Hj) as [w [adds' [Hw Hc]]]. exists w, adds'. split; [|assumption].
        rewrite nth_error_update_neq; [assumption|]. intros ->. rewrite Hk in Hw. injection Hw as <-. discriminate.
    + intros j w Hj. rewrite nth_error_update in Hj. destruct (Nat.eqb_spec k j) as [->|Hne].
      * destruct (Nat.ltb_spec j (length ws)); [|lia]. injection Hj as <-. simpl.
        destruct (H4 _ _ Hk) as [Hw _]. simpl in Hw. inversion Hw; subst. split; [assumption|].
        intros i' adds' E. injection E as <- <-. assumption.
      * eapply H4; eauto.
    + intros j w v Hj Hr. rewrite nth_error_update in Hj. destruct (Nat.eqb_spec k j) as [->|Hne].
      * destruct (Nat.ltb_spec j (length ws)); [|lia]. injection Hj as <-. discriminate.
      * eapply H5; eauto.
  - constructor; simpl.
    + intros c'. rewrite <- H1. rewrite (rsum_map_update _ _ _ _ _ Hk). unfold remaining; simpl. lra.
    + intros j w i' adds' Hj Hc. rewrite nth_error_update in Hj.
      destruct (Nat.eqb_spec k j) as [->|Hne].
      * destruct (Nat.ltb_spec j (length ws)); [|lia]. injection Hj as <-. simpl in Hc. injection Hc as <- <-.
        eapply H2; [exact Hk|reflexivity].
      * eapply H2; eauto.
    + intros i' j Hj. destruct (H3 _ _ Hj) as [w [adds' [Hw Hc]]].
      destruct (Nat.eq_dec k j) as [->|Hne].
      * rewrite Hk in Hw. injection Hw as <-. simpl in Hc. injection Hc as <- <-.
        do 2 eexists. split; [apply nth_error_update_eq; assumption|reflexivity].
      * exists w, adds'. rewrite nth_error_update_neq by assumption. auto.
    + intros j w Hj. rewrite nth_error_update in Hj. destruct (Nat.eqb_spec k j) as [->|Hne].
      * destruct (Nat.ltb_spec j (length ws)); [|lia]. injection Hj as <-. simpl.
        apply (H4 _ _ Hk).
      * eapply H4; eauto.
    + intros j w v Hj Hr. rewrite nth_error_update in Hj. destruct (Nat.eqb_spec k j) as [->|Hne].
      * destruct (Nat.ltb_spec j (length ws)); [|lia]. injection Hj as <-. simpl in *. injection Hr as <-.
        do 4 eexists. split; reflexivity.
      * eapply H5; eauto.
  - destruct (H5 _ _ _ Hk eq_refl) as [i0 [c0 [d0 [adds0 [E Hv]]]]]. simpl in E.
    injection E as <- <- <- <-. simpl in Hv.
    assert (Hown : own c = i). { destruct (H4 _ _ Hk) as [_ Hw]. eapply Hw; [reflexivity|left; reflexivity]. }
    assert (Hlk : l i = Some k) by (eapply H2; [exact Hk|reflexivity]).
    constructor; simpl.
    + intros c'. rewrite <- H1. rewrite (rsum_map_update _ _ _ _ _ Hk). unfold remaining; simpl.
      rewrite adds_to_cons. simpl. unfold set_mem.
      destruct (cell_eq_dec c' c) as [->|Hne].
      * destruct (cell_eq_dec c c); [|congruence]. lra.
      * destruct (cell_eq_dec c c') as [E|]; [congruence|]. lra.
    + intros j w i' adds' Hj Hc. rewrite nth_error_update in Hj.
      destruct (Nat.eqb_spec k j) as [->|Hne].
      * destruct (Nat.ltb_spec j (length ws)); [|lia]. injection Hj as <-. simpl in Hc. injection Hc as <- <-.
        assumption.
      * eapply H2; eauto.
    + intros i' j Hj. destruct (H3 _ _ Hj) as [w [adds' [Hw Hc]]].
      destruct (Nat.eq_dec k j) as [->|Hne].
      * rewrite Hk in Hw. injection Hw as <-. simpl in Hc. injection Hc as <- <-.
        do 2 eexists. split; [apply nth_error_update_eq; assumption|reflexivity].
      * exists w, adds'. rewrite nth_error_update_neq by assumption. auto.
    + intros j w Hj. rewrite nth_error_update in Hj. destruct (Nat.eqb_spec k j) as [->|Hne].
      * destruct (Nat.ltb_spec j (length ws)); [|lia]. injection Hj as <-. simpl.
        destruct (H4 _ _ Hk) as [Ha Hb]. split; [assumption|]. simpl in Hb. intros i' adds' E. injection E as <- <-.
        intros c' d' Hin. eapply Hb; [reflexivity|right; eassumption].
      * eapply H4; eauto.
    + intros j w v' Hj Hr. rewrite nth_error_update in Hj. destruct (Nat.eqb_spec k j) as [->|Hne].
      * destruct (Nat.ltb_spec j (length ws)); [|lia]. injection Hj as <-. discriminate.
      * destruct (H5 _ _ _ Hj Hr) as [i1 [c1 [d1 [adds1 [E1 E2]]]]].
        exists i1, c1, d1, adds1. split; [assumption|]. unfold set_mem.
        destruct (cell_eq_dec c1 c) as [->|]; [|assumption].
        exfalso. apply Hne. destruct (H4 _ _ Hj) as [_ Hb].
        assert (own c = i1) by (eapply Hb; [exact E1|left; reflexivity]).
        assert (l i1 = Some j) by (eapply H2; eauto). congruence.
  - constructor; simpl.
    + intros c. rewrite <- H1. rewrite (rsum_map_update _ _ _ _ _ Hk). unfold remaining; simpl.
      unfold adds_to; simpl. unfold rsum; simpl. lra.
    + intros j w i' adds' Hj Hc. rewrite nth_error_update in Hj.
      destruct (Nat.eqb_spec k j) as [->|Hne].
      * destruct (Nat.ltb_spec j (length ws)); [|lia]. injection Hj as <-. discriminate.
      * unfold set_lock. destruct (Z.eq_dec i' i) as [->|].
        { assert (l i = Some j) by (eapply H2; eauto).
          assert (l i = Some k) by (eapply H2; [exact Hk|reflexivity]). congruence. }
        { eapply H2; eauto. }
    + intros i' j Hj. unfold set_lock in Hj. destruct (Z.eq_dec i' i) as [->|Hni]; [discriminate|].
      destruct (H3 _ _ Hj) as [w [adds' [Hw Hc]]]. exists w, adds'. split; [|assumption].
      rewrite nth_error_update_neq; [assumption|]. intros ->. rewrite Hk in Hw. injection Hw as <-.
      simpl in Hc. congruence.
    + intros j w Hj. rewrite nth_error_update in Hj. destruct (Nat.eqb_spec k j) as [->|Hne].
      * destruct (Nat.ltb_spec j (length ws)); [|lia]. injection Hj as <-. simpl.
        destruct (H4 _ _ Hk) as [Ha Hb]. split; [assumption|discriminate].
      * eapply H4; eauto.
    + intros j w v Hj Hr. rewrite nth_error_update in Hj. destruct (Nat.eqb_spec k j) as [->|Hne].
      * destruct (Nat.ltb_spec j (length ws)); [|lia]. injection Hj as <-. discriminate.
      * eapply H5; eauto.
Qed.

Lemma linv_steps m0 tot s s' : LInv m0 tot s -> lsteps s s' -> LInv m0 tot s'.
Proof. intros H Hs. induction Hs as [|a b c H1 IH H2]; auto. eapply linv_step; [apply IH; exact H|exact H2]. Qed.

Lemma sections_to_nil c : sections_to c [] = 0.
Proof. reflexivity. Qed.

Theorem locks_final m0 progs s :
  (forall p, In p progs -> Forall well_locked p) ->
  lsteps (linit m0 progs) s ->
  (forall w, In w (l_workers s) -> worker_done w) ->
  forall c, l_mem s c = m0 c + rsum (map (sections_to c) progs).
Proof.
  intros Hwl Hs Hdone c.
  pose proof (linv_steps _ _ _ _ (linv_init m0 progs Hwl) Hs) as [H1 _ _ _ _].
  rewrite <- H1. rewrite (rsum_all_zero (map (remaining c) (l_workers s))); [lra|].
  intros x Hx. apply in_map_iff in Hx. destruct Hx as [w [<- Hw]].
  destruct (Hdone w Hw) as [Ht Hc]. unfold remaining. rewrite Ht, Hc, sections_to_nil. lra.
Qed.

Theorem locks_progress m0 progs s :
  (forall p, In p progs -> Forall well_locked p) ->
  lsteps (linit m0 progs) s ->
  (exists w, In w (l_workers s) /\ ~ worker_done w) ->
  exists s', lstep s s'.
Proof.
  intros Hwl Hs [w [Hw Hnd]].
  pose proof (linv_steps _ _ _ _ (linv_init m0 progs Hwl) Hs) as [H1 H2 H3 H4 H5].
  assert (Hhold : forall j w' i adds, nth_error (l_workers s) j = Some w' -> wk_cur w' = Some (i, adds) ->
             exists s', lstep s s').
  { intros j w' i adds Hj Hc. destruct s as [m l ws]; simpl in *. destruct w' as [td cu rg]; simpl in *. subst cu.
    destruct rg as [v|].
    - destruct (H5 _ _ _ Hj eq_refl) as [i0 [c0 [d0 [a0 [E _]]]]]. simpl in E. injection E as <- ->.
      eexists. eapply ls_store; eauto.
    - destruct adds as [|[c d] adds].
      + eexists. eapply ls_release; eauto.
      + eexists. eapply ls_load; eauto. }
  apply In_nth_error in Hw. destruct Hw as [k Hk].
  destruct (wk_cur w) as [[i adds]|] eqn:Ec; [eapply Hhold; eauto|].
  destruct (wk_todo w) as [|[i adds] rest] eqn:Et.
  - exfalso. apply Hnd. split; assumption.
  - destruct (l_lock s i) as [j|] eqn:El.
    + destruct (H3 _ _ El) as [w' [adds' [Hj Hc]]]. eapply Hhold; eauto.
    + destruct s as [m l ws]; simpl in *. destruct w as [td cu rg]; simpl in *. subst.
      destruct rg as [v|].
      * destruct (H5 _ _ _ Hk eq_refl) as [i0 [c0 [d0 [a0 [E _]]]]]. discriminate.
      * eexists. eapply ls_acquire; eauto.
Qed.

End Own.
