From Coq Require Import ZArith List Lia Permutation Arith.
From Verif.Base Require Import Outcome ListLemmas.
From Verif.Model Require Import Tiles.
Import ListNotations.

Definition has_tile (sl : list slot) : Prop :=
  forall i s, nth_error sl i = Some s -> exists t, s_tile s = Some t.
Definition joinable_from (k : nat) (sl : list slot) : Prop :=
  forall i s, (k <= i)%nat -> nth_error sl i = Some s -> s_joinable s = true.
Definition not_joinable_below (k : nat) (sl : list slot) : Prop :=
  forall i s, (i < k)%nat -> nth_error sl i = Some s -> s_joinable s = false.

Definition pc_inv (n : nat) (p : pool) : Prop :=
  match p_pc p with
  | PStart i => (i <= n)%nat /\
      (forall j s, (j < i)%nat -> nth_error (p_slots p) j = Some s ->
          s_joinable s = true /\ exists t, s_tile s = Some t) /\
      (forall j s, (i <= j)%nat -> nth_error (p_slots p) j = Some s -> s_joinable s = false) /\
      (n - i <= length (p_pending p))%nat
  | PWhile => has_tile (p_slots p) /\ (p_pending p <> [] -> joinable_from 0 (p_slots p))
  | PScan i => (i <= n)%nat /\ has_tile (p_slots p) /\ joinable_from i (p_slots p) /\
      (p_pending p <> [] -> joinable_from 0 (p_slots p))
  | PFinal i => (i <= n)%nat /\ p_pending p = [] /\ has_tile (p_slots p) /\
      not_joinable_below i (p_slots p)
  | PDone => p_pending p = [] /\ not_joinable_below n (p_slots p)
  end.

Record Inv (n : nat) (tiles : list tile) (p : pool) : Prop := {
  inv_len : length (p_slots p) = n;
  inv_perm : Permutation (p_started p ++ p_pending p) tiles;
  inv_fin : incl (p_finished p) (p_started p);
  inv_act : forall i t, nth_error (p_slots p) i = Some (Slot (Some t) true) -> In t (p_started p);
  inv_run : forall t, In t (p_started p) -> In t (p_finished p) \/
              exists i, nth_error (p_slots p) i = Some (Slot (Some t) true);
  inv_pc : pc_inv n p }.

Definition good (n : nat) (tiles : list tile) (s : pstate) : Prop :=
  match s with Run p => Inv n tiles p | Crash => False end.

Section S.
Variable n : nat.
Variable tiles : list tile.
Hypothesis Hnodup : NoDup tiles.

Lemma inv_init : (n <= length tiles)%nat -> good n tiles (pool_init n tiles).
Proof.
  intros Hlen. constructor; simpl.
  - apply repeat_length.
  - symmetry. apply Permutation_rev.
  - intros t [].
  - intros i t H. destruct (Nat.lt_ge_cases i n) as [L|L].
    + rewrite nth_error_repeat in H by assumption. discriminate.
    + rewrite (proj2 (nth_error_None _ _)) in H by (rewrite repeat_length; lia). discriminate.
  - intros t [].
  - unfold pc_inv; simpl. repeat split; try lia.
    + intros j s _ H. destruct (Nat.lt_ge_cases j n) as [L|L].
      * rewrite nth_error_repeat in H by assumption. injection H as <-. reflexivity.
      * rewrite (proj2 (nth_error_None _ _)) in H by (rewrite repeat_length; lia). discriminate.
    + rewrite rev_length. lia.
Qed.

(** assigning slot i, non-joinable, with its previous tile finished or absent *)
Lemma assign_inv p i next :
  Inv n tiles (Pool (p_pc p) (p_pending p) (p_slots p) (p_started p) (p_finished p)) ->
  forall s t rest,
  nth_error (p_slots p) i = Some s -> s_joinable s = false -> p_pending p = t :: rest ->
  pc_inv n (Pool next rest (update (p_slots p) i (Slot (Some t) true)) (t :: p_started p) (p_finished p)) ->
  good n tiles (assign p i next).
Proof.
  intros [H1 H2 H3 H4 H5 H6] s t rest Hs Hj Hp Hpc. simpl in *.
  unfold assign. rewrite Hp, Hs, Hj. simpl.
  assert (Hil : (i < length (p_slots p))%nat) by (eapply nth_error_lt; eauto).
  constructor; simpl.
  - rewrite length_update. assumption.
  - rewrite Hp in H2. rewrite <- H2. apply Permutation_middle.
  - intros x Hx. right. apply H3. assumption.
  - intros j t' Hj'. rewrite nth_error_update in Hj'.
    destruct (Nat.eqb_spec i j).
    + destruct (Nat.ltb_spec i (length (p_slots p))); [|lia]. injection Hj' as <-. left; reflexivity.
    + right. eapply H4; eauto.
  - intros t' [<-|Ht'].
    + right. exists i. apply nth_error_update_eq. assumption.
    + destruct (H5 t' Ht') as [Hf|[j Hj']]; [left; assumption|].
      right. exists j. rewrite nth_error_update_neq; [assumption|].
      intros ->. rewrite Hs in Hj'. injection Hj' as ->. simpl in Hj. discriminate.
  - assumption.
Qed.

Lemma started_nodup p : Inv n tiles p -> NoDup (p_started p ++ p_pending p).
Proof. intros H. eapply Permutation_NoDup; [|exact Hnodup]. symmetry. apply inv_perm with (1 := H). Qed.

Lemma step_good s s' : good n tiles s -> step s s' -> good n tiles s'.
Proof.
  intros Hg Hst. destruct Hst as
    [p i t Hs Hnf | p i Hpc Hi | p Hpc | p Hpc | p i s t Hpc Hs Ht Hnf | p i s Hpc Hs Ht
     | p i s t Hpc Hs Ht Hf | p Hpc | p i t Hpc Hs Hf | p i s Hpc Hs Hj | p Hpc];
    simpl in Hg; pose proof Hg as Hinv; destruct Hg as [H1 H2 H3 H4 H5 H6]; unfold pc_inv in H6;
    try rewrite Hpc in H6.
  - (* finish *) constructor; simpl; auto.
    + intros x [<-|Hx]; [eapply H4; eauto|apply H3; assumption].
    + intros t' Ht'. destruct (H5 t' Ht') as [Hf|He]; [left; right; assumption|right; assumption].
  - (* start *)
    destruct H6 as [Hle [Ha [Hb Hc]]].
    destruct (p_pending p) as [|t rest] eqn:Ep; [simpl in Hc; lia|].
    destruct (nth_error (p_slots p) i) as [s|] eqn:Es; [|apply nth_error_None in Es; lia].
    eapply assign_inv with (s := s) (t := t) (rest := rest); eauto.
    + destruct p; simpl in *; subst; assumption.
    + unfold pc_inv; simpl. repeat split; try lia.
      * rewrite nth_error_update in H0. destruct (Nat.eqb_spec i j).
        { destruct (Nat.ltb_spec i (length (p_slots p))); [|lia]. injection H0 as <-. reflexivity. }
        { eapply Ha; [|eassumption]. lia. }
      * rewrite nth_error_update in H0. destruct (Nat.eqb_spec i j).
        { destruct (Nat.ltb_spec i (length (p_slots p))); [|lia]. injection H0 as <-. simpl. eauto. }
        { eapply Ha; [|eassumption]. lia. }
      * intros j s' Hj Hs'. rewrite nth_error_update_neq in Hs' by lia. eapply Hb; [|eassumption]. lia.
      * simpl in Hc. lia.
  - (* start end *)
    destruct H6 as [Hle [Ha [Hb Hc]]]. constructor; simpl; auto. unfold pc_inv; simpl. split.
    + intros i s Hs. eapply Ha; [|exact Hs]. eapply nth_error_lt; eauto.
    + intros _ i s _ Hs. eapply Ha; [|exact Hs]. eapply nth_error_lt; eauto.
  - (* while *)
    destruct H6 as [Ha Hb]. constructor; simpl; auto. unfold pc_inv; simpl.
    destruct (p_pending p) as [|t rest] eqn:Ep.
    + repeat split; auto; try lia. intros i s Hi; lia.
    + repeat split; auto; try lia. apply Hb. discriminate.
  - (* scan busy *)
    destruct H6 as [Hle [Ha [Hb Hc]]]. constructor; simpl; auto. unfold pc_inv; simpl.
    assert (i < length (p_slots p))%nat by (eapply nth_error_lt; eauto).
    repeat split; auto; try lia. intros j s' Hj Hs'. eapply Hb; [|exact Hs']. lia.
  - (* scan null *) destruct H6 as [_ [Ha _]]. destruct (Ha _ _ Hs) as [t Ht']. congruence.
  - (* scan done *)
    destruct H6 as [Hle [Ha [Hb Hc]]].
    assert (Hil : (i < length (p_slots p))%nat) by (eapply nth_error_lt; eauto).
    rewrite (Hb i s (le_n _) Hs). set (p' := Pool _ _ _ _ _).
    assert (Hsj : s = Slot (Some t) true).
    { pose proof (Hb i s (le_n _) Hs) as Hj. destruct s as [st sj]; simpl in Ht, Hj; subst; reflexivity. }
    assert (Hslots : forall j s', nth_error (joined (p_slots p) i s) j = Some s' ->
              (j = i /\ s' = Slot (Some t) false) \/ (j <> i /\ nth_error (p_slots p) j = Some s')).
    { intros j s' H. unfold joined in H. rewrite nth_error_update in H.
      destruct (Nat.eqb_spec i j).
      - destruct (Nat.ltb_spec i (length (p_slots p))); [|lia]. injection H as <-. left. subst s; auto.
      - right; split; auto. }
    assert (Hrun' : forall t', In t' (p_started p) -> In t' (p_finished p) \/
              exists j, nth_error (joined (p_slots p) i s) j = Some (Slot (Some t') true)).
    { intros t' Ht'. destruct (H5 t' Ht') as [Hf'|[j Hj]]; [left; assumption|].
      destruct (Nat.eq_dec j i) as [->|Hne].
      - rewrite Hs in Hj. injection Hj as Hj. rewrite Hsj in Hj. injection Hj as <-. left; assumption.
      - right. exists j. unfold joined. rewrite nth_error_update_neq by lia. assumption. }
    assert (Hht : has_tile (joined (p_slots p) i s)).
    { intros j s' Hj. destruct (Hslots j s' Hj) as [[_ ->]|[_ Hj']]; [simpl; eauto|eapply Ha; eauto]. }
    assert (Hbase : forall pcx, pc_inv n (Pool pcx (p_pending p) (joined (p_slots p) i s) (p_started p) (p_finished p)) ->
       Inv n tiles (Pool pcx (p_pending p) (joined (p_slots p) i s) (p_started p) (p_finished p))).
    { intros pcx Hpcx. constructor; simpl; auto.
      - unfold joined. rewrite length_update. assumption.
      - intros j t' Hj. destruct (Hslots _ _ Hj) as [[_ E]|[_ E]]; [discriminate|eapply H4; eauto]. }
    assert (Hafter : joinable_from (S i) (joined (p_slots p) i s)).
    { intros j s' Hj Hs'. destruct (Hslots _ _ Hs') as [[-> _]|[_ E]]; [lia|]. eapply Hb; [|exact E]. lia. }
    destruct (p_pending p) as [|t2 rest] eqn:Ep.
    + simpl. unfold p'. apply Hbase. unfold pc_inv; simpl. repeat split; auto; try lia.
      congruence.
    + destruct (nth_error (p_slots p) i) eqn:Esi; [|discriminate]. injection Hs as ->.
      assert (Eji : nth_error (joined (p_slots p) i s) i = Some (Slot (s_tile s) false))
        by (unfold joined; apply nth_error_update_eq; assumption).
      (* direct construction *)
      unfold assign, p'. simpl p_pending. simpl p_slots. rewrite Eji. simpl.
      constructor; simpl.
      * rewrite length_update. unfold joined. rewrite length_update. assumption.
      * rewrite <- H2. apply Permutation_middle.
      * intros x Hx. right. apply H3. assumption.
      * intros j t' Hj. rewrite nth_error_update in Hj. destruct (Nat.eqb_spec i j).
        { destruct (i <? _)%nat; [|discriminate]. injection Hj as <-. left; reflexivity. }
        { right. destruct (Hslots _ _ Hj) as [[E _]|[_ E]]; [congruence|]. eapply H4; eauto. }
      * intros t' [<-|Ht'].
        { right. exists i. apply nth_error_update_eq. unfold joined. rewrite length_update. assumption. }
        { destruct (Hrun' _ Ht') as [Hx|[j Hj]]; [left; assumption|]. right. exists j.
          rewrite nth_error_update_neq; [assumption|]. intros ->. rewrite Eji in Hj. discriminate. }
      * unfold pc_inv; simpl. repeat split; try lia.
        { intros j s' Hj. rewrite nth_error_update in Hj. destruct (Nat.eqb_spec i j).
          - destruct (i <? _)%nat; [|discriminate]. injection Hj as <-. simpl; eauto.
          - eapply Hht; eauto. }
        { intros j s' Hj Hs'. rewrite nth_error_update_neq in Hs' by lia. eapply Hafter; eauto. }
        { intros _ j s' _ Hs'. rewrite nth_error_update in Hs'. destruct (Nat.eqb_spec i j).
          - destruct (i <? _)%nat; [|discriminate]. injection Hs' as <-. reflexivity.
          - destruct (Hslots _ _ Hs') as [[E _]|[_ E]]; [congruence|].
            eapply (Hc ltac:(discriminate) j); [lia|exact E]. }
  - (* scan end *)
    destruct H6 as [Hle [Ha [Hb Hc]]]. constructor; simpl; auto. unfold pc_inv; simpl. auto.
  - (* final join *)
    destruct H6 as [Hle [Ha [Hb Hc]]].
    assert (Hil : (i < length (p_slots p))%nat) by (eapply nth_error_lt; eauto).
    constructor; simpl; auto.
    + unfold joined. rewrite length_update. assumption.
    + intros j t' Hj. unfold joined in Hj. rewrite nth_error_update in Hj. destruct (Nat.eqb_spec i j).
      * destruct (i <? _)%nat; discriminate.
      * eapply H4; eauto.
    + intros t' Ht'. destruct (H5 t' Ht') as [Hx|[j Hj]]; [left; assumption|].
      destruct (Nat.eq_dec j i) as [->|Hne].
      * rewrite Hs in Hj. injection Hj as <-. left; assumption.
      * right. exists j. unfold joined. rewrite nth_error_update_neq by lia. assumption.
    + unfold pc_inv; simpl. repeat split; auto; try lia.
      * intros j s' Hj. unfold joined in Hj. rewrite nth_error_update in Hj. destruct (Nat.eqb_spec i j).
        { destruct (i <? _)%nat; [|discriminate]. injection Hj as <-. simpl; eauto. }
        { eapply Hb; eauto. }
      * intros j s' Hj Hs'. unfold joined in Hs'. rewrite nth_error_update in Hs'. destruct (Nat.eqb_spec i j).
        { destruct (i <? _)%nat; [|discriminate]. injection Hs' as <-. reflexivity. }
        { eapply Hc; [|exact Hs']. lia. }
  - (* final skip *)
    destruct H6 as [Hle [Ha [Hb Hc]]].
    assert (Hil : (i < length (p_slots p))%nat) by (eapply nth_error_lt; eauto).
    constructor; simpl; auto. unfold pc_inv; simpl. repeat split; auto; try lia.
    intros j s' Hj' Hs'. destruct (Nat.eq_dec j i) as [->|Hne]; [congruence|]. eapply Hc; [|exact Hs']. lia.
  - (* final end *)
    destruct H6 as [Hle [Ha [Hb Hc]]]. constructor; simpl; auto. unfold pc_inv; simpl.
    split; auto. rewrite <- H1. assumption.
Qed.

Lemma steps_good s s' : good n tiles s -> steps s s' -> good n tiles s'.
Proof. intros Hg Hs. induction Hs as [|s1 s2 s3 H IH Hst]; auto. eapply step_good; [apply IH; exact Hg|exact Hst]. Qed.

Lemma done_complete p : Inv n tiles p -> p_pc p = PDone ->
  Permutation (p_started p) tiles /\ (forall t, In t tiles -> In t (p_finished p)) /\
  (forall s, In s (p_slots p) -> s_joinable s = false).
Proof.
  intros [H1 H2 H3 H4 H5 H6] Hpc. unfold pc_inv in H6. rewrite Hpc in H6. destruct H6 as [Hp Hj].
  rewrite Hp, app_nil_r in H2. split; [assumption|].
  assert (Hall : forall s, In s (p_slots p) -> s_joinable s = false).
  { intros s Hs. apply In_nth_error in Hs. destruct Hs as [i Hi]. eapply Hj; [|exact Hi].
    rewrite <- H1. eapply nth_error_lt; eauto. }
  split; [|assumption].
  intros t Ht. apply (Permutation_in t (Permutation_sym H2)) in Ht.
  destruct (H5 t Ht) as [Hf|[i Hi]]; [assumption|].
  apply nth_error_In in Hi. apply Hall in Hi. discriminate.
Qed.

(** progress towards PDone *)
Definition unfinished (p : pool) : nat := length (p_started p) - length (p_finished p).

Definition rank (p : pool) : nat :=
  match p_pc p, p_pending p with
  | PDone, _ => 0
  | PFinal i, _ => 1 + (n - i)
  | PWhile, [] => n + 2
  | PScan i, [] => n + 3 + (n - i)
  | PStart i, [] => 2 * n + 4
  | PStart i, _ :: _ => 4
  | PScan i, _ :: _ => if (i =? n)%nat then 3 else 1
  | PWhile, _ :: _ => 2
  end.

Hypothesis Htile_dec : forall a b : tile, {a = b} + {a <> b}.
Hypothesis Hn : (0 < n)%nat.

Lemma all_finished_or_running p : 
  (exists i t, nth_error (p_slots p) i = Some (Slot (Some t) true) /\ ~ In t (p_finished p)) \/
  (forall i t, nth_error (p_slots p) i = Some (Slot (Some t) true) -> In t (p_finished p)).
Proof.
  assert (G : forall sl, (exists i t, nth_error sl i = Some (Slot (Some t) true) /\ ~ In t (p_finished p)) \/
     (forall i t, nth_error sl i = Some (Slot (Some t) true) -> In t (p_finished p))).
  { induction sl as [|[[t|] [|]] sl IH].
    - right. intros [|i] t; discriminate.
    - destruct (in_dec Htile_dec t (p_finished p)) as [Hin|Hin].
      + destruct IH as [[i [t' H]]|H].
        * left. exists (S i), t'. assumption.
        * right. intros [|i] t' E; simpl in E; [injection E as <-; assumption|eapply H; eauto].
      + left. exists 0%nat, t. split; [reflexivity|assumption].
    - destruct IH as [[i [t' H]]|H].
      + left. exists (S i), t'. assumption.
      + right. intros [|i] t' E; simpl in E; [discriminate|eapply H; eauto].
    - destruct IH as [[i [t' H]]|H].
      + left. exists (S i), t'. assumption.
      + right. intros [|i] t' E; simpl in E; [discriminate|eapply H; eauto].
    - destruct IH as [[i [t' H]]|H].
      + left. exists (S i), t'. assumption.
      + right. intros [|i] t' E; simpl in E; [discriminate|eapply H; eauto]. }
  apply G.
Qed.

(** from any good state with pc <> PDone there is a step that decreases the measure *)
Definition smaller (p p' : pool) : Prop :=
  (length (p_pending p') < length (p_pending p))%nat \/
  (length (p_pending p') = length (p_pending p) /\
   NoDup (p_finished p') /\
   (rank p' + unfinished p' < rank p + unfinished p)%nat).

Lemma finished_le p : Inv n tiles p -> NoDup (p_finished p) ->
  (length (p_finished p) <= length (p_started p))%nat.
Proof. intros H Hn'. apply NoDup_incl_length; [assumption|apply inv_fin with (1 := H)]. Qed.

Lemma progress p : Inv n tiles p -> NoDup (p_finished p) -> p_pc p <> PDone ->
  exists p', step (Run p) (Run p') /\ NoDup (p_finished p') /\ smaller p p'.
Proof.
  intros Hinv Hnf Hpc.
  destruct (all_finished_or_running p) as [[i [t [Hi Hnt]]]|Hall].
  - eexists. split; [eapply st_finish; eauto|]. simpl.
    assert (Hnd : NoDup (t :: p_finished p)) by (constructor; assumption).
    split; [assumption|]. right. simpl. split; [reflexivity|]. split; [assumption|].
    assert (length (t :: p_finished p) <= length (p_started p))%nat.
    { apply NoDup_incl_length; [assumption|]. intros x [<-|Hx].
      - eapply inv_act; eauto.
      - eapply inv_fin; eauto. }
    unfold rank, unfinished. simpl in *. lia.
  - pose proof Hinv as Hinv'. destruct Hinv as [H1 H2 H3 H4 H5 H6]. unfold pc_inv in H6.
    destruct (p_pc p) as [i| |i|i|] eqn:Epc; [| | | |congruence].
    + destruct H6 as [Hle [Ha [Hb Hc]]]. destruct (Nat.eq_dec i n) as [->|Hne].
      * eexists. split; [apply st_start_end; rewrite H1; assumption|]. simpl. split; [assumption|].
        right. simpl. split; [reflexivity|]. split; [assumption|]. unfold rank, unfinished; simpl. rewrite Epc.
        destruct (p_pending p); lia.
      * destruct (p_pending p) as [|t rest] eqn:Ep; [simpl in Hc; lia|].
        destruct (nth_error (p_slots p) i) as [s|] eqn:Es; [|apply nth_error_None in Es; lia].
        pose proof (st_start p i Epc ltac:(lia)) as Hst.
        unfold assign in Hst. rewrite Ep, Es, (Hb i s (le_n _) Es) in Hst.
        eexists. split; [exact Hst|]. simpl. split; [assumption|]. left. simpl. rewrite Ep. simpl. lia.
    + destruct H6 as [Ha Hb]. eexists. split; [apply st_while; assumption|]. simpl. split; [assumption|].
      right. simpl. split; [reflexivity|]. split; [assumption|].
      unfold rank, unfinished; simpl. rewrite Epc. destruct (p_pending p); [lia|].
      destruct (Nat.eqb_spec 0 n); [lia|]. lia.
    + destruct H6 as [Hle [Ha [Hb Hc]]]. destruct (Nat.eq_dec i n) as [->|Hne].
      * eexists. split; [apply st_scan_end; rewrite H1; assumption|]. simpl. split; [assumption|].
        right. simpl. split; [reflexivity|]. split; [assumption|].
        unfold rank, unfinished; simpl. rewrite Epc. destruct (p_pending p); [lia|].
        rewrite Nat.eqb_refl. lia.
      * destruct (nth_error (p_slots p) i) as [s|] eqn:Es; [|apply nth_error_None in Es; lia].
        destruct (Ha _ _ Es) as [t Ht]. pose proof (Hb _ _ (le_n _) Es) as Hj.
        assert (Hsj : s = Slot (Some t) true) by (destruct s; simpl in *; subst; reflexivity).
        pose proof (st_scan_done p i s t Epc Es Ht (Hall i t ltac:(congruence))) as Hst.
        rewrite Hj in Hst. cbv zeta in Hst.
        destruct (p_pending p) as [|t2 rest] eqn:Ep.
        { eexists. split; [exact Hst|]. simpl. split; [assumption|]. right. simpl. rewrite Ep.
          split; [reflexivity|]. split; [assumption|]. unfold rank, unfinished; simpl. rewrite Epc, Ep. lia. }
        { unfold assign in Hst. simpl p_pending in Hst. simpl p_slots in Hst.
          assert (Eji : nth_error (joined (p_slots p) i s) i = Some (Slot (s_tile s) false)).
          { unfold joined; apply nth_error_update_eq. lia. }
          rewrite Eji in Hst. simpl in Hst.
          eexists. split; [exact Hst|]. simpl. split; [assumption|]. left. simpl. rewrite Ep. simpl. lia. }
    + destruct H6 as [Hle [Ha [Hb Hc]]]. destruct (Nat.eq_dec i n) as [->|Hne].
      * eexists. split; [apply st_final_end; rewrite H1; assumption|]. simpl. split; [assumption|].
        right. simpl. split; [reflexivity|]. split; [assumption|].
        unfold rank, unfinished; simpl. rewrite Epc. lia.
      * destruct (nth_error (p_slots p) i) as [s|] eqn:Es; [|apply nth_error_None in Es; lia].
        destruct (Hb _ _ Es) as [t Ht]. destruct s as [st [|]]; simpl in Ht; subst st.
        { eexists. split; [eapply st_final_join; eauto|]. simpl. split; [assumption|]. right. simpl.
          split; [reflexivity|]. split; [assumption|]. unfold rank, unfinished; simpl. rewrite Epc. lia. }
        { eexists. split; [eapply st_final_skip; eauto|]. simpl. split; [assumption|]. right. simpl.
          split; [reflexivity|]. split; [assumption|]. unfold rank, unfinished; simpl. rewrite Epc. lia. }
Qed.

Lemma steps_trans a b c : steps a b -> steps b c -> steps a c.
Proof. intros H1 H2. induction H2 as [|s1 s2 s3 H IH Hst]; auto. econstructor; [apply IH; exact H1|exact Hst]. Qed.

Lemma can_finish_aux : forall P M p, Inv n tiles p -> NoDup (p_finished p) ->
  (length (p_pending p) <= P)%nat -> (rank p + unfinished p <= M)%nat ->
  exists p', steps (Run p) (Run p') /\ p_pc p' = PDone.
Proof.
  assert (Hd : forall q : pc, {q = PDone} + {q <> PDone}) by (intros []; (left; reflexivity) || (right; discriminate)).
  induction P as [P IHP] using lt_wf_ind. induction M as [M IHM] using lt_wf_ind.
  intros p Hinv Hnf HP HM.
  destruct (Hd (p_pc p)) as [E|E]; [exists p; split; [constructor|assumption]|].
  destruct (progress p Hinv Hnf E) as [p' [Hst [Hnf' Hsm]]].
  pose proof (step_good _ _ (Hinv : good n tiles (Run p)) Hst) as Hinv'. simpl in Hinv'.
  assert (G : exists p2, steps (Run p') (Run p2) /\ p_pc p2 = PDone).
  { destruct Hsm as [Hlt|[Heq [_ Hlt]]].
    - eapply (IHP (length (p_pending p'))) with (M := (rank p' + unfinished p')%nat); eauto; lia.
    - eapply (IHM (rank p' + unfinished p')%nat); eauto; lia. }
  destruct G as [p2 [Hs2 E2]]. exists p2. split; [|assumption].
  eapply steps_trans; [|exact Hs2]. econstructor; [constructor|exact Hst].
Qed.

Lemma assign_finished p i next : NoDup (p_finished p) ->
  match assign p i next with Run q => NoDup (p_finished q) | Crash => True end.
Proof.
  intros H. unfold assign. destruct (p_pending p); simpl; auto.
  destruct (nth_error (p_slots p) i) as [s|]; simpl; auto. destruct (s_joinable s); simpl; auto.
Qed.

Lemma finished_nodup s s' : steps s s' ->
  (match s with Run p => NoDup (p_finished p) | Crash => True end) ->
  (match s' with Run p => NoDup (p_finished p) | Crash => True end).
Proof.
  induction 1 as [|s1 s2 s3 Hs IH Hst]; auto. intros H0. specialize (IH H0). clear H0 Hs.
  destruct Hst; simpl in *; auto.
  - constructor; auto.
  - apply assign_finished; assumption.
  - destruct (s_joinable s); [|exact I]. destruct (p_pending p); [assumption|].
    apply assign_finished; assumption.
Qed.

End S.

Lemma tile_eq_dec (a b : tile) : {a = b} + {a <> b}.
Proof. decide equality; apply Z.eq_dec. Qed.

Theorem pool_safe n tiles s : NoDup tiles -> (n <= length tiles)%nat ->
  steps (pool_init n tiles) s ->
  s <> Crash /\
  (forall p, s = Run p -> p_pc p = PDone ->
     Permutation (p_started p) tiles /\ (forall t, In t tiles -> In t (p_finished p)) /\
     (forall sl, In sl (p_slots p) -> s_joinable sl = false)).
Proof.
  intros Hnd Hlen Hs.
  pose proof (steps_good n tiles _ _ (inv_init n tiles Hlen) Hs) as Hg.
  split.
  - intros ->. exact Hg.
  - intros p -> Hpc. simpl in Hg. eapply done_complete; eauto.
Qed.

Theorem pool_can_finish n tiles s : NoDup tiles -> (0 < n)%nat -> (n <= length tiles)%nat ->
  steps (pool_init n tiles) s ->
  exists p, steps s (Run p) /\ p_pc p = PDone.
Proof.
  intros Hnd Hn Hlen Hs.
  pose proof (steps_good n tiles _ _ (inv_init n tiles Hlen) Hs) as Hg.
  pose proof (finished_nodup _ _ Hs) as Hf. simpl in Hf. specialize (Hf (NoDup_nil _)).
  destruct s as [p|]; [|destruct Hg].
  eapply can_finish_aux; eauto using tile_eq_dec.
Qed.

(** fewer tiles than threads: every execution is driven into the crash *)
Lemma pool_small_crash n tiles : (length tiles < n)%nat ->
  steps (pool_init n tiles) Crash.
Proof.
  intros Hlen.
  assert (G : forall k, (k <= length tiles)%nat ->
    exists p, steps (pool_init n tiles) (Run p) /\ p_pc p = PStart k /\
      length (p_slots p) = n /\ length (p_pending p) = (length tiles - k)%nat /\
      (forall j s, (k <= j)%nat -> nth_error (p_slots p) j = Some s -> s_joinable s = false)).
  { induction k as [|k IH]; intros Hk.
    - eexists. split; [apply steps_refl|]. simpl. rewrite repeat_length, rev_length. repeat split; try lia.
      intros j s _ H. apply nth_error_In, repeat_spec in H. subst; reflexivity.
    - destruct (IH ltac:(lia)) as [p [Hs [Hpc [Hsl [Hp Hj]]]]].
      destruct (p_pending p) as [|t rest] eqn:Ep; [simpl in Hp; lia|].
      destruct (nth_error (p_slots p) k) as [s|] eqn:Es; [|apply nth_error_None in Es; lia].
      pose proof (st_start p k Hpc ltac:(lia)) as Hst. unfold assign in Hst. rewrite Ep, Es, (Hj k s (le_n _) Es) in Hst.
      eexists. split; [eapply steps_step; [exact Hs|exact Hst]|]. simpl. rewrite length_update.
      simpl in Hp. repeat split; try lia.
      intros j s' Hj' Hs'. rewrite nth_error_update_neq in Hs' by lia. eapply Hj; [|exact Hs']. lia. }
  destruct (G (length tiles) (le_n _)) as [p [Hs [Hpc [Hsl [Hp Hj]]]]].
  eapply steps_step; [exact Hs|].
  pose proof (st_start p (length tiles) Hpc ltac:(lia)) as Hst.
  unfold assign in Hst. destruct (p_pending p); [exact Hst|simpl in Hp; lia].
Qed.
