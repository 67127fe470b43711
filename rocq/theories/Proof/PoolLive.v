(** The whole multi-threaded render can always run to completion. *)
From Coq Require Import Reals ZArith List Bool Lra Lia Permutation.
From Verif.Base Require Import Outcome Loops ListLemmas RSum RTac.
From Verif.Model Require Import Vec Tiles Locks Film PoolFilm.
From Verif.Spec Require Import TilesSpec FilmSpec PoolSpec.
From Verif.Proof Require Import LocksProof TilesProof PoolProof FilmProof PoolFilmProof.
Import ListNotations.

(** steps of worker k alone *)
Inductive solo (k : nat) : lstate -> lstate -> Prop :=
| solo_refl l : solo k l l
| solo_step a b c : solo k a b -> lstep b c ->
    (forall j, j <> k -> nth_error (l_workers c) j = nth_error (l_workers b) j) -> solo k a c.

Lemma solo_trans k a b c : solo k a b -> solo k b c -> solo k a c.
Proof. intros H1 H2. induction H2; [assumption|]. eapply solo_step; [apply IHsolo; assumption|eassumption|assumption]. Qed.

Lemma solo_others k a b : solo k a b -> forall j, j <> k -> nth_error (l_workers b) j = nth_error (l_workers a) j.
Proof. intros H. induction H; intros j Hj; [reflexivity|]. rewrite H1 by assumption. auto. Qed.

Lemma solo_lsteps k a b : solo k a b -> lsteps a b.
Proof. intros H. induction H; [constructor|]. eapply lsteps_step; eauto. Qed.

Lemma lsteps_trans a b c : lsteps a b -> lsteps b c -> lsteps a c.
Proof. intros H1 H2. induction H2; [assumption|]. eapply lsteps_step; [apply IHlsteps; assumption|eassumption]. Qed.

Section L.
Variable own : cell -> Z.
Variables (m0 tot : cell -> R).
Notation Inv := (LInv own m0 tot).

Lemma solo_inv k a b : Inv a -> solo k a b -> Inv b.
Proof. intros H Hs. eapply linv_steps; [exact H|]. eapply solo_lsteps; eauto. Qed.

(** finish the current critical section *)
Lemma run_section k rest : forall adds i reg l, Inv l ->
  nth_error (l_workers l) k = Some (Wk rest (Some (i, adds)) reg) ->
  exists l', solo k l l' /\ nth_error (l_workers l') k = Some (Wk rest None None).
Proof.
  assert (Hup : forall ws j v, j <> k -> nth_error (update ws k v) j = nth_error (A := worker) ws j).
  { intros. apply nth_error_update_neq. congruence. }
  induction adds as [|[c d] adds IH]; intros i reg l HI Hk.
  - assert (reg = None).
    { destruct reg as [v|]; [|reflexivity].
      destruct (li_reg _ _ _ _ HI _ _ _ Hk eq_refl) as [i0 [c0 [d0 [a0 [E _]]]]]. simpl in E. discriminate. }
    subst reg. destruct l as [m lk ws]. simpl in *.
    eexists. split.
    + eapply solo_step; [apply solo_refl|eapply ls_release; exact Hk|]. simpl. intros j Hj. apply Hup; assumption.
    + simpl. apply nth_error_update_eq. eapply nth_error_lt; eauto.
  - assert (Hstore : forall v l, Inv l -> nth_error (l_workers l) k = Some (Wk rest (Some (i, (c, d) :: adds)) (Some v)) ->
       exists l', solo k l l' /\ nth_error (l_workers l') k = Some (Wk rest None None)).
    { intros v l0 HI0 Hk0. destruct l0 as [m lk ws]. simpl in Hk0.
      assert (S1 : solo k (LS m lk ws) (LS (set_mem m c (v + d)) lk (update ws k (Wk rest (Some (i, adds)) None)))).
      { eapply solo_step; [apply solo_refl|eapply ls_store; exact Hk0|]. simpl. intros j Hj. apply Hup; assumption. }
      destruct (IH i None _ (solo_inv _ _ _ HI0 S1)) as [l' [S2 E2]].
      { simpl. apply nth_error_update_eq. eapply nth_error_lt; eauto. }
      exists l'. split; [eapply solo_trans; eauto|assumption]. }
    destruct reg as [v|]; [eapply Hstore; eauto|].
    destruct l as [m lk ws]. simpl in Hk.
    assert (S1 : solo k (LS m lk ws) (LS m lk (update ws k (Wk rest (Some (i, (c, d) :: adds)) (Some (m c)))))).
    { eapply solo_step; [apply solo_refl|eapply ls_load; exact Hk|]. simpl. intros j Hj. apply Hup; assumption. }
    destruct (Hstore (m c) _ (solo_inv _ _ _ HI S1)) as [l' [S2 E2]].
    { simpl. apply nth_error_update_eq. eapply nth_error_lt; eauto. }
    exists l'. split; [eapply solo_trans; eauto|assumption].
Qed.

Definition idle (l : lstate) : Prop := forall j w, nth_error (l_workers l) j = Some w -> wk_cur w = None.

Lemma idle_free l : Inv l -> idle l -> forall i, l_lock l i = None.
Proof.
  intros HI Hid i. destruct (l_lock l i) as [k|] eqn:E; [|reflexivity].
  destruct (li_held _ _ _ _ HI _ _ E) as [w [adds [Hk Hc]]]. rewrite (Hid _ _ Hk) in Hc. discriminate.
Qed.

(** run worker k to the end, from a state where nobody holds a lock *)
Lemma run_worker k : forall todo l, Inv l -> idle l ->
  nth_error (l_workers l) k = Some (Wk todo None None) ->
  exists l', solo k l l' /\ nth_error (l_workers l') k = Some (Wk [] None None).
Proof.
  induction todo as [|[i adds] rest IH]; intros l HI Hid Hk.
  - exists l. split; [apply solo_refl|assumption].
  - destruct l as [m lk ws]. simpl in Hk.
    assert (S1 : solo k (LS m lk ws) (LS m (set_lock lk i (Some k)) (update ws k (Wk rest (Some (i, adds)) None)))).
    { eapply solo_step; [apply solo_refl|eapply ls_acquire; [exact Hk|exact (idle_free _ HI Hid i)]|].
      simpl. intros j Hj. apply nth_error_update_neq. congruence. }
    destruct (run_section k rest adds i None _ (solo_inv _ _ _ HI S1)) as [l2 [S2 E2]].
    { simpl. apply nth_error_update_eq. eapply nth_error_lt; eauto. }
    pose proof (solo_trans _ _ _ _ S1 S2) as S12.
    destruct (IH l2) as [l3 [S3 E3]]; [eapply solo_inv; eauto| |exact E2|].
    { intros j w Hj. destruct (Nat.eq_dec j k) as [->|Hne].
      - rewrite E2 in Hj. injection Hj as <-. reflexivity.
      - rewrite (solo_others _ _ _ S12 j Hne) in Hj. apply (Hid _ _ Hj). }
    exists l3. split; [eapply solo_trans; eauto|assumption].
Qed.
End L.

Section PL.
Variables M S : Type.
Variable next1D : M -> R * M.
Variable copy : M -> R -> S.
Variable next2D : S -> vec2 * S.
Variable radiance_of : S -> vec2 -> vec2 -> vec3 * S.
Variable fsize : vec2.
Variable feval : vec2 -> R.
Variables (n : nat) (spp w h : Z) (tiles : list tile) (img0 : Z -> Z -> vec3) (m : M).
Hypothesis Hnd : NoDup tiles.
Hypothesis Hn0 : (0 < n)%nat.
Hypothesis Hn : (n <= length tiles)%nat.

Let init := cinit M S next1D copy next2D radiance_of fsize feval n spp w h tiles img0 m.
Notation order := (rev tiles).
Let progs := programs M S next1D copy next2D radiance_of fsize feval spp w h tiles m.
Let inv := LInv (own_index w) (pool_mem img0) (fun c => rsum (map (sections_to c) progs)).

Lemma csteps_trans a b c : csteps order a b -> csteps order b c -> csteps order a c.
Proof. intros H1 H2. induction H2; [assumption|]. eapply csteps_step; [apply IHcsteps; assumption|eassumption]. Qed.

Lemma reach_inv s : csteps order init s -> inv (snd s).
Proof.
  intros H. apply csteps_locks in H. eapply linv_steps; [|exact H]. apply linv_init.
  intros q Hq. apply in_map_iff in Hq. destruct Hq as [t [<- _]]. apply tile_program_locked.
Qed.

Lemma assign_run p i nx q : assign p i nx = Run q ->
  (exists t, p_started q = t :: p_started p) /\ p_finished q = p_finished p.
Proof.
  unfold assign. destruct (p_pending p) as [|t rest]; [discriminate|].
  destruct (nth_error (p_slots p) i) as [s|]; [|discriminate].
  destruct (s_joinable s); [discriminate|]. intros H. injection H as <-. simpl. eauto.
Qed.

Lemma step_started a b p q : step a b -> a = Run p -> b = Run q -> incl (p_started p) (p_started q).
Proof.
  intros H Ea Eb t Ht. pose proof (step_order _ _ H p q Ea Eb) as E.
  destruct H; injection Ea as ->; try (injection Eb as <-; assumption); try discriminate.
  - apply assign_run in Eb. destruct Eb as [[u ->] _]. right; assumption.
  - destruct (s_joinable s); [|discriminate]. simpl in Eb. destruct (p_pending p) eqn:Ep; [injection Eb as <-; assumption|].
    apply assign_run in Eb. destruct Eb as [[u ->] _]. right; assumption.
Qed.

Definition mid_started (s : pstate * lstate) : Prop :=
  forall p k wk, fst s = Run p -> nth_error (l_workers (snd s)) k = Some wk -> wk_cur wk <> None ->
  exists t, nth_error order k = Some t /\ In t (p_started p).

Lemma reach_mid s : csteps order init s -> mid_started s.
Proof.
  intros H. remember init as s0 eqn:E0. induction H as [s|a b c H IH Hst].
  - subst s. intros p k wk _ Hk Hc. simpl in Hk. apply nth_error_In, in_map_iff in Hk.
    destruct Hk as [q [<- _]]. simpl in Hc. congruence.
  - specialize (IH E0). destruct Hst as [p s' l Hst Hnf|p p' l k t wk Hst He Ho Hw Hd|p l l' k t Hst Hoth Ho Hin];
    intros q j wj Eq Hj Hc; simpl in *.
    + subst s'. destruct (IH p j wj eq_refl Hj Hc) as [t [H1 H2]]. exists t. split; [assumption|].
      eapply (step_started _ _ p q Hst); auto.
    + injection Eq as <-. destruct (IH p j wj eq_refl Hj Hc) as [t' [H1 H2]]. exists t'. split; [assumption|].
      eapply (step_started _ _ p p' Hst); auto.
    + injection Eq as <-. destruct (Nat.eq_dec j k) as [->|Hne]; [eauto|].
      rewrite Hoth in Hj by assumption. apply (IH p j wj eq_refl Hj Hc).
Qed.

Lemma solo_csteps p k t l l' : solo k l l' -> nth_error order k = Some t -> In t (p_started p) ->
  csteps order (Run p, l) (Run p, l').
Proof.
  intros H Ho Hin. induction H; [constructor|]. eapply csteps_step; [apply IHsolo|]. eapply cs_work; eauto.
Qed.

(** let every worker leave its critical section *)
Lemma reach_idle p l : csteps order init (Run p, l) ->
  exists l', csteps order (Run p, l) (Run p, l') /\ idle l'.
Proof.
  intros Hr.
  assert (G : forall N, exists l', csteps order (Run p, l) (Run p, l') /\
     forall j wj, (j < N)%nat -> nth_error (l_workers l') j = Some wj -> wk_cur wj = None).
  { induction N as [|N [l1 [H1 H2]]].
    - exists l. split; [constructor|]. intros; lia.
    - pose proof (csteps_trans _ _ _ Hr H1) as Hr1.
      destruct (nth_error (l_workers l1) N) as [wN|] eqn:EN.
      + destruct (wk_cur wN) as [[i adds]|] eqn:Ec.
        * destruct wN as [todo cur reg]. simpl in Ec. subst cur.
          destruct (reach_mid _ Hr1 p N _ eq_refl EN) as [t [Ho Hin]]; [discriminate|].
          destruct (run_section _ _ _ N todo adds i reg l1 (reach_inv _ Hr1) EN) as [l2 [S2 E2]].
          exists l2. split; [eapply csteps_trans; [exact H1|eapply solo_csteps; eauto]|].
          intros j wj Hj Hwj. destruct (Nat.eq_dec j N) as [->|Hne].
          { rewrite E2 in Hwj. injection Hwj as <-. reflexivity. }
          { rewrite (solo_others _ _ _ S2 j Hne) in Hwj. apply (H2 j wj); [lia|assumption]. }
        * exists l1. split; [assumption|]. intros j wj Hj Hwj.
          destruct (Nat.eq_dec j N) as [->|Hne]; [rewrite EN in Hwj; injection Hwj as <-; assumption|].
          apply (H2 j wj); [lia|assumption].
      + exists l1. split; [assumption|]. intros j wj Hj Hwj.
        destruct (Nat.eq_dec j N) as [->|Hne]; [congruence|]. apply (H2 j wj); [lia|assumption]. }
  destruct (G (length (l_workers l))) as [l' [H1 H2]]. exists l'. split; [assumption|].
  intros j wj Hj. apply (H2 j wj); [|assumption].
  pose proof (lsteps_length _ _ (csteps_locks _ _ _ H1)) as HL. simpl in HL.
  rewrite <- HL. eapply nth_error_lt; eauto.
Qed.

Lemma step_kind p s' : step (Run p) s' ->
  (exists i t, nth_error (p_slots p) i = Some (Slot (Some t) true) /\
     s' = Run (Pool (p_pc p) (p_pending p) (p_slots p) (p_started p) (t :: p_finished p))) \/
  (forall p', s' = Run p' -> p_finished p' = p_finished p).
Proof.
  intros H. remember (Run p) as a eqn:Ea.
  destruct H; injection Ea as ->; try (right; intros q Eq; injection Eq as <-; reflexivity); try (right; discriminate).
  - left. eauto.
  - right. intros q Eq. apply assign_run in Eq. apply Eq.
  - right. intros q Eq. destruct (s_joinable s); [|discriminate]. simpl in Eq.
    destruct (p_pending p) eqn:Ep; [injection Eq as <-; reflexivity|].
    apply assign_run in Eq. apply Eq.
Qed.

Lemma pool_pos s : csteps order init s -> steps (pool_init n tiles) (fst s).
Proof. intros H. apply csteps_pool in H. exact H. Qed.

(** follow a run of the dispatcher *)
Lemma follow a b : steps a b -> forall p l, a = Run p -> csteps order init (a, l) -> idle l ->
  forall q, b = Run q -> exists l', csteps order (a, l) (b, l') /\ idle l'.
Proof.
  intros H. induction H as [s|s1 s2 s3 H IH Hst]; intros p l Ea Hr Hid q Eq.
  - exists l. split; [constructor|assumption].
  - destruct (step_run _ _ Hst) as [p2 E2].
    destruct (IH p l Ea Hr Hid p2 E2) as [l2 [Hc Hid2]].
    pose proof (csteps_trans _ _ _ Hr Hc) as Hr2.
    subst s2. destruct (step_kind _ _ Hst) as [[i [t [Hsl Es]]]|Hsame].
    + pose proof (steps_good n tiles _ _ (inv_init n tiles Hn) (pool_pos _ Hr2)) as Hg. simpl in Hg.
      assert (Hin : In t (p_started p2)) by (eapply (inv_act n tiles); eauto).
      assert (Hord : exists k, nth_error order k = Some t).
      { apply In_nth_error. rewrite <- (start_order n tiles _ (pool_pos _ Hr2) p2 eq_refl).
        apply in_or_app. left. apply in_rev in Hin. exact Hin. }
      destruct Hord as [k Hk].
      assert (Hlen : length (l_workers l2) = length tiles).
      { pose proof (lsteps_length _ _ (csteps_locks _ _ _ Hr2)) as HL. simpl in HL.
        rewrite HL, map_length. apply length_programs. }
      assert (Hkl : (k < length (l_workers l2))%nat) by (rewrite Hlen, <- rev_length; eapply nth_error_lt; eauto).
      destruct (nth_error (l_workers l2) k) as [wk|] eqn:Ewk; [|apply nth_error_None in Ewk; lia].
      destruct wk as [todo cur reg]. pose proof (Hid2 _ _ Ewk) as Hcur. simpl in Hcur. subst cur.
      assert (reg = None).
      { destruct reg as [v|]; [|reflexivity].
        destruct (li_reg _ _ _ _ (reach_inv _ Hr2) _ _ _ Ewk eq_refl) as [i0 [c0 [d0 [a0 [E _]]]]]. simpl in E. discriminate. }
      subst reg.
      destruct (run_worker _ _ _ k todo l2 (reach_inv _ Hr2) Hid2 Ewk) as [l3 [S3 E3]].
      exists l3. split.
      * eapply csteps_step.
        { eapply csteps_trans; [exact Hc|]. eapply solo_csteps; eauto. }
        rewrite Es in Hst |- *. eapply cs_finish; [exact Hst|reflexivity|exact Hk|exact E3|split; reflexivity].
      * intros j wj Hj. destruct (Nat.eq_dec j k) as [->|Hne].
        { rewrite E3 in Hj. injection Hj as <-. reflexivity. }
        { rewrite (solo_others _ _ _ S3 j Hne) in Hj. apply (Hid2 _ _ Hj). }
    + exists l2. split; [|assumption]. eapply csteps_step; [exact Hc|]. apply cs_dispatch; assumption.
Qed.

Theorem pool_render_can_finish s : csteps order init s ->
  exists p l, csteps order s (Run p, l) /\ p_pc p = PDone.
Proof.
  intros Hr. destruct s as [ps l].
  destruct (pool_can_finish n tiles ps Hnd Hn0 Hn (pool_pos _ Hr)) as [q [Hq Hpc]].
  destruct (pool_safe n tiles ps Hnd Hn (pool_pos _ Hr)) as [Hnc _].
  destruct ps as [p|]; [|congruence].
  destruct (reach_idle p l Hr) as [l1 [H1 Hid]].
  destruct (follow _ _ Hq p l1 eq_refl (csteps_trans _ _ _ Hr H1) Hid q eq_refl) as [l2 [H2 _]].
  exists q, l2. split; [eapply csteps_trans; eauto|assumption].
Qed.
End PL.
