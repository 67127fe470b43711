From Coq Require Import Reals ZArith List Bool Lra Lia Permutation.
From Flocq Require Import Core.Raux.
From Verif.Base Require Import Outcome Loops ListLemmas RSum RTac.
From Verif.Model Require Import Vec Tiles Locks Film PoolFilm.
From Verif.Spec Require Import TilesSpec FilmSpec PoolSpec.
From Verif.Proof Require Import LocksProof TilesProof PoolProof FilmProof.
Import ListNotations.
Open Scope R_scope.

(** ** Starting order *)

Lemma step_order a b : step a b -> forall p q, a = Run p -> b = Run q ->
  rev (p_started q) ++ p_pending q = rev (p_started p) ++ p_pending p.
Proof.
  assert (Ha : forall p i n q, assign p i n = Run q ->
            rev (p_started q) ++ p_pending q = rev (p_started p) ++ p_pending p).
  { intros p i n q H. unfold assign in H. destruct (p_pending p) as [|t rest]; [discriminate|].
    destruct (nth_error (p_slots p) i) as [s|]; [|discriminate].
    destruct (s_joinable s); [discriminate|]. injection H as <-. simpl.
    rewrite <- app_assoc. reflexivity. }
  intros H p q Ea Eb. destruct H; injection Ea as <-; try (injection Eb as <-; reflexivity); try discriminate.
  - apply (Ha _ _ _ _ Eb).
  - destruct (s_joinable s); [|discriminate]. simpl in Eb.
    destruct (p_pending p0) as [|t0 rest] eqn:Ep.
    + injection Eb as <-. simpl. rewrite ?Ep. reflexivity.
    + apply Ha in Eb. simpl in Eb. rewrite Eb. rewrite ?Ep. reflexivity.
Qed.

Lemma step_run a b : step a b -> exists p, a = Run p.
Proof. intros H. destruct H; eexists; reflexivity. Qed.

Lemma start_order n tiles s : steps (pool_init n tiles) s -> forall p, s = Run p ->
  rev (p_started p) ++ p_pending p = rev tiles.
Proof.
  intros H. remember (pool_init n tiles) as s0 eqn:E0. induction H as [s|s1 s2 s3 H IH Hst]; intros p Ep.
  - rewrite E0 in Ep. unfold pool_init in Ep. injection Ep as <-. reflexivity.
  - destruct (step_run _ _ Hst) as [q Eq]. rewrite (step_order _ _ Hst q p Eq Ep). apply IH; auto.
Qed.

Lemma done_order n tiles p : NoDup tiles -> (n <= length tiles)%nat ->
  steps (pool_init n tiles) (Run p) -> p_pc p = PDone -> p_started p = tiles.
Proof.
  intros Hnd Hn Hs Hpc.
  pose proof (start_order n tiles _ Hs p eq_refl) as Ho.
  destruct (pool_safe n tiles _ Hnd Hn Hs) as [_ Hd]. destruct (Hd p eq_refl Hpc) as [Hp _].
  apply Permutation_length in Hp.
  assert (Hpe : p_pending p = []).
  { apply (f_equal (@length _)) in Ho. rewrite app_length, !rev_length in Ho.
    apply length_zero_iff_nil. lia. }
  rewrite Hpe, app_nil_r in Ho. rewrite <- (rev_involutive tiles), <- Ho, rev_involutive. reflexivity.
Qed.

(** ** Projections of a concurrent execution *)
Section C.
Variable order : list tile.

Lemma cstep_pool a b : cstep order a b -> steps (fst a) (fst b).
Proof.
  intros H. destruct H; simpl.
  - eapply steps_step; [constructor|eassumption].
  - eapply steps_step; [constructor|eassumption].
  - constructor.
Qed.

Lemma steps_app a b c : steps a b -> steps b c -> steps a c.
Proof. intros H1 H2. induction H2; [assumption|]. eapply steps_step; [apply IHsteps; assumption|eassumption]. Qed.

Lemma csteps_pool a b : csteps order a b -> steps (fst a) (fst b).
Proof. intros H. induction H; [constructor|]. eapply steps_app; [eassumption|]. apply cstep_pool; assumption. Qed.

Lemma cstep_locks a b : cstep order a b -> snd a = snd b \/ lstep (snd a) (snd b).
Proof. intros H. destruct H; simpl; auto. Qed.

Lemma csteps_locks a b : csteps order a b -> lsteps (snd a) (snd b).
Proof.
  intros H. induction H; [constructor|]. destruct (cstep_locks _ _ H0) as [E|E].
  - rewrite <- E. assumption.
  - eapply lsteps_step; eassumption.
Qed.

Lemma lstep_done l l' k wk : lstep l l' -> nth_error (l_workers l) k = Some wk -> worker_done wk ->
  nth_error (l_workers l') k = Some wk.
Proof.
  intros H Hk [Ht Hc]. destruct H as [m lk ws k0 i adds rest H0 H1|m lk ws k0 i c d adds rest H0
     |m lk ws k0 i c d adds rest v H0|m lk ws k0 i rest H0]; simpl in *;
  (destruct (Nat.eq_dec k k0) as [->|Hne];
   [rewrite H0 in Hk; injection Hk as <-; simpl in *; discriminate|
    rewrite nth_error_update_neq by congruence; assumption]).
Qed.

Definition finished_done (s : pstate * lstate) : Prop :=
  forall p t, fst s = Run p -> In t (p_finished p) ->
  exists k wk, nth_error order k = Some t /\ nth_error (l_workers (snd s)) k = Some wk /\ worker_done wk.

Lemma cstep_finished a b : cstep order a b -> finished_done a -> finished_done b.
Proof.
  intros H Hf. destruct H as [p s' l Hst Hn|p p' l k t wk Hst He Ho Hw Hd|p l l' k t Hst Hoth Ho Hin]; intros q u Eq Hu; simpl in *.
  - subst s'. rewrite (Hn q eq_refl) in Hu. apply (Hf p u eq_refl Hu).
  - injection Eq as <-. rewrite He in Hu. destruct Hu as [<-|Hu]; [eauto 6|]. apply (Hf p u eq_refl Hu).
  - injection Eq as <-. destruct (Hf p u eq_refl Hu) as [k' [wk [H1 [H2 H3]]]].
    exists k', wk. split; [assumption|]. split; [|assumption]. eapply lstep_done; eassumption.
Qed.

Lemma csteps_finished a b : csteps order a b -> finished_done a -> finished_done b.
Proof. intros H. induction H; intros Ha; [assumption|]. eapply cstep_finished; eauto. Qed.
End C.

Lemma lstep_length l l' : lstep l l' -> length (l_workers l') = length (l_workers l).
Proof. intros H. destruct H; simpl; apply length_update. Qed.
Lemma lsteps_length l l' : lsteps l l' -> length (l_workers l') = length (l_workers l).
Proof. intros H. induction H; [reflexivity|]. rewrite (lstep_length _ _ H0). assumption. Qed.

Section PF.
Variables M S : Type.
Variable next1D : M -> R * M.
Variable copy : M -> R -> S.
Variable next2D : S -> vec2 * S.
Variable radiance_of : S -> vec2 -> vec2 -> vec3 * S.
Variable fsize : vec2.
Variable feval : vec2 -> R.

Notation programs := (programs M S next1D copy next2D radiance_of fsize feval).
Notation cinit := (cinit M S next1D copy next2D radiance_of fsize feval).
Notation tile_samplers := (tile_samplers M S next1D copy).

Lemma length_tile_samplers n m : length (tile_samplers n m) = n.
Proof. revert m; induction n as [|n IH]; intros m; simpl; [reflexivity|]. destruct (next1D m); simpl. f_equal. apply IH. Qed.

Lemma length_programs spp w h tiles m : length (programs spp w h tiles m) = length tiles.
Proof. unfold PoolFilm.programs. rewrite map_length, combine_length, length_tile_samplers, rev_length. lia. Qed.

Notation all_samples := (all_samples M S next1D copy next2D radiance_of).

Lemma all_workers_done n spp w h tiles img0 m p l : NoDup tiles -> (n <= length tiles)%nat ->
  csteps (rev tiles) (cinit n spp w h tiles img0 m) (Run p, l) -> p_pc p = PDone ->
  forall wk, In wk (l_workers l) -> worker_done wk.
Proof.
  intros Hnd Hn Hs Hpc wk Hwk.
  pose proof (csteps_pool _ _ _ Hs) as Hp. simpl in Hp.
  destruct (pool_safe n tiles _ Hnd Hn Hp) as [_ Hd]. destruct (Hd p eq_refl Hpc) as [_ [Hfin _]].
  pose proof (csteps_locks _ _ _ Hs) as Hl. simpl in Hl.
  pose proof (lsteps_length _ _ Hl) as Hlen. simpl in Hlen. rewrite map_length, length_programs in Hlen.
  apply In_nth_error in Hwk. destruct Hwk as [k Hk].
  assert (Hklt : (k < length (rev tiles))%nat) by (rewrite rev_length, <- Hlen; eapply nth_error_lt; eassumption).
  destruct (nth_error (rev tiles) k) as [t|] eqn:Et; [|apply nth_error_None in Et; lia].
  assert (Hint : In t (p_finished p)).
  { apply Hfin. apply in_rev. eapply nth_error_In; eassumption. }
  assert (Hinv : finished_done (rev tiles) (Run p, l)).
  { eapply csteps_finished; [eassumption|]. intros q u Eq Hu. simpl in Eq. unfold pool_init in Eq.
    injection Eq as <-. destruct Hu. }
  destruct (Hinv p t eq_refl Hint) as [k' [wk' [H1 [H2 H3]]]].
  assert (k' = k).
  { apply (proj1 (NoDup_nth_error (rev tiles))).
    - apply NoDup_rev; assumption.
    - eapply nth_error_lt; eassumption.
    - congruence. }
  subst k'. simpl in H2. congruence.
Qed.

Lemma programs_chan spp w h tss x y ch : (ch < 3)%nat ->
  rsum (map (sections_to (CImg x y ch))
        (map (fun ts => tile_program S next2D radiance_of fsize feval spp w h (fst ts) (snd ts)) tss)) =
  chan_sum fsize feval (fun v => vget v ch) w h
    (flat_map (fun ts => draw S next2D radiance_of (tile_order spp (fst ts)) (snd ts)) tss) x y.
Proof.
  intros Hch. induction tss as [|t ts IH]; [reflexivity|]. simpl.
  rewrite rsum_cons, IH, program_chan by assumption. rewrite chan_sum_app. reflexivity.
Qed.

Lemma programs_wgt spp w h tss x y : in_film w h x y ->
  rsum (map (sections_to (CW (y * w + x)%Z))
        (map (fun ts => tile_program S next2D radiance_of fsize feval spp w h (fst ts) (snd ts)) tss)) =
  wgt_sum fsize feval w h
    (flat_map (fun ts => draw S next2D radiance_of (tile_order spp (fst ts)) (snd ts)) tss) x y.
Proof.
  intros Hf. induction tss as [|t ts IH]; [reflexivity|]. simpl.
  rewrite rsum_cons, IH, program_wgt by assumption. rewrite wgt_sum_app. reflexivity.
Qed.

Theorem pool_render n spp w h tiles img0 m p l :
  supported feval fsize -> NoDup tiles -> (n <= length tiles)%nat ->
  csteps (rev tiles) (cinit n spp w h tiles img0 m) (Run p, l) -> p_pc p = PDone ->
  forall x y, in_film w h x y ->
  pool_finish w (l_mem l) x y = accumulated feval (img0 x y) (all_samples spp tiles m) x y.
Proof.
  intros Hs Hnd Hn Hcs Hpc x y Hf.
  pose proof (all_workers_done _ _ _ _ _ _ _ _ _ Hnd Hn Hcs Hpc) as Hdone.
  pose proof (csteps_locks _ _ _ Hcs) as Hl. simpl in Hl.
  assert (Hfin : forall c, l_mem l c = pool_mem img0 c +
            rsum (map (sections_to c) (programs spp w h tiles m))).
  { apply (locks_final (own_index w)) with (s := l); auto.
    intros q Hq. apply in_map_iff in Hq. destruct Hq as [t [<- _]]. apply tile_program_locked. }
  unfold pool_finish. rewrite !Hfin. unfold PoolFilm.programs.
  rewrite !programs_chan by lia. rewrite programs_wgt by assumption.
  change (flat_map _ _) with (all_samples spp tiles m). simpl pool_mem.
  rewrite wgt_sum_spec by assumption. rewrite !chan_sum_spec by assumption. rewrite Rplus_0_l.
  unfold accumulated. destruct (Req_EM_T _ 0); reflexivity.
Qed.

Theorem pool_samples_count spp w h tiles m x y : (0 <= spp)%Z -> exact_partition w h tiles ->
  in_film w h x y ->
  Z.of_nat (count (flat_map (fun ts => tile_order spp (fst ts))
             (combine (rev tiles) (tile_samplers (length tiles) m))) (x, y)) = spp.
Proof.
  intros Hs Hp Hf.
  assert (E : flat_map (fun ts => tile_order spp (fst ts))
             (combine (rev tiles) (tile_samplers (length tiles) m)) = flat_map (tile_order spp) (rev tiles)).
  { assert (Hl : length (rev tiles) = length (tile_samplers (length tiles) m))
      by (rewrite length_tile_samplers, rev_length; reflexivity).
    revert Hl. generalize (rev tiles) (tile_samplers (length tiles) m).
    induction l as [|a l IH]; intros [|b l0] Hl; simpl in *; try discriminate; [reflexivity|].
    f_equal. apply IH. congruence. }
  rewrite E.
  transitivity (Z.of_nat (count (flat_map (tile_order spp) tiles) (x, y))).
  - f_equal. apply Permutation_count_occ. apply (Permutation_flat_map (tile_order spp)).
    apply Permutation_sym, Permutation_rev.
  - apply (count_concat_tiles spp w h tiles x y Hs Hp Hf).
Qed.
End PF.

Lemma accumulated_black f evs x y : (forall v, 0 <= f v) ->
  accumulated f (V3 0 0 0) evs x y = filtered f evs x y.
Proof.
  intros Hp. unfold accumulated, filtered. simpl. rewrite !Rplus_0_l.
  destruct (Req_EM_T _ 0) as [E|E]; [|reflexivity].
  rewrite !(zero_weight_zero_sum f) by assumption. reflexivity.
Qed.

(** ** Number of samples inside each pixel *)

Lemma in_pixelb_iff (e : camera_sample) x y : in_pixelb x y e = true <->
  (IZR x <= x2 (fst e) < IZR x + 1 /\ IZR y <= y2 (fst e) < IZR y + 1).
Proof.
  unfold in_pixelb. rewrite andb_true_iff, !Z.eqb_eq. split.
  - intros [<- <-]. pose proof (Zfloor_lb (x2 (fst e))). pose proof (Zfloor_ub (x2 (fst e))).
    pose proof (Zfloor_lb (y2 (fst e))). pose proof (Zfloor_ub (y2 (fst e))). lra.
  - intros [Hx Hy]. split; apply Zfloor_imp; rewrite plus_IZR; lra.
Qed.

Lemma samples_in_count pixels evs x y :
  Forall2 (fun pix e => IZR (fst pix) <= x2 (fst e) < IZR (fst pix) + 1 /\
                        IZR (snd pix) <= y2 (fst e) < IZR (snd pix) + 1) pixels evs ->
  samples_in evs x y = count pixels (x, y).
Proof.
  induction 1 as [|[j i] e pixels evs H _ IH]; [reflexivity|].
  unfold samples_in, count in *. simpl. simpl in H.
  destruct (zz_dec (j, i) (x, y)) as [E|E].
  - injection E as -> ->. rewrite (proj2 (in_pixelb_iff e x y) H). simpl. f_equal. exact IH.
  - destruct (in_pixelb x y e) eqn:Eb; [|exact IH]. exfalso. apply E.
    unfold in_pixelb in Eb. rewrite andb_true_iff, !Z.eqb_eq in Eb. destruct Eb as [<- <-].
    f_equal; symmetry; apply Zfloor_imp; rewrite plus_IZR; lra.
Qed.

Lemma Forall2_flat_map {A B C} (P : B -> C -> Prop) (f : A -> list B) (g : A -> list C) l :
  (forall a, In a l -> Forall2 P (f a) (g a)) -> Forall2 P (flat_map f l) (flat_map g l).
Proof.
  induction l as [|a l IH]; intros H; simpl; [constructor|].
  apply Forall2_app; [apply H; left; reflexivity|]. apply IH. intros b Hb. apply H. right; assumption.
Qed.

Lemma tiles_nodup ts : (forall k t, nth_error ts k = Some t -> t_index t = Z.of_nat k) -> NoDup ts.
Proof.
  intros H. apply NoDup_nth_error. intros i j Hi E.
  destruct (nth_error ts i) as [t|] eqn:Ei; [|apply nth_error_None in Ei; lia].
  pose proof (H _ _ Ei). symmetry in E. pose proof (H _ _ E). lia.
Qed.
