(** C01-C04, C08, C09 (parallel part), C69, C70: the multi-threaded renderer. *)
From Coq Require Import Reals ZArith List Bool Lra Lia Permutation.
From Verif.Base Require Import Outcome.
From Verif.Model Require Import Vec Tiles Locks Film PoolFilm.
From Verif.Spec Require Import TilesSpec FilmSpec PoolSpec.
From Verif.Proof Require Import LocksProof TilesProof PoolProof FilmProof PoolFilmProof PoolLive PoolExtra.
Import ListNotations.

(** C01 *)
Theorem C01_tiles_partition_film (tw w h : Z) :
  (0 < tw)%Z -> (0 <= w)%Z -> (0 <= h)%Z ->
  exists ts, initialize_pool tw w h = Ok ts /\
    exact_partition w h ts /\
    (forall k t, nth_error ts k = Some t -> t_index t = Z.of_nat k) /\
    (forall t, In t ts -> (t_minx t < t_maxx t /\ t_miny t < t_maxy t /\
                           t_maxx t - t_minx t <= tw /\ t_maxy t - t_miny t <= tw)%Z) /\
    Z.of_nat (length ts) = (ceil_div w tw * ceil_div h tw)%Z.
Proof. exact (initialize_pool_spec tw w h). Qed.
Print Assumptions C01_tiles_partition_film.

Example C01_case : initialize_pool 64 130 65 = Ok
  [Tile 0 0 64 64 0; Tile 64 0 128 64 1; Tile 128 0 130 64 2;
   Tile 0 64 64 65 3; Tile 64 64 128 65 4; Tile 128 64 130 65 5]%Z.
Proof. reflexivity. Qed.

(** C02: safety under every schedule, and no deadlock or livelock of the dispatcher. *)
Theorem C02_every_tile_once (n : nat) (tiles : list tile) (s : pstate) :
  NoDup tiles -> (n <= length tiles)%nat -> steps (pool_init n tiles) s ->
  s <> Crash /\
  (forall p, s = Run p -> p_pc p = PDone ->
     Permutation (p_started p) tiles /\ (forall t, In t tiles -> In t (p_finished p)) /\
     (forall sl, In sl (p_slots p) -> s_joinable sl = false)).
Proof. exact (pool_safe n tiles s). Qed.
Print Assumptions C02_every_tile_once.

Theorem C02_can_always_finish (n : nat) (tiles : list tile) (s : pstate) :
  NoDup tiles -> (0 < n)%nat -> (n <= length tiles)%nat -> steps (pool_init n tiles) s ->
  exists p, steps s (Run p) /\ p_pc p = PDone.
Proof. exact (pool_can_finish n tiles s). Qed.
Print Assumptions C02_can_always_finish.

Example C02_case : exists ts p, initialize_pool 64 130 65 = Ok ts /\
  NoDup ts /\ steps (pool_init 4 ts) (Run p) /\ p_pc p = PDone.
Proof.
  destruct (initialize_pool_spec 64 130 65) as [ts [E [_ [Hi [_ Hl]]]]]; try lia.
  pose proof (tiles_nodup ts Hi) as Hnd.
  assert (HL : length ts = 6%nat) by (change (ceil_div 130 64 * ceil_div 65 64)%Z with 6%Z in Hl; lia).
  destruct (pool_can_finish 4 ts (pool_init 4 ts)) as [p [Hp Hd]]; try assumption; try lia; [constructor|].
  exists ts, p. auto.
Qed.

(** C03: refuted.  A 64 x 64 film has one tile; with NTHREADS = 12 the dispatcher reads past
    the list of remaining tiles. *)
Theorem C03_render_defined_refuted :
  exists w h ts, (0 < w)%Z /\ (0 < h)%Z /\ initialize_pool 64 w h = Ok ts /\ steps (pool_init 12 ts) Crash.
Proof.
  exists 64%Z, 64%Z, [Tile 0 0 64 64 0]%Z. repeat split; try lia.
  apply pool_small_crash. simpl. lia.
Qed.
Print Assumptions C03_render_defined_refuted.

(** exact domain of definedness *)
Theorem C03_defined_iff (tw w h : Z) (n : nat) ts :
  (0 < tw)%Z -> (0 <= w)%Z -> (0 <= h)%Z -> initialize_pool tw w h = Ok ts ->
  (~ steps (pool_init n ts) Crash) <-> (Z.of_nat n <= ceil_div w tw * ceil_div h tw)%Z.
Proof.
  intros Htw Hw Hh E.
  destruct (initialize_pool_spec tw w h Htw Hw Hh) as [ts' [E' [_ [Hi [_ Hl]]]]].
  rewrite E in E'. injection E' as <-. rewrite <- Hl. split.
  - intros H. destruct (Nat.le_gt_cases n (length ts)); [lia|]. exfalso. apply H. apply pool_small_crash. assumption.
  - intros H Hs. destruct (pool_safe n ts Crash (tiles_nodup ts Hi)) as [Hc _]; [lia|assumption|congruence].
Qed.
Print Assumptions C03_defined_iff.

Example C03_case : (Z.of_nat 12 <= ceil_div 256 64 * ceil_div 192 64)%Z /\
  ~ (Z.of_nat 12 <= ceil_div 256 64 * ceil_div 128 64)%Z.
Proof. split; [vm_compute; congruence|vm_compute; congruence]. Qed.

Open Scope R_scope.

(** C04: any complete concurrent execution of dispatcher and workers, interleaved at single
    loads and stores, leaves the same film: the one given by the (schedule-independent) list
    of camera samples. *)
Theorem C04_film_schedule_independent
    (M S : Type) (next1D : M -> R * M) (copy : M -> R -> S) (next2D : S -> vec2 * S)
    (radiance_of : S -> vec2 -> vec2 -> vec3 * S) (fsize : vec2) (feval : vec2 -> R)
    (n : nat) (spp w h : Z) (tiles : list tile) (img0 : Z -> Z -> vec3) (m : M) (p : pool) (l : lstate) :
  supported feval fsize -> NoDup tiles -> (n <= length tiles)%nat ->
  csteps (rev tiles) (cinit M S next1D copy next2D radiance_of fsize feval n spp w h tiles img0 m) (Run p, l) ->
  p_pc p = PDone ->
  forall x y, in_film w h x y ->
  pool_finish w (l_mem l) x y =
  accumulated feval (img0 x y) (all_samples M S next1D copy next2D radiance_of spp tiles m) x y.
Proof. exact (pool_render M S next1D copy next2D radiance_of fsize feval n spp w h tiles img0 m p l). Qed.
Print Assumptions C04_film_schedule_independent.

(** and such an execution always exists: from every reachable state of the concurrent system
    (dispatcher, workers, mutexes) the render can be completed. *)
Theorem C04_no_deadlock
    (M S : Type) (next1D : M -> R * M) (copy : M -> R -> S) (next2D : S -> vec2 * S)
    (radiance_of : S -> vec2 -> vec2 -> vec3 * S) (fsize : vec2) (feval : vec2 -> R)
    (n : nat) (spp w h : Z) (tiles : list tile) (img0 : Z -> Z -> vec3) (m : M) :
  NoDup tiles -> (0 < n)%nat -> (n <= length tiles)%nat ->
  forall s, csteps (rev tiles) (cinit M S next1D copy next2D radiance_of fsize feval n spp w h tiles img0 m) s ->
  exists p l, csteps (rev tiles) s (Run p, l) /\ p_pc p = PDone.
Proof. exact (pool_render_can_finish M S next1D copy next2D radiance_of fsize feval n spp w h tiles img0 m). Qed.
Print Assumptions C04_no_deadlock.

(** which random numbers a tile uses: the k-th tile from the end of the list is given a generator made from the
    k-th number drawn from the generator of the camera, times 10^8, and that generator's state after drawing it *)
Fixpoint state_after {M} (next1D : M -> R * M) (k : nat) (m : M) : M := match k with O => m | Datatypes.S k => snd (next1D (state_after next1D k m)) end.
Lemma state_shift {M} (next1D : M -> R * M) k m : state_after next1D k (snd (next1D m)) = state_after next1D (Datatypes.S k) m.
Proof. induction k as [|k IH]; [reflexivity|]. cbn [state_after] in *. rewrite IH. reflexivity. Qed.
Theorem C04_seeds {M S : Type} (next1D : M -> R * M) (copy : M -> R -> S) (next2D : S -> vec2 * S)
    (radiance_of : S -> vec2 -> vec2 -> vec3 * S) (spp : Z) (tiles : list tile) (m : M) t0 :
  all_samples M S next1D copy next2D radiance_of spp tiles m =
  flat_map (fun k => draw S next2D radiance_of (tile_order spp (nth (length tiles - 1 - k) tiles t0))
                       (copy (state_after next1D (Datatypes.S k) m) (fst (next1D (state_after next1D k m)) * 100000000))) (seq 0 (length tiles)).
Proof.
  unfold all_samples. rewrite <- (rev_length tiles).
  transitivity (flat_map (fun k => draw S next2D radiance_of (tile_order spp (nth k (rev tiles) t0))
                       (copy (state_after next1D (Datatypes.S k) m) (fst (next1D (state_after next1D k m)) * 100000000))) (seq 0 (length (rev tiles)))).
  - generalize (rev tiles) as l. intros l. revert m. induction l as [|t l IH]; intros m; [reflexivity|]. cbn [length tile_samplers combine seq flat_map].
    destruct (next1D m) as [v m'] eqn:N. cbn [combine flat_map fst snd nth state_after]. rewrite N. cbn [fst snd]. f_equal.
    rewrite IH, <- seq_shift. rewrite !flat_map_concat_map, map_map. f_equal. apply map_ext. intros k. cbn [nth].
    assert (Z : m' = snd (next1D m)) by (rewrite N; reflexivity). rewrite Z, !state_shift. reflexivity.
  - rewrite !flat_map_concat_map. f_equal. apply map_ext_in. intros k Hk. apply in_seq in Hk. rewrite rev_length in *. rewrite rev_nth by lia. do 3 f_equal. lia.
Qed.
Print Assumptions C04_seeds.
Example C04_seeds_case : flat_map (fun k => [state_after (fun m : nat => (INR m, Datatypes.S m)) (Datatypes.S k) 5%nat]) (seq 0 3) = [6; 7; 8]%nat.
Proof. reflexivity. Qed.

(** A film of 4 x 3 tiles and twelve threads, every sample in the centre of its pixel. *)
Definition ex_next (u : unit) : vec2 * unit := (V2 (1 / 2) (1 / 2), u).
Definition ex_rad (u : unit) (_ _ : vec2) : vec3 * unit := (V3 1 1 1, u).
Definition ex_init ts img0 := cinit unit unit (fun u => (0, u)) (fun _ _ => tt) ex_next ex_rad
   box_default_size (box_eval box_default_size) 12 1 256 192 ts img0 tt.

Lemma ex_tiles : exists ts, initialize_pool 64 256 192 = Ok ts /\ NoDup ts /\ length ts = 12%nat /\
  exact_partition 256 192 ts.
Proof.
  destruct (initialize_pool_spec 64 256 192) as [ts [E [Hp [Hi [_ Hl]]]]]; try lia.
  exists ts. split; [assumption|]. split; [apply tiles_nodup; assumption|]. split; [|assumption].
  change (ceil_div 256 64 * ceil_div 192 64)%Z with 12%Z in Hl. lia.
Qed.

Lemma ex_weight ts : exact_partition 256 192 ts ->
  0 < total_weight (box_eval box_default_size)
       (all_samples unit unit (fun u => (0, u)) (fun _ _ => tt) ex_next ex_rad 1 ts tt) 0 0.
Proof.
  intros Hp.
  assert (Hc : Z.of_nat (count (flat_map (fun t => tile_order 1 (fst t))
      (combine (rev ts) (tile_samplers unit unit (fun u => (0, u)) (fun _ _ => tt) (length ts) tt))) (0, 0)%Z) = 1%Z).
  { apply pool_samples_count with (w := 256%Z) (h := 192%Z); try assumption; [lia|]. unfold in_film; lia. }
  assert (Hin : In (0, 0)%Z (flat_map (fun t : tile * unit => tile_order 1 (fst t))
      (combine (rev ts) (tile_samplers unit unit (fun u => (0, u)) (fun _ _ => tt) (length ts) tt)))).
  { apply (count_occ_In zz_dec). unfold count in Hc. lia. }
  apply in_flat_map in Hin. destruct Hin as [t [Ht Hin]].
  apply (total_weight_pos _ _ (V2 (0 + 1 / 2) (0 + 1 / 2), V3 1 1 1)).
  - apply box_nonneg.
  - unfold all_samples. apply in_flat_map. exists t. split; [assumption|].
    unfold ex_next, ex_rad. rewrite draw_center. apply in_map_iff. exists (0, 0)%Z. split; [reflexivity|assumption].
  - unfold offset, box_eval; simpl. replace (0 + 1 / 2 - (0 + 1 / 2)) with 0 by lra. rewrite Rabs_R0.
    destruct (Rlt_dec 0 (1 / 2)); [lra|]. exfalso; lra.
Qed.

Example C04_case : exists ts p l, initialize_pool 64 256 192 = Ok ts /\ NoDup ts /\
  csteps (rev ts) (ex_init ts (fun _ _ => V3 0 0 0)) (Run p, l) /\ p_pc p = PDone.
Proof.
  destruct ex_tiles as [ts [E [Hnd [Hl Hp]]]].
  destruct (C04_no_deadlock unit unit (fun u => (0, u)) (fun _ _ => tt) ex_next ex_rad box_default_size
     (box_eval box_default_size) 12 1 256 192 ts (fun _ _ => V3 0 0 0) tt Hnd ltac:(lia) ltac:(lia) _ (csteps_refl _ _))
     as [p [l [H1 H2]]].
  exists ts, p, l. auto.
Qed.

(** C08: refuted.  The image is never cleared, so the old contents leak into the result. *)
Theorem C08_ignores_old_contents_refuted :
  exists ts i0 i1 p0 l0 p1 l1, initialize_pool 64 256 192 = Ok ts /\
   csteps (rev ts) (ex_init ts i0) (Run p0, l0) /\ p_pc p0 = PDone /\
   csteps (rev ts) (ex_init ts i1) (Run p1, l1) /\ p_pc p1 = PDone /\
   pool_finish 256 (l_mem l0) 0 0 <> pool_finish 256 (l_mem l1) 0 0.
Proof.
  destruct ex_tiles as [ts [E [Hnd [Hl Hp]]]].
  pose (i0 := fun _ _ : Z => V3 0 0 0). pose (i1 := fun _ _ : Z => V3 1 1 1).
  assert (G : forall im, exists p l, csteps (rev ts) (ex_init ts im) (Run p, l) /\ p_pc p = PDone).
  { intros im. apply (C04_no_deadlock unit unit (fun u => (0, u)) (fun _ _ => tt) ex_next ex_rad box_default_size
     (box_eval box_default_size) 12 1 256 192 ts im tt Hnd ltac:(lia) ltac:(lia) _ (csteps_refl _ _)). }
  destruct (G i0) as [p0 [l0 [H0 D0]]]. destruct (G i1) as [p1 [l1 [H1 D1]]].
  exists ts, i0, i1, p0, l0, p1, l1. repeat split; try assumption.
  assert (Hlen : (12 <= length ts)%nat) by lia.
  assert (Hin : in_film 256 192 0 0) by (unfold in_film; lia).
  pose proof (C04_film_schedule_independent _ _ _ _ _ _ _ _ _ _ _ _ _ _ _ _ _ (box_supported _) Hnd Hlen H0 D0 0%Z 0%Z Hin) as R0.
  pose proof (C04_film_schedule_independent _ _ _ _ _ _ _ _ _ _ _ _ _ _ _ _ _ (box_supported _) Hnd Hlen H1 D1 0%Z 0%Z Hin) as R1.
  rewrite R0, R1. intros Heq.
  pose proof (ex_weight ts Hp) as Hw.
  pose proof (accumulated_difference (box_eval box_default_size) (i0 0%Z 0%Z) (i1 0%Z 0%Z) _ 0%Z 0%Z (Rgt_not_eq _ _ Hw)) as Hd.
  rewrite <- Heq in Hd. unfold vsub, vdiv, i0, i1 in Hd. simpl in Hd. injection Hd as Hd _ _.
  match type of Hd with _ - _ = _ / ?W => set (W0 := W) in * end.
  assert (0 < (1 - 0) / W0). { unfold Rdiv. rewrite Rminus_0_r, Rmult_1_l. apply Rinv_0_lt_compat. exact Hw. }
  lra.
Qed.
Print Assumptions C08_ignores_old_contents_refuted.

(** exactly how the old contents leak *)
Theorem C08_leak_is_old_over_weight (f : vec2 -> R) (i0 i1 : vec3) evs x y :
  total_weight f evs x y <> 0 ->
  vsub (accumulated f i1 evs x y) (accumulated f i0 evs x y) = vdiv (vsub i1 i0) (total_weight f evs x y).
Proof. exact (accumulated_difference f i0 i1 evs x y). Qed.
Print Assumptions C08_leak_is_old_over_weight.
Example C08_case : let evs := [(V2 0 0, V3 6 0 0); (V2 0 0, V3 2 0 0)] in
  total_weight (fun _ => 2) evs 0 0 <> 0 /\ accumulated (fun _ => 2) (V3 0 0 0) evs 0 0 = V3 4 0 0 /\
  accumulated (fun _ => 2) (V3 8 4 0) evs 0 0 = V3 6 1 0.
Proof.
  cbv zeta. assert (W : total_weight (fun _ => 2) [(V2 0 0, V3 6 0 0); (V2 0 0, V3 2 0 0)] 0 0 = 4) by (unfold total_weight, RSum.rsum; cbn [map fold_right]; lra).
  unfold accumulated. rewrite W. split; [lra|].
  destruct (Req_EM_T 4 0); [lra|]. split; unfold vdiv, weighted, RSum.rsum; cbn; f_equal; lra.
Qed.

(** from a black image the parallel film is the filtered average, as in the sequential case *)
Theorem C08_black_start_is_filtered_average (f : vec2 -> R) evs x y :
  (forall v, 0 <= f v) -> accumulated f (V3 0 0 0) evs x y = filtered f evs x y.
Proof. exact (accumulated_black f evs x y). Qed.
Print Assumptions C08_black_start_is_filtered_average.

(** C09, multi-threaded: every pixel of the film receives exactly spp camera samples. *)
Theorem C09_parallel_samples_per_pixel
    (M S : Type) (next1D : M -> R * M) (copy : M -> R -> S) (next2D : S -> vec2 * S)
    (radiance_of : S -> vec2 -> vec2 -> vec3 * S) (tw spp w h : Z) (m : M) ts x y :
  (forall s, unit_square (fst (next2D s))) -> (0 <= spp)%Z ->
  (0 < tw)%Z -> (0 <= w)%Z -> (0 <= h)%Z -> initialize_pool tw w h = Ok ts -> in_film w h x y ->
  Z.of_nat (samples_in (all_samples M S next1D copy next2D radiance_of spp ts m) x y) = spp.
Proof.
  intros Hu Hs Htw Hw Hh E Hf.
  destruct (initialize_pool_spec tw w h Htw Hw Hh) as [ts' [E' [Hp _]]].
  rewrite E in E'. injection E' as <-.
  exact (pool_samples_in M S next1D copy next2D radiance_of spp w h ts m x y Hu Hs Hp Hf).
Qed.
Print Assumptions C09_parallel_samples_per_pixel.

Example C09_parallel_case : unit_square (fst (ex_next tt)) /\ in_film 256 192 255 191.
Proof. split; [unfold unit_square; simpl; lra|unfold in_film; lia]. Qed.

(** C69: the tiles are started in the same order under every schedule, so each tile receives
    the same private sampler. *)
Theorem C69_start_order_fixed (n : nat) (tiles : list tile) (p : pool) :
  steps (pool_init n tiles) (Run p) -> rev (p_started p) ++ p_pending p = rev tiles.
Proof. intros H. exact (start_order n tiles _ H p eq_refl). Qed.
Print Assumptions C69_start_order_fixed.

Example C69_case : exists p, steps (pool_init 2 [Tile 0 0 1 1 0; Tile 1 0 2 1 1; Tile 2 0 3 1 2]%Z) (Run p) /\
  p_started p = [Tile 2 0 3 1 2]%Z.
Proof.
  pose proof (st_start (Pool (PStart 0) (rev [Tile 0 0 1 1 0; Tile 1 0 2 1 1; Tile 2 0 3 1 2]%Z)
       (repeat (Slot None false) 2) [] []) 0 eq_refl ltac:(simpl; lia)) as H.
  unfold assign in H. simpl in H.
  eexists. split; [eapply steps_step; [apply steps_refl|exact H]|reflexivity].
Qed.
