(** C188, C189: what changing the lights, or moving the scene, does to whole images. *)
From Coq Require Import Reals List Bool ZArith Lra Lia.
From Coquelicot Require Import Rbar.
From Verif.Base Require Import Outcome.
From Verif.Model Require Import Vec Matrix Frame BBox Warp Clocker Camera Integrators Bsdf Scene VolPath Renderer Tiles Locks Film PoolFilm.
From Verif.Spec Require Import TilesSpec FilmSpec PoolSpec TransportSpec.
From Verif.Proof Require Import VecLemmas FilmProof PoolFilmProof TransportProof TransportImage RendererProof.
Import ListNotations.
Open Scope R_scope.

Section Brighter.
Context {M W : Type}.
Variable S : scene M.
Variable k : vec3.
Variable now : W -> R * W.
Variable hit : W -> ray -> option isect * W.
Variable rnd1 : W -> R * W.
Variable rnd2 : W -> vec2 * W.
Variable nn : nat.

(** C188: every light multiplied, channel by channel, by k: the same rays are cast, the same random
    numbers are drawn, the same clocks run, and the radiance along every ray is multiplied by k *)
Theorem C188_path n r s : same_run k (scene_path S W now hit rnd1 rnd2 nn n r s) (scene_path (brighter_scene k S) W now hit rnd1 rnd2 nn n r s).
Proof.
  pose proof (scene_path_moved (V3c 0) k S (brighter_scene k S) (brighter_is_moved k S) now hit hit rnd1 rnd2 nn (moved_world_0 hit) n r s s eq_refl eq_refl) as H.
  rewrite moved_ray_0 in H. exact H.
Qed.
Theorem C188_whitted n r s : same_run k (scene_whitted S W now hit rnd1 rnd2 nn n r s) (scene_whitted (brighter_scene k S) W now hit rnd1 rnd2 nn n r s).
Proof.
  pose proof (scene_whitted_moved (V3c 0) k S (brighter_scene k S) (brighter_is_moved k S) now hit hit rnd1 rnd2 nn (moved_world_0 hit) n r s s eq_refl eq_refl) as H.
  rewrite moved_ray_0 in H. exact H.
Qed.

Theorem C188_volpath boundary ms phase n fuel md r s : same_run k
  (scene_volpath S W now hit rnd1 rnd2 boundary ms phase n fuel md r s) (scene_volpath (brighter_scene k S) W now hit rnd1 rnd2 boundary ms phase n fuel md r s).
Proof.
  assert (D : moved_distance (V3c 0) ms ms) by (intros m f q d; rewrite moved_ray_0; apply same_program_0).
  pose proof (scene_volpath_moved (V3c 0) k S (brighter_scene k S) (brighter_is_moved k S) now hit hit rnd1 rnd2 (moved_world_0 hit) boundary ms ms phase n fuel md D r s s eq_refl eq_refl) as H.
  rewrite moved_ray_0 in H. exact H.
Qed.

(** the image of the single-threaded loop: any film, filter, camera *)
Theorem C188_image camera fsize feval spp w h img0 s n : supported feval fsize ->
  exists im im' s1 s1',
    render (st W) (next_point rnd2) (radiance (scene_path S W now hit rnd1 rnd2 nn n) camera) fsize feval spp w h img0 s = Ok (im, s1) /\
    render (st W) (next_point rnd2) (radiance (scene_path (brighter_scene k S) W now hit rnd1 rnd2 nn n) camera) fsize feval spp w h img0 s = Ok (im', s1') /\
    forall x y, in_film w h x y -> im' x y = vmul (im x y) k.
Proof.
  apply (image_moved (V3c 0) k). 2: { intros ps a. now rewrite moved_ray_0. }
  apply scene_path_moved; [apply brighter_is_moved|apply moved_world_0].
Qed.

(** the image of the thread pool, whatever the two schedules and the two numbers of threads *)
Theorem C188_threads {A} (next1D : A -> R * A) (copy : A -> R -> st W) camera fsize feval n n' spp w h tiles img0 m p l p' l' b :
  supported feval fsize -> NoDup tiles -> (n <= length tiles)%nat -> (n' <= length tiles)%nat ->
  csteps (rev tiles) (cinit A (st W) next1D copy (next_point rnd2) (radiance (scene_path S W now hit rnd1 rnd2 nn b) camera) fsize feval n spp w h tiles img0 m) (Run p, l) ->
  p_pc p = PDone ->
  csteps (rev tiles) (cinit A (st W) next1D copy (next_point rnd2) (radiance (scene_path (brighter_scene k S) W now hit rnd1 rnd2 nn b) camera) fsize feval n' spp w h tiles
    (fun x y => vmul (img0 x y) k) m) (Run p', l') ->
  p_pc p' = PDone ->
  forall x y, in_film w h x y -> pool_finish w (l_mem l') x y = vmul (pool_finish w (l_mem l) x y) k.
Proof.
  apply (pool_image_moved (V3c 0) k). 2: { intros ps a. now rewrite moved_ray_0. }
  apply scene_path_moved; [apply brighter_is_moved|apply moved_world_0].
Qed.
End Brighter.
Print Assumptions C188_path.
Print Assumptions C188_whitted.
Print Assumptions C188_volpath.
Print Assumptions C188_image.
Print Assumptions C188_threads.

Section Moved.
Context {M W : Type}.
Variable t : vec3.
Variables S S' : scene M.
Hypothesis scene_moved : displaced_scene t S S'.
Variable now : W -> R * W.
Variables hit hit' : W -> ray -> option isect * W.
Hypothesis surfaces_moved : moved_world t hit hit'.
Variable rnd1 : W -> R * W.
Variable rnd2 : W -> vec2 * W.
Variable nn : nat.

(** C189: the scene moved by t, seen along a moved ray: the same radiance *)
Theorem C189_path n r s : same_run (V3c 1) (scene_path S W now hit rnd1 rnd2 nn n r s) (scene_path S' W now hit' rnd1 rnd2 nn n (moved_ray t r) s).
Proof. apply (scene_path_moved t (V3c 1) S S' (displaced_is_moved t S S' scene_moved)); auto. Qed.
Theorem C189_whitted n r s : same_run (V3c 1) (scene_whitted S W now hit rnd1 rnd2 nn n r s) (scene_whitted S' W now hit' rnd1 rnd2 nn n (moved_ray t r) s).
Proof. apply (scene_whitted_moved t (V3c 1) S S' (displaced_is_moved t S S' scene_moved)); auto. Qed.
Theorem C189_volpath boundary ms ms' phase n fuel md r s : moved_distance t ms ms' -> same_run (V3c 1)
  (scene_volpath S W now hit rnd1 rnd2 boundary ms phase n fuel md r s) (scene_volpath S' W now hit' rnd1 rnd2 boundary ms' phase n fuel md (moved_ray t r) s).
Proof. intros D. apply (scene_volpath_moved t (V3c 1) S S' (displaced_is_moved t S S' scene_moved)); auto. Qed.

(** the views that show geometry *)
Theorem C189_views r s :
  same_run (V3c 1) (amb_occ_Li W now hit rnd2 nn r s) (amb_occ_Li W now hit' rnd2 nn (moved_ray t r) s) /\
  same_run (V3c 1) (normal_Li W now hit nn r s) (normal_Li W now hit' nn (moved_ray t r) s) /\
  same_run (V3c 1) (nice_normal_Li W now hit nn r s) (nice_normal_Li W now hit' nn (moved_ray t r) s) /\
  same_run (V3c 1) (cosine_Li W now hit nn r s) (cosine_Li W now hit' nn (moved_ray t r) s) /\
  same_run (V3c 1) (bary_Li W now hit nn r s) (bary_Li W now hit' nn (moved_ray t r) s).
Proof.
  repeat split; try (apply (rm_same t); [intros q|reflexivity|reflexivity]);
    first [apply (rm_ao t now hit hit' rnd2 nn surfaces_moved)|apply (rm_normal t now hit hit' nn surfaces_moved)|apply (rm_nice t now hit hit' nn surfaces_moved)
          |apply (rm_cosine t now hit hit' nn surfaces_moved)|apply (rm_bary t now hit hit' nn surfaces_moved)].
Qed.

(** the image of the perspective camera that is moved together with its target *)
Theorem C189_image ap fd fv near far fw fh o g up fsize feval spp w h img0 s n : supported feval fsize ->
  let camera := sampleRay (Persp ap fd fv near far fw fh (tf_of (look_at o g up))) in
  let camera' := sampleRay (Persp ap fd fv near far fw fh (tf_of (look_at (vadd o t) (vadd g t) up))) in
  exists im im' s1 s1',
    render (st W) (next_point rnd2) (radiance (scene_path S W now hit rnd1 rnd2 nn n) camera) fsize feval spp w h img0 s = Ok (im, s1) /\
    render (st W) (next_point rnd2) (radiance (scene_path S' W now hit' rnd1 rnd2 nn n) camera') fsize feval spp w h img0 s = Ok (im', s1') /\
    forall x y, in_film w h x y -> im' x y = im x y.
Proof.
  intros Su camera camera'.
  destruct (image_moved t (V3c 1) rnd2 (scene_path S W now hit rnd1 rnd2 nn n) (scene_path S' W now hit' rnd1 rnd2 nn n) camera camera'
    (scene_path_moved t (V3c 1) S S' (displaced_is_moved t S S' scene_moved) now hit hit' rnd1 rnd2 nn surfaces_moved n)
    (fun ps a => camera_moved ap fd fv near far fw fh o g up t ps a) fsize feval spp w h img0 img0 s Su) as (im & im' & s1 & s1' & A & B & C).
  exists im, im', s1, s1'. split; [exact A|]. split; [exact B|]. intros x y F. rewrite C by exact F. apply vmul_1.
Qed.
End Moved.
Print Assumptions C189_path.
Print Assumptions C189_whitted.
Print Assumptions C189_volpath.
Print Assumptions C189_views.
Print Assumptions C189_image.

(** a floor at height h; a point light above it, a glowing mirror on it, a uniform sky *)
Definition ex_frame : frame := Fr (V3 1 0 0) (V3 0 1 0) (V3 0 0 1).
Definition ex_floor (h : R) (w : nat) (r : ray) : option isect * nat :=
  (if Rlt_dec (vz (dir r)) 0 then
     Some (Isect (ray_at r ((h - vz (org r)) / vz (dir r))) ((h - vz (org r)) / vz (dir r)) (V3c (1 / 3)) ex_frame ex_frame 0 false)
   else None, w).
Definition ex_scene (lights : list emitter) : scene unit :=
  Scene lights [EEnv None (V3c 2)] (fun _ => Some (EMesh 0 (V3c 5))) (fun _ => Simple (Mirror (V3c 1))) (fun m => m)
        (fun _ _ => UB) (fun _ => None) (fun _ _ => QRet (V3c 1)) 3 false.
Definition ex_now (w : nat) : R * nat := (0, w).
Definition ex_rnd1 (w : nat) : R * nat := (1 / 2, w).
Definition ex_rnd2 (w : nat) : vec2 * nat := (V2 (1 / 2) (1 / 2), w).
Definition ex_ray : ray := Ray (V3 0 0 1) (V3 0 0 (-1)) (Finite 0) p_infty.
Definition ex_st : st nat := St nat clk_init 0%nat [].

(** an upward ray shows the sky; under lights tinted by (1, 2, 3) it is tinted *)
Example C188_case :
  let up := Ray (V3 0 0 1) (V3 0 0 1) (Finite 0) p_infty in
  let lit S := fst (scene_path S nat ex_now (ex_floor 0) ex_rnd1 ex_rnd2 1 2 up ex_st) in
  lit (ex_scene [EPoint (V3c 1) (V3 0 0 2)]) = Ok (V3c 2) /\
  lit (brighter_scene (V3 1 2 3) (ex_scene [EPoint (V3c 1) (V3 0 0 2)])) = Ok (V3 2 4 6).
Proof.
  cbv zeta. set (S := ex_scene _). set (up := Ray _ _ _ _).
  assert (A : fst (scene_path S nat ex_now (ex_floor 0) ex_rnd1 ex_rnd2 1 2 up ex_st) = Ok (V3c 2)).
  { cbv -[Rplus Rmult Rminus Ropp Rinv Rdiv IZR sqrt Rlt_dec Rgt_dec Req_EM_T Rle_dec cos sin PI Rmin isZero_dec isZero path_loop].
    change (V3 0 0 0) with (V3c 0). unfold path_loop. fold (path_loop nat).
    destruct (isZero_dec _) as [Z|_]; [exfalso; destruct Z as (Z & _); cbn in Z; rewrite Rabs_pos_eq in Z; lra|].
    unfold bindM, clk_start, ex_floor, intersect_non_null, nn_loop, accel_intersect. cbn.
    destruct (Rlt_dec 1 0); [lra|]. cbn. do 2 f_equal; vring. }
  split; [exact A|].
  pose proof (C188_path S (V3 1 2 3) ex_now (ex_floor 0) ex_rnd1 ex_rnd2 1 2 up ex_st) as [H _]. rewrite A in H.
  destruct (fst (scene_path (brighter_scene _ S) _ _ _ _ _ _ _ _ _)); cbn in H; try contradiction. rewrite H. f_equal. vring.
Qed.

(** the floor, the lamp and the eye lifted by (1, 2, 3) *)
Example C189_case :
  let t := V3 1 2 3 in
  displaced_scene t (ex_scene [EPoint (V3c 1) (V3 0 0 2)]) (ex_scene [EPoint (V3c 1) (V3 1 2 5)]) /\
  moved_world t (ex_floor 0) (ex_floor 3) /\
  fst (ex_floor 0 0%nat ex_ray) <> None /\ moved_ray t ex_ray = Ray (V3 1 2 4) (V3 0 0 (-1)) (Finite 0) p_infty /\
  supported (box_eval box_default_size) box_default_size /\
  moved_distance t (fun (_ : unit) _ _ d => QRand1 (fun u => QRet (V3c 1, u * d))) (fun _ _ _ d => QRand1 (fun u => QRet (V3c 1, u * d))).
Proof.
  cbv zeta. split; [|split; [|split; [|split; [|split]]]].
  - unfold displaced_scene, ex_scene; cbn [sc_emitters sc_envs sc_object_emitter sc_shader sc_inst sc_mesh_point sc_inside sc_transmittance sc_fuel sc_ignore map displaced option_map].
    split; [do 2 f_equal; vring|]. repeat split. intros _ r. constructor. reflexivity.
  - intros w r. unfold ex_floor, moved_ray. cbn [org dir fst snd vadd vz]. destruct (Rlt_dec (vz (dir r)) 0) as [L|L]; cbn [option_map]; [|reflexivity].
    unfold moved_hit. cbn [i_p i_t i_bary i_s i_g i_mesh i_null].
    replace ((3 - (vz (org r) + 3)) / vz (dir r)) with ((0 - vz (org r)) / vz (dir r)) by (field; lra).
    do 3 f_equal. unfold ray_at. cbn [org dir]. vring.
  - unfold ex_floor, ex_ray. cbn. destruct (Rlt_dec (-1) 0); [discriminate|lra].
  - unfold moved_ray, ex_ray; cbn. f_equal. vring.
  - apply box_supported.
  - intros m f r d. constructor. intros u. constructor. reflexivity.
Qed.
