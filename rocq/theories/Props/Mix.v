(** C198: light adds up. *)
From Coq Require Import Reals List Bool ZArith Lra Lia.
From Coquelicot Require Import Rbar.
From Verif.Base Require Import Outcome.
From Verif.Model Require Import Vec Frame BBox Warp Clocker Integrators Bsdf Scene VolPath Renderer Tiles Locks Film PoolFilm.
From Verif.Spec Require Import TilesSpec FilmSpec PoolSpec TransportSpec MixSpec.
From Verif.Proof Require Import VecLemmas FilmProof PoolFilmProof MixProof MixImage.
Import ListNotations.
Open Scope R_scope.

Section Mix.
Context {M W : Type}.
Variables S1 S2 S3 : scene M.
Hypothesis lights_add : mixture S1 S2 S3.
Variable now : W -> R * W.
Variable hit : W -> ray -> option isect * W.
Variable rnd1 : W -> R * W.
Variable rnd2 : W -> vec2 * W.
Variable nn : nat.

(** the radiance under the lights of S1 and S2 together is the sum of the radiances; the rays, the random
    numbers and the clocks are those of either *)
Theorem C198_path n r s : run3 (scene_path S1 W now hit rnd1 rnd2 nn n r s) (scene_path S2 W now hit rnd1 rnd2 nn n r s) (scene_path S3 W now hit rnd1 rnd2 nn n r s).
Proof. apply rm3_run, scene_path_mixed, lights_add. Qed.
Theorem C198_whitted n r s : run3 (scene_whitted S1 W now hit rnd1 rnd2 nn n r s) (scene_whitted S2 W now hit rnd1 rnd2 nn n r s) (scene_whitted S3 W now hit rnd1 rnd2 nn n r s).
Proof. apply rm3_run, scene_whitted_mixed, lights_add. Qed.
Theorem C198_volpath boundary ms phase n fuel md r s : run3 (scene_volpath S1 W now hit rnd1 rnd2 boundary ms phase n fuel md r s)
  (scene_volpath S2 W now hit rnd1 rnd2 boundary ms phase n fuel md r s) (scene_volpath S3 W now hit rnd1 rnd2 boundary ms phase n fuel md r s).
Proof. apply rm3_run, scene_volpath_mixed; assumption. Qed.

(** the image of the single-threaded loop, for any film, filter and camera *)
Theorem C198_image camera fsize feval spp w h i1 i2 i3 s n : supported feval fsize ->
  exists im1 im2 im3 t1 t2 t3,
    render (st W) (next_point rnd2) (radiance (scene_path S1 W now hit rnd1 rnd2 nn n) camera) fsize feval spp w h i1 s = Ok (im1, t1) /\
    render (st W) (next_point rnd2) (radiance (scene_path S2 W now hit rnd1 rnd2 nn n) camera) fsize feval spp w h i2 s = Ok (im2, t2) /\
    render (st W) (next_point rnd2) (radiance (scene_path S3 W now hit rnd1 rnd2 nn n) camera) fsize feval spp w h i3 s = Ok (im3, t3) /\
    forall x y, in_film w h x y -> im3 x y = vadd (im1 x y) (im2 x y).
Proof. apply image_mixed. intros r. apply scene_path_mixed, lights_add. Qed.

(** the image of the thread pool, whatever the schedules and the numbers of threads *)
Theorem C198_threads {A} (next1D : A -> R * A) (copy : A -> R -> st W) camera fsize feval n1 n2 n3 spp w h tiles i1 i2 m p1 l1 p2 l2 p3 l3 b :
  supported feval fsize -> NoDup tiles -> (n1 <= length tiles)%nat -> (n2 <= length tiles)%nat -> (n3 <= length tiles)%nat ->
  csteps (rev tiles) (cinit A (st W) next1D copy (next_point rnd2) (radiance (scene_path S1 W now hit rnd1 rnd2 nn b) camera) fsize feval n1 spp w h tiles i1 m) (Run p1, l1) -> p_pc p1 = PDone ->
  csteps (rev tiles) (cinit A (st W) next1D copy (next_point rnd2) (radiance (scene_path S2 W now hit rnd1 rnd2 nn b) camera) fsize feval n2 spp w h tiles i2 m) (Run p2, l2) -> p_pc p2 = PDone ->
  csteps (rev tiles) (cinit A (st W) next1D copy (next_point rnd2) (radiance (scene_path S3 W now hit rnd1 rnd2 nn b) camera) fsize feval n3 spp w h tiles
    (fun x y => vadd (i1 x y) (i2 x y)) m) (Run p3, l3) -> p_pc p3 = PDone ->
  forall x y, in_film w h x y -> pool_finish w (l_mem l3) x y = vadd (pool_finish w (l_mem l1) x y) (pool_finish w (l_mem l2) x y).
Proof. apply pool_image_mixed. intros r. apply scene_path_mixed, lights_add. Qed.
End Mix.
(** the lights sorted into two groups in any way: the picture with one group switched off plus the picture
    with the other group switched off is the picture *)
Theorem C198_groups {M W} (S : scene M) (g : emitter -> bool) now hit rnd1 rnd2 nn camera fsize feval spp w h i1 i2 i3 (s : st W) n : supported feval fsize ->
  exists im1 im2 im3 t1 t2 t3,
    render (st W) (next_point rnd2) (radiance (scene_path (lit g S) W now hit rnd1 rnd2 nn n) camera) fsize feval spp w h i1 s = Ok (im1, t1) /\
    render (st W) (next_point rnd2) (radiance (scene_path (lit (fun e => negb (g e)) S) W now hit rnd1 rnd2 nn n) camera) fsize feval spp w h i2 s = Ok (im2, t2) /\
    render (st W) (next_point rnd2) (radiance (scene_path S W now hit rnd1 rnd2 nn n) camera) fsize feval spp w h i3 s = Ok (im3, t3) /\
    forall x y, in_film w h x y -> im3 x y = vadd (im1 x y) (im2 x y).
Proof. apply C198_image, groups_mixed. Qed.
Print Assumptions C198_path.
Print Assumptions C198_whitted.
Print Assumptions C198_volpath.
Print Assumptions C198_image.
Print Assumptions C198_threads.
Print Assumptions C198_groups.

(** a floor with a mirror on it, a lamp, a plain sky and a textured sky; the plain sky alone, the other
    lights alone, and all of them, seen by an upward ray *)
Definition mx_frame : frame := Fr (V3 1 0 0) (V3 0 1 0) (V3 0 0 1).
Definition mx_floor (w : nat) (r : ray) : option isect * nat :=
  (if Rlt_dec (vz (dir r)) 0 then
     Some (Isect (ray_at r (- vz (org r) / vz (dir r))) (- vz (org r) / vz (dir r)) (V3c (1 / 3)) mx_frame mx_frame 0 false)
   else None, w).
Definition mx_scene : scene unit :=
  Scene [EPoint (V3c 1) (V3 0 0 2)] [EEnv None (V3c 2); EEnv (Some (fun _ => V3 1 0 0)) (V3c 3)] (fun _ => Some (EMesh 0 (V3c 5)))
        (fun _ => Simple (Mirror (V3c 1))) (fun m => m) (fun _ _ => UB) (fun _ => None) (fun _ _ => QRet (V3c 1)) 3 false.
Definition plain_sky (e : emitter) : bool := match e with EEnv None _ => true | _ => false end.
Example C198_case :
  let up := Ray (V3 0 0 1) (V3 0 0 1) (Finite 0) p_infty in
  let seen S := fst (scene_path S nat (fun w => (0, w)) mx_floor (fun w => (1 / 2, w)) (fun w => (V2 (1 / 2) (1 / 2), w)) 1 2 up (St nat clk_init 0%nat [])) in
  mixture (lit plain_sky mx_scene) (lit (fun e => negb (plain_sky e)) mx_scene) mx_scene /\
  seen (lit plain_sky mx_scene) = Ok (V3c 2) /\ seen (lit (fun e => negb (plain_sky e)) mx_scene) = Ok (V3 3 0 0) /\ seen mx_scene = Ok (V3 5 2 2) /\
  lit plain_sky mx_scene <> lit (fun e => negb (plain_sky e)) mx_scene.
Proof.
  cbv zeta. set (up := Ray _ _ _ _). set (seen := fun S => fst (scene_path S nat _ _ _ _ _ _ up _)).
  assert (E : forall S, sc_envs S = sc_envs (lit plain_sky mx_scene) \/ sc_envs S = sc_envs (lit (fun e => negb (plain_sky e)) mx_scene) -> seen S = Ok (sc_env S up)).
  { intros S _. unfold seen, scene_path, path_Li. cbv -[Rplus Rmult Rminus Ropp Rinv Rdiv IZR sqrt Rlt_dec Rgt_dec Req_EM_T Rle_dec cos sin PI Rmin isZero_dec isZero path_loop sc_env sc_evaluate sc_mat sc_sample up mx_floor].
    change (V3 0 0 0) with (V3c 0). unfold path_loop. fold (path_loop nat).
    destruct (isZero_dec _) as [Z|_]; [exfalso; destruct Z as (Z & _); cbn in Z; rewrite Rabs_pos_eq in Z; lra|].
    unfold bindM, clk_start, intersect_non_null, nn_loop, accel_intersect, mx_floor, up. cbn [dir vz fst snd].
    destruct (Rlt_dec 1 0); [lra|]. cbn -[sc_env]. do 2 f_equal; vring. }
  split; [apply groups_mixed|].
  assert (A : seen (lit plain_sky mx_scene) = Ok (V3c 2)) by (rewrite E by auto; f_equal; unfold sc_env; cbn; vring).
  assert (B : seen (lit (fun e => negb (plain_sky e)) mx_scene) = Ok (V3 3 0 0)) by (rewrite E by auto; f_equal; unfold sc_env; cbn; vring).
  split; [exact A|]. split; [exact B|]. split.
  - pose proof (C198_path _ _ _ (groups_mixed plain_sky mx_scene) (fun w => (0, w)) mx_floor (fun w => (1 / 2, w)) (fun w => (V2 (1 / 2) (1 / 2), w)) 1 2 up (St nat clk_init 0%nat [])) as (H & _).
    unfold seen in A, B. rewrite A, B in H. unfold seen. destruct (fst (scene_path mx_scene _ _ _ _ _ _ _ _ _)); cbn in H; try contradiction. rewrite H. f_equal. vring.
  - intros F. rewrite <- F, A in B. injection B. lra.
Qed.
