(** C65, C66: the perspective camera and the look-at transform. *)
From Coq Require Import Reals List Lra Lia.
From Coquelicot Require Import Rbar.
From Verif.Base Require Import RTac.
From Verif.Model Require Import Vec Matrix BBox Warp Camera.
From Verif.Spec Require Import LinAlgSpec FrameSpec CameraSpec.
From Verif.Proof Require Import VecLemmas LinAlg TransformProof FrameProof CameraProof.
Import ListNotations.
Open Scope R_scope.

(** C65 *)
Theorem C65_ray_directions_are_unit c film app : cam_ok c -> 0 < focalDist c -> rigid (camToWorld c) ->
  unit3 (dir (sampleRay c film app)).
Proof. exact (ray_unit c film app). Qed.
Print Assumptions C65_ray_directions_are_unit.
(** without an aperture the ray starts at the camera position and points through the film position:
    the direction is the normalised film point, rotated into the world *)
Theorem C65_pinhole_ray c film app : cam_ok c -> 0 < focalDist c -> aperture c = 0 ->
  org (sampleRay c film app) = tf_point (camToWorld c) (V3 0 0 0) /\
  dir (sampleRay c film app) = tf_vector (camToWorld c) (vdiv (film_point c film) (norm (film_point c film))).
Proof.
  intros H F E. split; [exact (pinhole_origin c film app E)|]. simpl. rewrite pinhole_dir, cam_dir_eq by assumption.
  rewrite normalized_vdiv. reflexivity.
Qed.
Print Assumptions C65_pinhole_ray.
Theorem C65_distinct_film_positions_distinct_rays c f g a b : cam_ok c -> 0 < focalDist c -> aperture c = 0 ->
  rigid (camToWorld c) -> dir (sampleRay c f a) = dir (sampleRay c g b) -> f = g.
Proof. exact (pinhole_inj c f g a b). Qed.
Print Assumptions C65_distinct_film_positions_distinct_rays.
(** with a thin lens all rays of one film position meet in its focal point, and start on the lens *)
Theorem C65_thin_lens_focus c film app : cam_ok c -> 0 < focalDist c -> affine (tmat (camToWorld c)) ->
  exists t, 0 < t /\ ray_at (sampleRay c film app) t =
    tf_point (camToWorld c) (vscale (film_point c film) (focalDist c)).
Proof. exact (ray_through_focus c film app). Qed.
Print Assumptions C65_thin_lens_focus.
Theorem C65_lens_origin c film app : in_unit_square app -> exists p,
  org (sampleRay c film app) = tf_point (camToWorld c) p /\ vz p = 0 /\ sqrNorm p <= aperture c * aperture c.
Proof. intros S. exists (lens_point c app). split; [reflexivity|]. exact (lens_point_bound c app S). Qed.
Print Assumptions C65_lens_origin.
(** the ray range is cut off exactly at the near and far planes *)
Theorem C65_clip_planes c film app : cam_ok c -> 0 < focalDist c -> aperture c = 0 ->
  exists tn tf, rnear (sampleRay c film app) = Finite tn /\ rfar (sampleRay c film app) = Finite tf /\ 0 < tn < tf /\
   vz (vscale (lens_dir c film app) tn) = cnear c /\ vz (vscale (lens_dir c film app) tf) = cfar c.
Proof. exact (pinhole_range c film app). Qed.
Print Assumptions C65_clip_planes.
(** the centre of the film looks straight ahead *)
Theorem C65_central_ray c app : cam_ok c -> 0 < focalDist c -> aperture c = 0 ->
  dir (sampleRay c (V2 (filmW c / 2) (filmH c / 2)) app) = tf_vector (camToWorld c) (V3 0 0 1).
Proof.
  intros H F E. destruct (C65_pinhole_ray c (V2 (filmW c / 2) (filmH c / 2)) app H F E) as [_ ->].
  destruct H as (_&_&W&Hh). f_equal.
  assert (P : film_point c (V2 (filmW c / 2) (filmH c / 2)) = V3 0 0 1).
  { unfold film_point. cbv zeta. cbn [x2 y2]. set (tn := tan _). clearbody tn. apply V3_eq; cbn [vx vy vz]; [field; lra|field; lra|reflexivity]. }
  rewrite P. unfold norm; cbn [vx vy vz]. replace (0 * 0 + 0 * 0 + 1 * 1) with 1 by ring. rewrite sqrt_1.
  unfold vdiv; cbn [vx vy vz]. apply V3_eq; cbn [vx vy vz]; field.
Qed.
Print Assumptions C65_central_ray.
Example C65_case : cam_ok (Persp 0 1 90 1 10 4 2 (tf_of (m4_translate (V3 1 2 3)))) /\
  rigid (tf_of (m4_translate (V3 1 2 3))).
Proof.
  split; [unfold cam_ok; simpl; lra|]. split; [repeat split|]. intros v w.
  unfold tf_vector, m3_vec, topLeft, dot; simpl. ring.
Qed.

(** C66 *)
Theorem C66_look_at_rigid o t u : vsub t o <> vzero -> cross u (vsub t o) <> vzero ->
  rigid (tf_of (look_at o t u)) /\ m4_det (look_at o t u) = 1.
Proof. intros N C. exact (conj (look_at_rigid o t u N C) (look_at_det o t u N C)). Qed.
Print Assumptions C66_look_at_rigid.
Theorem C66_look_at_axes o t u : vsub t o <> vzero -> cross u (vsub t o) <> vzero ->
  orthonormal (look_x o t u) (look_y o t u) (look_z o t) /\ cross (look_x o t u) (look_y o t u) = look_z o t /\
  dot (look_x o t u) u = 0 /\ 0 < dot (look_y o t u) u.
Proof. exact (look_at_up o t u). Qed.
Print Assumptions C66_look_at_axes.
Theorem C66_look_at_maps o t u :
  tf_vector (tf_of (look_at o t u)) (V3 0 0 1) = vdiv (vsub t o) (norm (vsub t o)) /\
  tf_point (tf_of (look_at o t u)) (V3 0 0 0) = o.
Proof. exact (look_at_maps o t u). Qed.
Print Assumptions C66_look_at_maps.
Example C66_case : vsub (V3 0 0 0) (V3 3 4 5) <> vzero /\ cross (V3 0 1 0) (vsub (V3 0 0 0) (V3 3 4 5)) <> vzero.
Proof. split; intros E; apply (f_equal vx) in E; unfold vsub, cross, vzero in E; simpl in E; lra. Qed.
