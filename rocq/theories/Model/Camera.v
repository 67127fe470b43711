(** src/cameras/perspective.cpp and the look-at part of src/api/api.cpp: fr_camera. *)
From Coq Require Import Reals.
From Coquelicot Require Import Rbar.
From Verif.Model Require Import Vec Matrix BBox Warp.
Open Scope R_scope.

(** Perspective's members (include/feign/core/camera.h, perspective.cpp:15-30) *)
Record persp := Persp {
  aperture : R; focalDist : R; fov : R; cnear : R; cfar : R;
  filmW : R; filmH : R;                (* filmSize *)
  camToWorld : transform }.

(** perspective.cpp:39-45; the default Matrix4 is all zeros (vector.h:1374-1380) *)
Definition persp_mat (c : persp) : mat4 :=
  let recip := 1 / (cfar c - cnear c) in
  let cot := 1 / tan ((fov c / 2) * (PI / 180)) in
  M4 cot 0 0 0  0 cot 0 0  0 0 (cfar c * recip) (- cnear c * cfar c * recip)  0 0 1 0.
(** perspective.cpp:32-53 *)
Definition sampleToCamera (c : persp) : transform :=
  let aspect := filmW c / filmH c in
  let mat := m4_mul (m4_mul (m4_scale (V3 (- (1 / 2)) (- (1 / 2) * aspect) 1))
                            (m4_translate (V3 (- 1) (- 1 / aspect) 0))) (persp_mat c) in
  tf_inverse (tf_of mat).

(** perspective.cpp:59-64: direction through the film sample, camera space *)
Definition cam_dir (c : persp) (film : vec2) : vec3 :=
  normalized (tf_point (sampleToCamera c) (V3 (x2 film * 1 / filmW c) (y2 film * 1 / filmH c) 0)).
(** perspective.cpp:67 *)
Definition lens_point (c : persp) (app : vec2) : vec3 :=
  let ap := scale2 (sqrToUniDisk app) (aperture c) in V3 (x2 ap) (y2 ap) 0.
(** perspective.cpp:68-72 *)
Definition lens_dir (c : persp) (film app : vec2) : vec3 :=
  let d := cam_dir c film in
  normalized (vsub (vscale d (focalDist c / vz d)) (lens_point c app)).
(** perspective.cpp:55-84; the returned weight is always white *)
Definition sampleRay (c : persp) (film app : vec2) : ray :=
  let invZ := 1 / vz (cam_dir c film) in
  Ray (tf_point (camToWorld c) (lens_point c app))
      (tf_vector (camToWorld c) (lens_dir c film app))
      (cnear c * invZ) (cfar c * invZ).

(** api.cpp:731-740 *)
Definition look_z (origin target : vec3) : vec3 := normalized (vsub target origin).
Definition look_x (origin target up : vec3) : vec3 := normalized (cross (normalized up) (look_z origin target)).
Definition look_y (origin target up : vec3) : vec3 := normalized (cross (look_z origin target) (look_x origin target up)).
Definition m4_zero : mat4 := M4 0 0 0 0 0 0 0 0 0 0 0 0 0 0 0 0.
Definition look_at (origin target up : vec3) : mat4 :=
  m4_setCol (m4_setCol (m4_setCol (m4_setCol m4_zero 0 (V4_of3 (look_x origin target up) 0))
                                   1 (V4_of3 (look_y origin target up) 0))
                       2 (V4_of3 (look_z origin target) 0))
            3 (V4_of3 origin 1).
