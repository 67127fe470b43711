(** src/math/coord_frame.cpp: local shading frames. *)
From Coq Require Import Reals.
From Verif.Model Require Import Vec.
Open Scope R_scope.

(** include/feign/math/coord_frame.h: members s, t, n. *)
Record frame := Fr { fs : vec3; ft : vec3; fn : vec3 }.

(** coord_frame.cpp:105-118.  Both out-parameters are returned: (b, c). *)
Definition coordinateSystem (a : vec3) : vec3 * vec3 :=
  let c := if Rgt_dec (Rabs (vx a)) (Rabs (vy a))
           then let invLen := 1 / sqrt (vx a * vx a + vz a * vz a) in
                V3 (vz a * invLen) 0 (- vx a * invLen)
           else let invLen := 1 / sqrt (vy a * vy a + vz a * vz a) in
                V3 0 (vz a * invLen) (- vy a * invLen) in
  (cross c a, c).

(** coord_frame.cpp:30-34 *)
Definition frame_of (n : vec3) : frame :=
  let (s, t) := coordinateSystem n in Fr s t n.

(** coord_frame.cpp:36-41 *)
Definition toLocal (f : frame) (v : vec3) : vec3 := V3 (dot v (fs f)) (dot v (ft f)) (dot v (fn f)).
(** coord_frame.cpp:43-48 *)
Definition toWorld (f : frame) (v : vec3) : vec3 :=
  vadd (vadd (vscale (fs f) (vx v)) (vscale (ft f) (vy v))) (vscale (fn f) (vz v)).
(** coord_frame.cpp:51-54 *)
Definition cosTheta (v : vec3) : R := vz v.
(** coord_frame.cpp:120-130 *)
Definition sphericalDirection (cos_theta sin_theta phi : R) (x y z : vec3) : vec3 :=
  vadd (vadd (vscale (vscale x (cos phi)) sin_theta) (vscale (vscale y (sin phi)) sin_theta))
       (vscale z cos_theta).
