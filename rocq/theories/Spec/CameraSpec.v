(** Camera claims in geometric terms. *)
From Coq Require Import Reals.
From Coquelicot Require Import Rbar.
From Verif.Model Require Import Vec Matrix BBox Camera.
From Verif.Spec Require Import LinAlgSpec.
Open Scope R_scope.

(** settings for which the projection matrix is meaningful *)
Definition cam_ok (c : persp) : Prop :=
  0 < cnear c < cfar c /\ 0 < fov c < 180 /\ 0 < filmW c /\ 0 < filmH c.
(** the camera-to-world transform moves the camera rigidly *)
Definition rigid (t : transform) : Prop :=
  affine (tmat t) /\ forall v w, dot (tf_vector t v) (tf_vector t w) = dot v w.
(** the point of the plane z = 1 seen through a film position *)
Definition film_point (c : persp) (film : vec2) : vec3 :=
  let tn := tan (fov c / 2 * (PI / 180)) in
  V3 ((1 - 2 * (x2 film / filmW c)) * tn)
     ((1 - 2 * (y2 film / filmH c)) * tn * (filmH c / filmW c)) 1.
Definition in_unit_square (s : vec2) : Prop := 0 <= x2 s <= 1 /\ 0 <= y2 s <= 1.
