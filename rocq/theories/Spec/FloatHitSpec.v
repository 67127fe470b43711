(** Hits of a mesh in single precision: what is expected of their positions. *)
From Coq Require Import Reals.
From Coquelicot Require Import Rbar.
From Flocq Require Import Core BinarySingleNaN.
From Verif.Base Require Import F32.
From Verif.Model Require Import Vec FloatDirs BBox Integrators.
From Verif.Spec Require Import FloatDirsSpec MeshSpec.
Open Scope R_scope.

(** the point with the coordinates of a vector of floats *)
Definition real_point (p : fvec) : vec3 := V3 (B2R (fvx p)) (B2R (fvy p)) (B2R (fvz p)).
Definition dist (a b : vec3) : R :=
  sqrt ((vx a - vx b) * (vx a - vx b) + (vy a - vy b) * (vy a - vy b) + (vz a - vz b) * (vz a - vz b)).
(** a triangle of floats, no coordinate larger than [B] *)
Definition tri_within (B : R) (p0 p1 p2 : fvec) : Prop :=
  (fv_fin p0 /\ fv_max p0 <= B) /\ (fv_fin p1 /\ fv_max p1 <= B) /\ (fv_fin p2 /\ fv_max p2 <= B).
(** barycentric coordinates of a point of a triangle, up to an error of 2^-20 *)
Definition bary_ok (u v : f32) : Prop :=
  is_finite u = true /\ is_finite v = true /\ 0 <= B2R u <= 1 /\ 0 <= B2R v <= 1 /\ B2R u + B2R v <= 1 + / 2 ^ 20.
(** the point of the triangle that has these coordinates *)
Definition true_point (p0 p1 p2 : fvec) (u v : f32) : vec3 :=
  combine3 (real_point p0) (real_point p1) (real_point p2) (V3 (1 - B2R u - B2R v) (B2R u) (B2R v)).
(** [n] is a unit normal of the triangle *)
Definition unit_normal (n p0 p1 p2 : vec3) : Prop :=
  dot n n = 1 /\ dot n (vsub p1 p0) = 0 /\ dot n (vsub p2 p0) = 0.
(** a ray leaving the point [p] the way the integrators make them: it starts at the distance Epsilon *)
Definition leaving (p d : vec3) : ray := Ray p d (Finite Epsilon) p_infty.
