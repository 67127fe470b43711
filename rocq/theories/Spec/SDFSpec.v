(** Solids, signed distances and what a ray tracer over them should answer.  Independent of the
    formulas used by the code. *)
From Coq Require Import Reals List.
From Coquelicot Require Import Rbar.
From Verif.Model Require Import Vec BBox SDF.
From Verif.Spec Require Import LinAlgSpec.
Import ListNotations.
Open Scope R_scope.

(** Euclidean distance *)
Definition dist (p q : vec3) : R := sqrt ((vx p - vx q) ^ 2 + (vy p - vy q) ^ 2 + (vz p - vz q) ^ 2).

(** d is the signed distance of p to the solid S: outside it is the smallest distance to a point
    of S, inside it is minus the radius of the largest open ball around p within S. *)
Definition signed_distance (S : vec3 -> Prop) (p : vec3) (d : R) : Prop :=
  (~ S p -> 0 < d /\ (forall q, S q -> d <= dist p q) /\ (exists q, S q /\ dist p q = d)) /\
  (S p -> d <= 0 /\ (forall q, dist p q < - d -> S q) /\ (forall e, 0 < e -> exists q, ~ S q /\ dist p q < - d + e)).

(** the point a + t (b - a) + w, with w at right angles to the axis, at distance rho from it *)
Definition around (a b : vec3) (t rho : R) (q : vec3) : Prop :=
  exists w, dot w (vsub b a) = 0 /\ norm w = rho /\ q = vadd (vadd a (vscale (vsub b a) t)) w.
(** the solids meant by the five shapes *)
Definition solid (s : sdf) (q : vec3) : Prop :=
  match s with
  | SDFSphere c r => dist q c <= r
  | SDFPlane c n => dot (vsub q c) n = 0
  | SDFBox a b => vx b <= vx q <= vx a /\ vy b <= vy q <= vy a /\ vz b <= vz q <= vz a
  | SDFCylinder a b r => exists t rho, 0 <= t <= 1 /\ rho <= r /\ around a b t rho q
  | SDFCone a b r1 r2 => exists t rho, 0 <= t <= 1 /\ rho <= (1 - t) * r1 + t * r2 /\ around a b t rho q
  end.
(** sensible parameters: the first corner of a box is the larger one (as in the scene files),
    axes have positive length, plane normals have unit length *)
Definition sensible (s : sdf) : Prop :=
  match s with
  | SDFSphere c r => 0 <= r
  | SDFPlane c n => unit3 n
  | SDFBox a b => vx b <= vx a /\ vy b <= vy a /\ vz b <= vz a
  | SDFCylinder a b r => a <> b /\ 0 <= r
  | SDFCone a b r1 r2 => a <> b /\ 0 <= r1 /\ 0 <= r2
  end.
(** the union of the solids of a scene *)
Definition in_scene (l : list sdf) (q : vec3) : Prop := exists s, In s l /\ solid s q.
(** the bounding box of the shape contains the solid *)
Definition boxed (s : sdf) : Prop :=
  forall q, solid s q ->
    vx (bmn (sdf_bbox s)) <= vx q <= vx (bmx (sdf_bbox s)) /\
    vy (bmn (sdf_bbox s)) <= vy q <= vy (bmx (sdf_bbox s)) /\
    vz (bmn (sdf_bbox s)) <= vz q <= vz (bmx (sdf_bbox s)).
(** (m, i) is the smallest distance at p over the scene and the first shape having it *)
Definition nearest_shape (l : list sdf) (p : vec3) (m : R) (i : nat) : Prop :=
  (exists s, nth_error l i = Some s /\ sdf_eval s p = m) /\
  (forall j s, nth_error l j = Some s -> m <= sdf_eval s p /\ ((j < i)%nat -> m < sdf_eval s p)).
(** the point lies between the corners of the box, whichever corner is the larger one *)
Definition between (b : bbox) (q : vec3) : Prop :=
  Rmin (vx (bmn b)) (vx (bmx b)) <= vx q <= Rmax (vx (bmn b)) (vx (bmx b)) /\
  Rmin (vy (bmn b)) (vy (bmx b)) <= vy q <= Rmax (vy (bmn b)) (vy (bmx b)) /\
  Rmin (vz (bmn b)) (vz (bmx b)) <= vz q <= Rmax (vz (bmn b)) (vz (bmx b)).
(** the two coordinates of a <= b in every component *)
Definition below (a b : vec3) : Prop := vx a <= vx b /\ vy a <= vy b /\ vz a <= vz b.
