(** Scenes of distance shapes: the answers of SDFAccel (src/accel/ray_sdf.cpp) as the intersections
    seen by Scene (src/scene.cpp). *)
From Coq Require Import Reals List.
From Verif.Model Require Import Vec Frame BBox Integrators SDF.
Open Scope R_scope.

(** ray_sdf.cpp:161-172: what intersect leaves in the record.  Barycentric coordinates are not
    written: [bary] is whatever was there.  intersected_mesh is sdfs[shape_index], numbered by its
    index; [null i] is its is_null flag (shape.cpp:12-20). *)
Definition sdf_isect (bary : vec3) (null : nat -> bool) (h : sdf_hit) : isect :=
  Isect (h_p h) (h_t h) bary (h_s h) (h_g h) (h_shape h) (null (h_shape h)).
(** Scene::intersect_full (scene.cpp:174-177) with this accelerator *)
Definition sdf_scene (bary : vec3) (null : nat -> bool) (l : list sdf) (r : ray) : option isect :=
  option_map (sdf_isect bary null) (sdf_intersect l r).
