(** What is seen from a point. *)
From Coq Require Import Reals List Bool.
From Coquelicot Require Import Rbar.
From Verif.Model Require Import Vec BBox Integrators.
From Verif.Spec Require Import SceneSpec.
Import ListNotations.
Open Scope R_scope.

(** the first solid surface from p in the direction v, from 1/1000 on *)
Definition seen_from (lines : vec3 -> vec3 -> list isect) (p v : vec3) : option isect :=
  find (fun i => negb (i_null i)) (on_ray lines (Ray p v (Finite (1 / 1000)) p_infty)).
(** surfaces carry the point of the ray they are hit at *)
Definition on_line (lines : vec3 -> vec3 -> list isect) : Prop :=
  forall p v i, In i (lines p v) -> i_p i = vadd p (vscale v (i_t i)).
