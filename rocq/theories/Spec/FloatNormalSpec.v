(** Normals of mesh hits in single precision. *)
From Coq Require Import Reals.
From Flocq Require Import Core BinarySingleNaN.
From Verif.Base Require Import F32.
From Verif.Model Require Import Vec FloatDirs.
From Verif.Spec Require Import FloatDirsSpec FloatHitSpec.
Open Scope R_scope.

(** the largest component *)
Definition vmax (v : vec3) : R := Rmax (Rabs (vx v)) (Rmax (Rabs (vy v)) (Rabs (vz v))).
(** the edges of a triangle that meet in its first vertex, and their exact cross product *)
Definition edge (a b : fvec) : vec3 := vsub (real_point b) (real_point a).
Definition true_cross (a b c : fvec) : vec3 := cross (edge a b) (edge a c).
(** finite, of length one up to rounding *)
Definition unit_vector (n : fvec) : Prop := fv_fin n /\ fv_max n <= 1 /\ Rabs (len2 n - 1) <= / 2 ^ 20.
(** [n] points along [x]: it is a positive multiple of it, up to [e] in each component *)
Definition along (e : R) (n : fvec) (x : vec3) : Prop := exists k, 0 < k /\
  Rabs (B2R (fvx n) - k * vx x) <= e /\ Rabs (B2R (fvy n) - k * vy x) <= e /\ Rabs (B2R (fvz n) - k * vz x) <= e.
(** vertex normals: about one long, no two of them more than 90 degrees apart *)
Definition normals_ok (a b c : fvec) : Prop := tri_within 2 a b c /\
  1 / 2 <= len2 a /\ 1 / 2 <= len2 b /\ 1 / 2 <= len2 c /\
  0 <= dot (real_point a) (real_point b) /\ 0 <= dot (real_point a) (real_point c) /\ 0 <= dot (real_point b) (real_point c).
