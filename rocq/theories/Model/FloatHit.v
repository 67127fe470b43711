(** The position of a hit of a mesh in single precision. *)
From Coq Require Import ZArith Bool.
From Flocq Require Import Core BinarySingleNaN.
From Verif.Base Require Import F32.
From Verif.Model Require Import FloatDirs.

(** double, for the literal 1.0 in objmesh.cpp:418 *)
Definition f64 := binary_float 53 1024.
Global Instance prec53 : Prec_gt_0 53 := eq_refl.
Global Instance emax1024 : Prec_lt_emax 53 1024 := eq_refl.
(** the conversions float to double and double to float (rounded to nearest, ties to even) *)
Definition to64 (x : f32) : f64 :=
  match x with
  | B754_zero s => B754_zero s
  | B754_infinity s => B754_infinity s
  | B754_nan => B754_nan
  | B754_finite s m e _ => binary_normalize 53 1024 prec53 emax1024 mode_NE (cond_Zopp s (Zpos m)) e s
  end.
Definition to32 (x : f64) : f32 :=
  match x with
  | B754_zero s => B754_zero s
  | B754_infinity s => B754_infinity s
  | B754_nan => B754_nan
  | B754_finite s m e _ => binary_normalize 24 128 prec24 emax128 mode_NE (cond_Zopp s (Zpos m)) e s
  end.
Definition dsub : f64 -> f64 -> f64 := Bminus mode_NE.

(** objmesh.cpp:418: 1.0 - its.uv(0) - its.uv(1) is computed in double, the constructor of Vec3f
    converts it to float *)
Definition f_bary0 (u v : f32) : f32 := to32 (dsub (dsub (to64 f1) (to64 u)) (to64 v)).
(** objmesh.cpp:418-431: its.p (vector.h:347-354, 383-390) *)
Definition f_hit_point (p0 p1 p2 : fvec) (u v : f32) : fvec :=
  fv_add (fv_add (fv_scale p0 (f_bary0 u v)) (fv_scale p1 u)) (fv_scale p2 v).

(** vector.h:356-363 *)
Definition fv_sub (a b : fvec) : fvec := FV (fsub (fvx a) (fvx b)) (fsub (fvy a) (fvy b)) (fsub (fvz a) (fvz b)).
(** objmesh.cpp:444: the normal of its.g_frame *)
Definition f_geo_normal (p0 p1 p2 : fvec) : fvec := fv_normalized (fv_cross (fv_sub p1 p0) (fv_sub p2 p0)).
(** objmesh.cpp:447-456: the normal of its.s_frame, when the mesh has normals; the same weights as for
    the position *)
Definition f_shading_normal (n0 n1 n2 : fvec) (u v : f32) : fvec := fv_normalized (f_hit_point n0 n1 n2 u v).
