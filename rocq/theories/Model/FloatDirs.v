(** Directions in single precision: normalising a vector, local frames, mirror reflection, the
    sampling maps of warp.cpp, and the lookup of an environment map. *)
From Coq Require Import ZArith Reals Bool.
From Flocq Require Import Core BinarySingleNaN.
From Verif.Base Require Import Outcome F32.
From Verif.Model Require Import Vec LightSelect Texture.
Open Scope R_scope.

Record fvec := FV { fvx : f32; fvy : f32; fvz : f32 }.

(** sqrt of a float.  Where the C++ overload chosen is the one for double, the result is rounded to
    double and then to float, which gives the same float (53 >= 2 * 24 + 2). *)
Definition fsqrt : f32 -> f32 := Bsqrt mode_NE.
Definition fopp : f32 -> f32 := Bopp.
(** the comparisons < and > of C++; false when an operand is not a number *)
Definition flt (x y : f32) : bool := match Bcompare x y with Some Lt => true | _ => false end.
(** std::max(a, b): b when a < b, and a otherwise *)
Definition fmax (a b : f32) : f32 := if flt a b then b else a.

(** vector.h:540-545 *)
Definition fv_sqr (v : fvec) : f32 :=
  fadd (fadd (fmul (fvx v) (fvx v)) (fmul (fvy v) (fvy v))) (fmul (fvz v) (fvz v)).
(** vector.h:548-553 *)
Definition fv_norm (v : fvec) : f32 := fsqrt (fv_sqr v).
(** vector.h:555-563 *)
Definition fv_normalized (v : fvec) : fvec :=
  let n := fv_norm v in FV (fdiv (fvx v) n) (fdiv (fvy v) n) (fdiv (fvz v) n).
(** vector.h: operator% (products and sum from left to right) *)
Definition fv_dot (a b : fvec) : f32 :=
  fadd (fadd (fmul (fvx b) (fvx a)) (fmul (fvy b) (fvy a))) (fmul (fvz b) (fvz a)).
(** vector.h:439-446 *)
Definition fv_cross (a b : fvec) : fvec :=
  FV (fsub (fmul (fvy a) (fvz b)) (fmul (fvz a) (fvy b)))
     (fsub (fmul (fvz a) (fvx b)) (fmul (fvx a) (fvz b)))
     (fsub (fmul (fvx a) (fvy b)) (fmul (fvy a) (fvx b))).
(** vector.h: unary minus, vector times number, sum *)
Definition fv_opp (v : fvec) : fvec := FV (fopp (fvx v)) (fopp (fvy v)) (fopp (fvz v)).
Definition fv_scale (v : fvec) (a : f32) : fvec := FV (fmul (fvx v) a) (fmul (fvy v) a) (fmul (fvz v) a).
Definition fv_add (a b : fvec) : fvec := FV (fadd (fvx a) (fvx b)) (fadd (fvy a) (fvy b)) (fadd (fvz a) (fvz b)).

(** a frame: s, t and the normal (coord_frame.h) *)
Record fframe := FF { ff_s : fvec; ff_t : fvec; ff_n : fvec }.
(** coord_frame.cpp:32-36 and 105-118: c first, then b = c ^ a; s = b and t = c *)
Definition f_frame (a : fvec) : fframe :=
  let c :=
    if flt (Babs (fvy a)) (Babs (fvx a))
    then let inv := fdiv f1 (fsqrt (fadd (fmul (fvx a) (fvx a)) (fmul (fvz a) (fvz a)))) in
         FV (fmul (fvz a) inv) f0 (fmul (fopp (fvx a)) inv)
    else let inv := fdiv f1 (fsqrt (fadd (fmul (fvy a) (fvy a)) (fmul (fvz a) (fvz a)))) in
         FV f0 (fmul (fvz a) inv) (fmul (fopp (fvy a)) inv) in
  FF (fv_cross c a) c a.
(** coord_frame.cpp:38-43 *)
Definition f_toLocal (f : fframe) (v : fvec) : fvec := FV (fv_dot v (ff_s f)) (fv_dot v (ff_t f)) (fv_dot v (ff_n f)).
(** coord_frame.cpp:45-50 *)
Definition f_toWorld (f : fframe) (v : fvec) : fvec :=
  fv_add (fv_add (fv_scale (ff_s f) (fvx v)) (fv_scale (ff_t f) (fvy v))) (fv_scale (ff_n f) (fvz v)).
(** bsdfs/mirror.cpp:27-29: the reflected direction in the local frame *)
Definition f_mirrored (wi : fvec) : fvec := FV (fopp (fvx wi)) (fopp (fvy wi)) (fvz wi).
(** integrators/path_unidir.cpp: the ray direction after a mirror with shading normal [n]: wi is
    -ray.dir in the frame of the hit, and the next ray goes along wo taken back to the world *)
Definition f_bounce (n d : fvec) : fvec :=
  let f := f_frame n in f_toWorld f (f_mirrored (f_toLocal f (fv_opp d))).

(** emitters/environment.cpp:47-68 with a texture: acos of a number outside [-1, 1] is not a number,
    written [None]; [atan2] and [acos] are the functions of the C library followed by the
    multiplications by INV_TWOPI and INV_PI *)
Definition f_env (atan2 : f32 -> f32 -> R) (acos : f32 -> R) (im : image) (scale : vec3) (d : fvec) : outcome vec3 :=
  let v := if is_finite (fvy d)
           then if Rle_dec (Rabs (B2R (fvy d))) 1 then Some (acos (fvy d)) else None
           else None in
  image_texture rnd32 im scale (Some (atan2 (fvz d) (fvx d))) v.

(** ** The sampling maps.  [sn] and [cs] are sinf and cosf of the angle made from the first
    coordinate of the sample (common.h:139-143); only the second coordinate is an argument here. *)
Section Warps.
Variables sn cs : f32.
(** warp.cpp:14-21 *)
Definition f_disk (u : f32) : f32 * f32 := let r := fsqrt u in (fmul cs r, fmul sn r).
(** warp.cpp:28-35 *)
Definition f_sphere (u : f32) : fvec :=
  let z := fsub f1 (fmul (fZ 2) u) in
  let r := fsqrt (fmax f0 (fsub f1 (fmul z z))) in
  FV (fmul r cs) (fmul r sn) z.
(** warp.cpp:42-49: no maximum here *)
Definition f_cap (u c : f32) : fvec :=
  let z := fadd u (fmul (fsub f1 u) c) in
  let r := fsqrt (fsub f1 (fmul z z)) in
  FV (fmul r cs) (fmul r sn) z.
(** warp.cpp:74-80 *)
Definition f_coshemi (u : f32) : fvec :=
  let (px, py) := f_disk u in
  FV px py (fsqrt (fmax f0 (fsub (fsub f1 (fmul px px)) (fmul py py)))).
End Warps.
