(** Textbook optics the materials are compared with. *)
From Coq Require Import Reals.
From Coquelicot Require Import Coquelicot.
From Verif.Model Require Import Vec.
From Verif.Spec Require Import LinAlgSpec FrameSpec CameraSpec WarpSpec.
Open Scope R_scope.

(** Fresnel reflectance of unpolarised light: cosine c > 0 of the incident angle, indices ni (incident side)
    and nt; the transmitted cosine is given by Snell's law *)
Definition fresnel_equations (c ni nt : R) : R :=
  let ct := sqrt (1 - (ni / nt) * (ni / nt) * (1 - c * c)) in
  let rs := (ni * c - nt * ct) / (ni * c + nt * ct) in
  let rp := (nt * c - ni * ct) / (nt * c + ni * ct) in
  (rs * rs + rp * rp) / 2.
(** no transmitted direction exists *)
Definition total_reflection (c ni nt : R) : Prop := nt * nt < ni * ni * (1 - c * c).

(** reflection about a unit vector *)
Definition reflection (n w : vec3) : vec3 := vsub (vscale n (2 * dot n w)) w.
Definition up : vec3 := V3 0 0 1.

(** wo is the refraction of wi (both pointing away from the surface) between media with index ni on
    the side of wi and nt on the other side *)
Definition refraction (ni nt : R) (wi wo : vec3) : Prop :=
  unit3 wo /\ vz wi * vz wo < 0 /\ nt * vx wo = - (ni * vx wi) /\ nt * vy wo = - (ni * vy wi).

(** integral of f over all directions *)
Definition sphere_integral (f : vec3 -> R) (v : R) : Prop := cap_integral f (-1) (2 * PI) v.

(** [dir] uses one random point for two strategies: with probability k the first, else the second,
    each fed with a point that is again uniform on the unit square *)
Definition mixture (k : R) (dir w1 w2 : vec2 -> vec3) : Prop :=
  forall u, 0 <= x2 u < 1 -> 0 <= y2 u <= 1 ->
    (x2 u < k -> dir u = w1 (V2 (x2 u / k) (y2 u)) /\ 0 <= x2 u / k < 1) /\
    (k <= x2 u -> dir u = w2 (V2 ((x2 u - k) / (1 - k)) (y2 u)) /\ 0 <= (x2 u - k) / (1 - k) < 1).

(** a map and a density that obey [sphere_law] in coordinates whose third axis is n *)
Definition law_around (n : vec3) (warp : vec2 -> vec3) (pdf : vec3 -> R) : Prop :=
  exists s t warp0 pdf0, orthonormal s t n /\ sphere_law warp0 pdf0 /\
    let place := fun v => vadd (vadd (vscale s (vx v)) (vscale t (vy v))) (vscale n (vz v)) in
    (forall u, warp u = place (warp0 u)) /\ (forall v, pdf (place v) = pdf0 v).
