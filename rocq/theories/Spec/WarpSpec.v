(** Sampling claims: domains, densities and distributions on the sphere, the disk and the triangle. *)
From Coq Require Import Reals.
From Coquelicot Require Import Coquelicot.
From Verif.Model Require Import Vec.
From Verif.Spec Require Import CameraSpec.
Open Scope R_scope.

(** unit direction with height z and azimuth q; the surface measure of the sphere is dz dq *)
Definition sph_dir (z q : R) : vec3 := V3 (sqrt (1 - z * z) * cos q) (sqrt (1 - z * z) * sin q) z.
(** up to endpoints, {y in [0,1] | P y} is an interval of length b *)
Definition interval_measure (P : R -> Prop) (b : R) : Prop :=
  exists lo hi, 0 <= lo <= hi /\ hi <= 1 /\ b = hi - lo /\
    forall y, 0 <= y <= 1 -> (lo < y < hi -> P y) /\ (P y -> lo <= y <= hi).
(** integral over the part of the sphere above height c with azimuth at most p *)
Definition cap_integral (pdf : vec3 -> R) (c p v : R) : Prop :=
  (forall q, ex_RInt (fun z => pdf (sph_dir z q)) c 1) /\
  is_RInt (fun q => RInt (fun z => pdf (sph_dir z q)) c 1) 0 p v.
(** pdf is a probability density on the sphere *)
Definition sphere_density (pdf : vec3 -> R) : Prop :=
  (forall v, 0 <= pdf v) /\ cap_integral pdf (-1) (2 * PI) 1.
(** The map sends the uniform distribution on the unit square to the density: the first
    coordinate is the azimuth (scaled by 2 pi), the second gives the height, so the samples that land
    in {height >= c, azimuth <= p} form a rectangle with sides p/(2 pi) and b, and its area
    is the integral of the density over that set.  Those sets determine the distribution. *)
Definition height_law (warp : vec2 -> vec3) (pdf : vec3 -> R) (ok : R -> Prop) : Prop :=
  exists zf : R -> R,
    (forall s, in_unit_square s -> warp s = sph_dir (zf (y2 s)) (2 * PI * x2 s) /\ -1 <= zf (y2 s) <= 1) /\
    (forall c p, -1 <= c <= 1 -> ok c -> 0 <= p <= 2 * PI ->
       exists b, interval_measure (fun y => c <= zf y) b /\ cap_integral pdf c p (p / (2 * PI) * b)).
Definition sphere_law (warp : vec2 -> vec3) (pdf : vec3 -> R) : Prop := height_law warp pdf (fun _ => True).

(** the disk, in polar coordinates (measure r dr dq) *)
Definition disk_pt (r q : R) : vec2 := V2 (r * cos q) (r * sin q).
Definition disk_integral (pdf : vec2 -> R) (r p v : R) : Prop :=
  (forall q, ex_RInt (fun t => pdf (disk_pt t q) * t) 0 r) /\
  is_RInt (fun q => RInt (fun t => pdf (disk_pt t q) * t) 0 r) 0 p v.
Definition disk_law (warp : vec2 -> vec2) (pdf : vec2 -> R) : Prop :=
  exists rf : R -> R,
    (forall s, in_unit_square s -> warp s = disk_pt (rf (y2 s)) (2 * PI * x2 s) /\ 0 <= rf (y2 s) <= 1) /\
    (forall r p, 0 <= r <= 1 -> 0 <= p <= 2 * PI ->
       exists b, interval_measure (fun y => rf y <= r) b /\ disk_integral pdf r p (p / (2 * PI) * b)).

(** barycentric coordinates (u, v) of a triangle *)
Definition in_triangle (p : vec2) : Prop := 0 <= x2 p /\ 0 <= y2 p /\ x2 p + y2 p <= 1.
(** the part of the triangle with u <= a and v <= b (1 - u) *)
Definition tri_integral (pdf : vec2 -> R) (a b v : R) : Prop :=
  (forall u, ex_RInt (fun w => pdf (V2 u w)) 0 (b * (1 - u))) /\
  is_RInt (fun u => RInt (fun w => pdf (V2 u w)) 0 (b * (1 - u))) 0 a v.
