(** include/feign/media/phase.h: phase functions over the reals.  The decimal constants INV_PI,
    INV_TWOPI, INV_FOURPI are the real numbers they approximate, powf/log/sqrt the real functions.
    GegenbaurPhase, LiuPhase, SphericalGaussianPhase (263-327) only throw and are not modelled. *)
From Coq Require Import Reals.
From Verif.Base Require Import Outcome.
From Verif.Model Require Import Vec Frame Warp.
From Coq Require Import String.
Open Scope R_scope.

(** the phase functions of phase.h with their parameters (31, 53, 113, 161, 202, 243) *)
Inductive phase :=
| Isotropic
| HG (g : R)
| Eddington (b : R)
| Rayleigh
| Ellipsoidal (b : R)
| Binomial (n : R).

(** phase.h:55-60 *)
Definition hg (cosTheta g : R) : R :=
  let denom := 1 + g * g - 2 * g * cosTheta in
  let denom := denom * sqrt denom in
  1 / (4 * PI) * (1 - g * g) / denom.

(** phase.h:36-39, 62-65, 116-119, 163-167, 204-208, 245-249 *)
Definition phase_eval (p : phase) (wo wi : vec3) : R :=
  match p with
  | Isotropic => 1 / (4 * PI)
  | HG g => hg (dot wo wi) g
  | Eddington b => 1 / (4 * PI) * (1 + 4 * dot wo wi)
  | Rayleigh => let c := dot wo wi in 3 * (c * c + 1) * (1 / (4 * PI)) / 4
  | Ellipsoidal b => let c := dot wo wi in b * (1 / (2 * PI)) / ((1 - b * c) * ln ((b + 1) / (1 - b)))
  | Binomial n => let c := dot wo wi in 1 / PI * Rpower 2 (- n - 2) * (n + 1) * rpow (c + 1) n
  end.

(** phase.h:71-84, the cosine drawn from the first sample; Epsilon is 1e-3 (common.h) *)
Definition hg_cos (g u : R) : R :=
  if Rlt_dec (Rabs g) (1 / 1000) then 1 - 2 * u
  else let numer := - 2 * u * u * (g * g * g + g) in
       let numer := numer + 2 * u * (g - 1) * (g * g + 1) in
       let numer := numer + (g - 1) * (g - 1) in
       let denom := (2 * u - 1) * g + 1 in
       - numer / (denom * denom).
(** phase.h:125-135 *)
Definition eddington_cos (b u : R) : R :=
  if Rlt_dec (Rabs b) (1 / 1000) then 1 - 2 * u
  else let tmp := sqrt (b * b + 4 * b * u - 2 * b + 1) in (tmp - 1) / b.
(** phase.h:173-178 *)
Definition rayleigh_cos (u : R) : R :=
  let tmp := - 4 * u + sqrt (16 * (u - 1) * u + 5) + 2 in
  (1 - rpow tmp (2 / 3)) / rpow tmp (1 / 3).
(** phase.h:214-216 *)
Definition ellipsoidal_cos (b u : R) : R :=
  (1 - (b + 1) * rpow ((b + 1) / (1 - b)) (- u)) / b.

(** phase.h:86-99 = 137-150 = 180-193 = 218-231 *)
Definition about (wo : vec3) (cos_theta v : R) : vec3 :=
  let sin_theta := sqrt (Rmax 0 (1 - cos_theta * cos_theta)) in
  let phi := 2 * PI * v in
  let (v1, v2) := coordinateSystem wo in
  sphericalDirection cos_theta sin_theta phi v1 v2 (vneg wo).

(** phase.h:41-47, 67-102, 121-153, 169-196, 210-234, 251-258: the sampled direction and the
    returned value *)
Definition phase_sample (p : phase) (s : vec2) (wo : vec3) : outcome (vec3 * R) :=
  match p with
  | Isotropic => Ok (sqrToUniSph s, 1 / (4 * PI))
  | HG g => let c := hg_cos g (x2 s) in Ok (about wo c (y2 s), hg (- c) g)
  | Eddington b => let wi := about wo (eddington_cos b (x2 s)) (y2 s) in Ok (wi, phase_eval p wo wi)
  | Rayleigh => let wi := about wo (rayleigh_cos (x2 s)) (y2 s) in Ok (wi, phase_eval p wo wi)
  | Ellipsoidal b => let wi := about wo (ellipsoidal_cos b (x2 s)) (y2 s) in Ok (wi, phase_eval p wo wi)
  | Binomial n => Throw ""
  end.
