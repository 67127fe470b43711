(** What a phase function should be: a probability density over directions, sampled exactly. *)
From Coq Require Import Reals.
From Coquelicot Require Import Coquelicot.
From Verif.Base Require Import Outcome.
From Verif.Model Require Import Vec.
From Verif.Spec Require Import LinAlgSpec FrameSpec CameraSpec WarpSpec BsdfSpec.
Open Scope R_scope.

(** the vector with coordinates v in the axes s, t, n *)
Definition placed (s t n v : vec3) : vec3 := vadd (vadd (vscale s (vx v)) (vscale t (vy v))) (vscale n (vz v)).
(** pdf is a probability density over directions; the integral is taken in any axes with pole n *)
Definition density_around (n : vec3) (pdf : vec3 -> R) : Prop :=
  (forall v, unit3 v -> 0 <= pdf v) /\
  forall s t, orthonormal s t n -> sphere_integral (fun v => pdf (placed s t n v)) 1.
Definition swap (s : vec2) : vec2 := V2 (y2 s) (x2 s).
(** A sampling routine that turns a uniform point of the unit square into a direction and a reported
    density: the direction has density pdf (expressed around the axis n).  The first number decides
    the height, hence the swap with respect to [law_around]. *)
Definition draws (sample : vec2 -> outcome (vec3 * R)) (n : vec3) (pdf : vec3 -> R) : Prop :=
  exists d, (forall s, in_unit_square s -> exists r, sample s = Ok (d s, r)) /\ law_around n (fun u => d (swap u)) pdf.
(** the reported density is the value of f at the direction *)
Definition reports (sample : vec2 -> outcome (vec3 * R)) (f : vec3 -> R) : Prop :=
  forall s, in_unit_square s -> exists w, sample s = Ok (w, f w) /\ unit3 w.
