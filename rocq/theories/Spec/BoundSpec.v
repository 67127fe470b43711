(** How bright a camera sample can be. *)
From Coq Require Import Reals List.
From Verif.Base Require Import Outcome.
From Verif.Model Require Import Vec Frame BBox Integrators Bsdf Scene Renderer.
Open Scope R_scope.

(** every channel between 0 and b *)
Definition within (b : R) (v : vec3) : Prop := (0 <= vx v <= b) /\ (0 <= vy v <= b) /\ (0 <= vz v <= b).

(** surfaces without highlights, reflecting at most what arrives *)
Definition plain (b : bsdf) : Prop :=
  match b with
  | Diffuse a | Mirror a | Dielectric _ _ a | OneWay _ _ a => within 1 a
  | NullBsdf | Phong _ _ _ | Blinn _ _ _ => False
  end.
(** surfaces that reflect or transmit everything *)
Definition white (b : bsdf) : Prop :=
  match b with
  | Diffuse a | Mirror a | Dielectric _ _ a | OneWay _ _ a => a = V3c 1
  | NullBsdf | Phong _ _ _ | Blinn _ _ _ => False
  end.
Definition all_bsdfs (P : bsdf -> Prop) (s : shader) : Prop :=
  match s with Simple b => P b | Wire _ wire mesh => P wire /\ P mesh end.

(** shading normals of length one *)
Definition unit_normals {W} (hit : W -> ray -> option isect * W) : Prop :=
  forall w r i, fst (hit w r) = Some i ->
    dot (fs (i_s i)) (fn (i_s i)) = 0 /\ dot (ft (i_s i)) (fn (i_s i)) = 0 /\ dot (fn (i_s i)) (fn (i_s i)) = 1.
