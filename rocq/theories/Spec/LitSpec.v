(** Scenes lit by lamps that are not too bright anywhere light is gathered. *)
From Coq Require Import Reals List Bool.
From Verif.Base Require Import Outcome.
From Verif.Model Require Import Vec Frame BBox Integrators Scene Renderer.
From Verif.Spec Require Import IntegratorSpec BoundSpec.
Import ListNotations.
Open Scope R_scope.

(** seen from p, all lamps together are at most B: one sample of one of the n lamps, with its density, is at
    most B / n *)
Definition lamps {M} (S : scene M) (B : R) (p : vec3) : Prop :=
  forall e u s, In e (sc_emitters S) -> sample_nee (sc_mesh_point S) e p u = Ok s -> es_pdf s <> 0 ->
    within (B / INR (length (sc_emitters S))) (vdiv (es_color s) (es_pdf s)).
(** light is only lost on its way *)
Definition absorbing {M} (S : scene M) : Prop := forall m r t, leaf (sc_transmittance S m r) t -> within 1 t.
(** no lamp has to be seen before it is sampled: all but directional meshes *)
Definition plain_lamps {M} (S : scene M) : Prop := forall e, In e (sc_emitters S) -> needs_visibility e = false.
