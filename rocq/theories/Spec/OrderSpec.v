(** Programs whose results are (nearly) equally likely, and scenes that differ in the order of their lights. *)
From Coq Require Import Reals List Arith.
From Verif.Base Require Import Outcome.
From Verif.Model Require Import Vec BBox Integrators Scene Renderer.
From Verif.Spec Require Import ExpectSpec.
Open Scope R_scope.

(** no quantity with values in [0, F], computed from the results of two programs, differs by more than
    d F on average: what one of them does with some probability the other does with the same
    probability, up to d *)
Definition alike (hit : ray -> option isect) (e1 : (R -> R) -> R) (e2 : (vec2 -> R) -> R) (d : R) {A} (q q' : query A) : Prop :=
  forall F f, 0 <= F -> (forall a, 0 <= f a <= F) -> Rabs (expect hit e1 e2 q f - expect hit e1 e2 q' f) <= d * F.

(** the scene with another list of sampled lights *)
Definition with_lights {M} (S : scene M) (l : list emitter) : scene M :=
  Scene l (sc_envs S) (sc_object_emitter S) (sc_shader S) (sc_inst S) (sc_mesh_point S) (sc_inside S) (sc_transmittance S) (sc_fuel S) (sc_ignore S).

(** of the random numbers 0, 1/N, ..., (N-1)/N, those that are left when as many as possible have been dealt out
    evenly to n lights: none when n divides N *)
Definition uneven (N n : nat) : R := INR (N mod n) / INR N.
