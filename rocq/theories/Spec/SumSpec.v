(** Scenes whose light samples do not fail. *)
From Coq Require Import Reals List.
From Verif.Base Require Import Outcome.
From Verif.Model Require Import Vec Frame BBox Integrators Scene Renderer.
From Verif.Spec Require Import IntegratorSpec VolPathSpec ExpectSpec OrderSpec.
Open Scope R_scope.

(** at the surfaces of the scene every sample of a light of the list succeeds, blocked or not: its mesh has a point for all
    random numbers and the search for what is in between ends *)
Definition steady {M} (S : scene M) (hit : ray -> option isect) (L : list emitter) : Prop :=
  forall e r i p o, In e L -> hit r = Some i ->
    hleaf hit (eval_emitter (sc_mesh_point S) M (sc_inside S) (sc_transmittance S) (sc_fuel S) (sc_ignore S) i None (fn (i_s i)) false p e) o -> exists x, o = Ok x.
(** every sample of the light yields a point of it: so do point lights, and meshes whose points can be sampled *)
Definition near_lamp {M} (S : scene M) (e : emitter) : Prop :=
  forall p u, exists s d, sample_nee (sc_mesh_point S) e p u = Ok s /\ es_sqr_dist s = Some d.
(** the random numbers that are not dealt out evenly to the lights of a list: none without lights *)
Definition left_over (N : nat) (L : list emitter) : R := match L with nil => 0 | _ => uneven N (length L) end.
