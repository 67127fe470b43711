(** What a ray sees through surfaces without a material. *)
From Coq Require Import Reals List.
From Coquelicot Require Import Rbar.
From Verif.Model Require Import Vec BBox Integrators.
From Verif.Spec Require Import SceneSpec.
Open Scope R_scope.

(** the first solid surface along a ray, if any: null surfaces are passed, going on Epsilon behind them *)
Inductive sees (lines : vec3 -> vec3 -> list isect) : ray -> option isect -> Prop :=
| sees_sky r : scene_hit lines r = None -> sees lines r None
| sees_solid r i : scene_hit lines r = Some i -> i_null i = false -> sees lines r (Some i)
| sees_through r i a : scene_hit lines r = Some i -> i_null i = true ->
    sees lines (Ray (org r) (dir r) (Finite (i_t i + Epsilon)) (rfar r)) a -> sees lines r a.
