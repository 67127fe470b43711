(** Two scenes that differ in the colours of their surfaces only. *)
From Coq Require Import Reals List.
From Verif.Base Require Import Outcome.
From Verif.Model Require Import Vec BBox Integrators Bsdf Scene Renderer.
Open Scope R_scope.

(** no channel of a is above that of b *)
Definition darker (a b : vec3) : Prop := vx a <= vx b /\ vy a <= vy b /\ vz a <= vz b.
(** the same kind of surface in a brighter colour *)
Definition brighter_bsdf (b b' : bsdf) : Prop :=
  match b, b' with
  | Diffuse a, Diffuse a' | Mirror a, Mirror a' => darker a a'
  | Dielectric i e a, Dielectric i' e' a' | OneWay i e a, OneWay i' e' a' => i = i' /\ e = e' /\ darker a a'
  | _, _ => False
  end.
Definition brighter_shader (s s' : shader) : Prop :=
  match s, s' with
  | Simple b, Simple b' => brighter_bsdf b b'
  | Wire th w m, Wire th' w' m' => th = th' /\ brighter_bsdf w w' /\ brighter_bsdf m m'
  | _, _ => False
  end.
(** the scene with other materials *)
Definition repainted {M} (S : scene M) (paint : nat -> shader) : scene M :=
  Scene (sc_emitters S) (sc_envs S) (sc_object_emitter S) paint (sc_inst S) (sc_mesh_point S) (sc_inside S) (sc_transmittance S) (sc_fuel S) (sc_ignore S).
