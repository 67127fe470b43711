(** The surface integrators with the emitters, the material shaders and the materials of the renderer in
    place of their parameters: src/scene.cpp, src/emitters/*.cpp, src/shaders/simple_material.cpp,
    src/shaders/wireframe_material.cpp, src/bsdfs/*.cpp together.

    The parameters that are left: the ray accelerator, the sampler, the clock, the points of meshes, the
    transmittance of media. *)
From Coq Require Import Reals List Bool.
From Verif.Base Require Import Outcome.
From Verif.Model Require Import Vec Frame BBox Integrators Bsdf Scene VolPath.
Import ListNotations.
Open Scope R_scope.

(** include/feign/core/shader.h: the material shaders that have a BSDF *)
Inductive shader :=
| Simple (b : bsdf)
| Wire (threshold : R) (wire mesh : bsdf).

(** include/feign/scene.h:123-160.  [sc_object_emitter] and [sc_shader] by instance and by mesh
    (scene.cpp:674-690, path_unidir.cpp:64), the rest as in Model/Scene.v *)
Record scene (M : Type) := Scene {
  sc_emitters : list emitter; sc_envs : list emitter; sc_object_emitter : nat -> option emitter;
  sc_shader : nat -> shader; sc_inst : nat -> nat;
  sc_mesh_point : nat -> vec2 -> outcome (vec3 * vec3 * R);
  sc_inside : nat -> option (option M); sc_transmittance : M -> ray -> query vec3;
  sc_fuel : nat; sc_ignore : bool }.
Arguments Scene {M}. Arguments sc_emitters {M}. Arguments sc_envs {M}. Arguments sc_object_emitter {M}. Arguments sc_shader {M}.
Arguments sc_inst {M}. Arguments sc_mesh_point {M}. Arguments sc_inside {M}. Arguments sc_transmittance {M}. Arguments sc_fuel {M}. Arguments sc_ignore {M}.

(** a program that fails ends the render; the integrators of Model/Integrators.v have no failing
    shaders, so a failure is replaced by [a], and what is said about a run with a failure says nothing
    about the renderer.  [unlit] is the closure used for that *)
Definition no_failure {A} (a : A) (q : query (outcome A)) : query A :=
  qbind q (fun o => QRet (match o with Ok x => x | _ => a end)).

Definition unlit (delta : bool) (c : closure) : closure := set_spec c delta (c_last_spec c) (c_accepts c).

Section Renderer.
Context {M : Type}.
Variable S : scene M.

(** simple_material.cpp:15-16, wireframe_material.cpp:69-82 *)
Definition chosen_bsdf (i : isect) : bsdf :=
  match sc_shader S (i_mesh i) with
  | Simple b => b
  | Wire th wire mesh => if on_wire (i_bary i) th then wire else mesh
  end.
(** simple_material.cpp:24-59, wireframe_material.cpp:29-61 *)
Definition sc_try (i : isect) (r : ray) (c : closure) : query (outcome closure) :=
  match sc_shader S (i_mesh i) with
  | Simple b => simple_evaluate (sc_mesh_point S) M (sc_inside S) (sc_transmittance S) (sc_fuel S) (sc_emitters S) (sc_inst S) (sc_ignore S) (sc_object_emitter S) (isDelta b) i r c
  | Wire th wire mesh => wireframe_evaluate (sc_mesh_point S) M (sc_inside S) (sc_transmittance S) (sc_fuel S) (sc_emitters S) (sc_inst S) (sc_ignore S) (sc_object_emitter S) th (isDelta wire) (isDelta mesh) i r c
  end.
Definition sc_evaluate (i : isect) (r : ray) (c : closure) : query closure := no_failure (unlit (isDelta (chosen_bsdf i)) c) (sc_try i r c).
(** simple_material.cpp:61-64, wireframe_material.cpp:63-67; a value that is not a number (Phong with a
    fractional exponent) is replaced by black, and nothing is claimed then *)
Definition sc_mat (i : isect) (wi wo : vec3) : vec3 :=
  match bsdf_value (chosen_bsdf i) wi wo with Some v => v | None => V3c 0 end.
(** simple_material.cpp:18-21, wireframe_material.cpp:22-26 *)
Definition sc_sample (i : isect) (c : closure) : query closure := bsdf_sample (chosen_bsdf i) c.
(** scene.cpp:692-707 *)
Definition sc_env (r : ray) : vec3 := match env_emission (sc_envs S) (dir r) with Ok v => v | _ => V3c 0 end.

(** simple_material.cpp:24-59 and wireframe_material.cpp:29-61 with closure.media set (volpath.cpp) *)
Definition sc_try_in (i : isect) (r : ray) (media : option M) (c : closure) : query (outcome closure) :=
  match sc_shader S (i_mesh i) with
  | Simple b => simple_evaluate_in (sc_mesh_point S) M (sc_inside S) (sc_transmittance S) (sc_fuel S) (sc_emitters S) (sc_inst S) (sc_ignore S) (sc_object_emitter S) media (isDelta b) i r c
  | Wire th wire mesh => shade_in (sc_mesh_point S) M (sc_inside S) (sc_transmittance S) (sc_fuel S) (sc_emitters S) (sc_inst S) (sc_ignore S) (sc_object_emitter S) media
                           (isDelta (if on_wire (i_bary i) th then wire else mesh)) i r c
  end.
Definition sc_evaluate_in (i : isect) (r : ray) (media : option M) (c : closure) : query closure := no_failure (unlit (isDelta (chosen_bsdf i)) c) (sc_try_in i r media c).
(** the lights at a scattering event: scene.cpp:361-535 with in_media; the exponential integrator does
    not look at the kind of the previous vertex *)
Definition sc_nee (all _surf : bool) (i : isect) (media : option M) : query (list emitter_eval) :=
  no_failure [] (if all then eval_all (sc_mesh_point S) M (sc_inside S) (sc_transmittance S) (sc_fuel S) (sc_ignore S) i media true (sc_emitters S)
                 else eval_one (sc_mesh_point S) M (sc_inside S) (sc_transmittance S) (sc_fuel S) (sc_emitters S) (sc_inst S) (sc_ignore S) i media true).

Variable W : Type.
Variable now : W -> R * W.
Variable hit : W -> ray -> option isect * W.
Variable rnd1 : W -> R * W.
Variable rnd2 : W -> vec2 * W.
Variable nn : nat.
(** path_unidir.cpp:28-145, whitted.cpp:31-128 *)
Definition scene_path (max_bounces : nat) : ray -> Integrators.M W vec3 :=
  path_Li W now hit rnd1 rnd2 sc_env sc_evaluate sc_mat sc_sample nn max_bounces.
Definition scene_whitted (fuel : nat) : ray -> Integrators.M W vec3 :=
  whitted_Li W now hit rnd1 rnd2 sc_env sc_evaluate sc_mat sc_sample nn fuel.
(** volpath.cpp:26-209 *)
Variable boundary : nat -> option (option M * option M).
Variable med_sample : M -> option bool -> ray -> R -> query (vec3 * R).
Variable phase_sample : M -> vec3 -> vec2 -> vec3 * R.
Definition scene_volpath (max_bounces fuel : nat) (md : option M) (r : ray) : Integrators.M W vec3 :=
  as_Li W now hit rnd1 rnd2
    (vol_Li M sc_env boundary med_sample phase_sample sc_nee sc_evaluate_in sc_mat sc_sample false max_bounces fuel md r).
End Renderer.
