(** Two scenes that differ by a displacement and by the strength of their lights, and what is asked of
    programs that run in them. *)
From Coq Require Import Reals List Bool.
From Coquelicot Require Import Rbar.
From Verif.Base Require Import Outcome.
From Verif.Model Require Import Vec Frame BBox Integrators Scene Renderer.
Import ListNotations.
Open Scope R_scope.

(** everything moved by t *)
Definition moved_ray (t : vec3) (r : ray) : ray := Ray (vadd (org r) t) (dir r) (rnear r) (rfar r).
Definition moved_hit (t : vec3) (i : isect) : isect :=
  Isect (vadd (i_p i) t) (i_t i) (i_bary i) (i_s i) (i_g i) (i_mesh i) (i_null i).
(** a light moved by t whose light is multiplied, channel by channel, by k *)
Definition moved_emitter (t k : vec3) (e : emitter) : emitter :=
  match e with
  | EPoint power pos => EPoint (vmul power k) (vadd pos t)
  | EDirectional d radiance => EDirectional d (vmul radiance k)
  | ESpot pos d radiance a => ESpot (vadd pos t) d (vmul radiance k) a
  | EMesh m intensity => EMesh m (vmul intensity k)
  | EDirMesh m d intensity => EDirMesh m d (vmul intensity k)
  | EEnv tex intensity => EEnv tex (vmul intensity k)
  | EInterpEnv top bot => EInterpEnv (vmul top k) (vmul bot k)
  end.

(** the two changes on their own *)
Definition brighter (k : vec3) (e : emitter) : emitter :=
  match e with
  | EPoint power pos => EPoint (vmul power k) pos
  | EDirectional d radiance => EDirectional d (vmul radiance k)
  | ESpot pos d radiance a => ESpot pos d (vmul radiance k) a
  | EMesh m intensity => EMesh m (vmul intensity k)
  | EDirMesh m d intensity => EDirMesh m d (vmul intensity k)
  | EEnv tex intensity => EEnv tex (vmul intensity k)
  | EInterpEnv top bot => EInterpEnv (vmul top k) (vmul bot k)
  end.
Definition displaced (t : vec3) (e : emitter) : emitter :=
  match e with
  | EPoint power pos => EPoint power (vadd pos t)
  | ESpot pos d radiance a => ESpot (vadd pos t) d radiance a
  | _ => e
  end.

(** the same answer of a failing computation, up to R *)
Definition same_outcome {A B} (R : A -> B -> Prop) (x : outcome A) (y : outcome B) : Prop :=
  match x, y with
  | Ok a, Ok b => R a b
  | Throw m, Throw m' => m = m'
  | UB, UB => True
  | OutOfFuel, OutOfFuel => True
  | _, _ => False
  end.

(** two programs that ask for the same random numbers and for rays that differ by t *)
Inductive same_program (t : vec3) {A B} (R : A -> B -> Prop) : query A -> query B -> Prop :=
| sp_ret a b : R a b -> same_program t R (QRet a) (QRet b)
| sp_hit r k k' : (forall x, same_program t R (k x) (k' (option_map (moved_hit t) x))) ->
    same_program t R (QHit r k) (QHit (moved_ray t r) k')
| sp_rand1 k k' : (forall u, same_program t R (k u) (k' u)) -> same_program t R (QRand1 k) (QRand1 k')
| sp_rand2 k k' : (forall u, same_program t R (k u) (k' u)) -> same_program t R (QRand2 k) (QRand2 k').

(** closures that agree except that the light in the second is multiplied by k *)
Definition same_eval (k : vec3) (e e' : emitter_eval) : Prop :=
  e_throughput e' = vmul (e_throughput e) k /\ e_dir e' = e_dir e /\ e_valid e' = e_valid e.
Definition same_closure (k : vec3) (c c' : closure) : Prop :=
  c_wi c' = c_wi c /\ c_wo c' = c_wo c /\ Forall2 (same_eval k) (c_shadow c) (c_shadow c') /\
  c_albedo c' = c_albedo c /\ c_emission c' = vmul (c_emission c) k /\ c_nee c' = vmul (c_nee c) k /\
  c_pdf c' = c_pdf c /\ c_eta c' = c_eta c /\ c_spec c' = c_spec c /\ c_last_spec c' = c_last_spec c /\
  c_all c' = c_all c /\ c_accepts c' = c_accepts c.

(** the two scenes: the same random numbers, surfaces moved by t, materials that do the same *)
Definition moved_world (t : vec3) {W} (hit hit' : W -> ray -> option isect * W) : Prop :=
  forall w r, hit' w (moved_ray t r) = (option_map (moved_hit t) (fst (hit w r)), snd (hit w r)).
Definition moved_env (t k : vec3) (env env' : ray -> vec3) : Prop :=
  forall r, env' (moved_ray t r) = vmul (env r) k.
Definition moved_evaluate (t k : vec3) (ev ev' : isect -> ray -> closure -> query closure) : Prop :=
  forall i r c c', same_closure k c c' ->
    same_program t (same_closure k) (ev i r c) (ev' (moved_hit t i) (moved_ray t r) c').
Definition moved_mat (t : vec3) (mat mat' : isect -> vec3 -> vec3 -> vec3) : Prop :=
  forall i wi wo, mat' (moved_hit t i) wi wo = mat i wi wo.
Definition moved_sample (t k : vec3) (sample sample' : isect -> closure -> query closure) : Prop :=
  forall i c c', same_closure k c c' ->
    same_program t (same_closure k) (sample i c) (sample' (moved_hit t i) c').

(** two integrators: from states that agree in the clocks and in the random numbers, the same random
    numbers are used, the same clock calls are made and the result is k times the first; failures agree *)
Definition same_run {W} (k : vec3) (a b : outcome vec3 * st W) : Prop :=
  same_outcome (fun v v' => v' = vmul v k) (fst a) (fst b) /\
  s_clk W (snd b) = s_clk W (snd a) /\ s_w W (snd b) = s_w W (snd a).
Definition same_integrator {W} (t k : vec3) (Li Li' : ray -> Integrators.M W vec3) : Prop :=
  forall r s s', s_clk W s' = s_clk W s -> s_w W s' = s_w W s -> same_run k (Li r s) (Li' (moved_ray t r) s').

(** volumetric integrators: sampling a distance, the lights at a scattering event, shading *)
Definition moved_distance (t : vec3) {M} (ms ms' : M -> option bool -> ray -> R -> query (vec3 * R)) : Prop :=
  forall m f r d, same_program t eq (ms m f r d) (ms' m f (moved_ray t r) d).
Definition moved_nee (t k : vec3) {M} (nee nee' : bool -> bool -> isect -> option M -> query (list emitter_eval)) : Prop :=
  forall a b i m, same_program t (Forall2 (same_eval k)) (nee a b i m) (nee' a b (moved_hit t i) m).
Definition moved_evaluate_in (t k : vec3) {M} (ev ev' : isect -> ray -> option M -> closure -> query closure) : Prop :=
  forall i r m c c', same_closure k c c' ->
    same_program t (same_closure k) (ev i r m c) (ev' (moved_hit t i) (moved_ray t r) m c').

(** ** images *)
(** the camera samples of an integrator, for Model/Film.v: a sample that fails ends the program, here
    it is black (failures of the two scenes agree, [same_integrator]) *)
Definition radiance {W} (Li : ray -> Integrators.M W vec3) (camera : vec2 -> vec2 -> ray) (s : st W) (ps a : vec2) : vec3 * st W :=
  match Li (camera ps a) s with
  | (Ok v, s') => (v, s')
  | (_, s') => (V3c 0, s')
  end.
Definition next_point {W} (rnd2 : W -> vec2 * W) (s : st W) : vec2 * st W :=
  let (u, w) := rnd2 (s_w W s) in (u, St W (s_clk W s) w (s_log W s)).

(** the scenes of Model/Renderer.v *)
Definition brighter_scene {M} (k : vec3) (S : scene M) : scene M :=
  Scene (map (brighter k) (sc_emitters S)) (map (brighter k) (sc_envs S)) (fun n => option_map (brighter k) (sc_object_emitter S n))
        (sc_shader S) (sc_inst S) (sc_mesh_point S) (sc_inside S) (sc_transmittance S) (sc_fuel S) (sc_ignore S).
(** S' is S moved by t: the lights are moved, a point of a mesh is at the moved position, and the
    transmittance along a moved segment is what it was *)
Definition displaced_scene {M} (t : vec3) (S S' : scene M) : Prop :=
  sc_emitters S' = map (displaced t) (sc_emitters S) /\ sc_envs S' = map (displaced t) (sc_envs S) /\
  (forall n, sc_object_emitter S' n = option_map (displaced t) (sc_object_emitter S n)) /\
  sc_shader S' = sc_shader S /\ sc_inst S' = sc_inst S /\
  (forall m u, same_outcome (fun a b => b = (vadd (fst (fst a)) t, snd (fst a), snd a)) (sc_mesh_point S m u) (sc_mesh_point S' m u)) /\
  sc_inside S' = sc_inside S /\
  (forall m r, same_program t eq (sc_transmittance S m r) (sc_transmittance S' m (moved_ray t r))) /\
  sc_fuel S' = sc_fuel S /\ sc_ignore S' = sc_ignore S.
