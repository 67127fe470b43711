(** Three scenes with the same surfaces, of which the third has the lights of the first two together. *)
From Coq Require Import Reals List Bool.
From Coquelicot Require Import Rbar.
From Verif.Base Require Import Outcome.
From Verif.Model Require Import Vec Frame BBox Integrators Scene Renderer.
Import ListNotations.
Open Scope R_scope.

(** the same light with the sum of the strengths *)
Inductive mixed : emitter -> emitter -> emitter -> Prop :=
| mixed_point a b pos : mixed (EPoint a pos) (EPoint b pos) (EPoint (vadd a b) pos)
| mixed_directional d a b : mixed (EDirectional d a) (EDirectional d b) (EDirectional d (vadd a b))
| mixed_spot pos d a b ang : mixed (ESpot pos d a ang) (ESpot pos d b ang) (ESpot pos d (vadd a b) ang)
| mixed_mesh m a b : mixed (EMesh m a) (EMesh m b) (EMesh m (vadd a b))
| mixed_dirmesh m d a b : mixed (EDirMesh m d a) (EDirMesh m d b) (EDirMesh m d (vadd a b))
| mixed_env tex a b : mixed (EEnv tex a) (EEnv tex b) (EEnv tex (vadd a b))
| mixed_interp t1 b1 t2 b2 : mixed (EInterpEnv t1 b1) (EInterpEnv t2 b2) (EInterpEnv (vadd t1 t2) (vadd b1 b2)).
(** a light that is switched off *)
Definition off (e : emitter) : emitter :=
  match e with
  | EPoint _ pos => EPoint (V3c 0) pos
  | EDirectional d _ => EDirectional d (V3c 0)
  | ESpot pos d _ a => ESpot pos d (V3c 0) a
  | EMesh m _ => EMesh m (V3c 0)
  | EDirMesh m d _ => EDirMesh m d (V3c 0)
  | EEnv tex _ => EEnv tex (V3c 0)
  | EInterpEnv _ _ => EInterpEnv (V3c 0) (V3c 0)
  end.

Inductive all3 {A} (R : A -> A -> A -> Prop) : list A -> list A -> list A -> Prop :=
| all3_nil : all3 R [] [] []
| all3_cons a b c l m n : R a b c -> all3 R l m n -> all3 R (a :: l) (b :: m) (c :: n).
Definition opt3 {A} (R : A -> A -> A -> Prop) (x y z : option A) : Prop :=
  match x, y, z with None, None, None => True | Some a, Some b, Some c => R a b c | _, _, _ => False end.
(** failures agree *)
Definition out3 {A} (R : A -> A -> A -> Prop) (x y z : outcome A) : Prop :=
  match x, y, z with
  | Ok a, Ok b, Ok c => R a b c
  | Throw m, Throw m', Throw m'' => m = m' /\ m = m''
  | UB, UB, UB => True
  | OutOfFuel, OutOfFuel, OutOfFuel => True
  | _, _, _ => False
  end.
Definition adds (a b c : vec3) : Prop := c = vadd a b.

(** everything but the lights is shared *)
Record mixture {M} (S1 S2 S3 : scene M) : Prop := {
  mx_emitters : all3 mixed (sc_emitters S1) (sc_emitters S2) (sc_emitters S3);
  mx_envs : all3 mixed (sc_envs S1) (sc_envs S2) (sc_envs S3);
  mx_object : forall n, opt3 mixed (sc_object_emitter S1 n) (sc_object_emitter S2 n) (sc_object_emitter S3 n);
  mx_2 : sc_shader S2 = sc_shader S1 /\ sc_inst S2 = sc_inst S1 /\ sc_mesh_point S2 = sc_mesh_point S1 /\ sc_inside S2 = sc_inside S1 /\
         sc_transmittance S2 = sc_transmittance S1 /\ sc_fuel S2 = sc_fuel S1 /\ sc_ignore S2 = sc_ignore S1;
  mx_3 : sc_shader S3 = sc_shader S1 /\ sc_inst S3 = sc_inst S1 /\ sc_mesh_point S3 = sc_mesh_point S1 /\ sc_inside S3 = sc_inside S1 /\
         sc_transmittance S3 = sc_transmittance S1 /\ sc_fuel S3 = sc_fuel S1 /\ sc_ignore S3 = sc_ignore S1 }.

(** three runs: failures agree, the third result is the sum of the others, and the clocks and random
    numbers used are the same *)
Definition run3 {W} (a b c : outcome vec3 * st W) : Prop :=
  out3 adds (fst a) (fst b) (fst c) /\
  s_clk W (snd b) = s_clk W (snd a) /\ s_clk W (snd c) = s_clk W (snd a) /\
  s_w W (snd b) = s_w W (snd a) /\ s_w W (snd c) = s_w W (snd a).

(** the lights of S for which [g] holds, the others switched off *)
Definition only (g : emitter -> bool) (e : emitter) : emitter := if g e then e else off e.
Definition lit {M} (g : emitter -> bool) (S : scene M) : scene M :=
  Scene (map (only g) (sc_emitters S)) (map (only g) (sc_envs S)) (fun n => option_map (only g) (sc_object_emitter S n))
        (sc_shader S) (sc_inst S) (sc_mesh_point S) (sc_inside S) (sc_transmittance S) (sc_fuel S) (sc_ignore S).
