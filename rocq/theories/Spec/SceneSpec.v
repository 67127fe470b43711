(** Direct lighting: what is asked of the emitters and of shadow rays. *)
From Coq Require Import Reals List Bool.
From Coquelicot Require Import Rbar.
From Verif.Base Require Import Outcome.
From Verif.Model Require Import Vec Frame BBox Integrators.
From Verif.Spec Require Import IntegratorSpec PathSpec.
Import ListNotations.
Open Scope R_scope.

(** run a program in a fixed scene with given random numbers; None when they do not suffice *)
Fixpoint play {A} (hit : ray -> option isect) (q : query A) (us : list R) (vs : list vec2) : option (A * list R * list vec2) :=
  match q with
  | QRet a => Some (a, us, vs)
  | QHit r k => play hit (k (hit r)) us vs
  | QRand1 k => match us with [] => None | u :: us => play hit (k u) us vs end
  | QRand2 k => match vs with [] => None | v :: vs => play hit (k v) us vs end
  end.
(** a scene given by the surfaces along each line, in order *)
Definition scene_hit (lines : vec3 -> vec3 -> list isect) (r : ray) : option isect :=
  first_in (rnear r) (rfar r) (lines (org r) (dir r)).
(** the surfaces in the range of a ray *)
Definition on_ray (lines : vec3 -> vec3 -> list isect) (r : ray) : list isect :=
  filter (fun i => Rbar_leb (rnear r) (Finite (i_t i)) && Rbar_leb (Finite (i_t i)) (rfar r)) (lines (org r) (dir r)).

(** ** transmittance *)
Section Media.
Context {M : Type}.
Variable medium : isect -> option M.              (* the medium behind a boundary *)
Variable T : M -> Rbar -> Rbar -> vec3.           (* transmittance between two distances *)
(** what the renderer computes: every stretch between consecutive boundaries is taken to be filled
    with the medium of the first, the last stretch to be empty *)
Fixpoint between (l : list isect) : vec3 :=
  match l with
  | i :: ((j :: _) as l') =>
      match medium i with
      | Some m => vmul (T m (Finite (i_t i + 1 / 1000)) (Finite (i_t j))) (between l')
      | None => between l'
      end
  | _ => V3c 1
  end.
(** what light does: boundaries alternately enter and leave their medium *)
Fixpoint through (cur : option M) (near : Rbar) (l : list isect) (far : Rbar) : vec3 :=
  let here := fun b => match cur with None => V3c 1 | Some m => T m near b end in
  match l with
  | [] => here far
  | i :: l' => vmul (here (Finite (i_t i))) (through (match cur with None => medium i | Some _ => None end) (Finite (i_t i)) l' far)
  end.
End Media.

(** ** lights *)
(** sum of a list of colors *)
Definition vsum (l : list vec3) : vec3 := fold_right vadd (V3c 0) l.
(** the light delivered by the recorded shadow rays *)
Definition delivered (mat : vec3 -> vec3 -> vec3) (wi : vec3) (l : list emitter_eval) : vec3 :=
  vsum (map (fun e => vmul (e_throughput e) (mat wi (normalized (e_dir e)))) (filter e_valid l)).
(** the irradiance a point of power [power] sends, per unit area facing it, to distance d: power over
    the area of the sphere of radius d *)
Definition point_irradiance (power d : R) : R := power / (4 * PI * (d * d)).
(** an unsigned angle between two unit vectors *)
Definition angle_is (a b : vec3) (theta : R) : Prop := 0 <= theta <= PI /\ dot a b = cos theta.
(** latitude-longitude maps: the direction of a point of the unit square, y up *)
Definition latlong (u v : R) : vec3 := V3 (sin (PI * v) * cos (2 * PI * u)) (cos (PI * v)) (sin (PI * v) * sin (2 * PI * u)).

(** [light_once direct h]: emitted light is counted at a vertex only when the previous vertex could
    not have sampled the light ([direct]: the camera, or a specular surface), and lights are sampled
    only at surfaces that are not specular *)
Fixpoint light_once (direct : bool) (h : list event) : Prop :=
  match h with
  | [] => True
  | HShade i c :: h' =>
      (direct = false -> c_emission c = V3c 0) /\ (c_spec c = true -> c_nee c = V3c 0) /\ light_once (c_spec c) h'
  | _ :: h' => light_once direct h'
  end.
