(** Specifications of the integrators on the history of what the scene and the shaders answered. *)
From Coq Require Import Reals List Bool.
From Verif.Base Require Import Outcome.
From Verif.Model Require Import Vec Frame BBox Clocker Integrators.
Import ListNotations.
Open Scope R_scope.

(** the clocks an integrator or the ray accelerator may use; the caller's own clocks
    (API, RENDERING, INTEGRATOR, ...) may be running *)
Definition integrator_clocks : list ctype :=
  [INTEGRATOR_INTERSECT; INTEGRATOR_RR; INTEGRATOR_NEE; INTEGRATOR_EVAL;
   SHADER; SHADER_SURFACE; SHADER_SURFACE_EVAL; SHADER_SURFACE_SAMPLE; EMBREE].
Definition idle (k : clocker) : Prop := forall c, In c integrator_clocks -> actives k c = false.
Definition render_clocks : list ctype := CAMERA_RAY :: INTEGRATOR :: FILTER :: integrator_clocks.
Definition idle_render (k : clocker) : Prop := forall c, In c render_clocks -> actives k c = false.

(** a run ends normally (or the model's fuel ran out), and then every clock is as before *)
Definition clean {W A} (r : outcome A * st W) (s : st W) : Prop :=
  match fst r with
  | Ok _ => forall c, actives (s_clk W (snd r)) c = actives (s_clk W s) c
  | OutOfFuel => True
  | _ => False
  end.

(** all closures a shader program can return *)
Inductive leaf {A} : query A -> A -> Prop :=
| leaf_ret a : leaf (QRet a) a
| leaf_hit r k x a : leaf (k x) a -> leaf (QHit r k) a
| leaf_rand1 k u a : leaf (k u) a -> leaf (QRand1 k) a
| leaf_rand2 k u a : leaf (k u) a -> leaf (QRand2 k) a.

(** sampling a direction does not touch emission and direct light *)
Definition keeps_light (sample : isect -> closure -> query closure) : Prop :=
  forall i c c', leaf (sample i c) c' -> c_emission c' = c_emission c /\ c_nee c' = c_nee c.

(** ** sum of attenuated contributions *)
Definition vsum (l : list vec3) : vec3 := fold_right vadd (V3c 0) l.

(** light found at each surface vertex *)
Fixpoint lights (h : list event) : list vec3 :=
  match h with
  | [] => []
  | HShade _ c :: l => vadd (c_emission c) (c_nee c) :: lights l
  | _ :: l => lights l
  end.
(** scattering decisions *)
Fixpoint scatterings (h : list event) : list (isect * closure) :=
  match h with
  | [] => []
  | HSample i c :: l => (i, c) :: scatterings l
  | _ :: l => scatterings l
  end.
Fixpoint escape (h : list event) : option ray :=
  match h with
  | [] => None
  | HRay r None :: _ => Some r
  | _ :: l => escape l
  end.
Definition surfaces (h : list event) : nat := List.length (lights h).
Fixpoint rays_cast (h : list event) : nat :=
  match h with
  | [] => O
  | HRay _ _ :: l => S (rays_cast l)
  | _ :: l => rays_cast l
  end.

(** survival probability of a path that carries [t] *)
Definition survival (t : vec3) : R := Rmin 1 (Rmax (vx t) (Rmax (vy t) (vz t))).
(** f * cos / (pdf * survival), component by component; delta materials have no cosine *)
Definition attenuation (t : vec3) (x : isect * closure) : vec3 :=
  let (i, c) := x in
  let cosine := if c_spec c then 1 else Rabs (dot (fn (i_s i)) (toWorld (i_s i) (c_wo c))) in
  let k := cosine / (c_pdf c * survival t) in
  V3 (vx (c_albedo c) * k) (vy (c_albedo c) * k) (vz (c_albedo c) * k).
(** product of the attenuations before vertex 0, 1, 2, ... starting from [t] *)
Fixpoint carried (t : vec3) (l : list (isect * closure)) : list vec3 :=
  t :: match l with
       | [] => []
       | x :: l' => carried (vmul t (attenuation t x)) l'
       end.

Fixpoint zip_mul (a b : list vec3) : list vec3 :=
  match a, b with
  | x :: a', y :: b' => vmul x y :: zip_mul a' b'
  | _, _ => []
  end.

Definition estimate (env : ray -> vec3) (t : vec3) (h : list event) : vec3 :=
  vadd (vsum (zip_mul (carried t (scatterings h)) (lights h)))
       (match escape h with
        | Some r => vmul (nth (surfaces h) (carried t (scatterings h)) (V3c 0)) (env r)
        | None => V3c 0
        end).

Definition nonneg (v : vec3) : Prop := 0 <= vx v /\ 0 <= vy v /\ 0 <= vz v.
Definition le3 (a b : vec3) : Prop := vx a <= vx b /\ vy a <= vy b /\ vz a <= vz b.

(** physically meaningful shading: non-negative light, albedo; non-negative densities *)
Definition physical (h : list event) : Prop :=
  (forall i c, In (HShade i c) h -> nonneg (c_emission c) /\ nonneg (c_nee c)) /\
  (forall i c, In (HSample i c) h -> nonneg (c_albedo c) /\ 0 <= c_pdf c).

(** a throughput that ends a path: below 1e-4 in each channel *)
Definition negligible (t : vec3) : Prop := Rabs (vx t) < 1 / 10000 /\ Rabs (vy t) < 1 / 10000 /\ Rabs (vz t) < 1 / 10000.
(** What the Whitted integrator returns for each history (as implemented: emission twice on a
    non-specular surface, nothing at all when the roulette ends the path). *)
Inductive whitted_value (env : ray -> vec3) : list event -> vec3 -> Prop :=
| wv_miss r : whitted_value env [HRay r None] (env r)
| wv_surface r i c : c_spec c = false ->
    whitted_value env [HRay r (Some i); HShade i c]
      (vadd (c_nee c) (vadd (c_emission c) (c_emission c)))
| wv_killed r i c c' u : c_spec c = true -> 95 / 100 < u ->
    whitted_value env [HRay r (Some i); HShade i c; HSample i c'; HRoulette u] (V3c 0)
| wv_dark r i c c' u : c_spec c = true -> u <= 95 / 100 ->
    negligible (vdiv (c_albedo c') (95 / 100)) ->
    whitted_value env [HRay r (Some i); HShade i c; HSample i c'; HRoulette u]
      (vadd (c_emission c') (c_nee c'))
| wv_bounce r i c c' u h v : c_spec c = true -> u <= 95 / 100 ->
    ~ negligible (vdiv (c_albedo c') (95 / 100)) ->
    (exists a h', h = HRay (Ray (i_p i) (toWorld (i_s i) (c_wo c')) (Coquelicot.Rbar.Finite (1 / 1000)) Coquelicot.Rbar.p_infty) a :: h') ->
    whitted_value env h v ->
    whitted_value env (HRay r (Some i) :: HShade i c :: HSample i c' :: HRoulette u :: h)
      (vadd (vmul (vdiv (c_albedo c') (95 / 100)) v) (vadd (c_emission c') (c_nee c'))).

(** a closure that carries no negative light *)
Definition no_negative_light (c : closure) : Prop :=
  nonneg (c_emission c) /\ nonneg (c_nee c) /\ Forall (fun e => nonneg (e_throughput e)) (c_shadow c).
(** material shaders that keep it so, with non-negative albedo and density *)
Definition physical_shaders (ev : isect -> ray -> closure -> query closure) (mat : isect -> vec3 -> vec3 -> vec3)
    (sample : isect -> closure -> query closure) : Prop :=
  (forall i r c c', no_negative_light c -> leaf (ev i r c) c' -> no_negative_light c') /\
  (forall i wi wo, nonneg (mat i wi wo)) /\
  (forall i c c', no_negative_light c -> leaf (sample i c) c' ->
     no_negative_light c' /\ nonneg (c_albedo c') /\ 0 <= c_pdf c').

(** the result of a shader program that asks for at most one random number of each kind *)
Fixpoint answer {A} (q : query A) (u1 : R) (u2 : vec2) : option A :=
  match q with
  | QRet a => Some a
  | QRand1 k => answer (k u1) u1 u2
  | QRand2 k => answer (k u2) u1 u2
  | QHit _ _ => None
  end.
