(** Order and geometry of what the path integrator asks for; rays through null boundaries. *)
From Coq Require Import Reals List Bool.
From Coquelicot Require Import Rbar.
From Verif.Model Require Import Vec Frame BBox Integrators.
From Verif.Spec Require Import IntegratorSpec.
Import ListNotations.
Open Scope R_scope.

(** the ray that leaves a surface point in a local direction *)
Definition leaving (i : isect) (w : vec3) : ray :=
  Ray (i_p i) (vadd (vadd (vscale (fs (i_s i)) (vx w)) (vscale (ft (i_s i)) (vy w))) (vscale (fn (i_s i)) (vz w)))
      (Finite (1 / 1000)) p_infty.
(** the direction a ray comes from, in the local frame of the surface *)
Definition arriving (i : isect) (r : ray) : vec3 :=
  V3 (- dot (dir r) (fs (i_s i))) (- dot (dir r) (ft (i_s i))) (- dot (dir r) (fn (i_s i))).

(** [path_history ev mat sample prev r h]: a possible history of a path that starts with ray r, when
    prev is the closure left by the previous vertex.  At each surface the shader is run on a closure
    with the arriving direction and no light, the recorded shadow rays are added, a random number
    decides about the end, a direction is sampled for the same arriving direction, and the next ray
    leaves the surface in that direction. *)
Inductive path_history (ev : isect -> ray -> closure -> query closure) (mat : isect -> vec3 -> vec3 -> vec3)
    (sample : isect -> closure -> query closure) : closure -> ray -> list event -> Prop :=
| ph_stop prev r : path_history ev mat sample prev r []
| ph_escape prev r : path_history ev mat sample prev r [HRay r None]
| ph_surface prev r i c0 c1 u l :
    c_wi c0 = arriving i r -> c_emission c0 = V3c 0 -> c_nee c0 = V3c 0 -> c_albedo c0 = V3c 0 ->
    c_shadow c0 = c_shadow prev -> c_last_spec c0 = c_last_spec prev -> c_all c0 = c_all prev -> c_accepts c0 = c_accepts prev ->
    leaf (ev i r c0) c1 ->
    path_scatter ev mat sample r i (accumulate_shadow_rays (mat i) c1) l ->
    path_history ev mat sample prev r (HRay r (Some i) :: HShade i (accumulate_shadow_rays (mat i) c1) :: HRoulette u :: l)
with path_scatter (ev : isect -> ray -> closure -> query closure) (mat : isect -> vec3 -> vec3 -> vec3)
    (sample : isect -> closure -> query closure) : ray -> isect -> closure -> list event -> Prop :=
| ps_killed r i c : path_scatter ev mat sample r i c []
| ps_absorbed r i c c' : leaf (sample i (set_wi c (arriving i r))) c' -> c_pdf c' = 0 ->
    path_scatter ev mat sample r i c [HSample i c']
| ps_go r i c c' h : leaf (sample i (set_wi c (arriving i r))) c' -> c_pdf c' <> 0 ->
    path_history ev mat sample c' (leaving i (c_wo c')) h ->
    path_scatter ev mat sample r i c (HSample i c' :: h).

(** ** surfaces along a line *)
Definition Rbar_leb (a b : Rbar) : bool := if Rbar_le_dec a b then true else false.
(** the first surface with parameter in [near, far], from a list in order of distance *)
Definition first_in (near far : Rbar) (l : list isect) : option isect :=
  find (fun i => Rbar_leb near (Finite (i_t i)) && Rbar_leb (Finite (i_t i)) far) l.
Fixpoint ordered (gap : R) (l : list isect) : Prop :=
  match l with
  | [] => True
  | i :: l' => match l' with [] => True | j :: _ => i_t i + gap <= i_t j end /\ ordered gap l'
  end.
Definition solid (i : isect) : bool := negb (i_null i).
Definition in_range (r : ray) (i : isect) : Prop := Rbar_le (rnear r) (Finite (i_t i)) /\ Rbar_le (Finite (i_t i)) (rfar r).
(** [nearest_solid r l a]: a is the first solid surface of l in the range of the ray, where surfaces
    less than 1/1000 behind a null boundary do not count *)
Definition nearest_solid (r : ray) (l : list isect) (a : option isect) : Prop :=
  match a with Some i => In i l /\ i_null i = false /\ in_range r i | None => True end /\
  forall j, In j l -> i_null j = false -> in_range r j ->
    match a with Some i => i_t i <= i_t j | None => False end \/
    exists k, In k l /\ i_null k = true /\ in_range r k /\ i_t k <= i_t j < i_t k + 1 / 1000.
