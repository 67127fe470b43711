(** Means over all random numbers an integrator can be given. *)
From Coq Require Import Reals List Bool.
From Coquelicot Require Import Rbar.
From Verif.Base Require Import Outcome.
From Verif.Model Require Import Vec Frame BBox Integrators Scene VolPath.
From Verif.Spec Require Import BoundSpec VolPathSpec ExpectSpec NoiseSpec.
Import ListNotations.
Open Scope R_scope.

(** the random numbers still to come; a pair takes two of them *)
Definition tape := list R.
Definition one_of (l : tape) : R * tape := match l with [] => (0, []) | u :: l => (u, l) end.
Definition two_of (l : tape) : vec2 * tape := let (x, l) := one_of l in let (y, l) := one_of l in (V2 x y, l).
(** all tapes of k numbers out of 0, 1/N, ..., (N-1)/N *)
Fixpoint all_tapes (N k : nat) : list tape :=
  match k with
  | O => [[]]
  | S k => flat_map (fun j => map (cons (INR j / INR N)) (all_tapes N k)) (seq 0 N)
  end.
(** the mean of f over these tapes *)
Definition over_tapes (N k : nat) (f : tape -> R) : R := mean (map f (all_tapes N k)).

Section Light.
Variable hit : ray -> option isect.
Variable e1 : (R -> R) -> R.
Variable e2 : (vec2 -> R) -> R.
Variable env : ray -> vec3.
Variable sh_evaluate : isect -> ray -> closure -> query closure.
Variable sh_mat : isect -> vec3 -> vec3 -> vec3.
Variable sh_sample : isect -> closure -> query closure.
Variable get : vec3 -> R.
(** the light that arrives along a ray over at most n vertices in a scene of surfaces only: what the first
    surface sends out, plus what it scatters of the light that arrives there *)
Fixpoint arrives_there (n : nat) (r : ray) (c : closure) : R :=
  match n with
  | O => 0
  | S n =>
      match hit r with
      | None => get (env r)
      | Some i =>
          let wi := isect_toLocal i (vneg (dir r)) in
          expect hit e1 e2 (sh_evaluate i r (reset_closure c wi)) (fun c1 =>
            let c2 := accumulate_shadow_rays (sh_mat i) c1 in
            get (vadd (c_emission c2) (c_nee c2)) +
            expect hit e1 e2 (sh_sample i (set_wi c2 wi)) (fun c3 =>
              if Req_EM_T (c_pdf c3) 0 then 0
              else get (vscale (c_albedo c3) (cos_term i c3 / c_pdf c3)) * arrives_there n (next_ray i c3) c3))
      end
  end.
End Light.

(** [N] samples, one after the other, with the random numbers, clocks and log that the one before left *)
Fixpoint shots {W A} (N : nat) (m : Integrators.M W A) : Integrators.M W (list A) :=
  match N with
  | O => ret W []
  | S N => bindM W m (fun a => bindM W (shots N m) (fun l => ret W (a :: l)))
  end.

(** surfaces that do not create light, and lights of at most L at every vertex; [P] is whatever can be said
    about the closure that is carried along *)
Record gentle_surfaces (hit : ray -> option isect) (env : ray -> vec3) (sh_evaluate : isect -> ray -> closure -> query closure)
    (sh_mat : isect -> vec3 -> vec3 -> vec3) (sh_sample : isect -> closure -> query closure) (L : R) (P : closure -> Prop) : Prop := {
  gs_light : 0 <= L;
  gs_sky : forall r, within L (env r);
  gs_start : P (closure_init false true (V3c 0));
  gs_vertex : forall r i c c1, hit r = Some i -> P c -> hleaf hit (sh_evaluate i r (reset_closure c (isect_toLocal i (vneg (dir r))))) c1 ->
    let c2 := accumulate_shadow_rays (sh_mat i) c1 in
    within L (vadd (c_emission c2) (c_nee c2)) /\
    forall c3, hleaf hit (sh_sample i (set_wi c2 (isect_toLocal i (vneg (dir r))))) c3 ->
      c_emission c3 = c_emission c2 /\ c_nee c3 = c_nee c2 /\ P c3 /\
      (c_pdf c3 <> 0 -> within 1 (vscale (c_albedo c3) (cos_term i c3 / c_pdf c3))) }.

(** surfaces that pass on at most the share rho *)
Record fading_surfaces (hit : ray -> option isect) (sh_evaluate : isect -> ray -> closure -> query closure)
    (sh_mat : isect -> vec3 -> vec3 -> vec3) (sh_sample : isect -> closure -> query closure) (rho : R) (P : closure -> Prop) : Prop := {
  fs_share : 0 <= rho < 1;
  fs_surface : forall r i c c1 c3, hit r = Some i -> P c -> hleaf hit (sh_evaluate i r (reset_closure c (isect_toLocal i (vneg (dir r))))) c1 ->
    hleaf hit (sh_sample i (set_wi (accumulate_shadow_rays (sh_mat i) c1) (isect_toLocal i (vneg (dir r))))) c3 ->
    c_pdf c3 <> 0 -> within rho (vscale (c_albedo c3) (cos_term i c3 / c_pdf c3)) }.
