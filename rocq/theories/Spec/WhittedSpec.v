(** The light that Whitted's integrator gathers, on average over its random numbers. *)
From Coq Require Import Reals List Bool.
From Coquelicot Require Import Rbar.
From Verif.Base Require Import Outcome.
From Verif.Model Require Import Vec Frame BBox Integrators Scene.
From Verif.Spec Require Import IntegratorSpec BoundSpec VolPathSpec ExpectSpec.
Import ListNotations.
Open Scope R_scope.

(** the share of the random numbers with which a path goes on *)
Definition kept (e1 : (R -> R) -> R) : R := e1 (fun u => if Rgt_dec u (95 / 100) then 0 else 1).

Section Light.
Variable hit : ray -> option isect.
Variable e1 : (R -> R) -> R.
Variable e2 : (vec2 -> R) -> R.
Variable env : ray -> vec3.
Variable sh_evaluate : isect -> ray -> closure -> query closure.
Variable sh_mat : isect -> vec3 -> vec3 -> vec3.
Variable sh_sample : isect -> closure -> query closure.
Variable get : vec3 -> R.
(** what is seen along a ray over at most n surfaces: other surfaces than mirrors and glass show their own light
    twice and the lamps once; mirrors and glass show their own light and what is seen in them, and both only in
    the share of the samples that go on; what is seen in them counts 1/0.95-fold, and not at all when
    they are as good as black *)
Fixpoint seen (n : nat) (r : ray) : R :=
  match n with
  | O => 0
  | S n =>
      match hit r with
      | None => get (env r)
      | Some i =>
          let wi := isect_toLocal i (vneg (dir r)) in
          expect hit e1 e2 (sh_evaluate i r (closure_init false true wi)) (fun c1 =>
            let c2 := accumulate_shadow_rays (sh_mat i) c1 in
            if c_spec c2 then
              expect hit e1 e2 (sh_sample i (set_wi c2 wi)) (fun c3 =>
                kept e1 * (get (c_emission c3) + get (c_nee c3) +
                  if isZero_dec (vscale (c_albedo c3) (1 / (95 / 100))) then 0 else get (c_albedo c3) / (95 / 100) * seen n (next_ray i c3)))
            else 2 * get (c_emission c2) + get (c_nee c2))
      end
  end.
End Light.

(** lights of at most L at every surface, and mirrors that reflect at most the share rho *)
Record polite (hit : ray -> option isect) (env : ray -> vec3) (sh_evaluate : isect -> ray -> closure -> query closure)
    (sh_mat : isect -> vec3 -> vec3 -> vec3) (sh_sample : isect -> closure -> query closure) (L rho : R) : Prop := {
  po_light : 0 <= L;
  po_share : 0 <= rho;
  po_sky : forall r, within L (env r);
  po_vertex : forall r i c1, hit r = Some i -> hleaf hit (sh_evaluate i r (closure_init false true (isect_toLocal i (vneg (dir r))))) c1 ->
    let c2 := accumulate_shadow_rays (sh_mat i) c1 in
    within L (vadd (vadd (c_emission c2) (c_nee c2)) (c_emission c2)) /\
    (c_spec c2 = true -> forall c3, hleaf hit (sh_sample i (set_wi c2 (isect_toLocal i (vneg (dir r))))) c3 ->
      within L (vadd (c_emission c3) (c_nee c3)) /\ within rho (c_albedo c3)) }.
