(** Surfaces and media that keep at least a part of the light to themselves. *)
From Coq Require Import Reals List Bool.
From Coquelicot Require Import Rbar.
From Verif.Base Require Import Outcome.
From Verif.Model Require Import Vec Frame BBox Integrators Bsdf Scene VolPath.
From Verif.Spec Require Import BoundSpec VolPathSpec ExpectSpec.
Import ListNotations.
Open Scope R_scope.

Section Fading.
Variable hit : ray -> option isect.
Variable M : Type.
Variable med_sample : M -> option bool -> ray -> R -> query (vec3 * R).
Variable sh_evaluate : isect -> ray -> option M -> closure -> query closure.
Variable sh_mat : isect -> vec3 -> vec3 -> vec3.
Variable sh_sample : isect -> closure -> query closure.

(** whatever is scattered, at a surface or inside a medium, is at most the share rho of what came in; [P] as in
    [gentle] *)
Record fading (rho : R) (P : closure -> Prop) : Prop := {
  fa_share : 0 <= rho < 1;
  fa_surface : forall r i md c c1 c3, hit r = Some i -> P c -> hleaf hit (sh_evaluate i r md (reset_closure c (isect_toLocal i (vneg (dir r))))) c1 ->
    hleaf hit (sh_sample i (set_wi (accumulate_shadow_rays (sh_mat i) c1) (isect_toLocal i (vneg (dir r))))) c3 ->
    c_pdf c3 <> 0 -> within rho (vscale (c_albedo c3) (cos_term i c3 / c_pdf c3));
  fa_medium : forall m f r t wt, hleaf hit (med_sample m f r t) wt -> snd wt < t -> within rho (fst wt) }.
End Fading.

(** what n, n+1, n+2, ... bounces can still bring: L rho^n + L rho^(n+1) + ... *)
Definition rest (L rho : R) (n : nat) : R := L * rho ^ n / (1 - rho).

(** materials that send on at most the share rho *)
Definition dull (rho : R) (b : bsdf) : Prop :=
  match b with
  | Diffuse a | Mirror a | Dielectric _ _ a | OneWay _ _ a => within rho a
  | NullBsdf | Phong _ _ _ | Blinn _ _ _ => False
  end.
