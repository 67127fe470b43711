(** Averages over the random numbers of an integrator, and the light that arrives along a ray. *)
From Coq Require Import Reals List Bool.
From Coquelicot Require Import Rbar.
From Verif.Base Require Import Outcome.
From Verif.Model Require Import Vec Frame BBox Integrators Scene VolPath.
From Verif.Spec Require Import BoundSpec VolPathSpec.
Import ListNotations.
Open Scope R_scope.

(** an average over one random number, and over a pair; the numbers are spread evenly over [0,1] up to
    steps of d *)
Record averages (d : R) (e1 : (R -> R) -> R) (e2 : (vec2 -> R) -> R) : Prop := {
  av_lin1 : forall x y f g, e1 (fun u => x * f u + y * g u) = x * e1 f + y * e1 g;
  av_mono1 : forall f g, (forall u, f u <= g u) -> e1 f <= e1 g;
  av_one1 : e1 (fun _ => 1) = 1;
  av_lin2 : forall x y f g, e2 (fun u => x * f u + y * g u) = x * e2 f + y * e2 g;
  av_mono2 : forall f g, (forall u, f u <= g u) -> e2 f <= e2 g;
  av_one2 : e2 (fun _ => 1) = 1;
  av_even : forall p, 0 <= p <= 1 -> p <= e1 (fun u => if Rgt_dec u p then 0 else 1) <= p + d }.

(** a colour channel *)
Definition channel (get : vec3 -> R) : Prop := get = vx \/ get = vy \/ get = vz.

Section Expect.
Variable hit : ray -> option isect.
Variable e1 : (R -> R) -> R.
Variable e2 : (vec2 -> R) -> R.
(** the average of [f] over the results of a program whose draws are independent *)
Fixpoint expect {A} (q : query A) (f : A -> R) : R :=
  match q with
  | QRet a => f a
  | QHit r k => expect (k (hit r)) f
  | QRand1 k => e1 (fun u => expect (k u) f)
  | QRand2 k => e2 (fun u => expect (k u) f)
  end.
Definition ends {A} (q : query (outcome A)) : Prop := forall o, hleaf hit q o -> exists x, o = Ok x.

Section Light.
Variable M : Type.
Variable env : ray -> vec3.
Variable boundary : nat -> option (option M * option M).
Variable med_sample : M -> option bool -> ray -> R -> query (vec3 * R).
Variable phase_sample : M -> vec3 -> vec2 -> vec3 * R.
Variable nee_media : bool -> bool -> isect -> option M -> query (list emitter_eval).
Variable sh_evaluate : isect -> ray -> option M -> closure -> query closure.
Variable sh_mat : isect -> vec3 -> vec3 -> vec3.
Variable sh_sample : isect -> closure -> query closure.
Variable nonexp : bool.
Variable max_bounces : nat.
Variable get : vec3 -> R.

(** the light that arrives along a ray over at most n vertices: what a vertex sends out, plus what is
    scattered there of the light that arrives at it; no throughput, no roulette, no cut-off *)
Fixpoint arrives (fuel n : nat) (r : ray) (c : closure) (md : option M) (surf : bool) : R :=
  match fuel with
  | O => 0
  | S fuel =>
    match n with
    | O => 0
    | S n =>
      match hit r with
      | None => get (env r)
      | Some i =>
          let behind :=
            if i_null i then
              arrives fuel (S n) (Ray (i_p i) (dir r) (Finite Epsilon) p_infty) (boundary_closure M boundary r i c) (cross_boundary M boundary r i md)
                (if nonexp && (S n =? max_bounces - 1)%nat then true else surf)
            else
              expect (sh_evaluate i r md (reset_closure c (isect_toLocal i (vneg (dir r))))) (fun c1 =>
                let c2 := accumulate_shadow_rays (sh_mat i) c1 in
                get (vadd (c_emission c2) (c_nee c2)) +
                expect (sh_sample i (set_wi c2 (isect_toLocal i (vneg (dir r))))) (fun c3 =>
                  if Req_EM_T (c_pdf c3) 0 then 0
                  else get (vscale (c_albedo c3) (cos_term i c3 / c_pdf c3)) * arrives fuel n (next_ray i c3) c3 md true)) in
          match md with
          | None => behind
          | Some m =>
              expect (med_sample m (if nonexp then Some surf else None) r (i_t i)) (fun wt =>
                get (fst wt) *
                if Rlt_dec (snd wt) (i_t i) then
                  expect (nee_media (c_all c) surf (set_p i (ray_at r (snd wt))) (Some m)) (fun l =>
                    e2 (fun s =>
                      let (wi, phase) := phase_sample m (vneg (dir r)) s in
                      get (media_nee (V3c 1) phase l (V3c 0)) +
                      arrives fuel n (Ray (ray_at r (snd wt)) (normalized wi) (Finite Epsilon) p_infty)
                        (scatter_closure c (vneg (dir r)) l (V3c 0)) (Some m) (negb nonexp)))
                else behind)
          end
      end
    end
  end.

(** surfaces and media that do not create light, and lights of at most L at every vertex; [P] is whatever
    can be said about the closure that is carried along *)
Record gentle (L : R) (P : closure -> Prop) : Prop := {
  ge_light : 0 <= L;
  ge_sky : forall r, within L (env r);
  ge_start : P (closure_init nonexp true (V3c 0));
  ge_cross : forall r i c, P c -> P (boundary_closure M boundary r i c);
  ge_vertex : forall r i md c c1, hit r = Some i -> P c -> hleaf hit (sh_evaluate i r md (reset_closure c (isect_toLocal i (vneg (dir r))))) c1 ->
    let c2 := accumulate_shadow_rays (sh_mat i) c1 in
    within L (vadd (c_emission c2) (c_nee c2)) /\
    forall c3, hleaf hit (sh_sample i (set_wi c2 (isect_toLocal i (vneg (dir r))))) c3 ->
      c_emission c3 = c_emission c2 /\ c_nee c3 = c_nee c2 /\ P c3 /\
      (c_pdf c3 <> 0 -> within 1 (vscale (c_albedo c3) (cos_term i c3 / c_pdf c3)));
  ge_medium : forall m f r t wt, hleaf hit (med_sample m f r t) wt -> within 1 (fst wt);
  ge_scatter : forall surf i m f r c wt l s nee, P c -> hit r = Some i -> hleaf hit (med_sample m f r (i_t i)) wt -> snd wt < i_t i ->
    hleaf hit (nee_media (c_all c) surf (set_p i (ray_at r (snd wt))) (Some m)) l ->
    within L (media_nee (V3c 1) (snd (phase_sample m (vneg (dir r)) s)) l (V3c 0)) /\ P (scatter_closure c (vneg (dir r)) l nee) }.
End Light.
End Expect.

(** a generator of one number out of 0, 1/N, ..., (N-1)/N, all equally likely *)
Fixpoint total (n : nat) (f : nat -> R) : R := match n with O => 0 | S n => total n f + f n end.
Definition grid1 (N : nat) (f : R -> R) : R := total N (fun k => f (INR k / INR N)) / INR N.
Definition grid2 (N : nat) (f : vec2 -> R) : R := grid1 N (fun x => grid1 N (fun y => f (V2 x y))).
