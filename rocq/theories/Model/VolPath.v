(** src/integrators/{volpath,volpath_nonexp,volpath_trans}.cpp.

    The integrators contain no clock calls of their own; the ray accelerator does
    (Model/Integrators.v, accel_intersect).  An integrator is a program over the scene and the
    sampler (type [query]).  The material shaders, Media::sample, PhaseFunction::sample and the
    sampling of lights are parameters, any finite programs.  Media are elements of a type [M];
    a null pointer to a medium is None.  With a throughput of zero the roulette of the code divides
    by zero when the random number is zero too; here the quotient is zero. *)
From Coq Require Import Reals List Bool.
From Coquelicot Require Import Rbar.
From Verif.Base Require Import Outcome.
From Verif.Model Require Import Vec Frame BBox Integrators Scene.
Import ListNotations.
Open Scope R_scope.

(** ray.h:40-43, operator()(t) *)
Definition ray_at (r : ray) (t : R) : vec3 := vadd (org r) (vscale (dir r) t).
Definition set_p (i : isect) (p : vec3) : isect :=
  Isect p (i_t i) (i_bary i) (i_s i) (i_g i) (i_mesh i) (i_null i).

(** What an integrator did, in order.  The flags f (for distance sampling) and g (for light sampling)
    say that the previous vertex was on a surface. *)
Inductive vevent {M : Type} :=
| VEscape (r : ray)                                   (* no surface on the ray *)
| VPass (m : M) (f : option bool) (r : ray) (i : isect) (w : vec3)
                                                      (* medium crossed up to surface i, weight w *)
| VScatter (m : M) (f : option bool) (r : ray) (i : isect) (t : R) (w : vec3)
           (g : bool) (l : list emitter_eval)         (* scattering at distance t, light samples l *)
           (wi : vec3) (phase : R) (u : R)            (* new direction; u: roulette *)
| VBoundary (r : ray) (i : isect)
| VShade (r : ray) (i : isect) (c : closure)          (* closure after evaluate and shadow rays *)
| VRoulette (u : R)
| VSample (i : isect) (c : closure).                  (* closure after sample *)
Arguments vevent : clear implicits.

Section VolPath.
Variable M : Type.
Variable env : ray -> vec3.                            (* Scene::env_emission *)
(** intersected_mesh->boundry with outside->media and inside->media *)
Variable boundary : nat -> option (option M * option M).
(** Media::sample(ray, sampler, closure) for t_max: the weight and closure.sampled_t (any number not
    below t_max when nothing was sampled); the flag is closure.last_event, None when it was not
    initialised (closure.h:125-131) *)
Variable med_sample : M -> option bool -> ray -> R -> query (vec3 * R).
Variable phase_sample : M -> vec3 -> vec2 -> vec3 * R.          (* direction, value *)
(** eval_all_emitters(closure, true) / eval_one_emitter(closure, true), scene.cpp:361-535, given
    closure.sample_all_emitters and closure.last_event != VERTEX_MEDIUM *)
Variable nee_media : bool -> bool -> isect -> option M -> query (list emitter_eval).
Variable sh_evaluate : isect -> ray -> option M -> closure -> query closure.
Variable sh_mat : isect -> vec3 -> vec3 -> vec3.
Variable sh_sample : isect -> closure -> query closure.
Variable nonexp : bool.                                (* volpath_nonexp.cpp *)
Variable max_bounces : nat.

(** volpath.cpp:93-104 *)
Fixpoint media_nee (beta : vec3) (phase : R) (l : list emitter_eval) (nee : vec3) : vec3 :=
  match l with
  | [] => nee
  | e :: l' => media_nee beta phase l'
                 (if e_valid e then vadd nee (vmul (vscale beta phase) (e_throughput e)) else nee)
  end.
(** volpath.cpp:74-77,102,112-113: the closure after a scattering event *)
Definition scatter_closure (c : closure) (wi : vec3) (l : list emitter_eval) (nee : vec3) : closure :=
  Closure wi (c_wo c) l (V3c 0) (V3c 0) nee (c_pdf c) (c_eta c) false (c_spec c) (c_all c) (c_accepts c).
(** volpath.cpp:133-147; cosTheta of the local direction is its z coordinate *)
Definition cross_boundary (r : ray) (i : isect) (md : option M) : option M :=
  match boundary (i_mesh i) with
  | None => md
  | Some (outside, inside) => if Rle_dec (vz (isect_toLocal i (vneg (dir r)))) 0 then outside else inside
  end.
(** volpath.cpp:138 *)
Definition boundary_closure (r : ray) (i : isect) (c : closure) : closure :=
  match boundary (i_mesh i) with None => c | Some _ => set_wi c (isect_toLocal i (vneg (dir r))) end.

(** the loop state that an iteration hands to the next one: max_bounces - bounces, Li, beta, ray,
    closure, closure.media, closure.last_event != VERTEX_MEDIUM (which volpath.cpp leaves as it was
    created), and the events so far *)
Definition continuation : Type :=
  nat -> vec3 -> vec3 -> ray -> closure -> option M -> bool -> list (vevent M) -> query (outcome (vec3 * list (vevent M))).

(** volpath.cpp:129-157 (volpath_nonexp.cpp:140-170); [n] is max_bounces - bounces - 1 *)
Definition at_boundary (next : continuation) (n : nat) (Li beta : vec3) (r : ray) (cl : closure) (md : option M)
    (surf : bool) (its : isect) (h : list (vevent M)) :=
  next (S n) Li beta (Ray (i_p its) (dir r) (Finite Epsilon) p_infty)
    (boundary_closure r its cl) (cross_boundary r its md)
    (if nonexp && (S n =? max_bounces - 1)%nat then true else surf) (h ++ [VBoundary r its]).

(** volpath.cpp:159-206 (volpath_nonexp.cpp:172-222) *)
Definition at_surface (next : continuation) (n : nat) (Li beta : vec3) (r : ray) (cl : closure) (md : option M)
    (its : isect) (h : list (vevent M)) :=
  qbind (sh_evaluate its r md (reset_closure cl (isect_toLocal its (vneg (dir r))))) (fun cl =>
    let cl := accumulate_shadow_rays (sh_mat its) cl in
    QRand1 (fun u =>
      if Rgt_dec u (rr_prob beta)
      then QRet (Ok (vadd Li (vmul beta (vadd (c_emission cl) (c_nee cl))), h ++ [VShade r its cl; VRoulette u]))
      else
        qbind (sh_sample its (set_wi cl (isect_toLocal its (vneg (dir r))))) (fun cl' =>
          if Req_EM_T (c_pdf cl') 0
          then QRet (Ok (vadd Li (vmul beta (vadd (c_emission cl') (c_nee cl'))),
                         h ++ [VShade r its cl; VRoulette u; VSample its cl']))
          else
            next n (vadd Li (vmul beta (vadd (c_nee cl') (c_emission cl'))))
              (vmul beta (vdiv (vscale (c_albedo cl') (cos_term its cl')) (c_pdf cl' * rr_prob beta)))
              (next_ray its cl') cl' md true (h ++ [VShade r its cl; VRoulette u; VSample its cl'])))).
Definition arrive (next : continuation) (n : nat) (Li beta : vec3) (r : ray) (cl : closure) (md : option M)
    (surf : bool) (its : isect) (h : list (vevent M)) :=
  if i_null its then at_boundary next n Li beta r cl md surf its h else at_surface next n Li beta r cl md its h.

(** volpath.cpp:70-125 (volpath_nonexp.cpp:79-136); [beta] already contains the weight w *)
Definition scatter (next : continuation) (n : nat) (Li beta : vec3) (r : ray) (cl : closure) (m : M)
    (f : option bool) (surf : bool) (its : isect) (w : vec3) (t : R) (h : list (vevent M)) :=
  qbind (nee_media (c_all cl) surf (set_p its (ray_at r t)) (Some m)) (fun l =>
    QRand2 (fun s =>
      let (wi, phase) := phase_sample m (vneg (dir r)) s in
      QRand1 (fun u =>
        let nee := media_nee beta phase l (V3c 0) in
        if Rgt_dec u (rr_prob beta) then QRet (Ok (vadd Li nee, h ++ [VScatter m f r its t w surf l wi phase u]))
        else
          next n (vadd Li nee) (vdiv beta (rr_prob beta))
            (Ray (ray_at r t) (normalized wi) (Finite Epsilon) p_infty)
            (scatter_closure cl (vneg (dir r)) l nee) (Some m) (negb nonexp)
            (h ++ [VScatter m f r its t w surf l wi phase u])))).

(** volpath.cpp:62-68 *)
Definition traverse (next : continuation) (n : nat) (Li beta : vec3) (r : ray) (cl : closure) (md : option M)
    (surf : bool) (its : isect) (h : list (vevent M)) :=
  match md with
  | None => arrive next n Li beta r cl md surf its h
  | Some m =>
      let f := if nonexp then Some surf else None in
      qbind (med_sample m f r (i_t its)) (fun wt =>
        if Rlt_dec (snd wt) (i_t its)
        then scatter next n Li (vmul beta (fst wt)) r cl m f surf its (fst wt) (snd wt) h
        else arrive next n Li (vmul beta (fst wt)) r cl md surf its (h ++ [VPass m f r its (fst wt)]))
  end.

(** volpath.cpp:49-207 (volpath_nonexp.cpp:52-223): [n] is max_bounces - bounces, [fuel] bounds the
    number of iterations *)
Fixpoint vol_loop (fuel : nat) : continuation := fun n Li beta r cl md surf h =>
  match fuel with
  | O => QRet OutOfFuel
  | S fuel =>
    match n with
    | O => QRet (Ok (Li, h))
    | S n =>
      if isZero_dec beta then QRet (Ok (Li, h)) else
      QHit r (fun a =>
        match a with
        | None => QRet (Ok (vadd Li (vmul beta (env r)), h ++ [VEscape r]))
        | Some its => traverse (vol_loop fuel) n Li beta r cl md surf its h
        end)
    end
  end.

(** volpath.cpp:26-46,209 and volpath_nonexp.cpp:27-49,225; [env_medium] is
    scene->env_medium_node->media.  The uninitialised wi is overwritten before use. *)
Definition vol_Li (fuel : nat) (env_medium : option M) (cam : ray) : query (outcome (vec3 * list (vevent M))) :=
  vol_loop fuel max_bounces (V3c 0) (V3c 1) cam (closure_init nonexp true (V3c 0)) env_medium true [].

(** volpath_trans.cpp:28-72.  [transmittance m r t_max] is Media::transmittance.  A second miss leaves
    [its] as it was (ray_embree.cpp:56-101). *)
Variable transmittance : M -> ray -> R -> query vec3.
Variable boundary_of : nat -> option (option (option M)).  (* boundry; boundry->inside; ->media *)
Definition vol_trans_Li (r : ray) : query (outcome vec3) :=
  QHit r (fun a =>
    match a with
    | None => QRet (Ok (V3c 1))
    | Some i =>
        match boundary_of (i_mesh i) with
        | None => QRet (Ok (V3c 1))
        | Some None => QRet UB
        | Some (Some md) =>
            let r' := Ray (i_p i) (dir r) (Finite Epsilon) p_infty in
            QHit r' (fun b =>
              let t := match b with Some j => i_t j | None => i_t i end in
              match md with
              | Some m => qbind (transmittance m r' t) (fun v => QRet (Ok v))
              | None => QRet (Ok (V3c 1))
              end)
        end
    end).
End VolPath.

(** an integrator given as a program, run with the clocks of the ray accelerator (ray_embree.cpp:56-101) *)
Definition as_Li (W : Type) (now : W -> R * W) (hit : W -> ray -> option isect * W) (rnd1 : W -> R * W) (rnd2 : W -> vec2 * W) {X}
    (q : query (outcome (vec3 * X))) : Integrators.M W vec3 :=
  bindM W (run_query W now hit rnd1 rnd2 q) (fun o s => match o with
    | Ok (v, _) => (Ok v, s) | Throw e => (Throw e, s) | UB => (UB, s) | OutOfFuel => (OutOfFuel, s) end).
