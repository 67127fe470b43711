(** src/debug_integrators/sandbox.cpp.

    Shaders, media and light sampling are parameters as in Model/VolPath.v.  The loop of the code runs
    at most once (`bounces < 1`), so what it prepares for a next iteration is left out. *)
From Coq Require Import Reals List Bool.
From Coquelicot Require Import Rbar.
From Verif.Base Require Import Outcome.
From Verif.Model Require Import Vec Frame BBox Integrators Scene VolPath.
Import ListNotations.
Open Scope R_scope.

Section Sandbox.
Variable M : Type.
Variable boundary_of : nat -> option (option (option M)).  (* boundry; boundry->inside; ->media *)
Variable med_sample : M -> option bool -> ray -> R -> query (vec3 * R).
Variable phase_sample : M -> vec3 -> vec2 -> vec3 * R.
Variable nee_media : bool -> bool -> isect -> option M -> query (list emitter_eval).
Variable sh_evaluate : isect -> ray -> option M -> closure -> query closure.
Variable sh_mat : isect -> vec3 -> vec3 -> vec3.
Variable sh_sample : isect -> closure -> query closure.

(** sandbox.cpp:155-205 *)
Definition sb_surface (beta : vec3) (r : ray) (md : option M) (its : isect) : query (outcome (vec3 * unit)) :=
  qbind (sh_evaluate its r md (reset_closure (closure_init false true (V3c 0)) (isect_toLocal its (vneg (dir r))))) (fun cl =>
    let cl := accumulate_shadow_rays (sh_mat its) cl in
    QRand1 (fun u =>
      if Rgt_dec u (rr_prob beta) then QRet (Ok (vadd (V3c 0) (vmul beta (vadd (c_emission cl) (c_nee cl))), tt))
      else
        qbind (sh_sample its (set_wi cl (isect_toLocal its (vneg (dir r))))) (fun cl =>
          if Req_EM_T (c_pdf cl) 0 then QRet (Ok (vadd (V3c 0) (vmul beta (vadd (c_emission cl) (c_nee cl))), tt))
          else QRet (Ok (vadd (V3c 0) (vmul beta (vadd (c_nee cl) (c_emission cl))), tt))))).

(** sandbox.cpp:74-126 *)
Definition sb_scatter (beta : vec3) (r : ray) (m : M) (its : isect) (t : R) : query (outcome (vec3 * unit)) :=
  qbind (nee_media false true (set_p its (ray_at r t)) (Some m)) (fun l =>
    QRand2 (fun s =>
      let (wi, phase) := phase_sample m (vneg (dir r)) s in
      QRand1 (fun u => QRet (Ok (vadd (V3c 0) (media_nee beta phase l (V3c 0)), tt))))).

(** sandbox.cpp:29-208.  A second miss leaves [its] as it was (ray_embree.cpp:56-101). *)
Definition sandbox_Li (cam : ray) : query (outcome (vec3 * unit)) :=
  QHit cam (fun a =>
    match a with
    | None => QRet (Ok (V3c 0, tt))
    | Some i =>
        if i_null i then
          match boundary_of (i_mesh i) with
          | None | Some None => QRet UB
          | Some (Some md) =>
              let r := Ray (i_p i) (dir cam) (Finite Epsilon) p_infty in
              QHit r (fun b =>
                let its := match b with Some j => j | None => i end in
                match md with
                | Some m =>
                    qbind (med_sample m None r (i_t its)) (fun wt =>
                      let beta := vmul (V3c 1) (fst wt) in
                      if Rlt_dec (snd wt) (i_t its) then sb_scatter beta r m its (snd wt)
                      else match b with
                           | None => QRet (Ok (V3c 0, tt))
                           | Some j => if i_null j then QRet (Ok (V3c 0, tt)) else sb_surface beta r md j
                           end)
                | None => QRet (Ok (V3c 0, tt))
                end)
          end
        else sb_surface (V3c 1) cam None i
    end).
End Sandbox.
