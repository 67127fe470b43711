(** src/integrators/{path_unidir,whitted,amb_occ}.cpp, src/debug_integrators/*.cpp,
    src/integrators/integrator.cpp (clock skeleton of render), src/closure/material.cpp.

    Clock calls run the [Clocker] model (CLOCKING is true in common.h).  The scene, the random
    numbers, the wall clock and the material shaders are parameters: a state type [W] with
    functions answering each request.  A shader is any finite program that may ask the ray
    accelerator, draw random numbers and return an updated closure (type [query]); the shaders,
    scene.cpp and BSDFs contain no clock calls of their own. *)
From Coq Require Import Reals List String Bool ZArith.
From Coquelicot Require Import Rbar.
From Verif.Base Require Import Outcome.
From Verif.Model Require Import Vec Frame BBox Warp Clocker.
Import ListNotations.
Open Scope R_scope.

(** common.h: Epsilon = 1e-3 *)
Definition Epsilon : R := 1 / 1000.

(** include/feign/misc/intersection.h:20-43.  [i_mesh] identifies the intersected shape,
    [i_null] is intersected_mesh->is_null. *)
Record isect := Isect {
  i_p : vec3; i_t : R; i_bary : vec3; i_s : frame; i_g : frame; i_mesh : nat; i_null : bool }.

(** include/feign/core/closure.h:23-28 *)
Record emitter_eval := EmEval { e_throughput : vec3; e_dir : vec3; e_valid : bool }.

(** include/feign/core/closure.h:43-93; its, ray, sampler, scene are passed separately. *)
Record closure := Closure {
  c_wi : vec3; c_wo : vec3; c_shadow : list emitter_eval;
  c_albedo : vec3; c_emission : vec3; c_nee : vec3; c_pdf : R; c_eta : R;
  c_spec : bool; c_last_spec : bool; c_all : bool; c_accepts : bool }.

(** src/closure/material.cpp:48-70 (wi is uninitialised there and set before any use). *)
Definition closure_init (sample_all last_spec : bool) (wi : vec3) : closure :=
  Closure wi (V3c 1) [] (V3c 0) (V3c 0) (V3c 0) 1 1 last_spec last_spec sample_all true.

Definition set_wi (c : closure) (v : vec3) : closure :=
  Closure v (c_wo c) (c_shadow c) (c_albedo c) (c_emission c) (c_nee c) (c_pdf c) (c_eta c)
          (c_spec c) (c_last_spec c) (c_all c) (c_accepts c).
(** path_unidir.cpp:68-71 *)
Definition reset_closure (c : closure) (wi : vec3) : closure :=
  Closure wi (c_wo c) (c_shadow c) (V3c 0) (V3c 0) (V3c 0) (c_pdf c) (c_eta c)
          (c_spec c) (c_last_spec c) (c_all c) (c_accepts c).

(** A finite program over the scene and the sampler. *)
Inductive query (A : Type) : Type :=
| QRet (a : A)
| QHit (r : ray) (k : option isect -> query A)     (* ray_accel->intersect *)
| QRand1 (k : R -> query A)                        (* sampler->next1D *)
| QRand2 (k : vec2 -> query A).                    (* sampler->next2D *)
Arguments QRet {A}. Arguments QHit {A}. Arguments QRand1 {A}. Arguments QRand2 {A}.

(** material.cpp:72-94.  [mat wi wo] is the albedo written by shader->evaluate_mat_only: every
    BSDF::evaluate writes the albedo only (src/bsdfs/*.cpp). *)
Fixpoint shadow_sum (mat : vec3 -> vec3 -> vec3) (wi : vec3) (l : list emitter_eval) (nee : vec3) : vec3 :=
  match l with
  | [] => nee
  | e :: l' =>
      shadow_sum mat wi l'
        (if e_valid e then vadd nee (vmul (e_throughput e) (mat wi (normalized (e_dir e)))) else nee)
  end.
Definition accumulate_shadow_rays (mat : vec3 -> vec3 -> vec3) (c : closure) : closure :=
  Closure (c_wi c) (c_wo c) [] (c_albedo c) (c_emission c)
          (shadow_sum mat (c_wi c) (c_shadow c) (c_nee c)) (c_pdf c) (c_eta c)
          (c_spec c) (c_last_spec c) (c_all c) (c_accepts c).

(** What an integrator was told, in order. *)
Inductive event :=
| HRay (r : ray) (a : option isect)     (* intersect_non_null was asked for r and answered a *)
| HPoint (u : vec2)                     (* next2D *)
| HShade (its : isect) (c : closure)    (* surface vertex, closure after evaluate and shadow rays *)
| HRoulette (u : R)
| HSample (its : isect) (c : closure).  (* closure after sample *)

Section Integrators.
Variable W : Type.
Variable now : W -> R * W.
Variable hit : W -> ray -> option isect * W.
Variable rnd1 : W -> R * W.
Variable rnd2 : W -> vec2 * W.
Variable env : ray -> vec3.                               (* Scene::env_emission, scene.cpp:692-707 *)
Variable sh_evaluate : isect -> ray -> closure -> query closure.
Variable sh_mat : isect -> vec3 -> vec3 -> vec3.
Variable sh_sample : isect -> closure -> query closure.
Variable nn_fuel : nat.                                   (* bound for the null-boundary loop *)

Record st := St { s_clk : clocker; s_w : W; s_log : list event }.
Definition M (A : Type) : Type := st -> outcome A * st.
Definition ret {A} (a : A) : M A := fun s => (Ok a, s).
Definition bindM {A B} (m : M A) (f : A -> M B) : M B :=
  fun s => match m s with
           | (Ok a, s') => f a s'
           | (Throw e, s') => (Throw e, s')
           | (UB, s') => (UB, s')
           | (OutOfFuel, s') => (OutOfFuel, s')
           end.
Notation "x <- m ;; f" := (bindM m (fun x => f)) (at level 61, m at next level, right associativity).
Notation "m ;;; f" := (bindM m (fun _ => f)) (at level 61, right associativity).

(** Clocker::start_clock / end_clock as called through the macros (clocker.h:50-117). *)
Definition clk_start (c : ctype) : M unit := fun s =>
  let (t, w) := now (s_w s) in
  match start_clock c t (s_clk s) with
  | Ok k => (Ok tt, St k w (s_log s))
  | Throw e => (Throw e, St (s_clk s) w (s_log s))
  | UB => (UB, s) | OutOfFuel => (OutOfFuel, s)
  end.
Definition clk_stop (c : ctype) : M unit := fun s =>
  let (t, w) := now (s_w s) in
  match end_clock c t (s_clk s) with
  | Ok k => (Ok tt, St k w (s_log s))
  | Throw e => (Throw e, St (s_clk s) w (s_log s))
  | UB => (UB, s) | OutOfFuel => (OutOfFuel, s)
  end.
Definition note (e : event) : M unit := fun s => (Ok tt, St (s_clk s) (s_w s) (s_log s ++ [e])).
Definition next1 : M R := fun s => let (u, w) := rnd1 (s_w s) in (Ok u, St (s_clk s) w (s_log s)).
Definition next2 : M vec2 := fun s => let (u, w) := rnd2 (s_w s) in (Ok u, St (s_clk s) w (s_log s)).

(** src/accel/ray_embree.cpp:56-101; the answer of rtcIntersect1 is the parameter [hit]. *)
Definition accel_intersect (r : ray) : M (option isect) :=
  clk_start EMBREE ;;;
  (a <- (fun s => let (a, w) := hit (s_w s) r in (Ok a, St (s_clk s) w (s_log s))) ;;
   clk_stop EMBREE ;;;
   ret a).

Fixpoint run_query {A} (q : query A) : M A :=
  match q with
  | QRet a => ret a
  | QHit r k => a <- accel_intersect r ;; run_query (k a)
  | QRand1 k => u <- next1 ;; run_query (k u)
  | QRand2 k => u <- next2 ;; run_query (k u)
  end.

(** src/scene.cpp:181-202 *)
Fixpoint nn_loop (fuel : nat) (r : ray) : M (option isect) :=
  match fuel with
  | O => fun s => (OutOfFuel, s)
  | S n =>
      a <- accel_intersect r ;;
      match a with
      | None => ret None
      | Some i => if i_null i then nn_loop n (Ray (org r) (dir r) (Finite (i_t i + Epsilon)) (rfar r))
                  else ret (Some i)
      end
  end.
Definition intersect_non_null (r : ray) : M (option isect) :=
  a <- nn_loop nn_fuel r ;; note (HRay r a) ;;; ret a.

Definition isect_toLocal (i : isect) (v : vec3) : vec3 := toLocal (i_s i) v.
Definition isect_toWorld (i : isect) (v : vec3) : vec3 := toWorld (i_s i) v.
(** continuation ray, path_unidir.cpp:126-130, whitted.cpp:102-106 *)
Definition next_ray (i : isect) (c : closure) : ray :=
  Ray (i_p i) (isect_toWorld i (c_wo c)) (Finite Epsilon) p_infty.

(** path_unidir.cpp:89 *)
Definition rr_prob (beta : vec3) : R := Rmin (maxValue beta) 1.
(** path_unidir.cpp:132-136 *)
Definition cos_term (i : isect) (c : closure) : R :=
  let d := dot (fn (i_s i)) (dir (next_ray i c)) in
  let d := if Rlt_dec d 0 then - d else d in
  if c_spec c then 1 else d.

(** path_unidir.cpp:43-142: one iteration is one unfolding; [n] is max_bounces - bounces. *)
Fixpoint path_loop (n : nat) (Li beta : vec3) (r : ray) (cl : closure) : M vec3 :=
  match n with
  | O => ret Li
  | S n =>
    if isZero_dec beta then ret Li else
    clk_start INTEGRATOR_INTERSECT ;;;
    (a <- intersect_non_null r ;;
     match a with
     | None =>
         clk_stop INTEGRATOR_INTERSECT ;;;
         ret (vadd Li (vmul beta (env r)))
     | Some its =>
         clk_stop INTEGRATOR_INTERSECT ;;; clk_start SHADER ;;; clk_start SHADER_SURFACE ;;;
         let cl := reset_closure cl (isect_toLocal its (vneg (dir r))) in
         clk_start SHADER_SURFACE_EVAL ;;;
         (cl <- run_query (sh_evaluate its r cl) ;;
          clk_stop SHADER_SURFACE_EVAL ;;; clk_start INTEGRATOR_NEE ;;;
          let cl := accumulate_shadow_rays (sh_mat its) cl in
          note (HShade its cl) ;;;
          clk_stop INTEGRATOR_NEE ;;; clk_stop SHADER_SURFACE ;;; clk_stop SHADER ;;;
          clk_start INTEGRATOR_RR ;;;
          (u <- next1 ;;
           note (HRoulette u) ;;;
           if Rgt_dec u (rr_prob beta) then
             clk_stop INTEGRATOR_RR ;;;
             ret (vadd Li (vmul beta (vadd (c_emission cl) (c_nee cl))))
           else
             clk_stop INTEGRATOR_RR ;;; clk_start SHADER ;;; clk_start SHADER_SURFACE ;;;
             clk_start SHADER_SURFACE_SAMPLE ;;;
             let cl := set_wi cl (isect_toLocal its (vneg (dir r))) in
             (cl' <- run_query (sh_sample its cl) ;;
              note (HSample its cl') ;;;
              if Req_EM_T (c_pdf cl') 0 then
                clk_stop SHADER_SURFACE_SAMPLE ;;; clk_stop SHADER_SURFACE ;;; clk_stop SHADER ;;;
                ret (vadd Li (vmul beta (vadd (c_emission cl') (c_nee cl'))))
              else
                clk_stop SHADER_SURFACE_SAMPLE ;;; clk_stop SHADER_SURFACE ;;; clk_stop SHADER ;;;
                clk_start INTEGRATOR_EVAL ;;;
                let r' := next_ray its cl' in
                let Li' := vadd Li (vmul beta (vadd (c_nee cl') (c_emission cl'))) in
                let beta' := vmul beta (vdiv (vscale (c_albedo cl') (cos_term its cl'))
                                             (c_pdf cl' * rr_prob beta)) in
                clk_stop INTEGRATOR_EVAL ;;;
                path_loop n Li' beta' r' cl')))
     end)
  end.

(** path_unidir.cpp:28-145.  The uninitialised wi of the new closure is given an arbitrary value,
    it is overwritten before use. *)
Definition path_Li (max_bounces : nat) (cam : ray) : M vec3 :=
  path_loop max_bounces (V3c 0) (V3c 1) cam (closure_init false true (V3c 0)).

(** whitted.cpp:42: 0.95f *)
Definition rr_cont : R := 95 / 100.

(** whitted.cpp:31-128; recursion depth is not bounded in the code, [fuel] bounds the model. *)
Fixpoint whitted_Li (fuel : nat) (cam : ray) : M vec3 :=
  match fuel with
  | O => fun s => (OutOfFuel, s)
  | S fuel =>
    clk_start INTEGRATOR_INTERSECT ;;;
    (a <- intersect_non_null cam ;;
     match a with
     | None => clk_stop INTEGRATOR_INTERSECT ;;; ret (env cam)
     | Some its =>
         clk_stop INTEGRATOR_INTERSECT ;;; clk_start SHADER ;;; clk_start SHADER_SURFACE ;;;
         let cl := closure_init false true (isect_toLocal its (vneg (dir cam))) in
         clk_start SHADER_SURFACE_EVAL ;;;
         (cl <- run_query (sh_evaluate its cam cl) ;;
          clk_stop SHADER_SURFACE_EVAL ;;; clk_start INTEGRATOR_NEE ;;;
          let cl := accumulate_shadow_rays (sh_mat its) cl in
          note (HShade its cl) ;;;
          clk_stop INTEGRATOR_NEE ;;;
          if c_spec cl then
            clk_start SHADER_SURFACE_SAMPLE ;;;
            let cl := set_wi cl (isect_toLocal its (vneg (dir cam))) in
            (cl' <- run_query (sh_sample its cl) ;;
             note (HSample its cl') ;;;
             clk_stop SHADER_SURFACE_SAMPLE ;;; clk_stop SHADER_SURFACE ;;; clk_stop SHADER ;;;
             clk_start INTEGRATOR_RR ;;;
             (u <- next1 ;;
              note (HRoulette u) ;;;
              if Rgt_dec u rr_cont then clk_stop INTEGRATOR_RR ;;; ret (V3c 0)
              else
                clk_stop INTEGRATOR_RR ;;; clk_start INTEGRATOR_EVAL ;;;
                let r' := next_ray its cl' in
                let beta := vscale (c_albedo cl') (1 / rr_cont) in
                clk_stop INTEGRATOR_EVAL ;;;
                if isZero_dec beta then ret (vadd (c_nee cl') (c_emission cl'))
                else
                  (recur <- whitted_Li fuel r' ;;
                   ret (vadd (vadd (vmul beta recur) (c_nee cl')) (c_emission cl')))))
          else
            clk_stop SHADER_SURFACE ;;; clk_stop SHADER ;;;
            ret (vadd (vadd (c_emission cl) (c_nee cl)) (c_emission cl)))
     end)
  end.

(** amb_occ.cpp:61-64 *)
Definition ao_ray (its : isect) (u : vec2) : ray :=
  Ray (i_p its) (toWorld (i_g its) (sqrToCosHemi u)) (Finite Epsilon) p_infty.
(** amb_occ.cpp:33-77 *)
Definition amb_occ_Li (r : ray) : M vec3 :=
  clk_start INTEGRATOR_INTERSECT ;;;
  (a <- intersect_non_null r ;;
   match a with
   | None => clk_stop INTEGRATOR_INTERSECT ;;; ret (V3c 0)
   | Some its =>
       clk_stop INTEGRATOR_INTERSECT ;;; clk_start INTEGRATOR_EVAL ;;;
       (u <- next2 ;;
        note (HPoint u) ;;;
        (b <- intersect_non_null (ao_ray its u) ;;
         match b with
         | None => clk_stop INTEGRATOR_EVAL ;;; ret (V3c 1)
         | Some _ => clk_stop INTEGRATOR_EVAL ;;; ret (V3c 0)
         end))
   end).

(** src/debug_integrators/normal.cpp:30-59.  The early return does not stop INTEGRATOR_EVAL. *)
Definition normal_Li (r : ray) : M vec3 :=
  clk_start INTEGRATOR_INTERSECT ;;;
  (a <- intersect_non_null r ;;
   match a with
   | None => clk_stop INTEGRATOR_INTERSECT ;;; ret (V3c 0)
   | Some its =>
       clk_stop INTEGRATOR_INTERSECT ;;; clk_start INTEGRATOR_EVAL ;;;
       let n := vabs_tilde (fn (i_s its)) in
       if Rlt_dec (vx n) 0 then ret (V3c 0) else
       if Rlt_dec (vy n) 0 then ret (V3c 0) else
       if Rlt_dec (vz n) 0 then ret (V3c 0) else
       clk_stop INTEGRATOR_EVAL ;;; ret n
   end).

(** src/debug_integrators/nice_normal.cpp:30-54 *)
Definition nice_normal_Li (r : ray) : M vec3 :=
  clk_start INTEGRATOR_INTERSECT ;;;
  (a <- intersect_non_null r ;;
   match a with
   | None => clk_stop INTEGRATOR_INTERSECT ;;; ret (V3c 0)
   | Some its =>
       clk_stop INTEGRATOR_INTERSECT ;;; clk_start INTEGRATOR_EVAL ;;;
       let n := vscale (vadd (fn (i_s its)) (V3c 1)) (1 / 2) in
       clk_stop INTEGRATOR_EVAL ;;; ret n
   end).

(** src/debug_integrators/cosine_term.cpp:33-59 *)
Definition cosine_Li (r : ray) : M vec3 :=
  clk_start INTEGRATOR_INTERSECT ;;;
  (a <- intersect_non_null r ;;
   match a with
   | None => clk_stop INTEGRATOR_INTERSECT ;;; ret (V3c (-2))
   | Some its =>
       clk_stop INTEGRATOR_INTERSECT ;;; clk_start INTEGRATOR_EVAL ;;;
       clk_stop INTEGRATOR_EVAL ;;; ret (V3c (dot (fn (i_s its)) (dir r)))
   end).

(** barycentric.cpp:57-62 and wireframe_material.cpp:71-76 *)
Definition bary_min (b : vec3) : R :=
  let m := vx b in
  let m := if Rlt_dec (vy b) m then vy b else m in
  if Rlt_dec (vz b) m then vz b else m.
(** src/debug_integrators/barycentric.cpp:38-69 *)
Definition bary_Li (r : ray) : M vec3 :=
  clk_start INTEGRATOR_INTERSECT ;;;
  (a <- intersect_non_null r ;;
   match a with
   | None => clk_stop INTEGRATOR_INTERSECT ;;; ret (V3c (-2))
   | Some its =>
       clk_stop INTEGRATOR_INTERSECT ;;; clk_start INTEGRATOR_EVAL ;;;
       clk_stop INTEGRATOR_EVAL ;;;
       (if Rlt_dec (bary_min (i_bary its)) (1 / 100) then ret (V3c 1) else ret (V3c 0))
   end).

(** integrator.cpp:48-106: clocks of the sampling loop, one entry of [film] per camera sample.
    [camera u v] stands for camera->sampleRay on the two random points (radiance 1, the filter
    arithmetic is the subject of Film.v). *)
Fixpoint render_samples (Li : ray -> M vec3) (camera : nat -> vec2 -> vec2 -> ray) (film : list nat) : M (list vec3) :=
  match film with
  | [] => ret []
  | px :: l =>
      clk_start CAMERA_RAY ;;;
      (u <- next2 ;; v <- next2 ;;
       clk_stop CAMERA_RAY ;;; clk_start INTEGRATOR ;;;
       (x <- Li (camera px u v) ;;
        clk_stop INTEGRATOR ;;; clk_start FILTER ;;; clk_stop FILTER ;;;
        (xs <- render_samples Li camera l ;; ret (x :: xs))))
  end.
(** integrator.cpp:39-130 *)
Definition render (Li : ray -> M vec3) (camera : nat -> vec2 -> vec2 -> ray) (film : list nat) : M (list vec3) :=
  xs <- render_samples Li camera film ;;
  clk_start FILTER ;;; clk_stop FILTER ;;; ret xs.
End Integrators.
