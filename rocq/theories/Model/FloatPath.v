(** The arithmetic of the path integrator in single precision: throughput and radiance along a path
    whose vertices are given. *)
From Coq Require Import ZArith Reals Bool List.
From Flocq Require Import Core BinarySingleNaN.
From Verif.Base Require Import F32.
From Verif.Model Require Import FloatDirs.
Import ListNotations.
Open Scope R_scope.

(** vector.h:367-374: component-wise product; 394-401: vector divided by a number *)
Definition fv_mul (a b : fvec) : fvec := FV (fmul (fvx a) (fvx b)) (fmul (fvy a) (fvy b)) (fmul (fvz a) (fvz b)).
Definition fv_div (v : fvec) (a : f32) : fvec := FV (fdiv (fvx v) a) (fdiv (fvy v) a) (fdiv (fvz v) a).
(** vector.h:725-733 *)
Definition fv_maxValue (v : fvec) : f32 :=
  let m := fvx v in
  let m := if flt m (fvy v) then fvy v else m in
  if flt m (fvz v) then fvz v else m.
(** std::min(a, b): b when b < a, and a otherwise *)
Definition fmin (a b : f32) : f32 := if flt b a then b else a.
(** comparison with ZERO; false for a number that is not one *)
Definition fis0 (x : f32) : bool := match Bcompare x f0 with Some Eq => true | _ => false end.

(** vector.h:789-794: std::abs(x) < 1e-4, compared as double; a float is below the double 1e-4 exactly
    when it is below the float 13743896 * 2^-37 *)
Definition ftol : f32 := f_of 13743896 (-37).
Definition fv_isZero (v : fvec) : bool := (flt (Babs (fvx v)) ftol && flt (Babs (fvy v)) ftol && flt (Babs (fvz v)) ftol)%bool.

(** what a surface contributes: closure.nee + closure.emission, the albedo and density of the sampled
    direction, the cosine (ONE for a specular material) and the number drawn for the roulette *)
Record fvertex := FVert { v_light : fvec; v_albedo : fvec; v_pdf : f32; v_cos : f32; v_draw : f32 }.
(** what one turn of the loop meets.  A weight is the result of Media::sample, absent outside media.
    A scattering event has the value of the phase function, the throughput of its shadow ray (one
    light; black when it is shadowed) and the number drawn. *)
Inductive fevent :=
| EScatter (w : fvec) (phase : f32) (throughput : fvec) (draw : f32)
| ENull (w : option fvec)
| ESurface (w : option fvec) (v : fvertex).

Definition f_weigh (beta : fvec) (w : option fvec) : fvec := match w with Some x => fv_mul beta x | None => beta end.
Definition f_rr (beta : fvec) : f32 := fmin (fv_maxValue beta) f1.

(** integrators/volpath.cpp:49-210 (volpath_nonexp.cpp:52-226 has the same arithmetic); without
    weights, scattering and null surfaces it is path_unidir.cpp:43-141.  The list holds what the turns
    of the loop meet; after them the ray leaves the scene and sees [Some sky], or the bounce limit is
    reached ([None]). *)
Fixpoint f_path (l : list fevent) (sky : option fvec) (Li beta : fvec) : fvec :=
  match l with
  | [] => match sky with
          | None => Li
          | Some sk => if fv_isZero beta then Li else fv_add Li (fv_mul beta sk)
          end
  | e :: rest =>
    if fv_isZero beta then Li else
    match e with
    | EScatter w phase thr draw =>
      let beta := fv_mul beta w in
      let rr := f_rr beta in
      let Li := fv_add Li (fv_add (FV f0 f0 f0) (fv_mul (fv_scale beta phase) thr)) in
      if flt rr draw then Li else f_path rest sky Li (fv_div beta rr)
    | ENull w => f_path rest sky Li (f_weigh beta w)
    | ESurface w v =>
      let beta := f_weigh beta w in
      let rr := f_rr beta in
      let Li := fv_add Li (fv_mul beta (v_light v)) in
      if flt rr (v_draw v) then Li
      else if fis0 (v_pdf v) then Li
      else f_path rest sky Li (fv_mul beta (fv_div (fv_scale (v_albedo v) (v_cos v)) (fmul (v_pdf v) rr)))
    end
  end.
(** volpath.cpp:31-32, path_unidir.cpp:33-34: Li starts black and beta at one *)
Definition f_sample (l : list fevent) (sky : option fvec) : fvec := f_path l sky (FV f0 f0 f0) (FV f1 f1 f1).
