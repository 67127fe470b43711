(** src/integrators/integrator.cpp:39-133 (Integrator::render) in binary32: positions of samples, filter
    footprints and accumulation of one colour channel.  The three channels are treated alike with the
    same weight. *)
From Coq Require Import ZArith Reals List Bool.
From Flocq Require Import Core BinarySingleNaN.
From Verif.Base Require Import Outcome Loops F32.
From Verif.Model Require Import Film.
Import ListNotations.
Open Scope R_scope.

(** integrator.cpp:54: Point2f(j, i) + sampler->next2D(), one axis *)
Definition f_sample (j : Z) (u : f32) : f32 := fadd (fZ j) u.

(** a camera sample: film position and one channel of the radiance *)
Definition fevent : Type := f32 * f32 * f32.

(** integrator.cpp:80-90, bbox.h:392-402, one axis.  Conversion of a float that is not finite to int is
    undefined. *)
Definition f_clip_lo (v lo : f32) : f32 := if Bltb v lo then lo else v.
Definition f_clip_hi (v hi : f32) : f32 := if Bltb hi v then hi else v.
Definition f_floor (v : f32) : outcome Z := if is_finite v then Ok (Zfloor (B2R v)) else UB.
Definition f_footprint (n : Z) (p size : f32) : outcome (list Z) :=
  bind (f_floor (f_clip_lo (fsub p size) f0)) (fun a =>
  bind (f_floor (f_clip_hi (fadd p size) (fZ (n - 1)))) (fun b => Ok (zrange_le a b))).

Section Filter.
(** the filter's size and evaluate() *)
Variable size : f32 * f32.
Variable feval : f32 -> f32 -> f32.

(** integrator.cpp:92-93: fj + 0.5 is computed in double precision, without error, and then converted *)
Definition f_centre (x : Z) : f32 := f_of (2 * x + 1) (-1).
Definition f_weight (p : f32 * f32) (x y : Z) : f32 :=
  feval (fsub (f_centre x) (fst p)) (fsub (f_centre y) (snd p)).

(** the two buffers at one pixel *)
Definition fcell : Type := f32 * f32.
(** integrator.cpp:95-99 *)
Definition f_acc (c : fcell) (wt rad : f32) : fcell := (fadd (fst c) (fmul wt rad), fadd (snd c) wt).

Definition ffilm : Type := Z -> Z -> fcell.
Definition f_add (w h : Z) (p : f32 * f32) (rad : f32) (f : ffilm) (q : Z * Z) : outcome ffilm :=
  let (x, y) := q in
  if in_filmb w h x y then Ok (set2 f x y (f_acc (f x y) (f_weight p x y) rad)) else UB.
(** integrator.cpp:80-103 *)
Definition f_splat (w h : Z) (f : ffilm) (e : fevent) : outcome ffilm :=
  let '(p, rad) := e in
  bind (f_footprint h (snd p) (snd size)) (fun ys =>
  bind (f_footprint w (fst p) (fst size)) (fun xs =>
  foldM (f_add w h p rad) (flat_map (fun y => map (fun x => (x, y)) xs) ys) f)).
(** integrator.cpp:113-130 *)
Definition f_finish (c : fcell) : f32 := if Beqb (snd c) f0 then f0 else fdiv (fst c) (snd c).
(** integrator.cpp:44-130: both buffers are cleared first *)
Definition f_render (w h : Z) (evs : list fevent) : outcome (Z -> Z -> f32) :=
  bind (foldM (f_splat w h) evs (fun _ _ => (f0, f0))) (fun f => Ok (fun x y => f_finish (f x y))).
End Filter.

(** box_filter.cpp:13-32 *)
Definition f_box_size : f32 * f32 := (fhalf, fhalf).
Definition f_box (size : f32 * f32) (dx dy : f32) : f32 :=
  if Bltb (Babs dx) (fst size) && Bltb (Babs dy) (snd size) then f1 else f0.
