(** src/media/trans_funcs: transmittance functions of the optical depth, one color channel at a time
    where the code works per channel.  std::pow/std::log are the real functions. *)
From Coq Require Import Reals List.
From Verif.Base Require Import Outcome.
From Verif.Model Require Import Vec Media.
Import ListNotations.
Open Scope R_scope.

(** spectrum.h:16-22, 40-46, 48-54 on one channel *)
Definition step1 (edge x : R) : R := if Rgt_dec x edge then 1 else 0.
Definition boxcar1 (x a b : R) : R := if Rle_dec a x then if Rle_dec x b then 1 else 0 else 0.

(** trans_func.h:51-119 *)
Inductive trans_func := ExpTrans | LinearTrans (maxT : R) | DavisTrans (h c : R).
(** davis_trans.cpp:13-17 *)
Definition davis_beta (h : R) : R := 2 * Rmin (Rmax h 0) 1 - 1.
(** davis_trans.cpp:19-22 *)
Definition davis_alpha (beta c t : R) : R := Rpower t (1 - beta) / Rpower c (1 + beta).

(** davis_trans.cpp:24-34, 36-50, 57-75, for one optical depth *)
Definition davis_ss (beta c t : R) : R :=
  if Rlt_dec t (1 / 10000) then 1
  else let alpha := davis_alpha beta c t in Rpower (1 + t / alpha) (- alpha).
Definition davis_sm (beta c t : R) : R :=
  if Rlt_dec t (1 / 10000) then 1
  else let alpha := davis_alpha beta c t in
       let base := 1 + t / alpha in
       let trSurface := Rpower base (- alpha) in
       trSurface * (beta / base - (beta - 1) * alpha / t * ln base).
Definition davis_mm (beta c t : R) : R :=
  if Rlt_dec t (1 / 10000) then 1
  else let alpha := davis_alpha beta c t in
       let base := 1 + t / alpha in
       let logBase := ln base in
       let trSurface := Rpower base (- alpha) in
       let term1 := beta * (-1 + beta * (1 + t) + (-1 + 2 * beta) * t / alpha) / (t * base * base) in
       let term2 := ((-1 + beta) * beta * alpha / (t * t) * (2 * t + base) * logBase) / base in
       let term3 := (beta - 1) * alpha / t * logBase in
       trSurface * (term1 - term2 + term3 * term3).

(** the four virtual functions: exp_trans.cpp:13-31, lin_trans.cpp:18-36, davis_trans.cpp:24-75.
    Davis uses the first channel for all three. *)
Definition per_channel (f : R -> R) (tau : vec3) : vec3 := V3 (f (vx tau)) (f (vy tau)) (f (vz tau)).
Definition surfaceSurface (f : trans_func) (tau : vec3) : vec3 :=
  match f with
  | ExpTrans => vexp (vneg tau)
  | LinearTrans maxT => per_channel (fun t => 1 - Rmin (t / maxT) 1) tau
  | DavisTrans h c => V3c (davis_ss (davis_beta h) c (vx tau))
  end.
Definition surfaceMedium (f : trans_func) (tau : vec3) : vec3 :=
  match f with
  | ExpTrans => vexp (vneg tau)
  | LinearTrans maxT => per_channel (fun t => step1 t maxT * (1 / maxT)) tau
  | DavisTrans h c => V3c (davis_sm (davis_beta h) c (vx tau))
  end.
Definition mediumSurface (f : trans_func) (tau : vec3) : vec3 :=
  match f with
  | ExpTrans => vexp (vneg tau)
  | LinearTrans maxT => per_channel (fun t => step1 t maxT) tau
  | DavisTrans h c => V3c (davis_sm (davis_beta h) c (vx tau))
  end.
Definition mediumMedium (f : trans_func) (tau : vec3) : vec3 :=
  match f with
  | ExpTrans => vexp (vneg tau)
  | LinearTrans maxT => per_channel (fun t => boxcar1 t (maxT - 1 / 1000) (maxT + 1 / 1000)) tau
  | DavisTrans h c => V3c (davis_mm (davis_beta h) c (vx tau))
  end.
(** exp_trans.cpp:33-36, lin_trans.cpp:38-41, davis_trans.cpp:77-80 *)
Definition sigmaBar (f : trans_func) : R :=
  match f with ExpTrans => 1 | LinearTrans maxT => 1 / maxT | DavisTrans _ _ => 1 end.
(** trans_func.cpp:13-27 *)
Definition tf_eval (f : trans_func) (tau : vec3) (startOnSurface endOnSurface : bool) : vec3 :=
  if andb startOnSurface endOnSurface then surfaceSurface f tau
  else if andb (negb startOnSurface) (negb endOnSurface) then vdiv (mediumMedium f tau) (sigmaBar f)
  else mediumSurface f tau.
(** trans_func.cpp:35-39, 41-45 *)
Definition surfaceProbability (f : trans_func) (tau : vec3) (startOnSurface : bool) : vec3 :=
  if startOnSurface then surfaceSurface f tau else mediumSurface f tau.
Definition mediumPdf (f : trans_func) (tau : vec3) (startOnSurface : bool) : vec3 :=
  if startOnSurface then surfaceMedium f tau else mediumMedium f tau.

(** davis_trans.cpp:87-99 = 107-119: the search loop *)
Fixpoint bisect (fuel : nat) (cdf : R -> R) (xi step result : R) : outcome R :=
  match fuel with
  | O => OutOfFuel
  | S m => if Rgt_dec step (1 / 1000000)
           then bisect m cdf xi (step / 2) (if Rgt_dec (cdf result) xi then result - step else result + step)
           else Ok result
  end.
Definition davis_search (fuel : nat) (cdf : R -> R) (xi : R) : outcome R := bisect fuel cdf xi 1000000 (1000000 * 2).
(** exp_trans.cpp:38-46, lin_trans.cpp:43-51, davis_trans.cpp:82-120; trans_func.cpp:29-33.
    LinearTrans::sampleMedium does not consume a random number; here u is then unused *)
Definition sampleSurface (fuel : nat) (f : trans_func) (u : R) : outcome R :=
  match f with
  | ExpTrans => Ok (- ln (1 - u))
  | LinearTrans maxT => Ok (maxT * (1 - 1 / 100000) * u)
  | DavisTrans h c => davis_search fuel (fun t => 1 - davis_ss (davis_beta h) c t) u
  end.
Definition sampleMedium (fuel : nat) (f : trans_func) (u : R) : outcome R :=
  match f with
  | ExpTrans => Ok (- ln (1 - u))
  | LinearTrans maxT => Ok maxT
  | DavisTrans h c => davis_search fuel (fun t => 1 - davis_sm (davis_beta h) c t) u
  end.
Definition tf_sample (fuel : nat) (f : trans_func) (u : R) (startOnSurface : bool) : outcome R :=
  if startOnSurface then sampleSurface fuel f u else sampleMedium fuel f u.
