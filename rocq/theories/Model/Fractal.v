(** MandlebrotDensity: include/feign/media/density_func.h:147-250.  Floats are reals; the stored
    max_density, center and bounds are never read; maxDensity (240-244) only throws and is never called. *)
From Coq Require Import Reals ZArith String.
From Verif.Base Require Import Outcome.
From Verif.Model Require Import Vec ComplexNum.
Open Scope R_scope.

(** lines 193-198, 202-207, 211-216: [fuel] is the number of iterations m < n still allows *)
Fixpoint escape_loop (bound : R) (c : cx3) (fuel : nat) (val : cx3) (m : Z) : Z :=
  match fuel with
  | O => m
  | S fuel' => if Rle_dec (c3_norm val) bound then escape_loop bound c fuel' (c3_add (c3_mul val val) c) (m + 1) else m
  end.
Definition escape (bound : R) (n : nat) (c : cx3) : Z := escape_loop bound c (n + 1) (C3 0 0 0) (-1).
(** lines 167-232, for the iteration bound n (the constructor sets 1000) *)
Definition fractal_density (n : nat) (p : vec3) : vec3 :=
  let c := C3 (vx p * (625 / 10000)) (vy p * (625 / 10000)) (vz p * (625 / 10000)) in
  V3 (IZR (escape (1 / 10) n c) / INR n) (IZR (escape (1 / 2) n c) / INR n) (IZR (escape 2 n c) / INR n).
