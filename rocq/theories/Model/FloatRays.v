(** Places where single precision decides: the index of a light, the seed of a tile, and the
    distances moved away from a surface by Epsilon. *)
From Coq Require Import ZArith Reals List Bool.
From Flocq Require Import Core BinarySingleNaN.
From Verif.Base Require Import Outcome F32.
Open Scope R_scope.

(** common.h:87: 1e-3f *)
Definition feps : f32 := f_of 8589935 (-33).

(** accel/light_naive.cpp:32, 43: next1D() * number_of_emitters, converted to int.  The conversion
    truncates; a product that does not fit is excluded by the theorems. *)
Definition f_index (n : Z) (u : f32) : Z := Ztrunc (B2R (fmul u (fZ n))).
(** light_naive.cpp:23: 1.f / float(emitters.size()) *)
Definition f_pmf (n : Z) : f32 := fdiv f1 (fZ n).

(** misc/render_pool.cpp:172, 197: next1D() * 100000000, converted to uint32_t *)
Definition f_seed (u : f32) : Z := Ztrunc (B2R (fmul u (fZ 100000000))).

(** scene.cpp:192, 243, 278, 308: its.t + Epsilon *)
Definition f_past (t : f32) : f32 := fadd t feps.
(** scene.cpp:405, 496, 592: sqrt(sqr_dist) - Epsilon; [d] is the root as a float *)
Definition f_before (d : f32) : f32 := fsub d feps.

(** scene.cpp:181-202 (intersect_non_null), only the distances: [hit near] is the answer of the ray
    accelerator, a distance and whether the shape is null *)
Fixpoint f_walk (hit : f32 -> option (f32 * bool)) (fuel : nat) (near : f32) : outcome (option f32) :=
  match fuel with
  | O => OutOfFuel
  | S k =>
    match hit near with
    | None => Ok None
    | Some (t, true) => f_walk hit k (f_past t)
    | Some (t, false) => Ok (Some t)
    end
  end.
