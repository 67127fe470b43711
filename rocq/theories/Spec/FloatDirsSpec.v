(** Words for vectors of single-precision numbers. *)
From Coq Require Import ZArith Reals.
From Flocq Require Import Core BinarySingleNaN.
From Verif.Base Require Import F32.
From Verif.Model Require Import FloatDirs.
Open Scope R_scope.

(** a finite number between 0 and [a]; between -1 and 1 *)
Definition num_in (a : R) (x : f32) : Prop := is_finite x = true /\ 0 <= B2R x <= a.
Definition in11 (x : f32) : Prop := is_finite x = true /\ Rabs (B2R x) <= 1.
(** finite components; the largest one; the squared length as a real number *)
Definition fv_fin (v : fvec) : Prop := is_finite (fvx v) = true /\ is_finite (fvy v) = true /\ is_finite (fvz v) = true.
Definition fv_max (v : fvec) : R := Rmax (Rabs (B2R (fvx v))) (Rmax (Rabs (B2R (fvy v))) (Rabs (B2R (fvz v)))).
Definition len2 (v : fvec) : R := B2R (fvx v) * B2R (fvx v) + B2R (fvy v) * B2R (fvy v) + B2R (fvz v) * B2R (fvz v).
(** components between -1 and 1 *)
Definition dir_ok (v : fvec) : Prop := in11 (fvx v) /\ in11 (fvy v) /\ in11 (fvz v).
