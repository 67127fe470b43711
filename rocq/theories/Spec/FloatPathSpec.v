(** What is assumed of the vertices of a path in single precision. *)
From Coq Require Import ZArith Reals List.
From Flocq Require Import Core BinarySingleNaN.
From Verif.Base Require Import F32.
From Verif.Model Require Import FloatDirs FloatPath.
From Verif.Spec Require Import FloatDirsSpec.
Open Scope R_scope.

(** a colour of finite numbers between 0 and [a] *)
Definition col_in (a : R) (v : fvec) : Prop := num_in a (fvx v) /\ num_in a (fvy v) /\ num_in a (fvz v).
(** nothing of the colour is a number *)
Definition all_nan (v : fvec) : Prop := is_nan (fvx v) = true /\ is_nan (fvy v) = true /\ is_nan (fvz v) = true.

(** a surface that does not create energy: albedo * cosine <= density, in each channel and up to
    the rounding of the density; a density is 0
    or of a reasonable size *)
Definition tame (v : fvertex) : Prop :=
  (exists a, col_in a (v_albedo v)) /\ (exists a, num_in a (v_cos v)) /\ is_finite (v_draw v) = true /\ is_finite (v_pdf v) = true /\
  (B2R (v_pdf v) = 0 \/ bpow radix2 (-40) <= B2R (v_pdf v) <= bpow radix2 40) /\
  (B2R (v_pdf v) <> 0 -> B2R (fvx (v_albedo v)) * B2R (v_cos v) <= B2R (v_pdf v) * (1 + 2 * u32) /\
   B2R (fvy (v_albedo v)) * B2R (v_cos v) <= B2R (v_pdf v) * (1 + 2 * u32) /\ B2R (fvz (v_albedo v)) * B2R (v_cos v) <= B2R (v_pdf v) * (1 + 2 * u32)).

(** a turn of the loop with lights of at most [B], weights of media in [0,1] and, inside a medium, a
    number drawn that is not 0; the sampler draws multiples of 2^-23 *)
Definition turn_ok (B : R) (e : fevent) : Prop :=
  match e with
  | EScatter w phase thr draw => col_in 1 w /\ num_in 1 phase /\ col_in B thr /\ is_finite draw = true /\ bpow radix2 (-23) <= B2R draw
  | ENull w => forall x, w = Some x -> col_in 1 x
  | ESurface w v => tame v /\ col_in B (v_light v) /\ forall x, w = Some x -> col_in 1 x /\ bpow radix2 (-23) <= B2R (v_draw v)
  end.
