(** What the phase function of Henyey and Greenstein should be. *)
From Coq Require Import Reals.
From Flocq Require Import Core BinarySingleNaN.
From Verif.Base Require Import F32.
Open Scope R_scope.

(** the density over directions for the cosine c and the asymmetry g *)
Definition hg_density (c g : R) : R := (1 - g ^ 2) / (4 * PI * sqrt ((1 + g ^ 2 - 2 * g * c) ^ 3)).

(** x is a number within two percent of r *)
Definition within_2_percent (x : f32) (r : R) : Prop :=
  is_finite x = true /\ 98 / 100 * r <= B2R x <= 102 / 100 * r.
