(** Transmittance functions of the optical depth. *)
From Coq Require Import Reals.
From Coquelicot Require Import Coquelicot.
Open Scope R_scope.

(** p is the free-flight density belonging to the survival probability S at depth t *)
Definition density_of_survival (S p : R -> R) (t : R) : Prop := is_derive S t (- p t).
(** a survival probability: 1 at depth 0, in [0,1], never growing *)
Definition survival (S : R -> R) : Prop :=
  S 0 = 1 /\ (forall t, 0 <= t -> 0 <= S t <= 1) /\ (forall s t, 0 <= s <= t -> S t <= S s).
(** a sampler of the depth, fed with uniform u, exceeds t for a set of numbers of length S t; both monotone orders of u are accepted *)
Definition samples_survival (sample : R -> R) (S : R -> R) : Prop :=
  forall t, 0 <= t -> (forall u, 0 <= u < 1 -> (t < sample u <-> 1 - u < S t)) \/ (forall u, 0 <= u < 1 -> (t < sample u <-> u < S t)).
