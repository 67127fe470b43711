(** Discrete distributions given by non-negative weights. *)
From Coq Require Import Reals List.
From Verif.Base Require Import RSum.
Import ListNotations.
Open Scope R_scope.

Definition weights_ok (w : list R) : Prop := (forall x, In x w -> 0 <= x) /\ 0 < rsum w.
(** probability of the first i entries *)
Definition cum (w : list R) (i : nat) : R := rsum (firstn i w) / rsum w.
(** the value lies in the cumulative interval of entry i *)
Definition selects (w : list R) (value : R) (i : nat) : Prop :=
  (i < length w)%nat /\ cum w i < value <= cum w (S i).
