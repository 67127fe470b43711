(** Means of several independent camera samples. *)
From Coq Require Import Reals List.
From Verif.Base Require Import Outcome.
From Verif.Model Require Import Vec BBox Integrators Scene.
Import ListNotations.
Open Scope R_scope.

(** [N] runs of a program, one after the other, each with its own random numbers *)
Fixpoint samples {A} (N : nat) (q : query A) : query (list A) :=
  match N with
  | O => QRet []
  | S N => qbind q (fun a => qbind (samples N q) (fun l => QRet (a :: l)))
  end.
Fixpoint sum (l : list R) : R := match l with [] => 0 | x :: l => x + sum l end.
Definition mean (l : list R) : R := sum l / INR (length l).
(** 1 when x is further than t from m *)
Definition off_by (t m x : R) : R := if Rle_dec t (Rabs (x - m)) then 1 else 0.
