(** Participating media: averages over uniform random numbers, attenuation along a segment. *)
From Coq Require Import Reals List.
From Coquelicot Require Import Coquelicot.
From Verif.Base Require Import Outcome.
From Verif.Model Require Import Vec BBox.
Import ListNotations.
Open Scope R_scope.

(** v is the average of f over n independent numbers, uniform on [0,1) *)
Fixpoint is_mean (n : nat) (f : list R -> R) (v : R) : Prop :=
  match n with
  | O => v = f []
  | S m => exists g, (forall u, 0 <= u < 1 -> is_mean m (fun us => f (u :: us)) (g u)) /\ is_RInt g 0 1 v
  end.
(** the averages over the first n numbers, n = 0, 1, ..., tend to v *)
Definition mean_tends (f : list R -> R) (v : R) : Prop :=
  exists m : nat -> R, (forall n, is_mean n f (m n)) /\ is_lim_seq m v.
(** value of a random routine, runs that are not finished counting as 0 *)
Definition payoff {A} (val : A -> R) (run : list R -> outcome (A * list R)) (us : list R) : R :=
  match run us with Ok (a, _) => val a | _ => 0 end.

(** attenuation along t in [a,b] when the extinction at t is e t (Beer-Lambert law) *)
Definition attenuation (e : R -> R) (a b : R) : R := exp (- RInt e a b).

(** the three channels of a color *)
Definition channel (k : nat) (c : vec3) : R := match k with O => vx c | S O => vy c | _ => vz c end.
Definition each (P : R -> Prop) (c : vec3) : Prop := P (vx c) /\ P (vy c) /\ P (vz c).
Definition least (c : vec3) : R := Rmin (vx c) (Rmin (vy c) (vz c)).
