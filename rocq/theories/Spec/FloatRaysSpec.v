(** What the theorems of Props/FloatRays.v are about. *)
From Coq Require Import ZArith Reals List Bool.
From Flocq Require Import Core BinarySingleNaN.
From Verif.Base Require Import F32.
Import ListNotations.
Open Scope R_scope.

(** the 2^23 numbers a generator with 23 random bits returns *)
Definition draw (k : Z) : f32 := f_of k (-23).
(** how many of the first [n] satisfy a test *)
Definition count_upto (n : nat) (p : Z -> bool) : nat := length (filter p (map Z.of_nat (seq 0 n))).
(** how many of all *)
Notation count := (count_upto (Z.to_nat (2 ^ 23))).

(** the surfaces on one ray: distances and whether they are null boundaries; no two coincide *)
Definition on_ray (l : list (f32 * bool)) : Prop :=
  (forall a, In a l -> is_finite (fst a) = true /\ 0 < B2R (fst a)) /\
  (forall a b, In a l -> In b l -> B2R (fst a) = B2R (fst b) -> a = b).
(** an accelerator that reports the nearest surface not before near *)
Definition closed_hits (l : list (f32 * bool)) (hit : f32 -> option (f32 * bool)) : Prop :=
  forall near, match hit near with
    | Some a => In a l /\ B2R near <= B2R (fst a) /\ forall b, In b l -> B2R near <= B2R (fst b) -> B2R (fst a) <= B2R (fst b)
    | None => forall b, In b l -> B2R (fst b) < B2R near
    end.
(** an accelerator that reports the nearest surface strictly after near *)
Definition open_hits (l : list (f32 * bool)) (hit : f32 -> option (f32 * bool)) : Prop :=
  forall near, match hit near with
    | Some a => In a l /\ B2R near < B2R (fst a) /\ forall b, In b l -> B2R near < B2R (fst b) -> B2R (fst a) <= B2R (fst b)
    | None => forall b, In b l -> B2R (fst b) <= B2R near
    end.
