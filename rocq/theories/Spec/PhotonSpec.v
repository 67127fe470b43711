(** Nearest neighbours, and photons as the physics has them. *)
From Coq Require Import Reals List Permutation Sorted.
From Verif.Model Require Import Vec Photon.
Import ListNotations.
Open Scope R_scope.

Definition nearer (x y : R * nat) : Prop := fst x <= fst y.
(** [c] are the k nearest of [all], in increasing distance *)
Definition k_nearest (k : nat) (all c : list (R * nat)) : Prop :=
  List.length c = Nat.min k (List.length all) /\ StronglySorted nearer c /\
  exists rest, Permutation all (c ++ rest) /\ forall x y, In x c -> In y rest -> nearer x y.
(** sum of a list of vectors *)
Definition vsum (l : list vec3) : vec3 := fold_right vadd (V3 0 0 0) l.
(** distance of two points *)
Definition away (p q : vec3) : R := norm (vsub p q).
