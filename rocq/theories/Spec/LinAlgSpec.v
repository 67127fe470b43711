(** Linear-algebra vocabulary, stated with matrix entries only. *)
From Coq Require Import Reals List.
From Verif.Model Require Import Vec Matrix.
Import ListNotations.
Open Scope R_scope.

(** entry in row i, column j *)
Definition m4_row (m : mat4) (i : nat) : vec4 :=
  match i with
  | 0%nat => V4 (n0 m) (n1 m) (n2 m) (n3 m)
  | 1%nat => V4 (n4 m) (n5 m) (n6 m) (n7 m)
  | 2%nat => V4 (n8 m) (n9 m) (n10 m) (n11 m)
  | _ => V4 (n12 m) (n13 m) (n14 m) (n15 m)
  end.
Definition v4_get (v : vec4) (j : nat) : R :=
  match j with 0%nat => wx v | 1%nat => wy v | 2%nat => wz v | _ => ww v end.
Definition entry (m : mat4) (i j : nat) : R := v4_get (m4_row m i) j.

(** textbook product, identity and inverse *)
Definition is_product (a b c : mat4) : Prop := forall i j, (i < 4)%nat -> (j < 4)%nat ->
  entry c i j = entry a i 0 * entry b 0 j + entry a i 1 * entry b 1 j
              + entry a i 2 * entry b 2 j + entry a i 3 * entry b 3 j.
Definition is_identity (m : mat4) : Prop := forall i j, (i < 4)%nat -> (j < 4)%nat ->
  entry m i j = if Nat.eqb i j then 1 else 0.
Definition mutually_inverse (a b : mat4) : Prop :=
  (exists c, is_product a b c /\ is_identity c) /\ (exists c, is_product b a c /\ is_identity c).

(** Laplace expansion along the first row (the code expands along the first column) *)
Definition det3 (a b c d e f g h i : R) : R :=
  a * (e * i - f * h) - b * (d * i - f * g) + c * (d * h - e * g).
Definition det4 (m : mat4) : R :=
  n0 m * det3 (n5 m) (n6 m) (n7 m) (n9 m) (n10 m) (n11 m) (n13 m) (n14 m) (n15 m)
  - n1 m * det3 (n4 m) (n6 m) (n7 m) (n8 m) (n10 m) (n11 m) (n12 m) (n14 m) (n15 m)
  + n2 m * det3 (n4 m) (n5 m) (n7 m) (n8 m) (n9 m) (n11 m) (n12 m) (n13 m) (n15 m)
  - n3 m * det3 (n4 m) (n5 m) (n6 m) (n8 m) (n9 m) (n10 m) (n12 m) (n13 m) (n14 m).

(** a transform whose stored inverse is the inverse of its matrix *)
Definition consistent (t : transform) : Prop := mutually_inverse (tmat t) (tinv t).

(** last row 0 0 0 1 *)
Definition affine (m : mat4) : Prop := n12 m = 0 /\ n13 m = 0 /\ n14 m = 0 /\ n15 m = 1.
(** homogeneous weight of the image of a point *)
Definition weight (m : mat4) (p : vec3) : R := n12 m * vx p + n13 m * vy p + n14 m * vz p + n15 m.

Definition unit3 (v : vec3) : Prop := dot v v = 1.

(** every transform the library can build from invertible matrices *)
Inductive built : transform -> Prop :=
| built_of m : det4 m <> 0 -> built (tf_of m)
| built_id : built tf_id
| built_inverse t : built t -> built (tf_inverse t)
| built_mul a b : built a -> built b -> built (tf_mul a b).
(** the same, from affine matrices only *)
Inductive built_affine : transform -> Prop :=
| builta_of m : det4 m <> 0 -> affine m -> built_affine (tf_of m)
| builta_id : built_affine tf_id
| builta_inverse t : built_affine t -> built_affine (tf_inverse t)
| builta_mul a b : built_affine a -> built_affine b -> built_affine (tf_mul a b).

Definition vzero : vec3 := V3 0 0 0.
