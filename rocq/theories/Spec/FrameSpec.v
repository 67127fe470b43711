(** Orthonormality, rotations and the meaning of the transform calls, in vector language. *)
From Coq Require Import Reals List.
From Verif.Model Require Import Vec Matrix Frame ApiTransform.
From Verif.Spec Require Import LinAlgSpec.
Import ListNotations.
Open Scope R_scope.

Definition orthonormal (a b c : vec3) : Prop :=
  dot a a = 1 /\ dot b b = 1 /\ dot c c = 1 /\ dot a b = 0 /\ dot b c = 0 /\ dot a c = 0.
(** a x b = c *)
Definition right_handed (a b c : vec3) : Prop := cross a b = c.

(** Rodrigues' formula, for a unit axis u; this code turns clockwise when looking against u,
    hence v x u rather than u x v. *)
Definition rodrigues (th : R) (u v : vec3) : vec3 :=
  vadd (vadd (vscale v (cos th)) (vscale (cross v u) (sin th))) (vscale u ((1 - cos th) * dot u v)).

(** what a user expects one transform call to do to a point *)
Definition act (c : tcall) (p : vec3) : vec3 :=
  match c with
  | TClear => p
  | TScale v => V3 (vx v * vx p) (vy v * vy p) (vz v * vz p)
  | TTranslate v => vadd p v
  | TRotate a v => rodrigues (a * PI / 180) (vdiv v (norm v)) p
  end.
(** calls made after the last clear *)
Fixpoint since_clear (acc cs : list tcall) : list tcall :=
  match cs with
  | [] => acc
  | TClear :: r => since_clear [] r
  | c :: r => since_clear (acc ++ [c]) r
  end.
Definition axis_ok (c : tcall) : Prop := match c with TRotate _ v => v <> vzero | _ => True end.
Definition invertible_call (c : tcall) : Prop :=
  match c with TScale v => vx v <> 0 /\ vy v <> 0 /\ vz v <> 0 | _ => True end.
