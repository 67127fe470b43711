(** Boxes as sets of points. *)
From Coq Require Import Reals List.
From Coquelicot Require Import Rbar.
From Verif.Model Require Import Vec BBox.
Open Scope R_scope.

(** the point lies in the closed (extended) box *)
Definition in_ebox (b : ebox) (p : vec3) : Prop :=
  Rbar_le (ex (emn b)) (vx p) /\ Rbar_le (vx p) (ex (emx b)) /\
  Rbar_le (ey (emn b)) (vy p) /\ Rbar_le (vy p) (ey (emx b)) /\
  Rbar_le (ez (emn b)) (vz p) /\ Rbar_le (vz p) (ez (emx b)).
(** c is at least as large as b on every side *)
Definition within (b c : ebox) : Prop :=
  Rbar_le (ex (emn c)) (ex (emn b)) /\ Rbar_le (ex (emx b)) (ex (emx c)) /\
  Rbar_le (ey (emn c)) (ey (emn b)) /\ Rbar_le (ey (emx b)) (ey (emx c)) /\
  Rbar_le (ez (emn c)) (ez (emn b)) /\ Rbar_le (ez (emx b)) (ez (emx c)).
(** b is the smallest box containing the set S *)
Definition smallest (S : vec3 -> Prop) (b : ebox) : Prop :=
  (forall p, S p -> in_ebox b p) /\ (forall c, (forall p, S p -> in_ebox c p) -> within b c).

(** the point lies in the closed / open finite box *)
Definition in_box (b : bbox) (p : vec3) : Prop :=
  vx (bmn b) <= vx p <= vx (bmx b) /\ vy (bmn b) <= vy p <= vy (bmx b) /\ vz (bmn b) <= vz p <= vz (bmx b).
Definition inside_box (b : bbox) (p : vec3) : Prop :=
  vx (bmn b) < vx p < vx (bmx b) /\ vy (bmn b) < vy p < vy (bmx b) /\ vz (bmn b) < vz p < vz (bmx b).
Definition proper_box (b : bbox) : Prop :=
  vx (bmn b) <= vx (bmx b) /\ vy (bmn b) <= vy (bmx b) /\ vz (bmn b) <= vz (bmx b).
Definition box_volume (b : bbox) : R :=
  (vx (bmx b) - vx (bmn b)) * (vy (bmx b) - vy (bmn b)) * (vz (bmx b) - vz (bmn b)).
(** two boxes share a point *)
Definition boxes_meet (b c : bbox) : Prop := exists p, in_box b p /\ in_box c p.
