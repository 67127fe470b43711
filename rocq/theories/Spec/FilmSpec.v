(** What a film pixel should contain, in terms of the list of camera samples only. *)
From Coq Require Import Reals ZArith List Bool.
From Flocq Require Import Core.Raux.
From Verif.Base Require Import RSum.
From Verif.Model Require Import Vec.
Import ListNotations.
Open Scope R_scope.

(** A camera sample: film position and radiance. *)
Definition camera_sample : Type := vec2 * vec3.

(** offset from the sample position to the centre of pixel (x, y) *)
Definition offset (x y : Z) (e : camera_sample) : vec2 :=
  V2 (IZR x + 1 / 2 - x2 (fst e)) (IZR y + 1 / 2 - y2 (fst e)).

Section Spec.
Variable f : vec2 -> R.

Definition total_weight (evs : list camera_sample) (x y : Z) : R :=
  rsum (map (fun e => f (offset x y e)) evs).

Definition weighted (ch : vec3 -> R) (evs : list camera_sample) (x y : Z) : R :=
  rsum (map (fun e => f (offset x y e) * ch (snd e)) evs).

(** filtered average; black if nothing has weight *)
Definition filtered (evs : list camera_sample) (x y : Z) : vec3 :=
  if Req_EM_T (total_weight evs x y) 0 then V3 0 0 0
  else V3 (weighted vx evs x y / total_weight evs x y)
          (weighted vy evs x y / total_weight evs x y)
          (weighted vz evs x y / total_weight evs x y).

(** the filter vanishes outside its radius *)
Definition supported (size : vec2) : Prop :=
  forall v, f v <> 0 -> Rabs (x2 v) <= x2 size /\ Rabs (y2 v) <= y2 size.
End Spec.

(** any sampler output in the half-open unit square *)
Definition unit_square (u : vec2) : Prop := 0 <= x2 u < 1 /\ 0 <= y2 u < 1.

(** number of samples positioned inside the half-open unit square of pixel (x, y) *)
Definition in_pixelb (x y : Z) (e : camera_sample) : bool :=
  (Z.eqb (Zfloor (x2 (fst e))) x && Z.eqb (Zfloor (y2 (fst e))) y)%bool.
Definition samples_in (evs : list camera_sample) (x y : Z) : nat :=
  length (filter (in_pixelb x y) evs).
