(** What a multi-threaded render should leave in the image. *)
From Coq Require Import Reals ZArith List.
From Verif.Model Require Import Vec.
From Verif.Spec Require Import FilmSpec.
Import ListNotations.
Open Scope R_scope.

(** previous contents [old] plus the weighted sums, divided by the weight unless it is zero *)
Definition accumulated (f : vec2 -> R) (old : vec3) (evs : list camera_sample) (x y : Z) : vec3 :=
  let s := V3 (vx old + weighted f vx evs x y) (vy old + weighted f vy evs x y)
              (vz old + weighted f vz evs x y) in
  if Req_EM_T (total_weight f evs x y) 0 then s else vdiv s (total_weight f evs x y).
