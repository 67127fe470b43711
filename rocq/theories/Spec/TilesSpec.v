(** Specification of tilings and schedules, independent of how they are computed. *)
From Coq Require Import ZArith List.
From Verif.Model Require Import Tiles.
Import ListNotations.
Open Scope Z_scope.

(** render_pool.h:46: "this tile represents all pixels in the range [min, max)". *)
Definition covers (t : tile) (x y : Z) : Prop :=
  t_minx t <= x < t_maxx t /\ t_miny t <= y < t_maxy t.

Definition in_film (w h x y : Z) : Prop := 0 <= x < w /\ 0 <= y < h.

(** [ts] is an exact partition of the [w] x [h] film: each film pixel is covered by exactly
    one position of the list, and no tile covers anything else. *)
Definition exact_partition (w h : Z) (ts : list tile) : Prop :=
  (forall x y, in_film w h x y ->
     exists! k : nat, exists t, nth_error ts k = Some t /\ covers t x y) /\
  (forall t x y, In t ts -> covers t x y -> in_film w h x y).

Definition ceil_div (a b : Z) : Z := (a + b - 1) / b.
