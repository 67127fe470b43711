(** Pixel values in terms of the real values of the camera samples. *)
From Coq Require Import ZArith Reals List Bool.
From Flocq Require Import Core BinarySingleNaN.
From Verif.Base Require Import RSum F32.
From Verif.Model Require Import FloatFilm.
Import ListNotations.
Open Scope R_scope.

Definition px (e : fevent) : R := B2R (fst (fst e)).
Definition py (e : fevent) : R := B2R (snd (fst e)).
Definition lum (e : fevent) : R := B2R (snd e).
Definition lit (e : fevent) : bool := is_finite (snd e).

(** a usable sample position: not negative, at most 2^22, a multiple of 2^-24 *)
Definition placed (p : f32) : Prop :=
  is_finite p = true /\ 0 <= B2R p <= IZR (2 ^ 22) /\ exists k : Z, B2R p = IZR k * bpow radix2 (-24).

(** strictly inside the square of pixel (x, y) *)
Definition strictly (x : Z) (p : R) : bool := Rlt_bool (IZR x) p && Rlt_bool p (IZR x + 1).
Definition inside (x y : Z) (e : fevent) : bool := strictly x (px e) && strictly y (py e).

(** pixels looked at for a sample with the box filter: those whose centre is less than one away, and
    one more when p + 1/2 is rounded up to its border *)
Definition reaches (x : Z) (p : R) : bool := Rle_bool (IZR x) (rnd (p + / 2)) && Rlt_bool p (IZR x + 3 / 2).
Definition touches (x y : Z) (e : fevent) : bool := reaches x (px e) && reaches y (py e).

Definition sum (l : list fevent) : R := rsum (map lum l).
Definition sum_abs (l : list fevent) : R := rsum (map (fun e => Rabs (lum e)) l).

(** films of usual size *)
Definition film_ok (w h : Z) : Prop := (1 <= w <= 2 ^ 22)%Z /\ (1 <= h <= 2 ^ 22)%Z.
Definition event_ok (e : fevent) : Prop := placed (fst (fst e)) /\ placed (snd (fst e)).

(** what a generator of 24-bit numbers in [0,1) returns *)
Definition unit_grid (u : f32) : Prop :=
  is_finite u = true /\ exists k : Z, (0 <= k < 2 ^ 24)%Z /\ B2R u = IZR k * bpow radix2 (-24).
