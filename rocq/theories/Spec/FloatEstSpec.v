(** What a camera sample would be in exact arithmetic, given what happened at each turn of the path. *)
From Coq Require Import ZArith Reals List.
From Flocq Require Import Core BinarySingleNaN.
From Verif.Base Require Import F32.
From Verif.Model Require Import FloatDirs FloatPath.
From Verif.Spec Require Import FloatDirsSpec FloatPathSpec.
Import ListNotations.
Open Scope R_scope.

Inductive chan := Red | Green | Blue.
Definition get (c : chan) (v : fvec) : f32 := match c with Red => fvx v | Green => fvy v | Blue => fvz v end.
Definition val (c : chan) (v : fvec) : R := B2R (get c v).

(** two numbers that agree up to [k] relative errors of half a unit in the last place *)
Definition ro : R := / (1 - u32).
Definition rel (k : nat) (x y : R) : Prop := x <= ro ^ k * y /\ y <= ro ^ k * x.

(** what happens at a turn: the throughput is found black; the path ends at the surface; it goes on
    with survival probability [q] *)
Inductive fate := Black | Stop | Go (q : R).

(** albedo times cosine over density *)
Definition bsdf (c : chan) (v : fvertex) : R := val c (v_albedo v) * B2R (v_cos v) / B2R (v_pdf v).
(** the estimate: light of each surface times what is reflected towards the one before, divided by the
    probability of having gone on *)
Fixpoint estimate (c : chan) (vs : list fvertex) (sky : option fvec) (fs : list fate) : R :=
  match fs with
  | Black :: _ => 0
  | _ => match vs with
         | [] => match sky with Some s => val c s | None => 0 end
         | v :: vs' => val c (v_light v) + match fs with Go q :: fs' => bsdf c v / q * estimate c vs' sky fs' | _ => 0 end
         end
  end.

(** the tolerance of the test for a black throughput: the smallest float not below 10^-4 *)
Definition tol : R := 13743896 / 2 ^ 37.
Definition top (T : chan -> R) : R := Rmax (T Red) (Rmax (T Green) (T Blue)).
(** the fates follow the rules of the integrator with throughput [T] and the numbers drawn, up to [k]
    relative errors: black means below the tolerance; the survival probability is the largest
    component of the throughput, at most 1; the path ends when the number drawn is above it or when the
    density is 0 *)
Fixpoint follows (k : nat) (T : chan -> R) (vs : list fvertex) (fs : list fate) : Prop :=
  match fs with
  | Black :: _ => forall c, T c <= ro ^ k * tol
  | _ => tol <= ro ^ k * top T /\
    match vs with
    | [] => True
    | v :: vs' =>
      match fs with
      | Stop :: _ => B2R (v_pdf v) = 0 \/ exists q, rel k q (Rmin (top T) 1) /\ q < B2R (v_draw v)
      | Go q :: fs' => rel k q (Rmin (top T) 1) /\ 0 < q /\ B2R (v_draw v) <= q /\ B2R (v_pdf v) <> 0 /\
                       follows k (fun c => T c * (bsdf c v / q)) vs' fs'
      | _ => False
      end
    end
  end.
(** a number that is 0 or at least [a] *)
Definition clear (a x : R) : Prop := x = 0 \/ a <= x.
(** a surface and a sky that keep the arithmetic away from numbers too small to be precise: light 0 or
    from 2^-60 to 2^k, and albedo * cosine / density 0 or at least [om], in each channel *)
Definition plain (k : Z) (om : R) (v : fvertex) : Prop :=
  tame v /\ col_in (bpow radix2 k) (v_light v) /\ (forall c, clear (bpow radix2 (-60)) (val c (v_light v))) /\
  (B2R (v_pdf v) <> 0 -> forall c, clear om (bsdf c v)).
