(** The phase function of Henyey and Greenstein in single precision. *)
From Coq Require Import ZArith Bool.
From Flocq Require Import Core BinarySingleNaN.
From Verif.Base Require Import F32.
From Verif.Model Require Import FloatDirs.

(** common.h:94: INV_FOURPI, the literal 0.07957747154594766788f *)
Definition f_inv4pi : f32 := f_of 10680707 (-27).
(** the literal 2.f *)
Definition ftwo : f32 := fZ 2.

(** phase.h:55-60 *)
Definition f_hg (cosTheta g : f32) : f32 :=
  let denom := fsub (fadd f1 (fmul g g)) (fmul (fmul ftwo g) cosTheta) in
  let denom := fmul denom (fsqrt denom) in
  fdiv (fmul f_inv4pi (fsub f1 (fmul g g))) denom.

(** phase.h:71-84, the branch for |g| >= Epsilon: the cosine drawn from the first sample u *)
Definition f_hg_cos (g u : f32) : f32 :=
  let numer := fmul (fmul (fmul (fZ (-2)) u) u) (fadd (fmul (fmul g g) g) g) in
  let numer := fadd numer (fmul (fmul (fmul ftwo u) (fsub g f1)) (fadd (fmul g g) f1)) in
  let numer := fadd numer (fmul (fsub g f1) (fsub g f1)) in
  let denom := fadd (fmul (fsub (fmul ftwo u) f1) g) f1 in
  let denom := fmul denom denom in
  fdiv (Bopp numer) denom.
(** phase.h:101: the value returned for the drawn direction *)
Definition f_hg_sampled (g u : f32) : f32 := f_hg (Bopp (f_hg_cos g u)) g.
