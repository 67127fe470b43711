(** Uniform light selection in single precision (src/accel/light_naive.cpp). *)
From Coq Require Import Reals ZArith.
From Flocq Require Import Core.
Open Scope R_scope.

(** binary32 with rounding to nearest even; the values here never overflow *)
Definition fexp32 : Z -> Z := FLT_exp (-149) 24.
Definition rnd32 (x : R) : R := round radix2 fexp32 ZnearestE x.
Definition is_float32 (x : R) : Prop := generic_format radix2 fexp32 x.

(** light_naive.cpp:20-25: pmf = 1.f / float(emitters.size()) *)
Definition naive_pmf (n : Z) : R := rnd32 (1 / rnd32 (IZR n)).
(** light_naive.cpp:27-34,36-46: index = sampler->next1D() * number_of_emitters, the product in
    float, then truncated *)
Definition naive_index (u : R) (n : Z) : Z := Ztrunc (rnd32 (u * rnd32 (IZR n))).
