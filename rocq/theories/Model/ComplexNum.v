(** include/feign/math/complex.h *)
From Coq Require Import Reals.
Open Scope R_scope.

(** complex.h:17-83 *)
Record cx2 := C2 { re : R; im : R }.
(** complex.h:32-36, 38-42 *)
Definition c2_addr (a : cx2) (r : R) : cx2 := C2 (re a + r) (im a).
Definition c2_subr (a : cx2) (r : R) : cx2 := C2 (re a - r) (im a).
(** complex.h:44-48 *)
Definition c2_add (a b : cx2) : cx2 := C2 (re a + re b) (im a + im b).
(** complex.h:50-54 *)
Definition c2_sub (a b : cx2) : cx2 := C2 (re a - re b) (im a - im b).
(** complex.h:56-60 *)
Definition c2_add_assign (a b : cx2) : cx2 := C2 (re a + re b) (im a + im b).
(** complex.h:62-66: operator-= adds, as written. *)
Definition c2_sub_assign (a b : cx2) : cx2 := C2 (re a + re b) (im a + im b).
(** complex.h:68-74 *)
Definition c2_mul (a b : cx2) : cx2 :=
  C2 (re a * re b - im a * im b) (re a * im b + im a * re b).
(** complex.h:76-79 (no square root) *)
Definition c2_norm (a : cx2) : R := re a * re a + im a * im a.

(** complex.h:85-159 *)
Record cx3 := C3 { re3 : R; im3 : R; jm3 : R }.
(** complex.h:114-119 *)
Definition c3_add (a b : cx3) : cx3 := C3 (re3 a + re3 b) (im3 a + im3 b) (jm3 a + jm3 b).
(** complex.h:121-126 *)
Definition c3_sub (a b : cx3) : cx3 := C3 (re3 a - re3 b) (im3 a - im3 b) (jm3 a - jm3 b).
(** complex.h:128-133 *)
Definition c3_add_assign (a b : cx3) : cx3 := c3_add a b.
(** complex.h:135-140 *)
Definition c3_sub_assign (a b : cx3) : cx3 := C3 (re3 a - re3 b) (im3 a - im3 b) (jm3 a - jm3 b).
(** complex.h:142-149 *)
Definition c3_mul (a b : cx3) : cx3 :=
  C3 (re3 a * re3 b - im3 a * jm3 b - jm3 a * im3 b)
     (re3 a * im3 b + im3 a * re3 b - jm3 a * jm3 b)
     (re3 a * jm3 b + im3 a * im3 b + jm3 a * re3 b).
(** complex.h:151-154 *)
Definition c3_norm (a : cx3) : R := re3 a * re3 a + im3 a * im3 a + jm3 a * jm3 a.
