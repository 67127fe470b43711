(** src/math/warp.cpp over the reals; sinf/cosf are the real functions, the decimal constants
    INV_PI, INV_TWOPI, INV_FOURPI (common.h:92-94) are the real numbers they approximate.
    sqrToBeck and its pdf (121-133) only throw and are not modelled. *)
From Coq Require Import Reals.
From Verif.Model Require Import Vec.
Open Scope R_scope.

(** warp.cpp:14-21 *)
Definition sqrToUniDisk (s : vec2) : vec2 :=
  let r := sqrt (y2 s) in V2 (cos (2 * PI * x2 s) * r) (sin (2 * PI * x2 s) * r).
(** warp.cpp:23-26 *)
Definition sqrToUniDiskPdf (p : vec2) : R := if Rle_dec (sqrNorm2 p) 1 then 1 / PI else 0.
(** warp.cpp:28-35 *)
Definition sqrToUniSph (s : vec2) : vec3 :=
  let z := 1 - 2 * y2 s in
  let r := sqrt (Rmax 0 (1 - z * z)) in
  V3 (r * cos (2 * PI * x2 s)) (r * sin (2 * PI * x2 s)) z.
(** warp.cpp:37-40 *)
Definition sqrToUniSphPdf (v : vec3) : R := 1 / (4 * PI).
(** warp.cpp:42-49 *)
Definition sqrToUniSphCap (s : vec2) (cosThetaMax : R) : vec3 :=
  let z := y2 s + (1 - y2 s) * cosThetaMax in
  let r := sqrt (1 - z * z) in
  V3 (r * cos (2 * PI * x2 s)) (r * sin (2 * PI * x2 s)) z.
(** warp.cpp:51-56 *)
Definition sqrToUniSphCapPdf (v : vec3) (cosThetaMax : R) : R :=
  if Rlt_dec (vz v) cosThetaMax then 0 else (1 / (2 * PI)) / (1 - cosThetaMax).
(** warp.cpp:58-67 *)
Definition sqrToUniHemi (s : vec2) : vec3 :=
  let cosT := 1 - y2 s in
  let sinT := sqrt (Rmax 0 (1 - cosT * cosT)) in
  V3 (cos (2 * PI * x2 s) * sinT) (sin (2 * PI * x2 s) * sinT) cosT.
(** warp.cpp:69-72 *)
Definition sqrToUniHemiPdf (v : vec3) : R := if Rgt_dec (vz v) 0 then 1 / (2 * PI) else 0.
(** warp.cpp:74-80 *)
Definition sqrToCosHemi (s : vec2) : vec3 :=
  let p := sqrToUniDisk s in
  V3 (x2 p) (y2 p) (sqrt (Rmax 0 (1 - x2 p * x2 p - y2 p * y2 p))).
(** warp.cpp:82-85 *)
Definition sqrToCosHemiPdf (v : vec3) : R := if Rgt_dec (vz v) 0 then (1 / PI) * vz v else 0.
(** std::pow with a non-negative base: pow(0, y) = 0 for y > 0 *)
Definition rpow (x y : R) : R := if Rle_dec x 0 then 0 else Rpower x y.
(** warp.cpp:87-96 *)
Definition sqrToCosPowHemi (s : vec2) (n : R) : vec3 :=
  let cosT := rpow (y2 s) (1 / (n + 1)) in
  let sinT := sqrt (Rmax 0 (1 - cosT * cosT)) in
  V3 (cos (2 * PI * x2 s) * sinT) (sin (2 * PI * x2 s) * sinT) cosT.
(** warp.cpp:98-101 *)
Definition sqrToCosPowHemiPdf (v : vec3) (n : R) : R :=
  if Rgt_dec (vz v) 0 then (1 / 2) * (n + 1) * rpow (vz v) n * (1 / PI) else 0.
(** warp.cpp:103-109 *)
Definition sqrToUniTri (s : vec2) : vec2 := V2 (1 - sqrt (x2 s)) (y2 s * sqrt (x2 s)).
(** warp.cpp:111-119 *)
Definition sqrToUniTriPdf (p : vec2) : R :=
  if Rgt_dec (x2 p + y2 p) 1 then 0 else if Rlt_dec (x2 p + y2 p) 0 then 0 else 2.
