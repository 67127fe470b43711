(** include/feign/math/vector.h: Matrix3, Matrix4 and src/math/transform.cpp. *)
From Coq Require Import Reals.
From Verif.Model Require Import Vec.
Open Scope R_scope.

(** vector.h:1233-1369: row-major 3x3, n[0..8]. *)
Record mat3 := M3 {
  a0 : R; a1 : R; a2 : R;
  a3 : R; a4 : R; a5 : R;
  a6 : R; a7 : R; a8 : R }.

(** vector.h:1371-1751: row-major 4x4, n[0..15]. *)
Record mat4 := M4 {
  n0 : R; n1 : R; n2 : R; n3 : R;
  n4 : R; n5 : R; n6 : R; n7 : R;
  n8 : R; n9 : R; n10 : R; n11 : R;
  n12 : R; n13 : R; n14 : R; n15 : R }.

(** vector.h:1295-1304 *)
Definition m3_vec (m : mat3) (v : vec3) : vec3 :=
  V3 (a0 m * vx v + a1 m * vy v + a2 m * vz v)
     (a3 m * vx v + a4 m * vy v + a5 m * vz v)
     (a6 m * vx v + a7 m * vy v + a8 m * vz v).

(** vector.h:1327-1342 *)
Definition m3_transpose (m : mat3) : mat3 :=
  M3 (a0 m) (a3 m) (a6 m) (a1 m) (a4 m) (a7 m) (a2 m) (a5 m) (a8 m).

(** vector.h:1405-1420 *)
Definition topLeft (m : mat4) : mat3 :=
  M3 (n0 m) (n1 m) (n2 m) (n4 m) (n5 m) (n6 m) (n8 m) (n9 m) (n10 m).

(** vector.h:1422-1444 *)
Definition m4_id : mat4 := M4 1 0 0 0 0 1 0 0 0 0 1 0 0 0 0 1.

(** vector.h:1446-1456 *)
Definition m4_scale (v : vec3) : mat4 :=
  M4 (vx v) 0 0 0 0 (vy v) 0 0 0 0 (vz v) 0 0 0 0 1.

(** vector.h:1458-1471 *)
Definition m4_translate (v : vec3) : mat4 :=
  M4 1 0 0 (vx v) 0 1 0 (vy v) 0 0 1 (vz v) 0 0 0 1.

(** vector.h:1473-1512 (angle in degrees) *)
Definition m4_rotate (angle : R) (v : vec3) : mat4 :=
  let c := cos (angle * PI / 180) in
  let s := sin (angle * PI / 180) in
  let t := 1 - c in
  let u := normalized v in
  M4 (c + vx u * vx u * t) (vx u * vy u * t + vz u * s) (vx u * vz u * t - vy u * s) 0
     (vx u * vy u * t - vz u * s) (c + vy u * vy u * t) (vy u * vz u * t + vx u * s) 0
     (vx u * vz u * t + vy u * s) (vy u * vz u * t - vx u * s) (c + vz u * vz u * t) 0
     0 0 0 1.

(** vector.h:1514-1539 *)
Definition m4_mul (a b : mat4) : mat4 :=
  M4 (n0 a * n0 b + n1 a * n4 b + n2 a * n8 b + n3 a * n12 b)
     (n0 a * n1 b + n1 a * n5 b + n2 a * n9 b + n3 a * n13 b)
     (n0 a * n2 b + n1 a * n6 b + n2 a * n10 b + n3 a * n14 b)
     (n0 a * n3 b + n1 a * n7 b + n2 a * n11 b + n3 a * n15 b)
     (n4 a * n0 b + n5 a * n4 b + n6 a * n8 b + n7 a * n12 b)
     (n4 a * n1 b + n5 a * n5 b + n6 a * n9 b + n7 a * n13 b)
     (n4 a * n2 b + n5 a * n6 b + n6 a * n10 b + n7 a * n14 b)
     (n4 a * n3 b + n5 a * n7 b + n6 a * n11 b + n7 a * n15 b)
     (n8 a * n0 b + n9 a * n4 b + n10 a * n8 b + n11 a * n12 b)
     (n8 a * n1 b + n9 a * n5 b + n10 a * n9 b + n11 a * n13 b)
     (n8 a * n2 b + n9 a * n6 b + n10 a * n10 b + n11 a * n14 b)
     (n8 a * n3 b + n9 a * n7 b + n10 a * n11 b + n11 a * n15 b)
     (n12 a * n0 b + n13 a * n4 b + n14 a * n8 b + n15 a * n12 b)
     (n12 a * n1 b + n13 a * n5 b + n14 a * n9 b + n15 a * n13 b)
     (n12 a * n2 b + n13 a * n6 b + n14 a * n10 b + n15 a * n14 b)
     (n12 a * n3 b + n13 a * n7 b + n14 a * n11 b + n15 a * n15 b).

(** vector.h:1541-1551 *)
Definition m4_vec (m : mat4) (v : vec4) : vec4 :=
  V4 (n0 m * wx v + n1 m * wy v + n2 m * wz v + n3 m * ww v)
     (n4 m * wx v + n5 m * wy v + n6 m * wz v + n7 m * ww v)
     (n8 m * wx v + n9 m * wy v + n10 m * wz v + n11 m * ww v)
     (n12 m * wx v + n13 m * wy v + n14 m * wz v + n15 m * ww v).

(** vector.h:1574-1596 *)
Definition m4_transpose (m : mat4) : mat4 :=
  M4 (n0 m) (n4 m) (n8 m) (n12 m) (n1 m) (n5 m) (n9 m) (n13 m)
     (n2 m) (n6 m) (n10 m) (n14 m) (n3 m) (n7 m) (n11 m) (n15 m).

(** vector.h:1603-1619: the determinant accumulated by operator~ *)
Definition m4_det (m : mat4) : R :=
  0 + n0 m * (n5 m * n10 m * n15 m + n6 m * n11 m * n13 m + n7 m * n9 m * n14 m
              - n7 m * n10 m * n13 m - n6 m * n9 m * n15 m - n5 m * n11 m * n14 m)
  - n4 m * (n1 m * n10 m * n15 m + n2 m * n11 m * n13 m + n3 m * n9 m * n14 m
            - n3 m * n10 m * n13 m - n2 m * n9 m * n15 m - n1 m * n11 m * n14 m)
  + n8 m * (n1 m * n6 m * n15 m + n2 m * n7 m * n13 m + n3 m * n5 m * n14 m
            - n3 m * n6 m * n13 m - n2 m * n5 m * n15 m - n1 m * n7 m * n14 m)
  - n12 m * (n1 m * n6 m * n11 m + n2 m * n7 m * n9 m + n3 m * n5 m * n10 m
             - n3 m * n6 m * n9 m - n2 m * n5 m * n11 m - n1 m * n7 m * n10 m).

(** vector.h:1599-1703 (operator~, inverse).  A zero determinant is a float division by
    zero in C++ (infinities/NaN); theorems require it to be non-zero. *)
Definition m4_inv (m : mat4) : mat4 :=
  let det := m4_det m in
  let m11 := n5 m * n10 m * n15 m + n6 m * n11 m * n13 m + n7 m * n9 m * n14 m
             - n7 m * n10 m * n13 m - n6 m * n9 m * n15 m - n5 m * n11 m * n14 m in
  let m12 := n4 m * n10 m * n15 m + n6 m * n11 m * n12 m + n7 m * n8 m * n14 m
             - n7 m * n10 m * n12 m - n6 m * n8 m * n15 m - n4 m * n11 m * n14 m in
  let m13 := n4 m * n9 m * n15 m + n5 m * n11 m * n12 m + n7 m * n8 m * n13 m
             - n7 m * n9 m * n12 m - n5 m * n8 m * n15 m - n4 m * n11 m * n13 m in
  let m14 := n4 m * n9 m * n14 m + n5 m * n10 m * n12 m + n6 m * n8 m * n13 m
             - n6 m * n9 m * n12 m - n5 m * n8 m * n14 m - n4 m * n10 m * n13 m in
  let m21 := n1 m * n10 m * n15 m + n2 m * n11 m * n13 m + n3 m * n9 m * n14 m
             - n3 m * n10 m * n13 m - n2 m * n9 m * n15 m - n1 m * n11 m * n14 m in
  let m22 := n0 m * n10 m * n15 m + n2 m * n11 m * n12 m + n3 m * n8 m * n14 m
             - n3 m * n10 m * n12 m - n2 m * n8 m * n15 m - n0 m * n11 m * n14 m in
  let m23 := n0 m * n9 m * n15 m + n1 m * n11 m * n12 m + n3 m * n8 m * n13 m
             - n3 m * n9 m * n12 m - n1 m * n8 m * n15 m - n0 m * n11 m * n13 m in
  let m24 := n0 m * n9 m * n14 m + n1 m * n10 m * n12 m + n2 m * n8 m * n13 m
             - n2 m * n9 m * n12 m - n1 m * n8 m * n14 m - n0 m * n10 m * n13 m in
  let m31 := n1 m * n6 m * n15 m + n2 m * n7 m * n13 m + n3 m * n5 m * n14 m
             - n3 m * n6 m * n13 m - n2 m * n5 m * n15 m - n1 m * n7 m * n14 m in
  let m32 := n0 m * n6 m * n15 m + n2 m * n7 m * n12 m + n3 m * n4 m * n14 m
             - n3 m * n6 m * n12 m - n2 m * n4 m * n15 m - n0 m * n7 m * n14 m in
  let m33 := n0 m * n5 m * n15 m + n1 m * n7 m * n12 m + n3 m * n4 m * n13 m
             - n3 m * n5 m * n12 m - n1 m * n4 m * n15 m - n0 m * n7 m * n13 m in
  let m34 := n0 m * n5 m * n14 m + n1 m * n6 m * n12 m + n2 m * n4 m * n13 m
             - n2 m * n5 m * n12 m - n1 m * n4 m * n14 m - n0 m * n6 m * n13 m in
  let m41 := n1 m * n6 m * n11 m + n2 m * n7 m * n9 m + n3 m * n5 m * n10 m
             - n3 m * n6 m * n9 m - n2 m * n5 m * n11 m - n1 m * n7 m * n10 m in
  let m42 := n0 m * n6 m * n11 m + n2 m * n7 m * n8 m + n3 m * n4 m * n10 m
             - n3 m * n6 m * n8 m - n2 m * n4 m * n11 m - n0 m * n7 m * n10 m in
  let m43 := n0 m * n5 m * n11 m + n1 m * n7 m * n8 m + n3 m * n4 m * n9 m
             - n3 m * n5 m * n8 m - n1 m * n4 m * n11 m - n0 m * n7 m * n9 m in
  let m44 := n0 m * n5 m * n10 m + n1 m * n6 m * n8 m + n2 m * n4 m * n9 m
             - n2 m * n5 m * n8 m - n1 m * n4 m * n10 m - n0 m * n6 m * n9 m in
  M4 (m11 / det) (- m21 / det) (m31 / det) (- m41 / det)
     (- m12 / det) (m22 / det) (- m32 / det) (m42 / det)
     (m13 / det) (- m23 / det) (m33 / det) (- m43 / det)
     (- m14 / det) (m24 / det) (- m34 / det) (m44 / det).

(** vector.h:1733-1736 with 1705-1711: setCol(i, v) writes n[4*y + i], y = 0..3. *)
Definition m4_setCol (m : mat4) (i : nat) (v : vec4) : mat4 :=
  match i with
  | 0%nat => M4 (wx v) (n1 m) (n2 m) (n3 m) (wy v) (n5 m) (n6 m) (n7 m)
                (wz v) (n9 m) (n10 m) (n11 m) (ww v) (n13 m) (n14 m) (n15 m)
  | 1%nat => M4 (n0 m) (wx v) (n2 m) (n3 m) (n4 m) (wy v) (n6 m) (n7 m)
                (n8 m) (wz v) (n10 m) (n11 m) (n12 m) (ww v) (n14 m) (n15 m)
  | 2%nat => M4 (n0 m) (n1 m) (wx v) (n3 m) (n4 m) (n5 m) (wy v) (n7 m)
                (n8 m) (n9 m) (wz v) (n11 m) (n12 m) (n13 m) (ww v) (n15 m)
  | _ => M4 (n0 m) (n1 m) (n2 m) (wx v) (n4 m) (n5 m) (n6 m) (wy v)
            (n8 m) (n9 m) (n10 m) (wz v) (n12 m) (n13 m) (n14 m) (ww v)
  end.

(** include/feign/math/transform.h: a matrix and its inverse, stored together. *)
Record transform := Tf { tmat : mat4; tinv : mat4 }.

(** transform.cpp:15-19 *)
Definition tf_id : transform := Tf m4_id m4_id.
(** transform.cpp:21-25 *)
Definition tf_of (m : mat4) : transform := Tf m (m4_inv m).
(** transform.cpp:34-37 *)
Definition tf_inverse (t : transform) : transform := Tf (tinv t) (tmat t).
(** transform.cpp:39-44 and 72-76 *)
Definition tf_mul (a b : transform) : transform :=
  Tf (m4_mul (tmat a) (tmat b)) (m4_mul (tinv b) (tinv a)).
(** transform.cpp:46-49 *)
Definition tf_vector (t : transform) (v : vec3) : vec3 := m3_vec (topLeft (tmat t)) v.
(** transform.cpp:51-55 *)
Definition tf_normal (t : transform) (v : vec3) : vec3 :=
  m3_vec (m3_transpose (topLeft (tinv t))) v.
(** transform.cpp:57-62 *)
Definition tf_point (t : transform) (p : vec3) : vec3 :=
  let hom := m4_vec (tmat t) (V4_of3 p 1) in
  vdiv (head4 hom) (ww hom).
