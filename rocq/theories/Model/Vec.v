(** include/feign/math/vector.h: Vec2, Vec3, Vec4 over the reals
    ([T] = [Float] idealised to [R]: no rounding, NaN or infinities). *)
From Coq Require Import Reals ZArith.
Open Scope R_scope.

(** vector.h:22-307 (Vec2, storage xy[2]); also Point2 (1766-1773). *)
Record vec2 := V2 { x2 : R; y2 : R }.
(** vector.h:309-816 (Vec3, storage xyz[3]); Vector3, Point3, Normal3, Color3 inherit it. *)
Record vec3 := V3 { vx : R; vy : R; vz : R }.
(** vector.h:818-1231 (Vec4, storage xyzw[4]). *)
Record vec4 := V4 { wx : R; wy : R; wz : R; ww : R }.

(** vector.h:37-41 / 326-331 : broadcast constructors. *)
Definition V2c (c : R) : vec2 := V2 c c.
Definition V3c (c : R) : vec3 := V3 c c c.

(** vector.h:49-55, 57-63, 65-71, 106-112. *)
Definition add2 (a b : vec2) : vec2 := V2 (x2 a + x2 b) (y2 a + y2 b).
Definition sub2 (a b : vec2) : vec2 := V2 (x2 a - x2 b) (y2 a - y2 b).
Definition scale2 (a : vec2) (c : R) : vec2 := V2 (x2 a * c) (y2 a * c).
Definition neg2 (a : vec2) : vec2 := V2 (- x2 a) (- y2 a).
(** vector.h:187-191, 194-197, 211-214. *)
Definition dot2 (a b : vec2) : R := x2 b * x2 a + y2 b * y2 a.
Definition cross2 (a b : vec2) : R := x2 a * y2 b - y2 a * x2 b.
Definition sqrNorm2 (a : vec2) : R := x2 a * x2 a + y2 a * y2 a.

(** vector.h:347-354 *)
Definition vadd (a b : vec3) : vec3 := V3 (vx a + vx b) (vy a + vy b) (vz a + vz b).
(** vector.h:356-363 *)
Definition vsub (a b : vec3) : vec3 := V3 (vx a - vx b) (vy a - vy b) (vz a - vz b).
(** vector.h:365-372 component-wise product *)
Definition vmul (a b : vec3) : vec3 := V3 (vx a * vx b) (vy a * vy b) (vz a * vz b).
(** vector.h:374-381 component-wise quotient *)
Definition vdivv (a b : vec3) : vec3 := V3 (vx a / vx b) (vy a / vy b) (vz a / vz b).
(** vector.h:383-390 *)
Definition vscale (a : vec3) (c : R) : vec3 := V3 (vx a * c) (vy a * c) (vz a * c).
(** vector.h:392-399 *)
Definition vdiv (a : vec3) (c : R) : vec3 := V3 (vx a / c) (vy a / c) (vz a / c).
(** vector.h:431-436 dot product, [%] *)
Definition dot (a b : vec3) : R := vx b * vx a + vy b * vy a + vz b * vz a.
(** vector.h:439-446 cross product, [^] *)
Definition cross (a b : vec3) : vec3 :=
  V3 (vy a * vz b - vz a * vy b) (vz a * vx b - vx a * vz b) (vx a * vy b - vy a * vx b).
(** vector.h:448-455 *)
Definition vneg (a : vec3) : vec3 := V3 (- vx a) (- vy a) (- vz a).

(** vector.h:457-462, 471-476, 485-490, 499-504: all components must compare. *)
Definition vlt (a b : vec3) : Prop := vx a < vx b /\ vy a < vy b /\ vz a < vz b.
Definition vgt (a b : vec3) : Prop := vx a > vx b /\ vy a > vy b /\ vz a > vz b.
Definition vle (a b : vec3) : Prop := vx a <= vx b /\ vy a <= vy b /\ vz a <= vz b.
Definition vge (a b : vec3) : Prop := vx a >= vx b /\ vy a >= vy b /\ vz a >= vz b.
(** vector.h:513-518 *)
Definition veqb (a b : vec3) : Prop := vx a = vx b /\ vy a = vy b /\ vz a = vz b.
(** vector.h:527-532 (operator!=): conjunction of component inequalities, as written. *)
Definition vneb (a b : vec3) : Prop := vx a <> vx b /\ vy a <> vy b /\ vz a <> vz b.

(** vector.h:541-546 *)
Definition sqrNorm (a : vec3) : R := vx a * vx a + vy a * vy a + vz a * vz a.
(** vector.h:548-553 *)
Definition norm (a : vec3) : R := sqrt (vx a * vx a + vy a * vy a + vz a * vz a).
(** vector.h:555-563 *)
Definition normalized (a : vec3) : vec3 :=
  let n := norm a in V3 (vx a / n) (vy a / n) (vz a / n).

(** vector.h:572-575 operator()(int); index outside 0..2 is out of bounds (callers pass 0,1,2). *)
Definition vget (a : vec3) (i : nat) : R :=
  match i with O => vx a | S O => vy a | _ => vz a end.

(** vector.h:577-597 (operator~) component-wise absolute value by comparison with 0. *)
Definition vabs_tilde (a : vec3) : vec3 :=
  V3 (if Rlt_dec (vx a) 0 then - vx a else vx a)
     (if Rlt_dec (vy a) 0 then - vy a else vy a)
     (if Rlt_dec (vz a) 0 then - vz a else vz a).
(** vector.h:711-716 *)
Definition vabs (a : vec3) : vec3 := V3 (Rabs (vx a)) (Rabs (vy a)) (Rabs (vz a)).

(** the ternary used by min: [if (a < b) a else b] *)
Definition pick_lt (a b : R) : R := if Rlt_dec a b then a else b.
(** the ternary used by max: [if (a > b) a else b] *)
Definition pick_gt (a b : R) : R := if Rgt_dec a b then a else b.

(** vector.h:599-619 *)
Definition vmin (a b : vec3) : vec3 :=
  V3 (pick_lt (vx a) (vx b)) (pick_lt (vy a) (vy b)) (pick_lt (vz a) (vz b)).
(** vector.h:621-641 *)
Definition vminc (a : vec3) (v : R) : vec3 :=
  V3 (pick_lt (vx a) v) (pick_lt (vy a) v) (pick_lt (vz a) v).
(** vector.h:655-675 *)
Definition vmax (a b : vec3) : vec3 :=
  V3 (pick_gt (vx a) (vx b)) (pick_gt (vy a) (vy b)) (pick_gt (vz a) (vz b)).
(** vector.h:677-697 *)
Definition vmaxc (a : vec3) (v : R) : vec3 :=
  V3 (pick_gt (vx a) v) (pick_gt (vy a) v) (pick_gt (vz a) v).

(** vector.h:643-653: [if (min_val > x) min_val = x] twice *)
Definition vmin_val (a : vec3) : R :=
  let m := vx a in
  let m := if Rgt_dec m (vy a) then vy a else m in
  if Rgt_dec m (vz a) then vz a else m.
(** vector.h:699-709 (max()): the comparisons are [max_val > ...], exactly as in min(). *)
Definition vmax_val (a : vec3) : R :=
  let m := vx a in
  let m := if Rgt_dec m (vy a) then vy a else m in
  if Rgt_dec m (vz a) then vz a else m.
(** vector.h:725-733 *)
Definition maxValue (a : vec3) : R :=
  let v := vx a in
  let v := if Rgt_dec (vy a) v then vy a else v in
  if Rgt_dec (vz a) v then vz a else v.
(** vector.h:735-743 *)
Definition minValue (a : vec3) : R :=
  let v := vx a in
  let v := if Rlt_dec (vy a) v then vy a else v in
  if Rlt_dec (vz a) v then vz a else v.

(** vector.h:745-754 *)
Definition maxIndex (a : vec3) : nat :=
  if Rgt_dec (vx a) (vy a) then
    if Rgt_dec (vx a) (vz a) then 0%nat
    else if Rgt_dec (vy a) (vx a) then (if Rgt_dec (vy a) (vz a) then 1%nat else 2%nat) else 2%nat
  else if Rgt_dec (vy a) (vx a) then (if Rgt_dec (vy a) (vz a) then 1%nat else 2%nat) else 2%nat.
(** vector.h:756-765 *)
Definition minIndex (a : vec3) : nat :=
  if Rlt_dec (vx a) (vy a) then
    if Rlt_dec (vx a) (vz a) then 0%nat
    else if Rlt_dec (vy a) (vx a) then (if Rlt_dec (vy a) (vz a) then 1%nat else 2%nat) else 2%nat
  else if Rlt_dec (vy a) (vx a) then (if Rlt_dec (vy a) (vz a) then 1%nat else 2%nat) else 2%nat.
(** vector.h:767-776 *)
Definition maxAbsIndex (a : vec3) : nat := maxIndex (vabs a).
(** vector.h:778-787 *)
Definition minAbsIndex (a : vec3) : nat := minIndex (vabs a).

(** vector.h:789-794 *)
Definition isZero (a : vec3) : Prop :=
  Rabs (vx a) < 1 / 10000 /\ Rabs (vy a) < 1 / 10000 /\ Rabs (vz a) < 1 / 10000.
Definition isZero_dec (a : vec3) : {isZero a} + {~ isZero a}.
Proof.
  unfold isZero.
  destruct (Rlt_dec (Rabs (vx a)) (1 / 10000)) as [h1|h1];
  destruct (Rlt_dec (Rabs (vy a)) (1 / 10000)) as [h2|h2];
  destruct (Rlt_dec (Rabs (vz a)) (1 / 10000)) as [h3|h3];
  try (left; repeat split; assumption); right; intros [? [? ?]]; contradiction.
Defined.

(** vector.h:869-880 *)
Definition V4_of3 (a : vec3) (w : R) : vec4 := V4 (vx a) (vy a) (vz a) w.
Definition head4 (a : vec4) : vec3 := V3 (wx a) (wy a) (wz a).
