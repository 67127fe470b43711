(** include/feign/math/bbox.h, include/feign/math/ray.h *)
From Coq Require Import Reals List Bool.
From Coquelicot Require Import Rbar.
From Verif.Model Require Import Vec.
Import ListNotations.
Open Scope R_scope.

(** src/math/ray.cpp:13-61, include/feign/math/ray.h:17-33.  near/far may be infinite; the
    depth counter is not used by any modelled function and is left out. *)
Record ray := Ray { org : vec3; dir : vec3; rnear : Rbar; rfar : Rbar }.
(** ray.cpp:51-54 *)
Definition ray_at (r : ray) (t : R) : vec3 := vadd (org r) (vscale (dir r) t).

(** extended vectors: a default-constructed or reset box holds infinities *)
Record evec := EV { ex : Rbar; ey : Rbar; ez : Rbar }.
Definition ev (v : vec3) : evec := EV (vx v) (vy v) (vz v).
(** Vec3::min / Vec3::max (vector.h:599-619, 655-675) with infinities *)
Definition emin1 (a b : Rbar) : Rbar := if Rbar_lt_dec a b then a else b.
Definition emax1 (a b : Rbar) : Rbar := if Rbar_lt_dec b a then a else b.
Definition emin (a b : evec) : evec := EV (emin1 (ex a) (ex b)) (emin1 (ey a) (ey b)) (emin1 (ez a) (ez b)).
Definition emax (a b : evec) : evec := EV (emax1 (ex a) (ex b)) (emax1 (ey a) (ey b)) (emax1 (ez a) (ez b)).

(** bbox.h:17-292 *)
Record ebox := EB { emn : evec; emx : evec }.
(** bbox.h:276-280, also the default constructor 20-23 *)
Definition ebox_reset : ebox := EB (EV p_infty p_infty p_infty) (EV m_infty m_infty m_infty).
(** bbox.h:25-29 *)
Definition ebox_point (p : vec3) : ebox := EB (ev p) (ev p).
(** bbox.h:113-117 *)
Definition ebox_expand (b : ebox) (p : vec3) : ebox := EB (emin (emn b) (ev p)) (emax (emx b) (ev p)).
(** bbox.h:119-124 *)
Definition ebox_expand_box (b c : ebox) : ebox := EB (emin (emn b) (emn c)) (emax (emx b) (emx c)).
(** bbox.h:126-133 *)
Definition ebox_merge (a b : ebox) : ebox := EB (emin (emn a) (emn b)) (emax (emx a) (emx b)).

(** finite boxes *)
Record bbox := BB { bmn : vec3; bmx : vec3 }.
(** bbox.h:66-69 *)
Definition bb_contains (b : bbox) (p : vec3) : Prop := vgt p (bmn b) /\ vlt p (bmx b).
(** bbox.h:71-74 *)
Definition bb_contains_on (b : bbox) (p : vec3) : Prop := vge p (bmn b) /\ vle p (bmx b).
(** bbox.h:91-94 *)
Definition bb_overlaps (b c : bbox) : Prop := vle (bmn c) (bmn b) /\ vge (bmx c) (bmx b).
(** bbox.h:108-111 *)
Definition bb_extents (b : bbox) : vec3 := vsub (bmx b) (bmn b).
(** bbox.h:61-64 *)
Definition bb_center (b : bbox) : vec3 := vscale (vadd (bmx b) (bmn b)) (1 / 2).
(** bbox.h:52-59 *)
Definition bb_area (b : bbox) : R :=
  let d := vsub (bmx b) (bmn b) in 2 * (vy d * vz d + vx d * vz d + vx d * vy d).

(** bbox.h:176-203, one iteration of the loop: [None] is [return false]. *)
Definition slab_step (o mn mx d : R) (acc : Rbar * Rbar) : option (Rbar * Rbar) :=
  if Req_EM_T d 0 then
    if Rlt_dec o mn then None else if Rgt_dec o mx then None else Some acc
  else
    let t1 := (mn - o) * (1 / d) in
    let t2 := (mx - o) * (1 / d) in
    let (t1, t2) := if Rgt_dec t1 t2 then (t2, t1) else (t1, t2) in
    let near := emax1 (Finite t1) (fst acc) in
    let far := emin1 (Finite t2) (snd acc) in
    if Rbar_le_dec near far then Some (near, far) else None.

(** bbox.h:171-204: answer and the two reference parameters.  On an early [return false] the
    reference parameters hold intermediate values, which are not modelled ([None]).
    The other overload (135-168) computes the same answer with local variables. *)
Definition bb_slab (b : bbox) (r : ray) : option (Rbar * Rbar) :=
  match slab_step (vx (org r)) (vx (bmn b)) (vx (bmx b)) (vx (dir r)) (m_infty, p_infty) with
  | None => None
  | Some a =>
    match slab_step (vy (org r)) (vy (bmn b)) (vy (bmx b)) (vy (dir r)) a with
    | None => None
    | Some a => slab_step (vz (org r)) (vz (bmn b)) (vz (bmx b)) (vz (dir r)) a
    end
  end.
Definition bb_intersect (b : bbox) (r : ray) : bool :=
  match bb_slab b r with
  | None => false
  | Some (near, far) =>
    (if Rbar_le_dec (rnear r) far then true else false) && (if Rbar_le_dec near (rfar r) then true else false)
  end.

(** bbox.h:206-240 *)
Definition split_into_eight (b : bbox) : list bbox :=
  let half := vadd (vdiv (bb_extents b) 2) (bmn b) in
  let mn := bmn b in let mx := bmx b in
  [ BB (V3 (vx mn) (vy mn) (vz mn)) (V3 (vx half) (vy half) (vz half));
    BB (V3 (vx mn) (vy half) (vz mn)) (V3 (vx half) (vy mx) (vz half));
    BB (V3 (vx mn) (vy mn) (vz half)) (V3 (vx half) (vy half) (vz mx));
    BB (V3 (vx mn) (vy half) (vz half)) (V3 (vx half) (vy mx) (vz mx));
    BB (V3 (vx half) (vy mn) (vz mn)) (V3 (vx mx) (vy half) (vz half));
    BB (V3 (vx half) (vy half) (vz mn)) (V3 (vx mx) (vy mx) (vz half));
    BB (V3 (vx half) (vy mn) (vz half)) (V3 (vx mx) (vy half) (vz mx));
    BB (V3 (vx half) (vy half) (vz half)) (V3 (vx mx) (vy mx) (vz mx)) ].

(** bbox.h:242-245 *)
Definition bb_sample (b : bbox) (s : vec3) : vec3 := vmul (vsub (bmx b) (bmn b)) s.
(** bbox.h:247-252 *)
Definition bb_sample3 (b : bbox) (x y z : R) : vec3 :=
  V3 ((vx (bmx b) - vx (bmn b)) * x) ((vy (bmx b) - vy (bmn b)) * y) ((vz (bmx b) - vz (bmn b)) * z).
(** bbox.h:254-259 *)
Definition bb_local (b : bbox) (p : vec3) : vec3 :=
  V3 ((vx p - vx (bmn b)) / (vx (bmx b) - vx (bmn b)))
     ((vy p - vy (bmn b)) / (vy (bmx b) - vy (bmn b)))
     ((vz p - vz (bmn b)) / (vz (bmx b) - vz (bmn b))).
(** bbox.h:261-274: all three use the x extent, as written. *)
Definition bb_sample_x (b : bbox) (x : R) : R := (vx (bmx b) - vx (bmn b)) * x.
Definition bb_sample_y (b : bbox) (y : R) : R := (vx (bmx b) - vx (bmn b)) * y.
Definition bb_sample_z (b : bbox) (z : R) : R := (vx (bmx b) - vx (bmn b)) * z.
