(** Signed distance shapes (include/feign/core/sdf.h, src/shapes/sdf_*.cpp) and the sphere tracer
    over them (src/accel/ray_sdf.cpp).  Floats are reals; the unqualified [abs] of sdf_cone.cpp and
    sdf_cylinder.cpp is taken to be the floating-point overload; media boundaries, the [interp]
    field (never read) and the names are left out.  SDFOperation, SDFInteraction and their
    subclasses (sdf.h:39-327) are not constructible from the API and evaluate to 0. *)
From Coq Require Import Reals List Bool.
From Coquelicot Require Import Rbar.
From Verif.Model Require Import Vec Frame BBox Integrators.
Import ListNotations.
Open Scope R_scope.

(** include/feign/common.h:226-233 *)
Definition clamp (proxy mn mx : R) : R :=
  if Rlt_dec proxy mn then mn else if Rgt_dec proxy mx then mx else proxy.
(** common.h:235-240 *)
Definition sgn (v : R) : R := if Rlt_dec v 0 then -1 else 1.
(** common.h:221-224 *)
Definition interp (x y proxy : R) : R := x * (1 - proxy) + proxy * y.

(** the five concrete classes, with their constructor arguments:
    sdf.h:333-379, 385-431, 437-479, 485-532, 538-587 *)
Inductive sdf :=
| SDFSphere (center : vec3) (radius : R)
| SDFPlane (center normal : vec3)
| SDFBox (tlc brc : vec3)
| SDFCylinder (first second : vec3) (radius : R)
| SDFCone (first second : vec3) (radius_1 radius_2 : R).

(** src/shapes/sdf_sphere.cpp:25-28 *)
Definition sphere_eval (center : vec3) (radius : R) (pt : vec3) : R := norm (vsub pt center) - radius.
(** src/shapes/sdf_plane.cpp:25-29 *)
Definition plane_eval (center normal pt : vec3) : R := Rabs (dot (vsub pt center) normal).
(** src/shapes/sdf_box.cpp:22-30; fmin/fmax of real numbers *)
Definition box_eval (tlc brc pt : vec3) : R :=
  let half_bounds := vdiv (vsub tlc brc) 2 in
  let center := vdiv (vadd tlc brc) 2 in
  let q := vsub (vabs (vsub pt center)) half_bounds in
  norm (vmaxc q 0) + Rmin (Rmax (vx q) (Rmax (vy q) (vz q))) 0.
(** src/shapes/sdf_cylinder.cpp:24-39; a zero-length axis divides by zero (hypothesis of the
    theorems) *)
Definition cylinder_eval (first second : vec3) (radius : R) (pt : vec3) : R :=
  let ba := vsub second first in
  let pa := vsub pt first in
  let baba := dot ba ba in
  let paba := dot pa ba in
  let x := norm (vsub (vscale pa baba) (vscale ba paba)) - radius * baba in
  let y := Rabs (paba - baba * (1 / 2)) - baba * (1 / 2) in
  let x2 := x * x in
  let y2 := y * y * baba in
  let d := if Rlt_dec (Rmax x y) 0 then - Rmin x2 y2
           else (if Rgt_dec x 0 then x2 else 0) + (if Rgt_dec y 0 then y2 else 0) in
  sgn d * sqrt (Rabs d) / baba.
(** src/shapes/sdf_cone.cpp:26-46 *)
Definition cone_eval (first second : vec3) (radius_1 radius_2 : R) (pt : vec3) : R :=
  let rba := radius_2 - radius_1 in
  let ba := vsub second first in
  let pa := vsub pt first in
  let baba := dot ba ba in
  let papa := dot pa pa in
  let paba := dot pa ba / baba in
  let x := sqrt (papa - paba * paba * baba) in
  let cax := Rmax 0 (x - (if Rlt_dec paba (1 / 2) then radius_1 else radius_2)) in
  let cay := Rabs (paba - 1 / 2) - 1 / 2 in
  let k := rba * rba + baba in
  let f := clamp ((rba * (x - radius_1) + paba * baba) / k) 0 1 in
  let cbx := x - radius_1 - f * rba in
  let cby := paba - f in
  let s := if Rlt_dec cbx 0 then (if Rlt_dec cay 0 then -1 else 1) else 1 in
  s * sqrt (Rmin (cax * cax + cay * cay * baba) (cbx * cbx + cby * cby * baba)).

(** the virtual call [evaluate] (sdf.h:34) *)
Definition sdf_eval (s : sdf) (pt : vec3) : R :=
  match s with
  | SDFSphere c r => sphere_eval c r pt
  | SDFPlane c n => plane_eval c n pt
  | SDFBox a b => box_eval a b pt
  | SDFCylinder a b r => cylinder_eval a b r pt
  | SDFCone a b r1 r2 => cone_eval a b r1 r2 pt
  end.

(** the virtual call [boundingBox]: sdf_sphere.cpp:30-38 and sdf_plane.cpp:31-44 through the
    (corner, width, height, depth) constructor bbox.h:31-37 (its assert needs a non-negative
    radius, a hypothesis of the theorems), the other three through the two-corner constructor bbox.h:39-43:
    sdf_box.cpp:32-36, sdf_cylinder.cpp:41-46, sdf_cone.cpp:48-55 *)
Definition sdf_bbox (s : sdf) : bbox :=
  match s with
  | SDFSphere c r => let d := 2 * r in let lo := vsub c (V3c r) in BB lo (vadd lo (V3 d d d))
  | SDFPlane c n => let lo := vsub c (V3c 5000) in BB lo (vadd lo (V3c 10000))
  | SDFBox a b => BB a b
  | SDFCylinder a b r => BB (vadd a (V3c r)) (vsub b (V3c r))
  | SDFCone a b r1 r2 => let m := Rmax r1 r2 in BB (vadd a (V3c m)) (vsub b (V3c m))
  end.

(** ray_sdf.cpp:31-39 *)
Definition sdf_build (l : list sdf) : ebox :=
  fold_left (fun b s => ebox_expand_box b (EB (ev (bmn (sdf_bbox s))) (ev (bmx (sdf_bbox s))))) l ebox_reset.

(** ray_sdf.cpp:81-111.  The accumulator is the running [min] and the [shape_index] written so
    far; [None] stands for the initial infinity with an index not yet written. *)
Fixpoint sd_fold (l : list sdf) (i : nat) (pt : vec3) (acc : option (R * nat)) : option (R * nat) :=
  match l with
  | [] => acc
  | s :: l =>
    let d := sdf_eval s pt in
    let acc := match acc with
               | None => Some (d, i)
               | Some (m, j) => if Rgt_dec m d then Some (d, i) else Some (m, j)
               end in
    sd_fold l (S i) pt acc
  end.
Definition sd_evaluate (l : list sdf) (pt : vec3) : option (R * nat) := sd_fold l 0 pt None.

(** the value alone; ray_sdf.cpp:42-79 calls it on non-empty scenes only (the caller has found a
    surface), so the infinite value of an empty scene is replaced by 0 *)
Definition sd_val (l : list sdf) (pt : vec3) : R :=
  match sd_evaluate l pt with Some (m, _) => m | None => 0 end.
(** common.h:88-90 (single precision branch) *)
Definition EPS_VEC_X : vec3 := V3 (Epsilon * 1) 0 0.
Definition EPS_VEC_Y : vec3 := V3 0 (Epsilon * 1) 0.
Definition EPS_VEC_Z : vec3 := V3 0 0 (Epsilon * 1).
(** ray_sdf.cpp:42-79 *)
Definition sd_normal (l : list sdf) (pt : vec3) : vec3 :=
  let dx := sd_val l (vadd pt EPS_VEC_X) - sd_val l (vsub pt EPS_VEC_X) in
  let dy := sd_val l (vadd pt EPS_VEC_Y) - sd_val l (vsub pt EPS_VEC_Y) in
  let dz := sd_val l (vadd pt EPS_VEC_Z) - sd_val l (vsub pt EPS_VEC_Z) in
  if Req_EM_T dx dy then
    if Req_EM_T dx dz then
      if Req_EM_T dx 0 then normalized (V3 0 1 0) else normalized (V3 dx dy dz)
    else normalized (V3 dx dy dz)
  else normalized (V3 dx dy dz).

(** ray_sdf.cpp:113-117 (called only from commented-out code) *)
Definition sd_smooth_union (d1 d2 k : R) : R :=
  let h := clamp (1 / 2 + 1 / 2 * (d2 - d1) / k) 0 1 in
  interp d2 d1 h - k * h * (1 - h).

(** bbox.h:171-204 once more, keeping what the reference parameters hold on every path: the
    first component tells whether the loop goes on. *)
Definition range_step (o mn mx d : R) (acc : bool * (Rbar * Rbar)) : bool * (Rbar * Rbar) :=
  if fst acc then
    let near := fst (snd acc) in
    let far := snd (snd acc) in
    if Req_EM_T d 0 then
      if Rlt_dec o mn then (false, (near, far)) else if Rgt_dec o mx then (false, (near, far)) else acc
    else
      let t1 := (mn - o) * (1 / d) in
      let t2 := (mx - o) * (1 / d) in
      let (t1, t2) := if Rgt_dec t1 t2 then (t2, t1) else (t1, t2) in
      let near := emax1 (Finite t1) near in
      let far := emin1 (Finite t2) far in
      if Rbar_le_dec near far then (true, (near, far)) else (false, (near, far))
  else acc.
Definition bb_range (b : bbox) (r : ray) : Rbar * Rbar :=
  snd (range_step (vz (org r)) (vz (bmn b)) (vz (bmx b)) (vz (dir r))
      (range_step (vy (org r)) (vy (bmn b)) (vy (bmx b)) (vy (dir r))
      (range_step (vx (org r)) (vx (bmn b)) (vx (bmx b)) (vx (dir r)) (true, (m_infty, p_infty))))).

(** the fields of the intersection record set by ray_sdf.cpp:164-172 *)
Record sdf_hit := SdfHit { h_t : R; h_shape : nat; h_p : vec3; h_g : frame; h_s : frame }.

(** common.h: SDF_STEPS *)
Definition SDF_STEPS : nat := 2000.

(** ray_sdf.cpp:135-180: [n] iterations are left.  An empty scene has infinite distance
    everywhere: the loop runs on with an infinite [dist] and ends with [false]. *)
Fixpoint sd_march (l : list sdf) (r : ray) (far : Rbar) (n : nat) (dist : R) : option sdf_hit :=
  match n with
  | O => None
  | S n =>
    if Rbar_le_dec (Finite dist) far then
      let p := ray_at r dist in
      match sd_evaluate l p with
      | None => None
      | Some (sd, i) =>
        if Rle_dec sd Epsilon then
          let nm := sd_normal l p in
          let g := frame_of nm in
          Some (SdfHit dist i (vadd p (vscale nm Epsilon)) g g)
        else sd_march l r far n (dist + sd)
      end
    else None
  end.
(** ray_sdf.cpp:121-135: the answer of the box test is not looked at, only the two reference
    parameters.  [near] can only be infinite when it is minus infinity (all direction components
    zero or an early return), and is then raised to Epsilon like any small value.  The box of a
    non-empty scene is finite; the empty scene never hits. *)
Definition finite_box (b : ebox) : option bbox :=
  match b with
  | EB (EV (Finite a) (Finite b) (Finite c)) (EV (Finite d) (Finite e) (Finite f)) => Some (BB (V3 a b c) (V3 d e f))
  | _ => None
  end.
Definition sd_start (near : Rbar) : R :=
  match near with Finite n => if Rlt_dec n Epsilon then Epsilon else n | _ => Epsilon end.
Definition sdf_intersect (l : list sdf) (r : ray) : option sdf_hit :=
  match finite_box (sdf_build l) with
  | None => None
  | Some b => let (near, far) := bb_range b r in sd_march l r far SDF_STEPS (sd_start near)
  end.
