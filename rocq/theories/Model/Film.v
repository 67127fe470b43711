(** src/integrators/integrator.cpp (Integrator::render, render_fast) and
    src/misc/render_pool.cpp (RenderTile::evaluate, result normalisation): film accumulation. *)
From Coq Require Import Reals ZArith List Bool.
From Flocq Require Import Core.Raux.
From Verif.Base Require Import Outcome Loops.
From Verif.Model Require Import Vec Tiles Locks.
Import ListNotations.
Open Scope R_scope.

(** bbox.h:392-402 (BBox2::clip), one axis: lower bound then upper bound. *)
Definition clip_lo (v n_min : R) : R := if Rlt_dec v n_min then n_min else v.
Definition clip_hi (v n_max : R) : R := if Rgt_dec v n_max then n_max else v.

(** integrator.cpp:80-90 / render_pool.cpp:56-71, one axis: the pixel coordinates visited by
    [for (f = floor(min); f <= floor(max); ++f)] after clipping to [0, n - 1]. *)
Definition footprint (n : Z) (p size : R) : list Z :=
  zrange_le (Zfloor (clip_lo (p - size) 0)) (Zfloor (clip_hi (p + size) (IZR (n - 1)))).

Section Render.
(** The sampler state and its next2D(), the camera/integrator pair evaluated on a pixel
    sample (camera->sampleRay(...) times Li(...), which may draw from the sampler), the
    filter's size and evaluate(): all outside this model, hence arbitrary. *)
Variable S : Type.
Variable next2D : S -> vec2 * S.
Variable radiance_of : S -> vec2 -> vec2 -> vec3 * S.
Variable fsize : vec2.
Variable feval : vec2 -> R.

(** integrator.cpp:92-93 / render_pool.cpp:73-74 *)
Definition splat_weight (ps : vec2) (x y : Z) : R :=
  feval (sub2 (V2 (IZR x + 1 / 2) (IZR y + 1 / 2)) ps).

(** integrator.cpp:86-101 / render_pool.cpp:67-88: the pixels visited, rows outside, with
    their weight. *)
Definition splat (w h : Z) (ps : vec2) : list (Z * Z * R) :=
  flat_map (fun fi =>
    map (fun fj => (fj, fi, splat_weight ps fj fi)) (footprint w (x2 ps) (x2 fsize)))
    (footprint h (y2 ps) (y2 fsize)).

(** Image and filter-weight buffers of Integrator::render.  The storage layout of
    imedit::Image is outside the repository; an access outside the film is [UB]. *)
Record film := Film { img : Z -> Z -> vec3; wgt : Z -> Z -> R }.

Definition in_filmb (w h x y : Z) : bool :=
  ((0 <=? x)%Z && (x <? w)%Z && (0 <=? y)%Z && (y <? h)%Z)%bool.

Definition set2 {A} (f : Z -> Z -> A) (x y : Z) (v : A) : Z -> Z -> A :=
  fun x' y' => if ((x' =? x)%Z && (y' =? y)%Z)%bool then v else f x' y'.

(** integrator.cpp:95-99 *)
Definition add_pixel (w h : Z) (rad : vec3) (f : film) (u : Z * Z * R) : outcome film :=
  let '(x, y, wt) := u in
  if in_filmb w h x y then
    Ok (Film (set2 (img f) x y (vadd (img f x y) (vscale rad wt)))
             (set2 (wgt f) x y (wgt f x y + wt)))
  else UB.

(** integrator.cpp:54-103: one iteration of the innermost loop, for pixel (j, i). *)
Definition take_sample (s : S) (pix : Z * Z) : vec2 * vec3 * S :=
  let '(j, i) := pix in
  let '(u, s1) := next2D s in
  let ps := V2 (IZR j + x2 u) (IZR i + y2 u) in
  let '(a, s2) := next2D s1 in
  let '(rad, s3) := radiance_of s2 ps a in
  (ps, rad, s3).

Definition render_body (w h : Z) (st : film * S) (pix : Z * Z) : outcome (film * S) :=
  let '(f, s) := st in
  let '(ps, rad, s') := take_sample s pix in
  bind (foldM (add_pixel w h rad) (splat w h ps) f) (fun f' => Ok (f', s')).

(** integrator.cpp:48-52: order in which pixels are visited, k outermost, then rows, columns. *)
Definition pixel_order (spp w h : Z) : list (Z * Z) :=
  flat_map (fun k => flat_map (fun i => map (fun j => (j, i)) (zrange 0 w)) (zrange 0 h)) (zrange 0 spp).

(** integrator.cpp:108-127: divide by the accumulated weight, zero weight gives black. *)
Definition finish_pixel (f : film) (x y : Z) : vec3 :=
  if Req_EM_T (wgt f x y) 0 then V3 0 0 0 else vdiv (img f x y) (wgt f x y).

(** integrator.cpp:39-130.  [img0] is the previous content of the image (cleared at line 44).
    Simplified: film size and image size are the same w, h (scene.cpp sizes the image from
    the film); clock macros are modelled in Model/ClockProg.v; the nan/inf logging is dropped. *)
Definition render (spp w h : Z) (img0 : Z -> Z -> vec3) (s : S) : outcome ((Z -> Z -> vec3) * S) :=
  let cleared := Film (fun _ _ => V3 0 0 0) (fun _ _ => 0) in
  bind (foldM (render_body w h) (pixel_order spp w h) (cleared, s))
       (fun '(f, s') =>
          Ok (fun x y => if in_filmb w h x y then finish_pixel f x y else img0 x y, s')).

(** ** Multi-threaded version *)

(** render_pool.cpp:29-33: visiting order inside a tile: rows, columns, then samples. *)
Definition tile_order (spp : Z) (t : tile) : list (Z * Z) :=
  flat_map (fun i => flat_map (fun j => map (fun _ => (j, i)) (zrange 0 spp))
    (zrange (t_minx t) (t_maxx t))) (zrange (t_miny t) (t_maxy t)).

(** The samples drawn while visiting a list of pixels, in order. *)
Fixpoint draw (pixels : list (Z * Z)) (s : S) : list (vec2 * vec3) :=
  match pixels with
  | [] => []
  | pix :: rest => let '(ps, rad, s') := take_sample s pix in (ps, rad) :: draw rest s'
  end.

(** render_pool.cpp:76-86: the critical section for one splatted pixel. *)
Definition splat_section (w : Z) (rad : vec3) (u : Z * Z * R) : section :=
  let '(x, y, wt) := u in
  CS (y * w + x)%Z
     [ (CImg x y 0, vx rad * wt); (CImg x y 1, vy rad * wt); (CImg x y 2, vz rad * wt);
       (CW (y * w + x)%Z, wt) ].

(** render_pool.cpp:18-100: the sequence of critical sections executed by the worker of one
    tile with its private sampler [s].  (Index safety is Props/Film.v, splat_in_film.) *)
Definition tile_program (spp w h : Z) (t : tile) (s : S) : list section :=
  flat_map (fun e => map (splat_section w (snd e)) (splat w h (fst e))) (draw (tile_order spp t) s).

(** Shared memory at the start: render_pool.cpp:155-160 zeroes the weights; the image is NOT
    cleared (integrator.cpp:27-37 has no clear either). *)
Definition pool_mem (img0 : Z -> Z -> vec3) : cell -> R :=
  fun c => match c with
           | CImg x y 0 => vx (img0 x y)
           | CImg x y 1 => vy (img0 x y)
           | CImg x y _ => vz (img0 x y)
           | CW _ => 0
           end.

(** render_pool.cpp:229-243 *)
Definition pool_finish (w : Z) (m : cell -> R) (x y : Z) : vec3 :=
  let c := V3 (m (CImg x y 0)) (m (CImg x y 1)) (m (CImg x y 2)) in
  let wt := m (CW (y * w + x)%Z) in
  if Req_EM_T wt 0 then c else vdiv c wt.

End Render.

(** ** Reconstruction filters *)

(** box_filter.cpp:25-32 *)
Definition box_eval (size p : vec2) : R :=
  if Rlt_dec (Rabs (x2 p)) (x2 size) then
    if Rlt_dec (Rabs (y2 p)) (y2 size) then 1 else 0
  else 0.
(** box_filter.cpp:13-16 *)
Definition box_default_size : vec2 := V2 (1 / 2) (1 / 2).

(** gauss_filter.cpp:29-40 *)
Definition gauss_alpha (std_dev : R) : R := -1 / (2 * std_dev * std_dev).
Definition gauss_coeff (std_dev r : R) : R := exp (gauss_alpha std_dev * r * r).
(** gauss_filter.cpp:42-52 *)
Definition gauss_eval (std_dev : R) (size p : vec2) : R :=
  Rmax 0 (exp (gauss_alpha std_dev * x2 p * x2 p) - gauss_coeff std_dev (x2 size)) *
  Rmax 0 (exp (gauss_alpha std_dev * y2 p * y2 p) - gauss_coeff std_dev (y2 size)).
(** gauss_filter.cpp:13-16 with recon_filter.h:22 and vector.h:25-29: size is left (0, 0). *)
Definition gauss_default_size : vec2 := V2 0 0.
