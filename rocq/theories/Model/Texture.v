(** Textures: src/textures/*.cpp.  The image class belongs to a library that is not in the
    repository; an image is its size and its pixels, a read outside is [UB], and the floating point
    coordinates handed to it are truncated to integers.  [rnd] is the rounding of float arithmetic
    (the identity, or [rnd32] of Model/LightSelect.v); [None] is a coordinate that is not a number. *)
From Coq Require Import Reals ZArith List String.
From Flocq Require Import Core.
From Verif.Base Require Import Outcome.
From Verif.Model Require Import Vec.
Import ListNotations.
Local Open Scope outcome_scope.
Open Scope R_scope.

(** include/feign/common.h:163-170 *)
Definition bound (val mn mx : R) : R := if Rgt_dec val mx then mx else if Rlt_dec val mn then mn else val.
Record image := Img { iw : Z; ih : Z; px : Z -> Z -> vec3 }.
Definition img_at (im : image) (x y : Z) : outcome vec3 :=
  if ((0 <=? x) && (x <? iw im) && (0 <=? y) && (y <? ih im))%Z%bool then Ok (px im x y) else UB.

Section Rounding.
Variable rnd : R -> R.
(** image_texture.cpp:31-32 and the conversion to int in lines 45-47 *)
Definition tex_coord (u : option R) (n : Z) : outcome Z :=
  match u with
  | None => UB
  | Some u => Ok (Ztrunc (bound (rnd (u * rnd (IZR n))) 0 (rnd (IZR (n - 1)))))
  end.
(** image_texture.cpp:27-52 *)
Definition image_texture (im : image) (scale : vec3) (u v : option R) : outcome vec3 :=
  x <- tex_coord u (iw im) ;; y <- tex_coord v (ih im) ;;
  c <- img_at im x y ;; Ok (vmul c scale).
End Rounding.

(** texture.cpp:29-50: the position of pixel [j] of [n] *)
Definition pixel_pos (j n : Z) : R := IZR j / IZR n + 1 / 2 / IZR n.
(** texture.cpp:29-50: rows from the top, each from the left; as the list of the stores *)
Definition evaluate_image (tex : option R -> option R -> outcome vec3) (w h : nat) : outcome (list (nat * nat * vec3)) :=
  foldM (fun im i => foldM (fun im j =>
    c <- tex (Some (pixel_pos (Z.of_nat j) (Z.of_nat w))) (Some (pixel_pos (Z.of_nat i) (Z.of_nat h))) ;;
    Ok (im ++ [(j, i, c)])) (seq 0 w) im) (seq 0 h) [].

(** sin_texture.cpp:21-29 *)
Definition sin_texture (amp phase freq y : vec3) (u v : R) : vec3 :=
  let dist := sqrt ((1 / 2 - u) * (1 / 2 - u) + (1 / 2 - v) * (1 / 2 - v)) in
  V3 (vx amp * sin (dist * vx freq + vx phase) + vx y)
     (vy amp * sin (v * vy freq + vy phase) + vy y)
     (vz amp * sin (vz phase * vz freq) + vz y).
