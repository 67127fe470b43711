(** src/bsdfs/*.cpp and the helper functions of include/feign/common.h they use. *)
From Coq Require Import Reals List Bool ZArith.
From Flocq Require Import Core.Raux.
From Verif.Model Require Import Vec Frame BBox Warp Integrators.
Import ListNotations.
Open Scope R_scope.

(** common.h:173-209.  [None] is NaN (0/0 for a grazing direction).  The unused cosThetaT of line
    203 is omitted. *)
Definition fresnel (cos_theta ext_ior int_ior : R) : option R :=
  if Req_EM_T ext_ior int_ior then Some 0 else
  let '(etaI, etaT, c) := if Rlt_dec cos_theta 0 then (int_ior, ext_ior, - cos_theta)
                          else (ext_ior, int_ior, cos_theta) in
  let eta := etaI / etaT in
  let sinThetaTSqr := eta * eta * (1 - c * c) in
  if Rgt_dec sinThetaTSqr 1 then Some 1 else
  if Req_EM_T (etaI * c + etaT * c) 0 then None else
  let Rs := (etaI * c - etaT * c) / (etaI * c + etaT * c) in
  let Rp := (etaT * c - etaI * c) / (etaT * c + etaI * c) in
  Some ((Rs * Rs + Rp * Rp) / 2).

(** [sample < prob]; comparisons with NaN are false *)
Definition ltb_nan (x : R) (p : option R) : bool :=
  match p with Some y => if Rlt_dec x y then true else false | None => false end.

(** common.h:242-247 *)
Definition SQRT (v : R) : R := if Rlt_dec v Epsilon then 0 else sqrt v.
(** common.h:226-233 *)
Definition clamp (proxy lo hi : R) : R :=
  if Rlt_dec proxy lo then lo else if Rgt_dec proxy hi then hi else proxy.
(** common.h:221-224 *)
Definition interp (x y proxy : R) : R := x * (1 - proxy) + proxy * y.

(** std::pow for a non-negative base and exponent; pow(0, 0) = 1 *)
Definition pow_nn (x y : R) : R := if Req_EM_T y 0 then 1 else rpow x y.
(** std::powf for a non-negative exponent: a negative base gives NaN unless the exponent is an integer *)
Definition powf (x y : R) : option R :=
  if Rlt_dec x 0 then if Req_EM_T y (IZR (Zfloor y)) then Some (powerRZ x (Zfloor y)) else None
  else Some (pow_nn x y).

(** include/feign/core/bsdf.h:38-233.  Phong's constructor (phong.cpp:16-20) scales its parameter
    ks and leaves the member as given. *)
Inductive bsdf :=
| Diffuse (albedo : vec3)
| Mirror (albedo : vec3)
| Dielectric (int_ior ext_ior : R) (albedo : vec3)
| OneWay (int_ior ext_ior : R) (albedo : vec3)
| NullBsdf
| Phong (kd : vec3) (ks exponent : R)
| Blinn (kd ks : vec3) (exponent : R).

Definition mk_phong (kd : vec3) (ks exponent : R) : bsdf :=
  let _ := ks * (1 - maxValue kd) in Phong kd ks exponent.

(** bsdf.h: isDelta of each class *)
Definition isDelta (b : bsdf) : bool :=
  match b with
  | Mirror _ | Dielectric _ _ _ | OneWay _ _ _ | NullBsdf => true
  | Diffuse _ | Phong _ _ _ | Blinn _ _ _ => false
  end.

(** assignments to the closure *)
Definition put (c : closure) (wo albedo : vec3) (pdf eta : R) (spec accepts : bool) : closure :=
  Closure (c_wi c) wo (c_shadow c) albedo (c_emission c) (c_nee c) pdf eta
          spec (c_last_spec c) (c_all c) accepts.
Definition put_albedo (c : closure) (albedo : vec3) : closure :=
  put c (c_wo c) albedo (c_pdf c) (c_eta c) (c_spec c) (c_accepts c).
(** albedo black, pdf 0 *)
Definition kill (c : closure) : closure := put c (c_wo c) (V3c 0) 0 (c_eta c) (c_spec c) (c_accepts c).

(** dielectric.cpp:42-44: reflection about the normal *)
Definition mirrored (w : vec3) : vec3 := V3 (- vx w) (- vy w) (vz w).
(** dielectric.cpp:51-64, one_way_dielectric.cpp:58-71; [root] is SQRT or sqrt *)
Definition refracted (root : R -> R) (wi : vec3) (eta : R) : vec3 :=
  let wr := V3 (- vx wi) (- vy wi) 0 in
  let wtperp := vscale wr eta in
  let wtpara := V3 0 0 (- root (1 - sqrNorm wtperp)) in
  let wo := vadd wtperp wtpara in
  if Rlt_dec (vz wi) (- Epsilon) then V3 (vx wo) (vy wo) (- vz wo) else wo.

(** phong.cpp:40, 64, 81 *)
Definition phong_wr (wi : vec3) : vec3 := vsub (V3 0 0 (2 * vz wi)) wi.
(** kd / pi + ks (exponent + 2) / (2 pi) * p *)
Definition phong_value (kd : vec3) (ks exponent p : R) : vec3 :=
  vadd (vscale kd (1 / PI)) (V3c (ks * (exponent + 2) * (1 / (2 * PI)) * p)).
Definition blinn_value (kd ks : vec3) (exponent p : R) : vec3 :=
  vadd (vscale kd (1 / PI)) (vscale (vscale (vscale ks (exponent + 2)) (1 / (2 * PI))) p).

(** phong.cpp:34-59: the direction chosen for a random point *)
Definition phong_dir (ks exponent : R) (wi : vec3) (u : vec2) : vec3 :=
  if Rlt_dec (x2 u) ks
  then toWorld (frame_of (phong_wr wi)) (sqrToCosPowHemi (V2 (x2 u / ks) (y2 u)) exponent)
  else sqrToCosHemi (V2 ((x2 u - ks) / (1 - ks)) (y2 u)).
(** phong.cpp:64-74 *)
Definition phong_pdf (ks exponent : R) (wi wo : vec3) : R :=
  (1 - ks) * sqrToCosHemiPdf wo +
  ks * sqrToCosPowHemiPdf (toLocal (frame_of (phong_wr wi)) wo) exponent.
(** blinn.cpp:34-55 *)
Definition blinn_dir (ks : vec3) (exponent : R) (wi : vec3) (u : vec2) : vec3 :=
  let k := maxValue ks in
  if Rlt_dec (x2 u) k
  then let wh := sqrToCosPowHemi (V2 (x2 u / k) (y2 u)) exponent in
       vsub (vscale (vscale wh 2) (dot wh wi)) wi
  else sqrToCosHemi (V2 ((x2 u - k) / (1 - k)) (y2 u)).
(** blinn.cpp:71-81, [wh] normalised *)
Definition blinn_pdf (ks : vec3) (exponent : R) (wh wo : vec3) : R :=
  let k := maxValue ks in
  let val := toLocal (frame_of wh) wo in
  let dotProd := Rmax (dot wh wo) Epsilon in
  (1 - k) * sqrToCosHemiPdf val + k * sqrToCosPowHemiPdf val exponent * (1 / (4 * dotProd)).

(** sample *)
Definition bsdf_sample (b : bsdf) (c : closure) : query closure :=
  match b with
  | Diffuse a =>                                                        (* diffuse.cpp:20-34 *)
      if Rle_dec (cosTheta (c_wi c)) 0 then QRet (kill c)
      else QRand2 (fun u =>
             let wo := sqrToCosHemi u in
             QRet (put c wo (vscale a (1 / PI)) (1 / PI * cosTheta wo) 1 (c_spec c) (c_accepts c)))
  | Mirror a =>                                                         (* mirror.cpp:18-39 *)
      if Rle_dec (cosTheta (c_wi c)) 0 then QRet (kill c)
      else QRet (put c (mirrored (c_wi c)) a 1 1 (c_spec c) (c_accepts c))
  | Dielectric int_ior ext_ior a =>                                     (* dielectric.cpp:18-69 *)
      QRand1 (fun u =>
        let eta := if Rlt_dec (cosTheta (c_wi c)) 0 then int_ior / ext_ior else ext_ior / int_ior in
        if ltb_nan u (fresnel (cosTheta (c_wi c)) ext_ior int_ior)
        then QRet (put c (mirrored (c_wi c)) a 1 1 (c_spec c) (c_accepts c))
        else QRet (put c (refracted SQRT (c_wi c) eta) a 1 eta (c_spec c) (c_accepts c)))
  | OneWay int_ior ext_ior a =>                                         (* one_way_dielectric.cpp:21-76 *)
      QRand1 (fun u =>
        let exiting := if Rlt_dec (cosTheta (c_wi c)) 0 then true else false in
        let eta := if exiting then int_ior / ext_ior else ext_ior / int_ior in
        if (ltb_nan u (fresnel (cosTheta (c_wi c)) ext_ior int_ior) || exiting)%bool
        then QRet (put c (mirrored (c_wi c)) a 1 1 (c_spec c) (c_accepts c))
        else QRet (put c (refracted sqrt (c_wi c) eta) a 1 eta (c_spec c) (c_accepts c)))
  | NullBsdf =>                                                         (* null.cpp:18-29 *)
      QRet (put c (vneg (c_wi c)) (V3c 1) (c_pdf c) 1 (c_spec c) false)
  | Phong kd ks exponent =>                                             (* phong.cpp:23-77 *)
      if Rle_dec (cosTheta (c_wi c)) 0 then QRet (kill c)
      else QRand2 (fun u =>
             let wo := phong_dir ks exponent (c_wi c) u in
             let dotProd := Rmax (dot (phong_wr (c_wi c)) wo) Epsilon in
             QRet (put c wo (phong_value kd ks exponent (pow_nn dotProd exponent))
                       (phong_pdf ks exponent (c_wi c) wo) 1 false (c_accepts c)))
  | Blinn kd ks exponent =>                                             (* blinn.cpp:23-84 *)
      if Rle_dec (cosTheta (c_wi c)) 0 then QRet (kill c)
      else QRand2 (fun u =>
             let wo := blinn_dir ks exponent (c_wi c) u in
             let eta := if Rlt_dec (x2 u) (maxValue ks) then 1 else c_eta c in
             let wh := vadd (c_wi c) wo in
             if Rlt_dec (norm wh) Epsilon
             then QRet (put c wo (V3c 0) 0 eta false (c_accepts c))
             else let wh := normalized wh in
                  QRet (put c wo (blinn_value kd ks exponent (pow_nn (Rmax (vz wh) 0) exponent))
                            (blinn_pdf ks exponent wh wo) eta false (c_accepts c)))
  end.

(** evaluate; [None]: the albedo is NaN *)
Definition bsdf_value (b : bsdf) (wi wo : vec3) : option vec3 :=
  match b with
  | Diffuse a =>                                                        (* diffuse.cpp:36-47 *)
      if Rle_dec (cosTheta wi) 0 then Some (V3c 0) else
      if Rle_dec (cosTheta wo) 0 then Some (V3c 0) else Some (vscale a (1 / PI))
  | Mirror a => if Rle_dec (cosTheta wi) 0 then Some (V3c 0) else Some a (* mirror.cpp:41-51 *)
  | Dielectric _ _ a | OneWay _ _ a => Some a                           (* dielectric.cpp:71-74 *)
  | NullBsdf => Some (V3c 1)                                            (* null.cpp:32-35 *)
  | Phong kd ks exponent =>                                             (* phong.cpp:79-84 *)
      match powf (dot wo (phong_wr wi)) exponent with
      | Some p => Some (phong_value kd ks exponent p)
      | None => None
      end
  | Blinn kd ks exponent =>                                             (* blinn.cpp:86-100 *)
      if Rle_dec (cosTheta wi) 0 then Some (V3c 0) else
      let wh := normalized (vadd wo wi) in
      Some (blinn_value kd ks exponent (pow_nn (Rmax (vz wh) 0) exponent))
  end.
Definition bsdf_evaluate (b : bsdf) (c : closure) : option closure :=
  match bsdf_value b (c_wi c) (c_wo c) with
  | Some a => Some (put_albedo c a)
  | None => None
  end.
