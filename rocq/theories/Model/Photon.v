(** Photon mapping: src/integrators/photon.cpp, src/accel/photon_array.cpp and the emission of
    photons (src/scene.cpp:666-675, src/emitters/*.cpp: sample_ray).  Floats are reals; a power
    with a channel that is not a number is [None] (all its channels are then not a number, see
    [next_power]).  PhotonBVH (src/accel/photon_bvh.cpp) throws in build and every query and is not
    modelled further. *)
From Coq Require Import Reals List String ZArith.
From Coquelicot Require Import Rbar.
From Flocq Require Import Core.
From Verif.Base Require Import Outcome.
From Verif.Model Require Import Vec Frame BBox Warp Integrators.
Import ListNotations.
Local Open Scope outcome_scope.
Open Scope R_scope.

(** include/feign/core/accel_photons.h:21-37 *)
Record photon := Photon { ph_pos : vec3; ph_dir : vec3; ph_power : option vec3 }.
(** accel_photons.h:23-26: the default photon *)
Definition photon0 : photon := Photon (V3 0 0 0) (V3 0 1 0) (Some (V3 1 1 1)).

(** what the scattering loop needs of an intersection: position, shading frame, and whether its
    material is specular; [None] is a material whose evaluate_for_photon throws
    (simple_material.cpp:66-71, wireframe_material.cpp:84-87) *)
Record phit := PHit { ph_p : vec3; ph_frame : frame; ph_spec : option bool }.
(** emitters as seen by photon mapping: sample_ray is implemented for point lights only
    (point.cpp:51-61; environment.cpp:32, directional.cpp:39, mesh.cpp:88, directional_mesh.cpp:72,
    distant.cpp:42, interp_env.cpp:38, spot.cpp:57 throw) *)
Inductive plight := PointLight (pos inten : vec3) | OtherLight.

(** the quotient of two channels: dividing by a zero channel is 0/0 *)
Definition ratio (p old : R) : option R := if Req_EM_T old 0 then None else Some (p / old).
(** comparisons with a NaN are false *)
Definition gt_opt (a b : option R) : bool :=
  match a, b with Some x, Some y => if Rgt_dec x y then true else false | _, _ => false end.
(** vector.h:725-733 *)
Definition max_opt (a b c : option R) : option R :=
  let val := a in
  let val := if gt_opt b val then b else val in
  if gt_opt c val then c else val.
(** photon.cpp:145-148; std::min(NaN, 1) is NaN *)
Definition photon_rr (power old : vec3) : option R :=
  match max_opt (ratio (vx power) (vx old)) (ratio (vy power) (vy old)) (ratio (vz power) (vz old)) with
  | Some m => Some (Rmin m 1)
  | None => None
  end.
(** photon.cpp:149-151 with the random number [u]: [None] is the break; [Some None] continues with a
    power that is not a number (a NaN probability, or 0/0 when the probability is 0) *)
Definition next_power (power old : vec3) (u : R) : option (option vec3) :=
  match photon_rr power old with
  | None => Some None
  | Some q => if Rgt_dec u q then None else Some (if Req_EM_T q 0 then None else Some (vdiv power q))
  end.

Section Scatter.
Variable W : Type.
(** the sampler *)
Variable rnd1 : W -> R * W.
Variable rnd2 : W -> vec2 * W.
(** Scene::intersect_non_null (scene.cpp) and the sampling of the material at a hit for a local
    incident direction: local outgoing direction, albedo, pdf *)
Variable hit : ray -> option phit.
Variable bsdf : phit -> vec3 -> W -> (vec3 * vec3 * R) * W.
Variable lights : list plight.

(** photon.cpp:135-139 *)
Definition photon_cos (h : phit) (d : vec3) (spec : bool) : R :=
  let c := dot (fn (ph_frame h)) d in
  let c := if Rlt_dec c 0 then - c else c in
  if spec then 1 else c.

(** photon.cpp:92-152: [n] bounces are left; [buf] is the array, [k] the number of stored photons.
    The store is to photons[created_photons++] without a check. *)
Fixpoint photon_path (n : nat) (buf : list photon) (k : nat) (r : ray) (power : option vec3) (w : W) : outcome (list photon * nat * W) :=
  match n with
  | O => Ok (buf, k, w)
  | S n' =>
    match hit r with
    | None => Ok (buf, k, w)
    | Some h =>
      match ph_spec h with
      | None => Throw "wireframe material shader evaluate photon"
      | Some spec =>
        s <- (if spec then Ok (buf, k) else b <- store buf k (Photon (ph_p h) (vneg (dir r)) power) ;; Ok (b, S k)) ;;
        let '(buf, k) := s in
        let '((wo, albedo, pdf), w) := bsdf h (toLocal (ph_frame h) (vneg (dir r))) w in
        if Req_EM_T pdf 0 then Ok (buf, k, w)
        else
          let r' := Ray (ph_p h) (toWorld (ph_frame h) wo) (Finite Epsilon) p_infty in
          let f := vdiv (vscale albedo (photon_cos h (dir r') spec)) pdf in
          let (u, w) := rnd1 w in
          match power with
          | None => photon_path n' buf k r' None w
          | Some old =>
            match next_power (vmul old f) old u with
            | None => Ok (buf, k, w)
            | Some p => photon_path n' buf k r' p w
            end
          end
      end
    end
  end.

(** photon.cpp:72-90 *)
Definition emit (w : W) : outcome (ray * vec3 * W) :=
  let (val, w) := rnd1 w in
  l <- at_ lights (Z.to_nat (Ztrunc (val * INR (List.length lights)))) ;;
  let emitter_pdf := 1 / INR (List.length lights) in
  let (dir_sample, w) := rnd2 w in
  let (point_sample, w) := rnd2 w in
  match l with
  | OtherLight => Throw "sample ray"
  | PointLight pos inten =>
    let wi := sqrToUniSph dir_sample in
    Ok (Ray pos wi (Finite Epsilon) (Finite 10000000), vdiv (vscale inten (1 / (4 * PI))) (emitter_pdf * sqrToUniSphPdf wi), w)
  end.

(** photon.cpp:64-153 *)
Fixpoint scatter_loop (fuel : nat) (max_bounces num : nat) (buf : list photon) (k : nat) (w : W) : outcome (list photon * W) :=
  if (k <? num)%nat then
    match fuel with
    | O => OutOfFuel
    | S fuel' =>
      e <- emit w ;;
      let '(r, power, w) := e in
      s <- photon_path max_bounces buf k r (Some power) w ;;
      let '(buf, k, w) := s in
      scatter_loop fuel' max_bounces num buf k w
    end
  else Ok (buf, w).
(** photon.cpp:155-159 *)
Definition scale_photon (num : nat) (p : photon) : photon :=
  Photon (ph_pos p) (ph_dir p) (option_map (fun c => vdiv c (INR num)) (ph_power p)).
(** photon.cpp:52-175 *)
Definition scatter_photons (fuel max_bounces num : nat) (w : W) : outcome (list photon * W) :=
  s <- scatter_loop fuel max_bounces num (repeat photon0 num) 0 w ;;
  Ok (map (scale_photon num) (fst s), snd s).
End Scatter.

(** * Queries *)
(** a photon whose power is a number *)
Record gphoton := GPhoton { g_pos : vec3; g_dir : vec3; g_power : vec3 }.
(** photon_array.cpp:35-46 *)
Definition near_photon (l : list gphoton) (pt : vec3) (radius : R) : bool :=
  existsb (fun p => if Rlt_dec (sqrNorm (vsub pt (g_pos p))) radius then true else false) l.
(** photon_array.cpp:48-71; [mat] is evaluate_mat_only for a local outgoing direction *)
Definition eval_radius (mat : vec3 -> vec3) (f : frame) (l : list gphoton) (pt : vec3) (radius : R) (nee : vec3) : vec3 :=
  let inv_area := 1 / (PI * radius) in
  fold_left (fun nee p =>
    if Rlt_dec (sqrNorm (vsub pt (g_pos p))) radius
    then vadd nee (vmul (mat (toLocal f (g_dir p))) (vscale (g_power p) inv_area))
    else nee) l nee.
(** photon_array.cpp:86-97: the list and the pair that is left over *)
Fixpoint bubble (l : list (R * nat)) (x : R * nat) : list (R * nat) * (R * nat) :=
  match l with
  | [] => ([], x)
  | y :: l' =>
    if Rlt_dec (fst x) (fst y) then let (l'', z) := bubble l' y in (x :: l'', z)
    else let (l'', z) := bubble l' x in (y :: l'', z)
  end.
(** photon_array.cpp:73-103 *)
Definition maybe_add (k : nat) (closest : list (R * nat)) (x : R * nat) : list (R * nat) :=
  match closest with
  | [] => [x]
  | _ => let (l, z) := bubble closest x in if (List.length l <? k)%nat then l ++ [z] else l
  end.
(** photon_array.cpp:113-118, and the photons with their squared distances *)
Definition with_dist (l : list gphoton) (pt : vec3) : list (R * nat) :=
  map (fun i => (sqrNorm (vsub pt (g_pos (nth i l (GPhoton (V3 0 0 0) (V3 0 0 0) (V3 0 0 0))))), i)) (seq 0 (List.length l)).
Definition closest_k (k : nat) (l : list gphoton) (pt : vec3) : list (R * nat) := fold_left (maybe_add k) (with_dist l pt) [].
(** photon_array.cpp:108-146; an index out of range and a failed assert are [UB]; the area must not be zero *)
Definition eval_k (mat : vec3 -> vec3) (f : frame) (l : list gphoton) (pt : vec3) (k : nat) (nee : vec3) : outcome vec3 :=
  let c := closest_k k l pt in
  last <- match k with O => UB | S k' => at_ c k' end ;;
  let inv_area := 1 / (PI * fst last) in
  foldM (fun nee i =>
    ci <- at_ c i ;;
    if Rgt_dec (fst ci) (fst last) then UB
    else
      p <- at_ l (snd ci) ;;
      Ok (vadd nee (vmul (mat (toLocal f (g_dir p))) (vscale (g_power p) inv_area)))) (seq 0 (List.length c - 1)) nee.
(** photon.cpp:177-222: the material, the shading frame and the position of the first hit; the
    emission of the closure stays black *)
Definition photon_Li (h : option (vec3 * frame * (vec3 -> vec3))) (l : list gphoton) : vec3 :=
  match h with
  | None => V3 0 0 0
  | Some (p, f, mat) => vadd (eval_radius mat f l p (1 / 100) (V3 0 0 0)) (V3 0 0 0)
  end.
