(** Emitters and direct lighting: src/emitters/*.cpp, src/scene.cpp, src/accel/light_*.cpp, and the
    material shaders of src/shaders.

    Real numbers for Float.  [None] in a distance is a member that was never written; reading it is
    undefined behaviour.  Meshes are numbers; what belongs to a mesh is a parameter. *)
From Coq Require Import Reals List Bool ZArith String.
From Coquelicot Require Import Rbar.
From Flocq Require Import Core.
From Verif.Base Require Import Outcome.
From Verif.Model Require Import Vec Frame BBox Warp Integrators Bsdf.
Import ListNotations.
Open Scope R_scope.

(** ** programs with failure *)
Fixpoint qbind {A B} (q : query A) (f : A -> query B) : query B :=
  match q with
  | QRet a => f a
  | QHit r k => QHit r (fun x => qbind (k x) f)
  | QRand1 k => QRand1 (fun x => qbind (k x) f)
  | QRand2 k => QRand2 (fun x => qbind (k x) f)
  end.
Definition obind {A B} (q : query (outcome A)) (f : A -> query (outcome B)) : query (outcome B) :=
  qbind q (fun o => match o with Ok a => f a | Throw m => QRet (Throw m) | UB => QRet UB | OutOfFuel => QRet OutOfFuel end).
Notation "'do' x <- q ;; f" := (obind q (fun x => f)) (at level 61, x pattern, q at next level, right associativity).

(** ** emitters (include/feign/core/emitter.h) *)
Inductive emitter :=
| EPoint (power pos : vec3)
| EDirectional (light_dir radiance : vec3)
| ESpot (light_pos light_dir radiance : vec3) (light_angle : R)   (* member values *)
| EMesh (mesh : nat) (intensity : vec3)
| EDirMesh (mesh : nat) (light_dir intensity : vec3)
| EEnv (texture : option (vec2 -> vec3)) (intensity : vec3)
| EInterpEnv (top bot : vec3).

(** directional.cpp:13-17: the statement in the body assigns to the parameter, the member keeps the
    value given *)
Definition new_directional (light_dir radiance : vec3) : emitter := EDirectional light_dir radiance.
(** common.h:134-137 *)
Definition degToRad (v : R) : R := v * (PI / 180).
(** spot.cpp:13-23: likewise *)
Definition new_spot (light_pos light_dir radiance : vec3) (light_angle : R) : emitter :=
  ESpot light_pos light_dir radiance (cos (degToRad light_angle)).
(** directional_mesh.cpp:13-20: likewise *)
Definition new_dir_mesh (mesh : nat) (light_dir intensity : vec3) : emitter := EDirMesh mesh light_dir intensity.

(** what sample_nee leaves in its arguments: EmitterQuery::wi, EmitterQuery::sqr_dist, *pdf, and the
    returned color *)
Record em_sample := EmS { es_wi : vec3; es_sqr_dist : option R; es_pdf : R; es_color : vec3 }.

(** emitter.h:363,412-415: getMeshNode, requiresInitialVisibilityCheck *)
Definition em_mesh (e : emitter) : option nat :=
  match e with EMesh m _ => Some m | EDirMesh m _ _ => Some m | _ => None end.
Definition needs_visibility (e : emitter) : bool := match e with EDirMesh _ _ _ => true | _ => false end.

Section Scene.
(** a sampled point of a mesh: position, shading normal, density over area
    (mesh.cpp:48-58; the choice of the triangle is in Model/DiscretePdf.v) *)
Variable mesh_point : nat -> vec2 -> outcome (vec3 * vec3 * R).

(** point.cpp:25-39, directional.cpp:19-30, spot.cpp:25-48, mesh.cpp:44-74,
    directional_mesh.cpp:45-63, environment.cpp:16-22, interp_env.cpp:20-27 *)
Definition sample_nee (e : emitter) (p : vec3) (u : vec2) : outcome em_sample :=
  match e with
  | EPoint power pos =>
      let d := vsub pos p in
      Ok (EmS (normalized d) (Some (sqrNorm d)) 1 (vscale (vdiv power (sqrNorm d)) (1 / (4 * PI))))
  | EDirectional light_dir radiance => Ok (EmS light_dir None 1 radiance)
  | ESpot light_pos light_dir radiance light_angle =>
      let wi := normalized (vsub light_pos p) in
      let cos_t := vz (toLocal (frame_of light_dir) (vneg wi)) in
      Ok (EmS wi None 1 (if Rgt_dec cos_t light_angle then radiance else V3c 0))
  | EMesh m intensity =>
      bind (mesh_point m u) (fun '(q, n, pdf_area) =>
        let d := vsub q p in
        let wi := normalized d in
        if Rle_dec (dot (vneg wi) n) Epsilon then Ok (EmS wi (Some (sqrNorm d)) 0 (V3c 0))
        else Ok (EmS wi (Some (sqrNorm d)) (pdf_area * sqrNorm d / Rabs (dot (vneg wi) n)) intensity))
  | EDirMesh _ light_dir intensity => Ok (EmS (vneg light_dir) None 1 intensity)
  | EEnv _ _ => Throw "emitter environment"%string
  | EInterpEnv _ _ => Throw "interp env emitter sample_li"%string
  end.

(** std::atan2 *)
Definition atan2 (y x : R) : R :=
  if Rlt_dec 0 x then atan (y / x)
  else if Rlt_dec x 0 then (if Rle_dec 0 y then atan (y / x) + PI else atan (y / x) - PI)
  else if Rlt_dec 0 y then PI / 2 else if Rlt_dec y 0 then - (PI / 2) else 0.
(** environment.cpp:55-67 *)
Definition env_uv (wi : vec3) : vec2 :=
  let phi := atan2 (vz wi) (vx wi) in
  let phi := if Rlt_dec phi 0 then phi + 2 * PI else phi in
  V2 (phi * (1 / (2 * PI))) (acos (vy wi) * (1 / PI)).
(** environment.cpp:48-68, mesh.cpp:96-102, directional_mesh.cpp:80-85, directional.cpp:47-54,
    spot.cpp:65-77, point.cpp:63-68, interp_env.cpp:46-51 *)
Definition em_evaluate (e : emitter) (wi : vec3) : outcome vec3 :=
  match e with
  | EEnv None intensity => Ok intensity
  | EEnv (Some tex) intensity => Ok (vmul intensity (tex (env_uv wi)))
  | EMesh _ intensity | EDirMesh _ _ intensity =>
      Ok (if Rlt_dec (- vz wi) Epsilon then V3c 0 else intensity)
  | EDirectional light_dir radiance =>
      Ok (if Rlt_dec (sqrNorm (vsub light_dir wi)) Epsilon then radiance else V3c 0)
  | ESpot _ light_dir radiance light_angle =>
      Ok (if Rgt_dec (vz (toLocal (frame_of light_dir) (vneg wi))) light_angle then radiance else V3c 0)
  | EPoint _ _ => Throw "point evaluate"%string
  | EInterpEnv _ _ => Throw "interp env emitter evaluate"%string
  end.

(** scene.cpp:692-707 *)
Definition env_emission (env_emitters : list emitter) (d : vec3) : outcome vec3 :=
  foldM (fun Le e => bind (em_evaluate e d) (fun c => Ok (vadd Le c))) env_emitters (V3c 0).

(** scene.cpp:181-202 *)
Fixpoint non_null (fuel : nat) (r : ray) : query (outcome (option isect)) :=
  match fuel with
  | O => QRet OutOfFuel
  | S n => QHit r (fun a =>
      match a with
      | None => QRet (Ok None)
      | Some i => if i_null i then non_null n (Ray (org r) (dir r) (Finite (i_t i + Epsilon)) (rfar r))
                  else QRet (Ok (Some i))
      end)
  end.

(** ** transmittance along a ray *)
Variable M : Type.
(** intersected_mesh->boundry->inside->media: None when boundry or inside is null, Some None when
    there is no medium *)
Variable inside : nat -> option (option M).
(** Media::transmittance on [near, far] of the ray *)
Variable transmittance : M -> ray -> query vec3.
Variable fuel : nat.

Definition Rbar_geb (a b : Rbar) : bool := if Rbar_le_dec b a then true else false.
(** scene.cpp:261-315; the result is None when something solid was met, or the list of segments *)
Fixpoint tr_loop (n : nat) (full : ray) (near : Rbar) (segs : list (M * ray)) : query (outcome (option (list (M * ray)))) :=
  match n with
  | O => QRet OutOfFuel
  | S n =>
      QHit (Ray (org full) (dir full) near (rfar full)) (fun a =>
        match a with
        | None => QRet (Ok (Some segs))
        | Some i =>
            if i_null i then
              match inside (i_mesh i) with
              | None => QRet UB
              | Some None => tr_loop n full (Finite (i_t i + Epsilon)) segs
              | Some (Some m) =>
                  let near := Finite (i_t i + Epsilon) in
                  QHit (Ray (org full) (dir full) near (rfar full)) (fun b =>
                    match b with
                    | Some j =>
                        if i_null j then
                          let segs := segs ++ [(m, Ray (org full) (dir full) near (Finite (i_t j)))] in
                          if Rbar_geb (Finite (i_t j)) (rfar full) then QRet (Ok (Some segs)) else tr_loop n full near segs
                        else QRet (Ok None)
                    | None => tr_loop n full near segs
                    end)
              end
            else QRet (Ok None)
        end)
  end.
(** scene.cpp:318-332 *)
Fixpoint attenuate (segs : list (M * ray)) (beta : vec3) : query (outcome vec3) :=
  match segs with
  | [] => QRet (Ok beta)
  | (m, r) :: l => qbind (transmittance m r) (fun t => attenuate l (vmul beta t))
  end.
Definition finish (o : option (list (M * ray))) (beta : vec3) : query (outcome (bool * vec3)) :=
  match o with
  | None => QRet (Ok (true, beta))
  | Some segs => do b <- attenuate segs beta ;; QRet (Ok (false, b))
  end.
(** scene.cpp:212-335; true when the ray is blocked *)
Definition intersect_transmittance (r : ray) (initial : option M) (beta : vec3) : query (outcome (bool * vec3)) :=
  match initial with
  | None => do o <- tr_loop fuel r (rnear r) [] ;; finish o beta
  | Some m =>
      QHit r (fun a =>
        match a with
        | Some i =>
            if i_null i then
              do o <- tr_loop fuel r (Finite (i_t i + Epsilon)) [(m, Ray (org r) (dir r) (rnear r) (Finite (i_t i)))] ;; finish o beta
            else QRet (Ok (true, beta))
        | None => do o <- tr_loop fuel r (rnear r) [(m, r)] ;; finish o beta
        end)
  end.

(** ** next event estimation *)
Variable emitters : list emitter.
Variable inst : nat -> nat.                          (* Shape::getInstID *)
Variable ignore_shadow_checks : bool.                (* global_params *)

(** light_naive.cpp:20-34: (int)(next1D * n) and 1/n *)
Definition naive_choice (u : R) : Z * R := (Ztrunc (u * INR (List.length emitters)), 1 / INR (List.length emitters)).

(** scene.cpp:634-661 *)
Definition choose_emitter (its : isect) : query (outcome (option (emitter * R))) :=
  match emitters with
  | [] => QRet (Ok None)
  | _ => QRand1 (fun u =>
      let '(k, pdf) := naive_choice u in
      if (k <? 0)%Z then QRet UB else
      match nth_error emitters (Z.to_nat k) with
      | None => QRet UB
      | Some e =>
          match em_mesh e with
          | Some m => if (inst m =? inst (i_mesh its))%nat then QRet (Ok None) else QRet (Ok (Some (e, pdf)))
          | None => QRet (Ok (Some (e, pdf)))
          end
      end)
  end.

(** scene.cpp:458-496 (367-405, 554-592): sampling the light and the initial visibility test; the
    result is the shadow ray, the color and the density.  Reading an unset distance is UB. *)
Definition shadow_query (its : isect) (e : emitter) (s : em_sample) : query (outcome (ray * vec3 * R)) :=
  let fin (d : option R) (c : vec3) :=
    match d with
    | None => QRet UB
    | Some d2 => QRet (Ok (Ray (i_p its) (es_wi s) (Finite Epsilon) (Finite (sqrt d2 - Epsilon)), c, es_pdf s))
    end in
  if needs_visibility e then
    do a <- non_null fuel (Ray (i_p its) (es_wi s) (Finite Epsilon) p_infty) ;;
    match a with
    | Some t =>
        if match em_mesh e with Some m => (m =? i_mesh t)%nat | None => false end then
          let d2 := sqrNorm (vsub (i_p t) (i_p its)) in
          fin (Some d2) (vdiv (es_color s) d2)
        else fin (es_sqr_dist s) (V3c 0)
    | None => fin (es_sqr_dist s) (V3c 0)
    end
  else fin (es_sqr_dist s) (es_color s).

(** scene.cpp:513-516 *)
Definition nee_cos (n wi : vec3) : R :=
  let c := dot n wi in if Rlt_dec c (- Epsilon) then - c else c.

(** scene.cpp:458-535 for one light: None when blocked, or the world direction and the throughput *)
Definition eval_emitter (its : isect) (media : option M) (normal : vec3) (in_media : bool) (choice_pdf : R) (e : emitter)
    : query (outcome (option (vec3 * vec3))) :=
  QRand2 (fun u =>
    do s <- QRet (sample_nee e (i_p its) u) ;;
    do (r, c, pdf) <- shadow_query its e s ;;
    do (blocked, tr) <- intersect_transmittance r media (V3c 1) ;;
    if negb blocked || ignore_shadow_checks then
      let c := if in_media then c else vscale c (nee_cos normal (dir r)) in
      QRet (Ok (Some (dir r, if Req_EM_T pdf 0 then V3c 0 else vmul (vdiv c (choice_pdf * pdf)) tr)))
    else QRet (Ok None)).
Definition no_eval : emitter_eval := EmEval (V3c 0) (V3c 0) false.
Definition eval_of (its : isect) (o : option (vec3 * vec3)) : emitter_eval :=
  match o with None => no_eval | Some (wi, t) => EmEval t (toLocal (i_s its) wi) true end.

(** scene.cpp:361-443: every light, geometric normal, no choice *)
Fixpoint eval_all (its : isect) (media : option M) (in_media : bool) (l : list emitter) : query (outcome (list emitter_eval)) :=
  match l with
  | [] => QRet (Ok [])
  | e :: l' =>
      do o <- eval_emitter its media (fn (i_g its)) in_media 1 e ;;
      do rest <- eval_all its media in_media l' ;;
      QRet (Ok (eval_of its o :: rest))
  end.
(** scene.cpp:445-535 *)
Definition eval_one (its : isect) (media : option M) (in_media : bool) : query (outcome (list emitter_eval)) :=
  do c <- choose_emitter its ;;
  match c with
  | None => QRet (Ok [no_eval])
  | Some (e, pdf) => do o <- eval_emitter its media (fn (i_s its)) in_media pdf e ;; QRet (Ok [eval_of its o])
  end.
(** scene.cpp:537-632: validity and direction are written to entry 0, the throughput to entry i *)
Definition set_throughput (e : emitter_eval) (t : vec3) : emitter_eval := EmEval t (e_dir e) (e_valid e).
Definition set_valid (e : emitter_eval) (d : vec3) : emitter_eval := EmEval (e_throughput e) d true.
Definition nth_eval (l : list emitter_eval) (i : nat) : emitter_eval := nth i l no_eval.
Fixpoint eval_multi_loop (k : nat) (i : nat) (its : isect) (media : option M) (in_media : bool) (acc : list emitter_eval)
    : query (outcome (list emitter_eval)) :=
  match k with
  | O => QRet (Ok acc)
  | S k =>
      do c <- choose_emitter its ;;
      match c with
      | None => eval_multi_loop k (S i) its media in_media (update acc i (set_throughput (nth_eval acc i) (V3c 0)))
      | Some (e, pdf) =>
          do o <- eval_emitter its media (fn (i_s its)) in_media pdf e ;;
          match o with
          | None => eval_multi_loop k (S i) its media in_media acc
          | Some (wi, t) =>
              let acc := update acc 0 (set_valid (nth_eval acc 0) (toLocal (i_s its) wi)) in
              eval_multi_loop k (S i) its media in_media (update acc i (set_throughput (nth_eval acc i) t))
          end
      end
  end.
Definition eval_multi (k : nat) (its : isect) (media : option M) (in_media : bool) : query (outcome (list emitter_eval)) :=
  eval_multi_loop k 0 its media in_media (repeat no_eval k).

(** ** material shaders *)
Variable object_emitter : nat -> option emitter.     (* objects[its.intersected_mesh->getInstID()]->emitter *)
Definition set_emission (c : closure) (e : vec3) : closure :=
  Closure (c_wi c) (c_wo c) (c_shadow c) (c_albedo c) e (c_nee c) (c_pdf c) (c_eta c)
          (c_spec c) (c_last_spec c) (c_all c) (c_accepts c).
Definition set_shadow (c : closure) (l : list emitter_eval) : closure :=
  Closure (c_wi c) (c_wo c) l (c_albedo c) (c_emission c) (c_nee c) (c_pdf c) (c_eta c)
          (c_spec c) (c_last_spec c) (c_all c) (c_accepts c).
Definition set_spec (c : closure) (spec last accepts : bool) : closure :=
  Closure (c_wi c) (c_wo c) (c_shadow c) (c_albedo c) (c_emission c) (c_nee c) (c_pdf c) (c_eta c)
          spec last (c_all c) accepts.
(** scene.cpp:674-690 *)
Definition accumulate_emission (its : isect) (r : ray) (c : closure) : outcome closure :=
  match object_emitter (inst (i_mesh its)) with
  | None => Ok (set_emission c (V3c 0))
  | Some e => bind (em_evaluate e (toLocal (i_s its) (dir r))) (fun v => Ok (set_emission c v))
  end.
(** simple_material.cpp:24-55 and wireframe_material.cpp:29-60, which agree; [media] is closure.media *)
Definition shade_in (media : option M) (delta : bool) (its : isect) (r : ray) (c : closure) : query (outcome closure) :=
  let c := set_spec c delta (c_last_spec c) (c_accepts c) in
  do c <- QRet (if c_last_spec c then accumulate_emission its r c else Ok c) ;;
  if delta then QRet (Ok (set_spec c delta delta (c_accepts c)))
  else if c_accepts c then
    do l <- (if c_all c then eval_all its media false emitters else eval_one its media false) ;;
    QRet (Ok (set_shadow c l))
  else QRet (Ok c).
(** the surface integrators: closure.media is null (material.cpp:45,69) *)
Definition shade : bool -> isect -> ray -> closure -> query (outcome closure) := shade_in None.

(** simple_material.cpp:24-59 *)
Definition simple_evaluate_in (media : option M) (delta : bool) (its : isect) (r : ray) (c : closure) : query (outcome closure) :=
  do c <- shade_in media delta its r c ;;
  QRet (Ok (if delta then c else set_spec c delta delta true)).
Definition simple_evaluate : bool -> isect -> ray -> closure -> query (outcome closure) := simple_evaluate_in None.
(** wireframe_material.cpp:69-82 *)
Definition on_wire (bary : vec3) (threshold : R) : bool :=
  let m := vx bary in
  let m := if Rlt_dec (vy bary) m then vy bary else m in
  let m := if Rlt_dec (vz bary) m then vz bary else m in
  if Rlt_dec m threshold then true else false.
(** wireframe_material.cpp:29-61: nothing follows the light sampling *)
Definition wireframe_evaluate (threshold : R) (wire_delta mesh_delta : bool) (its : isect) (r : ray) (c : closure) : query (outcome closure) :=
  shade (if on_wire (i_bary its) threshold then wire_delta else mesh_delta) its r c.
End Scene.

(** ** light_spatial.cpp *)
(** light_spatial.cpp:105-111: the cell of a position; [local] is bounds.local_space(pos) *)
Definition spatial_cell (width height depth : Z) (local : vec3) : Z :=
  let l := vmaxc (vminc local 0) 0 in
  let x := Zfloor (vx l * IZR width) in
  let y := Zfloor (vy l * IZR height) in
  let z := Zfloor (vz l * IZR depth) in
  ((z * height + y) * width + x)%Z.
(** light_spatial.cpp:82-91: the weight of a light for a cell; PMF_MIN = 0.01f (common.h) *)
Definition spatial_weight (contains : bool) (center light : vec3) : R :=
  if contains then 1 else Rmin (1 / sqrNorm (vsub center light)) (1 / 100).
