(** src/parsers/json_parser.cpp: from a parsed JSON document to the calls of the API.

    Simplifications.
    - rapidjson is not in the repository: a document is a tree; a getter applied to a value of
      another type, an array index out of range and [value["k"]] without such a member fail
      rapidjson's assertion, here [UB].  [GetFloat] is the number itself, without rounding.
    - [HasMember] and [value["k"]] find the first member of that name.
    - A block that fails drops the transform calls it has made before (they only set the current
      transform, and the failure ends the program). *)
From Coq Require Import Reals ZArith List String.
From Verif.Base Require Import Outcome.
From Verif.Model Require Import Vec Matrix ApiTransform Api.
Import ListNotations.
Local Open Scope outcome_scope.
Local Open Scope string_scope.
Open Scope R_scope.

Inductive json :=
| JNull | JBool (b : bool) | JInt (z : Z) | JNum (x : R) | JStr (s : string)
| JArr (l : list json) | JObj (m : list (string * json)).

(** rapidjson's Value::GetString, GetBool, GetInt, GetFloat, operator[](SizeType), MemberBegin *)
Definition get_str (j : json) : outcome string := match j with JStr s => Ok s | _ => UB end.
Definition get_bool (j : json) : outcome bool := match j with JBool b => Ok b | _ => UB end.
Definition get_int (j : json) : outcome Z :=
  match j with JInt z => if ((- 2 ^ 31 <=? z) && (z <? 2 ^ 31))%Z%bool then Ok z else UB | _ => UB end.
Definition get_float (j : json) : outcome R := match j with JInt z => Ok (IZR z) | JNum x => Ok x | _ => UB end.
Definition elem (j : json) (i : nat) : outcome json := match j with JArr l => at_ l i | _ => UB end.
Definition members (j : json) : outcome (list (string * json)) := match j with JObj m => Ok m | _ => UB end.
Fixpoint find_member (m : list (string * json)) (k : string) : option json :=
  match m with [] => None | (k', j) :: m' => if String.eqb k' k then Some j else find_member m' k end.
Definition has (m : list (string * json)) (k : string) : bool := match find_member m k with Some _ => true | None => false end.
(** [value["k"]] *)
Definition member (m : list (string * json)) (k : string) : outcome json := match find_member m k with Some j => Ok j | None => UB end.

(** the pattern [T x = def; if (value.HasMember("k")) { x = value["k"].Get(); }] *)
Definition opt {A} (m : list (string * json)) (k : string) (get : json -> outcome A) (def : A) : outcome A :=
  match find_member m k with Some j => get j | None => Ok def end.
Definition get_vec (j : json) : outcome vec3 :=
  a <- elem j 0 ;; x <- get_float a ;; b <- elem j 1 ;; y <- get_float b ;; c <- elem j 2 ;; z <- get_float c ;; Ok (V3 x y z).
Definition get_res (j : json) : outcome (Z * Z) :=
  a <- elem j 0 ;; x <- get_int a ;; b <- elem j 1 ;; y <- get_int b ;; Ok (x, y).
Definition get_rot (j : json) : outcome (R * vec3) :=
  a <- elem j 0 ;; w <- get_float a ;; b <- elem j 1 ;; x <- get_float b ;; c <- elem j 2 ;; y <- get_float c ;; d <- elem j 3 ;; z <- get_float d ;; Ok (w, V3 x y z).
(** lines 474-487 *)
Definition get_lookat (j : json) : outcome (vec3 * vec3 * vec3) :=
  a <- elem j 0 ;; ax <- get_float a ;; a <- elem j 1 ;; ay <- get_float a ;; a <- elem j 2 ;; az <- get_float a ;;
  a <- elem j 3 ;; bx <- get_float a ;; a <- elem j 4 ;; b_y <- get_float a ;; a <- elem j 5 ;; bz <- get_float a ;;
  a <- elem j 6 ;; cx <- get_float a ;; a <- elem j 7 ;; cy <- get_float a ;; a <- elem j 8 ;; cz <- get_float a ;;
  Ok (V3 ax ay az, V3 bx b_y bz, V3 cx cy cz).

(** the API calls with their parameter blocks *)
Inductive mesh_params :=
| MTriangles (filename geom : string) (flip : bool) (inside outside : string) (is_null : bool)
| MGrid (texture geom : string) (rx ry : Z)
| MSphere (center : vec3) (radius interp : R) (inside outside : string) (is_null : bool)
| MPlane (center norm : vec3) (interp : R) (inside outside : string) (is_null : bool)
| MBox (tlc brc : vec3) (inside outside : string) (is_null : bool)
| MCylinder (first second : vec3) (radius : R) (inside outside : string) (is_null : bool)
| MCone (first second : vec3) (radius1 radius2 : R) (inside outside : string) (is_null : bool).
Inductive emitter_params :=
| EPoint (intensity pos : vec3) | EMesh (intensity : vec3) | EEnvironment (intensity : vec3) (texture : string)
| EDirectional (dir radiance : vec3) | EDirMesh (dir intensity : vec3) | ESpot (pos dir radiance : vec3) (angle : R).
Inductive bsdf_params :=
| BDiffuse (albedo : vec3) | BMirror (albedo : vec3) | BDielectric (i_ior e_ior : R)
| BPhong (kd : vec3) (ks exponent : R) | BBlinn (kd ks : vec3) (exponent : R).
Inductive shader_params := SSphere (prop proxy : R) | SSimple (bsdf : string).
Inductive item :=
| IScene (name integ samp cam med keywords description : string) (sdf_mode : bool)
| IMedia (name te ph ms de tf : string) (abs scat : vec3)
| IDensity (name : string) (dense radius : R)
| INaive (name : string)
| ISpatial (name : string) (w h d : Z)
| IIntegrator (name ty filter : string) (max_time max_heuristic : Z) (location : string) (max_bounces : Z)
| IPhotons (name filter : string) (max_time max_heuristic : Z) (location : string) (photons max_bounces : Z)
| ISampler (name : string) (spp seed : Z)
| ICamera (name : string) (origin target up : vec3) (fov near far focal_dist app_radius : R) (w h : Z)
| IObject (name mesh mat emitter : string)
| IMesh (name : string) (p : mesh_params)
| IEmitter (name : string) (p : emitter_params)
| IBsdf (name : string) (p : bsdf_params)
| IShader (name : string) (p : shader_params)
| ITexture (name filename : string) (scale : vec3)
| ITransform (c : tcall).

(** lines 92-147 *)
Definition parse_scene (m : list (string * json)) : outcome (list item) :=
  name <- opt m "name" get_str "default" ;; integ <- opt m "integrator" get_str "default" ;; samp <- opt m "sampler" get_str "default" ;;
  cam <- opt m "camera" get_str "default" ;; med <- opt m "medium" get_str "default" ;; kw <- opt m "keywords" get_str "" ;;
  de <- opt m "description" get_str "" ;; sdf <- opt m "sdf_mode" get_bool false ;; Ok [IScene name integ samp cam med kw de sdf].
(** lines 148-199: the coefficients and the transform are not read *)
Definition parse_media (m : list (string * json)) : outcome (list item) :=
  name <- opt m "name" get_str "env_medium" ;; de <- opt m "density" get_str "default" ;; sa <- opt m "sampling" get_str "default" ;;
  ph <- opt m "phase" get_str "default" ;; te <- opt m "trans_est" get_str "default" ;; tf <- opt m "trans_func" get_str "default" ;;
  Ok [IMedia name te ph sa de tf (V3 1 1 1) (V3 0 0 0)].
(** lines 200-243 *)
Definition parse_density (m : list (string * json)) : outcome (list item) :=
  name <- opt m "name" get_str "media_density" ;; ty <- opt m "type" get_str "sphere" ;;
  if String.eqb ty "sphere" then
    dense <- opt m "density" get_float 1 ;; radius <- opt m "radius" get_float 1 ;; Ok [IDensity name dense radius]
  else Throw "medium density can not be parsed through json".
(** lines 247-290: any other type makes no call *)
Definition parse_accel (m : list (string * json)) : outcome (list item) :=
  ty <- opt m "type" get_str "light_naive" ;; name <- opt m "name" get_str "light_accel" ;;
  if String.eqb ty "light_naive" then Ok [INaive name]
  else if String.eqb ty "light_spatial" then
    w <- opt m "width" get_int 1%Z ;; h <- opt m "height" get_int 1%Z ;; d <- opt m "depth" get_int 1%Z ;; Ok [ISpatial name w h d]
  else Ok [].
(** lines 291-366 *)
Definition parse_integrator (m : list (string * json)) : outcome (list item) :=
  ty <- opt m "type" get_str "normal" ;; name <- opt m "name" get_str "integrator" ;; filter <- opt m "filter" get_str "default" ;;
  mt <- opt m "max_time" get_int (-1)%Z ;; mh <- opt m "max_heuristic" get_int (-1)%Z ;; mb <- opt m "max_bounces" get_int 10%Z ;;
  loc <- opt m "location" get_str "" ;;
  if String.eqb ty "photon" then photons <- opt m "photons" get_int 1024%Z ;; Ok [IPhotons name filter mt mh loc photons mb]
  else Ok [IIntegrator name ty filter mt mh loc mb].
(** lines 367-405 *)
Definition parse_sampler (m : list (string * json)) : outcome (list item) :=
  name <- opt m "name" get_str "sampler" ;; ty <- opt m "type" get_str "independent" ;;
  if String.eqb ty "independent" then
    spp <- opt m "sample_count" get_int 8%Z ;; seed <- opt m "seed" get_int 305419896%Z ;; Ok [ISampler name spp seed]
  else Throw "parsing for any sampling routine other than independent not supported in json".
(** lines 406-507 *)
Definition parse_camera (m : list (string * json)) : outcome (list item) :=
  name <- opt m "name" get_str "camera" ;; ty <- opt m "type" get_str "perspective" ;;
  if String.eqb ty "perspective" then
    if has m "origin" then Throw "origin vector json_parser"
    else if has m "target" then Throw "target vector json_parser"
    else if has m "up" then Throw "up vector json_parser"
    else
      fov <- opt m "fov" get_float 30 ;; near <- opt m "near" get_float (1 / 10000) ;; far <- opt m "far" get_float 10000 ;;
      app <- opt m "app_radius" get_float 0 ;; focal <- opt m "focal_dist" get_float 10 ;;
      w <- opt m "width" get_int 512%Z ;; h <- opt m "height" get_int 512%Z ;;
      l <- opt m "lookat" get_lookat (V3 0 1 0, V3 0 0 0, V3 0 1 0) ;;
      let '(origin, target, up) := l in Ok [ICamera name origin target up fov near far focal app w h]
  else Throw "can not be parsed through json".
(** lines 536-554, 846-864: a transform member *)
Definition parse_transform (k : string) (j : json) : option (outcome tcall) :=
  if String.eqb k "scale" then Some (v <- get_vec j ;; Ok (TScale v))
  else if String.eqb k "translate" then Some (v <- get_vec j ;; Ok (TTranslate v))
  else if String.eqb k "rotate" then Some (r <- get_rot j ;; Ok (TRotate (fst r) (snd r)))
  else None.
(** lines 519-559: the members in their order *)
Fixpoint parse_object_loop (m : list (string * json)) (name mesh mat emitter : string) (ts : list item) : outcome (list item) :=
  match m with
  | [] => Ok (ITransform TClear :: ts ++ [IObject name mesh mat emitter; ITransform TClear])%list
  | (k, j) :: m' =>
    if String.eqb k "name" then s <- get_str j ;; parse_object_loop m' s mesh mat emitter ts
    else if String.eqb k "mesh" then s <- get_str j ;; parse_object_loop m' name s mat emitter ts
    else if String.eqb k "material_shader" then s <- get_str j ;; parse_object_loop m' name mesh s emitter ts
    else match parse_transform k j with
    | Some o => c <- o ;; parse_object_loop m' name mesh mat emitter (ts ++ [ITransform c])%list
    | None =>
      if String.eqb k "emitter" then s <- get_str j ;; parse_object_loop m' name mesh mat s ts
      else parse_object_loop m' name mesh mat emitter ts
    end
  end.
(** lines 508-567 *)
Definition parse_object (m : list (string * json)) : outcome (list item) := parse_object_loop m "obj" "default" "null" "null" [].
(** lines 568-820 *)
Definition parse_mesh (m : list (string * json)) : outcome (list item) :=
  name <- opt m "name" get_str "mesh" ;; ty <- opt m "type" get_str "default" ;; nul <- opt m "is_null" get_bool false ;;
  ins <- opt m "inside_media" get_str "null" ;; out <- opt m "outside_media" get_str "null" ;;
  p <- (if String.eqb ty "triangle_mesh" then
    f <- opt m "filename" get_str "default" ;; g <- opt m "geom_shader" get_str "default" ;; fl <- opt m "flip_norms" get_bool false ;;
    Ok (MTriangles f g fl ins out nul)
  else if String.eqb ty "grid" then
    t <- opt m "texture" get_str "default" ;; g <- opt m "geom_shader" get_str "default" ;; r <- opt m "resolution" get_res (2, 2)%Z ;;
    Ok (MGrid t g (fst r) (snd r))
  else if String.eqb ty "sdf_sphere" then
    c <- opt m "center" get_vec (V3 0 0 0) ;; r <- opt m "radius" get_float 1 ;; i <- opt m "interp" get_float 0 ;; Ok (MSphere c r i ins out nul)
  else if String.eqb ty "sdf_plane" then
    c <- opt m "center" get_vec (V3 0 0 0) ;; n <- opt m "normal" get_vec (V3 0 1 0) ;; i <- opt m "interp" get_float 0 ;; Ok (MPlane c n i ins out nul)
  else if String.eqb ty "sdf_box" then
    t <- opt m "tlc" get_vec (V3 1 1 1) ;; b <- opt m "brc" get_vec (V3 0 0 0) ;; _ <- opt m "interp" get_float 0 ;; Ok (MBox t b ins out nul)
  else if String.eqb ty "sdf_cylinder" then
    f <- opt m "first" get_vec (V3 1 1 1) ;; s <- opt m "second" get_vec (V3 0 0 0) ;; r <- opt m "radius" get_float 0 ;; Ok (MCylinder f s r ins out nul)
  else if String.eqb ty "sdf_cone" then
    f <- opt m "first" get_vec (V3 1 1 1) ;; s <- opt m "second" get_vec (V3 0 0 0) ;; r <- opt m "radius_1" get_float 0 ;; r' <- opt m "radius_2" get_float 0 ;;
    Ok (MCone f s r r' ins out nul)
  else Throw "mesh not recognized") ;;
  Ok [IMesh name p].
(** lines 841-865 *)
Fixpoint emitter_transforms (m : list (string * json)) : outcome (list item) :=
  match m with
  | [] => Ok []
  | (k, j) :: m' =>
    match parse_transform k j with
    | Some o => c <- o ;; ts <- emitter_transforms m' ;; Ok (ITransform c :: ts)
    | None => emitter_transforms m'
    end
  end.
(** lines 821-1011 *)
Definition parse_emitter (m : list (string * json)) : outcome (list item) :=
  name <- opt m "name" get_str "emitter" ;; ty <- opt m "type" get_str "point" ;; ts <- emitter_transforms m ;;
  p <- (if String.eqb ty "point" then
    p <- opt m "position" get_vec (V3 0 0 0) ;; i <- opt m "intensity" get_vec (V3 1 1 1) ;; Ok (EPoint i p)
  else if String.eqb ty "mesh" then i <- opt m "intensity" get_vec (V3 1 1 1) ;; Ok (EMesh i)
  else if String.eqb ty "environment" then
    i <- opt m "intensity" get_vec (V3 1 1 1) ;; t <- opt m "texture" get_str "" ;; Ok (EEnvironment i t)
  else if String.eqb ty "directional" then
    d <- opt m "light_dir" get_vec (V3 1 0 0) ;; r <- opt m "radiance" get_vec (V3 1 1 1) ;; Ok (EDirectional d r)
  else if String.eqb ty "directional_mesh" then
    i <- opt m "intensity" get_vec (V3 1 1 1) ;; d <- opt m "light_dir" get_vec (V3 1 0 0) ;; Ok (EDirMesh d i)
  else if String.eqb ty "spot" then
    p <- opt m "light_pos" get_vec (V3 0 0 0) ;; d <- opt m "light_dir" get_vec (V3 1 0 0) ;; r <- opt m "radiance" get_vec (V3 1 1 1) ;;
    a <- opt m "light_angle" get_float 25 ;; Ok (ESpot p d r a)
  else Throw "emitter not parsable yet") ;;
  Ok (ITransform TClear :: ts ++ [IEmitter name p; ITransform TClear])%list.
(** lines 1012-1132 *)
Definition parse_bsdf (m : list (string * json)) : outcome (list item) :=
  name <- opt m "name" get_str "bsdf" ;; ty <- opt m "type" get_str "diffuse" ;;
  p <- (if String.eqb ty "diffuse" then a <- opt m "albedo" get_vec (V3 (8 / 10) (8 / 10) (8 / 10)) ;; Ok (BDiffuse a)
  else if String.eqb ty "mirror" then a <- opt m "albedo" get_vec (V3 1 1 1) ;; Ok (BMirror a)
  else if String.eqb ty "dielectric" then i <- opt m "int_ior" get_float (3 / 2) ;; e <- opt m "ext_ior" get_float 1 ;; Ok (BDielectric i e)
  else if String.eqb ty "phong" then
    kd <- opt m "kd" get_vec (V3 (1 / 2) (1 / 2) (1 / 2)) ;; ks <- opt m "ks" get_float (1 / 2) ;; e <- opt m "exponent" get_float 2 ;; Ok (BPhong kd ks e)
  else if String.eqb ty "blinn" then
    kd <- opt m "kd" get_vec (V3 (1 / 2) (1 / 2) (1 / 2)) ;; ks <- opt m "ks" get_vec (V3 (1 / 2) (1 / 2) (1 / 2)) ;; e <- opt m "exponent" get_float 2 ;; Ok (BBlinn kd ks e)
  else Throw "bsdf is not parsable yet") ;;
  Ok [IBsdf name p].
(** lines 1133-1184 *)
Definition parse_shader (m : list (string * json)) : outcome (list item) :=
  name <- opt m "name" get_str "shader" ;; ty <- opt m "type" get_str "none" ;;
  p <- (if String.eqb ty "interp_verts_to_sphere" then
    p <- opt m "prop_of_minor_axis" get_float 0 ;; q <- opt m "proxy" get_float 0 ;; Ok (SSphere p q)
  else if String.eqb ty "simple_material" then b <- opt m "bsdf" get_str "defualt" ;; Ok (SSimple b)
  else Throw "shader is not parsable yet") ;;
  Ok [IShader name p].
(** lines 1185-1225: the scale is read when there is a member "proxy" *)
Definition parse_texture (m : list (string * json)) : outcome (list item) :=
  name <- opt m "name" get_str "texture" ;; ty <- opt m "type" get_str "image" ;;
  if String.eqb ty "image" then
    f <- opt m "filename" get_str "" ;;
    s <- (if has m "proxy" then j <- member m "scale" ;; get_vec j else Ok (V3 1 1 1)) ;;
    Ok [ITexture name f s]
  else Throw "texture is not parsable yet".

(** lines 89-231: one member of the document; another name fails an assert *)
Definition parse_block (k : string) (j : json) : outcome (list item) :=
  if String.eqb k "scene" then m <- members j ;; parse_scene m
  else if String.eqb k "media" then m <- members j ;; parse_media m
  else if String.eqb k "media_density" then m <- members j ;; parse_density m
  else if String.eqb k "accel" then m <- members j ;; parse_accel m
  else if String.eqb k "integrator" then m <- members j ;; parse_integrator m
  else if String.eqb k "sampler" then m <- members j ;; parse_sampler m
  else if String.eqb k "camera" then m <- members j ;; parse_camera m
  else if String.eqb k "object" then m <- members j ;; parse_object m
  else if String.eqb k "mesh" then m <- members j ;; parse_mesh m
  else if String.eqb k "emitter" then m <- members j ;; parse_emitter m
  else if String.eqb k "bsdf" then m <- members j ;; parse_bsdf m
  else if String.eqb k "shader" then m <- members j ;; parse_shader m
  else if String.eqb k "texture" then m <- members j ;; parse_texture m
  else UB.
(** lines 79-231: the calls made, and how the loop ends *)
Fixpoint parse_doc (d : list (string * json)) : list item * outcome unit :=
  match d with
  | [] => ([], Ok tt)
  | (k, j) :: d' =>
    match parse_block k j with
    | Ok l => let (l', o) := parse_doc d' in ((l ++ l')%list, o)
    | Throw e => ([], Throw e)
    | UB => ([], UB)
    | OutOfFuel => ([], OutOfFuel)
    end
  end.

(** the call of Model/Api.v: its opaque parameter is the number of the call *)
Definition mesh_call (name : string) (p : mesh_params) (i : nat) : call :=
  match p with
  | MTriangles _ g _ ins out _ => FrMesh name "triangle_mesh" g ins out "" i
  | MGrid t g _ _ => FrMesh name "grid" g "null" "null" t i
  | MSphere _ _ _ ins out _ => FrMesh name "sdf_sphere" "" ins out "" i
  | MPlane _ _ _ ins out _ => FrMesh name "sdf_plane" "" ins out "" i
  | MBox _ _ ins out _ => FrMesh name "sdf_box" "" ins out "" i
  | MCylinder _ _ _ ins out _ => FrMesh name "sdf_cylinder" "" ins out "" i
  | MCone _ _ _ _ ins out _ => FrMesh name "sdf_cone" "" ins out "" i
  end.
Definition to_call (i : nat) (it : item) : call :=
  match it with
  | IScene _ a b c d _ _ _ => FrScene a b c d
  | IMedia n te ph ms de tf _ _ => FrMedia n te ph ms de tf i
  | IDensity n _ _ => FrDensity n "sphere" i
  | INaive _ => FrAccel "light_naive"
  | ISpatial _ _ _ _ => FrAccel "light_spatial"
  | IIntegrator n ty f _ _ _ _ => FrIntegrator n ty f i
  | IPhotons n f _ _ _ _ _ => FrIntegrator n "photon" f i
  | ISampler n _ _ => FrSampler n "independent" i
  | ICamera n _ _ _ _ _ _ _ _ _ _ => FrCamera n "perspective" i
  | IObject n m a e => FrObject n m a e
  | IMesh n p => mesh_call n p i
  | IEmitter n p =>
    match p with
    | EPoint _ _ => FrEmitter n "point" "" i | EMesh _ => FrEmitter n "mesh" "" i | EEnvironment _ t => FrEmitter n "environment" t i
    | EDirectional _ _ => FrEmitter n "directional" "" i | EDirMesh _ _ => FrEmitter n "directional_mesh" "" i | ESpot _ _ _ _ => FrEmitter n "spot" "" i
    end
  | IBsdf n p =>
    FrBsdf n match p with BDiffuse _ => "diffuse" | BMirror _ => "mirror" | BDielectric _ _ => "dielectric" | BPhong _ _ _ => "phong" | BBlinn _ _ _ => "blinn" end i
  | IShader n p => match p with SSphere _ _ => FrShader n "interp_verts_to_sphere" "" "" i | SSimple b => FrShader n "simple_material" b "" i end
  | ITexture n _ _ => FrTexture n "image" i
  | ITransform c => FrTransform c
  end.
(** the calls one after another; nothing catches an exception *)
Fixpoint exec (clocking : bool) (i : nat) (l : list item) (s : api) : api * exit unit :=
  match l with
  | [] => (s, Ret tt)
  | it :: l' =>
    match run_call clocking (to_call i it) s with
    | (s', Ret _) => exec clocking (Datatypes.S i) l' s'
    | (s', Exn e) => (s', Exn e)
    | (s', Crash) => (s', Crash)
    | (s', Fuel) => (s', Fuel)
    end
  end.
(** lines 56-231: a file that cannot be opened, or is not an object, is [None] *)
Definition load (clocking : bool) (d : option json) : api * exit unit :=
  match d with
  | Some (JObj d) =>
    let (l, o) := parse_doc d in
    match exec clocking 0 l api_init with
    | (s, Ret _) => (s, match o with Ok _ => Ret tt | Throw e => Exn e | UB => Crash | OutOfFuel => Fuel end)
    | r => r
    end
  | _ => (api_init, Crash)
  end.
