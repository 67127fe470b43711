(** src/api/api.cpp: the scene-description interface (fr_* calls), its name tables
    (find_* functions) and the hand-over to the scene in flush_renders.

    Simplifications.
    - Node pointers are positions in one growing heap ([new] appends, nothing is freed
      before [clean_up]); the 17 [std::unordered_map]s are one list of
      (kind, name, pointer) entries.  Iteration order of a map is unspecified in C++, so
      [flush] takes the order as an argument.
    - A parameter block ([void *]) is reduced to the names it contains; every other field
      is the opaque number [data].  Constructors of the described things (file loading in
      ObjMesh, OpenVDBDensity, ImageTexture::preProcess, ...) are assumed to succeed.
    - Only the API clock is part of the state ([clk]); [clocking] is the macro CLOCKING
      (common.h:29-99, [true] in the repository's configuration).
    - [Crash] is undefined behaviour or a failed [assert]; nothing is claimed after it. *)
From Coq Require Import String List Bool Arith ZArith.
From Coq Require Import Numbers.DecimalString.
From Verif.Model Require Import Vec Matrix ApiTransform.
Import ListNotations.
Open Scope string_scope.

(** one tag per name table: api.h member maps, initialised in api.cpp:44-82 *)
Inductive kind :=
| KBsdf | KIntegrator | KCamera | KEmitter | KMedia | KSampler | KFilter | KObject
| KMesh | KGeom | KMat | KTexture | KDensity | KPhase | KMedSamp | KTransEst | KTransFunc.

Definition kind_eq_dec (a b : kind) : {a = b} + {a <> b}.
Proof. decide equality. Defined.

Definition ptr := nat.

(** the thing a node holds: which class was constructed, the nodes handed to its
    constructor, and the remaining parameters *)
Record payload := Pay { pty : string; prefs : list (option ptr); pdata : nat }.

(** a node of any kind: Node base class (name); the definition pointer
    ([BSDFNode::bsdf], [MeshNode::mesh], ...); EmitterNode::objectNode (emitter.h:492);
    ObjectNode::{mesh, material_shader, emitter, transform} (shape.h:113-119) *)
Record node := Node {
  nkind : kind; nname : string; ndef : option payload; nobj : option ptr;
  omesh : option ptr; omat : option ptr; oemit : option ptr; otrans : transform }.

(** node constructors: every pointer member starts as nullptr
    (ObjectNode leaves material_shader uninitialised; it is never read before
    fr_object sets it) *)
Definition new_node (k : kind) (n : string) : node :=
  Node k n None None None None None tf_id.

(** Scene (scene.cpp:13-36): referenced nodes and the lists that calls fill.  An Emitter is
    identified with the node that owns it. *)
Record scene := Scn {
  s_integ : ptr; s_samp : ptr; s_cam : ptr; s_media : option ptr;
  s_emit : list ptr; s_env : list ptr; s_light : option string }.

Record api := Api {
  heap : list node; reg : list (kind * string * ptr); cur : transform;
  scn : option scene; clk : bool }.

(** FeignRenderer::FeignRenderer, api.cpp:44-85, and Clocker::Clocker, clocker.cpp:219-224 *)
Definition api_init : api := Api [] [] tf_id None false.

Inductive exit (A : Type) := Ret (a : A) | Exn (msg : string) | Crash | Fuel.
Arguments Ret {A} a. Arguments Exn {A} msg. Arguments Crash {A}. Arguments Fuel {A}.

Definition M (A : Type) := api -> api * exit A.
Definition ret {A} (a : A) : M A := fun s => (s, Ret a).
Definition bindM {A B} (m : M A) (f : A -> M B) : M B := fun s =>
  match m s with
  | (s', Ret a) => f a s'
  | (s', Exn e) => (s', Exn e)
  | (s', Crash) => (s', Crash)
  | (s', Fuel) => (s', Fuel)
  end.
Declare Scope api_scope.
Delimit Scope api_scope with api.
Notation "x <- m ;; f" := (bindM m (fun x => f))
  (at level 61, m at next level, right associativity) : api_scope.
Notation "m ;; f" := (bindM m (fun _ => f)) (at level 61, right associativity) : api_scope.
Open Scope api_scope.

Definition throw {A} (e : string) : M A := fun s => (s, Exn e).
Definition crash {A} : M A := fun s => (s, Crash).
(** pointer dereference *)
Definition nonnull (p : option ptr) : M ptr :=
  match p with Some q => ret q | None => crash end.
Definition get (p : ptr) : M node := fun s =>
  match nth_error (heap s) p with Some n => (s, Ret n) | None => (s, Crash) end.

Fixpoint upd {A} (l : list A) (i : nat) (f : A -> A) : list A :=
  match l, i with
  | [], _ => []
  | a :: l', O => f a :: l'
  | a :: l', S j => a :: upd l' j f
  end.
Definition modify (p : ptr) (f : node -> node) : M unit := fun s =>
  (Api (upd (heap s) p f) (reg s) (cur s) (scn s) (clk s), Ret tt).

Definition put_def (d : option payload) (n : node) : node :=
  Node (nkind n) (nname n) d (nobj n) (omesh n) (omat n) (oemit n) (otrans n).
Definition set_def (p : ptr) (d : payload) : M unit := modify p (put_def (Some d)).

(** [map.find(name)] *)
Definition key_eqb (k : kind) (n : string) (e : kind * string * ptr) : bool :=
  match e with (k', n', _) => if kind_eq_dec k k' then String.eqb n n' else false end.
Definition lookup (s : api) (k : kind) (n : string) : option ptr :=
  match find (key_eqb k n) (reg s) with Some (_, _, p) => Some p | None => None end.

(** [node = new XNode(name); map.insert({name, node});] *)
Definition alloc (k : kind) (n : string) : M ptr := fun s =>
  let p := length (heap s) in
  (Api (heap s ++ [new_node k n]) (reg s ++ [(k, n, p)]) (cur s) (scn s) (clk s), Ret p).

Definition find_or (k : kind) (n : string) (fresh : ptr -> M unit) : M ptr := fun s =>
  match lookup s k n with
  | Some p => (s, Ret p)
  | None => (p <- alloc k n;; fresh p;; ret p) s
  end.

(** find_integrator 180-194, find_camera 196-210, find_sampler 255-269, find_object
    295-309, find_mesh 311-325, find_geometry_shader 327-341: plain tables *)
Definition find_plain (k : kind) (n : string) : M ptr := find_or k n (fun _ => ret tt).

(** the tables whose "default" entry is filled in on creation: find_bsdf 158-178,
    find_filter 271-293, and with [""] giving nullptr find_phase_func 408-431,
    find_medium_sampling 433-456, find_transmittance_estimator 458-482,
    find_transmittance_func 484-507 *)
Definition find_default (k : kind) (d : payload) (n : string) : M ptr :=
  find_or k n (fun p => if String.eqb n "default" then set_def p d else ret tt).
Definition unless (b : bool) (m : M ptr) : M (option ptr) :=
  if b then ret None else (p <- m;; ret (Some p)).

Definition null_bsdf : payload := Pay "nullbsdf" [] 0.
Definition gauss_filter : payload := Pay "gauss" [] 0.
Definition hg_zero : payload := Pay "hg" [] 0.
Definition analytic_samp : payload := Pay "constant" [] 0.
Definition homo_trans : payload := Pay "homo" [] 0.
Definition exp_trans : payload := Pay "exp" [] 0.

Definition find_bsdf := find_default KBsdf null_bsdf.
Definition find_filter := find_default KFilter gauss_filter.
Definition find_phase (n : string) : M (option ptr) :=
  unless (String.eqb n "") (find_default KPhase hg_zero n).
Definition find_med_samp (n : string) : M (option ptr) :=
  unless (String.eqb n "") (find_default KMedSamp analytic_samp n).
Definition find_trans_est (n : string) : M (option ptr) :=
  unless (String.eqb n "") (find_default KTransEst homo_trans n).
Definition find_trans_func (n : string) : M (option ptr) :=
  unless (String.eqb n "") (find_default KTransFunc exp_trans n).
(** find_emitter 212-231 *)
Definition find_emitter (n : string) : M (option ptr) :=
  unless (String.eqb n "null") (find_plain KEmitter n).
(** find_media 233-253 *)
Definition find_media (n : string) : M (option ptr) :=
  unless (String.eqb n "null" || String.eqb n "default") (find_plain KMedia n).
(** find_texture 366-385 *)
Definition find_texture (n : string) : M (option ptr) :=
  unless (String.eqb n "" || String.eqb n "default") (find_plain KTexture n).
(** find_density_func 387-406 *)
Definition find_density (n : string) : M (option ptr) :=
  unless (String.eqb n "") (find_plain KDensity n).
(** find_material_shader 343-364: "default" also creates the default BSDF *)
Definition simple_material (b : ptr) : payload := Pay "simple_material" [Some b] 0.
Definition find_mat (n : string) : M ptr :=
  find_or KMat n (fun p =>
    if String.eqb n "default" then (b <- find_bsdf "default";; set_def p (simple_material b))
    else ret tt).

Definition set_cur (t : transform) : M unit := fun s =>
  (Api (heap s) (reg s) t (scn s) (clk s), Ret tt).
Definition get_cur : M transform := fun s => (s, Ret (cur s)).
Definition set_scn (x : scene) : M unit := fun s =>
  (Api (heap s) (reg s) (cur s) (Some x) (clk s), Ret tt).
(** [getInstance()->scene->scene] *)
Definition get_scn : M scene := fun s =>
  match scn s with Some x => (s, Ret x) | None => (s, Crash) end.

(** [if (node->def) throw ...] *)
Definition check_undef (p : ptr) (e : string) : M unit :=
  n <- get p;; match ndef n with Some _ => throw e | None => ret tt end.

Definition one_of (t : string) (l : list string) : bool := existsb (String.eqb t) l.

(** Scene::addEmitter, scene.cpp:337-343, with the overrides of emitter.h:86-87, 461-462:
    only EnvironmentEmitter is an environment emitter, and it is environment-only *)
Definition is_env (t : string) : bool := String.eqb t "environment".
Definition is_env_only (t : string) : bool := String.eqb t "environment".
Definition add_emitter (p : ptr) (t : string) : M unit :=
  x <- get_scn;;
  let env := if is_env t then (s_env x ++ [p])%list else s_env x in
  let em := if negb (is_env_only t) then (s_emit x ++ [p])%list else s_emit x in
  set_scn (Scn (s_integ x) (s_samp x) (s_cam x) (s_media x) em env (s_light x)).

Section Config.
Variable clocking : bool.

(** CLOCKER_START_ONE / CLOCKER_STOP_ONE(ClockerType::API): clocker.h:50-53, 105-107;
    clocker.cpp:243-263 *)
Definition set_clk (b : bool) : M unit := fun s =>
  (Api (heap s) (reg s) (cur s) (scn s) b, Ret tt).
Definition get_clk : M bool := fun s => (s, Ret (clk s)).
Definition start_api : M unit :=
  if clocking then b <- get_clk;; (if b then throw "api already active" else set_clk true)
  else ret tt.
Definition stop_api : M unit :=
  if clocking then b <- get_clk;; (if b then set_clk false else throw "api not active")
  else ret tt.

(** fr_accel, 509-548 *)
Definition fr_accel (ty : string) : M unit :=
  start_api;;
  x <- get_scn;;
  (if one_of ty ["light_naive"; "light_spatial"]
   then set_scn (Scn (s_integ x) (s_samp x) (s_cam x) (s_media x) (s_emit x) (s_env x)
                     (Some ty))
   else throw "unsupported accelerator");;
  stop_api.

(** fr_scene, 550-591 *)
Definition fr_scene (integ samp cam med : string) : M unit :=
  start_api;;
  (fun s => match scn s with
            | Some _ => (s, Exn "currently only one scene may be constructed")
            | None => (s, Ret tt) end);;
  i <- find_plain KIntegrator integ;;
  sa <- find_plain KSampler samp;;
  c <- find_plain KCamera cam;;
  m <- (if String.eqb med "" then ret None else find_media med);;
  set_scn (Scn i sa c m [] [] None);;
  stop_api.

(** fr_integrator, 593-674 *)
Definition integrator_types : list string :=
  ["ao"; "normal"; "nice_normal"; "whitted"; "cosine_term"; "barycentric"; "path";
   "volpath"; "volpath_nonexp"; "volpath_trans"; "photon"; "sandbox"].
Definition fr_integrator (name ty filter : string) (data : nat) : M unit :=
  start_api;;
  p <- find_plain KIntegrator name;;
  f <- find_filter filter;;
  check_undef p "integrator already defined";;
  (if one_of ty integrator_types then set_def p (Pay ty [Some f] data)
   else throw "unsupported integrator");;
  stop_api.

(** fr_sampler, 676-704 ("latin" is recognised but throws) *)
Definition fr_sampler (name ty : string) (data : nat) : M unit :=
  start_api;;
  p <- find_plain KSampler name;;
  check_undef p "sampler already defined";;
  (if String.eqb ty "independent" then set_def p (Pay ty [] data)
   else throw "unsupported sampler");;
  stop_api.

(** fr_camera, 706-756; the look-at matrix is Model/Camera.v *)
Definition fr_camera (name ty : string) (data : nat) : M unit :=
  start_api;;
  p <- find_plain KCamera name;;
  check_undef p "camera already defined";;
  (if String.eqb ty "perspective" then set_def p (Pay ty [] data)
   else throw "unsupported camera type");;
  stop_api.

(** [name += "_" + std::to_string(index)] when [index >= 0], 767-768; [index] is an int
    that callers leave at its default -1, here [None] = -1 *)
Definition index_name (name : string) (index : option nat) : string :=
  match index with
  | None => name
  | Some i => name ++ "_" ++ NilZero.string_of_uint (Nat.to_uint i)
  end.
Definition next_index (index : option nat) : nat :=
  match index with None => 0 | Some i => S i end.

(** fr_object, 758-799 *)
Fixpoint fr_object_rec (fuel : nat) (name mesh mat emitter : string) (index : option nat)
  : M unit :=
  match fuel with
  | O => fun s => (s, Fuel)
  | S fuel' =>
    start_api;;
    let name' := index_name name index in
    o <- find_plain KObject name';;
    n <- get o;;
    match omesh n with
    | Some _ => fr_object_rec fuel' name' mesh mat emitter (Some (next_index index))
    | None =>
      t <- get_cur;;
      modify o (fun n => Node (nkind n) (nname n) (ndef n) (nobj n) (omesh n) (omat n)
                              (oemit n) t);;
      m <- find_plain KMesh mesh;;
      modify o (fun n => Node (nkind n) (nname n) (ndef n) (nobj n) (Some m) (omat n)
                              (oemit n) (otrans n));;
      ma <- find_mat mat;;
      modify o (fun n => Node (nkind n) (nname n) (ndef n) (nobj n) (omesh n) (Some ma)
                              (oemit n) (otrans n));;
      (if negb (String.eqb emitter "null") && negb (String.eqb emitter "") then
         e0 <- find_emitter emitter;;
         e <- nonnull e0;;
         modify e (fun n => Node (nkind n) (nname n) (ndef n) (Some o) (omesh n) (omat n)
                                 (oemit n) (otrans n));;
         modify o (fun n => Node (nkind n) (nname n) (ndef n) (nobj n) (omesh n) (omat n)
                                 (Some e) (otrans n))
       else ret tt);;
      stop_api
    end
  end.
(** the recursion is entered at most once per registered name (proved: never [Fuel]) *)
Definition fr_object (name mesh mat emitter : string) : M unit := fun s =>
  fr_object_rec (S (S (length (reg s)))) name mesh mat emitter None s.

(** the medium boundary block repeated in fr_mesh, e.g. 822-830 *)
Definition boundary (inside outside : string) : M (list (option ptr)) :=
  if negb (String.eqb inside "null") || negb (String.eqb outside "null")
  then (i <- find_media inside;; o <- find_media outside;; ret [i; o]) else ret [].

(** fr_mesh, 803-954 *)
Definition fr_mesh (name ty shader inside outside texture : string) (data : nat) : M unit :=
  start_api;;
  p <- find_plain KMesh name;;
  check_undef p "mesh already defined";;
  (if String.eqb ty "triangle_mesh" then
     g <- find_plain KGeom shader;;
     b <- boundary inside outside;;
     set_def p (Pay ty (Some g :: b) data)
   else if String.eqb ty "grid" then
     g <- find_plain KGeom shader;;
     t <- find_texture texture;;
     set_def p (Pay ty [Some g; t] data)
   else if one_of ty ["sdf_sphere"; "sdf_plane"; "sdf_box"; "sdf_cylinder"; "sdf_cone"] then
     b <- boundary inside outside;;
     set_def p (Pay ty b data)
   else throw "mesh type not recognized");;
  stop_api.

(** fr_shader, 956-1013 *)
Definition fr_shader (name ty b1 b2 : string) (data : nat) : M unit :=
  start_api;;
  (if String.eqb ty "interp_verts_to_sphere" then
     p <- find_plain KGeom name;;
     check_undef p "geometry shader already defined";;
     set_def p (Pay ty [] data)
   else if String.eqb ty "simple_material" then
     p <- find_mat name;;
     check_undef p "material shader already defined";;
     b <- find_bsdf b1;;
     set_def p (Pay ty [Some b] data)
   else if String.eqb ty "wireframe" then
     p <- find_mat name;;
     check_undef p "wireframe shader already defined";;
     w <- find_bsdf b1;;
     m <- find_bsdf b2;;
     set_def p (Pay ty [Some w; Some m] data)
   else throw "shader type not recognized");;
  stop_api.

(** fr_media, 1015-1051 *)
Definition fr_media (name te ph ms de tf : string) (data : nat) : M unit :=
  start_api;;
  p0 <- find_media name;;
  p <- nonnull p0;;
  check_undef p "media already defined";;
  a <- find_trans_est te;;
  b <- find_phase ph;;
  c <- find_med_samp ms;;
  d <- find_density de;;
  e <- find_trans_func tf;;
  set_def p (Pay "media" [a; b; c; d; e] data);;
  stop_api.

(** the remaining single-table definitions: look the name up, refuse a second
    definition, construct when the type string is one that is supported *)
Definition fr_simple (fnd : M (option ptr)) (dup bad : string) (types : list string)
    (ty : string) (data : nat) : M unit :=
  start_api;;
  p0 <- fnd;;
  p <- nonnull p0;;
  check_undef p dup;;
  (if one_of ty types then set_def p (Pay ty [] data) else throw bad);;
  stop_api.

(** fr_medium_density, 1053-1105 *)
Definition fr_density (name ty : string) :=
  fr_simple (find_density name) "density function already defined"
    "medium density not recognized" ["constant"; "openvdb"; "mandlebrot"; "sphere"] ty.
(** fr_medium_phase, 1107-1118: always throws *)
Definition fr_phase : M unit := start_api;; throw "medium phase type not recognized".
(** fr_medium_sampling, 1120-1164 *)
Definition fr_med_samp (name ty : string) :=
  fr_simple (find_med_samp name) "medium sampling already defined"
    "medium sampling not recognized" ["delta"; "ray"; "constant"] ty.
(** fr_medium_transmittance, 1166-1221 *)
Definition fr_trans_est (name ty : string) :=
  fr_simple (find_trans_est name) "transmittance estimator already defined"
    "transmittance estimator not recognized" ["homo"; "delta"; "ratio"; "pseries"; "ray"] ty.
(** fr_medium_transmittance_func, 1223-1258 *)
Definition fr_trans_func (name ty : string) :=
  fr_simple (find_trans_func name) "transmittance function already defined"
    "transmittance function not recognized" ["exp"; "lin"] ty.
(** fr_texture, 1419-1455 *)
Definition fr_texture (name ty : string) :=
  fr_simple (find_texture name) "texture already defined"
    "texture not supported" ["image"; "sin"] ty.

(** fr_emitter, 1260-1326 *)
Definition fr_emitter (name ty texture : string) (data : nat) : M unit :=
  start_api;;
  p0 <- find_emitter name;;
  p <- nonnull p0;;
  check_undef p "emitter already defined";;
  (if one_of ty ["point"; "mesh"; "directional"; "directional_mesh"; "spot"] then
     set_def p (Pay ty [] data);; add_emitter p ty
   else if String.eqb ty "environment" then
     t <- find_texture texture;;
     set_def p (Pay ty [t] data);; add_emitter p ty
   else throw "emitter type not recognized");;
  stop_api.

(** fr_bsdf, 1353-1417: type "null" stores nullptr, an unknown type fails an assert *)
Definition fr_bsdf (name ty : string) (data : nat) : M unit :=
  start_api;;
  p <- find_bsdf name;;
  check_undef p "bsdf already defined";;
  (if one_of ty ["diffuse"; "mirror"; "dielectric"; "one_way_dielectric"; "nullbsdf";
                 "phong"; "blinn"] then set_def p (Pay ty [] data)
   else if String.eqb ty "null" then modify p (put_def None)
   else crash);;
  stop_api.

(** fr_clear_transform / fr_scale / fr_translate / fr_rotate, 1457-1497 *)
Definition fr_transform (c : tcall) : M unit :=
  start_api;;
  t <- get_cur;;
  set_cur (tstep t c);;
  stop_api.

Inductive call :=
| FrAccel (ty : string)
| FrScene (integ samp cam med : string)
| FrIntegrator (name ty filter : string) (data : nat)
| FrSampler (name ty : string) (data : nat)
| FrCamera (name ty : string) (data : nat)
| FrObject (name mesh mat emitter : string)
| FrMesh (name ty shader inside outside texture : string) (data : nat)
| FrShader (name ty b1 b2 : string) (data : nat)
| FrMedia (name te ph ms de tf : string) (data : nat)
| FrDensity (name ty : string) (data : nat)
| FrPhase (name ty : string)
| FrMedSamp (name ty : string) (data : nat)
| FrTransEst (name ty : string) (data : nat)
| FrTransFunc (name ty : string) (data : nat)
| FrEmitter (name ty texture : string) (data : nat)
| FrBsdf (name ty : string) (data : nat)
| FrTexture (name ty : string) (data : nat)
| FrTransform (c : tcall).

Definition run_call (c : call) : M unit :=
  match c with
  | FrAccel t => fr_accel t
  | FrScene i s c m => fr_scene i s c m
  | FrIntegrator n t f d => fr_integrator n t f d
  | FrSampler n t d => fr_sampler n t d
  | FrCamera n t d => fr_camera n t d
  | FrObject n m a e => fr_object n m a e
  | FrMesh n t s i o x d => fr_mesh n t s i o x d
  | FrShader n t b1 b2 d => fr_shader n t b1 b2 d
  | FrMedia n a b c d e x => fr_media n a b c d e x
  | FrDensity n t d => fr_density n t d
  | FrPhase _ _ => fr_phase
  | FrMedSamp n t d => fr_med_samp n t d
  | FrTransEst n t d => fr_trans_est n t d
  | FrTransFunc n t d => fr_trans_func n t d
  | FrEmitter n t x d => fr_emitter n t x d
  | FrBsdf n t d => fr_bsdf n t d
  | FrTexture n t d => fr_texture n t d
  | FrTransform c => fr_transform c
  end.

(** A history: the caller issues calls one after another and catches whatever they
    throw.  [None] once a call crashed (or ran out of fuel). *)
Fixpoint run (cs : list call) (s : api) : option (api * list (exit unit)) :=
  match cs with
  | [] => Some (s, [])
  | c :: cs' =>
    match run_call c s with
    | (s', Ret a) =>
        match run cs' s' with Some (z, l) => Some (z, Ret a :: l) | None => None end
    | (s', Exn e) =>
        match run cs' s' with Some (z, l) => Some (z, Exn e :: l) | None => None end
    | (_, Crash) | (_, Fuel) => None
    end
  end.

(** flush_renders, 1499-1582, up to the hand-over to the renderer.  [w_tf] and [w_inst]
    are Shape::transform (identity after construction) and Shape::instID of the shape
    owned by each mesh node. *)
Record world := World {
  w_shapes : list ptr; w_objects : list ptr; w_mediums : list ptr;
  w_tf : ptr -> transform; w_inst : ptr -> nat;
  w_emesh : ptr -> option ptr (* mesh node given to an emitter by setMeshNode *) }.

Definition fupd {A} (f : ptr -> A) (p : ptr) (a : A) : ptr -> A :=
  fun q => if Nat.eqb q p then a else f q.

Definition world0 : world :=
  World [] [] [] (fun _ => tf_id) (fun _ => 0) (fun _ => None).

(** body of the object loop, 1516-1533 *)
Definition flush_object (s : api) (w : world) (o : ptr) : exit world :=
  match nth_error (heap s) o with
  | Some n =>
    match omesh n with
    | Some m =>
      match nth_error (heap s) m with
      | Some mn =>
        match ndef mn with
        | None => Exn "mesh is not initialized"
        | Some _ =>
          Ret (World (w_shapes w ++ [m]) (w_objects w ++ [o]) (w_mediums w)
                     (fupd (w_tf w) m (tf_mul (otrans n) (w_tf w m)))
                     (fupd (w_inst w) m (length (w_objects w)))
                     (w_emesh w))
        end
      | None => Crash
      end
    | None => Crash
    end
  | None => Crash
  end.

(** body of the emitter loop, 1538-1544 *)
Definition flush_emitter (s : api) (w : world) (e : ptr) : exit world :=
  match nth_error (heap s) e with
  | Some n =>
    match nobj n with
    | None => Ret w
    | Some o =>
      match ndef n, nth_error (heap s) o with
      | Some _, Some on =>
          Ret (World (w_shapes w) (w_objects w) (w_mediums w) (w_tf w) (w_inst w)
                     (fupd (w_emesh w) e (omesh on)))
      | _, _ => Crash
      end
    end
  | None => Crash
  end.

(** body of the medium loop, 1550-1557 *)
Definition flush_media (s : api) (w : world) (m : ptr) : exit world :=
  Ret (World (w_shapes w) (w_objects w) (w_mediums w ++ [m]) (w_tf w) (w_inst w) (w_emesh w)).

Fixpoint loopE {A S} (f : S -> A -> exit S) (l : list A) (s : S) : exit S :=
  match l with
  | [] => Ret s
  | a :: l' =>
    match f s a with
    | Ret s' => loopE f l' s' | Exn e => Exn e | Crash => Crash | Fuel => Fuel
    end
  end.

(** the object and emitter related part of Scene::preProcess, scene.cpp:103-124: the
    camera, every object's emitter and every medium are dereferenced *)
Definition defined (s : api) (p : ptr) : bool :=
  match nth_error (heap s) p with
  | Some n => match ndef n with Some _ => true | None => false end
  | None => false
  end.
Definition pre_object (s : api) (w : world) (o : ptr) : exit world :=
  match nth_error (heap s) o with
  | Some n =>
    match oemit n with
    | None => Ret w
    | Some e =>
      if defined s e then
        Ret (World (w_shapes w) (w_objects w) (w_mediums w) (w_tf w) (w_inst w)
                   (fupd (w_emesh w) e (omesh n)))
      else Crash
    end
  | None => Crash
  end.
Definition scene_pre (s : api) (x : scene) (w : world) : exit world :=
  if negb (defined s (s_cam x)) then Crash else
  match loopE (pre_object s) (w_objects w) w with
  | Ret w' => if forallb (defined s) (w_mediums w') then Ret w' else Crash
  | r => r
  end.

(** CHECK_EXISTS at the head of Scene::renderScene, scene.cpp:127-135 *)
Definition render_checks (s : api) (x : scene) (w : world) : exit world :=
  if negb (defined s (s_integ x)) then Exn "scene: no specified integrator"
  else if negb (defined s (s_samp x)) then Exn "scene: no specified sampler"
  else Ret w.

(** [objs], [ems], [meds]: the order in which the three maps are iterated *)
Definition flush (objs ems meds : list ptr) (s : api) : exit world :=
  if clocking && clk s then Exn "api already active" else
  match scn s with
  | None => Crash
  | Some x =>
    match loopE (flush_object s) objs world0 with
    | Ret w1 =>
      match loopE (flush_emitter s) ems w1 with
      | Ret w2 =>
        match loopE (flush_media s) meds w2 with
        | Ret w3 =>
          match scene_pre s x w3 with Ret w4 => render_checks s x w4 | r => r end
        | r => r
        end
      | r => r
      end
    | r => r
    end
  end.

End Config.

(** the entries of one map *)
Definition entries (s : api) (k : kind) : list ptr :=
  map (fun e => snd e)
    (filter (fun e => if kind_eq_dec k (fst (fst e)) then true else false) (reg s)).
