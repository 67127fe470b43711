(** What a scene file says: for every kind of block the names of its members, the values they stand
    for and the values that hold when they are left out. *)
From Coq Require Import Reals ZArith List String.
From Verif.Model Require Import Vec Matrix ApiTransform Api Json.
From Verif.Spec Require Import ApiSpec.
Import ListNotations.
Local Open Scope string_scope.
Open Scope R_scope.

Inductive value := VStr (s : string) | VBool (b : bool) | VInt (z : Z) | VInts (l : list Z) | VNum (x : R) | VNums (l : list R).
Definition vec (v : vec3) : value := VNums [vx v; vy v; vz v].

(** how a value is written; further entries of an array mean nothing *)
Definition is_int (j : json) (z : Z) : Prop := j = JInt z /\ (- 2 ^ 31 <= z < 2 ^ 31)%Z.
Definition is_num (j : json) (x : R) : Prop := j = JNum x \/ exists z, j = JInt z /\ x = IZR z.
Definition shows (j : json) (v : value) : Prop :=
  match v with
  | VStr s => j = JStr s
  | VBool b => j = JBool b
  | VInt z => is_int j z
  | VNum x => is_num j x
  | VInts l => exists a rest, j = JArr (a ++ rest)%list /\ Forall2 is_int a l
  | VNums l => exists a rest, j = JArr (a ++ rest)%list /\ Forall2 is_num a l
  end.

(** the first member of a name *)
Definition first_member (m : list (string * json)) (k : string) (j : json) : Prop :=
  exists a b, m = (a ++ (k, j) :: b)%list /\ ~ In k (map fst a).
Definition no_member (m : list (string * json)) (k : string) : Prop := ~ In k (map fst m).

Definition boundary_fields (inside outside : string) (is_null : bool) : list (string * value) :=
  [("inside_media", VStr inside); ("outside_media", VStr outside); ("is_null", VBool is_null)].
Definition mesh_fields (p : mesh_params) : list (string * value) :=
  match p with
  | MTriangles f g fl i o n => ("type", VStr "triangle_mesh") :: ("filename", VStr f) :: ("geom_shader", VStr g) :: ("flip_norms", VBool fl) :: boundary_fields i o n
  | MGrid t g rx ry => [("type", VStr "grid"); ("texture", VStr t); ("geom_shader", VStr g); ("resolution", VInts [rx; ry])]
  | MSphere c r a i o n => ("type", VStr "sdf_sphere") :: ("center", vec c) :: ("radius", VNum r) :: ("interp", VNum a) :: boundary_fields i o n
  | MPlane c v a i o n => ("type", VStr "sdf_plane") :: ("center", vec c) :: ("normal", vec v) :: ("interp", VNum a) :: boundary_fields i o n
  | MBox t b i o n => ("type", VStr "sdf_box") :: ("tlc", vec t) :: ("brc", vec b) :: boundary_fields i o n
  | MCylinder f s r i o n => ("type", VStr "sdf_cylinder") :: ("first", vec f) :: ("second", vec s) :: ("radius", VNum r) :: boundary_fields i o n
  | MCone f s r r' i o n => ("type", VStr "sdf_cone") :: ("first", vec f) :: ("second", vec s) :: ("radius_1", VNum r) :: ("radius_2", VNum r') :: boundary_fields i o n
  end.
Definition emitter_fields (p : emitter_params) : list (string * value) :=
  match p with
  | EPoint i p => [("type", VStr "point"); ("intensity", vec i); ("position", vec p)]
  | EMesh i => [("type", VStr "mesh"); ("intensity", vec i)]
  | EEnvironment i t => [("type", VStr "environment"); ("intensity", vec i); ("texture", VStr t)]
  | EDirectional d r => [("type", VStr "directional"); ("light_dir", vec d); ("radiance", vec r)]
  | EDirMesh d i => [("type", VStr "directional_mesh"); ("light_dir", vec d); ("intensity", vec i)]
  | ESpot p d r a => [("type", VStr "spot"); ("light_pos", vec p); ("light_dir", vec d); ("radiance", vec r); ("light_angle", VNum a)]
  end.
Definition bsdf_fields (p : bsdf_params) : list (string * value) :=
  match p with
  | BDiffuse a => [("type", VStr "diffuse"); ("albedo", vec a)]
  | BMirror a => [("type", VStr "mirror"); ("albedo", vec a)]
  | BDielectric i e => [("type", VStr "dielectric"); ("int_ior", VNum i); ("ext_ior", VNum e)]
  | BPhong kd ks e => [("type", VStr "phong"); ("kd", vec kd); ("ks", VNum ks); ("exponent", VNum e)]
  | BBlinn kd ks e => [("type", VStr "blinn"); ("kd", vec kd); ("ks", vec ks); ("exponent", VNum e)]
  end.
(** the name of a block and its members; a medium's coefficients have no members *)
Definition block (i : item) : string :=
  match i with
  | IScene _ _ _ _ _ _ _ _ => "scene" | IMedia _ _ _ _ _ _ _ _ => "media" | IDensity _ _ _ => "media_density" | INaive _ | ISpatial _ _ _ _ => "accel"
  | IIntegrator _ _ _ _ _ _ _ | IPhotons _ _ _ _ _ _ _ => "integrator" | ISampler _ _ _ => "sampler" | ICamera _ _ _ _ _ _ _ _ _ _ _ => "camera"
  | IObject _ _ _ _ => "object" | IMesh _ _ => "mesh" | IEmitter _ _ => "emitter" | IBsdf _ _ => "bsdf" | IShader _ _ => "shader" | ITexture _ _ _ => "texture"
  | ITransform _ => ""
  end.
Definition fields (i : item) : list (string * value) :=
  match i with
  | IScene n i s c m k d f => [("name", VStr n); ("integrator", VStr i); ("sampler", VStr s); ("camera", VStr c); ("medium", VStr m); ("keywords", VStr k); ("description", VStr d); ("sdf_mode", VBool f)]
  | IMedia n te ph ms de tf _ _ => [("name", VStr n); ("trans_est", VStr te); ("phase", VStr ph); ("sampling", VStr ms); ("density", VStr de); ("trans_func", VStr tf)]
  | IDensity n d r => [("name", VStr n); ("type", VStr "sphere"); ("density", VNum d); ("radius", VNum r)]
  | INaive n => [("name", VStr n); ("type", VStr "light_naive")]
  | ISpatial n w h d => [("name", VStr n); ("type", VStr "light_spatial"); ("width", VInt w); ("height", VInt h); ("depth", VInt d)]
  | IIntegrator n t f mt mh l mb => [("name", VStr n); ("type", VStr t); ("filter", VStr f); ("max_time", VInt mt); ("max_heuristic", VInt mh); ("location", VStr l); ("max_bounces", VInt mb)]
  | IPhotons n f mt mh l ph mb => [("name", VStr n); ("type", VStr "photon"); ("filter", VStr f); ("max_time", VInt mt); ("max_heuristic", VInt mh); ("location", VStr l); ("photons", VInt ph); ("max_bounces", VInt mb)]
  | ISampler n c s => [("name", VStr n); ("type", VStr "independent"); ("sample_count", VInt c); ("seed", VInt s)]
  | ICamera n o t u fov ne fa fo ap w h =>
    [("name", VStr n); ("type", VStr "perspective"); ("lookat", VNums [vx o; vy o; vz o; vx t; vy t; vz t; vx u; vy u; vz u]); ("fov", VNum fov);
     ("near", VNum ne); ("far", VNum fa); ("focal_dist", VNum fo); ("app_radius", VNum ap); ("width", VInt w); ("height", VInt h)]
  | IObject n m a e => [("name", VStr n); ("mesh", VStr m); ("material_shader", VStr a); ("emitter", VStr e)]
  | IMesh n p => ("name", VStr n) :: mesh_fields p
  | IEmitter n p => ("name", VStr n) :: emitter_fields p
  | IBsdf n p => ("name", VStr n) :: bsdf_fields p
  | IShader n (SSphere a b) => [("name", VStr n); ("type", VStr "interp_verts_to_sphere"); ("prop_of_minor_axis", VNum a); ("proxy", VNum b)]
  | IShader n (SSimple b) => [("name", VStr n); ("type", VStr "simple_material"); ("bsdf", VStr b)]
  | ITexture n f s => [("name", VStr n); ("type", VStr "image"); ("filename", VStr f); ("scale", vec s)]
  | ITransform _ => []
  end.

Definition half : vec3 := V3 (1 / 2) (1 / 2) (1 / 2).
Definition one3 : vec3 := V3 1 1 1.
Definition zero3 : vec3 := V3 0 0 0.
(** the block of the same class in which nothing is written *)
Definition default_params (i : item) : item :=
  match i with
  | IScene _ _ _ _ _ _ _ _ => IScene "default" "default" "default" "default" "default" "" "" false
  | IMedia _ _ _ _ _ _ a s => IMedia "env_medium" "default" "default" "default" "default" "default" a s
  | IDensity _ _ _ => IDensity "media_density" 1 1
  | INaive _ => INaive "light_accel"
  | ISpatial _ _ _ _ => ISpatial "light_accel" 1 1 1
  | IIntegrator _ _ _ _ _ _ _ => IIntegrator "integrator" "normal" "default" (-1) (-1) "" 10
  | IPhotons _ _ _ _ _ _ _ => IPhotons "integrator" "default" (-1) (-1) "" 1024 10
  | ISampler _ _ _ => ISampler "sampler" 8 305419896
  | ICamera _ _ _ _ _ _ _ _ _ _ _ => ICamera "camera" (V3 0 1 0) zero3 (V3 0 1 0) 30 (1 / 10000) 10000 10 0 512 512
  | IObject _ _ _ _ => IObject "obj" "default" "null" "null"
  | IMesh _ p => IMesh "mesh"
    match p with
    | MTriangles _ _ _ _ _ _ => MTriangles "default" "default" false "null" "null" false
    | MGrid _ _ _ _ => MGrid "default" "default" 2 2
    | MSphere _ _ _ _ _ _ => MSphere zero3 1 0 "null" "null" false
    | MPlane _ _ _ _ _ _ => MPlane zero3 (V3 0 1 0) 0 "null" "null" false
    | MBox _ _ _ _ _ => MBox one3 zero3 "null" "null" false
    | MCylinder _ _ _ _ _ _ => MCylinder one3 zero3 0 "null" "null" false
    | MCone _ _ _ _ _ _ _ => MCone one3 zero3 0 0 "null" "null" false
    end
  | IEmitter _ p => IEmitter "emitter"
    match p with
    | EPoint _ _ => EPoint one3 zero3 | EMesh _ => EMesh one3 | EEnvironment _ _ => EEnvironment one3 ""
    | EDirectional _ _ => EDirectional (V3 1 0 0) one3 | EDirMesh _ _ => EDirMesh (V3 1 0 0) one3 | ESpot _ _ _ _ => ESpot zero3 (V3 1 0 0) one3 25
    end
  | IBsdf _ p => IBsdf "bsdf"
    match p with
    | BDiffuse _ => BDiffuse (V3 (8 / 10) (8 / 10) (8 / 10)) | BMirror _ => BMirror one3 | BDielectric _ _ => BDielectric (3 / 2) 1
    | BPhong _ _ _ => BPhong half (1 / 2) 2 | BBlinn _ _ _ => BBlinn half half 2
    end
  | IShader _ (SSphere _ _) => IShader "shader" (SSphere 0 0)
  | IShader _ (SSimple _) => IShader "shader" (SSimple "defualt")
  | ITexture _ _ _ => ITexture "texture" "" one3
  | ITransform c => ITransform c
  end.
(** the class that is meant when no type is written *)
Definition default_type (b : string) : option string :=
  if String.eqb b "media_density" then Some "sphere" else if String.eqb b "accel" then Some "light_naive"
  else if String.eqb b "integrator" then Some "normal" else if String.eqb b "sampler" then Some "independent"
  else if String.eqb b "camera" then Some "perspective" else if String.eqb b "emitter" then Some "point"
  else if String.eqb b "bsdf" then Some "diffuse" else if String.eqb b "texture" then Some "image" else None.
Definition may_omit (i : item) (k : string) (v : value) : Prop :=
  if String.eqb k "type" then match default_type (block i) with Some t => v = VStr t | None => False end
  else In (k, v) (fields (default_params i)).
(** a list of members describes an item: in any order, with defaults left out and anything else added *)
Definition describes (m : list (string * json)) (i : item) : Prop :=
  forall k v, In (k, v) (fields i) -> (exists j, first_member m k j /\ shows j v) \/ (no_member m k /\ may_omit i k v).

(** the transforms of an object or emitter: the members "scale", "translate" and "rotate" in their order *)
Definition transform_key (k : string) : bool := (String.eqb k "scale" || String.eqb k "translate" || String.eqb k "rotate")%bool.
Definition shows_transform (kj : string * json) (c : tcall) : Prop :=
  match c with
  | TScale v => fst kj = "scale" /\ shows (snd kj) (vec v)
  | TTranslate v => fst kj = "translate" /\ shows (snd kj) (vec v)
  | TRotate a v => fst kj = "rotate" /\ shows (snd kj) (VNums [a; vx v; vy v; vz v])
  | TClear => False
  end.
Definition lists_transforms (m : list (string * json)) (ts : list tcall) : Prop :=
  Forall2 shows_transform (filter (fun kj => transform_key (fst kj)) m) ts.
(** an object's own members are written once *)
Definition object_key (k : string) : bool :=
  (String.eqb k "name" || String.eqb k "mesh" || String.eqb k "material_shader" || String.eqb k "emitter")%bool.
Definition once (m : list (string * json)) : Prop := NoDup (filter object_key (map fst m)).

(** a block of a scene file: what it defines, and its transforms *)
Definition placed (i : item) : bool := match i with IObject _ _ _ _ | IEmitter _ _ => true | _ => false end.
Definition says (k : string) (m : list (string * json)) (i : item) (ts : list tcall) : Prop :=
  k = block i /\ describes m i /\
  match i with
  | ITransform _ => False
  | IMedia _ _ _ _ _ _ a s => a = one3 /\ s = zero3
  | IIntegrator _ ty _ _ _ _ _ => ty <> "photon"
  | ICamera _ _ _ _ _ _ _ _ _ _ _ => no_member m "origin" /\ no_member m "target" /\ no_member m "up"
  | ITexture _ _ s => s = one3 /\ no_member m "proxy"
  | IObject _ _ _ _ => once m
  | IMesh _ (MGrid _ _ _ _) => (forall j, first_member m "is_null" j -> exists b, j = JBool b) /\
      (forall k j, k = "inside_media" \/ k = "outside_media" -> first_member m k j -> exists s, j = JStr s)
  | IMesh _ (MBox _ _ _ _ _) => forall j, first_member m "interp" j -> exists x, is_num j x
  | _ => True
  end /\
  if placed i then lists_transforms m ts else ts = [].
(** the calls of a block *)
Definition calls (i : item) (ts : list tcall) : list item :=
  if placed i then (ITransform TClear :: map ITransform ts ++ [i; ITransform TClear])%list else [i].

(** a scene file: its blocks in their order *)
Definition doc_says (d : list (string * json)) (l : list (item * list tcall)) : Prop :=
  Forall2 (fun kj b => exists m, snd kj = JObj m /\ says (fst kj) m (fst b) (snd b)) d l.
Definition all_calls (l : list (item * list tcall)) : list item := flat_map (fun b => calls (fst b) (snd b)) l.

(** what a block names *)
Definition block_key (i : item) : option (kind * string) :=
  match i with
  | IScene _ _ _ _ _ _ _ _ | INaive _ | ISpatial _ _ _ _ | ITransform _ => None
  | IMedia n _ _ _ _ _ _ _ => Some (KMedia, n)
  | IDensity n _ _ => Some (KDensity, n)
  | IIntegrator n _ _ _ _ _ _ | IPhotons n _ _ _ _ _ _ => Some (KIntegrator, n)
  | ISampler n _ _ => Some (KSampler, n)
  | ICamera n _ _ _ _ _ _ _ _ _ _ => Some (KCamera, n)
  | IObject n _ _ _ => Some (KObject, n)
  | IMesh n _ => Some (KMesh, n)
  | IEmitter n _ => Some (KEmitter, n)
  | IBsdf n _ => Some (KBsdf, n)
  | IShader n (SSphere _ _) => Some (KGeom, n)
  | IShader n (SSimple _) => Some (KMat, n)
  | ITexture n _ _ => Some (KTexture, n)
  end.
(** a name that can be given, a class that exists *)
Definition usable (i : item) : Prop :=
  (forall k n, block_key i = Some (k, n) -> means_none k n = false /\ reserved k n = false) /\
  match i with
  | IIntegrator _ ty _ _ _ _ _ =>
    In ty ["ao"; "normal"; "nice_normal"; "whitted"; "cosine_term"; "barycentric"; "path"; "volpath"; "volpath_nonexp"; "volpath_trans"; "sandbox"]
  | _ => True
  end.
(** one scene, before the emitters and the light accelerator *)
Fixpoint scene_order (have : bool) (l : list item) : Prop :=
  match l with
  | [] => True
  | IScene _ _ _ _ _ _ _ _ :: l' => have = false /\ scene_order true l'
  | (INaive _ | ISpatial _ _ _ _ | IEmitter _ _) :: l' => have = true /\ scene_order have l'
  | _ :: l' => scene_order have l'
  end.
Definition keys (l : list item) : list (kind * string) :=
  flat_map (fun i => match block_key i with Some k => [k] | None => [] end) l.
Record well_formed (l : list (item * list tcall)) : Prop := {
  wf_names : NoDup (keys (map fst l));
  wf_usable : forall b, In b l -> usable (fst b);
  wf_order : scene_order false (map fst l)
}.

(** what a block puts into the scene: its kind, name and class, and the blocks it names *)
Definition media_sides (i o : string) : list (kind * string) :=
  if (String.eqb i "null" && String.eqb o "null")%bool then [] else [(KMedia, i); (KMedia, o)].
Definition block_makes (i : item) : option (kind * string * string * list (kind * string)) :=
  match i with
  | IScene _ _ _ _ _ _ _ _ | INaive _ | ISpatial _ _ _ _ | ITransform _ | IObject _ _ _ _ => None
  | IMedia n te ph ms de tf _ _ => Some (KMedia, n, "media", [(KTransEst, te); (KPhase, ph); (KMedSamp, ms); (KDensity, de); (KTransFunc, tf)])
  | IDensity n _ _ => Some (KDensity, n, "sphere", [])
  | IIntegrator n ty f _ _ _ _ => Some (KIntegrator, n, ty, [(KFilter, f)])
  | IPhotons n f _ _ _ _ _ => Some (KIntegrator, n, "photon", [(KFilter, f)])
  | ISampler n _ _ => Some (KSampler, n, "independent", [])
  | ICamera n _ _ _ _ _ _ _ _ _ _ => Some (KCamera, n, "perspective", [])
  | IMesh n (MTriangles _ g _ i o _) => Some (KMesh, n, "triangle_mesh", (KGeom, g) :: media_sides i o)
  | IMesh n (MGrid t g _ _) => Some (KMesh, n, "grid", [(KGeom, g); (KTexture, t)])
  | IMesh n (MSphere _ _ _ i o _) => Some (KMesh, n, "sdf_sphere", media_sides i o)
  | IMesh n (MPlane _ _ _ i o _) => Some (KMesh, n, "sdf_plane", media_sides i o)
  | IMesh n (MBox _ _ i o _) => Some (KMesh, n, "sdf_box", media_sides i o)
  | IMesh n (MCylinder _ _ _ i o _) => Some (KMesh, n, "sdf_cylinder", media_sides i o)
  | IMesh n (MCone _ _ _ _ i o _) => Some (KMesh, n, "sdf_cone", media_sides i o)
  | IEmitter n (EPoint _ _) => Some (KEmitter, n, "point", [])
  | IEmitter n (EMesh _) => Some (KEmitter, n, "mesh", [])
  | IEmitter n (EEnvironment _ t) => Some (KEmitter, n, "environment", [(KTexture, t)])
  | IEmitter n (EDirectional _ _) => Some (KEmitter, n, "directional", [])
  | IEmitter n (EDirMesh _ _) => Some (KEmitter, n, "directional_mesh", [])
  | IEmitter n (ESpot _ _ _ _) => Some (KEmitter, n, "spot", [])
  | IBsdf n (BDiffuse _) => Some (KBsdf, n, "diffuse", [])
  | IBsdf n (BMirror _) => Some (KBsdf, n, "mirror", [])
  | IBsdf n (BDielectric _ _) => Some (KBsdf, n, "dielectric", [])
  | IBsdf n (BPhong _ _ _) => Some (KBsdf, n, "phong", [])
  | IBsdf n (BBlinn _ _ _) => Some (KBsdf, n, "blinn", [])
  | IShader n (SSphere _ _) => Some (KGeom, n, "interp_verts_to_sphere", [])
  | IShader n (SSimple b) => Some (KMat, n, "simple_material", [(KBsdf, b)])
  | ITexture n _ _ => Some (KTexture, n, "image", [])
  end.

(** the blocks a block asks for: the scene its integrator, sampler, camera and medium, a mesh the media on its two
    sides, an object its mesh and its emitter *)
Definition medium_wanted (m : string) : list (kind * string) := if (String.eqb m "null" || String.eqb m "default")%bool then [] else [(KMedia, m)].
Definition wanted (i : item) : list (kind * string) :=
  match i with
  | IScene _ g s c m _ _ _ => (KIntegrator, g) :: (KSampler, s) :: (KCamera, c) :: (if String.eqb m "" then [] else medium_wanted m)
  | IMesh _ (MTriangles _ _ _ i o _ | MSphere _ _ _ i o _ | MPlane _ _ _ i o _ | MBox _ _ i o _ | MCylinder _ _ _ i o _ | MCone _ _ _ _ i o _) =>
    (medium_wanted i ++ medium_wanted o)%list
  | IObject _ m _ e => (KMesh, m) :: (if (String.eqb e "" || String.eqb e "null")%bool then [] else [(KEmitter, e)])
  | _ => []
  end.
Definition all_there (l : list (item * list tcall)) : Prop :=
  forall b kn, In b l -> In kn (wanted (fst b)) -> In kn (keys (map fst l)).
