(** What the scene-description calls are supposed to do, stated without the monad and
    the heap layout of Model/Api.v. *)
From Coq Require Import String List Bool.
From Verif.Model Require Import Vec Matrix ApiTransform Api.
Import ListNotations.
Open Scope string_scope.

(** the definition currently attached to a name *)
Definition def_of (s : api) (k : kind) (n : string) : option payload :=
  match lookup s k n with
  | Some p => match nth_error (heap s) p with Some nd => ndef nd | None => None end
  | None => None
  end.

(** kind, name, class and parameters that a call is meant to define *)
Definition defines (c : call) : option (kind * string * string * nat) :=
  match c with
  | FrIntegrator n t _ d => Some (KIntegrator, n, t, d)
  | FrSampler n t d => Some (KSampler, n, t, d)
  | FrCamera n t d => Some (KCamera, n, t, d)
  | FrMesh n t _ _ _ _ d => Some (KMesh, n, t, d)
  | FrShader n t _ _ d =>
      Some (if String.eqb t "interp_verts_to_sphere" then KGeom else KMat, n, t, d)
  | FrMedia n _ _ _ _ _ d => Some (KMedia, n, "media", d)
  | FrDensity n t d => Some (KDensity, n, t, d)
  | FrMedSamp n t d => Some (KMedSamp, n, t, d)
  | FrTransEst n t d => Some (KTransEst, n, t, d)
  | FrTransFunc n t d => Some (KTransFunc, n, t, d)
  | FrEmitter n t _ d => Some (KEmitter, n, t, d)
  | FrBsdf n t d => if String.eqb t "null" then None else Some (KBsdf, n, t, d)
  | FrTexture n t d => Some (KTexture, n, t, d)
  | _ => None
  end.

(** what a second definition of a name is refused with (api.cpp; an unknown type of shader is reported first) *)
Definition already (c : call) : string :=
  match c with
  | FrIntegrator _ _ _ _ => "integrator already defined"
  | FrSampler _ _ _ => "sampler already defined"
  | FrCamera _ _ _ => "camera already defined"
  | FrMesh _ _ _ _ _ _ _ => "mesh already defined"
  | FrShader _ t _ _ _ =>
      if String.eqb t "interp_verts_to_sphere" then "geometry shader already defined"
      else if String.eqb t "simple_material" then "material shader already defined"
      else if String.eqb t "wireframe" then "wireframe shader already defined"
      else "shader type not recognized"
  | FrMedia _ _ _ _ _ _ _ => "media already defined"
  | FrDensity _ _ _ => "density function already defined"
  | FrMedSamp _ _ _ => "medium sampling already defined"
  | FrTransEst _ _ _ => "transmittance estimator already defined"
  | FrTransFunc _ _ _ => "transmittance function already defined"
  | FrEmitter _ _ _ _ => "emitter already defined"
  | FrBsdf _ _ _ => "bsdf already defined"
  | FrTexture _ _ _ => "texture already defined"
  | _ => ""
  end.

(** the names a definition refers to, in the order the constructor receives them *)
Definition media_refs (i o : string) : list (kind * string) :=
  if String.eqb i "null" && String.eqb o "null" then [] else [(KMedia, i); (KMedia, o)].
Definition refers (c : call) : list (kind * string) :=
  match c with
  | FrIntegrator _ _ f _ => [(KFilter, f)]
  | FrMesh _ t sh i o x _ =>
      if String.eqb t "triangle_mesh" then (KGeom, sh) :: media_refs i o
      else if String.eqb t "grid" then [(KGeom, sh); (KTexture, x)]
      else media_refs i o
  | FrShader _ t b1 b2 _ =>
      if String.eqb t "simple_material" then [(KBsdf, b1)]
      else if String.eqb t "wireframe" then [(KBsdf, b1); (KBsdf, b2)]
      else []
  | FrMedia _ a b c d e _ =>
      [(KTransEst, a); (KPhase, b); (KMedSamp, c); (KDensity, d); (KTransFunc, e)]
  | FrEmitter _ t x _ => if String.eqb t "environment" then [(KTexture, x)] else []
  | _ => []
  end.

(** names that stand for "no node" *)
Definition means_none (k : kind) (n : string) : bool :=
  match k with
  | KEmitter => String.eqb n "null"
  | KMedia => String.eqb n "null" || String.eqb n "default"
  | KTexture => String.eqb n "" || String.eqb n "default"
  | KDensity | KPhase | KMedSamp | KTransEst | KTransFunc => String.eqb n ""
  | _ => false
  end.

(** what a name denotes in a state *)
Definition denotes (s : api) (r : kind * string) : option ptr :=
  if means_none (fst r) (snd r) then None else lookup s (fst r) (snd r).

(** which built-in stands behind "default" *)
Definition builtin_default (k : kind) : option payload :=
  match k with
  | KBsdf => Some (Pay "nullbsdf" [] 0)
  | KFilter => Some (Pay "gauss" [] 0)
  | KPhase => Some (Pay "hg" [] 0)
  | KMedSamp => Some (Pay "constant" [] 0)
  | KTransEst => Some (Pay "homo" [] 0)
  | KTransFunc => Some (Pay "exp" [] 0)
  | _ => None
  end.

(** state [s] is reached by some history of calls (none of which crashed) *)
Definition reached (clocking : bool) (s : api) : Prop :=
  exists h l, run clocking h api_init = Some (s, l).

(** [s'] has an object that [s] did not have, with the named mesh, material and emitter
    and the transform that was current *)
Definition object_added (s s' : api) (mesh mat em : string) : Prop :=
  exists o nd,
    nth_error (heap s) o = None /\ nth_error (heap s') o = Some nd /\
    nkind nd = KObject /\ lookup s' KObject (nname nd) = Some o /\
    omesh nd = lookup s' KMesh mesh /\ omesh nd <> None /\
    omat nd = lookup s' KMat mat /\ omat nd <> None /\
    otrans nd = cur s /\
    oemit nd = (if String.eqb em "" then None else denotes s' (KEmitter, em)).

(** the class names each call accepts (api.cpp, the [if (type == ...)] chains) *)
Definition supported (c : call) : bool :=
  match c with
  | FrIntegrator _ t _ _ =>
      existsb (String.eqb t)
        ["ao"; "normal"; "nice_normal"; "whitted"; "cosine_term"; "barycentric"; "path";
         "volpath"; "volpath_nonexp"; "volpath_trans"; "photon"; "sandbox"]
  | FrSampler _ t _ => String.eqb t "independent"
  | FrCamera _ t _ => String.eqb t "perspective"
  | FrMesh _ t _ _ _ _ _ =>
      existsb (String.eqb t) ["triangle_mesh"; "grid"; "sdf_sphere"; "sdf_plane"; "sdf_box";
                              "sdf_cylinder"; "sdf_cone"]
  | FrShader _ t _ _ _ =>
      existsb (String.eqb t) ["interp_verts_to_sphere"; "simple_material"; "wireframe"]
  | FrMedia _ _ _ _ _ _ _ => true
  | FrDensity _ t _ =>
      existsb (String.eqb t) ["constant"; "openvdb"; "mandlebrot"; "sphere"]
  | FrMedSamp _ t _ => existsb (String.eqb t) ["delta"; "ray"; "constant"]
  | FrTransEst _ t _ =>
      existsb (String.eqb t) ["homo"; "delta"; "ratio"; "pseries"; "ray"]
  | FrTransFunc _ t _ => existsb (String.eqb t) ["exp"; "lin"]
  | FrEmitter _ t _ _ =>
      existsb (String.eqb t) ["point"; "mesh"; "directional"; "directional_mesh"; "spot";
                              "environment"]
  | FrBsdf _ t _ =>
      existsb (String.eqb t) ["diffuse"; "mirror"; "dielectric"; "one_way_dielectric";
                              "nullbsdf"; "phong"; "blinn"]
  | FrTexture _ t _ => existsb (String.eqb t) ["image"; "sin"]
  | _ => false
  end.

(** names that come with a definition of their own *)
Definition reserved (k : kind) (n : string) : bool :=
  String.eqb n "default" &&
  match k with
  | KBsdf | KFilter | KPhase | KMedSamp | KTransEst | KTransFunc | KMat => true
  | _ => false
  end.

(** a scene description with nothing missing: everything the scene, an object or an
    emitter of an object refers to has a definition, and so has every medium *)
Definition has_def (s : api) (p : ptr) : Prop :=
  exists nd d, nth_error (heap s) p = Some nd /\ ndef nd = Some d.
Record complete (s : api) (x : scene) : Prop := {
  c_integ : has_def s (s_integ x);
  c_samp : has_def s (s_samp x);
  c_cam : has_def s (s_cam x);
  c_media : forall n p, lookup s KMedia n = Some p -> has_def s p;
  c_mesh : forall n o nd m, lookup s KObject n = Some o -> nth_error (heap s) o = Some nd ->
    omesh nd = Some m -> has_def s m;
  c_emit : forall n o nd e, lookup s KObject n = Some o -> nth_error (heap s) o = Some nd ->
    oemit nd = Some e -> has_def s e;
  c_owned : forall n e nd o, lookup s KEmitter n = Some e -> nth_error (heap s) e = Some nd ->
    nobj nd = Some o -> has_def s e }.

(** what an object node holds *)
Definition obj_mesh (s : api) (o : ptr) : option ptr :=
  match nth_error (heap s) o with Some nd => omesh nd | None => None end.
Definition obj_emitter (s : api) (o : ptr) : option ptr :=
  match nth_error (heap s) o with Some nd => oemit nd | None => None end.
Definition obj_transform (s : api) (o : ptr) : transform :=
  match nth_error (heap s) o with Some nd => otrans nd | None => tf_id end.

(** the objects of a list that use mesh [m], and the product of their transforms, the
    first object's applied first *)
Definition users (s : api) (m : ptr) (objs : list ptr) : list ptr :=
  filter (fun o => match obj_mesh s o with Some m' => Nat.eqb m' m | None => false end) objs.
Definition stacked (s : api) (l : list ptr) : transform :=
  fold_left (fun t o => tf_mul (obj_transform s o) t) l tf_id.
