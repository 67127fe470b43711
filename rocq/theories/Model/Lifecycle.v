(** What surrounds one render: FeignRenderer::initialize, flush_renders and clean_up
    (src/api/api.cpp), the destructors of everything the renderer owns, the static state that outlives
    a render, and handing the shapes to the ray accelerator (src/scene.cpp:56-101,
    src/accel/ray_embree.cpp, src/accel/ray_sdf.cpp). *)
From Coq Require Import String List Bool Arith Reals.
From Verif.Base Require Import Outcome.
From Verif.Model Require Import Vec Matrix BBox SDF ApiTransform Api.
Import ListNotations.
Open Scope string_scope.

(** ** Clean-up *)

(** Everything on the heap when a render is over.  A node is named by its address, the thing it
    holds (a BSDF, a shape, ...) by the address of the node.
    - [OBoundary m]: the MediumBoundry of the shape of node m
    - [OPdf e i]: the i-th DiscretePDF1D built by the mesh emitter of node e
    - [OStorage p]: the PhotonArray of the photon integrator of node p
    - [OImage]: the image renderScene makes when it got none
    Vectors, strings and images held by value, the Clocker, and what belongs to Embree and to the
    spatial light grid are not tracked. *)
Inductive obj :=
| ONode (p : ptr) | OThing (p : ptr) | OBoundary (p : ptr) | OPdf (e : ptr) (i : nat) | OStorage (p : ptr)
| OSceneNode | OScene | OAccel | OLights | OImage.

(** scene.cpp:108-118: MeshEmitter::preProcess (mesh.cpp:25-41, directional_mesh.cpp:26-42) runs once
    for every object whose emitter it is and builds a new pdf each time *)
Definition pdfs_built (s : api) (w : world) (e : ptr) : nat :=
  length (filter (fun o => match nth_error (heap s) o with
                           | Some n => match oemit n with Some e' => Nat.eqb e' e | None => false end
                           | None => false end) (w_objects w)).

(** the destructors of the things: only mesh emitters (mesh.cpp:20-23, directional_mesh.cpp:22-25) and
    the photon integrator (photon.cpp:29-32) own something.  The pdf pointer is null until the first
    preProcess; the photon storage is not initialised by the constructor (photon.cpp:24-27) and set by
    preProcess, which renderScene calls on the scene's integrator only (scene.cpp:151). *)
Definition destroy_thing (s : api) (x : scene) (w : world) (p : ptr) (k : kind) (d : payload) : outcome (list obj) :=
  match k with
  | KEmitter =>
      if one_of (pty d) ["mesh"; "directional_mesh"] then
        match pdfs_built s w p with O => Ok [OThing p] | S i => Ok [OPdf p i; OThing p] end
      else Ok [OThing p]
  | KIntegrator =>
      if String.eqb (pty d) "photon" then
        if Nat.eqb p (s_integ x) then Ok [OStorage p; OThing p] else UB
      else Ok [OThing p]
  | _ => Ok [OThing p]
  end.
(** the node destructors, e.g. bsdf.h:241; the one of ObjectNode (shape.h:111) is empty, and an object
    has no thing of its own *)
Definition destroy_node (s : api) (x : scene) (w : world) (p : ptr) : outcome (list obj) :=
  match nth_error (heap s) p with
  | Some n =>
      match ndef n with
      | Some d => bind (destroy_thing s x w p (nkind n) d) (fun l => Ok (l ++ [ONode p])%list)
      | None => Ok [ONode p]
      end
  | None => UB
  end.
Fixpoint destroy_all (s : api) (x : scene) (w : world) (ps : list ptr) : outcome (list obj) :=
  match ps with
  | [] => Ok []
  | p :: ps' => bind (destroy_node s x w p) (fun l => bind (destroy_all s x w ps') (fun l' => Ok (l ++ l')%list))
  end.
(** ~FeignRenderer, api.cpp:94-125: the maps in the order of the loops *)
Definition destroyed_kinds : list kind :=
  [KBsdf; KCamera; KEmitter; KMedia; KIntegrator; KSampler; KFilter; KObject; KMesh; KGeom; KMat; KTexture;
   KDensity; KPhase; KMedSamp; KTransEst].
(** api.cpp:87-147 and scene.cpp:38-54, scene.h:121.  [order k]: the order in which the map of kind k
    is iterated. *)
Definition clean_up (order : kind -> list ptr) (s : api) (x : scene) (w : world) : outcome (list obj) :=
  bind (destroy_all s x w (flat_map order destroyed_kinds)) (fun l =>
  Ok (l ++ [OAccel; OLights; OScene; OSceneNode])%list).

(** ** The process *)

(** Clocker::instance, clocker.cpp:217-236: deinitialize deletes without resetting the pointer *)
Inductive gptr := Null | Live | Dangling.
(** FeignRenderer::instance, Clocker::instance and the copy of [global_params] in api.cpp (common.h:121:
    one static copy per file; only the flag sdf_only of this copy is ever written) *)
Inductive inst := Absent | Present (a : api) | Spoilt (* by a flush_renders that raised an exception *).
Record proc := Proc { p_api : inst; p_clock : gptr; p_sdf : bool }.
(** the start of the program: common.h:107-121, api.cpp:42, clocker.cpp:217 *)
Definition proc0 : proc := Proc Absent Null true.

Inductive cmd :=
| Initialize
| Do (c : call) (sdf_mode : bool)      (* sdf_mode: the last argument of fr_scene *)
| Flush (order : kind -> list ptr).

(** what the caller sees *)
Inductive seen :=
| Quiet | Called (e : exit unit) | Rendered (w : world) (sdf : bool) | Raised (e : string)
| Unclear (* not modelled: between an exception of flush_renders and the next initialize *)
| Broken (* undefined behaviour *).

Section Process.
Variable clocking : bool.

(** the clock macros at the head of every call dereference Clocker::instance, then getInstance() is *)
Definition clock_gone (P : proc) : bool := match p_clock P with Live => false | _ => true end.
Definition with_api (P : proc) (f : api -> proc * seen) : proc * seen :=
  if clocking && clock_gone P then (P, Broken) else
  match p_api P with
  | Absent => (P, Broken)
  | Spoilt => (P, Unclear)
  | Present a => f a
  end.
Definition is_scene (c : call) : bool := match c with FrScene _ _ _ _ => true | _ => false end.

(** initialize: api.cpp:149-157; calls: static members of FeignRenderer; fr_scene writes sdf_only
    after starting its clock (558-563); flush_renders and clean_up: 1499-1589 *)
Definition step (P : proc) (c : cmd) : proc * seen :=
  match c with
  | Initialize => (Proc (Present api_init) (if clocking then Live else p_clock P) (p_sdf P), Quiet)
  | Do c sdf => with_api P (fun a =>
      let sdf' := if is_scene c && negb (clocking && clk a) then sdf else p_sdf P in
      match run_call clocking c a with
      | (_, Crash) | (_, Fuel) => (P, Broken)
      | (a', e) => (Proc (Present a') (p_clock P) sdf', Called e)
      end)
  | Flush order => with_api P (fun a =>
      match flush clocking (order KObject) (order KEmitter) (order KMedia) a, scn a with
      | Ret w, Some x =>
          match clean_up order a x w with
          | Ok _ => (Proc Absent (if clocking then Dangling else p_clock P) (p_sdf P), Rendered w (p_sdf P))
          | _ => (P, Broken)
          end
      | Exn e, _ => (Proc Spoilt (p_clock P) (p_sdf P), Raised e)
      | _, _ => (P, Broken)
      end)
  end.
(** a program; nothing is claimed after [Broken] *)
Fixpoint session (P : proc) (cs : list cmd) : proc * list seen :=
  match cs with
  | [] => (P, [])
  | c :: cs' =>
      match step P c with
      | (P', Broken) => (P', [Broken])
      | (P', o) => let (P'', os) := session P' cs' in (P'', o :: os)
      end
  end.
End Process.

(** ** The shapes and the ray accelerator *)

(** ObjMesh and GridObj, or one of the SDF shapes *)
Inductive shape := Triangles (m : nat) | Distance (f : sdf).
Definition is_tri (s : shape) : bool := match s with Triangles _ => true | Distance _ => false end.

(** EmbreeAccel, accel_ray.h:42-107: its own list, and the geometries attached to the Embree scene.
    Embree numbers geometries in the order of attachment. *)
Record embree := Embree { e_meshes : list shape; e_attached : list shape }.
(** ray_embree.cpp:42-46 with objmesh.cpp:80-118; the inherited version for SDF shapes is empty
    (shape.h:61) *)
Definition add_shape (e : embree) (s : shape) : embree :=
  Embree (e_meshes e ++ [s]) (if is_tri s then e_attached e ++ [s] else e_attached e)%list.
Definition embree_of (l : list shape) : embree := fold_left add_shape l (Embree [] []).

Section Trace.
(** rtcIntersect1: the number of a geometry and the distance *)
Variable rtc : list shape -> ray -> option (nat * R).
(** ray_embree.cpp:56-101: the shape reported to the integrators *)
Definition embree_hit (e : embree) (r : ray) : outcome (option (shape * R)) :=
  match rtc (e_attached e) r with
  | None => Ok None
  | Some (g, t) => bind (at_ (e_meshes e) g) (fun s => Ok (Some (s, t)))
  end.
(** scene.cpp:80-83 casts every shape to SDFShape; ray_sdf.cpp:83-113 calls evaluate on it, which
    for a triangle mesh calls a function through the wrong vtable *)
Fixpoint as_sdfs (l : list shape) : outcome (list sdf) :=
  match l with
  | [] => Ok []
  | Distance f :: l' => bind (as_sdfs l') (fun m => Ok (f :: m))
  | Triangles _ :: _ => UB
  end.
(** scene.cpp:63-75, 78-90, 173-176: which accelerator is used *)
Definition scene_hit (sdf_only : bool) (l : list shape) (r : ray) : outcome (option (shape * R)) :=
  if sdf_only then
    bind (as_sdfs l) (fun fs =>
    match sdf_intersect fs r with
    | Some h => bind (at_ l (h_shape h)) (fun s => Ok (Some (s, h_t h)))
    | None => Ok None
    end)
  else embree_hit (embree_of l) r.
End Trace.
