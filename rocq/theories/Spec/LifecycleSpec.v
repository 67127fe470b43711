(** Ownership, sessions and nearest shapes, stated without Model/Lifecycle.v's functions. *)
From Coq Require Import String List Bool Arith Reals.
From Verif.Model Require Import Vec Matrix BBox SDF ApiTransform Api Lifecycle.
From Verif.Spec Require Import ApiSpec.
Import ListNotations.
Open Scope string_scope.

(** the class of the thing a node holds *)
Definition holds (s : api) (p : ptr) (k : kind) (c : string) : Prop :=
  exists nd d, nth_error (heap s) p = Some nd /\ nkind nd = k /\ ndef nd = Some d /\ pty d = c.
(** objects of the list that have emitter e *)
Definition lit_by (s : api) (e : ptr) (objs : list ptr) : list ptr :=
  filter (fun o => match obj_emitter s o with Some e' => Nat.eqb e' e | None => false end) objs.

(** What is created with [new] between initialize and the end of a render with the objects [objs]:
    the nodes and their things by the calls (every find_ and fr_ function of api.cpp), a boundary by
    fr_mesh when it names a medium (822-938), a pdf per object with a mesh emitter (scene.cpp:108-118),
    the photon storage of the rendering integrator (photon.cpp:47), scene, node and accelerators
    (api.cpp:577-587, scene.cpp:63-81), the image when no target is given (scene.cpp:146). *)
Inductive created (s : api) (x : scene) (objs : list ptr) (target : bool) : obj -> Prop :=
| new_node p nd : nth_error (heap s) p = Some nd -> created s x objs target (ONode p)
| new_thing p : has_def s p -> created s x objs target (OThing p)
| new_boundary p nd d : nth_error (heap s) p = Some nd -> nkind nd = KMesh -> ndef nd = Some d ->
    (2 <= length (prefs d))%nat -> pty d <> "grid" -> created s x objs target (OBoundary p)
| new_pdf e i c : holds s e KEmitter c -> (c = "mesh" \/ c = "directional_mesh") ->
    (i < length (lit_by s e objs))%nat -> created s x objs target (OPdf e i)
| new_storage : holds s (s_integ x) KIntegrator "photon" -> created s x objs target (OStorage (s_integ x))
| new_scene_node : created s x objs target OSceneNode
| new_scene : created s x objs target OScene
| new_accel : created s x objs target OAccel
| new_lights : created s x objs target OLights
| new_image : target = false -> created s x objs target OImage.

Definition trans_func_node (s : api) (p : ptr) : Prop :=
  exists nd, nth_error (heap s) p = Some nd /\ nkind nd = KTransFunc.
(** what is still there after clean-up *)
Definition leaked (s : api) (objs : list ptr) (o : obj) : Prop :=
  match o with
  | ONode p | OThing p => trans_func_node s p
  | OBoundary _ | OImage => True
  | OPdf e i => (S i < length (lit_by s e objs))%nat
  | _ => False
  end.

(** a hit with the nearest of the shapes, [dist] giving the distance to each *)
Definition nearest (dist : shape -> ray -> option R) (l : list shape) (r : ray) (a : option (shape * R)) : Prop :=
  match a with
  | Some (s, t) => In s l /\ dist s r = Some t /\ forall s' t', In s' l -> dist s' r = Some t' -> (t <= t')%R
  | None => forall s, In s l -> dist s r = None
  end.
(** what Embree promises: the number of a nearest geometry among the attached ones *)
Definition embree_ok (dist : shape -> ray -> option R) (rtc : list shape -> ray -> option (nat * R)) : Prop :=
  forall l r, match rtc l r with
  | Some (g, t) => exists s, nth_error l g = Some s /\ nearest dist l r (Some (s, t))
  | None => nearest dist l r None
  end.
