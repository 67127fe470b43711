(** The scene-file format as documented in /repo/scenes/scene_file_format.txt: the members of each block and the values
    that hold when they are left out. *)
From Coq Require Import Reals ZArith List String.
From Verif.Model Require Import Vec Matrix ApiTransform Api Json.
From Verif.Spec Require Import ApiSpec JsonSpec.
Import ListNotations.
Local Open Scope string_scope.
Open Scope R_scope.

(** scene_file_format.txt:26-32, 55-60, 83-89, 113-145, 173-180, 199-204, 216-232, 257-260, 268-276: block and members *)
Definition documented : list (string * list string) :=
  [("scene", ["name"; "integrator"; "sampler"; "camera"; "medium"]);
   ("integrator", ["name"; "type"; "max_time"; "max_heuristic"]);
   ("sampler", ["name"; "type"; "spp"; "seed"; "seed2"]);
   ("camera", ["name"; "type"; "origin"; "target"; "up"; "lookat"; "fov"; "width"; "height"]);
   ("object", ["name"; "mesh"; "material"]);
   ("mesh", ["name"; "type"; "filename"]);
   ("emitter", ["name"; "type"; "mesh"; "material"; "pos"; "intensity"]);
   ("material", ["name"; "bsdf"]);
   ("bsdf", ["name"; "type"; "albedo"])].
Definition is_documented (b k : string) : Prop := exists ks, In (b, ks) documented /\ In k ks.

(** what a created thing has for a documented member; nothing if the member makes no sense for its class *)
Definition meaning (i : item) : list (string * value) :=
  match i with
  | IScene n g s c m _ _ _ => [("name", VStr n); ("integrator", VStr g); ("sampler", VStr s); ("camera", VStr c); ("medium", VStr m)]
  | IIntegrator n t _ mt mh _ _ => [("name", VStr n); ("type", VStr t); ("max_time", VInt mt); ("max_heuristic", VInt mh)]
  | IPhotons n _ mt mh _ _ _ => [("name", VStr n); ("type", VStr "photon"); ("max_time", VInt mt); ("max_heuristic", VInt mh)]
  | ISampler n c s => [("name", VStr n); ("type", VStr "independent"); ("spp", VInt c); ("seed", VInt s)]
  | ICamera n o t u fov _ _ _ _ w h =>
    [("name", VStr n); ("type", VStr "perspective"); ("origin", vec o); ("target", vec t); ("up", vec u);
     ("lookat", VNums [vx o; vy o; vz o; vx t; vy t; vz t; vx u; vy u; vz u]); ("fov", VNum fov); ("width", VInt w); ("height", VInt h)]
  | IObject n m a _ => [("name", VStr n); ("mesh", VStr m); ("material", VStr a)]
  | IMesh n (MTriangles f _ _ _ _ _) => [("name", VStr n); ("type", VStr "triangle_mesh"); ("filename", VStr f)]
  | IEmitter n (EPoint i p) => [("name", VStr n); ("type", VStr "point"); ("pos", vec p); ("intensity", vec i)]
  | IEmitter n (EMesh i) => [("name", VStr n); ("type", VStr "mesh"); ("intensity", vec i)]
  | IBsdf n (BDiffuse a) => [("name", VStr n); ("type", VStr "diffuse"); ("albedo", vec a)]
  | _ => []
  end.
(** the documented value of a member that is left out: lines 67-79, 95-110, 152-156, 236-252, 281-284 *)
Definition documented_default (b k : string) (v : value) : Prop :=
  In (b, k, v)
  [("integrator", "type", VStr "normal"); ("integrator", "max_time", VInt (-1)); ("integrator", "max_heuristic", VInt (-1));
   ("sampler", "type", VStr "independent"); ("sampler", "spp", VInt 8); ("sampler", "seed", VInt 305419896);
   ("camera", "type", VStr "perspective");
   ("emitter", "type", VStr "point"); ("emitter", "pos", VNums [0; 0; 0]); ("emitter", "intensity", VNums [1; 1; 1]);
   ("bsdf", "type", VStr "diffuse")].
(** a block written with documented members only, each at most once *)
Definition by_the_book (b : string) (m : list (string * json)) : Prop :=
  NoDup (map fst m) /\ forall k, In k (map fst m) -> is_documented b k.
(** documented members that are not read under their documented name *)
Definition misread (b k : string) : Prop :=
  In (b, k) [("sampler", "spp"); ("sampler", "seed2"); ("object", "material"); ("emitter", "mesh"); ("emitter", "material"); ("emitter", "pos")].
Definition refused_member (b k : string) : Prop := In (b, k) [("camera", "origin"); ("camera", "target"); ("camera", "up")].
