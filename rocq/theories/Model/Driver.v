(** src/samplers/*.cpp, include/feign/core/sampler.h, fr_sampler of src/api/api.cpp,
    Scene::renderScene of src/scene.cpp and the sample loops around Model/Film.v. *)
From Coq Require Import Reals ZArith List String Bool.
From Flocq Require Import Core.Raux.
From Coquelicot Require Import Rbar.
From Verif.Base Require Import Outcome Loops.
From Verif.Model Require Import Vec Matrix BBox Camera Integrators Tiles Locks Film PoolFilm.
Import ListNotations.
Open Scope R_scope.

(** sampler.h:53,103,143: the three classes *)
Inductive sampler_class := IndependentC | LatinC | HaltonC.

(** conversions to uint32_t *)
Definition u32 (z : Z) : Z := (z mod 2 ^ 32)%Z.

Section Sampler.
(** pcg32 is third-party: its default constructor, its constructor from a seed and a stream, and
    nextFloat() are arbitrary. *)
Variable rng : Type.
Variable pcg_default : rng.
Variable pcg_seeded : Z -> Z -> rng.
Variable nextFloat : rng -> R * rng.
(** The C++ standard leaves the order in which constructor arguments are evaluated to the
    compiler: of the n numbers drawn for an n-dimensional sample, component i is the
    [nth i (arg_order n)]-th drawn. *)
Variable arg_order : nat -> list nat.

(** sampler.h:45-48 and 98: members.  [None]: not initialised.  [s_gen] exists in Independent only. *)
Record sampler := Sampler {
  s_class : sampler_class; s_cnt : option Z; s_seed : option Z; s_cur : option Z; s_gen : rng }.

(** sampler.cpp:13 with independent.cpp:16, latin.cpp:13, halton.cpp:13 *)
Definition sampler_default (c : sampler_class) : sampler := Sampler c None None None pcg_default.
(** sampler.cpp:15-17 with independent.cpp:18-22, latin.cpp:15-19, halton.cpp:17-21 *)
Definition sampler_new (c : sampler_class) (seed cnt : Z) : sampler :=
  Sampler c (Some cnt) (Some (u32 seed)) None pcg_default.

Definition set_gen (s : sampler) (g : rng) : sampler := Sampler (s_class s) (s_cnt s) (s_seed s) (s_cur s) g.
Definition set_seed (s : sampler) (z : Z) : sampler := Sampler (s_class s) (s_cnt s) (Some z) (s_cur s) (s_gen s).
Definition set_cur (s : sampler) (z : Z) : sampler := Sampler (s_class s) (s_cnt s) (s_seed s) (Some z) (s_gen s).

(** reading a member that was never written is undefined *)
Definition read {A} (o : option A) : outcome A := match o with Some a => Ok a | None => UB end.

(** independent.cpp:31-34, latin.cpp:28-37, halton.cpp:41-50: reseed() *)
Definition reseed (s : sampler) : outcome sampler :=
  match s_class s with
  | IndependentC => bind (read (s_seed s)) (fun z => Ok (set_gen s (pcg_seeded z 1)))
  | LatinC => Throw "latin reseed"
  | HaltonC => Throw "halton reseed"
  end.
(** independent.cpp:36-40, latin.cpp:39-43, halton.cpp:52-58: reseed(seed).  The members are written
    before latin throws, which nobody can observe through the class. *)
Definition reseed_with (z : Z) (s : sampler) : outcome sampler :=
  match s_class s with
  | IndependentC => Ok (set_gen (set_seed s (u32 z)) (pcg_seeded (u32 z) 1))
  | LatinC => reseed (set_seed s (u32 z))
  | HaltonC => Throw "halton reseed"
  end.
(** independent.cpp:24-29, latin.cpp:21-26, halton.cpp:23-39 *)
Definition sampler_preProcess (s : sampler) : outcome sampler :=
  match s_class s with
  | HaltonC => Throw "halton preProcess"
  | _ => bind (read (s_seed s)) (fun z => reseed_with z (set_cur s 0))
  end.
(** independent.cpp:42-45, latin.cpp:45-51, halton.cpp:60-66 *)
Definition next1D (s : sampler) : outcome (R * sampler) :=
  match s_class s with
  | IndependentC => let '(v, g) := nextFloat (s_gen s) in Ok (v, set_gen s g)
  | LatinC => Throw "latin next1D"
  | HaltonC => Throw "halton next1D"
  end.
Fixpoint draw_many (n : nat) (s : sampler) : outcome (list R * sampler) :=
  match n with
  | O => Ok ([], s)
  | S n' => bind (next1D s) (fun '(v, s') => bind (draw_many n' s') (fun '(l, s'') => Ok (v :: l, s'')))
  end.
(** independent.cpp:47-60, latin.cpp:53-66, halton.cpp:68-81: next2D, next3D, next4D for n = 2, 3, 4 *)
Definition nextND (n : nat) (s : sampler) : outcome (list R * sampler) :=
  bind (draw_many n s) (fun '(l, s') => Ok (map (fun i => nth i l 0) (arg_order n), s')).
Definition next2D (s : sampler) : outcome (vec2 * sampler) :=
  bind (nextND 2 s) (fun '(l, s') => Ok (V2 (nth 0 l 0) (nth 1 l 0), s')).
(** independent.cpp:63-69, latin.cpp:68-74, halton.cpp:83-89: copy() *)
Definition sampler_copy (s : sampler) : outcome sampler :=
  bind (read (s_seed s)) (fun z => reseed_with z (sampler_default (s_class s))).
(** independent.cpp:71-77, latin.cpp:76-82, halton.cpp:91-97: copy(seed); only Independent passes the
    sample count on *)
Definition sampler_copy_with (z : Z) (s : sampler) : outcome sampler :=
  match s_class s with
  | IndependentC => bind (read (s_cnt s)) (fun n => reseed_with (u32 z) (sampler_new IndependentC (u32 z) n))
  | c => reseed_with (u32 z) (sampler_default c)
  end.
(** independent.cpp:79-82, latin.cpp:84-89, halton.cpp:99-104 *)
Definition nextSample (s : sampler) : outcome sampler :=
  match s_class s with
  | IndependentC => bind (read (s_cur s)) (fun k => Ok (set_cur s (u32 (k + 1))))
  | LatinC => Throw "latin next sample"
  | HaltonC => Throw "halton nextSample"
  end.
(** sampler.cpp:19-22: an int is returned as uint32_t *)
Definition getSampleCnt (s : sampler) : outcome Z := bind (read (s_cnt s)) (fun n => Ok (u32 n)).

(** api.cpp:689-701: the sampler made by fr_sampler; neither the API nor the scene calls preProcess
    or reseed on it (scene.cpp:56-125, 127-172; no other caller exists) *)
Definition api_sampler (type : string) (seed cnt : Z) : outcome sampler :=
  if String.eqb type "independent" then Ok (sampler_new IndependentC seed cnt)
  else if String.eqb type "latin" then Throw "latin sampler still unsupported"
  else Throw "unsupported sampler: ".

(** A program over the scene and the sampler (Model/Integrators.v), run with a sampler. *)
Fixpoint run_on {A} (hit : ray -> option isect) (q : query A) (s : sampler) : outcome (A * sampler) :=
  match q with
  | QRet a => Ok (a, s)
  | QHit r k => run_on hit (k (hit r)) s
  | QRand1 k => bind (next1D s) (fun '(v, s') => run_on hit (k v) s')
  | QRand2 k => bind (next2D s) (fun '(v, s') => run_on hit (k v) s')
  end.

(** integrator.cpp:48 and render_pool.cpp:33: [for (int k = 0; k < sampler->getSampleCnt(); ++k)].
    The comparison is between unsigned numbers; incrementing the largest int is undefined. *)
Fixpoint sample_loop {St} (fuel : nat) (cnt : Z) (k : Z) (body : St -> outcome St) (st : St) : outcome St :=
  if (u32 k <? u32 cnt)%Z then
    match fuel with
    | O => OutOfFuel
    | S fuel' => bind (body st) (fun st' =>
        if (k =? 2 ^ 31 - 1)%Z then UB else sample_loop fuel' cnt (k + 1) body st')
    end
  else Ok st.

(** ** Scene::renderScene *)
Section Render.
Variable hit : ray -> option isect.
Variable fsize : vec2.
Variable feval : vec2 -> R.
(** camera->sampleRay, depending on the film size (Model/Camera.v) *)
Variable camera : Z -> Z -> vec2 -> vec2 -> ray.
(** integrator->preProcess (scatters photons) and Li; both are terminating programs *)
Variable P : Type.
Variable pre : query P.
Variable Li : P -> ray -> query vec3.

(** integrator.cpp:54-75: one sample of pixel (j, i) *)
Definition one_sample (w h : Z) (p : P) (s : sampler) (pix : Z * Z) : outcome (vec2 * vec3 * sampler) :=
  let '(j, i) := pix in
  bind (next2D s) (fun '(u, s1) =>
  let ps := V2 (IZR j + x2 u) (IZR i + y2 u) in
  bind (next2D s1) (fun '(a, s2) =>
  bind (run_on hit (Li p (camera w h ps a)) s2) (fun '(rad, s3) => Ok (ps, rad, s3)))).
(** integrator.cpp:54-103; the buffers are those of Model/Film.v *)
Definition sample_body (w h : Z) (p : P) (st : film * sampler) (pix : Z * Z) : outcome (film * sampler) :=
  let '(f, s) := st in
  bind (one_sample w h p s pix) (fun '(ps, rad, s') =>
  bind (foldM (add_pixel w h rad) (splat fsize feval w h ps) f) (fun f' => Ok (f', s'))).
(** integrator.cpp:50-52 *)
Definition pixels (w h : Z) : list (Z * Z) := flat_map (fun i => map (fun j => (j, i)) (zrange 0 w)) (zrange 0 h).
(** integrator.cpp:39-130.  The sample count is read once; the sampler never changes it. *)
Definition driver_render (fuel : nat) (w h : Z) (p : P) (img0 : Z -> Z -> vec3) (s : sampler) : outcome ((Z -> Z -> vec3) * sampler) :=
  bind (getSampleCnt s) (fun cnt =>
  bind (sample_loop fuel cnt 0 (fun st => foldM (sample_body w h p) (pixels w h) st) (Film (fun _ _ => V3 0 0 0) (fun _ _ => 0), s))
    (fun '(f, s') => Ok (fun x y => if in_filmb w h x y then finish_pixel f x y else img0 x y, s'))).
(** scene.cpp:127-171 with GOTTAGOFAST false.  [film] is the film size of the camera description,
    [target] the image handed to FeignRenderer::initialize with its size and contents. *)
Definition renderScene (fuel : nat) (film : Z * Z) (target : option (Z * Z * (Z -> Z -> vec3))) (s : sampler) : outcome (Z * Z * (Z -> Z -> vec3)) :=
  let '(w, h, img0) := match target with Some t => t | None => (fst film, snd film, fun _ _ => V3 0 0 0) end in
  bind (run_on hit pre s) (fun '(p, s1) =>
  bind (driver_render fuel w h p img0 s1) (fun '(img, _) => Ok (w, h, img))).
End Render.

(** render_pool.cpp:172, 197: the seed of a tile: a float converted to uint32_t; out of range is
    undefined *)
Definition tile_seed (v : R) : outcome Z :=
  let z := Ztrunc (v * 100000000) in if ((0 <=? z)%Z && (z <? 2 ^ 32)%Z)%bool then Ok z else UB.
Fixpoint tile_copies (n : nat) (s : sampler) : outcome (list sampler) :=
  match n with
  | O => Ok []
  | S n' => bind (next1D s) (fun '(v, s') => bind (tile_seed v) (fun z => bind (sampler_copy_with z s') (fun c =>
      bind (tile_copies n' s') (fun l => Ok (c :: l)))))
  end.
End Sampler.

(** ** The camera when the film is resized after preProcess *)

(** camera.h: setFilmSize *)
Definition set_film (c : persp) (w h : R) : persp := Persp (aperture c) (focalDist c) (fov c) (cnear c) (cfar c) w h (camToWorld c).
(** perspective.cpp:55-84 after scene.cpp:142: the matrix was computed by preProcess (scene.cpp:104) for
    the film size of [c]; sampleRay divides by the new size (w, h) *)
Definition resized_dir (c : persp) (w h : R) (film : vec2) : vec3 :=
  normalized (tf_point (sampleToCamera c) (V3 (x2 film * 1 / w) (y2 film * 1 / h) 0)).
Definition resized_ray (c : persp) (w h : R) (film app : vec2) : ray :=
  let d := resized_dir c w h film in
  let lens := normalized (vsub (vscale d (focalDist c / vz d)) (lens_point c app)) in
  let invZ := 1 / vz d in
  Ray (tf_point (camToWorld c) (lens_point c app)) (tf_vector (camToWorld c) lens) (cnear c * invZ) (cfar c * invZ).
