(** src/stats/clocker.cpp, include/feign/stats/clocker.h: the named stop watches. *)
From Coq Require Import Reals ZArith List String Bool Lia.
From Verif.Base Require Import Outcome.
Import ListNotations.
Open Scope R_scope.

(** clocker.h:16-47 (enum ClockerType without the sentinel COUNT). *)
Inductive ctype :=
| API | RENDERING | CAMERA_RAY | SCENE_PARSE
| INTEGRATOR | INTEGRATOR_INTERSECT | INTEGRATOR_PREPROCESS | INTEGRATOR_RR | INTEGRATOR_NEE | INTEGRATOR_EVAL
| SHADER | SHADER_SURFACE | SHADER_SURFACE_EVAL | SHADER_SURFACE_SAMPLE | SHADER_SURFACE_PREPROCESS
| SHADER_MEDIA | SHADER_MEDIA_EVAL | SHADER_MEDIA_SAMPLE | SHADER_MEDIA_PREPROCESS
| FILTER | EMBREE | DEBUG_ONE | DEBUG_TWO | DEBUG_THREE.

Definition ctype_dec (a b : ctype) : {a = b} + {a <> b}.
Proof. decide equality. Defined.

(** clocker.cpp:163-197 *)
Definition to_name (c : ctype) : string :=
  (match c with
   | API => "api" | RENDERING => "rendering" | CAMERA_RAY => "camera_ray_sampling"
   | SCENE_PARSE => "scene_parsing" | INTEGRATOR => "integrator"
   | INTEGRATOR_INTERSECT => "integrator_intersect" | INTEGRATOR_PREPROCESS => "integrator_preprocess"
   | INTEGRATOR_RR => "integrator_rr" | INTEGRATOR_NEE => "integrator_nee"
   | INTEGRATOR_EVAL => "integrator_eval" | SHADER => "shader" | SHADER_SURFACE => "surface_shader"
   | SHADER_SURFACE_EVAL => "surface_shader_eval" | SHADER_SURFACE_SAMPLE => "surface_shader_sampling"
   | SHADER_SURFACE_PREPROCESS => "surface_shader_preprocess" | SHADER_MEDIA => "media_shader"
   | SHADER_MEDIA_EVAL => "media_shader_eval" | SHADER_MEDIA_SAMPLE => "media_shader_sampling"
   | SHADER_MEDIA_PREPROCESS => "media_shader_preprocess" | FILTER => "filter" | EMBREE => "embree_total"
   | DEBUG_ONE => "debug_one" | DEBUG_TWO => "debug_two" | DEBUG_THREE => "debug_three"
   end)%string.

(** clocker.h:160-169.  The three vectors indexed by the enum are functions; time points and
    durations (floats of seconds) are reals. *)
Record clocker := Clk { actives : ctype -> bool; start_times : ctype -> R; times : ctype -> R }.

(** clocker.cpp:219-224, 13-25: nothing active, all durations zero.  The default time point is 0. *)
Definition clk_init : clocker := Clk (fun _ => false) (fun _ => 0) (fun _ => 0).

(** assignment to one entry of a vector indexed by the enum *)
Definition upd {A} (f : ctype -> A) (c : ctype) (v : A) : ctype -> A :=
  fun d => if ctype_dec d c then v else f d.

(** clocker.cpp:243-252; [now] is the value of Clock::now(). *)
Definition start_clock (c : ctype) (now : R) (k : clocker) : outcome clocker :=
  if actives k c then Throw (to_name c ++ " already active")%string
  else Ok (Clk (upd (actives k) c true) (upd (start_times k) c now) (times k)).

(** clocker.cpp:254-263 *)
Definition end_clock (c : ctype) (now : R) (k : clocker) : outcome clocker :=
  if actives k c
  then Ok (Clk (upd (actives k) c false) (start_times k)
               (upd (times k) c (times k c + (now - start_times k c))))
  else Throw (to_name c ++ " not active")%string.

(** clocker.cpp:265-270 *)
Definition add_clocker (c : ctype) (now : R) (k : clocker) : clocker :=
  Clk (upd (actives k) c false) (upd (start_times k) c now) (upd (times k) c 0).

(** One call made by client code. *)
Inductive cop := Start (c : ctype) (now : R) | Stop (c : ctype) (now : R).
Definition do_op (k : clocker) (o : cop) : outcome clocker :=
  match o with Start c t => start_clock c t k | Stop c t => end_clock c t k end.

(** A sequence of calls; the first exception ends it. *)
Definition run_ops (ops : list cop) (k : clocker) : outcome clocker := foldM do_op ops k.

(** ** Timing records (ClockerResults) *)

(** clocker.h:131-157.  [times] is a vector of COUNT = 24 durations; the date fields exist because
    RECORD is true. *)
Record results := Res { r_times : list R; r_month : Z; r_day : Z; r_year : Z }.
Definition COUNT : nat := 24.

(** clocker.cpp:118-137.  The text is modelled by its list of comma-separated fields, each field by
    the number it denotes: number formatting (std::to_string, six decimals) is idealised as exact.
    Positions 0, 1, 3 of the times are API, RENDERING, SCENE_PARSE. *)
Definition to_fields (r : results) : outcome (list R) :=
  bind (foldM (fun acc i => bind (at_ (r_times r) i) (fun t => Ok (acc ++ [t])%list)) (seq 0 COUNT) [])
    (fun ts =>
  bind (at_ (r_times r) 3) (fun parse =>
  bind (at_ (r_times r) 1) (fun rend =>
  bind (at_ (r_times r) 0) (fun api =>
  Ok ([IZR (r_year r); IZR (r_month r); IZR (r_day r)] ++ ts ++ [parse + rend + api])%list)))).

(** the conversion float -> int of clocker.cpp:102-104 *)
Definition to_int (x : R) : Z := if Rle_dec 0 x then Int_part x else (- Int_part (- x))%Z.

(** clocker.cpp:106-112: [vals.size() > i] guards the read of [vals[3 + i]]. *)
Definition parse_times (vals ts : list R) : outcome (list R) :=
  foldM (fun ts i =>
    if Nat.ltb i (List.length vals) then bind (at_ vals (3 + i)) (fun v => store ts i v)
    else store ts i 0) (seq 0 COUNT) ts.

(** clocker.cpp:91-115 on a record whose vector of times is [ts] (COUNT zeros in the
    constructor 28-32). *)
Definition parse_fields (vals ts : list R) : outcome results :=
  bind (at_ vals 0) (fun v0 =>
  bind (at_ vals 1) (fun v1 =>
  bind (at_ vals 2) (fun v2 =>
  bind (parse_times vals ts) (fun ts' =>
  bind (store ts' COUNT 0) (fun ts'' =>
  Ok (Res ts'' (to_int v0) (to_int v1) (to_int v2))))))).

(** clocker.cpp:27-33 *)
Definition results_of_string (vals : list R) : outcome results := parse_fields vals (repeat 0 COUNT).

(** clocker.cpp:199-203, 205-209, 211-215; [other] must have at least as many entries. *)
Definition res_add (a b : results) : outcome results :=
  bind (foldM (fun acc i => bind (at_ (r_times a) i) (fun x => bind (at_ (r_times b) i) (fun y =>
          Ok (acc ++ [x + y])%list))) (seq 0 (List.length (r_times a))) [])
       (fun ts => Ok (Res ts (r_month a) (r_day a) (r_year a))).
Definition res_div (a : results) (v : R) : results :=
  Res (map (fun x => x / v) (r_times a)) (r_month a) (r_day a) (r_year a).
