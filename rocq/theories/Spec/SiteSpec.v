(** What a reader of the generated pages expects. *)
From Coq Require Import Reals List String Ascii Bool.
From Verif.Model Require Import Clocker Site.
Import ListNotations.
Local Open Scope string_scope.

(** the targets of the links of a page, in order, and the images it shows *)
Definition hrefs (p : list item) : list string := flat_map (fun i => match i with Link h _ => [h] | _ => [] end) p.
Definition shown (p : list item) : list string := flat_map (fun i => match i with Link _ s => [s] | Image s => [s] | _ => [] end) p.
(** a page made of complete rows *)
Definition in_rows (p : list item) (rows : list (list item)) : Prop :=
  p = flat_map (fun r => RowOpen :: r ++ [RowClose])%list rows /\
  Forall (fun r => r <> [] /\ Forall (fun i => i <> RowOpen /\ i <> RowClose) r) rows.
(** ascending *)
Fixpoint ascending (l : list string) : Prop :=
  match l with x :: ((y :: _) as l') => String.leb x y = true /\ ascending l' | _ => True end.
(** what a browser loads for a reference on a page of the viewer folder *)
Definition loads (src : string) : string :=
  if String.prefix "../images/" src then "../scenes/unit_tests/images/" ++ substring 10 (String.length src - 10) src
  else "../scenes/unit_tests/web_viewer/" ++ src.
(** the page last written to a path *)
Definition page_at (path : string) (es : list effect) : option (list item) :=
  fold_left (fun acc e => match e with WritePage p c => if String.eqb p path then Some c else acc | _ => acc end) es None.
(** the images written *)
Definition written (es : list effect) : list string := flat_map (fun e => match e with WriteImage p => [p] | _ => [] end) es.
(** the words of a command line without quotes or special characters *)
Fixpoint words_from (cur s : string) : list string :=
  let flush := if String.eqb cur "" then [] else [cur] in
  match s with
  | EmptyString => flush
  | String c r => if Ascii.eqb c " " then (flush ++ words_from "" r)%list else words_from (cur ++ String c "") r
  end.
Definition words (s : string) : list string := words_from "" s.
(** what `rm -rf a b ...` removes *)
Definition removed (line : string) : list string :=
  match words line with "rm" :: "-rf" :: l => l | _ => [] end.

(** the quantity a reader expects behind the name of a graph: the clock of that name, or a figure of
    the whole test.  Clocks are numbered as in clocker.h:16-47 *)
Inductive quantity := Clock (k : nat) | TotalTime | AbsError | SqrError | RelError.
Definition meaning : list (string * quantity) :=
  [("_api", Clock 0); ("_rendering", Clock 1); ("_camera_ray", Clock 2); ("_scene_parse", Clock 3); ("_integrator", Clock 4);
   ("_integrator_intersect", Clock 5); ("_integrator_pre_process", Clock 6); ("_integrator_rr", Clock 7); ("_integrator_nee", Clock 8);
   ("_integrator_eval", Clock 9); ("_shader", Clock 10); ("_shader_surface", Clock 11); ("_shader_surface_eval", Clock 12);
   ("_shader_surface_sample", Clock 13); ("_shader_surface_pre_process", Clock 14); ("_shader_media", Clock 15);
   ("_shader_media_eval", Clock 16); ("_shader_media_sample", Clock 17); ("_shader_media_pre_process", Clock 18);
   ("_filter", Clock 19); ("_embree", Clock 20); ("_debug_one", Clock 21); ("_debug_two", Clock 22); ("_debug_three", Clock 23);
   ("_time", TotalTime); ("_error", AbsError); ("_MSE", SqrError); ("_rel_error", RelError)]%nat.
Definition value_of (q : quantity) (c : results) (a s r : R) : R :=
  match q with
  | Clock k => nth k (r_times c) 0%R
  | TotalTime => (nth 3 (r_times c) 0 + nth 1 (r_times c) 0 + nth 0 (r_times c) 0)%R
  | AbsError => a | SqrError => s | RelError => r
  end.
