(** The web pages and records written by a run of all tests: src/test/site_assembler.cpp, with the
    files written by src/test/test.cpp and the columns read by
    scenes/unit_tests/web_viewer/scripts/generate_clocking_graphs.py.

    A page is the list of its rows, links and images; headings, prose, style and images inside HTML
    comments are left out.  Renders that throw are not modelled, nor failures to open a file. *)
From Coq Require Import Reals ZArith List String Ascii Bool.
From Verif.Base Require Import Outcome.
From Verif.Model Require Import Clocker Harness.
Import ListNotations.
Local Open Scope string_scope.

(** the folders named in site_assembler.cpp:35, 50, 124, 311 and test.cpp:24, 36, 43 *)
Definition images : string := "../scenes/unit_tests/images/".
Definition viewer : string := "../scenes/unit_tests/web_viewer/".
Definition logs : string := viewer ++ "clocking_logs/".

(** site_assembler.cpp:41, 121, 307; only names longer than five characters get here *)
Definition stem (n : string) : string := substring 0 (String.length n - 5) n.
(** std::string::find_last_of(".") (test.cpp:32, 85) *)
Fixpoint last_dot (s : string) : option nat :=
  match s with
  | EmptyString => None
  | String c r => match last_dot r with Some k => Some (S k) | None => if Ascii.eqb c "." then Some O else None end
  end.
(** test.cpp:34, 87; without a dot loc is -1 and the name is taken whole *)
Definition result_name (n : string) : string := match last_dot n with Some k => substring 0 k n | None => n end.

Inductive item := RowOpen | RowClose | Link (href image : string) | Image (src : string).

(** std::sort of strings (site_assembler.cpp:46): ascending by the codes of the characters *)
Fixpoint insert (s : string) (l : list string) : list string :=
  match l with [] => [s] | x :: l' => if String.leb s x then s :: l else x :: insert s l' end.
Definition sort (l : list string) : list string := fold_right insert [] l.

(** site_assembler.cpp:66-87: [count] links of the current row have been written *)
Definition images_per_row : nat := 3.
Fixpoint home_rows (count : nat) (paths : list string) : list item :=
  match paths with
  | [] => if Nat.eqb count 0 then [] else [RowClose]
  | p :: ps =>
      (if Nat.eqb count 0 then [RowOpen] else []) ++
      Link (p ++ ".html") ("../images/" ++ p ++ ".png") ::
      (if Nat.eqb (S count) images_per_row then RowClose :: home_rows 0 ps else home_rows (S count) ps)
  end%list.
(** site_assembler.cpp:22-115; the names are those of Harness.test_names *)
Definition home_page (dir : option (list string)) : list item := home_rows 0 (sort (map stem (test_names dir))).

(** site_assembler.cpp:229-252 *)
Definition time_measures : list string :=
  ["_api"; "_camera_ray"; "_embree"; "_filter"; "_integrator_eval"; "_integrator_intersect"; "_integrator_nee";
   "_integrator_pre_process"; "_integrator_rr"; "_integrator"; "_rendering"; "_scene_parse"; "_shader_media_eval";
   "_shader_media_pre_process"; "_shader_media_sample"; "_shader_media"; "_shader_surface_eval";
   "_shader_surface_pre_process"; "_shader_surface_sample"; "_shader_surface"; "_shader";
   "_debug_one"; "_debug_two"; "_debug_three"].
(** site_assembler.cpp:253-277: two graphs per row *)
Fixpoint graph_rows (t : string) (count : nat) (ms : list string) : list item :=
  match ms with
  | [] => if Nat.eqb count 0 then [] else [RowClose]
  | m :: ms =>
      (if Nat.eqb count 0 then [RowOpen] else []) ++
      Image ("clocking_logs/" ++ t ++ "/" ++ t ++ m ++ ".png") ::
      (if Nat.eqb (S count) 2 then RowClose :: graph_rows t 0 ms else graph_rows t (S count) ms)
  end%list.
(** site_assembler.cpp:117-299 *)
Definition test_page (n : string) : list item :=
  let t := stem n in
  ([RowOpen; Image ("../images/" ++ t ++ ".png"); Image ("../images/" ++ t ++ "_ref.png"); RowClose;
    RowOpen; Image ("../images/" ++ t ++ ".png"); Image ("../images/" ++ t ++ "_ref.png"); RowClose;
    RowOpen; Link "home.html" "../images/test_001_pos_error.png"; Link "home.html" ("../images/" ++ t ++ "_neg_error.png"); RowClose;
    RowOpen; Image ("clocking_logs/" ++ t ++ "/" ++ t ++ "_time.png"); Image ("clocking_logs/" ++ t ++ "/" ++ t ++ "_error.png");
    Image ("clocking_logs/" ++ t ++ "/" ++ t ++ "_MSE.png"); Image ("clocking_logs/" ++ t ++ "/" ++ t ++ "_rel_error.png"); RowClose] ++
   graph_rows t 0 time_measures)%list.

(** what a run does outside the process *)
Inductive effect :=
| WriteImage (path : string)
| WritePage (path : string) (page : list item)
| Append (path : string) (row : list R)
| Command (line : string).

(** test.cpp:17-66, 79-91: the files written *)
Definition evaluate_files (n : string) : list effect :=
  map (fun e => WriteImage (images ++ result_name n ++ e)) [".exr"; ".png"; "_pos_error.png"; "_neg_error.png"].
Definition reference_files (n : string) : list effect :=
  map (fun e => WriteImage (images ++ result_name n ++ e)) ["_ref.exr"; "_ref.png"].
(** site_assembler.cpp:311-318: the fields of to_string, then the three errors *)
Definition record_row (clockings : results) (abs_error sqr_error rel_error : R) : outcome (list R) :=
  bind (to_fields clockings) (fun fs => Ok (fs ++ [abs_error; sqr_error; rel_error])%list).
(** site_assembler.cpp:320-326 *)
Definition remove_command (n : string) : string := "rm -rf " ++ stem n ++ "/".
Definition mkdir_command (n : string) : string := "mkdir " ++ logs ++ stem n ++ "/".
Definition graphs_command (n : string) : string :=
  "python3 " ++ viewer ++ "scripts/generate_clocking_graphs.py " ++ stem n ++ " &".
(** site_assembler.cpp:303-327 *)
Definition append_to_test_records (n : string) (row : list R) : list effect :=
  [Append (logs ++ stem n ++ ".dat") row; Command (remove_command n); Command (mkdir_command n); Command (graphs_command n)].
(** tester.cpp:79-131 with RECORD; NUM_TESTS_PER_RECORD is 1.  [row n] is the record of the test n;
    [dir'] is what the directory holds when the overview is made *)
Definition site_run (reference_run : bool) (dir dir' : option (list string)) (row : string -> list R) : list effect :=
  (flat_map (fun n =>
     (if reference_run then reference_files n else evaluate_files n ++ append_to_test_records n (row n)) ++
     [WritePage (viewer ++ stem n ++ ".html") (test_page n)]) (test_names dir) ++
   [WritePage (viewer ++ "home.html") (home_page dir')])%list.

(** generate_clocking_graphs.py:103-163: the column drawn into the graph of each name *)
Definition script_columns : list (string * nat) :=
  [("api", 3); ("rendering", 4); ("camera_ray", 5); ("scene_parse", 6); ("integrator", 7); ("integrator_intersect", 8);
   ("integrator_pre_process", 9); ("integrator_rr", 10); ("integrator_nee", 11); ("integrator_eval", 12); ("shader", 13);
   ("shader_surface", 14); ("shader_surface_eval", 15); ("shader_surface_sample", 16); ("shader_surface_pre_process", 17);
   ("shader_media", 18); ("shader_media_eval", 19); ("shader_media_sample", 20); ("shader_media_pre_process", 21);
   ("filter", 22); ("embree", 23); ("debug_one", 24); ("debug_two", 25); ("debug_three", 26); ("time", 27);
   ("error", 28); ("mse", 29); ("rel_error", 30)]%nat.
(** generate_clocking_graphs.py:91-96, 165-173: the script gives up on rows of another length *)
Definition expected_columns : nat := 31.
Definition graph_file (t save_name : string) : string := logs ++ t ++ "/" ++ t ++ "_" ++ save_name ++ ".png".
