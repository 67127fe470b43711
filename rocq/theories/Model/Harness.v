(** The test harness and the command line: src/test/tester.cpp, src/test/test.cpp,
    include/feign/test/tester.h, src/main.cpp.  What a test render produces is an oracle: [err n k] is
    the mean absolute difference of the k-th run of the test named n to its reference, [None] if it is
    not a number.  Renders that throw are not modelled here, nor are the written web pages. *)
From Coq Require Import Reals ZArith List String Ascii Decimal DecimalString.
From Verif.Base Require Import Outcome.
From Verif.Model Require Import Mesh.
Import ListNotations.
Local Open Scope outcome_scope.
Local Open Scope string_scope.
Open Scope R_scope.

(** tester.h:25, 40, 48: the threshold is 1; a comparison with a NaN is false *)
Definition does_it_fail (image_error : option R) : bool :=
  match image_error with Some e => if Rgt_dec e 1 then true else false | None => false end.

(** tester.cpp:71: the last five characters, of a longer name *)
Definition is_json (s : string) : bool :=
  (Nat.ltb 5 (String.length s) && String.eqb (substring (String.length s - 5) 5 s) ".json")%bool.
(** tester.cpp:58-77: the entries of the directory; [None]: it cannot be opened *)
Definition test_names (dir : option (list string)) : list string :=
  match dir with None => [] | Some es => filter is_json es end.

(** tester.cpp:28-33 *)
Definition zeros (n : nat) : string := String.concat "" (repeat "0" n).
Definition zero_padded_num (num : Z) : string :=
  let s := NilZero.string_of_int (Z.to_int num) in zeros (3 - String.length s) ++ s.
Definition test_name (index : Z) : string := "test_" ++ zero_padded_num index ++ ".json".

Inductive action := Evaluate (name : string) (run : nat) | Replace (path : string).

Section Runs.
Variable err : string -> nat -> option R.
(** common.h:33 *)
Definition num_tests_per_record : nat := 1.
(** test.cpp:17-66 and tester.cpp:37-54.  In a reference run the error keeps its initial value 0;
    the reference is rendered from the bare name of the file (tester.h:18-21, test.cpp:80) *)
Definition run_test (reference_run : bool) (index : Z) : list action * bool :=
  if reference_run then ([Replace (test_name index)], does_it_fail (Some 0))
  else ([Evaluate (test_name index) 0], does_it_fail (err (test_name index) 0)).
(** tester.cpp:56-133 *)
Definition run_all_tests (reference_run : bool) (dir : option (list string)) : list action * bool :=
  fold_left (fun '(done, passes) n =>
    if reference_run then ((done ++ [Replace ("../scenes/unit_tests/scenes/" ++ n)])%list, passes)
    else fold_left (fun '(done, passes) k =>
      ((done ++ [Evaluate n k])%list, if does_it_fail (err n k) then false else passes)) (seq 0 num_tests_per_record) (done, passes))
  (test_names dir) ([], true).

(** what the process does in the end: exit with a code after some tests, or render a scene *)
Inductive finish := Exit (did : list action) (code : Z) | Render (scene : string).
Definition finished (r : list action * bool) : outcome finish := Ok (Exit (fst r) (if negb (snd r) then (-1)%Z else 0%Z)).
(** main.cpp:35-117; argv[argc] is a null pointer, of which no string can be made *)
Fixpoint main_loop (dir : option (list string)) (args : list string) (scene : string) : outcome finish :=
  match args with
  | [] => Ok (Render scene)
  | a :: rest =>
    if String.eqb a "-u" then finished (run_all_tests false dir)
    else if String.eqb a "-ui" then
      match rest with [] => UB | i :: _ => index <- stoi i ;; finished (run_test false index) end
    else if String.eqb a "-ur" then finished (run_all_tests true dir)
    else if String.eqb a "-uri" then
      match rest with [] => UB | i :: _ => index <- stoi i ;; finished (run_test true index) end
    else if String.eqb a "-s" then
      match rest with [] => UB | s :: rest' => main_loop dir rest' s end
    else main_loop dir rest scene
  end.
Definition main_ (dir : option (list string)) (args : list string) : outcome finish := main_loop dir args "".
End Runs.
