(** What a user expects of the tests. *)
From Coq Require Import Reals List String.
From Verif.Model Require Import Harness.
Import ListNotations.
Open Scope R_scope.

(** a test passes when its image is within the threshold of the reference *)
Definition within (image_error : option R) : Prop := exists e, image_error = Some e /\ e <= 1.
(** it is seen to be too far *)
Definition too_far (image_error : option R) : Prop := exists e, image_error = Some e /\ 1 < e.
(** a scene file of the test directory *)
Definition scene_file (s : string) : Prop := exists base, base <> EmptyString /\ s = append base ".json".
