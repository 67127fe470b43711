(** src/api/api.cpp:1457-1497: the API's current transform.  The clock calls around each
    body are modelled separately (Model/Api.v). *)
From Coq Require Import Reals List.
From Verif.Model Require Import Vec Matrix.
Import ListNotations.
Open Scope R_scope.

Inductive tcall :=
| TClear                             (* fr_clear_transform, 1457-1464 *)
| TScale (v : vec3)                  (* fr_scale, 1466-1475 *)
| TTranslate (v : vec3)              (* fr_translate, 1477-1486 *)
| TRotate (angle : R) (axis : vec3). (* fr_rotate, 1488-1497 *)

(** one call: the new piece is multiplied on the left *)
Definition tstep (cur : transform) (c : tcall) : transform :=
  match c with
  | TClear => tf_id
  | TScale v => tf_mul (tf_of (m4_scale v)) cur
  | TTranslate v => tf_mul (tf_of (m4_translate v)) cur
  | TRotate a v => tf_mul (tf_of (m4_rotate a v)) cur
  end.

(** a history of calls, starting from the constructor's identity (api.cpp:83) *)
Definition trun (cs : list tcall) : transform := fold_left tstep cs tf_id.
