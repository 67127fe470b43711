(** Scenes to which black objects are added. *)
From Coq Require Import Reals List.
From Verif.Model Require Import Vec Frame BBox Integrators Bsdf Scene Renderer.

(** black paint, and no light of its own *)
Definition black {M} (S : scene M) (i : isect) : Prop :=
  sc_shader S (i_mesh i) = Simple (Diffuse (V3c 0)) /\ sc_object_emitter S (sc_inst S (i_mesh i)) = None.
(** [hit'] is [hit] with more surfaces, all of them black: a ray meets the same as before unless it meets one of them first *)
Definition blackened {M} (S : scene M) (hit hit' : ray -> option isect) : Prop :=
  forall r, hit' r = hit r \/ exists i, hit' r = Some i /\ i_null i = false /\ black S i.
(** the surfaces of a line, and those with solid black ones in between *)
Inductive inserted {M} (S : scene M) : list isect -> list isect -> Prop :=
| ins_nil : inserted S nil nil
| ins_keep i l l' : inserted S l l' -> inserted S (i :: l) (i :: l')
| ins_black i l l' : i_null i = false -> black S i -> inserted S l l' -> inserted S l (i :: l').
(** a scene, and one with more objects, all of them black *)
Definition more_objects {M} (S : scene M) (lines lines' : vec3 -> vec3 -> list isect) : Prop := forall o d, inserted S (lines o d) (lines' o d).
