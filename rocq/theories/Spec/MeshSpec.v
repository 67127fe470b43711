(** Triangles, meshes and grids as point sets. *)
From Coq Require Import Reals List ZArith String Decimal DecimalString.
From Coquelicot Require Import Rbar.
From Verif.Base Require Import Outcome.
From Verif.Model Require Import Vec BBox Mesh.
Import ListNotations.
Open Scope R_scope.

(** weights of a point of a triangle: non-negative and summing to one *)
Definition weights (w : vec3) : Prop := 0 <= vx w /\ 0 <= vy w /\ 0 <= vz w /\ vx w + vy w + vz w = 1.
Definition combine3 (a b c w : vec3) : vec3 :=
  V3 (vx a * vx w + vx b * vy w + vx c * vz w) (vy a * vx w + vy b * vy w + vy c * vz w) (vz a * vx w + vz b * vy w + vz c * vz w).
(** the point lies in the closed triangle *)
Definition in_triangle (a b c q : vec3) : Prop := exists w, weights w /\ q = combine3 a b c w.
(** the point lies in the closed parallelogram spanned at [a] by the edges towards [b] and [c] *)
Definition in_parallelogram (a b c q : vec3) : Prop :=
  exists u v, 0 <= u <= 1 /\ 0 <= v <= 1 /\ q = vadd a (vadd (vscale (vsub b a) u) (vscale (vsub c a) v)).
(** six times the signed volume spanned by the ray direction and the two edges *)
Definition tri_det (p0 p1 p2 : vec3) (r : ray) : R := dot (vsub p1 p0) (cross (dir r) (vsub p2 p0)).
Definition det_tol : R := 1 / 100000000.
Definition in_ray_range (r : ray) (t : R) : Prop := Rbar_le (rnear r) (Finite t) /\ Rbar_le (Finite t) (rfar r).

(** the three corners of face i *)
Definition face_of (m : mesh) (i : nat) (a b c : vec3) : Prop :=
  exists t, nth_error (ms_tris m) i = Some t /\
    (0 <= i_0 (vsInds t) /\ 0 <= i_1 (vsInds t) /\ 0 <= i_2 (vsInds t))%Z /\
    nth_error (ms_vs m) (Z.to_nat (i_0 (vsInds t))) = Some a /\
    nth_error (ms_vs m) (Z.to_nat (i_1 (vsInds t))) = Some b /\
    nth_error (ms_vs m) (Z.to_nat (i_2 (vsInds t))) = Some c.
(** the normals and texture coordinates of the corners of face i *)
Definition picks {A} (l : list A) (i : idx3) (a b c : A) : Prop :=
  nth_error l (Z.to_nat (i_0 i)) = Some a /\ nth_error l (Z.to_nat (i_1 i)) = Some b /\ nth_error l (Z.to_nat (i_2 i)) = Some c.
Definition face_normals (m : mesh) (i : nat) (a b c : vec3) : Prop :=
  exists t, nth_error (ms_tris m) i = Some t /\ picks (ms_ns m) (nsInds t) a b c.
Definition face_uvs (m : mesh) (i : nat) (a b c : R * R) : Prop :=
  exists t, nth_error (ms_tris m) i = Some t /\ picks (ms_uvs m) (uvsInds t) a b c.
(** all indices are in range *)
Definition idx_ok (n : nat) (i : idx3) : Prop :=
  (0 <= i_0 i < Z.of_nat n /\ 0 <= i_1 i < Z.of_nat n /\ 0 <= i_2 i < Z.of_nat n)%Z.
Definition well_formed (m : mesh) : Prop := forall t, In t (ms_tris m) ->
  idx_ok (List.length (ms_vs m)) (vsInds t) /\
  (ms_ns m <> [] -> idx_ok (List.length (ms_ns m)) (nsInds t)) /\ (ms_uvs m <> [] -> idx_ok (List.length (ms_uvs m)) (uvsInds t)).

(** decimal notation *)
Definition decimal (n : nat) : string := NilZero.string_of_uint (Nat.to_uint n).
(** one corner of a face as an OBJ file gives it (one-based) *)
Definition corner_word (p u n : nat) : string := (decimal p ++ "/" ++ decimal u ++ "/" ++ decimal n)%string.

(** a floating point value that is a number *)
Definition is_number (x : fl) : Prop := exists r, x = Some (Finite r).

(** an OBJ file as its author means it: vertices, texture coordinates, normals, faces (one-based
    indices of position, texture coordinate and normal for three corners), and anything else *)
Inductive item :=
| IV (p : vec3) | IT (u v : R) | IN (n : vec3) | IF (a b c : nat * nat * nat) | IOther.
Definition word_of (k : nat * nat * nat) : string := corner_word (fst (fst k)) (snd (fst k)) (snd k).
Definition line_of (i : item) : obj_line :=
  match i with
  | IV p => LVert p | IT u v => LTex u v | IN n => LNorm n | IOther => LOther
  | IF a b c => LFace [word_of a; word_of b; word_of c]
  end.
Definition verts_of (f : list item) : list vec3 := flat_map (fun i => match i with IV p => [p] | _ => [] end) f.
Definition uvs_of (f : list item) : list (R * R) := flat_map (fun i => match i with IT u v => [(u, v)] | _ => [] end) f.
Definition norms_of (f : list item) : list vec3 := flat_map (fun i => match i with IN n => [n] | _ => [] end) f.
Definition faces_of (f : list item) : list ((nat * nat * nat) * (nat * nat * nat) * (nat * nat * nat)) :=
  flat_map (fun i => match i with IF a b c => [(a, b, c)] | _ => [] end) f.
(** the face with zero-based indices *)
Definition zero_based (f : (nat * nat * nat) * (nat * nat * nat) * (nat * nat * nat)) : tri :=
  let '((p0, u0, n0), (p1, u1, n1), (p2, u2, n2)) := f in
  let z n := Z.of_nat (n - 1) in
  Tri (I3 (z p0) (z p1) (z p2)) (I3 (z n0) (z n1) (z n2)) (I3 (z u0) (z u1) (z u2)).
Definition int_index (n : nat) : Prop := (0 < n)%nat /\ (Z.of_nat n < 2 ^ 31)%Z.
Definition corner_ok (k : nat * nat * nat) : Prop := int_index (fst (fst k)) /\ int_index (snd (fst k)) /\ int_index (snd k).
(** all indices of the file point at something *)
Definition refers (f : list item) (k : nat * nat * nat) : Prop :=
  (fst (fst k) <= List.length (verts_of f))%nat /\ (snd (fst k) <= List.length (uvs_of f))%nat /\ (snd k <= List.length (norms_of f))%nat.
