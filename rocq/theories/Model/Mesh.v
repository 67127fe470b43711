(** Triangle meshes: src/shapes/objmesh.cpp, src/shapes/grid_obj.cpp,
    src/shaders/interp_verts_to_sphere.cpp.  Floats are reals.  The Embree geometry upload, logging
    and the cached surface area (never written, objmesh.cpp:55-58) are left out. *)
From Coq Require Import Reals List String Ascii ZArith Bool.
From Coquelicot Require Import Rbar.
From Verif.Base Require Import Outcome.
From Verif.Model Require Import Vec Matrix Frame BBox.
Import ListNotations.
Local Open Scope outcome_scope.
Open Scope R_scope.

(** three unsigned indices (Vec3u) *)
Record idx3 := I3 { i_0 : Z; i_1 : Z; i_2 : Z }.
(** include/feign/shapes/triangle.h:17-31 *)
Record tri := Tri { vsInds : idx3; nsInds : idx3; uvsInds : idx3 }.
(** include/feign/shapes/objmesh.h:94-105: the vectors of a mesh *)
Record mesh := Mesh { ms_vs : list vec3; ms_ns : list vec3; ms_uvs : list (R * R); ms_tris : list tri }.
(** v[i] for a std::vector and an unsigned index *)
Definition atz {A} (l : list A) (i : Z) : outcome A :=
  if (i <? Z.of_nat (List.length l))%Z then at_ l (Z.to_nat i) else UB.

(** the three corners of a face: objmesh.cpp:62-68, 265-271, 299-305, 371-377, 422-428 *)
Definition corners (m : mesh) (t : tri) : outcome (vec3 * vec3 * vec3) :=
  p0 <- atz (ms_vs m) (i_0 (vsInds t)) ;;
  p1 <- atz (ms_vs m) (i_1 (vsInds t)) ;;
  p2 <- atz (ms_vs m) (i_2 (vsInds t)) ;;
  Ok (p0, p1, p2).

(** objmesh.cpp:60-71 *)
Definition surface_area (m : mesh) (i : nat) : outcome R :=
  t <- at_ (ms_tris m) i ;;
  c <- corners m t ;;
  let '(p0, p1, p2) := c in
  Ok (norm (cross (vsub p1 p0) (vsub p2 p0)) * (1 / 2)).
(** objmesh.cpp:263-277 *)
Definition tri_bbox (m : mesh) (i : nat) : outcome ebox :=
  t <- at_ (ms_tris m) i ;;
  c <- corners m t ;;
  let '(p0, p1, p2) := c in
  Ok (ebox_expand (ebox_expand (ebox_point p0) p1) p2).
(** objmesh.cpp:297-308 *)
Definition tri_centroid (m : mesh) (i : nat) : outcome vec3 :=
  t <- at_ (ms_tris m) i ;;
  c <- corners m t ;;
  let '(p0, p1, p2) := c in
  Ok (vscale (vadd (vadd p0 p1) p2) (1 / 3)).
(** objmesh.cpp:279-290; the mesh must not be empty (0/0) *)
Definition compute_centroid (vs : list vec3) : vec3 :=
  vdiv (fold_left vadd vs (V3 0 0 0)) (INR (List.length vs)).
(** objmesh.cpp:324-341, grid_obj.cpp:153-157; [old] is the box before (the default box at first) *)
Definition mesh_bbox (requires_processing : bool) (vs : list vec3) (old : ebox) : ebox :=
  match vs with
  | v :: vs' => if requires_processing then fold_left ebox_expand vs' (ebox_point v) else old
  | [] => old
  end.

(** objmesh.cpp:379-413: barycentric coordinates and distance when the function returns true *)
Definition tri_hit (p0 p1 p2 : vec3) (r : ray) : option (R * R * R) :=
  let edge1 := vsub p1 p0 in
  let edge2 := vsub p2 p0 in
  let pvec := cross (dir r) edge2 in
  let det := dot edge1 pvec in
  if (if Rgt_dec det (- (1 / 100000000)) then if Rlt_dec det (1 / 100000000) then true else false else false) then None
  else
    let invDet := 1 / det in
    let tvec := vsub (org r) p0 in
    let u := dot tvec pvec * invDet in
    if Rlt_dec u 0 then None else if Rgt_dec u 1 then None
    else
      let qvec := cross tvec edge1 in
      let v := dot (dir r) qvec * invDet in
      if Rlt_dec v 0 then None else if Rgt_dec v 1 then None
      else
        let t := dot edge2 qvec * invDet in
        if Rbar_le_dec (rnear r) (Finite t) then
          if Rbar_le_dec (Finite t) (rfar r) then Some (u, v, t) else None
        else None.
(** objmesh.cpp:369-377 *)
Definition face_hit (m : mesh) (r : ray) (i : nat) : outcome (option (R * R * R)) :=
  t <- at_ (ms_tris m) i ;;
  c <- corners m t ;;
  let '(p0, p1, p2) := c in
  Ok (tri_hit p0 p1 p2 r).

(** the fields of the intersection written by objmesh.cpp:344-365 *)
Record mesh_hit := MeshHit { mh_t : R; mh_u : R; mh_v : R; mh_f : nat }.
Definition set_far (r : ray) (t : R) : ray := Ray (org r) (dir r) (rnear r) (Finite t).
(** objmesh.cpp:350-362: one iteration; the state is the local ray and the result so far *)
Definition hit_step (m : mesh) (s : ray * option mesh_hit) (i : nat) : outcome (ray * option mesh_hit) :=
  h <- face_hit m (fst s) i ;;
  match h with
  | Some (u, v, t) => Ok (set_far (fst s) t, Some (MeshHit t u v i))
  | None => Ok s
  end.
Definition mesh_intersect (m : mesh) (r : ray) : outcome (option mesh_hit) :=
  s <- foldM (hit_step m) (seq 0 (List.length (ms_tris m))) (r, None) ;;
  Ok (snd s).

(** what objmesh.cpp:416-462 adds to an intersection *)
Record surface := Surface { su_bary : vec3; su_p : vec3; su_uv : R * R; su_g : frame; su_s : frame }.
Definition interp3 (a b c w : vec3) : vec3 := vadd (vadd (vscale a (vx w)) (vscale b (vy w))) (vscale c (vz w)).
Definition complete (m : mesh) (h : mesh_hit) : outcome surface :=
  let bary := V3 (1 - mh_u h - mh_v h) (mh_u h) (mh_v h) in
  t <- at_ (ms_tris m) (mh_f h) ;;
  c <- corners m t ;;
  let '(p0, p1, p2) := c in
  let p := interp3 p0 p1 p2 bary in
  uv <- match ms_uvs m with
        | [] => Ok (mh_u h, mh_v h)
        | _ =>
          a <- atz (ms_uvs m) (i_0 (uvsInds t)) ;;
          b <- atz (ms_uvs m) (i_1 (uvsInds t)) ;;
          c <- atz (ms_uvs m) (i_2 (uvsInds t)) ;;
          Ok (fst a * vx bary + fst b * vy bary + fst c * vz bary, snd a * vx bary + snd b * vy bary + snd c * vz bary)
        end ;;
  let g := frame_of (normalized (cross (vsub p1 p0) (vsub p2 p0))) in
  s <- match ms_ns m with
       | [] => Ok g
       | _ =>
         a <- atz (ms_ns m) (i_0 (nsInds t)) ;;
         b <- atz (ms_ns m) (i_1 (nsInds t)) ;;
         c <- atz (ms_ns m) (i_2 (nsInds t)) ;;
         Ok (frame_of (normalized (interp3 a b c bary)))
       end ;;
  Ok (Surface bary p uv g s).

(** * OBJ files (objmesh.cpp:122-241) *)
(** std::stoi on a word without blanks: an optional sign, then as many digits as there are.  Without
    any digit it throws std::invalid_argument, out of the range of int std::out_of_range. *)
Definition digit (c : ascii) : option Z :=
  let n := Z.of_nat (nat_of_ascii c) in if ((48 <=? n) && (n <=? 57))%Z%bool then Some (n - 48)%Z else None.
Fixpoint digits_val (s : string) (acc : Z) : Z :=
  match s with
  | EmptyString => acc
  | String c s' => match digit c with Some d => digits_val s' (acc * 10 + d) | None => acc end
  end.
Definition unsigned_val (s : string) : option Z :=
  match s with
  | String c _ => match digit c with Some _ => Some (digits_val s 0) | None => None end
  | EmptyString => None
  end.
Definition stoi (s : string) : outcome Z :=
  match (match s with
         | String "-" s' => option_map Z.opp (unsigned_val s')
         | String "+" s' => unsigned_val s'
         | _ => unsigned_val s
         end) with
  | None => Throw "invalid_argument"
  | Some z => if ((- 2 ^ 31 <=? z) && (z <? 2 ^ 31))%Z%bool then Ok z else Throw "out_of_range"
  end.
(** an int stored in an unsigned 32 bit variable *)
Definition u32 (z : Z) : Z := (z mod 2 ^ 32)%Z.

(** the pieces of a word separated by '/' *)
Fixpoint pieces (s : string) : list string :=
  match s with
  | EmptyString => [EmptyString]
  | String c s' =>
    if Ascii.eqb c "/" then EmptyString :: pieces s'
    else match pieces s' with p :: ps => String c p :: ps | [] => [] end
  end.
(** the three calls of std::getline(stream, token, '/') on one word (objmesh.cpp:217-236).  When the
    word is used up, getline fails before touching [token], which keeps the last piece. *)
Definition getlines (s : string) : string * string * string :=
  let ps := pieces s in
  let a := nth 0 ps EmptyString in
  let b := nth 1 ps a in
  let c := nth 2 ps b in
  (a, b, c).
Definition face_corner (s : string) : outcome (Z * Z * Z) :=
  let '(a, b, c) := getlines s in
  p <- stoi a ;; u <- stoi b ;; n <- stoi c ;;
  Ok (u32 (p - 1), u32 (u - 1), u32 (n - 1)).

(** one line after reading its first word; the numbers behind v, vt and vn are taken as read by
    operator>>, the words behind f are kept (missing words are empty strings) *)
Inductive obj_line :=
| LVert (p : vec3) | LTex (u v : R) | LNorm (n : vec3) | LFace (words : list string) | LOther.
(** objmesh.cpp:142-240 *)
Definition parse_line (tf : transform) (flip : bool) (m : mesh) (l : obj_line) : outcome mesh :=
  match l with
  | LVert p => Ok (Mesh (ms_vs m ++ [tf_point tf p]) (ms_ns m) (ms_uvs m) (ms_tris m))
  | LTex u v => Ok (Mesh (ms_vs m) (ms_ns m) (ms_uvs m ++ [(u, v)]) (ms_tris m))
  | LNorm n =>
    let n := tf_normal tf n in
    let n := if flip then vneg n else n in
    Ok (Mesh (ms_vs m) (ms_ns m ++ [normalized n]) (ms_uvs m) (ms_tris m))
  | LFace ws =>
    if negb (String.eqb (nth 4 ws EmptyString) EmptyString) then Throw "Meshes with more than 4 verts in a face are not supported"
    else if negb (String.eqb (nth 3 ws EmptyString) EmptyString) then Throw "quads in obj"
    else
      a <- face_corner (nth 0 ws EmptyString) ;;
      b <- face_corner (nth 1 ws EmptyString) ;;
      c <- face_corner (nth 2 ws EmptyString) ;;
      let '(p0, u0, n0) := a in
      let '(p1, u1, n1) := b in
      let '(p2, u2, n2) := c in
      Ok (Mesh (ms_vs m) (ms_ns m) (ms_uvs m) (ms_tris m ++ [Tri (I3 p0 p1 p2) (I3 n0 n1 n2) (I3 u0 u1 u2)]))
  | LOther => Ok m
  end.
(** objmesh.cpp:127-131, 142-240 for a file that can be opened *)
Definition parse_obj (tf : transform) (flip : bool) (ls : list obj_line) : outcome mesh :=
  foldM (parse_line tf flip) ls (Mesh [] [] [] []).

(** * Recomputed vertex normals (grid_obj.cpp:91-119, interp_verts_to_sphere.cpp:39, 57-83) *)
Definition storez {A} (l : list A) (i : Z) (v : A) : outcome (list A) :=
  if (i <? Z.of_nat (List.length l))%Z then store l (Z.to_nat i) v else UB.
Definition add_at (l : list vec3) (i : Z) (v : vec3) : outcome (list vec3) :=
  a <- atz l i ;; storez l i (vadd a v).
Definition tri_norm (p0 p1 p2 : vec3) : vec3 :=
  let n := cross (vsub p1 p0) (vsub p2 p0) in
  normalized (if Req_EM_T (sqrNorm n) 0 then V3 0 1 0 else n).
Definition acc_norm (vs : list vec3) (ns : list vec3) (t : tri) : outcome (list vec3) :=
  p0 <- atz vs (i_0 (vsInds t)) ;;
  p1 <- atz vs (i_1 (vsInds t)) ;;
  p2 <- atz vs (i_2 (vsInds t)) ;;
  let n := tri_norm p0 p1 p2 in
  ns <- add_at ns (i_0 (nsInds t)) n ;;
  ns <- add_at ns (i_1 (nsInds t)) n ;;
  add_at ns (i_2 (nsInds t)) n.
Definition vertex_norms (vs : list vec3) (count : nat) (tris : list tri) : outcome (list vec3) :=
  foldM (acc_norm vs) tris (repeat (V3 0 0 0) count).

(** * Grids (grid_obj.cpp:21-129); resolutions of at least 2 (with 1 the positions are 0/0) *)
(** grid_obj.cpp:42-44 *)
Definition grid_vert (r0 r1 i j : nat) : vec3 :=
  V3 ((1 - -1) * INR j / INR (r0 - 1) + -1) 0 ((1 - -1) * INR i / INR (r1 - 1) + -1).
(** grid_obj.cpp:47-48 *)
Definition grid_uv (r0 r1 i j : nat) : R * R := (INR j / INR (r0 - 1), INR i / INR (r1 - 1)).
(** the double loop of lines 38-52, which fills the vectors in index order *)
Definition grid_rows {A} (r0 r1 : nat) (f : nat -> nat -> A) : list A :=
  flat_map (fun i => map (fun j => f i j) (seq 0 r0)) (seq 0 r1).
(** grid_obj.cpp:64-73 *)
Definition grid_cell (r0 i j : nat) : list tri :=
  let one := Z.of_nat ((i - 1) * r0 + j) in
  let two := Z.of_nat (i * r0 + j) in
  let three := Z.of_nat (i * r0 + (j - 1)) in
  let four := Z.of_nat ((i - 1) * r0 + (j - 1)) in
  let inds_one := I3 one four two in
  let inds_two := I3 four three two in
  [Tri inds_one inds_one inds_one; Tri inds_two inds_two inds_two].
(** grid_obj.cpp:54-75 *)
Definition grid_tris (r0 r1 : nat) : list tri :=
  flat_map (fun i => flat_map (fun j => grid_cell r0 i j) (seq 1 (r0 - 1))) (seq 1 (r1 - 1)).
Definition grid_flat (r0 r1 : nat) : mesh :=
  Mesh (grid_rows r0 r1 (grid_vert r0 r1)) (repeat (V3 0 1 0) (r0 * r1)) (grid_rows r0 r1 (grid_uv r0 r1)) (grid_tris r0 r1).
(** grid_obj.cpp:83-88; [height] is the first channel of the texture *)
Definition displace (height : R -> R -> R) (v : vec3) : vec3 :=
  V3 (vx v) (vy v + height (1 / 2 * (vx v + 1)) (1 / 2 * (vz v + 1))) (vz v).
(** grid_obj.cpp:79-122 *)
Definition grid_terrain (terrain : option (R -> R -> R)) (m : mesh) : outcome mesh :=
  match terrain with
  | None => Ok m
  | Some h =>
    let vs := map (displace h) (ms_vs m) in
    ns <- vertex_norms vs (List.length (ms_ns m)) (ms_tris m) ;;
    Ok (Mesh vs ns (ms_uvs m) (ms_tris m))
  end.
(** grid_obj.cpp:124-129 *)
Definition grid_place (tf : transform) (m : mesh) : mesh :=
  Mesh (map (tf_point tf) (ms_vs m)) (map (fun n => normalized (tf_normal tf n)) (ms_ns m)) (ms_uvs m) (ms_tris m).
(** grid_obj.cpp:21-129 *)
Definition grid_obj (r0 r1 : nat) (terrain : option (R -> R -> R)) (tf : transform) : outcome mesh :=
  m <- grid_terrain terrain (grid_flat r0 r1) ;; Ok (grid_place tf m).

(** * The geometry shader InterpVertsToSphere (interp_verts_to_sphere.cpp:25-99) *)
(** for a centroid and a radius that are numbers: lines 41-48 *)
Definition sphere_vert (centroid : vec3) (radius interp : R) (p : vec3) : vec3 :=
  let end_pos := vadd (vscale (normalized (vsub p centroid)) radius) centroid in
  vadd (vscale p (1 - interp)) (vscale end_pos interp).
(** lines 86-95 *)
Definition safe_norm (n : vec3) : vec3 := normalized (if Req_EM_T (sqrNorm n) 0 then V3 0 1 0 else n).
(** lines 29-32 for a finite box *)
Definition sphere_radius (b : bbox) (prop : R) : R :=
  let e := bb_extents b in
  let k := minAbsIndex e in
  (match k with 0%nat => vx e | 1%nat => vy e | _ => vz e end) * prop.
Definition to_sphere (centroid : vec3) (radius interp : R) (m : mesh) : outcome mesh :=
  let vs := map (sphere_vert centroid radius interp) (ms_vs m) in
  ns <- vertex_norms vs (List.length (ms_ns m)) (ms_tris m) ;;
  Ok (Mesh vs (map safe_norm ns) (ms_uvs m) (ms_tris m)).
(** floating point numbers: finite, infinite, or not a number ([None]) *)
Definition fl := option Rbar.
Definition fl_mul (a b : fl) : fl := match a, b with Some a, Some b => Rbar_mult' a b | _, _ => None end.
Definition fl_add (a b : fl) : fl := match a, b with Some a, Some b => Rbar_plus' a b | _, _ => None end.
Definition fl_sub (a b : fl) : fl := match b with Some b => fl_add a (Some (Rbar_opp b)) | None => None end.
Definition fl_div (a b : R) : fl := if Req_EM_T b 0 then None else Some (Finite (a / b)).
(** lines 29-32 on the box the shader finds: the extent along the minor axis; with all extents equal
    (as in the default box) the axis is 2 *)
Definition box_radius (b : ebox) (prop : R) : fl :=
  fl_mul (fl_sub (Some (ez (emx b))) (Some (ez (emn b)))) (Some (Finite prop)).
(** one coordinate of lines 44-47; a zero vector normalises to not-a-number *)
Definition sphere_coord (start centroid len : R) (radius : fl) (interp : R) : fl :=
  let end_pos := fl_add (fl_mul (fl_div (start - centroid) len) radius) (Some (Finite centroid)) in
  fl_add (Some (Finite (start * (1 - interp)))) (fl_mul end_pos (Some (Finite interp))).
(** objmesh.cpp:310-320: the shader runs before lines 322 and 336 have computed the centroid and the
    box, so it sees the default values (vector.h:312-317, bbox.h:20-23) *)
Definition shaded_coords (prop interp : R) (p : vec3) : fl * fl * fl :=
  let c := V3 0 0 0 in
  let len := norm (vsub p c) in
  let radius := box_radius ebox_reset prop in
  (sphere_coord (vx p) (vx c) len radius interp,
   sphere_coord (vy p) (vy c) len radius interp,
   sphere_coord (vz p) (vz c) len radius interp).

(** * Scene bounds (scene.cpp:58, 95; api.cpp:1527): a mesh has a box only if its object has an emitter *)
Definition scene_bounds (objs : list (bool * list vec3)) : ebox :=
  fold_left (fun b o => ebox_expand_box b (mesh_bbox (fst o) (snd o) ebox_reset)) objs (ebox_point (V3 0 0 0)).
