(** C50-C52, C123-C127: triangle meshes, generated grids, OBJ files. *)
From Coq Require Import Reals List Lra Lia Psatz ZArith String Permutation.
From Coq Require Import Ascii.
From Coquelicot Require Import Rbar.
From Verif.Base Require Import Outcome.
From Verif.Model Require Import Vec Matrix Frame BBox Mesh.
From Verif.Spec Require Import LinAlgSpec BBoxSpec FrameSpec MeshSpec.
From Verif.Proof Require Import VecLemmas FrameProof TransformProof BBoxProof MeshProof MeshData GridProof.
Import ListNotations.
Open Scope R_scope.

Definition pA := V3 0 0 0. Definition pB := V3 1 0 0. Definition pC := V3 0 1 0.
Definition down (x y : R) : ray := Ray (V3 x y 1) (V3 0 0 (-1)) 0 p_infty.

(** * C50: one triangle *)
(** what the test decides: the ray meets the parallelogram spanned by the two edges at t, in the
    range of the ray, and the determinant is not below the tolerance *)
Theorem C50_exact p0 p1 p2 r u v t : tri_hit p0 p1 p2 r = Some (u, v, t) <->
  det_tol <= Rabs (tri_det p0 p1 p2 r) /\ 0 <= u <= 1 /\ 0 <= v <= 1 /\ in_ray_range r t /\
  ray_at r t = combine3 p0 p1 p2 (V3 (1 - u - v) u v).
Proof. rewrite <- on_plane_combine. apply tri_hit_spec. Qed.
Print Assumptions C50_exact.
Theorem C50_complete p0 p1 p2 r t : det_tol <= Rabs (tri_det p0 p1 p2 r) -> in_ray_range r t -> in_triangle p0 p1 p2 (ray_at r t) ->
  exists u v, tri_hit p0 p1 p2 r = Some (u, v, t).
Proof.
  intros D B T. apply in_triangle_uv in T. destruct T as (u&v&U&V&S&E). exists u, v. apply C50_exact. repeat split; try assumption; try lra; apply B.
Qed.
Print Assumptions C50_complete.
Theorem C50_in_parallelogram p0 p1 p2 r u v t : tri_hit p0 p1 p2 r = Some (u, v, t) -> in_parallelogram p0 p1 p2 (ray_at r t).
Proof.
  intros H. apply C50_exact in H. destruct H as (_&U&V&_&E). exists u, v. split; [exact U|]. split; [exact V|]. rewrite E. apply V3_eq; cbn; ring.
Qed.
Print Assumptions C50_in_parallelogram.
(** no hit is reported twice: u, v and t are determined *)
Theorem C50_unique p0 p1 p2 r u v t t' : tri_hit p0 p1 p2 r = Some (u, v, t) -> in_triangle p0 p1 p2 (ray_at r t') -> t' = t.
Proof.
  intros H T. apply tri_hit_spec in H. destruct H as (D&_&_&_&E). apply in_triangle_uv in T. destruct T as (u'&v'&_&_&_&E'). apply on_plane_combine in E'.
  assert (N : tri_det p0 p1 p2 r <> 0) by (intros Z; rewrite Z, Rabs_R0 in D; unfold det_tol in D; lra).
  apply (on_plane_iff _ _ _ _ _ _ _ N) in E, E'. destruct E as (_&_&->), E' as (_&_&->). reflexivity.
Qed.
Print Assumptions C50_unique.
Lemma down_det x y : tri_det pA pB pC (down x y) = 1.
Proof. unfold tri_det, dot. cbn. ring. Qed.
Lemma down_hit x y : 0 <= x <= 1 -> 0 <= y <= 1 -> tri_hit pA pB pC (down x y) = Some (x, y, 1).
Proof.
  intros A B. apply C50_exact. rewrite down_det, Rabs_R1. unfold det_tol, in_ray_range. cbn [Rbar_le down rnear rfar].
  repeat split; try lra. apply V3_eq; cbn; ring.
Qed.
(** a hit is reported outside the triangle *)
Theorem C50_outside_refuted : exists p0 p1 p2 r u v t, tri_hit p0 p1 p2 r = Some (u, v, t) /\ ~ in_triangle p0 p1 p2 (ray_at r t).
Proof.
  exists pA, pB, pC, (down (9 / 10) (9 / 10)), (9 / 10), (9 / 10), 1. split; [apply down_hit; lra|].
  intros (w&(A&B&C&S)&E). unfold ray_at, combine3, down, pA, pB, pC in E. cbn in E. injection E as E1 E2 E3. lra.
Qed.
Print Assumptions C50_outside_refuted.
(** and a ray through the middle of a small triangle misses it *)
Theorem C50_small_refuted : exists p0 p1 p2 r t, tri_hit p0 p1 p2 r = None /\ in_ray_range r t /\ in_triangle p0 p1 p2 (ray_at r t) /\
  cross (vsub p1 p0) (vsub p2 p0) <> V3 0 0 0.
Proof.
  exists pA, (V3 (1 / 20000) 0 0), (V3 0 (1 / 20000) 0), (down (1 / 80000) (1 / 80000)), 1. split.
  - destruct (tri_hit _ _ _ _) as [[[u v] t]|] eqn:E; [|reflexivity]. exfalso. apply C50_exact in E. destruct E as (D&_).
    assert (X : tri_det pA (V3 (1 / 20000) 0 0) (V3 0 (1 / 20000) 0) (down (1 / 80000) (1 / 80000)) = 1 / 400000000) by (unfold tri_det, dot; cbn; field).
    rewrite X, Rabs_pos_eq in D by lra. unfold det_tol in D. lra.
  - split; [unfold in_ray_range; cbn; split; [lra|exact I]|]. split.
    + exists (V3 (1 / 2) (1 / 4) (1 / 4)). split; [unfold weights; cbn; lra|]. apply V3_eq; cbn; lra.
    + cbn. intros H. injection H. intros. lra.
Qed.
Print Assumptions C50_small_refuted.
Example C50_case : tri_hit pA pB pC (down (1 / 4) (1 / 2)) = Some (1 / 4, 1 / 2, 1) /\ det_tol <= Rabs (tri_det pA pB pC (down (1 / 4) (1 / 2))) /\
  in_ray_range (down (1 / 4) (1 / 2)) 1 /\ in_triangle pA pB pC (ray_at (down (1 / 4) (1 / 2)) 1) /\ tri_hit pA pB pC (down 2 0) = None.
Proof.
  split; [apply down_hit; lra|]. split; [rewrite down_det, Rabs_R1; unfold det_tol; lra|]. split; [unfold in_ray_range; cbn; split; [lra|exact I]|]. split.
  - exists (V3 (1 / 4) (1 / 4) (1 / 2)). split; [unfold weights; cbn; lra|]. apply V3_eq; cbn; lra.
  - destruct (tri_hit _ _ _ _) as [[[u v] t]|] eqn:E; [|reflexivity]. apply C50_exact in E. destruct E as (_&U&_&_&E). unfold ray_at, combine3, down, pA, pB, pC in E. cbn in E. injection E. lra.
Qed.

(** * C51: the nearest hit *)
(** face i of the mesh is hit at distance t *)
Definition face_hit_at (m : mesh) (r : ray) (i : nat) (u v t : R) : Prop :=
  exists a b c, face_of m i a b c /\ tri_hit a b c r = Some (u, v, t).
Theorem C51_nearest m r : well_formed m -> exists o, mesh_intersect m r = Ok o /\
  (o = None <-> forall i u v t, ~ face_hit_at m r i u v t) /\
  forall h, o = Some h -> face_hit_at m r (mh_f h) (mh_u h) (mh_v h) (mh_t h) /\
    forall i u v t, face_hit_at m r i u v t -> mh_t h <= t /\ (t = mh_t h -> (i <= mh_f h)%nat).
Proof.
  intros W. destruct (mesh_best m r W) as (o&E&B). exists o. split; [exact E|].
  assert (L : forall i u v t, face_hit_at m r i u v t -> (i < List.length (ms_tris m))%nat).
  { intros i u v t (a&b&c&(x&N&_)&_). apply nth_error_Some. congruence. }
  destruct o as [h|]; cbn in B.
  - destruct B as (B1&B2&B3). split.
    + split; [discriminate|]. intros H. exfalso. exact (H _ _ _ _ B2).
    + intros h' H. injection H as <-. split; [exact B2|]. intros i u v t F. exact (B3 i u v t (L _ _ _ _ F) F).
  - split; [|intros h H; discriminate]. split; [|reflexivity]. intros _ i u v t F. exact (B i u v t (L _ _ _ _ F) F).
Qed.
Print Assumptions C51_nearest.
Lemma hit_reordered vs ns uvs ts ts' r t : Permutation ts ts' ->
  (exists i u v, face_hit_at (Mesh vs ns uvs ts) r i u v t) -> exists i u v, face_hit_at (Mesh vs ns uvs ts') r i u v t.
Proof.
  intros P (i&u&v&a&b&c&(x&N&F)&H). apply nth_error_In in N. cbn [ms_tris ms_vs] in *. apply (Permutation_in _ P) in N. apply In_nth_error in N. destruct N as (j&N).
  exists j, u, v, a, b, c. split; [|exact H]. exists x. split; [exact N|exact F].
Qed.
Theorem C51_order_independent vs ns uvs ts ts' r o o' : Permutation ts ts' -> well_formed (Mesh vs ns uvs ts) ->
  mesh_intersect (Mesh vs ns uvs ts) r = Ok o -> mesh_intersect (Mesh vs ns uvs ts') r = Ok o' -> option_map mh_t o = option_map mh_t o'.
Proof.
  intros P W E E'. assert (W' : well_formed (Mesh vs ns uvs ts')).
  { intros t T. apply (W t). cbn [ms_tris] in *. exact (Permutation_in _ (Permutation_sym P) T). }
  destruct (C51_nearest _ r W) as (x&X&N&S). destruct (C51_nearest _ r W') as (x'&X'&N'&S'). rewrite E in X. rewrite E' in X'. injection X as <-. injection X' as <-.
  destruct o as [h|], o' as [h'|]; cbn; try reflexivity.
  - destruct (S h eq_refl) as (A&M). destruct (S' h' eq_refl) as (A'&M'). f_equal. apply Rle_antisym.
    + destruct (hit_reordered vs ns uvs ts' ts r (mh_t h') (Permutation_sym P)) as (i&u&v&F); [eexists _, _, _; exact A'|]. apply (M _ _ _ _ F).
    + destruct (hit_reordered vs ns uvs ts ts' r (mh_t h) P) as (i&u&v&F); [eexists _, _, _; exact A|]. apply (M' _ _ _ _ F).
  - exfalso. destruct (S h eq_refl) as (A&_). destruct (hit_reordered vs ns uvs ts ts' r (mh_t h) P) as (i&u&v&F); [eexists _, _, _; exact A|]. exact (proj1 N' eq_refl _ _ _ _ F).
  - exfalso. destruct (S' h' eq_refl) as (A&_). destruct (hit_reordered vs ns uvs ts' ts r (mh_t h') (Permutation_sym P)) as (i&u&v&F); [eexists _, _, _; exact A|]. exact (proj1 N eq_refl _ _ _ _ F).
Qed.
Print Assumptions C51_order_independent.
(** an index out of range is used unchecked *)
Theorem C51_bad_index m r t : hd_error (ms_tris m) = Some t -> (Z.of_nat (List.length (ms_vs m)) <= i_0 (vsInds t))%Z -> mesh_intersect m r = UB.
Proof.
  intros H B. unfold mesh_intersect. destruct (ms_tris m) as [|t' ts] eqn:E; [discriminate|]. injection H as ->. cbn [List.length seq foldM]. unfold hit_step, face_hit.
  rewrite E. cbn [at_ nth_error bind]. unfold corners, atz. destruct (Z.ltb_spec (i_0 (vsInds t)) (Z.of_nat (List.length (ms_vs m)))); [lia|]. reflexivity.
Qed.
Print Assumptions C51_bad_index.
(** two parallel triangles: the ray from above hits the upper one, listed second *)
Definition two_faces : mesh :=
  let a := I3 0 1 2 in let b := I3 3 4 5 in
  Mesh [V3 0 0 (-1); V3 1 0 (-1); V3 0 1 (-1); pA; pB; pC] [] [] [Tri a a a; Tri b b b].
Lemma two_faces_wf : well_formed two_faces.
Proof. intros t [<-|[<-|[]]]; unfold idx_ok; cbn; repeat split; try lia; congruence. Qed.
Example C51_case : well_formed two_faces /\ exists h, mesh_intersect two_faces (down (1 / 4) (1 / 4)) = Ok (Some h) /\ mh_t h = 1 /\ mh_f h = 1%nat.
Proof.
  split; [exact two_faces_wf|]. destruct (C51_nearest two_faces (down (1 / 4) (1 / 4)) two_faces_wf) as (o&E&N&S).
  assert (U : face_hit_at two_faces (down (1 / 4) (1 / 4)) 1 (1 / 4) (1 / 4) 1).
  { exists pA, pB, pC. split; [|apply down_hit; lra]. eexists. split; [reflexivity|]. cbn. repeat split; lia. }
  destruct o as [h|]; [|exfalso; exact (proj1 N eq_refl _ _ _ _ U)]. exists h. split; [exact E|]. destruct (S h eq_refl) as (F&M).
  pose proof (proj1 (M _ _ _ _ U)) as T. destruct F as (a&b&c&(x&X&_&A&B&C)&H). destruct (mh_f h) as [|[|k]] eqn:K; cbn in X.
  - exfalso. injection X as <-. cbn in A, B, C. injection A as <-. injection B as <-. injection C as <-. apply C50_exact in H. destruct H as (_&_&_&_&H).
    unfold ray_at, combine3, down in H. cbn in H. injection H as _ _ H. lra.
  - split; [|reflexivity]. injection X as <-. cbn in A, B, C. injection A as <-. injection B as <-. injection C as <-. rewrite down_hit in H by lra. injection H as _ _ H. exact (eq_sym H).
  - destruct k; discriminate.
Qed.

(** * C52: generated grids *)
Theorem C52_shape r0 r1 terrain tf : (2 <= r0)%nat -> (2 <= r1)%nat -> exists m, grid_obj r0 r1 terrain tf = Ok m /\
  List.length (ms_vs m) = (r0 * r1)%nat /\ List.length (ms_ns m) = (r0 * r1)%nat /\ List.length (ms_uvs m) = (r0 * r1)%nat /\
  List.length (ms_tris m) = (2 * (r0 - 1) * (r1 - 1))%nat /\ well_formed m.
Proof.
  intros A B. destruct (grid_terrain_ok terrain r0 r1 A B) as (ns&E&L&_). unfold grid_obj. rewrite E. cbn [bind]. eexists. split; [reflexivity|].
  unfold grid_place. cbn [ms_vs ms_ns ms_uvs ms_tris]. unfold gverts. rewrite !map_length, !rows_length, L, tris_length. do 4 (split; [reflexivity|]).
  apply (grid_wf r0 r1); rewrite ?map_length, ?rows_length; auto.
Qed.
Print Assumptions C52_shape.
(** the vertices are the regular lattice of the square [-1,1] x [-1,1] with the terrain height, moved by the transform *)
Theorem C52_vertices r0 r1 terrain tf m i j : (2 <= r0)%nat -> (2 <= r1)%nat -> grid_obj r0 r1 terrain tf = Ok m -> (i < r1)%nat -> (j < r0)%nat ->
  let s := INR j / INR (r0 - 1) in let t := INR i / INR (r1 - 1) in
  nth_error (ms_uvs m) (i * r0 + j) = Some (s, t) /\ 0 <= s <= 1 /\ 0 <= t <= 1 /\
  nth_error (ms_vs m) (i * r0 + j) = Some (tf_point tf (V3 (2 * s - 1) (match terrain with Some h => h s t | None => 0 end) (2 * t - 1))).
Proof.
  intros A B E I J s t. destruct (grid_terrain_ok terrain r0 r1 A B) as (ns&E'&L&_). unfold grid_obj in E. rewrite E' in E. cbn [bind] in E. injection E as <-.
  unfold grid_place. cbn [ms_vs ms_uvs]. assert (P0 : 0 < INR (r0 - 1)) by (apply lt_0_INR; lia). assert (P1 : 0 < INR (r1 - 1)) by (apply lt_0_INR; lia).
  assert (IN : forall k n, (k < n)%nat -> 0 < INR (n - 1) -> 0 <= INR k / INR (n - 1) <= 1).
  { intros k n K P. split; [apply Rmult_le_pos; [apply pos_INR|left; apply Rinv_0_lt_compat, P]|]. apply (Rmult_le_reg_r (INR (n - 1))); [exact P|].
    unfold Rdiv. rewrite Rmult_assoc, Rinv_l, Rmult_1_r, Rmult_1_l by lra. apply le_INR. lia. }
  split; [apply (grid_rows_nth r0 r1 (grid_uv r0 r1) i j I J)|]. split; [apply IN; assumption|]. split; [apply IN; assumption|].
  rewrite nth_error_map. unfold gverts. rewrite grid_rows_nth by assumption. cbn [option_map]. do 2 f_equal.
  assert (X : gx r0 j = 2 * s - 1) by (unfold gx, s; field; lra). assert (Z : gx r1 i = 2 * t - 1) by (unfold gx, t; field; lra).
  apply V3_eq; cbn [vx vy vz]; [exact X| |exact Z]. unfold heights. rewrite X, Z. destruct terrain as [h|]; [|reflexivity].
  rewrite Rplus_0_l. f_equal; field.
Qed.
Print Assumptions C52_vertices.
(** the triangles cover the square without gaps, also under a terrain *)
Theorem C52_covers r0 r1 terrain m x z : (2 <= r0)%nat -> (2 <= r1)%nat -> grid_terrain terrain (grid_flat r0 r1) = Ok m -> -1 <= x <= 1 -> -1 <= z <= 1 ->
  exists f a b c q, face_of m f a b c /\ in_triangle a b c q /\ vx q = x /\ vz q = z.
Proof.
  intros A B E X Z. destruct (grid_terrain_ok terrain r0 r1 A B) as (ns&E'&_). rewrite E' in E. injection E as <-. apply grid_covers; assumption.
Qed.
Print Assumptions C52_covers.
Example C52_case : exists m, grid_obj 3 2 None tf_id = Ok m /\ List.length (ms_tris m) = 4%nat /\ nth_error (ms_vs m) 5 = Some (tf_point tf_id (V3 1 0 1)).
Proof.
  destruct (C52_shape 3 2 None tf_id ltac:(lia) ltac:(lia)) as (m&E&_&_&_&L&_). exists m. split; [exact E|]. split; [exact L|].
  destruct (C52_vertices 3 2 None tf_id m 1 2 ltac:(lia) ltac:(lia) E ltac:(lia) ltac:(lia)) as (_&_&_&V). cbn [Nat.mul plus] in V. rewrite V. do 3 f_equal; cbn; field.
Qed.

(** * C127: terrain normals *)
(** every stored normal is a unit vector *)
Theorem C127_unit_normals r0 r1 terrain tf m : (2 <= r0)%nat -> (2 <= r1)%nat -> built_affine tf -> grid_obj r0 r1 terrain tf = Ok m ->
  forall n, In n (ms_ns m) -> unit3 n.
Proof.
  intros A B T E n I. destruct (grid_terrain_ok terrain r0 r1 A B) as (ns&E'&_&U). unfold grid_obj in E. rewrite E' in E. cbn [bind] in E. injection E as <-.
  unfold grid_place in I. cbn [ms_ns] in I. apply in_map_iff in I. destruct I as (k&<-&K). apply normalized_unit.
  apply normal_nonzero; [exact (built_consistent _ (built_affine_built _ T))|exact (proj1 (built_affine_affine _ T))|]. intros ->. specialize (U _ K). cbn in U. lra.
Qed.
Print Assumptions C127_unit_normals.
(** and lies on the upper side of the terrain, as do the geometric normals of all triangles *)
Theorem C127_upper_side r0 r1 terrain tf m : (2 <= r0)%nat -> (2 <= r1)%nat -> built_affine tf -> grid_obj r0 r1 terrain tf = Ok m ->
  forall n, In n (ms_ns m) -> 0 < dot n (tf_vector tf (V3 0 1 0)).
Proof.
  intros A B T E n I. destruct (grid_terrain_ok terrain r0 r1 A B) as (ns&E'&_&U). unfold grid_obj in E. rewrite E' in E. cbn [bind] in E. injection E as <-.
  unfold grid_place in I. cbn [ms_ns] in I. apply in_map_iff in I. destruct I as (k&<-&K). apply normalized_side.
  rewrite normal_dot; [|exact (built_consistent _ (built_affine_built _ T))|exact (proj1 (built_affine_affine _ T))]. specialize (U _ K). unfold dot. cbn. lra.
Qed.
Print Assumptions C127_upper_side.
Theorem C127_triangles_face_up r0 r1 terrain m f a b c : (2 <= r0)%nat -> (2 <= r1)%nat -> grid_terrain terrain (grid_flat r0 r1) = Ok m ->
  face_of m f a b c -> 0 < vy (cross (vsub b a) (vsub c a)).
Proof.
  intros A B E F. destruct (grid_terrain_ok terrain r0 r1 A B) as (ns&E'&_). rewrite E' in E. injection E as <-.
  pose proof (face_corners _ _ _ _ _ F) as (t&T&C). assert (I : In t (grid_tris r0 r1)).
  { unfold at_ in T. cbn [ms_tris] in T. destruct (nth_error (grid_tris r0 r1) f) eqn:N; [|discriminate]. injection T as ->. eapply nth_error_In, N. }
  apply tris_cells in I. destruct I as (i&j&k&I&J&->). unfold gverts in C. rewrite cell_corners in C by assumption.
  pose proof (cell_normal (gx r0) (gx r1) (heights terrain r0 r1) (fun j => gx_inc r0 j A) (fun i => gx_inc r1 i B) i j k) as U.
  destruct k; injection C as <- <- <-; exact U.
Qed.
Print Assumptions C127_triangles_face_up.
(** without a terrain all normals are the vertical *)
Theorem C127_flat r0 r1 m : grid_obj r0 r1 None tf_id = Ok m -> forall n, In n (ms_ns m) -> n = V3 0 1 0.
Proof.
  intros E n I. unfold grid_obj in E. cbn [grid_terrain bind] in E. injection E as <-. cbn [grid_place ms_ns grid_flat] in I. apply in_map_iff in I.
  destruct I as (k&<-&K). apply repeat_spec in K. subst k. assert (X : tf_normal tf_id (V3 0 1 0) = V3 0 1 0) by (apply V3_eq; cbn; ring). rewrite X.
  rewrite normalized_vdiv. replace (norm (V3 0 1 0)) with 1; [apply V3_eq; cbn; field|]. unfold norm, sqrNorm. cbn. replace (0 * 0 + 1 * 1 + 0 * 0) with 1 by ring. rewrite sqrt_1. reflexivity.
Qed.
Print Assumptions C127_flat.
Example C127_case : exists m, grid_obj 2 2 (Some (fun s t => s - t)) tf_id = Ok m /\ List.length (ms_ns m) = 4%nat /\ forall n, In n (ms_ns m) -> unit3 n /\ 0 < dot n (tf_vector tf_id (V3 0 1 0)).
Proof.
  destruct (C52_shape 2 2 (Some (fun s t => s - t)) tf_id ltac:(lia) ltac:(lia)) as (m&E&_&L&_). exists m. split; [exact E|]. split; [exact L|]. intros n I.
  split; [eapply C127_unit_normals; eauto using builta_id|eapply C127_upper_side; eauto using builta_id].
Qed.

(** * C123: the completed intersection *)
(** the position is the point of the ray *)
Theorem C123_position m r h : well_formed m -> mesh_intersect m r = Ok (Some h) -> exists s, complete m h = Ok s /\
  su_p s = ray_at r (mh_t h) /\ vx (su_bary s) + vy (su_bary s) + vz (su_bary s) = 1.
Proof.
  intros W E. destruct (C51_nearest m r W) as (o&E'&_&S). rewrite E in E'. injection E' as <-. destruct (S h eq_refl) as ((a&b&c&F&H)&_).
  destruct (complete_ok m h a b c W F) as (s&C&BA&P&_). exists s. split; [exact C|]. apply C50_exact in H. destruct H as (_&_&_&_&H).
  rewrite P, BA, H. split; [reflexivity|]. cbn. ring.
Qed.
Print Assumptions C123_position.
(** the geometric frame is orthonormal, its normal is perpendicular to the edges and follows the winding *)
Theorem C123_geometric_frame m h a b c : well_formed m -> face_of m (mh_f h) a b c -> cross (vsub b a) (vsub c a) <> V3 0 0 0 -> exists s, complete m h = Ok s /\
  let g := su_g s in orthonormal (fs g) (ft g) (fn g) /\ dot (fn g) (vsub b a) = 0 /\ dot (fn g) (vsub c a) = 0 /\ 0 < dot (fn g) (cross (vsub b a) (vsub c a)) /\
  (ms_ns m = [] -> su_s s = g).
Proof.
  intros W F N. destruct (complete_ok m h a b c W F) as (s&C&_&_&G&S&_). exists s. split; [exact C|]. cbv zeta. rewrite G.
  destruct (geometric_frame a b c N) as (O&P&Q&U). split; [exact O|]. split; [exact P|]. split; [exact Q|]. split; [exact U|]. intros Z. rewrite Z in S. congruence.
Qed.
Print Assumptions C123_geometric_frame.
(** vertex normals on one side of the face give an orthonormal shading frame on that side, normal to their interpolation *)
Theorem C123_shading_frame m h a b c na nb nc g : well_formed m -> face_of m (mh_f h) a b c -> face_normals m (mh_f h) na nb nc ->
  0 <= mh_u h -> 0 <= mh_v h -> mh_u h + mh_v h <= 1 -> 0 < dot na g -> 0 < dot nb g -> 0 < dot nc g -> exists s, complete m h = Ok s /\
  let k := combine3 na nb nc (V3 (1 - mh_u h - mh_v h) (mh_u h) (mh_v h)) in
  orthonormal (fs (su_s s)) (ft (su_s s)) (fn (su_s s)) /\ fn (su_s s) = normalized k /\ k <> V3 0 0 0 /\ 0 < dot (fn (su_s s)) g.
Proof.
  intros W F N U V UV A B C. destruct (complete_ok m h a b c W F) as (s&E&BA&_&_&S&_). exists s. split; [exact E|]. cbv zeta.
  destruct N as (t&T&PA&PB&PC). destruct (ms_ns m) as [|n0' ns] eqn:Q; [destruct (Z.to_nat (i_0 (nsInds t))); discriminate PA|].
  destruct S as (na'&nb'&nc'&(t'&T'&PA'&PB'&PC')&S). rewrite Q in *. rewrite T in T'. injection T' as <-.
  rewrite PA in PA'. rewrite PB in PB'. rewrite PC in PC'. injection PA' as <-. injection PB' as <-. injection PC' as <-. rewrite S, BA.
  pose proof (combine_side na nb nc (V3 (1 - mh_u h - mh_v h) (mh_u h) (mh_v h)) g ltac:(unfold weights; cbn; lra) A B C) as K.
  destruct (normalized_side _ g K) as (K1&K2). destruct (frame_orthonormal _ (normalized_unit _ K2)) as (O&_&FN). rewrite FN. repeat split; try assumption; apply O.
Qed.
Print Assumptions C123_shading_frame.
(** texture coordinates are interpolated with the same weights; without any, the barycentric coordinates are used *)
Theorem C123_uv m h a b c : well_formed m -> face_of m (mh_f h) a b c -> exists s, complete m h = Ok s /\
  (ms_uvs m = [] -> su_uv s = (mh_u h, mh_v h)) /\
  forall x y z, face_uvs m (mh_f h) x y z -> let w := V3 (1 - mh_u h - mh_v h) (mh_u h) (mh_v h) in
    su_uv s = (fst x * vx w + fst y * vy w + fst z * vz w, snd x * vx w + snd y * vy w + snd z * vz w).
Proof.
  intros W F. destruct (complete_ok m h a b c W F) as (s&E&BA&_&_&_&S). exists s. split; [exact E|]. split; [intros Z; rewrite Z in S; exact S|].
  intros x y z (t&T&PA&PB&PC). destruct (ms_uvs m) as [|u us] eqn:Q; [destruct (Z.to_nat (i_0 (uvsInds t))); discriminate PA|].
  destruct S as (x'&y'&z'&(t'&T'&PA'&PB'&PC')&S). rewrite Q in *. rewrite T in T'. injection T' as <-.
  rewrite PA in PA'. rewrite PB in PB'. rewrite PC in PC'. injection PA' as <-. injection PB' as <-. injection PC' as <-. cbv zeta. rewrite S, BA. reflexivity.
Qed.
Print Assumptions C123_uv.
(** a hit outside the triangle extrapolates: vertex normals all on one side give a shading normal on the other *)
Theorem C123_side_refuted : exists m r h s na nb nc g, well_formed m /\ mesh_intersect m r = Ok (Some h) /\ complete m h = Ok s /\
  face_normals m (mh_f h) na nb nc /\ 0 < dot na g /\ 0 < dot nb g /\ 0 < dot nc g /\ dot (fn (su_s s)) g < 0.
Proof.
  set (i := I3 0 1 2). set (m := Mesh [pA; pB; pC] [V3 0 0 4; V3 0 0 1; V3 0 0 1] [] [Tri i i i]).
  assert (W : well_formed m) by (intros t [<-|[]]; unfold idx_ok; cbn; repeat split; try lia; congruence).
  exists m, (down 1 1), (MeshHit 1 1 1 0). destruct (C51_nearest m (down 1 1) W) as (o&E&N&S).
  assert (F : face_of m 0 pA pB pC) by (eexists; split; [reflexivity|]; cbn; repeat split; lia).
  assert (U : face_hit_at m (down 1 1) 0 1 1 1) by (exists pA, pB, pC; split; [exact F|apply down_hit; lra]).
  destruct o as [h|]; [|exfalso; exact (proj1 N eq_refl _ _ _ _ U)].
  assert (H : h = MeshHit 1 1 1 0).
  { destruct (S h eq_refl) as ((a&b&c&F'&H)&_). destruct h as [t u v f]. cbn [mh_t mh_u mh_v mh_f] in *. assert (f = 0%nat) as ->.
    { destruct F' as (x&X&_). destruct f as [|[|f]]; [reflexivity|discriminate|discriminate]. }
    destruct (face_unique _ _ _ _ _ _ _ _ F F') as (<-&<-&<-). rewrite down_hit in H by lra. injection H as <- <- <-. reflexivity. }
  rewrite H in E. destruct (complete_ok m (MeshHit 1 1 1 0) pA pB pC W F) as (s&C&BA&_&_&SN&_). cbn [ms_ns m] in SN. destruct SN as (na&nb&nc&(t&T&PA&PB&PC)&SN).
  cbn in T. injection T as <-. cbn in PA, PB, PC. injection PA as <-. injection PB as <-. injection PC as <-.
  exists s, (V3 0 0 4), (V3 0 0 1), (V3 0 0 1), (V3 0 0 1). split; [exact W|]. split; [exact E|]. split; [exact C|].
  split; [exists (Tri i i i); repeat split|]. unfold dot at 1 2 3. cbn [vx vy vz]. split; [lra|]. split; [lra|]. split; [lra|].
  rewrite SN, BA. set (k := combine3 _ _ _ _). assert (K : k = V3 0 0 (-2)) by (apply V3_eq; cbn; ring).
  assert (K0 : k <> V3 0 0 0) by (rewrite K; intros X; injection X; lra).
  rewrite (proj2 (proj2 (frame_orthonormal _ (normalized_unit _ K0)))), dot_normalized by exact K0. pose proof (norm_pos _ K0) as P. rewrite K at 1. unfold dot. cbn [vx vy vz].
  apply (Rmult_lt_reg_r (norm k)); [exact P|]. unfold Rdiv. rewrite Rmult_assoc, Rinv_l by lra. lra.
Qed.
Print Assumptions C123_side_refuted.
Example C123_case : exists h s, mesh_intersect two_faces (down (1 / 4) (1 / 4)) = Ok (Some h) /\ complete two_faces h = Ok s /\ su_p s = V3 (1 / 4) (1 / 4) 0.
Proof.
  destruct C51_case as (W&h&E&T&_). destruct (C123_position _ _ _ W E) as (s&C&P&_). exists h, s. split; [exact E|]. split; [exact C|]. rewrite P, T. apply V3_eq; cbn; ring.
Qed.

(** * C124: boxes, centroids, areas *)
Theorem C124_triangle_box m i a b c : face_of m i a b c -> exists k, tri_bbox m i = Ok k /\ smallest (in_triangle a b c) k.
Proof. apply tri_bbox_ok. Qed.
Print Assumptions C124_triangle_box.
Theorem C124_mesh_box m : ms_vs m <> [] -> let k := mesh_bbox true (ms_vs m) ebox_reset in
  smallest (fun q => In q (ms_vs m)) k /\ forall i a b c q, face_of m i a b c -> in_triangle a b c q -> in_ebox k q.
Proof.
  intros N k. pose proof (mesh_bbox_ok (ms_vs m) ebox_reset N) as S. fold k in S. split; [exact S|]. intros i a b c q (t&_&_&A&B&C) T.
  apply (box_convex k a b c q); [apply S; eapply nth_error_In; eassumption..|exact T].
Qed.
Print Assumptions C124_mesh_box.
(** a triangle's area: half the square root of the Gram determinant of two edges *)
Theorem C124_area m i a b c : face_of m i a b c -> exists x, surface_area m i = Ok x /\ 0 <= x /\
  let e := vsub b a in let f := vsub c a in (2 * x) * (2 * x) = dot e e * dot f f - dot e f * dot e f.
Proof.
  intros F. destruct (face_corners _ _ _ _ _ F) as (t&T&C). unfold surface_area. rewrite T. cbn [bind]. rewrite C. cbn [bind]. eexists. split; [reflexivity|].
  split; [pose proof (norm_nonneg (cross (vsub b a) (vsub c a))); lra|]. cbv zeta.
  replace (2 * (norm (cross (vsub b a) (vsub c a)) * (1 / 2))) with (norm (cross (vsub b a) (vsub c a))) by field. rewrite norm_sqr. unfold dot, sqrNorm. cbn. ring.
Qed.
Print Assumptions C124_area.
(** the centroid of a face is its barycentre, the centroid of a mesh the mean of its vertices *)
Theorem C124_face_centroid m i a b c : face_of m i a b c -> exists q, tri_centroid m i = Ok q /\ q = combine3 a b c (V3 (1 / 3) (1 / 3) (1 / 3)) /\ in_triangle a b c q.
Proof.
  intros F. destruct (face_corners _ _ _ _ _ F) as (t&T&C). unfold tri_centroid. rewrite T. cbn [bind]. rewrite C. cbn [bind]. eexists. split; [reflexivity|].
  assert (E : vscale (vadd (vadd a b) c) (1 / 3) = combine3 a b c (V3 (1 / 3) (1 / 3) (1 / 3))) by (apply V3_eq; cbn; field). split; [exact E|].
  eexists. split; [|exact E]. unfold weights. cbn. lra.
Qed.
Print Assumptions C124_face_centroid.
Lemma sum_deviation c vs : forall acc, fold_left vadd (map (fun v => vsub v c) vs) acc = vsub (fold_left vadd vs acc) (vscale c (INR (List.length vs))).
Proof.
  induction vs as [|v vs IH]; intros acc; cbn [map fold_left List.length]; [apply V3_eq; cbn; ring|]. rewrite IH.
  assert (X : forall l x y, fold_left vadd l (vsub x y) = vsub (fold_left vadd l x) y).
  { induction l as [|w l IHl]; intros x y; [reflexivity|]. cbn [fold_left]. rewrite <- IHl. f_equal. apply V3_eq; cbn; ring. }
  replace (vadd acc (vsub v c)) with (vsub (vadd acc v) c) by (apply V3_eq; cbn; ring). rewrite X, S_INR. apply V3_eq; cbn; ring.
Qed.
(** the deviations of the vertices from it sum to zero *)
Theorem C124_mesh_centroid vs : vs <> [] -> fold_left vadd (map (fun v => vsub v (compute_centroid vs)) vs) (V3 0 0 0) = V3 0 0 0.
Proof.
  intros N. rewrite sum_deviation. unfold compute_centroid. assert (P : INR (List.length vs) <> 0) by (apply not_0_INR; destruct vs; [congruence|discriminate]).
  apply V3_eq; cbn [vx vy vz vsub vscale vdiv]; field; exact P.
Qed.
Print Assumptions C124_mesh_centroid.
(** the scene bounds are the smallest box of the origin and the meshes whose object has an emitter *)
Theorem C124_scene_bounds objs : smallest (fun q => q = V3 0 0 0 \/ exists o, In o objs /\ fst o = true /\ In q (snd o)) (scene_bounds objs).
Proof. apply bounds_fold, smallest_point. Qed.
Print Assumptions C124_scene_bounds.
(** so a mesh without an emitter is outside the scene bounds, and a scene away from the origin has loose ones *)
Theorem C124_scene_bounds_refuted : exists objs o q, In o objs /\ In q (snd o) /\ ~ in_ebox (scene_bounds objs) q.
Proof.
  exists [(false, [V3 5 0 0])], (false, [V3 5 0 0]), (V3 5 0 0). split; [left; reflexivity|]. split; [left; reflexivity|].
  assert (E : scene_bounds [(false, [V3 5 0 0])] = ebox_point (V3 0 0 0)) by (unfold scene_bounds; cbn [fold_left fst snd mesh_bbox]; apply expand_box_reset).
  rewrite E. unfold in_ebox, ebox_point, ev. cbn. lra.
Qed.
Print Assumptions C124_scene_bounds_refuted.
Example C124_case : face_of two_faces 1 pA pB pC /\ surface_area two_faces 1 = Ok (1 / 2) /\ ms_vs two_faces <> [].
Proof.
  assert (F : face_of two_faces 1 pA pB pC) by (eexists; split; [reflexivity|]; cbn; repeat split; lia). split; [exact F|]. split; [|discriminate].
  destruct (C124_area _ _ _ _ _ F) as (x&E&P&Q). rewrite E. f_equal. unfold dot in Q. cbn in Q. nra.
Qed.

(** * C125: OBJ files *)
(** a file whose faces have three corners "p/t/n" with indices from 1 to 2^31 - 1 is loaded as written *)
Theorem C125_loads tf flip f : (forall a b c, In (IF a b c) f -> corner_ok a /\ corner_ok b /\ corner_ok c) -> exists m, parse_obj tf flip (map line_of f) = Ok m /\
  ms_vs m = map (tf_point tf) (verts_of f) /\ ms_uvs m = uvs_of f /\ ms_tris m = map zero_based (faces_of f) /\
  ms_ns m = map (fun n => normalized (if flip then vneg (tf_normal tf n) else tf_normal tf n)) (norms_of f).
Proof.
  intros C. unfold parse_obj. rewrite parse_items by exact C. eexists. split; [reflexivity|]. cbn [ms_vs ms_ns ms_uvs ms_tris app]. repeat split.
Qed.
Print Assumptions C125_loads.
(** and if all indices refer to something in the file, the mesh is well formed *)
Theorem C125_well_formed tf flip f m : (forall a b c, In (IF a b c) f -> (corner_ok a /\ refers f a) /\ (corner_ok b /\ refers f b) /\ (corner_ok c /\ refers f c)) ->
  parse_obj tf flip (map line_of f) = Ok m -> well_formed m.
Proof.
  intros C E. destruct (C125_loads tf flip f) as (m'&E'&V&U&T&N). { intros a b c I. destruct (C a b c I) as ((?&_)&(?&_)&(?&_)). auto. }
  rewrite E in E'. injection E' as <-. intros t I. rewrite T in I. apply in_map_iff in I. destruct I as (x&<-&I). unfold faces_of in I. apply in_flat_map in I.
  destruct I as (y&Y&I). destruct y as [| | |a b c|]; try destruct I; [|contradiction]. subst x. destruct (C a b c Y) as ((A1&A2)&(B1&B2)&(D1&D2)).
  rewrite V, U, N, !map_length. destruct a as [[p0 u0] n0], b as [[p1 u1] n1], c as [[p2 u2] n2]. unfold corner_ok, int_index, refers, idx_ok in *. cbn [fst snd] in *.
  cbn [zero_based vsInds nsInds uvsInds i_0 i_1 i_2]. split; [lia|]. split; intros _; lia.
Qed.
Print Assumptions C125_well_formed.
(** "f a b c" uses the same index for position, texture coordinate and normal; polygons throw, as does a missing texture index *)
Theorem C125_plain_index p : int_index p -> face_corner (decimal p) = Ok (Z.of_nat (p - 1), Z.of_nat (p - 1), Z.of_nat (p - 1)).
Proof. intros (A&B). apply plain_word_ok; assumption. Qed.
Print Assumptions C125_plain_index.
Theorem C125_polygons_rejected tf flip m ws : (exists k, (3 <= k <= 4)%nat /\ nth k ws EmptyString <> EmptyString) -> exists e, parse_line tf flip m (LFace ws) = Throw e.
Proof.
  intros (k&K&N). cbn [parse_line]. destruct (String.eqb_spec (nth 4 ws EmptyString) EmptyString) as [E4|]; cbn [negb]; [|eexists; reflexivity].
  destruct (String.eqb_spec (nth 3 ws EmptyString) EmptyString) as [E3|]; cbn [negb]; [|eexists; reflexivity].
  exfalso. assert (k = 3 \/ k = 4)%nat as [->| ->] by lia; congruence.
Qed.
Print Assumptions C125_polygons_rejected.
(** an index beyond the vertices, or zero, is accepted when loading and undefined behaviour when the mesh is hit-tested *)
Theorem C125_bad_index_refuted : exists ls m, parse_obj tf_id false ls = Ok m /\ forall r, mesh_intersect m r = UB.
Proof.
  exists (map line_of [IV pA; IV pB; IV pC; IF (4, 1, 1) (2, 2, 2) (3, 3, 3)]%nat). destruct (C125_loads tf_id false [IV pA; IV pB; IV pC; IF (4, 1, 1) (2, 2, 2) (3, 3, 3)]%nat) as (m&E&V&_&T&_).
  { intros a b c I. repeat (destruct I as [I|I]; [try discriminate I; injection I as <- <- <-|]); [|destruct I]. unfold corner_ok, int_index. cbn. repeat split; lia. }
  exists m. split; [exact E|]. intros r. eapply C51_bad_index; [rewrite T; reflexivity|]. rewrite V. cbn. lia.
Qed.
Print Assumptions C125_bad_index_refuted.
Theorem C125_zero_index_refuted : face_corner "0/1/1" = Ok (2 ^ 32 - 1, 0, 0)%Z.
Proof. reflexivity. Qed.
Print Assumptions C125_zero_index_refuted.
(** "p/t" uses the texture index for the normal as well *)
Theorem C125_two_indices p u : int_index p -> int_index u -> face_corner (decimal p ++ "/" ++ decimal u) = Ok (Z.of_nat (p - 1), Z.of_nat (u - 1), Z.of_nat (u - 1)).
Proof.
  intros (P1 & P2) (U1 & U2). unfold face_corner, getlines. rewrite pieces_app, pieces_one by apply decimal_no_slash. cbn [nth]. rewrite !stoi_decimal by assumption. cbn [bind].
  assert (X : forall k, (1 <= k)%nat -> (Z.of_nat k < 2 ^ 31)%Z -> u32 (Z.of_nat k - 1) = Z.of_nat (k - 1)) by (intros k K1 K2; unfold u32; rewrite Z.mod_small; lia).
  rewrite !X by assumption. reflexivity.
Qed.
Print Assumptions C125_two_indices.
(** reading an index stops at the first character that is not a digit, whatever follows; a word that starts with
    something else than a digit or a sign throws *)
Definition not_a_digit (c : ascii) : Prop := (nat_of_ascii c < nat_of_ascii "0" \/ nat_of_ascii "9" < nat_of_ascii c)%nat.
Lemma digit_not c : not_a_digit c -> digit c = None.
Proof.
  unfold not_a_digit, digit. change (nat_of_ascii "0") with 48%nat. change (nat_of_ascii "9") with 57%nat. intros H.
  destruct (Z.leb_spec 48 (Z.of_nat (nat_of_ascii c))), (Z.leb_spec (Z.of_nat (nat_of_ascii c)) 57); cbn; try reflexivity; lia.
Qed.
Lemma digits_stop s c rest : digit c = None -> forall acc, digits_val (s ++ String c rest) acc = digits_val s acc.
Proof. intros D. induction s as [|x s IH]; intros acc; cbn; [rewrite D; reflexivity|]. destruct (digit x); [apply IH|reflexivity]. Qed.
Theorem C125_stops p c rest : int_index p -> not_a_digit c -> stoi (decimal p ++ String c rest) = Ok (Z.of_nat p).
Proof.
  intros (P1 & P2) D. apply digit_not in D. pose proof (decimal_val p) as V. rewrite <- (digits_stop (decimal p) c rest D) in V.
  destruct (nilzero_shape p) as (x & s & z & E & Dx & N1 & N2 & _). rewrite E in *. cbn [append] in *. set (t := (s ++ String c rest)%string) in *.
  assert (U : unsigned_val (String x t) = Some (Z.of_nat p)) by (cbn [unsigned_val]; rewrite Dx, V; reflexivity).
  assert (X : stoi (String x t) = match unsigned_val (String x t) with None => Throw "invalid_argument" | Some z => if ((- 2 ^ 31 <=? z) && (z <? 2 ^ 31))%Z%bool then Ok z else Throw "out_of_range" end).
  { unfold stoi. destruct x as [[] [] [] [] [] [] [] []]; try reflexivity; congruence. }
  rewrite X, U. destruct (Z.leb_spec (- 2 ^ 31) (Z.of_nat p)), (Z.ltb_spec (Z.of_nat p) (2 ^ 31)); cbn [andb]; try reflexivity; lia.
Qed.
Print Assumptions C125_stops.
Theorem C125_no_number c rest : not_a_digit c -> c <> "-"%char -> c <> "+"%char -> exists e, stoi (String c rest) = Throw e.
Proof.
  intros D N1 N2. apply digit_not in D.
  assert (X : stoi (String c rest) = match unsigned_val (String c rest) with None => Throw "invalid_argument" | Some z => if ((- 2 ^ 31 <=? z) && (z <? 2 ^ 31))%Z%bool then Ok z else Throw "out_of_range" end).
  { unfold stoi. destruct c as [[] [] [] [] [] [] [] []]; try reflexivity; congruence. }
  rewrite X. cbn [unsigned_val]. rewrite D. eexists. reflexivity.
Qed.
Print Assumptions C125_no_number.
Example C125_words : not_a_digit ":" /\ stoi "12:9" = Ok 12%Z /\ stoi "12/9" = Ok 12%Z /\ face_corner "3/4" = Ok (2, 3, 3)%Z /\ exists e, stoi "x1" = Throw e.
Proof. split; [right; cbn; lia|]. repeat split; try reflexivity. eexists. reflexivity. Qed.
(** "p//n" is legal OBJ but throws *)
Theorem C125_no_texture_refuted : exists e, face_corner "1//1" = Throw e.
Proof. eexists. reflexivity. Qed.
Print Assumptions C125_no_texture_refuted.
Example C125_case : corner_ok (12, 7, 130)%nat /\ word_of (12, 7, 130)%nat = "12/7/130"%string /\ face_corner "12/7/130" = Ok (11, 6, 129)%Z.
Proof. split; [unfold corner_ok, int_index; cbn; repeat split; lia|]. split; reflexivity. Qed.

(** * C126: the shader that blends a mesh into a sphere *)
(** with a centroid and radius that are numbers: interp 0 keeps a vertex, interp 1 puts it on the sphere along its direction, and in between the segment is followed *)
Theorem C126_blend c rad k p : let q := sphere_vert c rad 1 p in sphere_vert c rad k p = vadd (vscale p (1 - k)) (vscale q k).
Proof. cbv zeta. unfold sphere_vert. set (e := vadd _ _). apply V3_eq; cbn; ring. Qed.
Print Assumptions C126_blend.
Theorem C126_on_sphere c rad p : p <> c -> let q := sphere_vert c rad 1 p in norm (vsub q c) = Rabs rad /\ cross (vsub q c) (vsub p c) = V3 0 0 0 /\ (0 < rad -> 0 < dot (vsub q c) (vsub p c)).
Proof.
  intros N q. set (d := vsub p c). assert (D : d <> V3 0 0 0). { intros Z. apply N. destruct p, c. unfold d in Z. cbn in Z. injection Z as Z1 Z2 Z3. f_equal; lra. }
  assert (Q : vsub q c = vscale (normalized d) rad) by (unfold q, sphere_vert; fold d; apply V3_eq; cbn; ring). rewrite Q. pose proof (norm_pos d D) as P.
  split; [|split].
  - unfold norm. match goal with |- sqrt ?x = _ => replace x with (Rsqr rad); [apply sqrt_Rsqr_abs|] end.
    pose proof (normalized_unit d D) as U. unfold unit3, dot in U. unfold vscale, Rsqr. cbn [vx vy vz]. nra.
  - rewrite normalized_vdiv. apply V3_eq; cbn; field; lra.
  - intros R0. rewrite normalized_vdiv. unfold dot. cbn [vx vy vz vscale vdiv].
    match goal with |- 0 < ?x => replace x with (rad / norm d * (norm d * norm d)) end.
    + apply Rmult_lt_0_compat; [apply Rdiv_lt_0_compat; assumption|]. apply Rmult_lt_0_compat; assumption.
    + rewrite norm_sqr. unfold sqrNorm, dot. field. lra.
Qed.
Print Assumptions C126_on_sphere.
(** recomputed normals are unit vectors even for vertices no triangle touches *)
Theorem C126_unit_normals c rad k m m' : to_sphere c rad k m = Ok m' -> (forall n, In n (ms_ns m') -> unit3 n) /\ ms_tris m' = ms_tris m /\ ms_uvs m' = ms_uvs m /\
  ms_vs m' = map (sphere_vert c rad k) (ms_vs m).
Proof.
  intros E. unfold to_sphere in E. destruct (vertex_norms _ _ _) as [ns| | |]; cbn [bind] in E; try discriminate. injection E as <-. cbn [ms_ns ms_tris ms_uvs ms_vs].
  split; [|repeat split]. intros n I. apply in_map_iff in I. destruct I as (x&<-&_). unfold safe_norm. apply normalized_unit. destruct (Req_EM_T (sqrNorm x) 0) as [Z|Z].
  - intros H. injection H. lra.
  - intros ->. apply Z. unfold sqrNorm. cbn. ring.
Qed.
Print Assumptions C126_unit_normals.
(** the recomputed normal of a face is a unit vector perpendicular to it, on the side given by the
    winding; a degenerate face counts as facing up *)
Theorem C126_face_normals p0 p1 p2 : unit3 (tri_norm p0 p1 p2) /\ dot (tri_norm p0 p1 p2) (vsub p1 p0) * norm (cross (vsub p1 p0) (vsub p2 p0)) = 0 /\
  (cross (vsub p1 p0) (vsub p2 p0) <> V3 0 0 0 -> 0 < dot (tri_norm p0 p1 p2) (cross (vsub p1 p0) (vsub p2 p0))) /\
  (cross (vsub p1 p0) (vsub p2 p0) = V3 0 0 0 -> tri_norm p0 p1 p2 = V3 0 1 0).
Proof.
  unfold tri_norm. set (n := cross (vsub p1 p0) (vsub p2 p0)). cbv zeta. destruct (Req_EM_T (sqrNorm n) 0) as [Z|Z].
  - apply sqrNorm_zero in Z. assert (U : unit3 (V3 0 1 0)) by (unfold unit3; cbn; unfold sqrNorm, dot; cbn; ring). rewrite (normalized_of_unit _ U). split; [exact U|]. split.
    + rewrite Z. unfold norm. cbn. replace (0 * 0 + 0 * 0 + 0 * 0) with 0 by ring. rewrite sqrt_0. ring.
    + split; [intros H; contradiction|reflexivity].
  - assert (N : n <> V3 0 0 0) by (intros E; apply Z; rewrite E; unfold sqrNorm; cbn; ring). pose proof (norm_pos n N) as P. split; [apply normalized_unit, N|]. split.
    + rewrite normalized_vdiv. replace (dot (vdiv n (norm n)) (vsub p1 p0)) with (dot n (vsub p1 p0) / norm n) by (unfold dot; cbn; field; lra). unfold n at 1. rewrite dot_cross_l. field. lra.
    + split; [intros _|intros E; contradiction]. rewrite normalized_vdiv. replace (dot (vdiv n (norm n)) n) with (dot n n / norm n) by (unfold dot; cbn; field; lra).
      rewrite dot_self. apply Rdiv_lt_0_compat; [apply sqrNorm_pos, N|exact P].
Qed.
Print Assumptions C126_face_normals.
(** a mesh without normals is undefined behaviour *)
Theorem C126_no_normals_refuted c rad k m : well_formed m -> ms_ns m = [] -> ms_tris m <> [] -> to_sphere c rad k m = UB.
Proof.
  intros W N T. unfold to_sphere, vertex_norms. rewrite N. destruct (ms_tris m) as [|t ts] eqn:E; [congruence|]. cbn [List.length repeat foldM].
  destruct (W t) as ((A&B&C)&_); [rewrite E; left; reflexivity|]. unfold acc_norm.
  assert (L : List.length (map (sphere_vert c rad k) (ms_vs m)) = List.length (ms_vs m)) by apply map_length. rewrite <- L in A, B, C.
  destruct (atz_ok _ _ A) as (a&Ea&_). destruct (atz_ok _ _ B) as (b&Eb&_). destruct (atz_ok _ _ C) as (d&Ed&_). rewrite Ea, Eb, Ed. cbn [bind].
  unfold add_at, atz. cbn [List.length Z.of_nat]. destruct (Z.ltb_spec (i_0 (nsInds t)) 0) as [H|H]; [|reflexivity].
  unfold at_. destruct (Z.to_nat (i_0 (nsInds t))); reflexivity.
Qed.
Print Assumptions C126_no_normals_refuted.
(** but the shader runs before the centroid and the box exist: no coordinate of any vertex is a number afterwards *)
(** the sphere has the smallest extent of the box as its radius, times the given share, unless the extents along x and y
    are equal and smaller than the one along z: then it has the largest *)
Theorem C126_radius b prop : vle (bmn b) (bmx b) -> let x := vx (bmx b) - vx (bmn b) in let y := vy (bmx b) - vy (bmn b) in let z := vz (bmx b) - vz (bmn b) in
  sphere_radius b prop = (if Req_EM_T x y then z else Rmin (Rmin x y) z) * prop.
Proof.
  intros (X & Y & Z) x y z. unfold sphere_radius, minAbsIndex, minIndex, vabs, bb_extents. cbn [vx vy vz vsub]. rewrite !Rabs_pos_eq by lra. fold x y z. f_equal.
  unfold Rmin. destruct (Req_EM_T x y); repeat destruct (Rle_dec _ _); repeat destruct (Rlt_dec _ _); cbn; lra.
Qed.
Theorem C126_radius_refuted : exists b, vle (bmn b) (bmx b) /\ sphere_radius b 1 = 2 /\ vx (bmx b) - vx (bmn b) = 1.
Proof.
  exists (BB (V3 0 0 0) (V3 1 1 2)). assert (V : vle (V3 0 0 0) (V3 1 1 2)) by (unfold vle; cbn; lra). split; [exact V|].
  rewrite (C126_radius (BB (V3 0 0 0) (V3 1 1 2)) 1 V). cbn. destruct (Req_EM_T _ _); split; lra.
Qed.
Print Assumptions C126_radius_refuted.
Print Assumptions C126_radius.
(** with a centroid and radius that are numbers the coordinates are those of [sphere_vert] *)
Theorem C126_coordinates c rad k p : p <> c -> let q := sphere_vert c rad k p in let coord s o := sphere_coord s o (norm (vsub p c)) (Some (Finite rad)) k in
  coord (vx p) (vx c) = Some (Finite (vx q)) /\ coord (vy p) (vy c) = Some (Finite (vy q)) /\ coord (vz p) (vz c) = Some (Finite (vz q)).
Proof.
  intros N q coord. set (d := vsub p c). assert (D : d <> V3 0 0 0). { intros Z. apply N. destruct p, c. unfold d in Z. cbn in Z. injection Z as Z1 Z2 Z3. f_equal; lra. }
  pose proof (norm_pos d D) as P. unfold coord, q, sphere_vert, sphere_coord, fl_div. fold d. destruct (Req_EM_T (norm d) 0) as [Z|Z]; [lra|].
  rewrite (normalized_vdiv d). cbn. unfold d. cbn. repeat split; do 2 f_equal; ring.
Qed.
Print Assumptions C126_coordinates.
Lemma not_number x : ~ is_number x <-> x = None \/ x = Some p_infty \/ x = Some m_infty.
Proof.
  split.
  - intros N. destruct x as [[r| |]|]; auto. exfalso. apply N. exists r. reflexivity.
  - intros [->|[->| ->]] (r&E); discriminate.
Qed.
Lemma mul_not_number x (b : R) : ~ is_number x -> ~ is_number (fl_mul x (Some (Finite b))) /\ ~ is_number (fl_mul (Some (Finite b)) x).
Proof.
  rewrite !not_number. intros [->|[->| ->]]; cbn; auto; (destruct (Rle_dec 0 b) as [L|L]; [destruct (Rle_lt_or_eq_dec 0 b L)|]; cbn; auto).
Qed.
Lemma add_not_number x (b : R) : ~ is_number x -> ~ is_number (fl_add x (Some (Finite b))) /\ ~ is_number (fl_add (Some (Finite b)) x).
Proof. rewrite !not_number. intros [->|[->| ->]]; cbn; auto. Qed.
Lemma coord_not_number start c len rad interp : ~ is_number rad -> ~ is_number (sphere_coord start c len rad interp).
Proof.
  intros N. unfold sphere_coord. apply add_not_number, mul_not_number, add_not_number. unfold fl_div. destruct (Req_EM_T len 0); [intros (r&E); discriminate|].
  apply mul_not_number, N.
Qed.
Theorem C126_never_finite_refuted prop interp p : let '(x, y, z) := shaded_coords prop interp p in ~ is_number x /\ ~ is_number y /\ ~ is_number z.
Proof.
  assert (N : ~ is_number (box_radius ebox_reset prop)) by (apply mul_not_number; intros (r&E); discriminate). unfold shaded_coords. cbv zeta.
  split; [|split]; apply coord_not_number, N.
Qed.
Print Assumptions C126_never_finite_refuted.
Example C126_case : sphere_vert (V3 0 0 0) 2 1 (V3 0 3 0) = V3 0 2 0 /\ V3 0 3 0 <> V3 0 0 0 /\ exists m, to_sphere (V3 0 0 0) 2 1 (Mesh [pA; pB; pC] [V3 0 0 4; V3 0 0 1; V3 0 0 1] [] [Tri (I3 0 1 2) (I3 0 1 2) (I3 0 1 2)]) = Ok m.
Proof.
  assert (N : V3 0 3 0 <> V3 0 0 0) by (intros H; injection H; lra). split; [|split; [exact N|]].
  - assert (E : norm (vsub (V3 0 3 0) (V3 0 0 0)) = 3). { unfold norm, sqrNorm. cbn. replace ((0 - 0) * (0 - 0) + (3 - 0) * (3 - 0) + (0 - 0) * (0 - 0)) with (3 * 3) by ring. apply sqrt_square. lra. }
    unfold sphere_vert. rewrite normalized_vdiv, E. apply V3_eq; cbn; field.
  - eexists. reflexivity.
Qed.
