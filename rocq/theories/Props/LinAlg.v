(** C17, C22-C27, C67, C73: matrices, transforms, frames, vector helpers, complex numbers. *)
From Coq Require Import Reals List Lra Lia.
From Verif.Base Require Import RTac.
From Verif.Model Require Import Vec Matrix Frame ApiTransform ComplexNum.
From Verif.Spec Require Import LinAlgSpec FrameSpec.
From Verif.Proof Require Import VecLemmas LinAlg TransformProof FrameProof.
Import ListNotations.
Open Scope R_scope.

(** C22: the computed inverse is the inverse, whenever the (Laplace) determinant is non-zero,
    and it is the only one; if the determinant is zero no inverse exists. *)
Theorem C22_inverse_exact m : det4 m <> 0 ->
  mutually_inverse m (m4_inv m) /\ (forall b, mutually_inverse m b -> b = m4_inv m).
Proof. exact (inverse_correct m). Qed.
Print Assumptions C22_inverse_exact.
Theorem C22_nonzero_det_is_necessary m : (exists b, mutually_inverse m b) -> det4 m <> 0.
Proof. rewrite <- det_laplace. apply det_nonzero_iff. Qed.
Print Assumptions C22_nonzero_det_is_necessary.
Example C22_case : det4 (M4 2 1 0 3 0 1 4 0 1 0 1 0 0 0 0 5) = 30.
Proof. unfold det4, det3; simpl; ring. Qed.

(** C23 *)
Theorem C23_stored_inverse_is_inverse t : built t -> consistent t.
Proof. exact (built_consistent t). Qed.
Print Assumptions C23_stored_inverse_is_inverse.
Theorem C23_point_round_trip t p : built t -> weight (tmat t) p <> 0 ->
  tf_point (tf_inverse t) (tf_point t p) = p.
Proof. intros B W. exact (proj2 (point_round_trip t p (built_consistent t B) W)). Qed.
Print Assumptions C23_point_round_trip.
Theorem C23_affine_round_trip t p v : built_affine t ->
  tf_point (tf_inverse t) (tf_point t p) = p /\ tf_vector (tf_inverse t) (tf_vector t v) = v /\
  tf_point t (tf_point (tf_inverse t) p) = p /\ tf_vector t (tf_vector (tf_inverse t) v) = v.
Proof.
  intros B. pose proof (built_consistent _ (built_affine_built _ B)) as C.
  destruct (built_affine_affine _ B) as [A A']. pose proof (consistent_inverse _ C) as C'.
  repeat split.
  - apply (point_round_trip t p C). rewrite weight_affine by assumption. lra.
  - apply vector_round_trip; assumption.
  - destruct t as [m mi]. apply (point_round_trip (tf_inverse (Tf m mi)) p C').
    simpl. rewrite weight_affine by assumption. lra.
  - destruct t as [m mi]. apply (vector_round_trip (tf_inverse (Tf m mi)) v C'). assumption.
Qed.
Print Assumptions C23_affine_round_trip.
Theorem C23_product_applies_right_to_left a b p :
  weight (tmat b) p <> 0 -> weight (tmat a) (tf_point b p) <> 0 ->
  tf_point (tf_mul a b) p = tf_point a (tf_point b p).
Proof. exact (point_compose a b p). Qed.
Print Assumptions C23_product_applies_right_to_left.
Theorem C23_product_applies_right_to_left_vectors a b v : affine (tmat b) ->
  tf_vector (tf_mul a b) v = tf_vector a (tf_vector b v).
Proof. exact (vector_compose a b v). Qed.
Print Assumptions C23_product_applies_right_to_left_vectors.
Example C23_case : built_affine (tf_mul (tf_of (m4_scale (V3 2 3 4))) (tf_inverse (tf_of (m4_translate (V3 1 0 (-1)))))).
Proof.
  apply builta_mul; [apply builta_of|apply builta_inverse, builta_of].
  - unfold det4, det3; simpl; lra.
  - repeat split.
  - unfold det4, det3; simpl; lra.
  - repeat split.
Qed.
Example C23_case_projective : exists t p, built t /\ ~ affine (tmat t) /\ weight (tmat t) p <> 0.
Proof.
  exists (tf_of (M4 1 0 0 0 0 1 0 0 0 0 2 (-1) 0 0 1 0)), (V3 1 1 3). split; [|split].
  - apply built_of. unfold det4, det3; simpl; lra.
  - unfold affine; simpl. lra.
  - unfold weight; simpl. lra.
Qed.

(** C24: the dot product with every transformed tangent is unchanged (hence perpendicularity),
    and the transformed normal does not vanish. *)
Theorem C24_normals_stay_perpendicular t n v : built_affine t ->
  dot (tf_normal t n) (tf_vector t v) = dot n v /\ (n <> vzero -> tf_normal t n <> vzero).
Proof.
  intros B. pose proof (built_consistent _ (built_affine_built _ B)) as C.
  destruct (built_affine_affine _ B) as [A _].
  exact (conj (normal_dot t n v C A) (normal_nonzero t n C A)).
Qed.
Print Assumptions C24_normals_stay_perpendicular.
Example C24_case : let t := tf_of (m4_scale (V3 2 1 1)) in
  dot (V3 1 1 0) (V3 1 (-1) 0) = 0 /\ dot (tf_vector t (V3 1 1 0)) (tf_vector t (V3 1 (-1) 0)) <> 0.
Proof. simpl. unfold dot, tf_vector, m3_vec; simpl. lra. Qed.

(** C25 *)
Theorem C25_rotation_is_isometry a v p q : v <> vzero ->
  dot (tf_vector (tf_of (m4_rotate a v)) p) (tf_vector (tf_of (m4_rotate a v)) q) = dot p q.
Proof. exact (rotate_dot a v p q). Qed.
Print Assumptions C25_rotation_is_isometry.
Theorem C25_rotation_fixes_axis a v : v <> vzero -> tf_vector (tf_of (m4_rotate a v)) v = v.
Proof. exact (rotate_axis a v). Qed.
Print Assumptions C25_rotation_fixes_axis.
Theorem C25_rotation_det_one a v : v <> vzero -> det4 (m4_rotate a v) = 1.
Proof. rewrite <- det_laplace. exact (rotate_det a v). Qed.
Print Assumptions C25_rotation_det_one.
Theorem C25_rotation_angles_add a b v : v <> vzero ->
  is_product (m4_rotate a v) (m4_rotate b v) (m4_rotate (a + b) v).
Proof. intros H. rewrite <- (rotate_add a b v H). apply mul_is_product. Qed.
Print Assumptions C25_rotation_angles_add.
(** by the formula: angle in degrees, clockwise seen against the axis *)
Theorem C25_rotation_formula a v p :
  tf_vector (tf_of (m4_rotate a v)) p = rodrigues (a * PI / 180) (vdiv v (norm v)) p.
Proof. exact (rotate_rodrigues a v p). Qed.
Print Assumptions C25_rotation_formula.
Theorem C25_rotation_inverse a v : v <> vzero -> tinv (tf_of (m4_rotate a v)) = m4_rotate (- a) v.
Proof. exact (rotate_inverse a v). Qed.
Print Assumptions C25_rotation_inverse.
(** the sense of rotation: +90 degrees about z takes x to -y *)
Example C25_case : tf_vector (tf_of (m4_rotate 90 (V3 0 0 2))) (V3 1 0 0) = V3 0 (-1) 0.
Proof.
  rewrite C25_rotation_formula. replace (90 * PI / 180) with (PI / 2) by field.
  assert (N : norm (V3 0 0 2) = 2). { unfold norm; simpl. replace (0*0+0*0+2*2) with (2*2) by ring. apply sqrt_square. lra. }
  unfold rodrigues. rewrite N, cos_PI2, sin_PI2. unfold vadd, vscale, cross, vdiv, dot; simpl. apply V3_eq; simpl; field.
Qed.

(** C26 *)
Theorem C26_frame_orthonormal n : unit3 n ->
  orthonormal (fs (frame_of n)) (ft (frame_of n)) (fn (frame_of n)) /\
  right_handed (ft (frame_of n)) (fn (frame_of n)) (fs (frame_of n)) /\ fn (frame_of n) = n.
Proof. exact (frame_orthonormal n). Qed.
Print Assumptions C26_frame_orthonormal.
Theorem C26_frame_round_trip n v w : unit3 n -> let f := frame_of n in
  toLocal f (toWorld f v) = v /\ toWorld f (toLocal f v) = v /\
  dot (toLocal f v) (toLocal f w) = dot v w /\ dot (toWorld f v) (toWorld f w) = dot v w.
Proof.
  intros U f. pose proof (proj1 (frame_orthonormal n U)) as O.
  repeat split; [apply world_local|apply local_world|apply local_dot|apply to_local_dot]; exact O.
Qed.
Print Assumptions C26_frame_round_trip.
(** the normal itself has local coordinates (0,0,1), so the local z is the cosine *)
Theorem C26_local_z_is_cosine n v : unit3 n ->
  toLocal (frame_of n) n = V3 0 0 1 /\ cosTheta (toLocal (frame_of n) v) = dot v n.
Proof.
  intros U. destruct (frame_orthonormal n U) as [(A&B&C&D&E&F) [_ G]]. unfold toLocal, cosTheta; simpl.
  rewrite !G in *. split; [|reflexivity].
  apply V3_eq; simpl; [rewrite dot_comm; exact F|rewrite dot_comm; exact E|exact C].
Qed.
Print Assumptions C26_local_z_is_cosine.
Theorem C26_spherical_direction ct st phi x y z : ct * ct + st * st = 1 -> orthonormal x y z ->
  unit3 (sphericalDirection ct st phi x y z) /\ dot (sphericalDirection ct st phi x y z) z = ct.
Proof. exact (spherical_unit ct st phi x y z). Qed.
Print Assumptions C26_spherical_direction.
Example C26_case : unit3 (V3 (3/5) (-4/5) 0).
Proof. unfold unit3, dot; simpl; lra. Qed.

(** C27: refuted; what the helpers do instead, and the ones that are right. *)
Theorem C27_max_refuted : exists a, vmax_val a < vx a.
Proof. exists (V3 2 1 3). unfold vmax_val; simpl. rcase; lra. Qed.
Print Assumptions C27_max_refuted.
Theorem C27_neq_refuted : exists a b, a <> b /\ ~ vneb a b.
Proof. exists (V3 1 2 3), (V3 1 2 4). split; [intros E; injection E; lra|unfold vneb; simpl; lra]. Qed.
Print Assumptions C27_neq_refuted.
Theorem C27_max_returns_minimum a :
  (vmax_val a = vx a \/ vmax_val a = vy a \/ vmax_val a = vz a) /\
  vmax_val a <= vx a /\ vmax_val a <= vy a /\ vmax_val a <= vz a.
Proof. rewrite vmax_val_is_min. exact (vmin_val_spec a). Qed.
Print Assumptions C27_max_returns_minimum.
Theorem C27_max_right_iff_grey a :
  (vx a <= vmax_val a /\ vy a <= vmax_val a /\ vz a <= vmax_val a) <-> (vx a = vy a /\ vy a = vz a).
Proof.
  pose proof (vmin_val_spec a) as H. rewrite vmax_val_is_min. split; [lra|]. intros [E F]. rewrite E, F in *. lra.
Qed.
Print Assumptions C27_max_right_iff_grey.
Theorem C27_maxValue_minValue a :
  (maxValue a = vx a \/ maxValue a = vy a \/ maxValue a = vz a) /\
  (vx a <= maxValue a /\ vy a <= maxValue a /\ vz a <= maxValue a) /\
  (minValue a = vx a \/ minValue a = vy a \/ minValue a = vz a) /\
  (minValue a <= vx a /\ minValue a <= vy a /\ minValue a <= vz a).
Proof. pose proof (maxValue_spec a). pose proof (minValue_spec a). tauto. Qed.
Print Assumptions C27_maxValue_minValue.
Example C27_case : vmax_val (V3 2 1 3) = 1 /\ maxValue (V3 2 1 3) = 3 /\ minValue (V3 2 1 3) = 1 /\ vmax_val (V3 4 4 4) = 4.
Proof. unfold vmax_val, maxValue, minValue; simpl. rcase; lra. Qed.

(** C73: index of the largest component *)
Theorem C73_max_index_refuted : exists a, vget a (maxIndex a) < vx a /\ vget a (maxIndex a) < vy a.
Proof. exists (V3 5 5 1). unfold maxIndex; simpl. rcase; simpl; lra. Qed.
Print Assumptions C73_max_index_refuted.
(** exact characterisation: right unless the first two components tie above the third *)
Theorem C73_max_index_right_iff a :
  (forall i, (i < 3)%nat -> vget a i <= vget a (maxIndex a)) <-> ~ (vx a = vy a /\ vz a < vx a).
Proof.
  split.
  - intros H [E L]. pose proof (H 0%nat ltac:(lia)) as H0. revert H0. unfold maxIndex; simpl. rcase; simpl; lra.
  - intros N i Hi. destruct i as [|[|[|i]]]; [| | |lia]; unfold maxIndex; simpl; rcase; simpl; try lra;
    destruct (Rle_lt_dec (vx a) (vz a)); try lra; exfalso; apply N; lra.
Qed.
Print Assumptions C73_max_index_right_iff.
Example C73_case : maxIndex (V3 1 5 2) = 1%nat /\ maxIndex (V3 7 5 2) = 0%nat /\ maxIndex (V3 5 5 1) = 2%nat.
Proof. unfold maxIndex; simpl. rcase; repeat split; lra. Qed.

(** C17 *)
Theorem C17_calls_compose_in_order cs p : (forall c, In c (since_clear [] cs) -> axis_ok c) ->
  tf_point (trun cs) p = fold_left (fun q c => act c q) (since_clear [] cs) p.
Proof. exact (run_point cs p). Qed.
Print Assumptions C17_calls_compose_in_order.
Theorem C17_inverse_iff_calls_invertible cs : (forall c, In c (since_clear [] cs) -> axis_ok c) ->
  (consistent (trun cs) <-> forall c, In c (since_clear [] cs) -> invertible_call c).
Proof. exact (run_consistent cs). Qed.
Print Assumptions C17_inverse_iff_calls_invertible.
Theorem C17_inverse_undoes cs p :
  (forall c, In c (since_clear [] cs) -> axis_ok c /\ invertible_call c) ->
  tf_point (tf_inverse (trun cs)) (tf_point (trun cs) p) = p.
Proof.
  intros H. apply point_round_trip.
  - apply run_consistent; intros c Hc; apply H, Hc.
  - rewrite weight_affine by apply trun_affine. lra.
Qed.
Print Assumptions C17_inverse_undoes.
Example C17_case : let cs := [TScale (V3 0 1 1); TClear; TTranslate (V3 1 0 0); TScale (V3 2 2 2); TRotate 30 (V3 0 1 0)] in
  (forall c, In c (since_clear [] cs) -> axis_ok c /\ invertible_call c) /\
  tf_point (trun (firstn 4 cs)) (V3 1 1 1) = V3 4 2 2.
Proof.
  simpl. split.
  - intros c [<-|[<-|[<-|[]]]]; simpl; (split; [|]); auto; try lra.
    intros E. injection E. lra.
  - rewrite (C17_calls_compose_in_order [TScale (V3 0 1 1); TClear; TTranslate (V3 1 0 0); TScale (V3 2 2 2)]).
    + simpl. unfold vadd; simpl. apply V3_eq; simpl; lra.
    + simpl. intros c [<-|[<-|[]]]; exact I.
Qed.

(** C67: refuted for the two-component in-place subtraction, which adds *)
Theorem C67_sub_assign_refuted : exists a b, c2_sub_assign a b <> c2_sub a b.
Proof. exists (C2 0 0), (C2 1 0). unfold c2_sub_assign, c2_sub; simpl. intros E. injection E. lra. Qed.
Print Assumptions C67_sub_assign_refuted.
Theorem C67_sub_assign_right_iff a b : c2_sub_assign a b = c2_sub a b <-> b = C2 0 0.
Proof.
  destruct a as [a1 a2], b as [b1 b2]. unfold c2_sub_assign, c2_sub; simpl. split; intros E.
  - injection E. intros. f_equal; lra.
  - injection E as -> ->. f_equal; lra.
Qed.
Print Assumptions C67_sub_assign_right_iff.
Theorem C67_complex_field :
  (forall a b, c2_add a b = c2_add b a) /\ (forall a b c, c2_add a (c2_add b c) = c2_add (c2_add a b) c) /\
  (forall a, c2_add a (C2 0 0) = a) /\ (forall a b, c2_add (c2_sub a b) b = a) /\
  (forall a b, c2_mul a b = c2_mul b a) /\ (forall a b c, c2_mul a (c2_mul b c) = c2_mul (c2_mul a b) c) /\
  (forall a, c2_mul (C2 1 0) a = a) /\ (forall a b c, c2_mul a (c2_add b c) = c2_add (c2_mul a b) (c2_mul a c)) /\
  (forall a, a <> C2 0 0 -> exists b, c2_mul a b = C2 1 0) /\ c2_mul (C2 0 1) (C2 0 1) = C2 (-1) 0 /\
  (forall a b, c2_norm (c2_mul a b) = c2_norm a * c2_norm b) /\
  (forall a b, c2_add_assign a b = c2_add a b) /\
  (forall a r, c2_addr a r = c2_add a (C2 r 0)) /\ (forall a r, c2_subr a r = c2_sub a (C2 r 0)).
Proof.
  repeat match goal with |- _ /\ _ => split end;
  try (intros; repeat match goal with a : cx2 |- _ => destruct a end;
    unfold c2_add, c2_sub, c2_mul, c2_add_assign, c2_addr, c2_subr, c2_norm; simpl; first [ring|f_equal; ring]).
  intros [x y] N. exists (C2 (x / (x * x + y * y)) (- y / (x * x + y * y))). unfold c2_mul; simpl.
  assert (P : x * x + y * y <> 0).
  { intros Z. apply N. assert (x = 0) by nra. assert (y = 0) by nra. subst. reflexivity. }
  f_equal; field; assumption.
Qed.
Print Assumptions C67_complex_field.
(** the three-component numbers form a commutative ring in which i*i = j, i*j = -1, j*j = -i *)
Theorem C67_complex3_ring :
  (forall a b, c3_mul a b = c3_mul b a) /\ (forall a b c, c3_mul a (c3_mul b c) = c3_mul (c3_mul a b) c) /\
  (forall a, c3_mul (C3 1 0 0) a = a) /\ (forall a b c, c3_mul a (c3_add b c) = c3_add (c3_mul a b) (c3_mul a c)) /\
  (forall a b, c3_sub_assign a b = c3_sub a b /\ c3_add_assign a b = c3_add a b /\ c3_add (c3_sub a b) b = a) /\
  c3_mul (C3 0 1 0) (C3 0 1 0) = C3 0 0 1 /\ c3_mul (C3 0 1 0) (C3 0 0 1) = C3 (-1) 0 0 /\
  c3_mul (C3 0 0 1) (C3 0 0 1) = C3 0 (-1) 0.
Proof.
  repeat match goal with |- _ /\ _ => split end;
  intros; repeat match goal with a : cx3 |- _ => destruct a end;
    unfold c3_add_assign, c3_sub_assign, c3_add, c3_sub, c3_mul; simpl; repeat split; f_equal; ring.
Qed.
Print Assumptions C67_complex3_ring.
(** ... but not a field: it has zero divisors *)
Theorem C67_complex3_field_refuted : exists a b, a <> C3 0 0 0 /\ b <> C3 0 0 0 /\ c3_mul a b = C3 0 0 0.
Proof.
  exists (C3 1 1 0), (C3 1 (-1) 1). repeat split; try (intros E; injection E; lra).
  unfold c3_mul; simpl. f_equal; ring.
Qed.
Print Assumptions C67_complex3_field_refuted.
Example C67_case : c2_mul (C2 1 2) (C2 3 (-1)) = C2 5 5 /\ c2_mul (C2 0 2) (C2 0 (- (1 / 2))) = C2 1 0 /\
  c2_sub (C2 1 2) (C2 3 1) = C2 (-2) 1 /\ c2_sub_assign (C2 1 2) (C2 3 1) <> C2 (-2) 1.
Proof. unfold c2_mul, c2_sub, c2_sub_assign; simpl. repeat split; try (f_equal; lra). intros E. injection E. lra. Qed.
