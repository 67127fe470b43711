(** Rotations, frames, the API's transform calls, component helpers, complex numbers. *)
From Coq Require Import Reals List Lra Lia Psatz Nsatz.
From Verif.Base Require Import RTac.
From Verif.Model Require Import Vec Matrix Frame ApiTransform ComplexNum.
From Verif.Spec Require Import LinAlgSpec FrameSpec.
From Verif.Proof Require Import VecLemmas LinAlg TransformProof.
Import ListNotations.
Open Scope R_scope.

(** ** rotations *)
Definition rot_mat (c s : R) (u : vec3) : mat4 :=
  let t := 1 - c in
  M4 (c + vx u * vx u * t) (vx u * vy u * t + vz u * s) (vx u * vz u * t - vy u * s) 0
     (vx u * vy u * t - vz u * s) (c + vy u * vy u * t) (vy u * vz u * t + vx u * s) 0
     (vx u * vz u * t + vy u * s) (vy u * vz u * t - vx u * s) (c + vz u * vz u * t) 0
     0 0 0 1.
Lemma rotate_rot_mat a v : m4_rotate a v = rot_mat (cos (a * PI / 180)) (sin (a * PI / 180)) (normalized v).
Proof. reflexivity. Qed.

Lemma rot_vec c s u v : m3_vec (topLeft (rot_mat c s u)) v =
  vadd (vadd (vscale v c) (vscale (cross v u) s)) (vscale u ((1 - c) * dot u v)).
Proof. vec. unfold m3_vec, topLeft, rot_mat, vadd, vscale, cross, dot; simpl. apply V3_eq; simpl; ring. Qed.

Lemma sc_one th : cos th * cos th + sin th * sin th = 1.
Proof. pose proof (sin2_cos2 th) as H. unfold Rsqr in H. lra. Qed.

Lemma rot_dot c s u v w : c * c + s * s = 1 -> unit3 u ->
  dot (m3_vec (topLeft (rot_mat c s u)) v) (m3_vec (topLeft (rot_mat c s u)) w) = dot v w.
Proof.
  intros H U. rewrite !rot_vec. unfold unit3 in U. vec. unfold dot, vadd, vscale, cross in *; simpl in *.
  nsatz.
Qed.
Lemma rot_det c s u : c * c + s * s = 1 -> unit3 u -> m4_det (rot_mat c s u) = 1.
Proof.
  intros H U. unfold unit3, dot in U. vec. unfold m4_det, rot_mat; simpl.
  nsatz.
Qed.
Lemma rot_axis c s u : unit3 u -> m3_vec (topLeft (rot_mat c s u)) u = u.
Proof.
  intros U. rewrite rot_vec. unfold unit3 in U. rewrite U. vec. unfold vadd, vscale, cross; simpl.
  apply V3_eq; simpl; ring.
Qed.
Lemma rot_mul c s c' s' u : unit3 u ->
  m4_mul (rot_mat c s u) (rot_mat c' s' u) = rot_mat (c * c' - s * s') (s * c' + c * s') u.
Proof.
  intros U. unfold unit3, dot in U. vec. unfold m4_mul, rot_mat; simpl.
  apply M4_eq; nsatz.
Qed.

Lemma rotate_unit v : v <> vzero -> unit3 (normalized v).
Proof. apply normalized_unit. Qed.

Lemma rotate_rodrigues a v p : tf_vector (tf_of (m4_rotate a v)) p = rodrigues (a * PI / 180) (normalized v) p.
Proof. unfold tf_vector. simpl tmat. rewrite rotate_rot_mat. apply rot_vec. Qed.
Lemma rotate_dot a v p q : v <> vzero ->
  dot (tf_vector (tf_of (m4_rotate a v)) p) (tf_vector (tf_of (m4_rotate a v)) q) = dot p q.
Proof. intros H. apply rot_dot; [apply sc_one|apply rotate_unit, H]. Qed.
Lemma rotate_det a v : v <> vzero -> m4_det (m4_rotate a v) = 1.
Proof. intros H. rewrite rotate_rot_mat. apply rot_det; [apply sc_one|apply rotate_unit, H]. Qed.
Lemma rotate_axis a v : v <> vzero -> tf_vector (tf_of (m4_rotate a v)) v = v.
Proof.
  intros H. unfold tf_vector. simpl tmat. rewrite rotate_rot_mat.
  pose proof (rot_axis (cos (a * PI / 180)) (sin (a * PI / 180)) _ (rotate_unit v H)) as A.
  revert A. generalize (topLeft (rot_mat (cos (a * PI / 180)) (sin (a * PI / 180)) (normalized v))). intros m A.
  pose proof (normalized_scale v H) as S. revert A S. generalize (normalized v) (norm v). intros u k A S. rewrite S.
  replace (m3_vec m (vscale u k)) with (vscale (m3_vec m u) k); [rewrite A; reflexivity|].
  vec. unfold vscale, m3_vec; simpl. apply V3_eq; simpl; ring.
Qed.
Lemma rotate_add a b v : v <> vzero -> m4_mul (m4_rotate a v) (m4_rotate b v) = m4_rotate (a + b) v.
Proof.
  intros H. rewrite !rotate_rot_mat. rewrite rot_mul by (apply rotate_unit, H).
  replace ((a + b) * PI / 180) with (a * PI / 180 + b * PI / 180) by field.
  rewrite cos_plus, sin_plus. reflexivity.
Qed.
Lemma rotate_zero v : m4_rotate 0 v = m4_id.
Proof.
  rewrite rotate_rot_mat. replace (0 * PI / 180) with 0 by field. rewrite cos_0, sin_0.
  unfold rot_mat, m4_id. apply M4_eq; ring.
Qed.
Lemma rotate_inverse a v : v <> vzero -> m4_inv (m4_rotate a v) = m4_rotate (- a) v.
Proof.
  intros H. symmetry. apply inverse_unique. rewrite rotate_add by assumption.
  replace (a + - a) with 0 by ring. apply rotate_zero.
Qed.

(** ** frames *)
Lemma coordinateSystem_cross a : fst (coordinateSystem a) = cross (snd (coordinateSystem a)) a.
Proof. reflexivity. Qed.
Lemma coordinateSystem_unit a : unit3 a -> unit3 (snd (coordinateSystem a)) /\ dot (snd (coordinateSystem a)) a = 0.
Proof.
  intros U. unfold unit3, dot in U. unfold coordinateSystem, unit3, dot; simpl.
  destruct (Rgt_dec (Rabs (vx a)) (Rabs (vy a))) as [G|G]; simpl.
  - assert (P : 0 < vx a * vx a + vz a * vz a).
    { pose proof (Rabs_pos (vy a)). assert (vx a <> 0) by (intros E; rewrite E, Rabs_R0 in G; lra).
      assert (0 < vx a * vx a) by nra. nra. }
    pose proof (sqrt_lt_R0 _ P) as S. pose proof (sqrt_sqrt _ (Rlt_le _ _ P)) as Q.
    set (k := sqrt (vx a * vx a + vz a * vz a)) in *.
    split; [field_simplify_eq; [|lra]; nra|field; lra].
  - apply Rnot_gt_le in G.
    assert (P : 0 < vy a * vy a + vz a * vz a).
    { destruct (Req_dec (vy a) 0) as [Y|Y]; [|nra]. rewrite Y, Rabs_R0 in G.
      assert (X : vx a = 0) by (destruct (Req_dec (vx a) 0) as [X|X]; [exact X|pose proof (Rabs_pos_lt _ X); lra]).
      rewrite X, Y in U. nra. }
    pose proof (sqrt_lt_R0 _ P) as S. pose proof (sqrt_sqrt _ (Rlt_le _ _ P)) as Q.
    set (k := sqrt (vy a * vy a + vz a * vz a)) in *.
    split; [field_simplify_eq; [|lra]; nra|field; lra].
Qed.
Lemma frame_orthonormal n : unit3 n ->
  orthonormal (fs (frame_of n)) (ft (frame_of n)) (fn (frame_of n)) /\
  right_handed (ft (frame_of n)) (fn (frame_of n)) (fs (frame_of n)) /\ fn (frame_of n) = n.
Proof.
  intros U. pose proof (coordinateSystem_unit n U) as [C1 C2]. unfold frame_of.
  destruct (coordinateSystem n) as [s t] eqn:E. simpl in *.
  assert (Hs : s = cross t n). { pose proof (coordinateSystem_cross n) as H. rewrite E in H. exact H. }
  split; [|split; [symmetry; exact Hs|reflexivity]].
  unfold unit3 in *. rewrite Hs. unfold orthonormal. repeat split.
  - rewrite lagrange, C1, U, C2. ring.
  - exact C1.
  - exact U.
  - apply dot_cross_l.
  - exact C2.
  - apply dot_cross_r.
Qed.

Lemma to_local_dot f v w : orthonormal (fs f) (ft f) (fn f) ->
  dot (toWorld f v) (toWorld f w) = dot v w.
Proof.
  intros (A&B&C&D&E&F). unfold toWorld. rewrite !dot_add_l, !dot_add_r, !dot_scale_l, !dot_scale_r.
  rewrite A, B, C, (dot_comm (ft f) (fs f)), (dot_comm (fn f) (ft f)), (dot_comm (fn f) (fs f)), D, E, F.
  unfold dot. ring.
Qed.
Lemma world_local f v : orthonormal (fs f) (ft f) (fn f) -> toLocal f (toWorld f v) = v.
Proof.
  intros (A&B&C&D&E&F). unfold toLocal, toWorld. rewrite !dot_add_l, !dot_scale_l.
  rewrite A, B, C, (dot_comm (ft f) (fs f)), (dot_comm (fn f) (ft f)), (dot_comm (fn f) (fs f)), D, E, F.
  destruct v; simpl. apply V3_eq; simpl; ring.
Qed.
(** rows orthonormal implies columns orthonormal: through the 4x4 inverse *)
Definition frame_mat (f : frame) : mat4 :=
  M4 (vx (fs f)) (vx (ft f)) (vx (fn f)) 0 (vy (fs f)) (vy (ft f)) (vy (fn f)) 0
     (vz (fs f)) (vz (ft f)) (vz (fn f)) 0 0 0 0 1.
Lemma local_world f v : orthonormal (fs f) (ft f) (fn f) -> toWorld f (toLocal f v) = v.
Proof.
  intros (A&B&C&D&E&F).
  assert (L : m4_mul (m4_transpose (frame_mat f)) (frame_mat f) = m4_id).
  { destruct f as [s t n]; vec. unfold dot in *; simpl in *. unfold m4_mul, m4_transpose, frame_mat, m4_id; simpl.
    apply M4_eq; lra. }
  assert (Rr : m4_mul (frame_mat f) (m4_transpose (frame_mat f)) = m4_id).
  { pose proof (inverse_unique _ _ L) as I. generalize dependent (m4_transpose (frame_mat f)). intros T L I.
    rewrite I. apply inv_left. intros Z. pose proof (det_mul T (frame_mat f)) as P. rewrite L, det_id, Z in P. lra. }
  pose proof (m4_vec_mul (frame_mat f) (m4_transpose (frame_mat f)) (V4_of3 v 0)) as P.
  rewrite Rr, m4_vec_id in P. unfold m4_vec, V4_of3, m4_transpose, frame_mat in P.
  destruct f as [s t n]; vec. injection P as P1 P2 P3 P4.
  unfold toWorld, toLocal, vadd, vscale, dot; simpl. apply V3_eq; simpl; lra.
Qed.
Lemma local_dot f v w : orthonormal (fs f) (ft f) (fn f) -> dot (toLocal f v) (toLocal f w) = dot v w.
Proof. intros O. rewrite <- (to_local_dot f _ _ O), !local_world by assumption. reflexivity. Qed.

Lemma spherical_unit ct st phi x y z : ct * ct + st * st = 1 -> orthonormal x y z ->
  unit3 (sphericalDirection ct st phi x y z) /\ dot (sphericalDirection ct st phi x y z) z = ct.
Proof.
  intros H (A&B&C&D&E&F). pose proof (sc_one phi) as P. unfold unit3, sphericalDirection.
  rewrite !dot_add_l, !dot_add_r, !dot_scale_l, !dot_scale_r.
  rewrite A, B, C, (dot_comm y x), (dot_comm z y), (dot_comm z x), D, E, F. split; [|ring].
  generalize dependent (cos phi). generalize (sin phi). intros s c P. nsatz.
Qed.

(** ** the API's transform calls *)
Lemma tf_of_mul_affine m : affine m -> m4_det m <> 0 -> affine (tinv (tf_of m)).
Proof. intros A D. apply (affine_inverse m); [assumption|]. apply inv_right, D. Qed.

Definition call_mat (c : tcall) : mat4 :=
  match c with TClear => m4_id | TScale v => m4_scale v | TTranslate v => m4_translate v | TRotate a v => m4_rotate a v end.
Lemma call_affine c : affine (call_mat c).
Proof. destruct c; unfold affine; simpl; repeat split; reflexivity. Qed.
Lemma call_point c p : axis_ok c -> tf_point (tf_of (call_mat c)) p = act c p.
Proof.
  intros H. rewrite tf_point_weight. simpl tmat. rewrite weight_affine by apply call_affine.
  destruct c; simpl; unfold vdiv, head4, m4_vec, V4_of3; simpl.
  - vec. apply V3_eq; simpl; field.
  - vec. apply V3_eq; simpl; field.
  - vec. apply V3_eq; simpl; field.
  - pose proof (norm_pos axis H) as P. unfold rodrigues, vadd, vscale, cross, dot; simpl.
    apply V3_eq; simpl; field; lra.
Qed.
Lemma call_det c : axis_ok c -> (m4_det (call_mat c) <> 0 <-> invertible_call c).
Proof.
  destruct c as [|v|v|a v]; simpl; intros H.
  - rewrite det_id. split; [auto|intros _; lra].
  - replace (m4_det (m4_scale v)) with (vx v * vy v * vz v) by (unfold m4_det, m4_scale; simpl; ring).
    split.
    + intros N. repeat split; intros Z; apply N; rewrite Z; ring.
    + intros (X&Y&Z). repeat apply Rmult_integral_contrapositive_currified; assumption.
  - replace (m4_det (m4_translate v)) with 1 by (unfold m4_det, m4_translate; simpl; ring). split; [auto|intros _; lra].
  - rewrite rotate_det by assumption. split; [auto|intros _; lra].
Qed.

Lemma tcall_clear_dec (c : tcall) : {c = TClear} + {c <> TClear}.
Proof. destruct c; [left; reflexivity| | |]; right; discriminate. Qed.

(** the current transform after some calls, from any starting transform *)
Lemma tstep_call cur c : c <> TClear -> tstep cur c = tf_mul (tf_of (call_mat c)) cur.
Proof. destruct c; intros H; [contradiction| | |]; reflexivity. Qed.

Lemma trun_snoc cs c : trun (cs ++ [c]) = tstep (trun cs) c.
Proof. unfold trun. rewrite fold_left_app. reflexivity. Qed.
Lemma since_app acc a b : since_clear acc (a ++ b) = since_clear (since_clear acc a) b.
Proof. revert acc. induction a as [|c a IH]; intros acc; simpl; [reflexivity|]. destruct c; apply IH. Qed.
Lemma since_snoc cs c : c <> TClear -> since_clear [] (cs ++ [c]) = since_clear [] cs ++ [c].
Proof. intros H. rewrite since_app. destruct c; [contradiction| | |]; reflexivity. Qed.
Lemma since_clear_snoc cs : since_clear [] (cs ++ [TClear]) = [].
Proof. rewrite since_app. reflexivity. Qed.

Lemma trun_affine cs : affine (tmat (trun cs)).
Proof.
  induction cs as [|c cs IH] using rev_ind; [simpl; repeat split|]. rewrite trun_snoc.
  destruct c; simpl; [repeat split| | |]; (apply affine_mul; [|exact IH]); repeat split.
Qed.
Lemma run_point cs p : (forall c, In c (since_clear [] cs) -> axis_ok c) ->
  tf_point (trun cs) p = fold_left (fun q c => act c q) (since_clear [] cs) p.
Proof.
  induction cs as [|c cs IH] using rev_ind; intros H.
  - simpl. rewrite tf_point_weight. simpl tmat. rewrite weight_affine by (repeat split).
    vec. unfold vdiv, head4, m4_vec, V4_of3, m4_id; simpl. apply V3_eq; simpl; field.
  - rewrite trun_snoc. destruct c as [|v|v|a v].
    + rewrite since_clear_snoc in *. simpl. rewrite tf_point_weight. simpl tmat. rewrite weight_affine by (repeat split).
      vec. unfold vdiv, head4, m4_vec, V4_of3, m4_id; simpl. apply V3_eq; simpl; field.
    + rewrite since_snoc in * by discriminate. rewrite fold_left_app. simpl fold_left.
      rewrite tstep_call by discriminate. rewrite point_compose.
      * rewrite IH by (intros c Hc; apply H; apply in_or_app; auto). apply (call_point (TScale v)). exact I.
      * rewrite weight_affine by apply trun_affine. lra.
      * rewrite weight_affine by apply call_affine. lra.
    + rewrite since_snoc in * by discriminate. rewrite fold_left_app. simpl fold_left.
      rewrite tstep_call by discriminate. rewrite point_compose.
      * rewrite IH by (intros c Hc; apply H; apply in_or_app; auto). apply (call_point (TTranslate v)). exact I.
      * rewrite weight_affine by apply trun_affine. lra.
      * rewrite weight_affine by apply call_affine. lra.
    + rewrite since_snoc in * by discriminate. rewrite fold_left_app. simpl fold_left.
      rewrite tstep_call by discriminate. rewrite point_compose.
      * rewrite IH by (intros c Hc; apply H; apply in_or_app; auto). apply (call_point (TRotate a v)).
        apply H. apply in_or_app. right. left. reflexivity.
      * rewrite weight_affine by apply trun_affine. lra.
      * rewrite weight_affine by apply call_affine. lra.
Qed.

Lemma run_consistent cs : (forall c, In c (since_clear [] cs) -> axis_ok c) ->
  (consistent (trun cs) <-> forall c, In c (since_clear [] cs) -> invertible_call c).
Proof.
  intros H.
  assert (D : m4_det (tmat (trun cs)) <> 0 <-> forall c, In c (since_clear [] cs) -> invertible_call c).
  { induction cs as [|c cs IH] using rev_ind.
    - simpl. rewrite det_id. split; [intros _ c []|intros _; lra].
    - destruct (tcall_clear_dec c) as [->|N].
      + rewrite trun_snoc, since_clear_snoc. simpl. rewrite det_id. split; [intros _ c []|intros _; lra].
      + rewrite trun_snoc, since_snoc in * by assumption. rewrite tstep_call by assumption.
        simpl tmat. rewrite det_mul.
        assert (IH' := IH (fun d Hd => H d (in_or_app _ _ _ (or_introl Hd)))).
        assert (Cd := call_det c (H c (in_elt c _ []))).
        split.
        * intros P d Hd. apply in_app_or in Hd. destruct Hd as [Hd|[<-|[]]].
          -- apply (proj1 IH'); [|exact Hd]. intros Z. apply P. rewrite Z. ring.
          -- apply (proj1 Cd). intros Z. apply P. rewrite Z. ring.
        * intros P. apply Rmult_integral_contrapositive_currified.
          -- apply (proj2 Cd). apply P. apply in_or_app. right. left. reflexivity.
          -- apply (proj2 IH'). intros d Hd. apply P. apply in_or_app. left. exact Hd. }
  rewrite <- D. split.
  - intros C. apply det_nonzero_iff. exists (tinv (trun cs)). exact C.
  - clear D. intros N.
    assert (G : forall l, m4_det (tmat (trun l)) <> 0 -> consistent (trun l)).
    { clear. induction l as [|c l IH] using rev_ind; intros N; [apply consistent_id|].
      rewrite trun_snoc in *. destruct (tcall_clear_dec c) as [->|Nc]; [apply consistent_id|].
      rewrite tstep_call in * by assumption. simpl tmat in N. rewrite det_mul in N.
      apply consistent_mul; [apply consistent_of|apply IH]; intros Z; apply N; rewrite Z; ring. }
    apply G, N.
Qed.

(** ** component helpers *)
Lemma vmax_val_is_min a : vmax_val a = vmin_val a.
Proof. reflexivity. Qed.
Lemma vmin_val_spec a : (vmin_val a = vx a \/ vmin_val a = vy a \/ vmin_val a = vz a) /\
  vmin_val a <= vx a /\ vmin_val a <= vy a /\ vmin_val a <= vz a.
Proof. unfold vmin_val. rcase; rsolve. Qed.
Lemma maxValue_spec a : (maxValue a = vx a \/ maxValue a = vy a \/ maxValue a = vz a) /\
  vx a <= maxValue a /\ vy a <= maxValue a /\ vz a <= maxValue a.
Proof. unfold maxValue. rcase; rsolve. Qed.
Lemma minValue_spec a : (minValue a = vx a \/ minValue a = vy a \/ minValue a = vz a) /\
  minValue a <= vx a /\ minValue a <= vy a /\ minValue a <= vz a.
Proof. unfold minValue. rcase; rsolve. Qed.
