(** Transforms: consistency, round trips, composition, normals. *)
From Coq Require Import Reals List Lra Lia Psatz.
From Verif.Base Require Import RTac.
From Verif.Model Require Import Vec Matrix.
From Verif.Spec Require Import LinAlgSpec.
From Verif.Proof Require Import VecLemmas LinAlg.
Open Scope R_scope.

(** transforms *)
Lemma consistent_iff t : consistent t <-> m4_mul (tmat t) (tinv t) = m4_id /\ m4_mul (tinv t) (tmat t) = m4_id.
Proof. apply mutually_inverse_iff. Qed.
Lemma consistent_of m : m4_det m <> 0 -> consistent (tf_of m).
Proof. intros H. apply consistent_iff. simpl. split; [apply inv_right|apply inv_left]; assumption. Qed.
Lemma consistent_id : consistent tf_id.
Proof. apply consistent_iff. simpl. rewrite m4_mul_id_l. auto. Qed.
Lemma consistent_inverse t : consistent t -> consistent (tf_inverse t).
Proof. rewrite !consistent_iff. simpl. tauto. Qed.
Lemma consistent_mul a b : consistent a -> consistent b -> consistent (tf_mul a b).
Proof.
  rewrite !consistent_iff. simpl. intros [A1 A2] [B1 B2]. split.
  - rewrite m4_mul_assoc, <- (m4_mul_assoc (tmat a)), B1, m4_mul_id_r. exact A1.
  - rewrite m4_mul_assoc, <- (m4_mul_assoc (tinv b)), A2, m4_mul_id_r. exact B2.
Qed.
Lemma built_consistent t : built t -> consistent t.
Proof.
  induction 1; [apply consistent_of; rewrite det_laplace; assumption|apply consistent_id|apply consistent_inverse; assumption|apply consistent_mul; assumption].
Qed.

Lemma affine_mul a b : affine a -> affine b -> affine (m4_mul a b).
Proof.
  dm a; dm b. unfold affine; simpl. intros (->&->&->&->) (->&->&->&->).
  repeat split; ring.
Qed.
Lemma affine_inverse a b : affine a -> m4_mul a b = m4_id -> affine b.
Proof.
  dm a; dm b. unfold affine, m4_mul, m4_id; simpl. intros (->&->&->&->) E.
  injection E; intros. clear E. lra.
Qed.
Lemma built_affine_affine t : built_affine t -> affine (tmat t) /\ affine (tinv t).
Proof.
  induction 1 as [m Hm Ha| |t H [IH1 IH2]|a b Ha [A1 A2] Hb [B1 B2]]; simpl.
  - split; [assumption|]. apply (affine_inverse m); [assumption|]. apply inv_right. rewrite det_laplace. assumption.
  - unfold affine, m4_id; simpl. repeat split; reflexivity.
  - auto.
  - split; apply affine_mul; assumption.
Qed.
Lemma built_affine_built t : built_affine t -> built t.
Proof. induction 1; [apply built_of|apply built_id|apply built_inverse|apply built_mul]; assumption. Qed.

Lemma weight_affine m p : affine m -> weight m p = 1.
Proof. unfold affine, weight. intros (->&->&->&->). ring. Qed.
Lemma ww_point m p : ww (m4_vec m (V4_of3 p 1)) = weight m p.
Proof. destruct p. unfold m4_vec, V4_of3, weight; simpl. ring. Qed.

Lemma hom_point m p : weight m p <> 0 ->
  m4_vec m (V4_of3 p 1) =
  let q := vdiv (head4 (m4_vec m (V4_of3 p 1))) (weight m p) in
  V4 (weight m p * vx q) (weight m p * vy q) (weight m p * vz q) (weight m p).
Proof.
  intros H. apply V4_eq; simpl; try (field; assumption).
  rewrite <- (ww_point m p). reflexivity.
Qed.
Lemma m4_vec_scale m w q : m4_vec m (V4 (w * vx q) (w * vy q) (w * vz q) w) =
  let h := m4_vec m (V4_of3 q 1) in V4 (w * wx h) (w * wy h) (w * wz h) (w * ww h).
Proof. dm m; destruct q. unfold m4_vec, V4_of3; simpl. apply V4_eq; simpl; ring. Qed.

Lemma tf_point_weight t p : tf_point t p = vdiv (head4 (m4_vec (tmat t) (V4_of3 p 1))) (weight (tmat t) p).
Proof. unfold tf_point. rewrite ww_point. reflexivity. Qed.

Lemma hom_compose a b p : weight b p <> 0 ->
  m4_vec (m4_mul a b) (V4_of3 p 1) =
  let q := vdiv (head4 (m4_vec b (V4_of3 p 1))) (weight b p) in
  let h := m4_vec a (V4_of3 q 1) in
  V4 (weight b p * wx h) (weight b p * wy h) (weight b p * wz h) (weight b p * ww h).
Proof. intros H. rewrite m4_vec_mul. etransitivity; [apply (f_equal (m4_vec a)); apply (hom_point b p H)|]. apply m4_vec_scale. Qed.

Lemma weight_mul a b p : weight b p <> 0 ->
  weight (m4_mul a b) p = weight b p * weight a (vdiv (head4 (m4_vec b (V4_of3 p 1))) (weight b p)).
Proof. intros H. rewrite <- (ww_point (m4_mul a b)), (hom_compose a b p H). cbv zeta. cbn [ww]. rewrite (ww_point a). reflexivity. Qed.

Lemma point_compose a b p : weight (tmat b) p <> 0 -> weight (tmat a) (tf_point b p) <> 0 ->
  tf_point (tf_mul a b) p = tf_point a (tf_point b p).
Proof.
  intros Hb Ha. rewrite (tf_point_weight (tf_mul a b)), (tf_point_weight a).
  rewrite (tf_point_weight b) in *. simpl tmat.
  rewrite (weight_mul _ _ _ Hb), (hom_compose _ _ _ Hb). cbv zeta.
  apply V3_eq; simpl; field; auto.
Qed.

Lemma point_round_trip t p : consistent t -> weight (tmat t) p <> 0 ->
  weight (tinv t) (tf_point t p) <> 0 /\ tf_point (tf_inverse t) (tf_point t p) = p.
Proof.
  intros C H. apply consistent_iff in C. destruct C as [_ C].
  pose proof (hom_compose (tinv t) (tmat t) p H) as E. cbv zeta in E.
  pose proof (weight_mul (tinv t) (tmat t) p H) as W.
  rewrite C, m4_vec_id in E. rewrite C in W.
  rewrite <- tf_point_weight in E, W.
  assert (W1 : weight m4_id p = 1) by (unfold weight, m4_id; simpl; ring).
  rewrite W1 in W.
  assert (N : weight (tinv t) (tf_point t p) <> 0) by (intros Z; rewrite Z in W; lra).
  split; [exact N|].
  rewrite (tf_point_weight (tf_inverse t)). simpl tmat.
  set (h := m4_vec (tinv t) (V4_of3 (tf_point t p) 1)) in *.
  set (w := weight (tmat t) p) in *. set (w' := weight (tinv t) (tf_point t p)) in *.
  clearbody h w w'. destruct p as [px py pz]. unfold V4_of3 in E. simpl in E. injection E as E1 E2 E3 E4.
  assert (V : w = / w') by (apply Rmult_eq_reg_r with w'; [rewrite Rinv_l by assumption; lra|assumption]).
  unfold vdiv, head4; simpl. apply V3_eq; simpl; [rewrite E1|rewrite E2|rewrite E3]; rewrite V; unfold Rdiv; ring.
Qed.

Lemma vector_compose a b v : affine (tmat b) -> tf_vector (tf_mul a b) v = tf_vector a (tf_vector b v).
Proof.
  destruct a as [a ai], b as [b bi], v. dm a; dm b. unfold affine, tf_vector, m3_vec, topLeft, m4_mul; simpl.
  intros (->&->&->&->). apply V3_eq; simpl; ring.
Qed.
Lemma vector_round_trip t v : consistent t -> affine (tmat t) -> tf_vector (tf_inverse t) (tf_vector t v) = v.
Proof.
  intros C A. apply consistent_iff in C. destruct C as [_ C].
  rewrite <- (vector_compose (tf_inverse t) t v A).
  unfold tf_mul, tf_inverse, tf_vector; simpl. rewrite C. destruct v.
  unfold m3_vec, topLeft, m4_id; simpl. apply V3_eq; simpl; ring.
Qed.

(** normals *)
Lemma normal_dot t n v : consistent t -> affine (tmat t) -> dot (tf_normal t n) (tf_vector t v) = dot n v.
Proof.
  intros C A. rewrite <- (vector_round_trip t v C A) at 2.
  set (u := tf_vector t v). destruct t as [m mi], n, u. dm mi.
  unfold dot, tf_normal, tf_inverse, tf_vector, m3_vec, m3_transpose, topLeft; simpl. ring.
Qed.
Lemma normal_nonzero t n : consistent t -> affine (tmat t) -> n <> V3 0 0 0 -> tf_normal t n <> V3 0 0 0.
Proof.
  intros C A H E. apply H.
  assert (Z : forall v, dot n v = 0).
  { intros v. rewrite <- (normal_dot t n v C A), E. unfold dot; simpl. ring. }
  apply V3_eq; simpl;
  [specialize (Z (V3 1 0 0))|specialize (Z (V3 0 1 0))|specialize (Z (V3 0 0 1))]; unfold dot in Z; simpl in Z; lra.
Qed.
