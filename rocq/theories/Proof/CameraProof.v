(** Camera rays and the look-at transform. *)
From Coq Require Import Reals Lra Lia Psatz Nsatz.
From Coquelicot Require Import Rbar.
From Verif.Base Require Import RTac.
From Verif.Model Require Import Vec Matrix BBox Warp Camera.
From Verif.Spec Require Import LinAlgSpec FrameSpec CameraSpec.
From Verif.Proof Require Import VecLemmas LinAlg TransformProof FrameProof.
Open Scope R_scope.

Lemma half_fov_tan c : cam_ok c -> 0 < tan (fov c / 2 * (PI / 180)).
Proof.
  intros (_&[F1 F2]&_). apply tan_gt_0; pose proof PI_RGT_0; nra.
Qed.

Definition proj_inv (tn asp n f : R) : mat4 :=
  M4 (-2 * tn) 0 0 tn  0 (-2 * tn / asp) 0 (tn / asp)  0 0 0 1  0 0 (- (f - n) / (n * f)) (/ n).
Lemma persp_left cot asp a b : 0 < asp ->
  m4_mul (m4_mul (m4_scale (V3 (- (1 / 2)) (- (1 / 2) * asp) 1)) (m4_translate (V3 (- 1) (- 1 / asp) 0)))
         (M4 cot 0 0 0 0 cot 0 0 0 0 a b 0 0 1 0) =
  M4 (- (1/2) * cot) 0 (1 / 2) 0  0 (- (1/2) * asp * cot) (1 / 2) 0  0 0 a b  0 0 1 0.
Proof.
  intros A. unfold m4_scale, m4_translate, m4_mul.
  cbn [n0 n1 n2 n3 n4 n5 n6 n7 n8 n9 n10 n11 n12 n13 n14 n15 vx vy vz]. apply M4_eq; field; lra.
Qed.
Lemma persp_inverse tn asp n f : 0 < tn -> 0 < asp -> 0 < n < f ->
  m4_inv (M4 (- (1/2) * (1 / tn)) 0 (1 / 2) 0  0 (- (1/2) * asp * (1 / tn)) (1 / 2) 0
     0 0 (f * (1 / (f - n))) (- n * f * (1 / (f - n)))  0 0 1 0) = proj_inv tn asp n f.
Proof.
  intros T A [N F]. symmetry. apply inverse_unique. unfold m4_mul, proj_inv, m4_id.
  cbn [n0 n1 n2 n3 n4 n5 n6 n7 n8 n9 n10 n11 n12 n13 n14 n15]. apply M4_eq; field; repeat split; lra.
Qed.
Lemma proj_inv_point tn w h n f s t : 0 < w -> 0 < h -> 0 < n < f ->
  vdiv (head4 (m4_vec (proj_inv tn (w / h) n f) (V4_of3 (V3 s t 0) 1)))
       (ww (m4_vec (proj_inv tn (w / h) n f) (V4_of3 (V3 s t 0) 1))) =
  vscale (V3 ((1 - 2 * s) * tn) ((1 - 2 * t) * tn * (h / w)) 1) n.
Proof.
  intros W H [N F]. unfold proj_inv, m4_vec, V4_of3, vdiv, head4, vscale.
  cbn [n0 n1 n2 n3 n4 n5 n6 n7 n8 n9 n10 n11 n12 n13 n14 n15 vx vy vz wx wy wz ww].
  apply V3_eq; cbn [vx vy vz]; field; repeat split; lra.
Qed.
Lemma near_point c film : cam_ok c ->
  tf_point (sampleToCamera c) (V3 (x2 film * 1 / filmW c) (y2 film * 1 / filmH c) 0) =
  vscale (film_point c film) (cnear c).
Proof.
  intros H. pose proof (half_fov_tan c H) as T. destruct H as (N&_&W&Hh).
  unfold sampleToCamera, film_point. cbv zeta.
  assert (A : 0 < filmW c / filmH c) by (apply Rdiv_lt_0_compat; assumption).
  unfold persp_mat. cbv zeta. rewrite persp_left by assumption.
  unfold tf_inverse, tf_of. cbn [tmat tinv].
  rewrite (persp_inverse _ _ _ _ T A N). unfold tf_point. cbv zeta. cbn [tmat].
  rewrite !Rmult_1_r. apply proj_inv_point; assumption.
Qed.

Lemma scale_normalized v k : 0 < k -> normalized (vscale v k) = normalized v.
Proof.
  intros K. assert (E : norm (vscale v k) = k * norm v).
  { unfold norm, vscale; simpl.
    replace (vx v * k * (vx v * k) + vy v * k * (vy v * k) + vz v * k * (vz v * k)) with
      ((k * k) * (vx v * vx v + vy v * vy v + vz v * vz v)) by ring.
    rewrite sqrt_mult_alt by nra. rewrite sqrt_square by lra. reflexivity. }
  unfold normalized. rewrite E. destruct (Req_dec (norm v) 0) as [Z|Z].
  - pose proof (norm_zero v Z) as ->. simpl. unfold Rdiv. apply V3_eq; simpl; ring.
  - apply V3_eq; simpl; field; lra.
Qed.

Lemma film_point_nonzero c film : film_point c film <> V3 0 0 0.
Proof. intros E. apply (f_equal vz) in E. simpl in E. lra. Qed.

Lemma cam_dir_eq c film : cam_ok c -> cam_dir c film = normalized (film_point c film).
Proof. intros H. unfold cam_dir. rewrite near_point by assumption. apply scale_normalized. apply H. Qed.
Lemma cam_dir_unit c film : cam_ok c -> unit3 (cam_dir c film).
Proof. intros H. rewrite cam_dir_eq by assumption. apply normalized_unit, film_point_nonzero. Qed.
Lemma cam_dir_z c film : cam_ok c -> 0 < vz (cam_dir c film).
Proof.
  intros H. rewrite cam_dir_eq by assumption. unfold normalized; simpl.
  apply Rdiv_lt_0_compat; [lra|]. apply norm_pos, film_point_nonzero.
Qed.
(** dividing by the z component recovers the film point *)
Lemma cam_dir_film c film : cam_ok c -> vdiv (cam_dir c film) (vz (cam_dir c film)) = film_point c film.
Proof.
  intros H. rewrite cam_dir_eq by assumption. pose proof (norm_pos _ (film_point_nonzero c film)) as P.
  unfold normalized, vdiv. set (n := norm _) in *. clearbody n.
  assert (Z : vz (film_point c film) = 1) by reflexivity. destruct (film_point c film) as [a b d]; simpl in *. subst d.
  apply V3_eq; simpl; field; lra.
Qed.
Lemma film_point_inj c f g : cam_ok c -> film_point c f = film_point c g -> f = g.
Proof.
  intros H E. pose proof (half_fov_tan c H) as T. destruct H as (_&_&W&Hh). destruct f as [f1 f2], g as [g1 g2].
  unfold film_point in E; simpl in E. injection E as E1 E2.
  set (tn := tan _) in *. clearbody tn.
  assert (Q : 0 < filmH c / filmW c) by (apply Rdiv_lt_0_compat; assumption).
  apply Rmult_eq_reg_r in E1; [|lra]. apply Rmult_eq_reg_r in E2; [|lra]. apply Rmult_eq_reg_r in E2; [|lra].
  assert (F1 : f1 / filmW c = g1 / filmW c) by lra. assert (F2 : f2 / filmH c = g2 / filmH c) by lra.
  apply Rmult_eq_reg_r in F1; [|apply Rinv_neq_0_compat; lra]. apply Rmult_eq_reg_r in F2; [|apply Rinv_neq_0_compat; lra].
  subst. reflexivity.
Qed.

(** the focal point of a film position, camera space *)
Definition focal_point (c : persp) (film : vec2) : vec3 := vscale (film_point c film) (focalDist c).
Lemma focal_eq c film : cam_ok c -> vscale (cam_dir c film) (focalDist c / vz (cam_dir c film)) = focal_point c film.
Proof.
  intros H. unfold focal_point. rewrite <- (cam_dir_film c film H). pose proof (cam_dir_z c film H) as Z.
  revert Z. generalize (cam_dir c film). intros d Z. unfold vscale, vdiv. apply V3_eq; cbn [vx vy vz]; field; lra.
Qed.
Lemma lens_arg_nonzero c film app : cam_ok c -> 0 < focalDist c ->
  vsub (focal_point c film) (lens_point c app) <> V3 0 0 0.
Proof. intros H F E. apply (f_equal vz) in E. unfold vsub, focal_point, vscale, film_point, lens_point in E; simpl in E. lra. Qed.
Lemma lens_dir_eq c film app : cam_ok c ->
  lens_dir c film app = normalized (vsub (focal_point c film) (lens_point c app)).
Proof. intros H. unfold lens_dir. cbv zeta. rewrite focal_eq by assumption. reflexivity. Qed.

Lemma affine_point_line t p v k : affine (tmat t) ->
  tf_point t (vadd p (vscale v k)) = vadd (tf_point t p) (vscale (tf_vector t v) k).
Proof.
  intros A. rewrite !tf_point_weight, !weight_affine by assumption. destruct t as [m mi]. dm m.
  unfold vdiv, head4, m4_vec, V4_of3, tf_vector, m3_vec, topLeft, vadd, vscale. destruct A as (A1&A2&A3&A4). simpl in *. subst.
  apply V3_eq; cbn [vx vy vz]; field.
Qed.

Lemma ray_unit c film app : cam_ok c -> 0 < focalDist c -> rigid (camToWorld c) ->
  unit3 (dir (sampleRay c film app)).
Proof.
  intros H F [_ Rg]. unfold unit3. simpl. rewrite Rg. rewrite lens_dir_eq by assumption.
  apply normalized_unit, lens_arg_nonzero; assumption.
Qed.

(** every ray of one film position passes through its focal point, whatever the lens sample *)
Lemma ray_through_focus c film app : cam_ok c -> 0 < focalDist c -> affine (tmat (camToWorld c)) ->
  exists t, 0 < t /\ ray_at (sampleRay c film app) t = tf_point (camToWorld c) (focal_point c film).
Proof.
  intros H F A. exists (norm (vsub (focal_point c film) (lens_point c app))).
  pose proof (lens_arg_nonzero c film app H F) as N. split; [apply norm_pos, N|].
  unfold ray_at; simpl. rewrite <- affine_point_line by assumption. f_equal. rewrite lens_dir_eq by assumption.
  rewrite <- normalized_scale by assumption. apply V3_eq; simpl; ring.
Qed.

Lemma disk_point s : in_unit_square s -> sqrNorm2 (sqrToUniDisk s) = y2 s.
Proof.
  intros [_ [H _]]. unfold sqrNorm2, sqrToUniDisk; simpl. pose proof (sc_one (2 * PI * x2 s)) as P.
  pose proof (sqrt_sqrt _ H) as Q. set (r := sqrt _) in *. set (cc := cos _) in *. set (ss := sin _) in *. nra.
Qed.
Lemma lens_point_bound c app : in_unit_square app ->
  vz (lens_point c app) = 0 /\ sqrNorm (lens_point c app) <= aperture c * aperture c.
Proof.
  intros S. split; [reflexivity|]. pose proof (disk_point app S) as D. destruct S as [_ [S1 S2]].
  unfold lens_point, scale2, sqrNorm. cbv zeta. cbn [vx vy vz x2 y2]. unfold sqrNorm2 in D.
  set (p := sqrToUniDisk app) in *. clearbody p.
  assert (A : 0 <= aperture c * aperture c) by nra.
  match goal with |- ?l <= _ => replace l with (y2 app * (aperture c * aperture c)) by (rewrite <- D; ring) end. nra.
Qed.

(** pinhole: the lens is a point *)
Lemma pinhole_origin c film app : aperture c = 0 ->
  org (sampleRay c film app) = tf_point (camToWorld c) (V3 0 0 0).
Proof. intros E. simpl. f_equal. unfold lens_point, scale2; simpl. rewrite E. apply V3_eq; simpl; ring. Qed.
Lemma pinhole_dir c film app : cam_ok c -> 0 < focalDist c -> aperture c = 0 ->
  lens_dir c film app = cam_dir c film.
Proof.
  intros H F E. rewrite lens_dir_eq, cam_dir_eq by assumption.
  replace (vsub (focal_point c film) (lens_point c app)) with (vscale (film_point c film) (focalDist c)).
  - apply scale_normalized, F.
  - unfold focal_point, lens_point, scale2; simpl. rewrite E. apply V3_eq; simpl; ring.
Qed.
Lemma rigid_inj t v w : rigid t -> tf_vector t v = tf_vector t w -> v = w.
Proof.
  intros [_ Rg] E.
  assert (Z : sqrNorm (vsub v w) = 0).
  { rewrite <- dot_self, <- Rg.
    replace (tf_vector t (vsub v w)) with (vsub (tf_vector t v) (tf_vector t w)).
    - rewrite E. unfold dot, vsub; simpl. ring.
    - destruct t as [m mi]. dm m. vec. unfold tf_vector, m3_vec, topLeft, vsub; simpl. apply V3_eq; simpl; ring. }
  apply sqrNorm_zero in Z. vec. unfold vsub in Z; simpl in Z. injection Z; intros. apply V3_eq; simpl; lra.
Qed.
Lemma pinhole_inj c f g a b : cam_ok c -> 0 < focalDist c -> aperture c = 0 -> rigid (camToWorld c) ->
  dir (sampleRay c f a) = dir (sampleRay c g b) -> f = g.
Proof.
  intros H F E Rg D. simpl in D. apply rigid_inj in D; [|assumption]. rewrite !pinhole_dir in D by assumption.
  apply (film_point_inj c); [assumption|]. rewrite <- !cam_dir_film by assumption. rewrite D. reflexivity.
Qed.
(** the range of a pinhole ray is the slab between the near and the far plane *)
Lemma pinhole_range c film app : cam_ok c -> 0 < focalDist c -> aperture c = 0 ->
  exists tn tf, rnear (sampleRay c film app) = Finite tn /\ rfar (sampleRay c film app) = Finite tf /\ 0 < tn < tf /\
   vz (vscale (lens_dir c film app) tn) = cnear c /\ vz (vscale (lens_dir c film app) tf) = cfar c.
Proof.
  intros H F E. pose proof (cam_dir_z c film H) as Z. rewrite pinhole_dir by assumption.
  exists (cnear c * (1 / vz (cam_dir c film))), (cfar c * (1 / vz (cam_dir c film))).
  destruct H as ([N1 N2]&_). split; [reflexivity|]. split; [reflexivity|].
  assert (0 < 1 / vz (cam_dir c film)) by (apply Rdiv_lt_0_compat; lra).
  split; [split; nra|]. unfold vscale. cbn [vz]. revert Z. generalize (vz (cam_dir c film)). intros z Z. split; field; lra.
Qed.

(** ** look-at *)
Lemma cross_nonzero_r a b : cross a b <> V3 0 0 0 -> b <> V3 0 0 0.
Proof. intros H E. apply H. rewrite E. unfold cross; simpl. apply V3_eq; simpl; ring. Qed.
Lemma look_axes o t u : vsub t o <> vzero -> cross u (vsub t o) <> vzero ->
  orthonormal (look_x o t u) (look_y o t u) (look_z o t) /\
  cross (look_x o t u) (look_y o t u) = look_z o t.
Proof.
  intros N C. unfold vzero in *. pose proof (normalized_unit _ N) as Z. fold (look_z o t) in Z.
  assert (U : u <> V3 0 0 0).
  { intros E. apply C. rewrite E. unfold cross; simpl. apply V3_eq; simpl; ring. }
  assert (C' : cross (normalized u) (look_z o t) <> V3 0 0 0).
  { intros E. apply C. rewrite (normalized_scale u U), (normalized_scale _ N). fold (look_z o t).
    revert E. generalize (normalized u) (look_z o t) (norm u) (norm (vsub t o)). intros a b k l E.
    replace (cross (vscale a k) (vscale b l)) with (vscale (cross a b) (k * l)).
    - rewrite E. unfold vscale; simpl. apply V3_eq; simpl; ring.
    - unfold cross, vscale; simpl. apply V3_eq; simpl; ring. }
  pose proof (normalized_unit _ C') as X. fold (look_x o t u) in X.
  assert (XZ : dot (look_x o t u) (look_z o t) = 0).
  { pose proof (dot_cross_r (normalized u) (look_z o t)) as D. unfold look_x.
    revert D C'. generalize (cross (normalized u) (look_z o t)). intros w D C'. pose proof (norm_pos w C').
    rewrite (normalized_scale w C') in D. rewrite dot_scale_l in D. apply Rmult_integral in D. destruct D; [lra|assumption]. }
  assert (L : dot (cross (look_z o t) (look_x o t u)) (cross (look_z o t) (look_x o t u)) = 1).
  { rewrite lagrange, (dot_comm (look_z o t) (look_x o t u)), XZ. unfold unit3 in *. rewrite X, Z. ring. }
  assert (Y : look_y o t u = cross (look_z o t) (look_x o t u)) by (apply normalized_of_unit; exact L).
  split.
  - unfold orthonormal. rewrite Y. repeat split; try assumption.
    + rewrite dot_comm. apply dot_cross_r.
    + apply dot_cross_l.
  - rewrite Y. unfold unit3 in *. revert X Z XZ. generalize (look_x o t u) (look_z o t). intros a b X Z XZ.
    destruct a as [a1 a2 a3], b as [b1 b2 b3]. unfold dot, cross in *; simpl in *. apply V3_eq; simpl; nsatz.
Qed.

Lemma look_at_mat o t u : look_at o t u =
  M4 (vx (look_x o t u)) (vx (look_y o t u)) (vx (look_z o t)) (vx o)
     (vy (look_x o t u)) (vy (look_y o t u)) (vy (look_z o t)) (vy o)
     (vz (look_x o t u)) (vz (look_y o t u)) (vz (look_z o t)) (vz o) 0 0 0 1.
Proof. reflexivity. Qed.
Lemma look_at_rigid o t u : vsub t o <> vzero -> cross u (vsub t o) <> vzero -> rigid (tf_of (look_at o t u)).
Proof.
  intros N C. destruct (look_axes o t u N C) as [O _]. split; [rewrite look_at_mat; repeat split|].
  intros v w. pose proof (to_local_dot (Frame.Fr (look_x o t u) (look_y o t u) (look_z o t)) v w O) as T.
  rewrite <- T. f_equal; unfold tf_vector, Frame.toWorld, m3_vec, topLeft, vadd, vscale; simpl;
  rewrite look_at_mat; simpl; apply V3_eq; simpl; ring.
Qed.
Lemma look_at_det o t u : vsub t o <> vzero -> cross u (vsub t o) <> vzero -> m4_det (look_at o t u) = 1.
Proof.
  intros N C. destruct (look_axes o t u N C) as [(A&B&D&E&F&G) H]. rewrite look_at_mat. rewrite <- H in D |- *.
  revert A B D E. generalize (look_x o t u) (look_y o t u). intros x y A B D E. vec.
  unfold m4_det, cross, dot in *; simpl in *. lra.
Qed.
Lemma look_at_maps o t u : tf_vector (tf_of (look_at o t u)) (V3 0 0 1) = vdiv (vsub t o) (norm (vsub t o)) /\
  tf_point (tf_of (look_at o t u)) (V3 0 0 0) = o.
Proof.
  split.
  - unfold tf_vector, m3_vec, topLeft. simpl tmat. rewrite look_at_mat. fold (normalized (vsub t o)). fold (look_z o t).
    simpl. change (vdiv (vsub t o) (norm (vsub t o))) with (look_z o t). apply V3_eq; simpl; ring.
  - rewrite tf_point_weight. simpl tmat. rewrite weight_affine by (rewrite look_at_mat; repeat split).
    rewrite look_at_mat. unfold m4_vec, V4_of3, head4, vdiv; simpl. unfold V4_of3, m4_vec, vdiv, head4, Rdiv. rewrite Rinv_1. destruct o; simpl; apply V3_eq; simpl; ring.
Qed.
(** the image is upright: x is horizontal and y points to the side of the up vector *)
Lemma look_at_up o t u : vsub t o <> vzero -> cross u (vsub t o) <> vzero ->
  orthonormal (look_x o t u) (look_y o t u) (look_z o t) /\ cross (look_x o t u) (look_y o t u) = look_z o t /\
  dot (look_x o t u) u = 0 /\ 0 < dot (look_y o t u) u.
Proof.
  intros N C. destruct (look_axes o t u N C) as [O H]. split; [exact O|]. split; [exact H|].
  assert (U : u <> V3 0 0 0).
  { intros E. apply C. rewrite E. unfold cross, vzero; simpl. apply V3_eq; simpl; ring. }
  pose proof (norm_pos u U) as NU. pose proof (normalized_scale u U) as EU.
  assert (D : dot (look_x o t u) u = 0).
  { transitivity (dot (look_x o t u) (vscale (normalized u) (norm u))); [f_equal; exact EU|]. rewrite dot_scale_r.
    assert (W : cross (normalized u) (look_z o t) <> V3 0 0 0).
    { intros E. destruct O as (O1&_). unfold look_x in O1. rewrite E in O1.
      unfold normalized, unit3, dot in O1; simpl in O1. unfold Rdiv in O1. lra. }
    pose proof (dot_cross_l (normalized u) (look_z o t)) as L. unfold look_x.
    rewrite (normalized_scale _ W), dot_scale_l in L. pose proof (norm_pos _ W).
    apply Rmult_integral in L. destruct L as [L|L]; [lra|]. rewrite L. ring. }
  split; [exact D|].
  (* u = (u.y) y + (u.z) z, and x = normalised (u cross z) has y-part u.y *)
  destruct O as (O1&O2&O3&O4&O5&O6).
  assert (E : dot (cross (normalized u) (look_z o t)) (look_x o t u) = dot (look_y o t u) (normalized u)).
  { assert (Y : look_y o t u = cross (look_z o t) (look_x o t u)).
    { rewrite <- H. revert O1 O2 O3 O4 O5 O6. generalize (look_x o t u) (look_y o t u) (look_z o t). intros x y z.
      destruct x as [a1 a2 a3], y as [b1 b2 b3], z as [c1 c2 c3]. unfold unit3, dot, cross; simpl. intros. apply V3_eq; simpl; nsatz. }
    rewrite Y. generalize (look_x o t u) (look_z o t) (normalized u). intros x z w. vec. unfold dot, cross; simpl. ring. }
  assert (W : cross (normalized u) (look_z o t) <> V3 0 0 0).
  { intros W. unfold look_x in O1. rewrite W in O1. unfold normalized, unit3, dot in O1; simpl in O1. unfold Rdiv in O1. lra. }
  assert (P : 0 < dot (cross (normalized u) (look_z o t)) (look_x o t u)).
  { unfold look_x. rewrite (normalized_scale _ W) at 1. rewrite dot_scale_l. rewrite (normalized_unit _ W).
    pose proof (norm_pos _ W). lra. }
  replace (dot (look_y o t u) u) with (dot (look_y o t u) (vscale (normalized u) (norm u))) by (f_equal; symmetry; exact EU).
  rewrite dot_scale_r. rewrite <- E. apply Rmult_lt_0_compat; assumption.
Qed.
