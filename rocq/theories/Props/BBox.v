(** C28-C30, C74, C75: bounding boxes. *)
From Coq Require Import Reals List Lra Lia Permutation.
From Coquelicot Require Import Rbar.
From Verif.Base Require Import RTac.
From Verif.Model Require Import Vec BBox.
From Verif.Spec Require Import BBoxSpec.
From Verif.Proof Require Import VecLemmas BBoxProof.
Import ListNotations.
Open Scope R_scope.

(** C28: starting from the reset (empty) box or from the box of any point set *)
Theorem C28_expand_gives_smallest_box S b ps : smallest S b ->
  smallest (fun q => S q \/ In q ps) (fold_left ebox_expand ps b).
Proof. exact (smallest_fold ps S b). Qed.
Print Assumptions C28_expand_gives_smallest_box.
Theorem C28_from_empty ps : smallest (fun q => In q ps) (fold_left ebox_expand ps ebox_reset).
Proof.
  eapply smallest_ext; [|exact (smallest_fold ps _ _ smallest_reset)]. intros p; simpl; tauto.
Qed.
Print Assumptions C28_from_empty.
Theorem C28_order_independent ps qs : Permutation ps qs ->
  fold_left ebox_expand ps ebox_reset = fold_left ebox_expand qs ebox_reset.
Proof.
  intros P. eapply smallest_unique; [apply C28_from_empty|]. eapply smallest_ext; [|apply C28_from_empty].
  intros p. split; apply Permutation_in; [symmetry|]; exact P.
Qed.
Print Assumptions C28_order_independent.
Theorem C28_merge_gives_smallest_box S T a b : smallest S a -> smallest T b ->
  smallest (fun q => S q \/ T q) (ebox_merge a b) /\ smallest (fun q => S q \/ T q) (ebox_merge b a) /\
  smallest (fun q => S q \/ T q) (ebox_expand_box a b).
Proof.
  intros A B. split; [exact (smallest_merge S T a b A B)|]. split; [|exact (smallest_merge S T a b A B)].
  eapply smallest_ext; [|exact (smallest_merge T S b a B A)]. tauto.
Qed.
Print Assumptions C28_merge_gives_smallest_box.
Example C28_case : in_ebox (fold_left ebox_expand [V3 1 0 0; V3 0 2 0] ebox_reset) (V3 (1/2) 1 0) /\
  ~ in_ebox (fold_left ebox_expand [V3 1 0 0; V3 0 2 0] ebox_reset) (V3 2 1 0).
Proof.
  destruct (C28_from_empty [V3 1 0 0; V3 0 2 0]) as [H1 H2].
  pose proof (H1 (V3 1 0 0) (or_introl eq_refl)) as A. pose proof (H1 (V3 0 2 0) (or_intror (or_introl eq_refl))) as B.
  specialize (H2 (EB (EV 0 0 0) (EV 1 2 0))). set (b := fold_left _ _ _) in *. clearbody b.
  unfold in_ebox, within in *; cbn [vx vy vz emn emx ex ey ez] in *.
  destruct A as (A1&A2&A3&A4&A5&A6), B as (B1&B2&B3&B4&B5&B6). split.
  - repeat split; try assumption.
    + eapply Rbar_le_trans; [exact B1|simpl; lra].
    + eapply Rbar_le_trans; [|exact A2]; simpl; lra.
    + eapply Rbar_le_trans; [exact A3|simpl; lra].
    + eapply Rbar_le_trans; [|exact B4]; simpl; lra.
  - intros (_&C&_). destruct H2 as (_&D&_).
    + intros p [<-|[<-|[]]]; simpl; lra.
    + pose proof (Rbar_le_trans _ _ _ C D) as F. simpl in F. lra.
Qed.

(** C29: zero direction components are allowed, which the English statement excludes *)
Theorem C29_slab_parameters b r : proper_box b ->
  match bb_slab b r with
  | None => forall t, ~ in_box b (ray_at r t)
  | Some (n, f) => Rbar_le n f /\ forall t : R, (Rbar_le n t /\ Rbar_le t f) <-> in_box b (ray_at r t)
  end.
Proof. exact (slab_spec b r). Qed.
Print Assumptions C29_slab_parameters.
Theorem C29_intersect_exact b r (a : R) : proper_box b -> rnear r = a -> Rbar_le a (rfar r) ->
  bb_intersect b r = true <-> exists t : R, (Rbar_le a t /\ Rbar_le t (rfar r)) /\ in_box b (ray_at r t).
Proof. exact (intersect_iff b r a). Qed.
Print Assumptions C29_intersect_exact.
Example C29_case : bb_intersect (BB (V3 (-1) (-1) (-1)) (V3 1 1 1)) (Ray (V3 0 0 (-5)) (V3 0 0 1) 0 p_infty) = true /\
  bb_intersect (BB (V3 (-1) (-1) (-1)) (V3 1 1 1)) (Ray (V3 0 3 (-5)) (V3 0 0 1) 0 p_infty) = false.
Proof.
  split.
  - apply (intersect_iff _ _ 0); [unfold proper_box; simpl; lra|reflexivity|simpl; auto|].
    exists 5. simpl. unfold in_box; simpl. repeat split; lra.
  - apply Bool.not_true_is_false. intros H. apply (intersect_iff _ _ 0) in H; [|unfold proper_box; simpl; lra|reflexivity|simpl; auto].
    destruct H as [t [_ H]]. unfold in_box in H; simpl in H. lra.
Qed.

(** C30 *)
Theorem C30_children_cover b p : proper_box b ->
  (in_box b p <-> exists c, In c (split_into_eight b) /\ in_box c p).
Proof. intros P. split; [apply split_cover|]. intros [c [I H]]. exact (split_inside b c p P I H). Qed.
Print Assumptions C30_children_cover.
Theorem C30_children_disjoint b i j p : (i < 8)%nat -> (j < 8)%nat -> i <> j ->
  inside_box (nth i (split_into_eight b) b) p -> ~ inside_box (nth j (split_into_eight b) b) p.
Proof. exact (split_disjoint b i j p). Qed.
Print Assumptions C30_children_disjoint.
Theorem C30_volume b : length (split_into_eight b) = 8%nat /\
  fold_right Rplus 0 (map box_volume (split_into_eight b)) = box_volume b /\
  forall c, In c (split_into_eight b) -> box_volume c = box_volume b / 8.
Proof.
  split; [reflexivity|]. split; [exact (split_volume b)|]. intros c H. unfold split_into_eight, bb_extents in H. simpl in H.
  repeat (destruct H as [<-|H]); [..|destruct H]; unfold box_volume; simpl; field.
Qed.
Print Assumptions C30_volume.
Example C30_case : proper_box (BB (V3 0 0 0) (V3 2 4 8)) /\
  In (BB (V3 ((2-0)/2+0) ((4-0)/2+0) 0) (V3 2 4 ((8-0)/2+0))) (split_into_eight (BB (V3 0 0 0) (V3 2 4 8))).
Proof. split; [unfold proper_box; simpl; lra|]. simpl. tauto. Qed.

(** C74: [overlaps] answers "the other box covers this one", which is not overlap *)
Theorem C74_overlaps_means_covered_by b c : proper_box b ->
  (bb_overlaps b c <-> forall p, in_box b p -> in_box c p).
Proof. exact (overlaps_is_cover b c). Qed.
Print Assumptions C74_overlaps_means_covered_by.
Theorem C74_overlaps_refuted : exists b c, proper_box b /\ proper_box c /\ boxes_meet b c /\
  ~ bb_overlaps b c /\ ~ bb_overlaps c b.
Proof.
  exists (BB (V3 0 0 0) (V3 2 2 2)), (BB (V3 1 1 1) (V3 3 3 3)).
  unfold proper_box, boxes_meet, bb_overlaps, vle, vge, in_box; simpl.
  repeat split; try lra. exists (V3 1 1 1). simpl. lra.
Qed.
Print Assumptions C74_overlaps_refuted.
(** an answer of yes is never wrong *)
Theorem C74_overlaps_sound b c : proper_box b -> bb_overlaps b c -> boxes_meet b c.
Proof.
  intros P H. exists (bmn b). assert (I : in_box b (bmn b)) by (destruct P as (?&?&?); unfold in_box; lra).
  split; [exact I|]. exact (proj1 (overlaps_is_cover b c P) H _ I).
Qed.
Print Assumptions C74_overlaps_sound.
Example C74_case : proper_box (BB (V3 1 1 1) (V3 2 2 2)) /\ bb_overlaps (BB (V3 1 1 1) (V3 2 2 2)) (BB (V3 0 0 0) (V3 3 3 3)) /\
  ~ bb_overlaps (BB (V3 0 0 0) (V3 3 3 3)) (BB (V3 1 1 1) (V3 2 2 2)).
Proof. unfold proper_box, bb_overlaps, vle, vge; simpl. repeat split; lra. Qed.

(** C75: sampling a box ignores its minimum corner *)
Definition in_unit_cube (s : vec3) : Prop := 0 <= vx s <= 1 /\ 0 <= vy s <= 1 /\ 0 <= vz s <= 1.
Theorem C75_sample_refuted : exists b s, proper_box b /\ in_unit_cube s /\ ~ in_box b (bb_sample b s).
Proof.
  exists (BB (V3 5 5 5) (V3 6 6 6)), (V3 0 0 0). unfold proper_box, in_unit_cube, in_box, bb_sample; simpl. lra.
Qed.
Print Assumptions C75_sample_refuted.
Theorem C75_sample_axis_refuted : exists b, proper_box b /\ bmn b = V3 0 0 0 /\ bb_sample_y b 1 > vy (bmx b).
Proof. exists (BB (V3 0 0 0) (V3 6 1 1)). unfold proper_box, bb_sample_y; simpl. repeat split; lra. Qed.
Print Assumptions C75_sample_axis_refuted.
(** exact behaviour: the sample is in the box translated so that its minimum corner is the origin; the sampler is
    right exactly for boxes with the minimum corner at the origin, and local coordinates invert
    the corrected map *)
Theorem C75_sample_shifted b s : proper_box b -> in_unit_cube s -> in_box b (vadd (bb_sample b s) (bmn b)).
Proof.
  intros (X&Y&Z) ((A1&A2)&(B1&B2)&(D1&D2)). unfold in_box, bb_sample; simpl.
  repeat split; nra.
Qed.
Print Assumptions C75_sample_shifted.
Theorem C75_sample_right_iff b : proper_box b ->
  ((forall s, in_unit_cube s -> in_box b (bb_sample b s)) <-> bmn b = V3 0 0 0).
Proof.
  intros P. split.
  - intros H. pose proof (H (V3 0 0 0) ltac:(unfold in_unit_cube; simpl; lra)) as H0. pose proof (H (V3 1 1 1) ltac:(unfold in_unit_cube; simpl; lra)) as H1. destruct P as (X&Y&Z).
    unfold in_unit_cube, in_box, bb_sample in *; simpl in *. apply V3_eq; simpl; lra.
  - intros E s S. pose proof (C75_sample_shifted b s P S) as H. rewrite E in H.
    replace (bb_sample b s) with (vadd (bb_sample b s) (V3 0 0 0)); [exact H|]. apply V3_eq; simpl; ring.
Qed.
Print Assumptions C75_sample_right_iff.
(** the samplers of a single axis: along x the sample covers the extent of the box, along y and z it
    stays in the box exactly when the box is at least as long there as along x *)
Theorem C75_sample_axis b : proper_box b ->
  (forall p, vx (bmn b) <= p <= vx (bmx b) <-> exists t, 0 <= t <= 1 /\ p = vx (bmn b) + bb_sample_x b t) /\
  ((forall t, 0 <= t <= 1 -> vy (bmn b) <= vy (bmn b) + bb_sample_y b t <= vy (bmx b)) <-> vx (bmx b) - vx (bmn b) <= vy (bmx b) - vy (bmn b)) /\
  ((forall t, 0 <= t <= 1 -> vz (bmn b) <= vz (bmn b) + bb_sample_z b t <= vz (bmx b)) <-> vx (bmx b) - vx (bmn b) <= vz (bmx b) - vz (bmn b)).
Proof.
  intros (X & Y & Z). unfold bb_sample_x, bb_sample_y, bb_sample_z.
  assert (E : forall l h, l <= h -> ((forall t, 0 <= t <= 1 -> l <= l + (vx (bmx b) - vx (bmn b)) * t <= h) <-> vx (bmx b) - vx (bmn b) <= h - l)).
  { intros l h L. split; [intros H; specialize (H 1 ltac:(lra)); lra|]. intros H t T. nra. }
  split; [|split; apply E; assumption].
  intros p. split.
  - intros P. destruct (Req_dec (vx (bmn b)) (vx (bmx b))) as [Q|Q].
    + exists 0. lra.
    + exists ((p - vx (bmn b)) / (vx (bmx b) - vx (bmn b))). split; [|field; lra]. split.
      * apply Rmult_le_pos; [lra|left; apply Rinv_0_lt_compat; lra].
      * apply Rmult_le_reg_r with (vx (bmx b) - vx (bmn b)); [lra|]. unfold Rdiv. rewrite Rmult_assoc, Rinv_l by lra. lra.
  - intros (t & T & ->). nra.
Qed.
Print Assumptions C75_sample_axis.
Theorem C75_local_inverts b p : vx (bmn b) < vx (bmx b) -> vy (bmn b) < vy (bmx b) -> vz (bmn b) < vz (bmx b) ->
  vadd (bb_sample b (bb_local b p)) (bmn b) = p.
Proof. exact (local_sample b p). Qed.
Print Assumptions C75_local_inverts.
Example C75_case : proper_box (BB (V3 5 5 5) (V3 6 7 8)) /\ in_unit_cube (V3 (1/2) (1/2) 1).
Proof. unfold proper_box, in_unit_cube; simpl; lra. Qed.

(** C209: contains means the interior, contains_on the closed box *)
Theorem C209_contains b p : bb_contains b p <-> exists d, 0 < d /\ forall q, Rabs (vx q - vx p) < d -> Rabs (vy q - vy p) < d -> Rabs (vz q - vz p) < d -> in_box b q.
Proof.
  unfold bb_contains, vgt, vlt, in_box. split.
  - intros ((A1&A2&A3)&(B1&B2&B3)).
    set (d := Rmin (Rmin (Rmin (vx p - vx (bmn b)) (vx (bmx b) - vx p)) (Rmin (vy p - vy (bmn b)) (vy (bmx b) - vy p))) (Rmin (vz p - vz (bmn b)) (vz (bmx b) - vz p))).
    exists d. assert (D : 0 < d /\ d <= vx p - vx (bmn b) /\ d <= vx (bmx b) - vx p /\ d <= vy p - vy (bmn b) /\ d <= vy (bmx b) - vy p /\ d <= vz p - vz (bmn b) /\ d <= vz (bmx b) - vz p).
    { unfold d. unfold Rmin. repeat destruct (Rle_dec _ _); lra. }
    split; [apply D|]. intros q X Y Z. apply Rabs_def2 in X, Y, Z. lra.
  - intros (d&D&H). pose proof (H (V3 (vx p - d / 2) (vy p - d / 2) (vz p - d / 2))) as L. pose proof (H (V3 (vx p + d / 2) (vy p + d / 2) (vz p + d / 2))) as U. cbn in L, U.
    assert (E1 : forall x, Rabs (x - d / 2 - x) < d) by (intros x; apply Rabs_def1; lra). assert (E2 : forall x, Rabs (x + d / 2 - x) < d) by (intros x; apply Rabs_def1; lra).
    specialize (L (E1 _) (E1 _) (E1 _)). specialize (U (E2 _) (E2 _) (E2 _)). lra.
Qed.
Theorem C209_contains_on b p : bb_contains_on b p <-> in_box b p.
Proof. unfold bb_contains_on, vge, vle, in_box. lra. Qed.
(** the centre is the point about which the box is symmetric *)
Theorem C209_center b c : proper_box b -> (c = bb_center b <-> forall q, in_box b q -> in_box b (vsub (vscale c 2) q)).
Proof.
  intros (X&Y&Z). unfold in_box, bb_center. split.
  - intros -> q Q. cbn. lra.
  - intros H. pose proof (H (bmn b) ltac:(lra)) as L. pose proof (H (bmx b) ltac:(lra)) as U. cbn in L, U. destruct c as [x y z]. cbn in *. unfold vscale, vadd. cbn. f_equal; lra.
Qed.
(** the surface area is the sum of the areas of the six faces, each spanned by two edges *)
Theorem C209_area b : proper_box b -> let ex := V3 (vx (bmx b) - vx (bmn b)) 0 0 in let ey := V3 0 (vy (bmx b) - vy (bmn b)) 0 in let ez := V3 0 0 (vz (bmx b) - vz (bmn b)) in
  bb_area b = 2 * norm (cross ex ey) + 2 * norm (cross ey ez) + 2 * norm (cross ez ex).
Proof.
  intros (X&Y&Z). cbv zeta. unfold bb_area, norm, sqrNorm, cross. cbn.
  assert (S : forall a, 0 <= a -> sqrt (a * a) = a) by (intros a A; apply sqrt_square, A).
  set (dx := vx (bmx b) - vx (bmn b)). set (dy := vy (bmx b) - vy (bmn b)). set (dz := vz (bmx b) - vz (bmn b)).
  assert (0 <= dx /\ 0 <= dy /\ 0 <= dz) as (DX & DY & DZ) by (unfold dx, dy, dz; lra).
  repeat match goal with |- context [sqrt ?t] => first [replace t with ((dx * dy) * (dx * dy)) by ring | replace t with ((dy * dz) * (dy * dz)) by ring | replace t with ((dz * dx) * (dz * dx)) by ring]; rewrite S by (apply Rmult_le_pos; assumption) end. ring.
Qed.
(** a sample given as three numbers is the sample given as a vector *)
Theorem C209_sample3 b x y z : bb_sample3 b x y z = bb_sample b (V3 x y z) /\ (forall p, proper_box b -> in_box b p -> vx (bmn b) < vx (bmx b) -> vy (bmn b) < vy (bmx b) -> vz (bmn b) < vz (bmx b) -> in_unit_cube (bb_local b p)).
Proof.
  split; [reflexivity|]. intros p (X&Y&Z) (Px&Py&Pz) Lx Ly Lz. unfold in_unit_cube, bb_local. cbn.
  assert (G : forall a l h, l <= a <= h -> l < h -> 0 <= (a - l) / (h - l) <= 1).
  { intros a l h A L. split; [apply Rmult_le_pos; [lra|left; apply Rinv_0_lt_compat; lra]|]. apply Rmult_le_reg_r with (h - l); [lra|]. unfold Rdiv. rewrite Rmult_assoc, Rinv_l by lra. lra. }
  repeat split; apply G; assumption.
Qed.
Print Assumptions C209_contains.
Print Assumptions C209_contains_on.
Print Assumptions C209_center.
Print Assumptions C209_area.
Print Assumptions C209_sample3.
Example C209_case : let b := BB (V3 0 0 0) (V3 1 2 3) in
  bb_contains b (V3 (1 / 2) 1 1) /\ ~ bb_contains b (V3 1 1 1) /\ bb_contains_on b (V3 1 1 1) /\ bb_center b = V3 (1 / 2) 1 (3 / 2) /\ bb_area b = 22.
Proof.
  cbv zeta. unfold bb_contains, bb_contains_on, bb_center, bb_area, vgt, vlt, vge, vle, vscale, vadd, vsub. cbn.
  split; [lra|]. split; [lra|]. split; [lra|]. split; [f_equal; lra|lra].
Qed.
