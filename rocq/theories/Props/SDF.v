(** C48, C49, C117-C121: signed distance shapes and the sphere tracer. *)
From Coq Require Import Reals List Lra Lia Psatz Permutation.
From Coquelicot Require Import Rbar.
From Verif.Model Require Import Vec Frame BBox Integrators SDF.
From Verif.Spec Require Import LinAlgSpec BBoxSpec FrameSpec SDFSpec.
From Verif.Proof Require Import VecLemmas FrameProof BBoxProof SDFProof SDFCone SDFTrace.
Import ListNotations.
Open Scope R_scope.

(** * C48: every shape evaluates to the exact signed distance to its solid *)
Theorem C48_signed_distance s p : sensible s -> signed_distance (solid s) p (sdf_eval s p).
Proof. exact (shapes_exact s p). Qed.
Print Assumptions C48_signed_distance.
(** positive exactly outside, and Lipschitz with constant 1 *)
Theorem C48_sign s p : sensible s -> (0 < sdf_eval s p <-> ~ solid s p).
Proof.
  intros S. destruct (shapes_exact s p S) as [O I]. split; [intros H Y; destruct (I Y); lra|intros N; apply (O N)].
Qed.
Print Assumptions C48_sign.
Theorem C48_never_overestimates s p q : sensible s -> solid s q -> sdf_eval s p <= dist p q.
Proof. exact (eval_le s p q). Qed.
Print Assumptions C48_never_overestimates.
Theorem C48_box_surface a b p : sensible (SDFBox a b) ->
  (sdf_eval (SDFBox a b) p < 0 <-> vx b < vx p < vx a /\ vy b < vy p < vy a /\ vz b < vz p < vz a) /\
  (sdf_eval (SDFBox a b) p <= 0 <-> vx b <= vx p <= vx a /\ vy b <= vy p <= vy a /\ vz b <= vz p <= vz a).
Proof.
  intros S. destruct (shapes_exact _ p S) as [O I]. set (d := sdf_eval (SDFBox a b) p) in *.
  assert (In0 : d <= 0 <-> solid (SDFBox a b) p).
  { split; [|intros Y; apply (I Y)]. intros L. destruct (Classical_Prop.classic (solid (SDFBox a b) p)) as [|N]; [assumption|destruct (O N); lra]. }
  split; [|exact In0]. split.
  - intros L. destruct (I (proj1 In0 (Rlt_le _ _ L))) as (_&B&_). set (e := - d / 2).
    assert (M : forall v, norm v = 1 -> solid (SDFBox a b) (vadd p (vscale v e))).
    { intros v V. apply B. rewrite dist_sym, (dist_base p v e V), Rabs_pos_eq by (unfold e; lra). unfold e. lra. }
    assert (Nx : forall x y z, x * x + y * y + z * z = 1 -> norm (V3 x y z) = 1) by (intros x y z E; unfold norm; cbn [vx vy vz]; rewrite E; apply sqrt_1).
    pose proof (M _ (Nx 1 0 0 ltac:(ring))) as A1. pose proof (M _ (Nx (-1) 0 0 ltac:(ring))) as A2. pose proof (M _ (Nx 0 1 0 ltac:(ring))) as A3.
    pose proof (M _ (Nx 0 (-1) 0 ltac:(ring))) as A4. pose proof (M _ (Nx 0 0 1 ltac:(ring))) as A5. pose proof (M _ (Nx 0 0 (-1) ltac:(ring))) as A6.
    cbn [solid vx vy vz vadd vscale] in *. unfold e in *. lra.
  - intros (X&Y&Z). assert (Q : solid (SDFBox a b) p) by (cbn; lra). destruct (I Q) as (L&_&E).
    destruct L as [L|L]; [exact L|exfalso]. rewrite L in E.
    set (m := Rmin (Rmin (Rmin (vx p - vx b) (vx a - vx p)) (Rmin (vy p - vy b) (vy a - vy p))) (Rmin (vz p - vz b) (vz a - vz p))).
    assert (M : 0 < m) by (unfold m; repeat apply Rmin_glb_lt; lra).
    assert (ML : m <= vx p - vx b /\ m <= vx a - vx p /\ m <= vy p - vy b /\ m <= vy a - vy p /\ m <= vz p - vz b /\ m <= vz a - vz p).
    { unfold m, Rmin. repeat destruct (Rle_dec _ _); lra. }
    destruct (E m M) as (q&N&D). apply N. rewrite dist_norm in D. assert (D' : norm (vsub p q) <= m) by lra.
    destruct (comp_le _ _ D') as (Cx&Cy&Cz). cbn [vx vy vz vsub] in *. cbn [solid]. lra.
Qed.
Print Assumptions C48_box_surface.
(** a unit cube, from outside and from its centre; a cylinder seen from the side *)
Example C48_case : sdf_eval (SDFBox (V3 1 1 1) (V3 (-1) (-1) (-1))) (V3 4 5 0) = 5 /\
  sdf_eval (SDFBox (V3 1 1 1) (V3 (-1) (-1) (-1))) (V3 0 0 0) = -1 /\
  sdf_eval (SDFCylinder (V3 0 2 0) (V3 0 0 0) 1) (V3 3 1 0) = 2 /\ sensible (SDFCylinder (V3 0 2 0) (V3 0 0 0) 1).
Proof.
  assert (S : sensible (SDFBox (V3 1 1 1) (V3 (-1) (-1) (-1)))) by (cbn; lra).
  assert (SC : sensible (SDFCylinder (V3 0 2 0) (V3 0 0 0) 1)) by (split; [intros E; injection E; lra|lra]).
  split; [|split; [|split; [|exact SC]]].
  - cbn [sdf_eval]. unfold box_eval, vmaxc, pick_gt. cbn [vx vy vz vsub vabs vdiv vadd].
    replace (4 - (1 + -1) / 2) with 4 by field. replace (5 - (1 + -1) / 2) with 5 by field. replace (0 - (1 + -1) / 2) with 0 by field.
    rewrite (Rabs_pos_eq 4), (Rabs_pos_eq 5), Rabs_R0 by lra.
    destruct (Rgt_dec _ 0); [|lra]. destruct (Rgt_dec _ 0); [|lra]. destruct (Rgt_dec _ 0); [lra|].
    unfold norm. cbn [vx vy vz].
    replace ((4 - (1 - -1) / 2) * (4 - (1 - -1) / 2) + (5 - (1 - -1) / 2) * (5 - (1 - -1) / 2) + 0 * 0) with (5 * 5) by field.
    rewrite sqrt_square by lra. rewrite Rmin_right; [lra|]. eapply Rle_trans; [|apply Rmax_l]. lra.
  - cbn [sdf_eval]. unfold box_eval, vmaxc, pick_gt. cbn [vx vy vz vsub vabs vdiv vadd].
    replace (0 - (1 + -1) / 2) with 0 by field. rewrite Rabs_R0. destruct (Rgt_dec _ 0); [lra|].
    unfold norm. cbn [vx vy vz]. replace (0 * 0 + 0 * 0 + 0 * 0) with 0 by ring. replace (0 - (1 - -1) / 2) with (-1) by field.
    rewrite sqrt_0, (Rmax_left (-1) (-1)), (Rmax_left (-1) (-1)), Rmin_left by lra. lra.
  - rewrite cylinder_is_cone by apply SC. cbn [sdf_eval]. unfold cone_eval, dot, clamp. cbn [vx vy vz vsub].
    set (t := (_ + _ + _) / _). assert (T : t = 1 / 2) by (unfold t; field). clearbody t. subst t.
    set (x := sqrt _). assert (X : x = 3).
    { unfold x. replace (_ - _) with (3 * 3) by field. apply sqrt_square. lra. } clearbody x. subst x.
    repeat destruct (Rlt_dec _ _); try lra. destruct (Rgt_dec _ _); [lra|]. rewrite (Rmax_right 0 (3 - 1)) by lra.
    replace (1 / 2 - 1 / 2) with 0 by field. rewrite Rabs_R0.
    match goal with |- 1 * sqrt (Rmin ?a ?b) = 2 => assert (A : 4 <= a) by lra; assert (B : b = 2 * 2) by field; rewrite B end.
    rewrite Rmin_right by lra. rewrite sqrt_square by lra. ring.
Qed.

(** * C49: sphere tracing *)
(** the hit is on the tolerance band of the shape it names, and nothing of the scene that lies within the scene box was passed *)
Theorem C49_never_passes_a_surface l r h : Forall sensible l -> norm (dir r) = 1 -> sdf_intersect l r = Some h ->
  exists b s q, finite_box (sdf_build l) = Some b /\ Epsilon <= h_t h /\
    (forall t, Epsilon <= t < h_t h -> between b (ray_at r t) -> ~ in_scene l (ray_at r t)) /\
    nth_error l (h_shape h) = Some s /\ solid s q /\ dist (ray_at r (h_t h)) q <= Epsilon.
Proof.
  intros S U H. destruct (intersect_safe l r h S U H) as (b&E&A&B&s&q&C). exists b, s, q. tauto.
Qed.
Print Assumptions C49_never_passes_a_surface.
(** scenes whose boxes are right (spheres, C117), and scenes of one shape with corners in either order *)
Theorem C49_first_surface l r h : Forall sensible l -> norm (dir r) = 1 ->
  (Forall boxed l \/ exists s, l = [s] /\ forall q, solid s q -> between (sdf_bbox s) q) ->
  sdf_intersect l r = Some h -> forall t, Epsilon <= t < h_t h -> ~ in_scene l (ray_at r t).
Proof.
  intros S U B H t T Q. destruct (intersect_safe l r h S U H) as (b&E&_&A&_). apply (A t T); [|exact Q].
  destruct B as [B|(s&->&B)]; [apply (boxed_between l b B E _ Q)|].
  rewrite build_one in E. injection E as <-. destruct Q as (s'&[<-|[]]&Q). apply B, Q.
Qed.
Print Assumptions C49_first_surface.
(** a surface within SDF_STEPS * Epsilon along the ray is always found *)
Theorem C49_finds_near_surfaces l r t0 : Forall sensible l -> norm (dir r) = 1 ->
  (Forall boxed l \/ exists s, l = [s] /\ forall q, solid s q -> between (sdf_bbox s) q) ->
  in_scene l (ray_at r t0) -> Epsilon <= t0 <= INR SDF_STEPS * Epsilon -> exists h, sdf_intersect l r = Some h /\ h_t h <= t0.
Proof.
  intros S U B Q T.
  destruct B as [B|(s&->&B)].
  - destruct (build_some l) as (b&_&E&_); [intros ->; destruct Q as (s&[]&_)|].
    apply (intersect_found l r t0 b S U E Q (boxed_between l b B E _ Q) T).
  - apply (intersect_found [s] r t0 (sdf_bbox s) S U (build_one s) Q); [|exact T]. destruct Q as (s'&[<-|[]]&Q). apply B, Q.
Qed.
Print Assumptions C49_finds_near_surfaces.
Example C49_case : let r := Ray (V3 0 0 0) (V3 1 0 0) (Finite 0) p_infty in
  exists h, sdf_intersect [SDFSphere (V3 2 0 0) 1; SDFSphere (V3 0 5 0) 1] r = Some h /\ 99 / 100 <= h_t h <= 1.
Proof.
  intros r. set (l := [SDFSphere (V3 2 0 0) 1; SDFSphere (V3 0 5 0) 1]).
  assert (S : Forall sensible l) by (repeat constructor; cbn; lra).
  assert (B : Forall boxed l) by (constructor; [apply sphere_boxed|constructor; [apply sphere_boxed|constructor]]).
  assert (U : norm (dir r) = 1) by (unfold norm; cbn [dir r vx vy vz]; replace (1 * 1 + 0 * 0 + 0 * 0) with 1 by ring; apply sqrt_1).
  destruct (C49_finds_near_surfaces l r 1 S U (or_introl B)) as (h&H&L).
  - exists (SDFSphere (V3 2 0 0) 1). split; [left; reflexivity|]. cbn [solid]. apply dist_le; [lra|]. unfold sq, ray_at, r. cbn [org dir vx vy vz vadd vscale]. lra.
  - unfold SDF_STEPS, Epsilon. rewrite INR_IZR_INZ. change (Z.of_nat 2000) with 2000%Z. lra.
  - exists h. split; [exact H|]. split; [|exact L].
    destruct (C49_never_passes_a_surface l r h S U H) as (b&s&q&_&E&_&N&Q&D). unfold Epsilon in *.
    assert (X : 1 - h_t h <= 1 / 1000 \/ 4 - h_t h <= 1 / 1000).
    { pose proof (C48_never_overestimates s (ray_at r (h_t h)) q) as O.
      assert (I : In s l) by (eapply nth_error_In, N). rewrite Forall_forall in S. specialize (O (S s I) Q).
      assert (O' : sdf_eval s (ray_at r (h_t h)) <= 1 / 1000) by lra. clear O.
      destruct I as [<-|[<-|[]]]; cbn [sdf_eval] in O'; unfold sphere_eval, ray_at, r in O'; cbn [org dir vx vy vz vadd vscale vsub] in O'.
      - left. match type of O' with norm ?v - 1 <= _ => assert (K : norm v <= 1001 / 1000) by lra end.
        destruct (comp_le _ _ K) as (K1&_). cbn [vx vadd vsub vscale] in K1. lra.
      - exfalso. match type of O' with norm ?v - 1 <= _ => assert (K : norm v <= 1001 / 1000) by lra end.
        destruct (comp_le _ _ K) as (_&K1&_). cbn [vy vadd vsub vscale] in K1. lra. }
    lra.
Qed.

Ltac rbar_dec := repeat match goal with |- context [Rbar_lt_dec ?a ?b] =>
  lazymatch a with context [Rbar_lt_dec] => fail | _ => idtac end; lazymatch b with context [Rbar_lt_dec] => fail | _ => idtac end;
  destruct (Rbar_lt_dec a b) as [?L|?L]; cbn [Rbar_lt] in L; try (exfalso; first [lra|tauto]); clear L end.
(** mixing shapes whose boxes have their corners in different order: the near face of a box is skipped *)
Theorem C49_mixed_scenes_refuted : exists l r h t, Forall sensible l /\ norm (dir r) = 1 /\ sdf_intersect l r = Some h /\
  Epsilon <= t < h_t h - 1 /\ solid (SDFBox (V3 12 1 1) (V3 10 (-1) (-1))) (ray_at r t) /\ In (SDFBox (V3 12 1 1) (V3 10 (-1) (-1))) l.
Proof.
  set (bx := SDFBox (V3 12 1 1) (V3 10 (-1) (-1))). set (l := [SDFSphere (V3 0 0 0) 1; bx]).
  set (r := Ray (V3 20 0 0) (V3 (-1) 0 0) (Finite 0) p_infty).
  assert (F : finite_box (sdf_build l) = Some (BB (V3 (-1) (-1) (-1)) (V3 10 1 1))).
  { unfold sdf_build, l, bx. cbn [fold_left]. unfold ebox_expand_box, ebox_reset, emin, emax, emin1, emax1, ev.
    cbn [sdf_bbox emn emx ex ey ez bmn bmx vx vy vz vadd vsub V3c]. rbar_dec. cbn [finite_box].
    f_equal. f_equal; apply V3_eq; cbn [vx vy vz]; ring. }
  assert (G : bb_range (BB (V3 (-1) (-1) (-1)) (V3 10 1 1)) r = (Finite 10, Finite 21)).
  { unfold bb_range, r. cbn [org dir vx vy vz bmn bmx]. unfold range_step at 3. cbn [fst snd].
    destruct (Req_EM_T (-1) 0); [lra|]. replace ((-1 - 20) * (1 / -1)) with 21 by field. replace ((10 - 20) * (1 / -1)) with 10 by field.
    destruct (Rgt_dec 21 10); [|lra]. unfold emax1, emin1. rbar_dec.
    destruct (Rbar_le_dec (Finite 10) (Finite 21)) as [L|L]; [|exfalso; apply L; cbn; lra].
    assert (K : forall acc, range_step 0 (-1) 1 0 (true, acc) = (true, acc)).
    { intros acc. unfold range_step. cbn [fst snd]. destruct (Req_EM_T 0 0); [|lra]. destruct (Rlt_dec 0 (-1)); [lra|]. destruct (Rgt_dec 0 1); [lra|]. reflexivity. }
    rewrite !K. reflexivity. }
  assert (H : exists h, sdf_intersect l r = Some h /\ h_t h = 10).
  { unfold sdf_intersect. rewrite F, G. unfold sd_start. destruct (Rlt_dec 10 Epsilon) as [L|L]; [unfold Epsilon in L; lra|clear L].
    assert (SS : exists n, SDF_STEPS = S n) by (exists (pred SDF_STEPS); reflexivity). destruct SS as (n&->). cbn [sd_march]. destruct (Rbar_le_dec (Finite 10) (Finite 21)) as [L|L]; [|exfalso; apply L; cbn; lra].
    destruct (sd_evaluate_some l (ray_at r 10) ltac:(discriminate)) as (m&i&E&NS). rewrite E.
    assert (M : m <= 0).
    { eapply Rle_trans; [apply (nearest_in l _ m i bx NS); right; left; reflexivity|].
      apply C48_box_surface; [cbn; lra|]. unfold ray_at, r. cbn [org dir vx vy vz vadd vscale]. lra. }
    destruct (Rle_dec m Epsilon) as [L'|L']; [|unfold Epsilon in L'; lra]. eexists. split; [reflexivity|reflexivity]. }
  destruct H as (h&H&T). exists l, r, h, 8. split; [repeat constructor; cbn; lra|].
  split; [unfold norm; cbn [dir r vx vy vz]; replace (-1 * -1 + 0 * 0 + 0 * 0) with 1 by ring; apply sqrt_1|].
  split; [exact H|]. split; [rewrite T; unfold Epsilon; lra|]. split; [|right; left; reflexivity].
  unfold ray_at, r, bx. cbn [solid org dir vx vy vz vadd vscale]. lra.
Qed.
Print Assumptions C49_mixed_scenes_refuted.

(** a ray gliding along a plane runs out of steps before it reaches the sphere in front of it *)
Theorem C49_complete_refuted : exists l r t, Forall sensible l /\ norm (dir r) = 1 /\ Epsilon <= t <= 100 /\
  in_scene l (ray_at r t) /\ between (sdf_bbox (SDFPlane (V3 0 0 0) (V3 0 1 0))) (ray_at r t) /\ sdf_intersect l r = None.
Proof.
  set (pl := SDFPlane (V3 0 0 0) (V3 0 1 0)). set (sp := SDFSphere (V3 100 1 0) 2). set (l := [pl; sp]).
  set (r := Ray (V3 0 (11 / 10000) 0) (V3 1 0 0) (Finite 0) p_infty).
  exists l, r, 100. split; [repeat constructor; cbn; unfold unit3, dot; cbn; lra|].
  split; [unfold norm; cbn [dir r vx vy vz]; replace (1 * 1 + 0 * 0 + 0 * 0) with 1 by ring; apply sqrt_1|].
  split; [unfold Epsilon; lra|].
  assert (BT : forall t, 0 <= t <= 100 -> in_box (sdf_bbox pl) (ray_at r t)).
  { intros t T. unfold in_box, ray_at, r, pl. cbn [sdf_bbox bmn bmx org dir vx vy vz vadd vsub vscale V3c]. lra. }
  split; [|split].
  - exists sp. split; [right; left; reflexivity|]. unfold sp. cbn [solid]. apply dist_le; [lra|]. unfold sq, ray_at, r. cbn [org dir vx vy vz vadd vscale]. lra.
  - apply in_box_between, BT. lra.
  - unfold sdf_intersect. destruct (build_some l ltac:(discriminate)) as (b&_&F&_). rewrite F.
    pose proof (bb_range_in b r 1 (in_box_between _ _ (build_covers l b pl _ F ltac:(left; reflexivity) (BT 1 ltac:(lra))))) as (G&_).
    destruct (bb_range b r) as [near far]. cbn [fst] in G.
    pose proof (start_le near 1 ltac:(unfold Epsilon; lra) G) as S1. pose proof (start_ge near) as S2.
    assert (K : forall n d, 0 <= d -> d + INR n * (11 / 10000) <= 10 -> sd_march l r far n d = None).
    { induction n as [|n IH]; intros d D0 D1; [reflexivity|]. rewrite S_INR in D1. pose proof (pos_INR n). cbn [sd_march].
      destruct (Rbar_le_dec (Finite d) far); [|reflexivity].
      assert (E : sd_evaluate l (ray_at r d) = Some (11 / 10000, O)).
      { unfold sd_evaluate, l. cbn [sd_fold]. assert (Ep : sdf_eval pl (ray_at r d) = 11 / 10000).
        { unfold pl. cbn [sdf_eval]. unfold plane_eval, dot, ray_at, r. cbn [org dir vx vy vz vadd vsub vscale].
          replace (_ + _ + _) with (11 / 10000) by ring. apply Rabs_pos_eq. lra. }
        rewrite Ep. destruct (Rgt_dec (11 / 10000) (sdf_eval sp (ray_at r d))) as [Q|Q]; [exfalso|reflexivity].
        unfold sp in Q. cbn [sdf_eval] in Q. unfold sphere_eval in Q.
        match type of Q with _ > norm ?v - 2 => assert (K : norm v <= 3) by lra end.
        destruct (comp_le _ _ K) as (K1&_). unfold ray_at, r in K1. cbn [org dir vx vy vz vadd vsub vscale] in K1. lra. }
      rewrite E. destruct (Rle_dec (11 / 10000) Epsilon) as [Q|Q]; [unfold Epsilon in Q; lra|]. apply IH; lra. }
    apply K; [unfold Epsilon in S2; lra|]. unfold SDF_STEPS. rewrite INR_IZR_INZ. change (Z.of_nat 2000) with 2000%Z. lra.
Qed.
Print Assumptions C49_complete_refuted.

(** * C117: bounding boxes of distance shapes *)
Theorem C117_sphere_box c r q : dist q c <= r -> in_box (sdf_bbox (SDFSphere c r)) q.
Proof. intros H. exact (sphere_boxed c r q H). Qed.
Print Assumptions C117_sphere_box.
(** the other four: exactly the degenerate shapes lie in their boxes, planes never do *)
Theorem C117_boxes_refuted :
  (forall a b, sensible (SDFBox a b) -> (boxed (SDFBox a b) <-> a = b)) /\
  (forall a b r, sensible (SDFCylinder a b r) -> (boxed (SDFCylinder a b r) <-> (r = 0 /\ below a b))) /\
  (forall a b r1 r2, sensible (SDFCone a b r1 r2) -> (boxed (SDFCone a b r1 r2) <-> (r1 = 0 /\ r2 = 0 /\ below a b))) /\
  (forall c n, sensible (SDFPlane c n) -> ~ boxed (SDFPlane c n)).
Proof. split; [exact box_boxed|]. split; [exact cylinder_boxed|]. split; [exact cone_boxed|exact plane_boxed]. Qed.
Print Assumptions C117_boxes_refuted.
(** read with the corners in either order, boxes always and cylinders and cones given from the larger to the smaller end point are covered *)
Theorem C117_either_order :
  (forall a b q, sensible (SDFBox a b) -> solid (SDFBox a b) q -> between (sdf_bbox (SDFBox a b)) q) /\
  (forall a b r q, sensible (SDFCylinder a b r) -> below b a -> solid (SDFCylinder a b r) q -> between (sdf_bbox (SDFCylinder a b r)) q) /\
  (forall a b r1 r2 q, sensible (SDFCone a b r1 r2) -> below b a -> solid (SDFCone a b r1 r2) q -> between (sdf_bbox (SDFCone a b r1 r2)) q).
Proof.
  split; [exact box_between|]. split; [|exact cone_between].
  intros a b r q (AB&H) L Q. rewrite cyl_bbox. apply cone_between; [exact (conj AB (conj H H))|exact L|apply cyl_solid, Q].
Qed.
Print Assumptions C117_either_order.
Example C117_case : sensible (SDFBox (V3 7 14 7) (V3 (-7) 0 (-7))) /\ ~ boxed (SDFBox (V3 7 14 7) (V3 (-7) 0 (-7))) /\
  sensible (SDFCylinder (V3 1 3 1) (V3 0 0 0) 2) /\ below (V3 0 0 0) (V3 1 3 1).
Proof.
  assert (S : sensible (SDFBox (V3 7 14 7) (V3 (-7) 0 (-7)))) by (cbn; lra).
  split; [exact S|]. split; [intros B; apply (proj1 C117_boxes_refuted) in B; [injection B; lra|exact S]|].
  split; [split; [intros E; injection E; lra|lra]|unfold below; cbn; lra].
Qed.

(** * C118: the scene distance is the distance to the nearest shape *)
Theorem C118_nearest l p : match sd_evaluate l p with Some (m, i) => nearest_shape l p m i | None => l = [] end.
Proof. exact (sd_evaluate_spec l p). Qed.
Print Assumptions C118_nearest.
Theorem C118_order_independent l l' p : Permutation l l' -> sd_val l p = sd_val l' p.
Proof.
  intros P. unfold sd_val. pose proof (sd_evaluate_spec l p) as A. pose proof (sd_evaluate_spec l' p) as B.
  destruct (sd_evaluate l p) as [[m i]|], (sd_evaluate l' p) as [[m' i']|]; cbn [best] in *; try reflexivity.
  - exact (nearest_perm l l' p m i m' i' P A B).
  - subst l'. apply Permutation_sym, Permutation_nil in P. subst l. destruct (proj1 A) as (s&N&_). destruct i; discriminate.
  - subst l. apply Permutation_nil in P. subst l'. destruct (proj1 B) as (s&N&_). destruct i'; discriminate.
Qed.
Print Assumptions C118_order_independent.
(** outside all shapes it is the distance to the union, inside it is not positive *)
Theorem C118_union_distance l p m i : Forall sensible l -> sd_evaluate l p = Some (m, i) ->
  (in_scene l p -> m <= 0) /\
  (~ in_scene l p -> 0 < m /\ (forall q, in_scene l q -> m <= dist p q) /\ exists q, in_scene l q /\ dist p q = m).
Proof.
  intros S E. pose proof (sd_evaluate_spec l p) as B. rewrite E in B. cbn [best] in B. rewrite Forall_forall in S. split.
  - intros (s&I&Q). pose proof (nearest_in l p m i s B I). pose proof (eval_le s p p (S s I) Q). rewrite dist_self in *. lra.
  - intros N. destruct (proj1 B) as (s&Ns&Es). assert (I : In s l) by (eapply nth_error_In, Ns).
    assert (NS : ~ solid s p) by (intros Q; apply N; exists s; auto).
    destruct (proj1 (shapes_exact s p (S s I)) NS) as (P&_&q&Q&D). rewrite Es in *.
    split; [exact P|]. split; [|exists q; split; [exists s; auto|exact D]].
    intros q' (s'&I'&Q'). pose proof (nearest_in l p m i s' B I'). pose proof (eval_le s' p q' (S s' I') Q'). lra.
Qed.
Print Assumptions C118_union_distance.
Example C118_case : sd_evaluate [SDFPlane (V3 0 0 0) (V3 0 1 0); SDFPlane (V3 0 5 0) (V3 0 1 0); SDFPlane (V3 0 0 0) (V3 0 1 0)] (V3 0 4 0) = Some (1, 1%nat).
Proof.
  unfold sd_evaluate. cbn [sd_fold sdf_eval]. unfold plane_eval, dot. cbn [vx vy vz vsub].
  replace (0 * (0 - 0) + 1 * (4 - 0) + 0 * (0 - 0)) with 4 by ring. replace (0 * (0 - 0) + 1 * (4 - 5) + 0 * (0 - 0)) with (-1) by ring.
  rewrite (Rabs_pos_eq 4), (Rabs_left (-1)) by lra. destruct (Rgt_dec 4 (- -1)); [|lra]. destruct (Rgt_dec (- -1) 4); [lra|]. f_equal. f_equal. ring.
Qed.

(** * C119: the intersection record *)
Theorem C119_hit_record l r h : sdf_intersect l r = Some h ->
  orthonormal (fs (h_g h)) (ft (h_g h)) (fn (h_g h)) /\ h_s h = h_g h /\
  h_p h = vadd (ray_at r (h_t h)) (vscale (fn (h_g h)) Epsilon) /\ dist (h_p h) (ray_at r (h_t h)) = Epsilon.
Proof.
  intros H. destruct (intersect_normal l r h H) as (G&S&P).
  pose proof (sd_normal_unit l (ray_at r (h_t h))) as U. destruct (frame_orthonormal _ U) as (O&_&N). rewrite <- G in O, N.
  split; [exact O|]. split; [exact S|]. rewrite N. split; [exact P|]. rewrite P.
  rewrite (dist_base _ _ _ (unit_norm _ U)). apply Rabs_pos_eq. unfold Epsilon. lra.
Qed.
Print Assumptions C119_hit_record.
(** the normal of a sphere points away from its centre *)
Theorem C119_sphere_outward c rad r h : sdf_intersect [SDFSphere c rad] r = Some h -> ray_at r (h_t h) <> c ->
  0 < dot (fn (h_g h)) (vsub (ray_at r (h_t h)) c).
Proof.
  intros H N. destruct (intersect_normal _ r h H) as (G&_&_). rewrite G.
  pose proof (sd_normal_unit [SDFSphere c rad] (ray_at r (h_t h))) as U. destruct (frame_orthonormal _ U) as (_&_&E). rewrite E.
  apply sphere_normal_outward, N.
Qed.
Print Assumptions C119_sphere_outward.
(** on top of a plane or of the middle of a box face the normal is the direction away from it *)
Theorem C119_plane_normal c n p : unit3 n -> Epsilon < dot (vsub p c) n -> sd_normal [SDFPlane c n] p = n.
Proof.
  intros U H. pose proof Eps_pos as EP. pose proof (unit_norm n U) as N1. assert (NL : norm n <= 1) by lra. destruct (comp_le n 1 NL) as (Cx&Cy&Cz).
  assert (K : forall e k, dot e n = Epsilon * k -> -1 <= k <= 1 ->
    sd_val [SDFPlane c n] (vadd p e) - sd_val [SDFPlane c n] (vsub p e) = 2 * Epsilon * k).
  { intros e k D L. rewrite !sd_val_one. cbn [sdf_eval]. unfold plane_eval.
    replace (vsub (vadd p e) c) with (vadd (vsub p c) e) by (apply V3_eq; cbn; ring).
    replace (vsub (vsub p e) c) with (vadd (vsub p c) (vscale e (-1))) by (apply V3_eq; cbn; ring).
    rewrite !dot_add_l, dot_scale_l, D. rewrite !Rabs_pos_eq by nra. ring. }
  unfold sd_normal. rewrite (K EPS_VEC_X (vx n)), (K EPS_VEC_Y (vy n)), (K EPS_VEC_Z (vz n));
    try assumption; try (unfold dot, EPS_VEC_X, EPS_VEC_Y, EPS_VEC_Z; cbn [vx vy vz]; ring).
  assert (NN : normalized (V3 (2 * Epsilon * vx n) (2 * Epsilon * vy n) (2 * Epsilon * vz n)) = n).
  { rewrite normalized_vdiv. replace (V3 (2 * Epsilon * vx n) (2 * Epsilon * vy n) (2 * Epsilon * vz n)) with (vscale n (2 * Epsilon)) by (apply V3_eq; cbn; ring).
    rewrite norm_vscale, N1, Rabs_pos_eq by lra. apply V3_eq; cbn [vx vy vz vdiv vscale]; field; lra. }
  destruct (Req_EM_T _ _) as [E1|E1]; [|exact NN]. destruct (Req_EM_T _ _) as [E2|E2]; [|exact NN]. destruct (Req_EM_T _ _) as [E3|E3]; [|exact NN].
  exfalso. assert (vx n = 0) by nra. assert (vy n = 0) by nra. assert (vz n = 0) by nra. apply (unit_nonzero n U). apply V3_eq; assumption.
Qed.
Print Assumptions C119_plane_normal.
(** the hit tolerance lies inside the band where the plane is seen from both sides: there the finite differences
    cannot tell the sides apart, and on the plane itself the normal is always (0,1,0) *)
Theorem C119_plane_normal_refuted : exists c n p, unit3 n /\ dot (vsub p c) n = 0 /\ dot (sd_normal [SDFPlane c n] p) n = 0.
Proof.
  exists (V3 0 0 0), (V3 1 0 0), (V3 0 0 0). split; [unfold unit3, dot; cbn; ring|]. split; [unfold dot; cbn; ring|].
  unfold sd_normal. rewrite !sd_val_one. cbn [sdf_eval]. unfold plane_eval, EPS_VEC_X, EPS_VEC_Y, EPS_VEC_Z.
  assert (E : forall v, dot v (V3 1 0 0) = vx v) by (intros v; unfold dot; cbn [vx vy vz]; ring). rewrite !E. cbn [vx vy vz vadd vsub].
  replace (0 - Epsilon * 1 - 0) with (- (0 + Epsilon * 1 - 0)) by ring. rewrite Rabs_Ropp.
  replace (0 + 0 - 0) with 0 by ring. replace (0 - 0 - 0) with 0 by ring. rewrite Rabs_R0.
  destruct (Req_EM_T _ _) as [E1|E1]; [|exfalso; apply E1; ring]. destruct (Req_EM_T _ _) as [E2|E2]; [|exfalso; apply E2; ring].
  rewrite normalized_vdiv. cbn [vx vy vz vdiv]. unfold Rdiv. ring.
Qed.
Print Assumptions C119_plane_normal_refuted.
(** at a typical reported hit (half the tolerance above the plane) the normal of a tilted plane is the diagonal *)
Theorem C119_tilted_plane_refuted : exists c n p, unit3 n /\ dot (vsub p c) n = Epsilon / 2 /\ n = V3 (3 / 5) (4 / 5) 0 /\
  vx (sd_normal [SDFPlane c n] p) = vy (sd_normal [SDFPlane c n] p).
Proof.
  exists (V3 0 0 0), (V3 (3 / 5) (4 / 5) 0), (V3 (3 / 10 * Epsilon) (4 / 10 * Epsilon) 0).
  split; [unfold unit3, dot; cbn; field|]. split; [unfold dot; cbn [vx vy vz vsub]; field|]. split; [reflexivity|].
  pose proof Eps_pos as EP. unfold sd_normal. rewrite !sd_val_one. cbn [sdf_eval]. unfold plane_eval, EPS_VEC_X, EPS_VEC_Y, EPS_VEC_Z.
  unfold dot. cbn [vx vy vz vadd vsub].
  set (dx := Rabs _ - Rabs _). set (dy := Rabs _ - Rabs _). set (dz := Rabs _ - Rabs _).
  assert (X : dx = Epsilon) by (unfold dx, Rabs; repeat destruct (Rcase_abs _); lra).
  assert (Y : dy = Epsilon) by (unfold dy, Rabs; repeat destruct (Rcase_abs _); lra).
  assert (Z : dz = 0) by (unfold dz, Rabs; repeat destruct (Rcase_abs _); lra).
  clearbody dx dy dz. subst dx dy dz. destruct (Req_EM_T Epsilon Epsilon); [|lra]. destruct (Req_EM_T Epsilon 0); [lra|].
  rewrite normalized_vdiv. reflexivity.
Qed.
Print Assumptions C119_tilted_plane_refuted.
Example C119_case : Epsilon < dot (vsub (V3 0 1 0) (V3 0 0 0)) (V3 0 1 0) /\ unit3 (V3 0 1 0).
Proof. unfold Epsilon, unit3, dot; cbn; lra. Qed.

(** * C120: the range of the ray *)
Theorem C120_range_refuted : (forall l o d n f n' f', sdf_intersect l (Ray o d n f) = sdf_intersect l (Ray o d n' f')) /\
  exists l o d n f h, sdf_intersect l (Ray o d n f) = Some h /\ ~ Rbar_le (Finite (h_t h)) f.
Proof.
  split; [exact intersect_range|]. destruct C49_case as (h&H&T).
  exists [SDFSphere (V3 2 0 0) 1; SDFSphere (V3 0 5 0) 1], (V3 0 0 0), (V3 1 0 0), (Finite 0), (Finite (1 / 2)), h. split.
  - rewrite (intersect_range _ _ _ _ _ (Finite 0) p_infty). exact H.
  - cbn [Rbar_le]. lra.
Qed.
Print Assumptions C120_range_refuted.

(** * C121: smooth unions *)
Theorem C121_smooth_union d1 d2 k : 0 < k ->
  Rmin d1 d2 - k / 4 <= sd_smooth_union d1 d2 k <= Rmin d1 d2 /\
  (k <= Rabs (d1 - d2) -> sd_smooth_union d1 d2 k = Rmin d1 d2) /\ sd_smooth_union d1 d2 k = sd_smooth_union d2 d1 k.
Proof.
  intros K. split; [exact (smooth_le d1 d2 k K)|]. destruct (smooth_form d1 d2 k K) as (A&B&C). destruct (smooth_form d2 d1 k K) as (A'&B'&C').
  split.
  - intros H. unfold Rabs in H. destruct (Rcase_abs (d1 - d2)); [rewrite B, Rmin_left by lra|rewrite A, Rmin_right by lra]; reflexivity.
  - destruct (Rle_or_lt k (d1 - d2)); [rewrite A, B' by lra; reflexivity|]. destruct (Rle_or_lt k (d2 - d1)); [rewrite B, A' by lra; reflexivity|].
    rewrite C, C' by (unfold Rabs; destruct (Rcase_abs _); lra). field. lra.
Qed.
Print Assumptions C121_smooth_union.
Example C121_case : sd_smooth_union 1 1 1 = 3 / 4.
Proof.
  destruct (smooth_form 1 1 1 ltac:(lra)) as (_&_&C). rewrite C; [field|]. replace (1 - 1) with 0 by ring. rewrite Rabs_R0. lra.
Qed.
