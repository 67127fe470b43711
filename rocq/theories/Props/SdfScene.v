(** Scenes of distance shapes: materials that are looked through, and shadows. *)
From Coq Require Import Reals List Bool Lia Lra Psatz.
From Coquelicot Require Import Rbar.
From Verif.Base Require Import Outcome.
From Verif.Model Require Import Vec Frame BBox SDF Integrators Scene SdfScene.
From Verif.Spec Require Import LinAlgSpec FrameSpec SceneSpec SDFSpec.
From Verif.Proof Require Import VecLemmas LinAlg FrameProof SDFProof SDFTrace SceneProof SdfSceneProof.
Import ListNotations.
Open Scope R_scope.

Local Ltac unit_x := unfold norm; match goal with |- sqrt ?e = 1 => replace e with 1 by (cbn; ring); apply sqrt_1 end.
Lemma steps_2 : INR SDF_STEPS * Epsilon = 2.
Proof. unfold SDF_STEPS, Epsilon. rewrite INR_IZR_INZ. change (Z.of_nat 2000) with 2000%Z. lra. Qed.

(** ** C176: shapes without a material are looked through *)
(** what the walk through such shapes returns: without them the first surface; but as soon as the
    first surface is one of them the walk asks the same question for ever *)
Theorem C176_walk bary null l r fuel us vs : play (sdf_scene bary null l) (non_null (S fuel) r) us vs =
  Some (match sdf_intersect l r with
        | None => Ok None
        | Some h => if null (h_shape h) then OutOfFuel else Ok (Some (sdf_isect bary null h))
        end, us, vs).
Proof. exact (walk_sdf bary null l r fuel us vs). Qed.
Print Assumptions C176_walk.
(** shadow rays: likewise, unless the shape bounds a medium and lies at or behind the end of the ray *)
Theorem C176_shadow_ray M (inside : nat -> option (option M)) bary null l full fuel segs near us vs h : sdf_intersect l full = Some h -> null (h_shape h) = true ->
  play (sdf_scene bary null l) (tr_loop M inside (S fuel) full near segs) us vs =
  Some (match inside (h_shape h) with
        | None => UB
        | Some None => OutOfFuel
        | Some (Some m) =>
            if Rbar_geb (Finite (h_t h)) (rfar full)
            then Ok (Some (segs ++ [(m, Ray (org full) (dir full) (Finite (h_t h + Epsilon)) (Finite (h_t h)))]))
            else OutOfFuel
        end, us, vs).
Proof. intros E N. rewrite tr_sdf, E, N. reflexivity. Qed.
Print Assumptions C176_shadow_ray.

Lemma first_sphere : exists h, sdf_intersect [SDFSphere (V3 1 0 0) (1 / 2); SDFSphere (V3 10 0 0) 1] (Ray (V3 0 0 0) (V3 1 0 0) (Finite 0) p_infty) = Some h /\
  h_shape h = 0%nat /\ h_t h <= 1 / 2.
Proof.
  set (l := [SDFSphere (V3 1 0 0) (1 / 2); SDFSphere (V3 10 0 0) 1]). set (r := Ray (V3 0 0 0) (V3 1 0 0) (Finite 0) p_infty).
  assert (SN : List.Forall sensible l) by (repeat constructor; cbn; lra).
  assert (BX : List.Forall boxed l) by (constructor; [apply sphere_boxed|constructor; [apply sphere_boxed|constructor]]).
  assert (U : norm (dir r) = 1) by unit_x.
  assert (Q : in_scene l (ray_at r (1 / 2))).
  { exists (SDFSphere (V3 1 0 0) (1 / 2)). split; [left; reflexivity|]. cbn [solid]. unfold dist, ray_at, r. cbn [org dir vx vy vz vadd vscale].
    match goal with |- sqrt ?e <= _ => replace e with ((1 / 2) * (1 / 2)) by field end. rewrite sqrt_square; lra. }
  destruct (build_some l ltac:(discriminate)) as (b&_&B&_).
  destruct (intersect_found l r (1 / 2) b SN U B Q (boxed_between l b BX B _ Q)) as (h&H&L).
  { rewrite steps_2. unfold Epsilon. lra. }
  exists h. split; [exact H|]. split; [|exact L].
  destruct (intersect_safe l r h SN U H) as (_&_&T&_&s&q&NT&SO&D).
  destruct (h_shape h) as [|[|k]]; [reflexivity| |destruct k; discriminate NT]. exfalso. injection NT as <-. cbn [solid] in SO.
  pose proof (dist_triangle (ray_at r (h_t h)) q (V3 10 0 0)) as TR. assert (D3 : dist (ray_at r (h_t h)) (V3 10 0 0) <= 2) by (unfold Epsilon in D; lra).
  rewrite dist_norm in D3. destruct (comp_le _ _ D3) as (X&_). unfold ray_at, r in X. cbn [org dir vx vy vz vadd vscale vsub] in X. lra.
Qed.
(** a boundary in front of a ball: neither the walk nor a shadow ray along the line ever ends *)
Theorem C176_looked_through_refuted : exists l null r h, List.Forall sensible l /\ norm (dir r) = 1 /\
  sdf_intersect l r = Some h /\ null (h_shape h) = true /\ (exists k s, nth_error l k = Some s /\ null k = false /\ solid s (ray_at r 9)) /\
  (forall bary fuel us vs, play (sdf_scene bary null l) (non_null fuel r) us vs = Some (OutOfFuel, us, vs)) /\
  (forall bary M (m : M) fuel segs near us vs, play (sdf_scene bary null l) (tr_loop M (fun _ => Some (Some m)) fuel r near segs) us vs = Some (OutOfFuel, us, vs)).
Proof.
  destruct first_sphere as (h&H&S&T). exists [SDFSphere (V3 1 0 0) (1 / 2); SDFSphere (V3 10 0 0) 1], (fun i => Nat.eqb i 0), (Ray (V3 0 0 0) (V3 1 0 0) (Finite 0) p_infty), h.
  assert (N : Nat.eqb (h_shape h) 0 = true) by (rewrite S; reflexivity).
  split; [repeat constructor; cbn; lra|]. split; [unit_x|]. split; [exact H|]. split; [exact N|]. split.
  { exists 1%nat, (SDFSphere (V3 10 0 0) 1). split; [reflexivity|]. split; [reflexivity|]. cbn [solid]. unfold dist, ray_at. cbn [org dir vx vy vz vadd vscale].
    match goal with |- sqrt ?e <= _ => replace e with 1 by ring end. rewrite sqrt_1. lra. }
  split.
  - intros bary [|fuel] us vs; [reflexivity|]. rewrite C176_walk, H, N. reflexivity.
  - intros bary M m [|fuel] segs near us vs; [reflexivity|]. rewrite (C176_shadow_ray _ _ _ _ _ _ _ _ _ _ _ h H N).
    unfold Rbar_geb. cbn [rfar]. destruct (Rbar_le_dec p_infty (Finite (h_t h))) as [[]|_]; reflexivity.
Qed.
Print Assumptions C176_looked_through_refuted.
(** without such shapes the first surface is returned *)
Example C176_case : exists i, play (sdf_scene (V3c 0) (fun _ => false) [SDFSphere (V3 1 0 0) (1 / 2); SDFSphere (V3 10 0 0) 1])
  (non_null 1 (Ray (V3 0 0 0) (V3 1 0 0) (Finite 0) p_infty)) [] [] = Some (Ok (Some i), [], []) /\ i_mesh i = 0%nat.
Proof. destruct first_sphere as (h&H&S&_). eexists. rewrite C176_walk, H. split; [reflexivity|exact S]. Qed.
(** and a shadow ray that ends before the boundary is let through *)
Example C176_shadow_case : exists segs, play (sdf_scene (V3c 0) (fun i => Nat.eqb i 0) [SDFSphere (V3 1 0 0) (1 / 2); SDFSphere (V3 10 0 0) 1])
  (tr_loop unit (fun _ => Some (Some tt)) 1 (Ray (V3 0 0 0) (V3 1 0 0) (Finite 0) (Finite (1 / 10000))) (Finite 0) []) [] [] = Some (Ok (Some [segs]), [], []).
Proof.
  destruct first_sphere as (h&H&S&_). rewrite (intersect_range _ _ _ _ _ (Finite 0) (Finite (1 / 10000))) in H.
  assert (N : (fun i => Nat.eqb i 0) (h_shape h) = true) by (rewrite S; reflexivity).
  eexists. rewrite (C176_shadow_ray _ _ _ _ _ _ _ _ _ _ _ h H N). unfold Rbar_geb. cbn [rfar].
  destruct (Rbar_le_dec (Finite (1 / 10000)) (Finite (h_t h))) as [L|L]; [reflexivity|exfalso; apply L].
  assert (U : norm (dir (Ray (V3 0 0 0) (V3 1 0 0) (Finite 0) (Finite (1 / 10000)))) = 1) by unit_x.
  assert (SN : List.Forall sensible [SDFSphere (V3 1 0 0) (1 / 2); SDFSphere (V3 10 0 0) 1]) by (repeat constructor; cbn; lra).
  destruct (intersect_safe _ _ h SN U H) as (_&_&T&_). unfold Epsilon in T. cbn. lra.
Qed.

(** ** C177: only what lies before a light shadows it *)
Section Light.
Variable mesh_point : nat -> vec2 -> outcome (vec3 * vec3 * R).
Variable M : Type.
Variable inside : nat -> option (option M).
Variable transmittance : M -> ray -> query vec3.
(** the light is shadowed exactly when the line from the point through the light ever meets a shape *)
Theorem C177_shadowed_iff bary l fuel its nrm im cp power pos v us vs : let w := normalized (vsub pos (i_p its)) in
  exists o, play (sdf_scene bary (fun _ => false) l) (eval_emitter mesh_point M inside transmittance (S fuel) false its None nrm im cp (EPoint power pos)) us (v :: vs) = Some (Ok o, us, vs) /\
    (o = None <-> exists h, sdf_intersect l (Ray (i_p its) w (Finite Epsilon) p_infty) = Some h).
Proof.
  intros w. destruct (point_light_sdf mesh_point M inside transmittance bary (fun _ => false) l fuel its nrm im cp power pos v us vs (fun _ _ => eq_refl)) as (o&P&I).
  exists o. split; [exact P|]. apply (iff_trans I). fold w. destruct (sdf_intersect l _) as [h|]; split.
  - intros _. exists h. reflexivity.
  - intros _. discriminate.
  - intros X. destruct (X eq_refl).
  - intros (h&X). discriminate X.
Qed.
(** so a shadow means that some shape comes within Epsilon of that line, in front of the point *)
Theorem C177_shadow_has_cause bary l fuel its nrm im cp power pos v us vs : List.Forall sensible l -> pos <> i_p its -> let w := normalized (vsub pos (i_p its)) in
  play (sdf_scene bary (fun _ => false) l) (eval_emitter mesh_point M inside transmittance (S fuel) false its None nrm im cp (EPoint power pos)) us (v :: vs) = Some (Ok None, us, vs) ->
  exists t q, Epsilon <= t /\ in_scene l q /\ dist (vadd (i_p its) (vscale w t)) q <= Epsilon.
Proof.
  intros S N w P. destruct (C177_shadowed_iff bary l fuel its nrm im cp power pos v us vs) as (o&P'&I). cbv zeta in P', I. rewrite P in P'. injection P' as <-.
  destruct (proj1 I eq_refl) as (h&H). fold w in H.
  assert (U : norm w = 1) by (apply unit_norm, normalized_unit; intros E; injection E as E1 E2 E3; apply N, V3_eq; lra).
  destruct (intersect_safe l (Ray (i_p its) w (Finite Epsilon) p_infty) h S U H) as (_&_&T&_&s&q&NT&SO&D).
  exists (h_t h), q. split; [exact T|]. split; [exists s; split; [eapply nth_error_In, NT|exact SO]|exact D].
Qed.
End Light.
Print Assumptions C177_shadowed_iff.
Print Assumptions C177_shadow_has_cause.
Lemma ball_behind : exists h, sdf_intersect [SDFSphere (V3 (3 / 2) 0 0) (1 / 10)] (Ray (V3 0 0 0) (V3 1 0 0) (Finite Epsilon) p_infty) = Some h.
Proof.
  set (l := [SDFSphere (V3 (3 / 2) 0 0) (1 / 10)]). set (r := Ray (V3 0 0 0) (V3 1 0 0) (Finite Epsilon) p_infty).
  assert (SN : List.Forall sensible l) by (repeat constructor; cbn; lra).
  assert (BX : List.Forall boxed l) by (constructor; [apply sphere_boxed|constructor]).
  assert (U : norm (dir r) = 1) by unit_x.
  assert (Q : in_scene l (ray_at r (3 / 2))).
  { exists (SDFSphere (V3 (3 / 2) 0 0) (1 / 10)). split; [left; reflexivity|]. cbn [solid]. unfold dist, ray_at, r. cbn [org dir vx vy vz vadd vscale].
    match goal with |- sqrt ?e <= _ => replace e with 0 by ring end. rewrite sqrt_0. lra. }
  destruct (build_some l ltac:(discriminate)) as (b&_&B&_).
  destruct (intersect_found l r (3 / 2) b SN U B Q (boxed_between l b BX B _ Q)) as (h&H&_).
  { rewrite steps_2. unfold Epsilon. lra. }
  exists h. exact H.
Qed.
Lemma normalized_x : normalized (V3 1 0 0) = V3 1 0 0.
Proof.
  assert (N : norm (V3 1 0 0) = 1) by unit_x. pose proof (normalized_scale (V3 1 0 0) ltac:(intros E; injection E; lra)) as S.
  rewrite N in S. rewrite S at 2. destruct (normalized (V3 1 0 0)). apply V3_eq; cbn; ring.
Qed.
Definition floor_point : isect := Isect (V3 0 0 0) 1 (V3c 0) (frame_of (V3 1 0 0)) (frame_of (V3 1 0 0)) 0 false.
(** a light one unit away, nothing before it, a small ball half a unit behind it: no light arrives *)
Theorem C177_before_the_light_refuted : exists l its power pos, List.Forall sensible l /\ norm (vsub pos (i_p its)) = 1 /\
  (forall t q, 0 <= t <= 1 -> in_scene l q -> 3 / 10 <= dist (vadd (i_p its) (vscale (normalized (vsub pos (i_p its))) t)) q) /\
  forall mesh_point M inside transmittance bary fuel nrm im cp v us vs,
    play (sdf_scene bary (fun _ => false) l) (eval_emitter mesh_point M inside transmittance (S fuel) false its None nrm im cp (EPoint power pos)) us (v :: vs) = Some (Ok None, us, vs).
Proof.
  exists [SDFSphere (V3 (3 / 2) 0 0) (1 / 10)], floor_point, (V3c 1), (V3 1 0 0).
  assert (E : vsub (V3 1 0 0) (i_p floor_point) = V3 1 0 0) by (apply V3_eq; cbn; ring). rewrite E, normalized_x.
  split; [repeat constructor; cbn; lra|]. split; [unit_x|]. split.
  - intros t q T (s&[<-|[]]&Q). cbn [solid] in Q. apply Rnot_lt_le. intros L.
    pose proof (dist_triangle (vadd (i_p floor_point) (vscale (V3 1 0 0) t)) q (V3 (3 / 2) 0 0)) as TR.
    assert (D2 : dist (vadd (i_p floor_point) (vscale (V3 1 0 0) t)) (V3 (3 / 2) 0 0) < 4 / 10) by lra.
    rewrite dist_norm in D2. destruct (comp_le _ _ (Rlt_le _ _ D2)) as (X&_). cbn in X. lra.
  - intros. destruct (C177_shadowed_iff mesh_point M inside transmittance bary [SDFSphere (V3 (3 / 2) 0 0) (1 / 10)] fuel floor_point nrm im cp (V3c 1) (V3 1 0 0) v us vs) as (o&P&I).
    cbv zeta in I. rewrite E, normalized_x in I. rewrite P. rewrite (proj2 I); [reflexivity|]. exact ball_behind.
Qed.
Print Assumptions C177_before_the_light_refuted.
(** nothing on the line: the light arrives; and the shadow of the case above has its cause *)
Example C177_case : (exists o, play (sdf_scene (V3c 0) (fun _ => false) []) (eval_emitter (fun _ _ => UB) unit (fun _ => None) (fun _ _ => QRet (V3c 1)) 1 false floor_point None (V3 1 0 0) false 1 (EPoint (V3c 1) (V3 1 0 0))) [] [V2 0 0] = Some (Ok (Some o), [], [])) /\
  exists t q, Epsilon <= t /\ in_scene [SDFSphere (V3 (3 / 2) 0 0) (1 / 10)] q /\ dist (vadd (V3 0 0 0) (vscale (V3 1 0 0) t)) q <= Epsilon.
Proof.
  split.
  - destruct (C177_shadowed_iff (fun _ _ => UB) unit (fun _ => None) (fun _ _ => QRet (V3c 1)) (V3c 0) [] 0 floor_point (V3 1 0 0) false 1 (V3c 1) (V3 1 0 0) (V2 0 0) [] []) as ([o|]&P&I); [exists o; exact P|exfalso].
    destruct (proj1 I eq_refl) as (h&H). discriminate H.
  - assert (E : vsub (V3 1 0 0) (i_p floor_point) = V3 1 0 0) by (apply V3_eq; cbn; ring).
    pose proof (C177_shadow_has_cause (fun _ _ => UB) unit (fun _ => None) (fun _ _ => QRet (V3c 1)) (V3c 0) [SDFSphere (V3 (3 / 2) 0 0) (1 / 10)] 0 floor_point (V3 1 0 0) false 1 (V3c 1) (V3 1 0 0) (V2 0 0) [] []) as C.
    cbv zeta in C. rewrite E, normalized_x in C. apply C; [repeat constructor; cbn; lra|cbn; intros X; injection X; lra|].
    destruct (C177_shadowed_iff (fun _ _ => UB) unit (fun _ => None) (fun _ _ => QRet (V3c 1)) (V3c 0) [SDFSphere (V3 (3 / 2) 0 0) (1 / 10)] 0 floor_point (V3 1 0 0) false 1 (V3c 1) (V3 1 0 0) (V2 0 0) [] []) as (o&P&I).
    cbv zeta in I. rewrite E, normalized_x in I. rewrite P. rewrite (proj2 I); [reflexivity|]. exact ball_behind.
Qed.

(** ** C178: a surface does not shadow itself *)
(** a ball seen from outside: no ray leaving the point found meets the ball again, unless it leaves
    within 2 Epsilon / distance of the tangent plane *)
Theorem C178_sphere c rad r h w n f : Epsilon <= rad -> norm (dir r) = 1 -> rad + Epsilon <= dist (org r) c ->
  sdf_intersect [SDFSphere c rad] r = Some h -> norm w = 1 -> 2 * Epsilon <= dot w (vsub (ray_at r (h_t h)) c) ->
  sdf_intersect [SDFSphere c rad] (Ray (h_p h) w n f) = None.
Proof. exact (sphere_unshadowed c rad r h w n f). Qed.
Print Assumptions C178_sphere.
Definition wall : sdf := SDFPlane (V3 0 0 0) (V3 1 0 0).
Lemma wall_eval p : sd_evaluate [wall] p = Some (Rabs (vx p), 0%nat).
Proof. unfold sd_evaluate, wall. cbn [sd_fold sdf_eval]. unfold plane_eval. f_equal. f_equal. f_equal. unfold dot. cbn. ring. Qed.
Lemma wall_range o d : (forall t, 0 <= t <= 10 -> SDFSpec.between (sdf_bbox wall) (vadd o (vscale d t))) ->
  exists far, Rbar_le (Finite 10) far /\ forall n f, sdf_intersect [wall] (Ray o d n f) = sd_march [wall] (Ray o d n f) far SDF_STEPS Epsilon.
Proof.
  intros B. destruct (bb_range (sdf_bbox wall) (Ray o d (Finite 0) p_infty)) as [near far] eqn:G. exists far.
  pose proof (bb_range_in (sdf_bbox wall) (Ray o d (Finite 0) p_infty) 10 (B 10 ltac:(lra))) as (_&F).
  pose proof (bb_range_in (sdf_bbox wall) (Ray o d (Finite 0) p_infty) Epsilon (B Epsilon ltac:(unfold Epsilon; lra))) as (N&_).
  rewrite G in F, N. split; [exact F|]. intros n f. unfold sdf_intersect, wall. rewrite build_one.
  replace (bb_range (sdf_bbox (SDFPlane (V3 0 0 0) (V3 1 0 0))) (Ray o d n f)) with (near, far) by (symmetry; exact G).
  f_equal. apply Rle_antisym; [apply start_le; [apply Rle_refl|exact N]|apply start_ge].
Qed.
Lemma wall_between p : -5000 <= vx p <= 5000 -> -5000 <= vy p <= 5000 -> -5000 <= vz p <= 5000 -> SDFSpec.between (sdf_bbox wall) p.
Proof.
  intros X Y Z. unfold SDFSpec.between, wall. cbn [sdf_bbox bmn bmx vadd vsub V3c vx vy vz].
  repeat split; try (eapply Rle_trans; [apply Rmin_l|lra]); try (eapply Rle_trans; [|apply Rmax_r]; lra).
Qed.
Lemma sd_march_S l r far n d : sd_march l r far (S n) d =
  if Rbar_le_dec (Finite d) far then
    match sd_evaluate l (ray_at r d) with
    | None => None
    | Some (sd, i) => if Rle_dec sd Epsilon then Some (SdfHit d i (vadd (ray_at r d) (vscale (sd_normal l (ray_at r d)) Epsilon)) (frame_of (sd_normal l (ray_at r d))) (frame_of (sd_normal l (ray_at r d)))) else sd_march l r far n (d + sd)
    end
  else None.
Proof. reflexivity. Qed.
Lemma steps_SS : exists n, SDF_STEPS = S (S n).
Proof. exists (pred (pred SDF_STEPS)). reflexivity. Qed.
Lemma wall_normal p : vx p = 0 -> sd_normal [wall] p = V3 0 1 0.
Proof.
  intros X. assert (V : forall q, sd_val [wall] q = Rabs (vx q)) by (intros q; unfold sd_val; rewrite wall_eval; reflexivity).
  unfold sd_normal. rewrite !V. cbn [vx vadd vsub EPS_VEC_X EPS_VEC_Y EPS_VEC_Z]. rewrite X, !Rplus_0_l, !Rminus_0_r, Rabs_R0.
  replace (0 - Epsilon * 1) with (- (Epsilon * 1)) by ring. rewrite Rabs_Ropp.
  replace (Rabs (Epsilon * 1) - Rabs (Epsilon * 1)) with 0 by ring. replace (0 - 0) with 0 by ring.
  destruct (Req_EM_T 0 0); [|lra]. assert (N : norm (V3 0 1 0) = 1) by unit_x.
  pose proof (normalized_scale (V3 0 1 0) ltac:(intros E; injection E; lra)) as S. rewrite N in S. rewrite S at 2.
  destruct (normalized (V3 0 1 0)). apply V3_eq; cbn; ring.
Qed.
(** a wall seen head-on from two units away is found exactly, and its normal lies in the wall *)
Lemma wall_seen : exists h, sdf_intersect [wall] (Ray (V3 2 0 0) (V3 (-1) 0 0) (Finite 0) p_infty) = Some h /\
  h_t h = 2 /\ h_p h = V3 0 Epsilon 0 /\ fn (h_g h) = V3 0 1 0.
Proof.
  destruct (wall_range (V3 2 0 0) (V3 (-1) 0 0)) as (far&F&E).
  { intros t T. apply wall_between; cbn; lra. }
  rewrite E. destruct steps_SS as (n&->). set (r := Ray (V3 2 0 0) (V3 (-1) 0 0) (Finite 0) p_infty).
  assert (X : forall t, vx (ray_at r t) = 2 - t) by (intros t; unfold ray_at, r; cbn; ring).
  assert (LE : forall t, t <= 10 -> Rbar_le (Finite t) far) by (intros t T; eapply Rbar_le_trans; [|exact F]; exact T).
  rewrite sd_march_S. destruct (Rbar_le_dec (Finite Epsilon) far) as [_|L]; [|exfalso; apply L, LE; unfold Epsilon; lra].
  rewrite wall_eval, X. rewrite Rabs_pos_eq by (unfold Epsilon; lra). destruct (Rle_dec (2 - Epsilon) Epsilon) as [L|_]; [exfalso; unfold Epsilon in L; lra|].
  replace (Epsilon + (2 - Epsilon)) with 2 by ring. rewrite sd_march_S. destruct (Rbar_le_dec (Finite 2) far) as [_|L]; [|exfalso; apply L, LE; lra].
  assert (X2 : vx (ray_at r 2) = 0) by (rewrite X; ring).
  rewrite wall_eval, X2, Rabs_R0. destruct (Rle_dec 0 Epsilon) as [_|L]; [|exfalso; apply L; unfold Epsilon; lra].
  rewrite (wall_normal _ X2). eexists. split; [reflexivity|]. cbn [h_t h_p h_g]. split; [reflexivity|]. split.
  - unfold ray_at, r. apply V3_eq; cbn; ring.
  - apply frame_orthonormal. unfold unit3, dot. cbn. ring.
Qed.
(** every ray that leaves the point found meets the wall at once *)
Lemma wall_again w n f : norm w = 1 -> exists h, sdf_intersect [wall] (Ray (V3 0 Epsilon 0) w n f) = Some h.
Proof.
  intros U. destruct (comp_le w 1 (Req_le _ _ U)) as (X&Y&Z). destruct (wall_range (V3 0 Epsilon 0) w) as (far&F&E).
  { intros t T. apply wall_between; cbn; unfold Epsilon; nra. }
  rewrite E. destruct steps_SS as (k&->). rewrite sd_march_S.
  destruct (Rbar_le_dec (Finite Epsilon) far) as [_|L]; [|exfalso; apply L; eapply Rbar_le_trans; [|exact F]; cbn; unfold Epsilon; lra].
  rewrite wall_eval. replace (vx (ray_at (Ray (V3 0 Epsilon 0) w n f) Epsilon)) with (vx w * Epsilon) by (unfold ray_at; cbn; ring).
  destruct (Rle_dec (Rabs (vx w * Epsilon)) Epsilon) as [_|L]; [eexists; reflexivity|exfalso; apply L].
  rewrite Rabs_mult, (Rabs_pos_eq Epsilon) by (unfold Epsilon; lra). assert (Rabs (vx w) <= 1) by (apply Rabs_le; lra). unfold Epsilon; lra.
Qed.
(** so no point light, wherever it is, lights the point of the wall that the viewer sees *)
Theorem C178_wall_refuted : exists s r h, sensible s /\ norm (dir r) = 1 /\ sdf_intersect [s] r = Some h /\
  solid s (ray_at r (h_t h)) /\ dist (org r) (ray_at r (h_t h)) = 2 /\
  forall mesh_point M inside transmittance bary fuel its nrm im cp power pos v us vs, its = sdf_isect bary (fun _ => false) h -> pos <> i_p its ->
    play (sdf_scene bary (fun _ => false) [s]) (eval_emitter mesh_point M inside transmittance (S fuel) false its None nrm im cp (EPoint power pos)) us (v :: vs) = Some (Ok None, us, vs).
Proof.
  destruct wall_seen as (h&H&T&P&_). exists wall, (Ray (V3 2 0 0) (V3 (-1) 0 0) (Finite 0) p_infty), h.
  assert (U : norm (dir (Ray (V3 2 0 0) (V3 (-1) 0 0) (Finite 0) p_infty)) = 1) by unit_x.
  split; [cbn; unfold unit3, dot; cbn; ring|]. split; [exact U|]. split; [exact H|]. rewrite T. split; [cbn; unfold dot; cbn; ring|]. split.
  - unfold dist, ray_at. cbn [org dir vx vy vz vadd vscale]. match goal with |- sqrt ?e = _ => replace e with (2 * 2) by ring end. apply sqrt_square. lra.
  - intros mesh_point M inside transmittance bary fuel its nrm im cp power pos v us vs -> N. cbn [i_p sdf_isect] in N.
    destruct (C177_shadowed_iff mesh_point M inside transmittance bary [wall] fuel (sdf_isect bary (fun _ => false) h) nrm im cp power pos v us vs) as (o&Q&I).
    rewrite Q, (proj2 I); [reflexivity|]. cbv zeta. cbn [i_p sdf_isect]. rewrite P in N |- *. apply wall_again.
    apply unit_norm, normalized_unit. intros E. injection E as E1 E2 E3. apply N, V3_eq; cbn; lra.
Qed.
Print Assumptions C178_wall_refuted.
(** the unit ball seen from two units away and lit from the side of the viewer *)
Example C178_case : exists h, sdf_intersect [SDFSphere (V3 0 0 0) 1] (Ray (V3 2 0 0) (V3 (-1) 0 0) (Finite 0) p_infty) = Some h /\
  sdf_intersect [SDFSphere (V3 0 0 0) 1] (Ray (h_p h) (V3 (3 / 5) (4 / 5) 0) (Finite 0) p_infty) = None.
Proof.
  set (l := [SDFSphere (V3 0 0 0) 1]). set (r := Ray (V3 2 0 0) (V3 (-1) 0 0) (Finite 0) p_infty).
  assert (SN : List.Forall sensible l) by (repeat constructor; cbn; lra).
  assert (BX : List.Forall boxed l) by (constructor; [apply sphere_boxed|constructor]).
  assert (U : norm (dir r) = 1) by unit_x.
  assert (Q : in_scene l (ray_at r 1)).
  { exists (SDFSphere (V3 0 0 0) 1). split; [left; reflexivity|]. cbn [solid]. unfold dist, ray_at, r. cbn [org dir vx vy vz vadd vscale].
    match goal with |- sqrt ?e <= _ => replace e with 1 by ring end. rewrite sqrt_1. lra. }
  destruct (build_some l ltac:(discriminate)) as (b&_&B&_).
  destruct (intersect_found l r 1 b SN U B Q (boxed_between l b BX B _ Q)) as (h&H&T).
  { rewrite steps_2. unfold Epsilon. lra. }
  exists h. split; [exact H|]. apply (C178_sphere _ _ r h); [unfold Epsilon; lra|exact U| |exact H| |].
  - unfold dist, r. cbn [org vx vy vz]. match goal with |- _ <= sqrt ?e => replace e with (2 * 2) by ring end. rewrite sqrt_square; unfold Epsilon; lra.
  - unfold norm. cbn [vx vy vz]. match goal with |- sqrt ?e = 1 => replace e with 1 by field; apply sqrt_1 end.
  - unfold dot, ray_at, r. cbn [org dir vx vy vz vadd vscale vsub]. unfold Epsilon. lra.
Qed.
