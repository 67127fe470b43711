From Coq Require Import Reals List Bool Lia Lra Psatz.
From Coquelicot Require Import Rbar.
From Verif.Base Require Import Outcome.
From Verif.Model Require Import Vec Frame BBox SDF Integrators Scene SdfScene.
From Verif.Spec Require Import LinAlgSpec SDFSpec SceneSpec.
From Verif.Proof Require Import VecLemmas LinAlg SDFProof SDFTrace SceneProof.
Import ListNotations.
Open Scope R_scope.

Lemma scene_range bary null l o d n f n' f' : sdf_scene bary null l (Ray o d n f) = sdf_scene bary null l (Ray o d n' f').
Proof. unfold sdf_scene. now rewrite (intersect_range l o d n f n' f'). Qed.

Lemma walk_sdf bary null l r fuel us vs : play (sdf_scene bary null l) (non_null (S fuel) r) us vs =
  Some (match sdf_intersect l r with
        | None => Ok None
        | Some h => if null (h_shape h) then OutOfFuel else Ok (Some (sdf_isect bary null h))
        end, us, vs).
Proof.
  revert r. induction fuel as [|k IH]; intros r.
  - cbn [non_null play]. unfold sdf_scene. destruct (sdf_intersect l r) as [h|]; [|reflexivity].
    cbn [option_map sdf_isect i_null]. destruct (null (h_shape h)); reflexivity.
  - assert (SC : sdf_scene bary null l r = option_map (sdf_isect bary null) (sdf_intersect l r)) by reflexivity.
    remember (S k) as m eqn:M. cbn [non_null play]. rewrite SC. destruct (sdf_intersect l r) as [h|] eqn:E; [|reflexivity].
    cbn [option_map sdf_isect i_null]. destruct (null (h_shape h)) eqn:N; [|reflexivity].
    cbn [i_t]. rewrite IH. destruct r as [o d n f]. cbn [org dir rfar]. rewrite (intersect_range l o d _ _ n f), E, N. reflexivity.
Qed.

(** ** marching past nothing *)
Lemma march_miss l r far : (forall t sd i, Epsilon <= t -> sd_evaluate l (ray_at r t) = Some (sd, i) -> Epsilon < sd) ->
  forall n d, Epsilon <= d -> sd_march l r far n d = None.
Proof.
  intros H. pose proof Eps_pos. induction n as [|n IH]; intros d D; [reflexivity|]. cbn [sd_march].
  destruct (Rbar_le_dec (Finite d) far); [|reflexivity]. destruct (sd_evaluate l (ray_at r d)) as [[sd i]|] eqn:E; [|reflexivity].
  pose proof (H d sd i D E). destruct (Rle_dec sd Epsilon); [lra|]. apply IH. lra.
Qed.
Lemma intersect_miss l r : (forall t sd i, Epsilon <= t -> sd_evaluate l (ray_at r t) = Some (sd, i) -> Epsilon < sd) -> sdf_intersect l r = None.
Proof.
  intros H. unfold sdf_intersect. destruct (finite_box _) as [b|]; [|reflexivity]. destruct (bb_range b r) as [near far].
  apply march_miss; [exact H|apply start_ge].
Qed.

(** ** the normal of a sphere is nearly radial *)
Lemma sphere_diff_bounds c r p e : 0 < norm (vsub p c) -> norm e = Epsilon ->
  exists k, 2 / sqrt (sqrNorm (vsub p c) + Epsilon * Epsilon) <= k <= 2 / norm (vsub p c) /\
    sphere_eval c r (vadd p e) - sphere_eval c r (vsub p e) = k * dot (vsub p c) e.
Proof.
  intros N NE. pose proof Eps_pos as EP. unfold sphere_eval. set (u := vsub (vadd p e) c). set (v := vsub (vsub p e) c). set (rho := norm (vsub p c)) in *.
  assert (S : 2 * rho <= norm u + norm v).
  { pose proof (norm_triangle u v) as T. replace (vadd u v) with (vscale (vsub p c) 2) in T by (unfold u, v; apply V3_eq; cbn; ring).
    rewrite norm_vscale, Rabs_pos_eq in T by lra. fold rho in T. lra. }
  pose proof (norm_nonneg u). pose proof (norm_nonneg v).
  assert (SQ : norm u * norm u + norm v * norm v = 2 * (sqrNorm (vsub p c) + Epsilon * Epsilon)).
  { rewrite <- NE, !norm_sqr. unfold u, v, sqrNorm. cbn. ring. }
  assert (P : 0 < sqrNorm (vsub p c) + Epsilon * Epsilon) by (rewrite <- norm_sqr; fold rho; nra).
  set (q := sqrt (sqrNorm (vsub p c) + Epsilon * Epsilon)). assert (Q0 : 0 < q) by (apply sqrt_lt_R0; exact P).
  assert (QQ : q * q = sqrNorm (vsub p c) + Epsilon * Epsilon) by (apply sqrt_sqrt; lra).
  assert (L : norm u + norm v <= 2 * q).
  { apply Rnot_lt_le. intros L. assert (2 * q * (2 * q) < (norm u + norm v) * (norm u + norm v)) by nra.
    pose proof (Rle_0_sqr (norm u - norm v)) as Z. unfold Rsqr in Z. nra. }
  exists (4 / (norm u + norm v)). split.
  - split.
    + apply Rmult_le_reg_r with (q * (norm u + norm v)); [apply Rmult_lt_0_compat; lra|]. unfold Rdiv.
      replace (2 * / q * (q * (norm u + norm v))) with (2 * (norm u + norm v)) by (field; lra).
      replace (4 * / (norm u + norm v) * (q * (norm u + norm v))) with (4 * q) by (field; lra). lra.
    + apply Rmult_le_reg_r with (rho * (norm u + norm v)); [apply Rmult_lt_0_compat; lra|]. unfold Rdiv.
      replace (2 * / rho * (rho * (norm u + norm v))) with (2 * (norm u + norm v)) by (field; lra).
      replace (4 * / (norm u + norm v) * (rho * (norm u + norm v))) with (4 * rho) by (field; lra). lra.
  - assert (E : norm u * norm u - norm v * norm v = 4 * dot (vsub p c) e).
    { rewrite !norm_sqr. unfold u, v, sqrNorm, dot. cbn. ring. }
    apply (Rmult_eq_reg_r (norm u + norm v)); [|lra]. transitivity (norm u * norm u - norm v * norm v); [ring|].
    rewrite E. field. lra.
Qed.
Lemma normalized_dot_ge g v a b : 0 < a -> a <= dot g v -> norm g <= b -> a / b <= dot (normalized g) v.
Proof.
  intros A H B. assert (N : g <> V3 0 0 0) by (intros ->; unfold dot in H; cbn in H; lra).
  pose proof (norm_pos g N) as P. rewrite (normalized_scale g N), dot_scale_l in H.
  apply Rmult_le_reg_r with b; [lra|]. unfold Rdiv. rewrite Rmult_assoc, Rinv_l, Rmult_1_r by lra.
  assert (D : 0 < dot (normalized g) v) by (destruct (Rlt_or_le 0 (dot (normalized g) v)) as [|L]; [assumption|exfalso; nra]). nra.
Qed.
Lemma sphere_normal_radial c r p : p <> c -> let v := vsub p c in
  sqrNorm v / sqrt (sqrNorm v + Epsilon * Epsilon) <= dot (sd_normal [SDFSphere c r] p) v.
Proof.
  intros NE v. assert (N0 : v <> V3 0 0 0) by (intros E; injection E as E1 E2 E3; apply NE, V3_eq; lra).
  pose proof (norm_pos _ N0) as N. pose proof (sqrNorm_pos _ N0) as SP. pose proof Eps_pos as EP.
  assert (NX : norm EPS_VEC_X = Epsilon) by (unfold norm, EPS_VEC_X; cbn [vx vy vz]; replace (Epsilon * 1 * (Epsilon * 1) + 0 * 0 + 0 * 0) with (Epsilon * Epsilon) by ring; apply sqrt_square; lra).
  assert (NY : norm EPS_VEC_Y = Epsilon) by (unfold norm, EPS_VEC_Y; cbn [vx vy vz]; replace (0 * 0 + Epsilon * 1 * (Epsilon * 1) + 0 * 0) with (Epsilon * Epsilon) by ring; apply sqrt_square; lra).
  assert (NZ : norm EPS_VEC_Z = Epsilon) by (unfold norm, EPS_VEC_Z; cbn [vx vy vz]; replace (0 * 0 + 0 * 0 + Epsilon * 1 * (Epsilon * 1)) with (Epsilon * Epsilon) by ring; apply sqrt_square; lra).
  destruct (sphere_diff_bounds c r p EPS_VEC_X N NX) as (kx&Kx&Ex). destruct (sphere_diff_bounds c r p EPS_VEC_Y N NY) as (ky&Ky&Ey).
  destruct (sphere_diff_bounds c r p EPS_VEC_Z N NZ) as (kz&Kz&Ez).
  pose proof (sphere_normal_outward c r p NE) as OUT. revert OUT.
  unfold sd_normal. rewrite !sd_val_one. cbn [sdf_eval]. rewrite Ex, Ey, Ez. fold v in Kx, Ky, Kz |- *.
  assert (Dx : dot v EPS_VEC_X = Epsilon * vx v) by (unfold dot, EPS_VEC_X; cbn; ring).
  assert (Dy : dot v EPS_VEC_Y = Epsilon * vy v) by (unfold dot, EPS_VEC_Y; cbn; ring).
  assert (Dz : dot v EPS_VEC_Z = Epsilon * vz v) by (unfold dot, EPS_VEC_Z; cbn; ring).
  rewrite Dx, Dy, Dz. set (g := V3 (kx * (Epsilon * vx v)) (ky * (Epsilon * vy v)) (kz * (Epsilon * vz v))).
  set (q := sqrt (sqrNorm v + Epsilon * Epsilon)) in *. assert (Q0 : 0 < q) by (apply sqrt_lt_R0; nra).
  set (rho := norm v) in *. assert (RR : rho * rho = sqrNorm v) by apply norm_sqr.
  assert (QI : 0 < 2 / q) by (apply Rdiv_lt_0_compat; lra).
  pose proof (Rle_0_sqr (vx v)) as X2. pose proof (Rle_0_sqr (vy v)) as Y2. pose proof (Rle_0_sqr (vz v)) as Z2. unfold Rsqr in *.
  assert (SN : sqrNorm v = vx v * vx v + vy v * vy v + vz v * vz v) by reflexivity.
  assert (P : Epsilon * (2 / q * sqrNorm v) <= dot g v).
  { unfold dot, g. cbn [vx vy vz].
    replace (vx v * (kx * (Epsilon * vx v)) + vy v * (ky * (Epsilon * vy v)) + vz v * (kz * (Epsilon * vz v)))
      with (Epsilon * (kx * (vx v * vx v) + ky * (vy v * vy v) + kz * (vz v * vz v))) by ring.
    apply Rmult_le_compat_l; [lra|]. rewrite SN. nra. }
  assert (G : norm g <= 2 * Epsilon).
  { assert (IR : 2 / rho * rho = 2) by (field; lra). set (ir := 2 / rho) in *. assert (0 < ir) by (apply Rdiv_lt_0_compat; lra).
    apply Rsqr_incr_0_var; [|lra]. unfold Rsqr. rewrite norm_sqr. unfold sqrNorm, g. cbn [vx vy vz].
    replace (2 * Epsilon * (2 * Epsilon)) with (Epsilon * Epsilon * (ir * ir * sqrNorm v)) by (rewrite <- RR; replace (ir * ir * (rho * rho)) with ((ir * rho) * (ir * rho)) by ring; rewrite IR; ring).
    rewrite SN.
    replace (kx * (Epsilon * vx v) * (kx * (Epsilon * vx v)) + ky * (Epsilon * vy v) * (ky * (Epsilon * vy v)) + kz * (Epsilon * vz v) * (kz * (Epsilon * vz v)))
      with (Epsilon * Epsilon * (kx * kx * (vx v * vx v) + ky * ky * (vy v * vy v) + kz * kz * (vz v * vz v))) by ring.
    apply Rmult_le_compat_l; [nra|].
    assert (kx * kx <= ir * ir) by nra. assert (ky * ky <= ir * ir) by nra. assert (kz * kz <= ir * ir) by nra. nra. }
  assert (GOAL : sqrNorm v / q <= dot (normalized g) v).
  { replace (sqrNorm v / q) with (Epsilon * (2 / q * sqrNorm v) / (2 * Epsilon)) by (field; lra).
    apply normalized_dot_ge; [|exact P|exact G]. apply Rmult_lt_0_compat; [lra|]. apply Rmult_lt_0_compat; lra. }
  match goal with |- context [Req_EM_T ?a ?b] => destruct (Req_EM_T a b) as [E1|E1] end; [|intros _; exact GOAL].
  match goal with |- context [Req_EM_T ?a ?b] => destruct (Req_EM_T a b) as [E2|E2] end; [|intros _; exact GOAL].
  match goal with |- context [Req_EM_T ?a ?b] => destruct (Req_EM_T a b) as [E3|E3] end; [|intros _; exact GOAL].
  exfalso. assert (Z0 : dot g v = 0) by (unfold dot, g; cbn [vx vy vz]; rewrite <- E1, <- E2, E3; ring).
  rewrite Z0 in P. assert (0 < Epsilon * (2 / q * sqrNorm v)) by (apply Rmult_lt_0_compat; [lra|apply Rmult_lt_0_compat; lra]). lra.
Qed.

Lemma dot_cs a b : norm a = 1 -> norm b = 1 -> -1 <= dot a b.
Proof.
  intros A B. pose proof (norm_nonneg (vadd a b)) as N.
  assert (S : 0 <= sqrNorm (vadd a b)) by (rewrite <- norm_sqr; nra).
  assert (E : sqrNorm (vadd a b) = sqrNorm a + sqrNorm b + 2 * dot a b) by (unfold sqrNorm, dot; cbn; ring).
  rewrite <- !norm_sqr in E. rewrite norm_sqr, A, B in E. lra.
Qed.

Lemma sphere_clear c rad p n w t : Epsilon <= rad -> rad <= norm (vsub p c) -> norm n = 1 -> norm w = 1 ->
  sqrNorm (vsub p c) / sqrt (sqrNorm (vsub p c) + Epsilon * Epsilon) <= dot n (vsub p c) ->
  2 * Epsilon <= dot w (vsub p c) -> Epsilon <= t ->
  Epsilon < sphere_eval c rad (vadd (vadd p (vscale n Epsilon)) (vscale w t)).
Proof.
  intros R1 R2 N W D WV T. pose proof Eps_pos as EP. unfold sphere_eval.
  set (v := vsub p c) in *. set (rho := norm v) in *. assert (RR : rho * rho = sqrNorm v) by apply norm_sqr.
  set (q := sqrt (sqrNorm v + Epsilon * Epsilon)) in *. assert (QQ : q * q = sqrNorm v + Epsilon * Epsilon) by (apply sqrt_sqrt; nra).
  assert (Q0 : 0 < q) by (apply sqrt_lt_R0; nra). assert (QR : rho <= q) by nra.
  pose proof (dot_cs n w N W) as NW.
  set (z := vsub (vadd (vadd p (vscale n Epsilon)) (vscale w t)) c).
  assert (E : norm z * norm z = rho * rho + Epsilon * Epsilon + t * t + 2 * Epsilon * dot n v + 2 * t * dot w v + 2 * Epsilon * t * dot n w).
  { assert (Nn : sqrNorm n = 1) by (rewrite <- norm_sqr, N; ring). assert (Nw : sqrNorm w = 1) by (rewrite <- norm_sqr, W; ring).
    rewrite RR, norm_sqr.
    replace (Epsilon * Epsilon) with (Epsilon * Epsilon * sqrNorm n) by (rewrite Nn; ring).
    replace (t * t) with (t * t * sqrNorm w) by (rewrite Nw; ring).
    unfold z, v, sqrNorm, dot. cbn [vx vy vz vadd vsub vscale]. ring. }
  assert (K : rho - Epsilon * Epsilon / (2 * rho) <= sqrNorm v / q).
  { rewrite <- RR. apply Rmult_le_reg_r with (2 * rho * q); [nra|].
    replace ((rho - Epsilon * Epsilon / (2 * rho)) * (2 * rho * q)) with ((2 * rho * rho - Epsilon * Epsilon) * q) by (field; lra).
    replace (rho * rho / q * (2 * rho * q)) with (2 * rho * rho * rho) by (field; lra).
    pose proof (Rle_0_sqr (q - rho)) as SQ. unfold Rsqr in SQ.
    assert (H2 : 2 * rho * (q - rho) <= Epsilon * Epsilon) by nra.
    assert (H3 : (2 * rho * (q - rho) - Epsilon * Epsilon) * q <= 0) by nra.
    assert (H4 : 0 <= 2 * rho * (q - rho) * (q - rho)) by nra.
    assert (H5 : q * q - rho * rho = Epsilon * Epsilon) by lra.
    replace ((2 * rho * rho - Epsilon * Epsilon) * q) with ((2 * rho * rho - (q * q - rho * rho)) * q) by (rewrite H5; ring).
    nra. }
  assert (K2 : Epsilon * Epsilon / (2 * rho) <= Epsilon / 2).
  { apply Rmult_le_reg_r with (2 * rho); [lra|]. replace (Epsilon * Epsilon / (2 * rho) * (2 * rho)) with (Epsilon * Epsilon) by (field; lra). nra. }
  assert (G : (rho + Epsilon) * (rho + Epsilon) < norm z * norm z).
  { rewrite E. assert (2 * Epsilon * dot n v >= 2 * Epsilon * (rho - Epsilon / 2)) by nra.
    assert (2 * t * dot w v >= 2 * t * (2 * Epsilon)) by nra. assert (0 < Epsilon * t) as ET by (apply Rmult_lt_0_compat; lra).
    assert (Epsilon * t * dot n w >= - (Epsilon * t)) by (apply Rle_ge; replace (- (Epsilon * t)) with (Epsilon * t * -1) by ring; apply Rmult_le_compat_l; lra).
    assert (t * t >= Epsilon * Epsilon) by nra. nra. }
  pose proof (norm_nonneg z). assert (rho + Epsilon < norm z) by nra. lra.
Qed.

(** ** spheres do not shadow themselves *)
Lemma sphere_hit_outside c rad r h : 0 <= rad -> norm (dir r) = 1 -> rad + Epsilon <= dist (org r) c ->
  sdf_intersect [SDFSphere c rad] r = Some h -> rad <= norm (vsub (ray_at r (h_t h)) c).
Proof.
  intros R U O H. pose proof Eps_pos as EP. rewrite <- dist_norm. apply Rnot_lt_le. intros L.
  destruct (intersect_safe [SDFSphere c rad] r h ltac:(constructor; [exact R|constructor]) U H) as (b&B&T&A&_).
  assert (BB : forall q, dist q c <= rad -> SDFSpec.between b q).
  { intros q Q. apply (boxed_between [SDFSphere c rad] b ltac:(constructor; [apply sphere_boxed|constructor]) B).
    exists (SDFSphere c rad). split; [left; reflexivity|exact Q]. }
  assert (O0 : org r = ray_at r 0) by (unfold ray_at; destruct (org r); apply V3_eq; cbn; ring).
  destruct (Req_EM_T (h_t h) Epsilon) as [E|E].
  - pose proof (dist_triangle (org r) (ray_at r (h_t h)) c) as TR. rewrite O0 in TR at 2. rewrite (ray_dist r 0 (h_t h) U), E in TR.
    rewrite Rabs_left in TR by lra. rewrite E in L. lra.
  - set (g := rad - dist (ray_at r (h_t h)) c) in *. set (t := Rmax Epsilon (h_t h - g)).
    assert (T1 : Epsilon <= t) by apply Rmax_l. assert (T2 : h_t h - g <= t) by apply Rmax_r.
    assert (T3 : t < h_t h) by (apply Rmax_lub_lt; [lra|unfold g; lra]).
    assert (D : dist (ray_at r t) c <= rad).
    { pose proof (dist_triangle (ray_at r t) (ray_at r (h_t h)) c) as TR. rewrite (ray_dist r t (h_t h) U), Rabs_left in TR by lra. unfold g in *. lra. }
    apply (A t (conj T1 T3) (BB _ D)). exists (SDFSphere c rad). split; [left; reflexivity|exact D].
Qed.
Lemma sphere_unshadowed c rad r h w n f : Epsilon <= rad -> norm (dir r) = 1 -> rad + Epsilon <= dist (org r) c ->
  sdf_intersect [SDFSphere c rad] r = Some h -> norm w = 1 -> 2 * Epsilon <= dot w (vsub (ray_at r (h_t h)) c) ->
  sdf_intersect [SDFSphere c rad] (Ray (h_p h) w n f) = None.
Proof.
  intros R U O H W D. pose proof Eps_pos as EP. assert (R0 : 0 <= rad) by lra.
  pose proof (sphere_hit_outside c rad r h R0 U O H) as OUT. destruct (intersect_normal _ r h H) as (_&_&P).
  apply intersect_miss. intros t sd i T E. unfold sd_evaluate in E. cbn [sd_fold sdf_eval] in E. injection E as <- <-.
  unfold ray_at at 1. cbn [org dir]. rewrite P.
  apply (sphere_clear c rad (ray_at r (h_t h)) _ w t R OUT); try assumption.
  - apply unit_norm, sd_normal_unit.
  - apply sphere_normal_radial. intros X. rewrite X in OUT. unfold norm in OUT. cbn in OUT.
    replace ((vx c - vx c) * (vx c - vx c) + (vy c - vy c) * (vy c - vy c) + (vz c - vz c) * (vz c - vz c)) with 0 in OUT by ring. rewrite sqrt_0 in OUT. lra.
Qed.

(** ** shadow rays *)
Section Shadow.
Variable mesh_point : nat -> vec2 -> outcome (vec3 * vec3 * R).
Variable M : Type.
Variable inside : nat -> option (option M).
Variable transmittance : M -> ray -> query vec3.
Variables (bary : vec3) (null : nat -> bool) (l : list sdf).
Lemma tr_sdf fuel full us vs : forall near segs, play (sdf_scene bary null l) (tr_loop M inside (S fuel) full near segs) us vs =
  Some (match sdf_intersect l full with
        | None => Ok (Some segs)
        | Some h =>
            if null (h_shape h) then
              match inside (h_shape h) with
              | None => UB
              | Some None => OutOfFuel
              | Some (Some m) =>
                  if Rbar_geb (Finite (h_t h)) (rfar full)
                  then Ok (Some (segs ++ [(m, Ray (org full) (dir full) (Finite (h_t h + Epsilon)) (Finite (h_t h)))]))
                  else OutOfFuel
              end
            else Ok None
        end, us, vs).
Proof.
  assert (SC : forall near, sdf_scene bary null l (Ray (org full) (dir full) near (rfar full)) = option_map (sdf_isect bary null) (sdf_intersect l full)).
  { intros near. destruct full as [o d n f]. cbn [org dir rfar]. unfold sdf_scene. now rewrite (intersect_range l o d near f n f). }
  assert (Step : forall (rest : ray -> Rbar -> list (M * ray) -> query (outcome (option (list (M * ray))))) near segs,
    (forall near segs h, sdf_intersect l full = Some h -> null (h_shape h) = true ->
       (exists m, inside (h_shape h) = Some (Some m) /\ Rbar_geb (Finite (h_t h)) (rfar full) = false) \/ inside (h_shape h) = Some None ->
       play (sdf_scene bary null l) (rest full near segs) us vs = Some (OutOfFuel, us, vs)) ->
    play (sdf_scene bary null l) (QHit (Ray (org full) (dir full) near (rfar full)) (fun a =>
        match a with
        | None => QRet (Ok (Some segs))
        | Some i =>
            if i_null i then
              match inside (i_mesh i) with
              | None => QRet UB
              | Some None => rest full (Finite (i_t i + Epsilon)) segs
              | Some (Some m) =>
                  let near := Finite (i_t i + Epsilon) in
                  QHit (Ray (org full) (dir full) near (rfar full)) (fun b =>
                    match b with
                    | Some j =>
                        if i_null j then
                          let segs := segs ++ [(m, Ray (org full) (dir full) near (Finite (i_t j)))] in
                          if Rbar_geb (Finite (i_t j)) (rfar full) then QRet (Ok (Some segs)) else rest full near segs
                        else QRet (Ok None)
                    | None => rest full near segs
                    end)
              end
            else QRet (Ok None)
        end)) us vs = Some (match sdf_intersect l full with
        | None => Ok (Some segs)
        | Some h =>
            if null (h_shape h) then
              match inside (h_shape h) with
              | None => UB
              | Some None => OutOfFuel
              | Some (Some m) =>
                  if Rbar_geb (Finite (h_t h)) (rfar full)
                  then Ok (Some (segs ++ [(m, Ray (org full) (dir full) (Finite (h_t h + Epsilon)) (Finite (h_t h)))]))
                  else OutOfFuel
              end
            else Ok None
        end, us, vs)).
  { intros rest near segs HR. cbn [play]. rewrite SC. destruct (sdf_intersect l full) as [h|] eqn:E; [|reflexivity].
    cbn [option_map sdf_isect i_null i_mesh i_t]. destruct (null (h_shape h)) eqn:N; [|reflexivity].
    destruct (inside (h_shape h)) as [[m|]|] eqn:I; [|apply (HR _ _ h); auto|reflexivity].
    cbn zeta. cbn [play]. rewrite SC. cbn [option_map sdf_isect i_null i_t]. rewrite N.
    destruct (Rbar_geb (Finite (h_t h)) (rfar full)) eqn:G; [reflexivity|]. apply (HR _ _ h); eauto. }
  induction fuel as [|k IH]; intros near segs.
  - apply (Step (tr_loop M inside 0)). intros. reflexivity.
  - apply (Step (tr_loop M inside (S k))). intros near' segs' h E N C. rewrite IH, E, N.
    destruct C as [(m&->&->)| ->]; reflexivity.
Qed.
Lemma point_light_sdf fuel its nrm im cp power pos v us vs : let w := normalized (vsub pos (i_p its)) in
  (forall h, sdf_intersect l (Ray (i_p its) w (Finite Epsilon) p_infty) = Some h -> null (h_shape h) = false) ->
  exists o, play (sdf_scene bary null l) (eval_emitter mesh_point M inside transmittance (S fuel) false its None nrm im cp (EPoint power pos)) us (v :: vs) = Some (Ok o, us, vs) /\
    (o = None <-> sdf_intersect l (Ray (i_p its) w (Finite Epsilon) p_infty) <> None).
Proof.
  intros w NN. unfold eval_emitter. cbn [play].
  set (r := Ray (i_p its) w (Finite Epsilon) (Finite (sqrt (sqrNorm (vsub pos (i_p its))) - Epsilon))).
  assert (RI : sdf_intersect l r = sdf_intersect l (Ray (i_p its) w (Finite Epsilon) p_infty)) by apply intersect_range.
  assert (Q : exists o, play (sdf_scene bary null l) (tr_loop M inside (S fuel) r (Finite Epsilon) []) us vs = Some (Ok o, us, vs) /\
    (o = None <-> sdf_intersect l r <> None) /\ (forall s, o = Some s -> s = [])).
  { rewrite tr_sdf. destruct (sdf_intersect l r) as [h|] eqn:E.
    - rewrite (NN h) by congruence. exists None. split; [reflexivity|]. split; [split; [discriminate|reflexivity]|discriminate].
    - exists (Some []). split; [reflexivity|]. split; [split; [discriminate|congruence]|]. intros s [= <-]. reflexivity. }
  destruct Q as (o&P&I&S). rewrite <- RI.
  assert (TR : play (sdf_scene bary null l) (intersect_transmittance M inside transmittance (Datatypes.S fuel) r None (V3c 1)) us vs =
    Some (Ok (match o with None => true | Some _ => false end, V3c 1), us, vs)).
  { unfold intersect_transmittance. change (rnear r) with (Finite Epsilon). erewrite play_obind by exact P.
    destruct o as [s|]; [rewrite (S s eq_refl)|]; reflexivity. }
  exists (match o with None => None | Some _ => Some (w, vmul (vdiv (if im then vscale (vdiv power (sqrNorm (vsub pos (i_p its)))) (1 / (4 * PI))
    else vscale (vscale (vdiv power (sqrNorm (vsub pos (i_p its)))) (1 / (4 * PI))) (nee_cos nrm w)) (cp * 1)) (V3c 1)) end).
  split; [|apply (fun X => iff_trans X I); clear; destruct o; split; intros; (discriminate || reflexivity)].
  set (sm := EmS w (Some (sqrNorm (vsub pos (i_p its)))) 1 (vscale (vdiv power (sqrNorm (vsub pos (i_p its)))) (1 / (4 * PI)))).
  assert (S1 : play (sdf_scene bary null l) (QRet (sample_nee mesh_point (EPoint power pos) (i_p its) v)) us vs = Some (Ok sm, us, vs)) by reflexivity.
  assert (S2 : play (sdf_scene bary null l) (shadow_query (Datatypes.S fuel) its (EPoint power pos) sm) us vs =
    Some (Ok (r, vscale (vdiv power (sqrNorm (vsub pos (i_p its)))) (1 / (4 * PI)), 1), us, vs)) by reflexivity.
  rewrite (play_obind _ _ _ _ _ _ _ _ S1), (play_obind _ _ _ _ _ _ _ _ S2). cbv beta iota.
  rewrite (play_obind _ _ _ _ _ _ _ _ TR). clear - M. destruct o; cbv beta iota; cbn [negb orb play]; [|reflexivity].
  change (dir r) with w. destruct (Req_EM_T 1 0) as [E|_]; [exfalso; lra|]. reflexivity.
Qed.
End Shadow.
