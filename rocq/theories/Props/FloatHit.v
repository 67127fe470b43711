(** C215: where a hit of a mesh is, in single precision, and whether a ray leaving it meets the
    triangle it leaves. *)
From Coq Require Import ZArith Reals Lra Lia Bool Psatz.
From Coquelicot Require Import Rbar.
From Flocq Require Import Core BinarySingleNaN.
From Verif.Base Require Import F32.
From Verif.Model Require Import Vec FloatDirs FloatHit BBox Integrators.
From Verif.Spec Require Import FloatDirsSpec MeshSpec FloatHitSpec.
From Verif.Proof Require Import VecLemmas FloatDirsProof FloatHitProof.
Open Scope R_scope.

(** the position is finite and within 9 * 2^-24 times the largest coordinate of the true one *)
Theorem C215_point B a b c u v : p2 (-100) <= B <= p2 100 -> tri_within B a b c -> bary_ok u v ->
  fv_fin (f_hit_point a b c u v) /\ dist (real_point (f_hit_point a b c u v)) (true_point a b c u v) <= 9 * u32 * B.
Proof.
  intros HB T H. destruct (hit_point B a b c u v HB T H) as (F & X & Y & Z). split; [exact F|].
  set (p := f_hit_point a b c u v) in *. set (q := true_point a b c u v) in *. unfold dist, real_point. cbn [vx vy vz].
  set (e := u32 * B). assert (E : 0 <= e). { apply Rmult_le_pos; [unfold u32; simpl; lra|]. pose proof (bpow_ge_0 radix2 (-100)). lra. }
  replace (9 * u32 * B) with (sqrt ((9 * e) * (9 * e))) by (rewrite sqrt_square by lra; unfold e; ring).
  apply sqrt_le_1_alt. replace (5 * u32 * B) with (5 * e) in X, Y, Z by (unfold e; ring).
  assert (SQ : forall z, Rabs z <= 5 * e -> z * z <= 25 * (e * e)). { intros z Hz. apply Rabs_le_inv in Hz. nra. }
  apply SQ in X. apply SQ in Y. apply SQ in Z. nra.
Qed.
Print Assumptions C215_point.

(** a ray leaving the hit that is not too close to the plane of the triangle does not meet the
    triangle again *)
Theorem C215_leaves B a b c u v n d t : p2 (-100) <= B <= p2 100 -> tri_within B a b c -> bary_ok u v ->
  unit_normal n (real_point a) (real_point b) (real_point c) -> 9 * u32 * B < Epsilon * Rabs (dot n d) ->
  in_ray_range (leaving (real_point (f_hit_point a b c u v)) d) t ->
  ~ in_triangle (real_point a) (real_point b) (real_point c) (ray_at (leaving (real_point (f_hit_point a b c u v)) d) t).
Proof.
  intros HB T H (N & N1 & N2) G (L & _) (w & (_ & _ & _ & SW) & E). destruct (C215_point B a b c u v HB T H) as (_ & D).
  set (p := real_point (f_hit_point a b c u v)) in *. set (q := true_point a b c u v) in *. unfold leaving in *. cbn [rnear] in L. cbn [Rbar_le] in L.
  set (A := real_point a) in *. set (P := real_point b) in *. set (C := real_point c) in *.
  assert (Q : dot n (vsub q A) = 0).
  { unfold q, true_point. fold A P C. unfold dot, vsub, combine3, vadd, vscale in *. cbn [vx vy vz] in *.
    transitivity (B2R u * ((vx P - vx A) * vx n + (vy P - vy A) * vy n + (vz P - vz A) * vz n) + B2R v * ((vx C - vx A) * vx n + (vy C - vy A) * vy n + (vz C - vz A) * vz n)); [ring|].
    rewrite N1, N2. ring. }
  assert (W : dot n (vsub (ray_at (Ray p d (Finite Epsilon) p_infty) t) A) = 0).
  { rewrite E. unfold dot, vsub, combine3, vadd, vscale in *. cbn [vx vy vz] in *.
    replace (vx w) with (1 - vy w - vz w) by lra.
    transitivity (vy w * ((vx P - vx A) * vx n + (vy P - vy A) * vy n + (vz P - vz A) * vz n) + vz w * ((vx C - vx A) * vx n + (vy C - vy A) * vy n + (vz C - vz A) * vz n)); [ring|].
    rewrite N1, N2. ring. }
  assert (K : dot n (vsub p q) + t * dot n d = 0).
  { unfold ray_at in W. cbn [org dir] in W. unfold dot, vsub, vadd, vscale in *. cbn [vx vy vz] in *. lra. }
  assert (CS : Rabs (dot n (vsub p q)) <= dist p q).
  { unfold dist. rewrite <- sqrt_Rsqr_abs. apply sqrt_le_1_alt. unfold Rsqr, dot, vsub in *. cbn [vx vy vz] in *.
    set (x := vx p - vx q). set (y := vy p - vy q). set (z := vz p - vz q). set (n1 := vx n) in *. set (n2 := vy n) in *. set (n3 := vz n) in *.
    replace (x * x + y * y + z * z) with ((n1 * n1 + n2 * n2 + n3 * n3) * (x * x + y * y + z * z)) by (rewrite N; ring).
    pose proof (Rle_0_sqr (x * n2 - y * n1)). pose proof (Rle_0_sqr (x * n3 - z * n1)). pose proof (Rle_0_sqr (y * n3 - z * n2)). unfold Rsqr in *. nra. }
  assert (TT : Rabs (t * dot n d) = Rabs (dot n (vsub p q))). { replace (t * dot n d) with (- dot n (vsub p q)) by lra. apply Rabs_Ropp. }
  rewrite Rabs_mult in TT. assert (0 < Epsilon) by (unfold Epsilon; lra). rewrite (Rabs_pos_eq t) in TT by lra.
  assert (Epsilon * Rabs (dot n d) <= t * Rabs (dot n d)) by (apply Rmult_le_compat_r; [apply Rabs_pos|exact L]). lra.
Qed.
Print Assumptions C215_leaves.

(** * Far from the origin *)
(** a horizontal triangle at the height 15705.839..., and a hit inside it *)
Definition far_z : f32 := f_of 0xF5675C (-10).
Definition far_a : fvec := FV f0 f0 far_z.
Definition far_b : fvec := FV f1 f0 far_z.
Definition far_c : fvec := FV f0 f1 far_z.
Definition far_u : f32 := f_of 0x9788D4 (-25).
Definition far_v : f32 := f_of 0xADB015 (-27).
Lemma far_zv : B2R far_z = 16082780 / 1024 /\ is_finite far_z = true.
Proof. destruct (f_of_small 0xF5675C (-10) ltac:(lia) ltac:(lia)) as (E & F). split; [|exact F]. unfold far_z. rewrite E. simpl. lra. Qed.
Lemma far_uv : B2R far_u = 9930964 / 33554432 /\ is_finite far_u = true.
Proof. destruct (f_of_small 0x9788D4 (-25) ltac:(lia) ltac:(lia)) as (E & F). split; [|exact F]. unfold far_u. rewrite E. simpl. lra. Qed.
Lemma far_vv : B2R far_v = 11382805 / 134217728 /\ is_finite far_v = true.
Proof. destruct (f_of_small 0xADB015 (-27) ltac:(lia) ltac:(lia)) as (E & F). split; [|exact F]. unfold far_v. rewrite E. simpl. lra. Qed.
Lemma f1_v : B2R f1 = 1 /\ is_finite f1 = true.
Proof. apply (fZ_small 1). lia. Qed.
Lemma far_point : real_point (f_hit_point far_a far_b far_c far_u far_v) = V3 (B2R far_u) (B2R far_v) (B2R far_z - / 512).
Proof.
  destruct far_zv as (Z & _), far_uv as (U & _), far_vv as (V & _). unfold real_point. rewrite Z, U, V.
  assert (E1 : B2SF (fvx (f_hit_point far_a far_b far_c far_u far_v)) = SpecFloat.S754_finite false 0x9788D4 (-25)) by (vm_compute; reflexivity).
  assert (E2 : B2SF (fvy (f_hit_point far_a far_b far_c far_u far_v)) = SpecFloat.S754_finite false 0xADB015 (-27)) by (vm_compute; reflexivity).
  assert (E3 : B2SF (fvz (f_hit_point far_a far_b far_c far_u far_v)) = SpecFloat.S754_finite false 0xF5675A (-10)) by (vm_compute; reflexivity).
  rewrite <- !SF2R_B2SF, E1, E2, E3. unfold SF2R, F2R. cbn [Fnum Fexp cond_Zopp]. apply V3_eq; cbn [vx vy vz]; simpl; lra.
Qed.
Lemma far_ok : tri_within (p2 14) far_a far_b far_c /\ bary_ok far_u far_v.
Proof.
  destruct far_zv as (Z & FZ), far_uv as (U & FU), far_vv as (V & FV), f1_v as (O & FO).
  assert (M : forall x, x = 0 \/ x = 1 \/ x = 16082780 / 1024 -> Rabs x <= p2 14). { intros x [-> | [-> | ->]]; simpl; rewrite Rabs_pos_eq; lra. }
  split.
  - repeat split; try assumption; try reflexivity; unfold fv_max, far_a, far_b, far_c; cbn [fvx fvy fvz]; rewrite ?O, ?Z; repeat apply Rmax_lub; apply M; tauto.
  - unfold bary_ok. rewrite U, V. repeat split; try assumption; try lra; simpl; lra.
Qed.

(** a ray leaving the hit along the normal meets the triangle it leaves, beyond the distance Epsilon *)
Theorem C215_meets_refuted : exists a b c u v n t, tri_within (p2 14) a b c /\ bary_ok u v /\
  unit_normal n (real_point a) (real_point b) (real_point c) /\
  in_ray_range (leaving (real_point (f_hit_point a b c u v)) n) t /\
  in_triangle (real_point a) (real_point b) (real_point c) (ray_at (leaving (real_point (f_hit_point a b c u v)) n) t).
Proof.
  exists far_a, far_b, far_c, far_u, far_v, (V3 0 0 1), (/ 512). destruct far_ok as (T & H). split; [exact T|]. split; [exact H|].
  assert (RA : real_point far_a = V3 0 0 (B2R far_z)) by reflexivity.
  destruct f1_v as (O & _).
  assert (RB : real_point far_b = V3 1 0 (B2R far_z)) by (unfold real_point, far_b; cbn [fvx fvy fvz]; rewrite O; reflexivity).
  assert (RC : real_point far_c = V3 0 1 (B2R far_z)) by (unfold real_point, far_c; cbn [fvx fvy fvz]; rewrite O; reflexivity).
  rewrite RA, RB, RC, far_point. destruct far_uv as (U & _), far_vv as (V & _).
  split; [|split].
  - unfold unit_normal, dot, vsub. cbn [vx vy vz]. repeat split; ring.
  - unfold in_ray_range, leaving, Epsilon. cbn [rnear rfar Rbar_le]. split; [lra|exact I].
  - exists (V3 (1 - B2R far_u - B2R far_v) (B2R far_u) (B2R far_v)). split.
    + unfold weights. cbn [vx vy vz]. rewrite U, V. repeat split; lra.
    + unfold ray_at, leaving, combine3. cbn [org dir]. apply V3_eq; unfold vadd, vscale; cbn [vx vy vz]; ring.
Qed.
Print Assumptions C215_meets_refuted.

(** * A case *)
(** in a scene within 64 units of the origin all rays at more than 2 degrees from the surface leave it *)
Definition near_a : fvec := FV f0 f0 (fZ 50).
Definition near_b : fvec := FV (fZ 64) f0 (fZ 50).
Definition near_c : fvec := FV f0 (fZ 64) (fZ 50).
Example C215_case d t : 35 / 1000 <= vz d -> in_ray_range (leaving (real_point (f_hit_point near_a near_b near_c far_u far_v)) d) t ->
  ~ in_triangle (real_point near_a) (real_point near_b) (real_point near_c) (ray_at (leaving (real_point (f_hit_point near_a near_b near_c far_u far_v)) d) t).
Proof.
  intros D R. destruct (fZ_small 50 ltac:(lia)) as (Z & FZ). destruct (fZ_small 64 ltac:(lia)) as (X & FX).
  assert (M : forall x, x = 0 \/ x = 50 \/ x = 64 -> Rabs x <= 64). { intros x [-> | [-> | ->]]; rewrite Rabs_pos_eq; lra. }
  assert (T : tri_within 64 near_a near_b near_c).
  { repeat split; try assumption; try reflexivity; unfold fv_max, near_a, near_b, near_c; cbn [fvx fvy fvz]; rewrite ?Z, ?X; repeat apply Rmax_lub; apply M; tauto. }
  apply (C215_leaves 64 near_a near_b near_c far_u far_v (V3 0 0 1) d t); [|exact T|exact (proj2 far_ok)| | |exact R].
  - split; [change 64 with (bpow radix2 6) at 1; apply bpow_le; lia|change 64 with (bpow radix2 6); apply bpow_le; lia].
  - unfold unit_normal, real_point, near_a, near_b, near_c, dot, vsub. cbn [vx vy vz fvx fvy fvz]. rewrite ?Z, ?X. change (B2R f0) with 0. repeat split; ring.
  - unfold dot. cbn [vx vy vz]. replace (vx d * 0 + vy d * 0 + vz d * 1) with (vz d) by ring. rewrite Rabs_pos_eq by lra. unfold Epsilon, u32. simpl. lra.
Qed.
