(** C216: the normals of mesh hits are unit vectors, in single precision. *)
From Coq Require Import ZArith Reals Lra Lia Bool Psatz.
From Flocq Require Import Core BinarySingleNaN.
From Verif.Base Require Import F32.
From Verif.Model Require Import Vec FloatDirs FloatHit.
From Verif.Spec Require Import FloatDirsSpec MeshSpec FloatHitSpec FloatNormalSpec.
From Verif.Proof Require Import VecLemmas FloatDirsProof FloatHitProof FloatNormalProof.
Open Scope R_scope.

(** The geometric normal is a unit vector along the exact normal unless the triangle is a needle.
    The allowance is relative to the edges, not to the distance from the origin. *)
Theorem C216_geometric a b c : fv_fin a -> fv_fin b -> fv_fin c ->
  bpow radix2 (-40) <= vmax (edge a b) <= bpow radix2 25 -> bpow radix2 (-40) <= vmax (edge a c) <= bpow radix2 25 ->
  let e := 9 * u32 * (vmax (edge a b) * vmax (edge a c)) in
  bpow radix2 (-50) + e <= vmax (true_cross a b c) ->
  unit_vector (f_geo_normal a b c) /\ along (e / (vmax (true_cross a b c) - e) + / 2 ^ 23) (f_geo_normal a b c) (true_cross a b c).
Proof. exact (geometric a b c). Qed.
Print Assumptions C216_geometric.

(** The shading normal is a unit vector along the interpolated vertex normals when these are about
    one long and at most 90 degrees apart. *)
Theorem C216_shading a b c u v : normals_ok a b c -> bary_ok u v ->
  unit_vector (f_shading_normal a b c u v) /\ along (/ 2 ^ 17) (f_shading_normal a b c u v) (true_point a b c u v).
Proof. exact (shading a b c u v). Qed.
Print Assumptions C216_shading.

Lemma fin_of' v : (is_finite (fvx v) && is_finite (fvy v) && is_finite (fvz v))%bool = true -> fv_fin v.
Proof. intros H. apply andb_true_iff in H as (H & Z). apply andb_true_iff in H as (X & Y). split; [|split]; assumption. Qed.

(** a triangle with an area whose normal is not a number *)
Definition thin_a : fvec := FV f0 f0 f0.
Definition thin_b : fvec := FV (f_of 8388609 (-23)) f1 f0.
Definition thin_c : fvec := FV f1 (f_of 8388607 (-23)) f0.
Theorem C216_needle_refuted : exists a b c, fv_fin a /\ fv_fin b /\ fv_fin c /\ true_cross a b c <> V3 0 0 0 /\
  fvx (f_geo_normal a b c) = B754_nan /\ fvy (f_geo_normal a b c) = B754_nan /\ fvz (f_geo_normal a b c) = B754_nan.
Proof.
  exists thin_a, thin_b, thin_c. split; [now apply fin_of'|]. split; [now apply fin_of'|]. split; [now apply fin_of'|]. split.
  - intros E. apply (f_equal vz) in E. unfold true_cross, edge, real_point, thin_a, thin_b, thin_c, cross, vsub in E. cbn [vx vy vz fvx fvy fvz] in E.
    destruct (f_of_small 8388609 (-23) ltac:(lia) ltac:(lia)) as (X & _). destruct (f_of_small 8388607 (-23) ltac:(lia) ltac:(lia)) as (Y & _).
    destruct (fZ_small 1 ltac:(lia)) as (O & _). fold f1 in O. rewrite X, Y, O in E. change (B2R f0) with 0 in E. simpl in E. lra.
  - assert (K : forall x : f32, B2SF x = SpecFloat.S754_nan -> x = B754_nan). { intros [s|s| |s m e p] H; cbn in H; try discriminate H; reflexivity. }
    split; [|split]; apply K; vm_compute; reflexivity.
Qed.
Print Assumptions C216_needle_refuted.

(** vertex normals of length one whose interpolation is not a number *)
Definition up : fvec := FV f0 f0 f1.
Definition down : fvec := FV f0 f0 (fZ (-1)).
Theorem C216_opposite_refuted : exists a b c u v, tri_within 2 a b c /\ len2 a = 1 /\ len2 b = 1 /\ len2 c = 1 /\ bary_ok u v /\
  fvx (f_shading_normal a b c u v) = B754_nan /\ fvy (f_shading_normal a b c u v) = B754_nan /\ fvz (f_shading_normal a b c u v) = B754_nan.
Proof.
  exists up, down, up, fhalf, f0. destruct (fZ_small 1 ltac:(lia)) as (O & FO). destruct (fZ_small (-1) ltac:(lia)) as (D & FD). fold f1 in O, FO.
  destruct (f_of_small 1 (-1) ltac:(lia) ltac:(lia)) as (Hf & FH). fold fhalf in Hf, FH. assert (Hf' : B2R fhalf = 1 / 2) by (rewrite Hf; simpl (bpow radix2 (-1)); lra).
  assert (M : forall x, x = 0 \/ x = 1 \/ x = -1 -> Rabs x <= 2). { intros x [-> | [-> | ->]]; unfold Rabs; destruct (Rcase_abs _); lra. }
  assert (U : fv_fin up /\ fv_max up <= 2).
  { split; [now apply fin_of'|]. apply fv_max_lub; unfold up; cbn [fvx fvy fvz]; rewrite ?O; apply M; tauto. }
  assert (W : fv_fin down /\ fv_max down <= 2).
  { split; [now apply fin_of'|]. apply fv_max_lub; unfold down; cbn [fvx fvy fvz]; rewrite ?D; apply M; tauto. }
  assert (LU : len2 up = 1). { unfold len2, up. cbn [fvx fvy fvz]. rewrite O. change (B2R f0) with 0. ring. }
  assert (LD : len2 down = 1). { unfold len2, down. cbn [fvx fvy fvz]. rewrite D. change (B2R f0) with 0. ring. }
  split; [split; [exact U|split; [exact W|exact U]]|]. split; [exact LU|]. split; [exact LD|]. split; [exact LU|].
  split.
  - unfold bary_ok. rewrite Hf'. change (B2R f0) with 0. repeat split; try assumption; try reflexivity; simpl; lra.
  - assert (K : forall x : f32, B2SF x = SpecFloat.S754_nan -> x = B754_nan). { intros [s|s| |s m e p] H; cbn in H; try discriminate H; reflexivity. }
    split; [|split]; apply K; vm_compute; reflexivity.
Qed.
Print Assumptions C216_opposite_refuted.

(** * Cases *)
(** a triangle with edges 1 and 2 far from the origin: the normal is (0, 0, 1) up to 2^-19 *)
Definition off_a : fvec := FV (fZ 10000) (fZ 10000) (fZ 10000).
Definition off_b : fvec := FV (fZ 10001) (fZ 10000) (fZ 10000).
Definition off_c : fvec := FV (fZ 10000) (fZ 10002) (fZ 10000).
Lemma off_edges : edge off_a off_b = V3 1 0 0 /\ edge off_a off_c = V3 0 2 0.
Proof.
  unfold edge, real_point, vsub, off_a, off_b, off_c. cbn [vx vy vz fvx fvy fvz].
  destruct (fZ_small 10000 ltac:(lia)) as (A & _). destruct (fZ_small 10001 ltac:(lia)) as (B & _). destruct (fZ_small 10002 ltac:(lia)) as (C & _).
  rewrite A, B, C. split; apply V3_eq; cbn [vx vy vz]; lra.
Qed.
Lemma vmax_val v m : Rabs (vx v) <= m -> Rabs (vy v) <= m -> Rabs (vz v) <= m -> (Rabs (vx v) = m \/ Rabs (vy v) = m \/ Rabs (vz v) = m) -> vmax v = m.
Proof. intros X Y Z H. apply Rle_antisym; [now apply vmax_lub|]. pose proof (vmax_le v). destruct H as [H|[H|H]]; lra. Qed.
Example C216_case_geometric : unit_vector (f_geo_normal off_a off_b off_c) /\ along (/ 2 ^ 19) (f_geo_normal off_a off_b off_c) (V3 0 0 2).
Proof.
  destruct off_edges as (E1 & E2). assert (X : true_cross off_a off_b off_c = V3 0 0 2).
  { unfold true_cross. rewrite E1, E2. unfold cross. apply V3_eq; cbn [vx vy vz]; lra. }
  assert (V1 : vmax (V3 1 0 0) = 1). { apply vmax_val; cbn [vx vy vz]; rewrite ?Rabs_R0, ?Rabs_R1; lra. }
  assert (V2 : vmax (V3 0 2 0) = 2). { apply vmax_val; cbn [vx vy vz]; rewrite ?Rabs_R0, ?(Rabs_pos_eq 2); lra. }
  assert (V3' : vmax (V3 0 0 2) = 2). { apply vmax_val; cbn [vx vy vz]; rewrite ?Rabs_R0, ?(Rabs_pos_eq 2); lra. }
  assert (P : forall x, 1 <= x <= 2 -> bpow radix2 (-40) <= x <= bpow radix2 25).
  { intros x (A & B). assert (bpow radix2 (-40) <= bpow radix2 0) by (apply bpow_le; lia). assert (bpow radix2 1 <= bpow radix2 25) by (apply bpow_le; lia). simpl (bpow radix2 0) in *. simpl (bpow radix2 1) in *. lra. }
  destruct (C216_geometric off_a off_b off_c) as (U & A); try (now apply fin_of').
  - rewrite E1, V1. apply P. lra.
  - rewrite E2, V2. apply P. lra.
  - rewrite E1, E2, X, V1, V2, V3'. assert (bpow radix2 (-50) <= bpow radix2 0) by (apply bpow_le; lia). simpl (bpow radix2 0) in *. unfold u32. simpl (2 ^ 24). lra.
  - split; [exact U|]. rewrite E1, E2, X, V1, V2, V3' in A. destruct A as (k & k0 & A). exists k. split; [exact k0|].
    assert (9 * u32 * (1 * 2) / (2 - 9 * u32 * (1 * 2)) + / 2 ^ 23 <= / 2 ^ 19); [|lra].
    assert (/ (2 - 9 * u32 * (1 * 2)) <= / 1) by (apply Rinv_le_contravar; unfold u32; simpl; lra). rewrite Rinv_1 in H.
    assert (9 * u32 * (1 * 2) * / (2 - 9 * u32 * (1 * 2)) <= 9 * u32 * (1 * 2) * 1) by (apply Rmult_le_compat_l; [unfold u32; simpl; lra|exact H]).
    unfold Rdiv. clear -H0. unfold u32 in *. simpl (2 ^ 24) in *. simpl (2 ^ 23). simpl (2 ^ 19). lra.
Qed.
(** the corner of a cube: three normals at right angles *)
Definition ex : fvec := FV f1 f0 f0.
Definition ey : fvec := FV f0 f1 f0.
Example C216_case_shading u v : bary_ok u v -> unit_vector (f_shading_normal up ex ey u v).
Proof.
  intros H. apply C216_shading; [|exact H]. destruct (fZ_small 1 ltac:(lia)) as (O & FO). fold f1 in O, FO.
  assert (M : forall x, x = 0 \/ x = 1 -> Rabs x <= 2). { intros x [-> | ->]; unfold Rabs; destruct (Rcase_abs _); lra. }
  unfold normals_ok, tri_within, len2, dot, real_point, up, ex, ey. cbn [vx vy vz fvx fvy fvz]. rewrite O. change (B2R f0) with 0.
  repeat split; try assumption; try reflexivity; try lra; apply fv_max_lub; cbn [fvx fvy fvz]; rewrite ?O; apply M; tauto.
Qed.
