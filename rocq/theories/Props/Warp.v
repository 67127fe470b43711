(** C33, C34, C76: sample warping. *)
From Coq Require Import Reals Lra Lia.
From Coquelicot Require Import Coquelicot.
From Verif.Base Require Import RTac.
From Verif.Model Require Import Vec Warp.
From Verif.Spec Require Import LinAlgSpec CameraSpec WarpSpec.
From Verif.Proof Require Import VecLemmas FrameProof CameraProof WarpProof.
Open Scope R_scope.

(** C33 *)
Theorem C33_disk s : in_unit_square s -> sqrNorm2 (sqrToUniDisk s) <= 1.
Proof. intros S. rewrite (disk_point s S). apply S. Qed.
Print Assumptions C33_disk.
Theorem C33_sphere s : in_unit_square s -> unit3 (sqrToUniSph s).
Proof. intros [_ S]. rewrite uni_sph_form. apply sph_dir_unit. lra. Qed.
Print Assumptions C33_sphere.
Theorem C33_hemisphere s : in_unit_square s -> unit3 (sqrToUniHemi s) /\ 0 <= vz (sqrToUniHemi s).
Proof. intros [_ S]. rewrite uni_hemi_form. split; [apply sph_dir_unit; lra|simpl; lra]. Qed.
Print Assumptions C33_hemisphere.
Theorem C33_cosine_hemisphere s : in_unit_square s -> unit3 (sqrToCosHemi s) /\ 0 <= vz (sqrToCosHemi s).
Proof.
  intros S. rewrite cos_hemi_form by exact S. pose proof (sqrt_pos (1 - y2 s)). split; [|simpl; lra].
  apply sph_dir_unit. split; [lra|]. rewrite <- sqrt_1 at 2. apply sqrt_le_1_alt. destruct S; lra.
Qed.
Print Assumptions C33_cosine_hemisphere.
Theorem C33_cosine_power_hemisphere s n : -1 < n -> in_unit_square s ->
  unit3 (sqrToCosPowHemi s n) /\ 0 <= vz (sqrToCosPowHemi s n).
Proof.
  intros N S. destruct (cospow_domain s n N S) as [E B]. rewrite E. split; [apply sph_dir_unit, B|]. simpl. apply rpow_nonneg.
Qed.
Print Assumptions C33_cosine_power_hemisphere.
Theorem C33_cap s m : -1 <= m <= 1 -> in_unit_square s -> unit3 (sqrToUniSphCap s m) /\ m <= vz (sqrToUniSphCap s m).
Proof. intros M [_ S]. rewrite cap_form. split; [apply sph_dir_unit; nra|simpl; nra]. Qed.
Print Assumptions C33_cap.
Theorem C33_triangle s : in_unit_square s -> in_triangle (sqrToUniTri s).
Proof. exact (tri_domain s). Qed.
Print Assumptions C33_triangle.
Example C33_case : in_unit_square (V2 (1/3) (1/4)) /\ y2 (sqrToUniTri (V2 (1/4) (1/2))) = 1/4.
Proof.
  split; [unfold in_unit_square; simpl; lra|]. simpl. replace (1/4) with ((1/2)*(1/2)) at 1 by lra.
  rewrite sqrt_square by lra. lra.
Qed.

(** C34: each density is non-negative with integral one, and the map has that density *)
Theorem C34_uniform_sphere : sphere_density sqrToUniSphPdf /\ sphere_law sqrToUniSph sqrToUniSphPdf.
Proof. exact (conj uni_sph_density uni_sph_law). Qed.
Print Assumptions C34_uniform_sphere.
Theorem C34_uniform_hemisphere : sphere_density sqrToUniHemiPdf /\ sphere_law sqrToUniHemi sqrToUniHemiPdf.
Proof. exact (conj uni_hemi_density uni_hemi_law). Qed.
Print Assumptions C34_uniform_hemisphere.
Theorem C34_cosine_hemisphere : sphere_density sqrToCosHemiPdf /\ sphere_law sqrToCosHemi sqrToCosHemiPdf.
Proof. exact (conj cos_hemi_density cos_hemi_law). Qed.
Print Assumptions C34_cosine_hemisphere.
Theorem C34_cosine_power n : 0 <= n -> sphere_density (fun v => sqrToCosPowHemiPdf v n) /\
  sphere_law (fun s => sqrToCosPowHemi s n) (fun v => sqrToCosPowHemiPdf v n).
Proof. intros N. exact (conj (cospow_density n N) (cospow_law n N)). Qed.
Print Assumptions C34_cosine_power.
(** negative exponents: the density is unbounded at the equator, so only the part above it *)
Theorem C34_cosine_power_negative n : -1 < n ->
  height_law (fun s => sqrToCosPowHemi s n) (fun v => sqrToCosPowHemiPdf v n) (fun c => 0 < c).
Proof. exact (cospow_law_pos n). Qed.
Print Assumptions C34_cosine_power_negative.
Theorem C34_cap m : -1 <= m < 1 -> sphere_density (fun v => sqrToUniSphCapPdf v m) /\
  sphere_law (fun s => sqrToUniSphCap s m) (fun v => sqrToUniSphCapPdf v m).
Proof. intros M. exact (conj (cap_density m M) (cap_law m M)). Qed.
Print Assumptions C34_cap.
Theorem C34_disk : (forall p, 0 <= sqrToUniDiskPdf p) /\ disk_integral sqrToUniDiskPdf 1 (2 * PI) 1 /\
  disk_law sqrToUniDisk sqrToUniDiskPdf.
Proof.
  pose proof PI_RGT_0. split.
  - intros p. unfold sqrToUniDiskPdf. destruct (Rle_dec _ 1); [apply Rlt_le, Rdiv_lt_0_compat; lra|lra].
  - split; [|exact disk_law_uni]. replace 1 with (2 * PI / (2 * PI) * (1 * 1)) at 2 by (field; lra). apply disk_int. lra.
Qed.
Print Assumptions C34_disk.
(** triangle: the samples landing in {u <= a, v <= b (1 - u)} are those of a rectangle of area equal
    to the integral of the density over that set *)
Theorem C34_triangle a b : 0 <= a <= 1 -> 0 <= b <= 1 ->
  tri_integral sqrToUniTriPdf a b (b * (1 - (1 - a) * (1 - a))) /\
  (forall s, in_unit_square s -> 0 < x2 s ->
    (x2 (sqrToUniTri s) <= a /\ y2 (sqrToUniTri s) <= b * (1 - x2 (sqrToUniTri s)) <->
     (1 - a) * (1 - a) <= x2 s /\ y2 s <= b)).
Proof. intros A B. split; [exact (tri_int a b A B)|]. intros s S P. exact (tri_preimage s a b S A B P). Qed.
Print Assumptions C34_triangle.
Theorem C34_triangle_normalised : tri_integral sqrToUniTriPdf 1 1 1.
Proof. replace 1 with (1 * (1 - (1 - 1) * (1 - 1))) at 3 by ring. apply tri_int; lra. Qed.
Print Assumptions C34_triangle_normalised.
Example C34_case : -1 <= 1/2 < 1 /\ sqrToUniSphCapPdf (V3 0 0 1) (1/2) = 1 / PI.
Proof.
  pose proof PI_RGT_0. split; [lra|]. unfold sqrToUniSphCapPdf; simpl. destruct (Rlt_dec 1 (1/2)); [lra|]. field; lra.
Qed.

(** C76: the triangle density tests only the sum of the coordinates *)
Theorem C76_triangle_density_refuted : exists p, ~ in_triangle p /\ sqrToUniTriPdf p = 2.
Proof.
  exists (V2 (-1) (3/2)). unfold in_triangle, sqrToUniTriPdf; simpl. split; [lra|].
  destruct (Rgt_dec _ 1); [lra|]. destruct (Rlt_dec _ 0); [lra|reflexivity].
Qed.
Print Assumptions C76_triangle_density_refuted.
Theorem C76_triangle_density_exact p : sqrToUniTriPdf p = if Rle_dec 0 (x2 p + y2 p) then
  if Rle_dec (x2 p + y2 p) 1 then 2 else 0 else 0.
Proof. unfold sqrToUniTriPdf. rcase; lra. Qed.
Print Assumptions C76_triangle_density_exact.
Theorem C76_right_for_nonnegative_coordinates p : 0 <= x2 p -> 0 <= y2 p ->
  (sqrToUniTriPdf p = 2 /\ in_triangle p) \/ (sqrToUniTriPdf p = 0 /\ ~ in_triangle p).
Proof.
  intros X Y. unfold sqrToUniTriPdf, in_triangle.
  destruct (Rgt_dec (x2 p + y2 p) 1); [right; split; [reflexivity|lra]|].
  destruct (Rlt_dec (x2 p + y2 p) 0); [lra|left; split; [reflexivity|lra]].
Qed.
Print Assumptions C76_right_for_nonnegative_coordinates.
(** the densities of the disk, the hemispheres and the cap vanish off their domains *)
Theorem C76_other_densities_vanish_outside :
  (forall p, sqrNorm2 p > 1 -> sqrToUniDiskPdf p = 0) /\
  (forall v, vz v < 0 -> sqrToUniHemiPdf v = 0 /\ sqrToCosHemiPdf v = 0 /\ forall n, sqrToCosPowHemiPdf v n = 0) /\
  (forall v m, vz v < m -> sqrToUniSphCapPdf v m = 0).
Proof.
  unfold sqrToUniDiskPdf, sqrToUniHemiPdf, sqrToCosHemiPdf, sqrToCosPowHemiPdf, sqrToUniSphCapPdf.
  repeat split; intros; rcase; lra.
Qed.
Print Assumptions C76_other_densities_vanish_outside.
Example C76_case : sqrToUniTriPdf (V2 (1 / 4) (1 / 2)) = 2 /\ in_triangle (V2 (1 / 4) (1 / 2)) /\ sqrToUniTriPdf (V2 (3 / 4) (1 / 2)) = 0.
Proof. unfold sqrToUniTriPdf, in_triangle; simpl. rcase; lra. Qed.
