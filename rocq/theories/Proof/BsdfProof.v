From Coq Require Import Reals List Bool ZArith Lra Lia.
From Coquelicot Require Import Coquelicot.
From Verif.Model Require Import Vec Frame BBox Warp Integrators Bsdf.
From Verif.Spec Require Import LinAlgSpec FrameSpec CameraSpec WarpSpec BsdfSpec IntegratorSpec.
From Verif.Proof Require Import VecLemmas FrameProof WarpProof.
Import ListNotations.
Open Scope R_scope.

Definition schlick0 (a b : R) : R := ((a - b) / (a + b)) * ((a - b) / (a + b)).

Lemma fresnel_cases c ext int : 0 < ext -> 0 < int -> ext <> int ->
  let ni := if Rlt_dec c 0 then int else ext in
  let nt := if Rlt_dec c 0 then ext else int in
  (total_reflection c ni nt -> fresnel c ext int = Some 1) /\
  (~ total_reflection c ni nt -> c <> 0 -> fresnel c ext int = Some (schlick0 ext int)) /\
  (~ total_reflection c ni nt -> c = 0 -> fresnel c ext int = None).
Proof.
  intros E I N. cbv zeta. unfold fresnel, total_reflection, schlick0.
  destruct (Req_EM_T ext int); [contradiction|].
  assert (D : forall ni nt, 0 < nt -> (ni / nt * (ni / nt) * (1 - c * c) > 1 <-> nt * nt < ni * ni * (1 - c * c))).
  { intros ni nt P. replace (ni / nt * (ni / nt) * (1 - c * c)) with (ni * ni * (1 - c * c) / (nt * nt)) by (field; lra).
    assert (P2 : 0 < nt * nt) by nra. split; intros H0.
    - apply Rmult_lt_reg_r with (/ (nt * nt)); [apply Rinv_0_lt_compat; lra|]. rewrite Rinv_r by lra. exact H0.
    - apply Rmult_lt_reg_r with (nt * nt); [lra|]. unfold Rdiv. rewrite Rmult_assoc, Rinv_l by lra. lra. }
  destruct (Rlt_dec c 0).
  - replace (- c * - c) with (c * c) by ring. specialize (D int ext E).
    destruct (Rgt_dec _ 1) as [G|G]; rewrite D in G.
    + repeat split; intros; try contradiction; reflexivity.
    + split; [intros; contradiction|]. split; [|intros; lra]. intros _ _.
      destruct (Req_EM_T _ 0); [nra|]. f_equal. field. split; lra.
  - specialize (D ext int I). destruct (Rgt_dec _ 1) as [G|G]; rewrite D in G.
    + repeat split; intros; try contradiction; reflexivity.
    + split; [intros; contradiction|]. split.
      * intros _ C. destruct (Req_EM_T _ 0); [exfalso; assert (0 < c) by lra; nra|]. f_equal. field. split; lra.
      * intros _ ->. destruct (Req_EM_T _ 0); [reflexivity|]. exfalso; apply n1; ring.
Qed.

Lemma schlick0_range a b : 0 < a -> 0 < b -> 0 <= schlick0 a b <= 1.
Proof.
  intros A B. unfold schlick0. set (x := (a - b) / (a + b)).
  assert (X : -1 <= x <= 1).
  { unfold x. split; [apply Rmult_le_reg_r with (a + b); [lra|]; unfold Rdiv; rewrite Rmult_assoc, Rinv_l by lra; lra|].
    apply Rmult_le_reg_r with (a + b); [lra|]; unfold Rdiv; rewrite Rmult_assoc, Rinv_l by lra; lra. }
  nra.
Qed.

Lemma total_dec c ni nt : {total_reflection c ni nt} + {~ total_reflection c ni nt}.
Proof. unfold total_reflection. apply Rlt_dec. Qed.

(** ** directions *)
Lemma mirrored_reflection w : mirrored w = reflection up w.
Proof. unfold mirrored, reflection, up, vsub, vscale, dot; simpl. apply V3_eq; simpl; ring. Qed.
Lemma mirrored_unit w : unit3 w -> unit3 (mirrored w).
Proof. unfold unit3, mirrored, dot; simpl. intros H; lra. Qed.
Lemma phong_wr_mirrored w : phong_wr w = mirrored w.
Proof. unfold phong_wr, mirrored, vsub; simpl. apply V3_eq; simpl; ring. Qed.

Lemma wt_norm eta wi : unit3 wi -> sqrNorm (vscale (V3 (- vx wi) (- vy wi) 0) eta) = eta * eta * (1 - vz wi * vz wi).
Proof. unfold unit3, dot, sqrNorm; simpl. intros H. nra. Qed.

Lemma refracted_sqrt root wi eta : unit3 wi -> let s := 1 - eta * eta * (1 - vz wi * vz wi) in
  root s = sqrt s -> 0 < s -> (vz wi < - Epsilon \/ 0 < vz wi) ->
  let wo := refracted root wi eta in
  unit3 wo /\ vz wi * vz wo < 0 /\ vx wo = - (eta * vx wi) /\ vy wo = - (eta * vy wi).
Proof.
  intros U s Rt S Z. unfold refracted. cbv zeta. rewrite (wt_norm eta wi U). fold s. rewrite Rt.
  assert (Q : sqrt s * sqrt s = s) by (apply sqrt_sqrt; lra). assert (Qp : 0 < sqrt s) by (apply sqrt_lt_R0; lra).
  assert (Ep : 0 < Epsilon) by (unfold Epsilon; lra).
  unfold unit3, dot in *. assert (X : eta * eta * (vx wi * vx wi + vy wi * vy wi) = eta * eta * (1 - vz wi * vz wi)) by (f_equal; lra).
  destruct (Rlt_dec (vz wi) (- Epsilon)); simpl; split; try (split; [nra|split; ring]).
  - transitivity (eta * eta * (vx wi * vx wi + vy wi * vy wi) + sqrt s * sqrt s); [ring|]. rewrite X, Q. unfold s. ring.
  - transitivity (eta * eta * (vx wi * vx wi + vy wi * vy wi) + sqrt s * sqrt s); [ring|]. rewrite X, Q. unfold s. ring.
Qed.

(** ** diffuse *)
Lemma diffuse_integral (a : R) : sphere_integral (fun wo => (if Rle_dec (vz wo) 0 then 0 else a * (1 / PI)) * vz wo) a.
Proof.
  unfold sphere_integral. pose proof PI_RGT_0.
  set (v := a * ((1 - Rmax (-1) 0 * Rmax (-1) 0) / (2 * PI))).
  assert (E : 2 * PI * v = a) by (unfold v; rewrite Rmax_right by lra; field; lra).
  assert (K : cap_integral (fun wo => (if Rle_dec (vz wo) 0 then 0 else a * (1 / PI)) * vz wo) (-1) (2 * PI) (2 * PI * v)).
  { apply cap_integral_of with (g := fun z => a * (if Rgt_dec z 0 then 1 / PI * z else 0)).
    - intros z q. simpl. destruct (Rle_dec z 0), (Rgt_dec z 0); lra.
    - apply (is_RInt_scal (V := R_NormedModule)). apply cos_hemi_int. lra. }
  rewrite E in K. exact K.
Qed.

(** ** lobes *)
Lemma law_around_frame n warp pdf : unit3 n -> sphere_law warp pdf ->
  law_around n (fun u => toWorld (frame_of n) (warp u)) (fun v => pdf (toLocal (frame_of n) v)).
Proof.
  intros U L. destruct (frame_orthonormal n U) as (O&_&E).
  exists (fs (frame_of n)), (ft (frame_of n)), warp, pdf. rewrite E in O. split; [exact O|]. split; [exact L|]. cbv zeta. split.
  - intros u. unfold toWorld. rewrite E. reflexivity.
  - intros v. f_equal. rewrite <- E at 2. apply (world_local (frame_of n) v). rewrite E. exact O.
Qed.
Lemma law_around_up warp pdf : sphere_law warp pdf -> law_around up warp pdf.
Proof.
  intros L. exists (V3 1 0 0), (V3 0 1 0), warp, pdf. split; [unfold orthonormal, dot, up; simpl; lra|]. split; [exact L|]. cbv zeta.
  assert (E : forall v, vadd (vadd (vscale (V3 1 0 0) (vx v)) (vscale (V3 0 1 0) (vy v))) (vscale up (vz v)) = v).
  { intros v. unfold up. destruct v; unfold vadd, vscale; simpl. apply V3_eq; simpl; ring. }
  split; intros; rewrite E; reflexivity.
Qed.
Lemma phong_mixture ks n wi : 0 <= ks <= 1 ->
  mixture ks (phong_dir ks n wi) (fun u => toWorld (frame_of (phong_wr wi)) (sqrToCosPowHemi u n)) sqrToCosHemi.
Proof.
  intros K u X Y. unfold phong_dir. destruct (Rlt_dec (x2 u) ks) as [L|L]; split; intros H; try lra; (split; [reflexivity|]).
  - split; [apply Rmult_le_pos; [lra|left; apply Rinv_0_lt_compat; lra]|]. apply (Rmult_lt_reg_r ks); [lra|]. unfold Rdiv. rewrite Rmult_assoc, Rinv_l; lra.
  - split; [apply Rmult_le_pos; [lra|left; apply Rinv_0_lt_compat; lra]|]. apply (Rmult_lt_reg_r (1 - ks)); [lra|]. unfold Rdiv. rewrite Rmult_assoc, Rinv_l; lra.
Qed.
Lemma cos_hemi_pdf_nonneg v : 0 <= sqrToCosHemiPdf v.
Proof. unfold sqrToCosHemiPdf. pose proof PI_RGT_0. pose proof (Rinv_0_lt_compat _ H). destruct (Rgt_dec _ _); nra. Qed.
Lemma cospow_pdf_nonneg v n : -1 <= n -> 0 <= sqrToCosPowHemiPdf v n.
Proof.
  intros N. unfold sqrToCosPowHemiPdf. pose proof PI_RGT_0. pose proof (Rinv_0_lt_compat _ H). pose proof (rpow_nonneg (vz v) n).
  destruct (Rgt_dec _ _); [|lra]. repeat apply Rmult_le_pos; try lra.
Qed.
Lemma pow_nn_nonneg x y : 0 <= pow_nn x y.
Proof. unfold pow_nn. destruct (Req_EM_T y 0); [lra|apply rpow_nonneg]. Qed.
Lemma pow_nn_mul z n : 0 <= n -> 0 <= z -> z * pow_nn z n = rpow z (n + 1).
Proof.
  intros N Z. unfold pow_nn. destruct (Req_EM_T n 0) as [->|]; [|symmetry; apply rpow_split].
  rewrite Rplus_0_l, Rmult_1_r. unfold rpow. destruct (Rle_dec z 0); [lra|]. rewrite Rpower_1; lra.
Qed.
(** Phong at normal incidence *)
Lemma phong_normal_integral (k ks n : R) : 0 <= n ->
  is_RInt (fun z => (k * (1 / PI) + ks * (n + 2) * (1 / (2 * PI)) * pow_nn z n) * z) 0 1 ((k + ks) / (2 * PI)).
Proof.
  intros N. pose proof PI_RGT_0.
  replace ((k + ks) / (2 * PI)) with ((fun z => k * (1 / (2 * PI)) * (z * z) + ks * (1 / (2 * PI)) * rpow z (n + 1 + 1)) 1 -
    (fun z => k * (1 / (2 * PI)) * (z * z) + ks * (1 / (2 * PI)) * rpow z (n + 1 + 1)) 0).
  2:{ cbv beta. rewrite (rpow_pos 1), Rpower_base1 by lra. unfold rpow. destruct (Rle_dec 0 0); [|lra]. field. lra. }
  assert (M : 0 < n + 1) by lra.
  apply (is_RInt_ext (fun z => k * (1 / PI) * z + ks * (1 / (2 * PI)) * ((n + 1 + 1) * rpow z (n + 1)))).
  { rewrite Rmin_left, Rmax_right by lra. intros z Z. rewrite <- (pow_nn_mul z n) by lra. match goal with |- ?a = ?b => change (@eq R a b) end. field. lra. }
  apply (is_RInt_derive (fun z => k * (1 / (2 * PI)) * (z * z) + ks * (1 / (2 * PI)) * rpow z (n + 1 + 1))
    (fun z => k * (1 / PI) * z + ks * (1 / (2 * PI)) * ((n + 1 + 1) * rpow z (n + 1)))); rewrite Rmin_left, Rmax_right by lra; intros z Z.
  - apply (is_derive_plus (fun z => k * (1 / (2 * PI)) * (z * z)) (fun z => ks * (1 / (2 * PI)) * rpow z (n + 1 + 1))).
    + auto_derive; [trivial|]. field. lra.
    + apply (is_derive_scal (fun z => rpow z (n + 1 + 1))), rpow_derive; lra.
  - apply (continuous_plus (fun z => k * (1 / PI) * z) (fun z => ks * (1 / (2 * PI)) * ((n + 1 + 1) * rpow z (n + 1)))).
    + apply (ex_derive_continuous (fun z : R => k * (1 / PI) * z)). auto_derive. trivial.
    + apply (continuous_ext (fun z => (ks * (1 / (2 * PI)) * (n + 1 + 1)) * rpow z (n + 1))); [intros t; simpl; ring|].
      apply (continuous_scal_r (ks * (1 / (2 * PI)) * (n + 1 + 1)) (fun z => rpow z (n + 1))), rpow_cont; lra.
Qed.
