(** C42, C99, C100: choosing lights, looking up environments. *)
From Coq Require Import Reals List Bool ZArith Lra Lia Psatz.
From Flocq Require Import Core Relative.
From Verif.Base Require Import Outcome.
From Verif.Model Require Import Vec Frame Scene LightSelect.
From Verif.Spec Require Import SceneSpec.
From Verif.Proof Require Import VecLemmas.
Open Scope R_scope.

#[local] Instance prec32 : Prec_gt_0 24 := eq_refl.
#[local] Instance fexp32_valid : Valid_exp fexp32 := FLT_exp_valid (-149) 24.
Lemma one_float : is_float32 1.
Proof. apply generic_format_FLT. exists (Float radix2 1 0); [unfold F2R; simpl; lra|simpl; lia|simpl; lia]. Qed.
Lemma int_float n : (Z.abs n <= 2 ^ 24)%Z -> is_float32 (IZR n).
Proof.
  intros H. assert (C : (Z.abs n < 2 ^ 24)%Z \/ Z.abs n = (2 ^ 24)%Z) by lia. destruct C as [C|C].
  - apply generic_format_FLT. exists (Float radix2 n 0); [unfold F2R; simpl; lra|exact C|simpl; lia].
  - destruct (Z.abs_eq_or_opp n) as [E|E].
    + replace n with (2 ^ 24)%Z by lia. apply generic_format_FLT. exists (Float radix2 1 24); [unfold F2R; simpl; lra|simpl; lia|simpl; lia].
    + replace n with (- 2 ^ 24)%Z by lia. apply generic_format_FLT. exists (Float radix2 (-1) 24); [unfold F2R; simpl; lra|simpl; lia|simpl; lia].
Qed.
(** a number in [0,1) times F rounds to something below F *)
Lemma round_below u F : is_float32 u -> 0 <= u < 1 -> is_float32 F -> 1 <= F -> rnd32 (u * F) <= pred radix2 fexp32 F.
Proof.
  intros Uf [U0 U1] Ff F1.
  assert (Up : u <= 1 - bpow radix2 (-24)).
  { apply Rle_trans with (pred radix2 fexp32 1); [apply pred_ge_gt; auto; try exact _; apply one_float|].
    rewrite pred_eq_pos by lra. unfold pred_pos. assert (M1 : mag radix2 1 = 1%Z :> Z) by (apply mag_unique; rewrite Rabs_R1; simpl; lra).
    rewrite M1. change (bpow radix2 (1 - 1)) with 1. destruct (Req_bool_spec 1 1); [|lra]. right. reflexivity. }
  assert (Fp : is_float32 (pred radix2 fexp32 F)) by (apply generic_format_pred; auto; exact _).
  assert (X : u * F <= F - F * bpow radix2 (-24)) by nra.
  assert (E1 : (1 <= mag radix2 F)%Z).
  { apply mag_ge_bpow. simpl. rewrite Rabs_right; lra. }
  assert (Fe : fexp32 (mag radix2 F) = (mag radix2 F - 24)%Z) by (unfold fexp32, FLT_exp; lia).
  assert (He : bpow radix2 (mag radix2 F - 1) <= F < bpow radix2 (mag radix2 F)).
  { pose proof (bpow_mag_le radix2 F ltac:(lra)) as A. pose proof (bpow_mag_gt radix2 F) as C. rewrite Rabs_right in A, C by lra. auto. }
  remember (mag radix2 F : Z) as e eqn:Mz. symmetry in Mz.
  assert (P : pred radix2 fexp32 F = F - (if Req_bool F (bpow radix2 (e - 1)) then bpow radix2 (e - 25) else bpow radix2 (e - 24))).
  { rewrite pred_eq_pos by lra. unfold pred_pos. rewrite Mz. destruct (Req_bool F (bpow radix2 (e - 1))) eqn:Q.
    - f_equal. f_equal. unfold fexp32, FLT_exp. apply Req_bool_true_iff in Q || (revert Q; case Req_bool_spec; intros; try discriminate). lia.
    - rewrite ulp_neq_0 by lra. unfold cexp. rewrite Mz, Fe. reflexivity. }
  destruct (Req_bool_spec F (bpow radix2 (e - 1))) as [Q|Q].
  - apply round_le_generic; [exact _|exact _|exact Fp|]. rewrite P. apply Rle_trans with (1 := X). right. rewrite Q at 2. rewrite <- bpow_plus. f_equal. f_equal. lia.
  - apply round_N_le_midp; [exact _|exact Fp|]. rewrite succ_pred by (auto; exact _). rewrite P.
    assert (Lt : bpow radix2 (e - 1) < F) by (destruct He as [[He|He] _]; [exact He|congruence]).
    assert (Y : bpow radix2 (e - 25) < F * bpow radix2 (-24)).
    { replace (e - 25)%Z with (e - 1 + -24)%Z by lia. rewrite bpow_plus. apply Rmult_lt_compat_r; [apply bpow_gt_0|exact Lt]. }
    assert (Z1 : bpow radix2 (e - 24) = 2 * bpow radix2 (e - 25)).
    { replace (e - 24)%Z with (1 + (e - 25))%Z by lia. rewrite bpow_plus. reflexivity. }
    lra.
Qed.

(** C42: for every number of lights and every float in [0,1) the index is in range *)
Theorem C42_index_in_range u n : is_float32 u -> 0 <= u < 1 -> (1 <= n)%Z -> (0 <= naive_index u n < n)%Z.
Proof.
  intros Uf U N. assert (N1 : 1 <= IZR n) by (apply IZR_le in N; exact N).
  assert (Rf : is_float32 (rnd32 (IZR n))) by (apply generic_format_round; exact _).
  assert (R1 : 1 <= rnd32 (IZR n)) by (apply round_ge_generic; [exact _|exact _|exact one_float|exact N1]).
  pose proof (round_below u _ Uf U Rf R1) as B. unfold naive_index.
  assert (L : 0 <= rnd32 (u * rnd32 (IZR n))).
  { apply round_ge_generic; [exact _|exact _|apply generic_format_0|]. apply Rmult_le_pos; lra. }
  split; [rewrite <- (Ztrunc_IZR 0); apply Ztrunc_le; exact L|].
  apply lt_IZR. apply Rle_lt_trans with (rnd32 (u * rnd32 (IZR n))); [rewrite Ztrunc_floor by exact L; apply Zfloor_lb|].
  apply Rle_lt_trans with (1 := B). destruct (Rlt_dec (pred radix2 fexp32 (rnd32 (IZR n))) (IZR n)) as [|H]; [assumption|exfalso]. apply Rnot_lt_le in H.
  assert (H2 : rnd32 (IZR n) <= pred radix2 fexp32 (rnd32 (IZR n))).
  { apply round_le_generic; [exact _|exact _|apply generic_format_pred; auto; exact _|exact H]. }
  pose proof (pred_lt_id radix2 fexp32 (rnd32 (IZR n)) ltac:(lra)). lra.
Qed.
Print Assumptions C42_index_in_range.
(** the probability is 1/n up to rounding *)
Theorem C42_probability n : (1 <= n <= 2 ^ 24)%Z -> Rabs (naive_pmf n - 1 / IZR n) <= / 2 ^ 24 * (1 / IZR n).
Proof.
  intros N. unfold naive_pmf. assert (E : rnd32 (IZR n) = IZR n) by (apply round_generic; [exact _|apply int_float; lia]). rewrite E.
  assert (N1 : 1 <= IZR n <= IZR (2 ^ 24)) by (split; apply IZR_le; lia). assert (P : 0 < 1 / IZR n) by (apply Rdiv_lt_0_compat; lra).
  pose proof (relative_error_N_FLT radix2 (-149) 24 ltac:(lia) (fun x => negb (Z.even x)) (1 / IZR n)) as H.
  rewrite (Rabs_right (1 / IZR n)) in H by lra. refine (Rle_trans _ _ _ (H _) _).
  - apply Rle_trans with (1 / IZR (2 ^ 24)).
    + simpl. lra.
    + apply Rmult_le_compat_l; [lra|]. apply Rinv_le_contravar; lra.
  - right. f_equal. simpl. lra.
Qed.
Print Assumptions C42_probability.
(** the largest float below 1, with 3 and with 2^30+1 lights *)
Example C42_case : is_float32 (1 - / 2 ^ 24) /\ (0 <= naive_index (1 - / 2 ^ 24) 3 < 3)%Z /\ (0 <= naive_index (1 - / 2 ^ 24) (2 ^ 30 + 1) < 2 ^ 30 + 1)%Z.
Proof.
  assert (F : is_float32 (1 - / 2 ^ 24)) by (apply generic_format_FLT; exists (Float radix2 (2 ^ 24 - 1) (-24)); [unfold F2R; simpl; lra|simpl; lia|simpl; lia]).
  split; [exact F|]. split; apply C42_index_in_range; try exact F; simpl; lra || lia.
Qed.
(** beyond 2^24 lights some are never chosen: the odd index 2^24 + 1 is not a float *)
Theorem C42_never_chosen u n : (2 ^ 24 + 1 < n)%Z -> naive_index u n <> (2 ^ 24 + 1)%Z.
Proof.
  intros N H. unfold naive_index in H. set (x := rnd32 (u * rnd32 (IZR n))) in *. assert (Xf : is_float32 x) by (apply generic_format_round; exact _).
  assert (X0 : 0 <= x). { destruct (Rle_dec 0 x) as [|C]; [assumption|exfalso]. rewrite Ztrunc_ceil in H by lra. assert (Zceil x <= 0)%Z by (apply Zceil_glb; simpl; lra). lia. }
  rewrite Ztrunc_floor in H by exact X0. pose proof (Zfloor_lb x) as L. pose proof (Zfloor_ub x) as U. rewrite H in L, U.
  assert (M : mag radix2 x = 25%Z :> Z). { apply mag_unique. rewrite Rabs_right by lra. simpl in L, U |- *. lra. }
  unfold is_float32, generic_format, F2R, scaled_mantissa, cexp in Xf. rewrite M in Xf. change (fexp32 25) with 1%Z in Xf. simpl in Xf.
  change (IZR (Z.pow_pos 2 1)) with 2 in Xf. set (k := Ztrunc (x * / 2)) in *. rewrite Xf in L, U.
  assert (L1 : (2 ^ 24 + 1 <= k * 2)%Z) by (apply le_IZR; rewrite mult_IZR; exact L).
  assert (L2 : (k * 2 < 2 ^ 24 + 2)%Z) by (apply lt_IZR; rewrite mult_IZR; simpl in *; lra). lia.
Qed.
Print Assumptions C42_never_chosen.

(** C99 *)
Lemma atan2_polar s phi : 0 < s -> - PI < phi <= PI -> atan2 (s * sin phi) (s * cos phi) = phi.
Proof.
  intros S P. pose proof PI_RGT_0 as Pi. unfold atan2.
  assert (T : forall x, cos x <> 0 -> s * sin x / (s * cos x) = tan x) by (intros x C; unfold tan; field; lra).
  destruct (Rlt_dec (- (PI / 2)) phi) as [A|A]; [destruct (Rlt_dec phi (PI / 2)) as [B|B]|].
  - assert (C : 0 < cos phi) by (apply cos_gt_0; lra). destruct (Rlt_dec 0 (s * cos phi)) as [_|X]; [|exfalso; apply X; nra].
    rewrite T by lra. apply atan_tan. lra.
  - destruct (Req_dec phi (PI / 2)) as [->|N].
    + rewrite cos_PI2, sin_PI2, Rmult_0_r. destruct (Rlt_dec 0 0); [lra|]. destruct (Rlt_dec 0 (s * 1)); [reflexivity|lra].
    + assert (C : 0 < cos (phi - PI)) by (apply cos_gt_0; lra).
      assert (C1 : cos phi = - cos (phi - PI)) by (replace phi with (phi - PI + PI) at 1 by ring; apply neg_cos).
      assert (S1 : sin phi = - sin (phi - PI)) by (replace phi with (phi - PI + PI) at 1 by ring; apply neg_sin).
      assert (S2 : 0 <= sin phi) by (apply sin_ge_0; lra).
      destruct (Rlt_dec 0 (s * cos phi)) as [X|_]; [nra|]. destruct (Rlt_dec (s * cos phi) 0) as [_|X]; [|exfalso; apply X; nra].
      destruct (Rle_dec 0 (s * sin phi)) as [_|X]; [|exfalso; apply X; apply Rmult_le_pos; lra].
      replace (s * sin phi / (s * cos phi)) with (tan (phi - PI)); [rewrite atan_tan by lra; ring|]. rewrite C1, S1. unfold tan. field. lra.
  - destruct (Req_dec phi (- (PI / 2))) as [->|N].
    + rewrite cos_neg, sin_neg, cos_PI2, sin_PI2, Rmult_0_r. destruct (Rlt_dec 0 0); [lra|]. destruct (Rlt_dec 0 (s * - (1))); [nra|]. destruct (Rlt_dec (s * - (1)) 0); [reflexivity|lra].
    + assert (C : 0 < cos (phi + PI)) by (apply cos_gt_0; lra).
      assert (C1 : cos phi = - cos (phi + PI)) by (rewrite neg_cos; ring).
      assert (S1 : sin phi = - sin (phi + PI)) by (rewrite neg_sin; ring).
      assert (S2 : sin phi < 0) by (rewrite S1; assert (0 < sin (phi + PI)) by (apply sin_gt_0; lra); lra).
      destruct (Rlt_dec 0 (s * cos phi)) as [X|_]; [nra|]. destruct (Rlt_dec (s * cos phi) 0) as [_|X]; [|exfalso; apply X; nra].
      destruct (Rle_dec 0 (s * sin phi)) as [X|_]; [nra|].
      replace (s * sin phi / (s * cos phi)) with (tan (phi + PI)); [rewrite atan_tan by lra; ring|]. rewrite C1, S1. unfold tan. field. lra.
Qed.
(** the texture coordinates of a direction are those of which it is the latitude-longitude direction *)
Theorem C99_inverse u v : 0 <= u < 1 -> 0 < v < 1 -> env_uv (latlong u v) = V2 u v.
Proof.
  intros U V. pose proof PI_RGT_0 as Pi. unfold env_uv, latlong. cbn [vx vy vz].
  assert (S : 0 < sin (PI * v)) by (apply sin_gt_0; nra).
  rewrite acos_cos by nra.
  assert (Q : (if Rlt_dec (atan2 (sin (PI * v) * sin (2 * PI * u)) (sin (PI * v) * cos (2 * PI * u))) 0
    then atan2 (sin (PI * v) * sin (2 * PI * u)) (sin (PI * v) * cos (2 * PI * u)) + 2 * PI
    else atan2 (sin (PI * v) * sin (2 * PI * u)) (sin (PI * v) * cos (2 * PI * u))) = 2 * PI * u).
  { destruct (Rle_dec u (1 / 2)) as [H|H].
    - rewrite atan2_polar by (auto; nra). destruct (Rlt_dec _ _); [nra|reflexivity].
    - replace (sin (2 * PI * u)) with (sin (2 * PI * u - 2 * PI)) by (rewrite <- (sin_period _ 1); f_equal; simpl; ring).
      replace (cos (2 * PI * u)) with (cos (2 * PI * u - 2 * PI)) by (rewrite <- (cos_period _ 1); f_equal; simpl; ring).
      rewrite atan2_polar by (auto; nra). destruct (Rlt_dec _ _); [ring|nra]. }
  rewrite Q. f_equal; field; lra.
Qed.
Print Assumptions C99_inverse.
(** every direction is looked up inside the unit square *)
Theorem C99_in_square d : 0 <= x2 (env_uv d) <= 1 /\ 0 <= y2 (env_uv d) <= 1.
Proof.
  pose proof PI_RGT_0 as Pi. unfold env_uv. cbn [x2 y2].
  assert (B : - PI <= atan2 (vz d) (vx d) <= PI).
  { unfold atan2. pose proof (atan_bound (vz d / vx d)) as A. destruct (Rlt_dec 0 (vx d)); [lra|]. destruct (Rlt_dec (vx d) 0) as [N|].
    - destruct (Rle_dec 0 (vz d)) as [Z|Z].
      + assert (X : atan (vz d / vx d) <= 0).
        { destruct Z as [Z|Z]; [|rewrite <- Z; unfold Rdiv; rewrite Rmult_0_l, atan_0; lra]. left. rewrite <- atan_0. apply atan_increasing.
          unfold Rdiv. pose proof (Rinv_lt_0_compat _ N). nra. }
        lra.
      + assert (X : 0 < atan (vz d / vx d)). { rewrite <- atan_0. apply atan_increasing. unfold Rdiv. pose proof (Rinv_lt_0_compat _ N). nra. } lra.
    - destruct (Rlt_dec 0 (vz d)); [lra|]. destruct (Rlt_dec (vz d) 0); lra. }
  assert (I1 : 0 < 1 / (2 * PI)) by (apply Rdiv_lt_0_compat; lra). assert (I2 : 0 < 1 / PI) by (apply Rdiv_lt_0_compat; lra).
  assert (E1 : 2 * PI * (1 / (2 * PI)) = 1) by (field; lra). assert (E2 : PI * (1 / PI) = 1) by (field; lra).
  pose proof (acos_bound (vy d)) as A. split; [|split; [apply Rmult_le_pos; lra|apply Rle_trans with (2 := Req_le _ _ E2); apply Rmult_le_compat_r; lra]].
  destruct (Rlt_dec _ 0); (split; [apply Rmult_le_pos; lra|apply Rle_trans with (2 := Req_le _ _ E1); apply Rmult_le_compat_r; lra]).
Qed.
Print Assumptions C99_in_square.
Example C99_case : env_uv (latlong (3 / 4) (1 / 4)) = V2 (3 / 4) (1 / 4).
Proof. apply C99_inverse; lra. Qed.

(** C100 is false: wherever the position, the cell is 0 *)
Theorem C100_cell_refuted width height depth local : spatial_cell width height depth local = 0%Z.
Proof.
  unfold spatial_cell. assert (E : vmaxc (vminc local 0) 0 = V3 0 0 0).
  { apply V3_eq; simpl; unfold pick_lt, pick_gt; repeat match goal with |- context [if ?d then _ else _] => destruct d end; lra. }
  rewrite E. cbn [vx vy vz]. rewrite !Rmult_0_l, Zfloor_IZR. reflexivity.
Qed.
Print Assumptions C100_cell_refuted.
(** ... and the weight of a light outside the cell is its inverse square distance cut off from above:
    every light between the cell and distance 10 has the same weight *)
Theorem C100_weight_exact center light : light <> center ->
  spatial_weight false center light = (if Rle_dec (sqrNorm (vsub center light)) 100 then 1 / 100 else 1 / sqrNorm (vsub center light)).
Proof.
  intros N. assert (P : 0 < sqrNorm (vsub center light)).
  { apply sqrNorm_pos. intros E. apply N. injection E as E1 E2 E3. apply V3_eq; lra. }
  unfold spatial_weight. set (q := sqrNorm _) in *. destruct (Rle_dec q 100) as [H|H].
  - apply Rmin_right. apply Rmult_le_compat_l; [lra|]. apply Rinv_le_contravar; lra.
  - apply Rmin_left. apply Rmult_le_compat_l; [lra|]. left. apply Rinv_lt_contravar; lra.
Qed.
Print Assumptions C100_weight_exact.
Theorem C100_nearer_not_heavier_refuted : exists c a b, sqrNorm (vsub c a) < sqrNorm (vsub c b) / 80 /\ spatial_weight false c a = spatial_weight false c b.
Proof.
  exists (V3 0 0 0), (V3 1 0 0), (V3 9 0 0). split; [unfold sqrNorm; simpl; lra|].
  rewrite !C100_weight_exact by (intros E; injection E; lra). unfold sqrNorm. simpl.
  destruct (Rle_dec _ 100); [|lra]. destruct (Rle_dec _ 100); [reflexivity|lra].
Qed.
Print Assumptions C100_nearer_not_heavier_refuted.
Example C100_case : spatial_cell 4 4 4 (V3 (9 / 10) (9 / 10) (9 / 10)) = 0%Z /\ spatial_weight false (V3 0 0 0) (V3 20 0 0) = 1 / 400.
Proof.
  split; [apply C100_cell_refuted|]. rewrite C100_weight_exact by (intros E; injection E; lra). unfold sqrNorm. simpl. destruct (Rle_dec _ _); [lra|]. f_equal. ring.
Qed.
