(** C192-C194: directions in single precision. *)
From Coq Require Import ZArith Reals List Bool Lia Lra Psatz.
From Flocq Require Import Core BinarySingleNaN.
From Verif.Base Require Import Outcome F32.
From Verif.Model Require Import Vec LightSelect Texture FloatDirs.
From Verif.Spec Require Import FloatDirsSpec.
From Verif.Proof Require Import FloatDirsProof FloatPathProof FloatWarpsProof.
From Verif.Props Require Import Texture.
Import ListNotations.
Open Scope R_scope.

(** * C192: normalising a vector *)
(** For every vector whose largest component is between 2^-50 and 2^60 the result has finite components
    between -1 and 1, length 1 up to 2^-20, and the direction of the vector. *)
Theorem C192_unit : forall v, fv_fin v -> bpow radix2 (-50) <= fv_max v <= bpow radix2 60 ->
  dir_ok (fv_normalized v) /\ Rabs (len2 (fv_normalized v) - 1) <= / 2 ^ 20 /\
  exists n, 0 < n /\ Rabs (B2R (fvx (fv_normalized v)) - B2R (fvx v) / n) <= / 2 ^ 23 /\
    Rabs (B2R (fvy (fv_normalized v)) - B2R (fvy v) / n) <= / 2 ^ 23 /\ Rabs (B2R (fvz (fv_normalized v)) - B2R (fvz v) / n) <= / 2 ^ 23.
Proof.
  intros v F B. destruct (fv_normalized_ok v F B) as ((FX & FY & FZ) & M & N & EX & EY & EZ). pose proof (fv_max_le (fv_normalized v)) as (MX & MY & MZ).
  split; [split; [|split]; split; auto; lra|]. split; [exact (fv_normalized_len v F B)|]. exists (B2R (fv_norm v)). split; [exact N|].
  pose proof (fv_norm_max v F B) as NM. pose proof (fv_max_le v) as (X & Y & Z).
  assert (K : forall x, Rabs x <= fv_max v -> Rabs (rnd (x / B2R (fv_norm v)) - x / B2R (fv_norm v)) <= / 2 ^ 23).
  { intros x L. assert (Q : Rabs (x / B2R (fv_norm v)) <= 1).
    { unfold Rdiv. rewrite Rabs_mult, Rabs_inv, (Rabs_pos_eq (B2R (fv_norm v))) by lra. apply Rmult_le_reg_r with (B2R (fv_norm v)); [exact N|]. rewrite Rmult_assoc, Rinv_l by lra. lra. }
    eapply Rle_trans; [apply rnd_abs1, Q|]. pose proof tiny_pos. unfold ue, u32 in *. lra. }
  rewrite EX, EY, EZ. split; [|split]; apply K; lra.
Qed.
Print Assumptions C192_unit.
(** Below 2^-75 the squares vanish: no component of the result is finite. *)
Theorem C192_tiny_refuted : forall v, fv_fin v -> fv_max v < bpow radix2 (-75) ->
  is_finite (fvx (fv_normalized v)) = false /\ is_finite (fvy (fv_normalized v)) = false /\ is_finite (fvz (fv_normalized v)) = false.
Proof. exact fv_tiny. Qed.
Print Assumptions C192_tiny_refuted.
(** From 2^64 on the squares overflow: the result is the zero vector. *)
Theorem C192_huge_refuted : forall v, fv_fin v -> bpow radix2 64 <= fv_max v -> len2 (fv_normalized v) = 0 /\ fv_fin (fv_normalized v).
Proof. intros v F M. destruct (fv_huge v F M) as (G & X & Y & Z). split; [|exact G]. unfold len2. rewrite X, Y, Z. ring. Qed.
Print Assumptions C192_huge_refuted.
(** Cases: (3, 4, 0); a vector of size 2^-80; a vector of size 2^70. *)
Lemma fin_of v : (is_finite (fvx v) && is_finite (fvy v) && is_finite (fvz v))%bool = true -> fv_fin v.
Proof. intros H. apply andb_prop in H as (H & Z). apply andb_prop in H as (X & Y). now repeat split. Qed.
Example C192_case : let v := FV (fZ 3) (fZ 4) f0 in dir_ok (fv_normalized v) /\ Rabs (len2 (fv_normalized v) - 1) <= / 2 ^ 20.
Proof.
  intros v. destruct (fZ_small 3) as (A & _); [lia|]. destruct (fZ_small 4) as (B & _); [lia|].
  assert (M : fv_max v = 4). { unfold fv_max, v. cbn [fvx fvy fvz]. rewrite A, B. change (B2R f0) with 0. rewrite Rabs_R0, !Rabs_pos_eq, (Rmax_left 4), Rmax_right by lra. reflexivity. }
  destruct (C192_unit v) as (P & Q & _); [now apply fin_of|rewrite M; split|now split].
  - apply Rle_trans with (bpow radix2 0); [apply bpow_le; lia|simpl; lra].
  - apply Rle_trans with (bpow radix2 2); [simpl; lra|apply bpow_le; lia].
Qed.
Example C192_bad_cases : fv_max (FV (f_of 1 (-80)) f0 f0) < bpow radix2 (-75) /\ bpow radix2 64 <= fv_max (FV f0 (f_of 1 70) f0).
Proof.
  assert (Z : forall e, (-100 <= e <= 100)%Z -> B2R (f_of 1 e) = bpow radix2 e).
  { intros e E. destruct (f_of_small 1 e) as (A & _); [lia|lia|]. rewrite A. unfold F2R. cbn [Fnum Fexp]. ring. }
  unfold fv_max. cbn [fvx fvy fvz]. change (B2R f0) with 0. rewrite Rabs_R0, !Z by lia. rewrite !Rabs_pos_eq by apply bpow_ge_0.
  pose proof (bpow_ge_0 radix2 (-80)). pose proof (bpow_ge_0 radix2 70). rewrite (Rmax_left 0 0), (Rmax_left _ 0), (Rmax_left _ 0), Rmax_right by lra. split; [apply bpow_lt; lia|apply bpow_le; lia].
Qed.

(** * C193: looking up an environment map in a direction *)
(** Along a direction whose y component is between -1 and 1, so along every normalised one, a pixel of
    the image is read, whatever the C library returns for atan2 and acos. *)
Theorem C193_safe : forall atan2 acos im scale d, (1 <= iw im <= 2 ^ 24)%Z -> (1 <= ih im <= 2 ^ 24)%Z -> in11 (fvy d) ->
  exists x y, (0 <= x < iw im)%Z /\ (0 <= y < ih im)%Z /\ f_env atan2 acos im scale d = Ok (vmul (px im x y) scale).
Proof.
  intros atan2 acos im scale d W H (F & B). unfold f_env. rewrite F. destruct (Rle_dec _ 1) as [L|L]; [|contradiction]. now apply C62_in_bounds.
Qed.
Print Assumptions C193_safe.
Theorem C193_normalized : forall atan2 acos im scale v, (1 <= iw im <= 2 ^ 24)%Z -> (1 <= ih im <= 2 ^ 24)%Z ->
  fv_fin v -> bpow radix2 (-50) <= fv_max v <= bpow radix2 60 ->
  exists x y, (0 <= x < iw im)%Z /\ (0 <= y < ih im)%Z /\ f_env atan2 acos im scale (fv_normalized v) = Ok (vmul (px im x y) scale).
Proof. intros. apply C193_safe; auto. now apply C192_unit. Qed.
Print Assumptions C193_normalized.
(** Directions after a bounce are not normalised again.  A normalised ray that meets a mirror with a
    normalised normal from the front can leave with y = 1 + 2^-23; acos is then not a number and the
    pixel read is undefined behaviour, whatever the image. *)
Theorem C193_bounce_refuted : exists n d, dir_ok (fv_normalized n) /\ dir_ok (fv_normalized d) /\
  flt f0 (fvz (f_toLocal (f_frame (fv_normalized n)) (fv_opp (fv_normalized d)))) = true /\
  B2R (fvy (f_bounce (fv_normalized n) (fv_normalized d))) = 1 + / 2 ^ 23 /\
  forall atan2 acos im scale, f_env atan2 acos im scale (f_bounce (fv_normalized n) (fv_normalized d)) = UB.
Proof.
  exists (FV (fZ (-6)) (fZ 4) f0), (FV (fZ 48) (fZ 20) f0).
  assert (D : forall a b, (Z.abs a <= 100)%Z -> (1 <= b <= 100)%Z -> dir_ok (fv_normalized (FV (fZ a) (fZ b) f0))).
  { intros a b A B. destruct (fZ_small a) as (VA & FA); [lia|]. destruct (fZ_small b) as (VB & FB); [lia|]. apply C192_unit.
    - split; [exact FA|]. split; [exact FB|reflexivity].
    - unfold fv_max. cbn [fvx fvy fvz]. rewrite VA, VB. change (B2R f0) with 0. rewrite Rabs_R0. assert (1 <= IZR b <= 100) by (split; apply IZR_le; lia).
      assert (Rabs (IZR a) <= 100) by (rewrite <- abs_IZR; apply IZR_le; lia). rewrite (Rabs_pos_eq (IZR b)), (Rmax_left (IZR b)) by lra. split.
      + apply Rle_trans with (IZR b); [|apply Rmax_r]. apply Rle_trans with (bpow radix2 0); [apply bpow_le; lia|simpl; lra].
      + apply Rle_trans with (bpow radix2 7); [|apply bpow_le; lia]. apply Rmax_lub; simpl; lra. }
  split; [apply D; lia|]. split; [apply D; lia|]. split; [vm_compute; reflexivity|].
  set (w := f_bounce _ _). assert (E : B2SF (fvy w) = SpecFloat.S754_finite false 8388609 (-23)) by (unfold w; vm_compute; reflexivity).
  assert (V : B2R (fvy w) = 1 + / 2 ^ 23). { rewrite <- SF2R_B2SF, E. unfold SF2R, F2R. cbn [Fnum Fexp cond_Zopp]. simpl (bpow radix2 (-23)). lra. }
  split; [exact V|]. intros atan2 acos im scale. unfold f_env. rewrite V. destruct (is_finite (fvy w)); [|reflexivity].
  destruct (Rle_dec _ 1) as [L|L]; [|reflexivity]. exfalso. rewrite Rabs_pos_eq in L by lra. lra.
Qed.
Print Assumptions C193_bounce_refuted.
Example C193_case : exists x y, (0 <= x < 4)%Z /\ (0 <= y < 2)%Z /\
  f_env (fun _ _ => 5) (fun _ => -3) (Img 4 2 (fun x y => V3 (IZR x) (IZR y) 0)) (V3 1 1 1) (FV f0 f1 f0) = Ok (vmul (V3 (IZR x) (IZR y) 0) (V3 1 1 1)).
Proof.
  destruct f1_val as (V & F). destruct (C193_safe (fun _ _ => 5) (fun _ => -3) (Img 4 2 (fun x y => V3 (IZR x) (IZR y) 0)) (V3 1 1 1) (FV f0 f1 f0)) as (x & y & A & B & C); cbn [iw ih fvy]; try lia.
  - split; [exact F|]. rewrite V, Rabs_pos_eq; lra.
  - exists x, y. auto.
Qed.

(** * C194: the sampling maps.  [sn] and [cs] are what the C library returns for the sine and cosine of
    the angle; nothing is assumed of them but their range, and for the length that sn^2 + cs^2 is 1 up
    to [e]. *)
Theorem C194_disk : forall sn cs u, in11 sn -> in11 cs -> num_in 1 u -> in11 (fst (f_disk sn cs u)) /\ in11 (snd (f_disk sn cs u)).
Proof. intros sn cs u S C U. now apply disk_ok. Qed.
Print Assumptions C194_disk.
Lemma eight_ue : 12 * ue <= / 2 ^ 20.
Proof. pose proof tiny_pos. unfold ue, u32 in *. lra. Qed.
Lemma ue_pos : 0 <= ue. Proof. pose proof tiny_pos. unfold ue, u32 in *. lra. Qed.
Theorem C194_sphere : forall sn cs u e, in11 sn -> in11 cs -> num_in 1 u -> Rabs (B2R sn * B2R sn + B2R cs * B2R cs - 1) <= e ->
  dir_ok (f_sphere sn cs u) /\ Rabs (len2 (f_sphere sn cs u) - 1) <= / 2 ^ 20 + e.
Proof.
  intros sn cs u e S C U H. split; [now apply sphere_ok|]. eapply Rle_trans; [apply (sphere_len sn cs S C u e U H)|]. pose proof eight_ue. pose proof ue_pos. lra.
Qed.
Print Assumptions C194_sphere.
Theorem C194_hemisphere : forall sn cs u e, in11 sn -> in11 cs -> num_in 1 u -> Rabs (B2R sn * B2R sn + B2R cs * B2R cs - 1) <= e ->
  dir_ok (f_coshemi sn cs u) /\ 0 <= B2R (fvz (f_coshemi sn cs u)) /\ Rabs (len2 (f_coshemi sn cs u) - 1) <= / 2 ^ 20 + e.
Proof.
  intros sn cs u e S C U H. destruct (hemi_ok sn cs S C u U) as (A & B). split; [exact A|]. split; [exact B|]. eapply Rle_trans; [apply (hemi_len sn cs S C u e U H)|]. pose proof eight_ue. lra.
Qed.
Print Assumptions C194_hemisphere.
(** The cap has no maximum under its square root, and needs none: for every draw and every cosine the
    square of the z component is at most 1. *)
Theorem C194_cap : forall sn cs u c e, in11 sn -> in11 cs -> num_in 1 u -> in11 c -> Rabs (B2R sn * B2R sn + B2R cs * B2R cs - 1) <= e ->
  dir_ok (f_cap sn cs u c) /\ Rabs (len2 (f_cap sn cs u c) - 1) <= / 2 ^ 20 + e.
Proof.
  intros sn cs u c e S C U K H. split; [now apply cap_ok|]. eapply Rle_trans; [apply (cap_len sn cs S C u c e U K H)|]. pose proof eight_ue. pose proof ue_pos. lra.
Qed.
Print Assumptions C194_cap.
(** A case: u = 1/3, c = 1/2, and the angle 0. *)
Example C194_case : let u := fdiv f1 (fZ 3) in in11 f0 /\ in11 f1 /\ num_in 1 u /\ in11 fhalf /\ Rabs (B2R f0 * B2R f0 + B2R f1 * B2R f1 - 1) <= 0 /\
  fvz (f_coshemi f0 f1 u) <> f0 /\ fvx (f_cap f0 f1 u fhalf) <> f0.
Proof.
  intros u. destruct f1_val as (V & F). destruct two_val as (V2 & _). change (B2R f0) with 0. rewrite V. split; [split; [reflexivity|simpl; rewrite Rabs_R0; lra]|]. split; [split; [exact F|rewrite V, Rabs_pos_eq; lra]|].
  split. { destruct (fZ_small 3) as (V3 & F3); [lia|]. assert (Q : 0 <= rnd (B2R f1 / B2R (fZ 3)) <= 1) by (apply rnd_01; rewrite V, V3; lra).
    destruct (fdiv_ok f1 (fZ 3) F) as (A & B); [rewrite V3; lra|rewrite Rabs_pos_eq by lra; pose proof one_big; lra|]. split; [exact B|]. unfold u. rewrite A. exact Q. }
  split. { split; [reflexivity|]. unfold fhalf. destruct (f_of_small 1 (-1)) as (A & _); [lia|lia|]. rewrite A. unfold F2R. cbn [Fnum Fexp]. simpl (bpow radix2 (-1)). rewrite Rabs_pos_eq; lra. }
  split; [rewrite Rabs_pos_eq; lra|]. split; intros E; apply (f_equal (fun x => flt f0 x)) in E; revert E; vm_compute; discriminate.
Qed.
