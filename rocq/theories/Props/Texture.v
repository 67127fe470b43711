(** C62, C132, C133: textures. *)
From Coq Require Import Reals ZArith List Lra Lia.
From Coquelicot Require Import Rcomplements.
From Flocq Require Import Core.
From Verif.Base Require Import Outcome.
From Verif.Model Require Import Vec LightSelect Texture.
From Verif.Proof Require Import VecLemmas.
Import ListNotations.
Open Scope R_scope.

#[local] Instance prec24' : Prec_gt_0 24 := eq_refl.
#[local] Instance fexp32_valid' : Valid_exp fexp32 := FLT_exp_valid (-149) 24.

(** * C62 *)
Lemma bound_in v a b : a <= b -> a <= bound v a b <= b.
Proof. intros H. unfold bound. destruct (Rgt_dec v b); [lra|]. destruct (Rlt_dec v a); lra. Qed.
Lemma trunc_range x n : 0 <= x <= IZR (n - 1) -> (0 <= Ztrunc x < n)%Z.
Proof.
  intros (A&B). rewrite Ztrunc_floor by exact A. split; [apply Zfloor_lub; exact A|]. apply lt_IZR. rewrite minus_IZR in B. pose proof (Zfloor_lb x). lra.
Qed.
Lemma rnd32_int n : (Z.abs n <= 2 ^ 24)%Z -> rnd32 (IZR n) = IZR n.
Proof.
  intros B. unfold rnd32. apply round_generic; [apply valid_rnd_N|]. destruct (Z.eq_dec (Z.abs n) (2 ^ 24)) as [E|E].
  - assert (G : generic_format radix2 fexp32 (IZR (2 ^ 24))). { change (2 ^ 24)%Z with (Zpower radix2 24). rewrite IZR_Zpower by lia. apply generic_format_bpow. unfold fexp32, FLT_exp. lia. }
    destruct (Z.abs_spec n) as [[_ A]|[_ A]]; [replace n with (2 ^ 24)%Z by lia; exact G|]. replace n with (- (2 ^ 24))%Z by lia. rewrite opp_IZR. apply generic_format_opp, G.
  - apply generic_format_FLT. apply (FLT_spec radix2 (-149) 24 (IZR n) (Float radix2 n 0)); [unfold F2R; cbn; ring|cbn; lia|cbn; lia].
Qed.
(** in float arithmetic: whatever the coordinates, a pixel inside the image is read *)
Theorem C62_in_bounds im scale u v : (1 <= iw im <= 2 ^ 24)%Z -> (1 <= ih im <= 2 ^ 24)%Z ->
  exists x y, (0 <= x < iw im)%Z /\ (0 <= y < ih im)%Z /\ image_texture rnd32 im scale (Some u) (Some v) = Ok (vmul (px im x y) scale).
Proof.
  intros W H. assert (G : forall c n, (1 <= n <= 2 ^ 24)%Z -> exists x, (0 <= x < n)%Z /\ tex_coord rnd32 (Some c) n = Ok x).
  { intros c n N. eexists. split; [|reflexivity]. apply trunc_range. rewrite (rnd32_int (n - 1)) by lia. apply bound_in. apply IZR_le. lia. }
  destruct (G u (iw im) W) as (x&X&EX), (G v (ih im) H) as (y&Y&EY). exists x, y. split; [exact X|]. split; [exact Y|].
  unfold image_texture. rewrite EX, EY. cbn [bind]. unfold img_at. rewrite (proj2 (Z.leb_le 0 x)), (proj2 (Z.ltb_lt x _)), (proj2 (Z.leb_le 0 y)), (proj2 (Z.ltb_lt y _)) by lia. reflexivity.
Qed.
Print Assumptions C62_in_bounds.
(** which pixel: in exact arithmetic the one whose cell contains the coordinate; coordinates outside are
    clamped to the border *)
Theorem C62_cell u n : (1 <= n)%Z -> exists x, tex_coord (fun r => r) (Some u) n = Ok x /\
  (0 <= u < 1 -> IZR x / IZR n <= u < IZR (x + 1) / IZR n) /\ (u <= 0 -> x = 0%Z) /\ (1 <= u -> x = (n - 1)%Z).
Proof.
  intros N. assert (P : 1 <= IZR n) by (apply IZR_le; lia). eexists. split; [reflexivity|]. unfold bound. rewrite minus_IZR. split; [|split].
  - intros U. destruct (Rgt_dec (u * IZR n) (IZR n - 1)) as [A|A]; [|destruct (Rlt_dec (u * IZR n) 0) as [B|B]].
    + rewrite <- (minus_IZR n 1), Ztrunc_IZR. replace (n - 1 + 1)%Z with n by lia. split; [rewrite minus_IZR; apply Rle_div_l; lra|]. unfold Rdiv. rewrite Rinv_r by lra. lra.
    + exfalso. assert (0 <= u * IZR n) by (apply Rmult_le_pos; lra). lra.
    + rewrite Ztrunc_floor by lra. pose proof (Zfloor_lb (u * IZR n)). pose proof (Zfloor_ub (u * IZR n)). split; [apply Rle_div_l; lra|]. rewrite plus_IZR. apply Rlt_div_r; lra.
  - intros U. assert (Q : u * IZR n <= 0). { rewrite <- (Rmult_0_l (IZR n)). apply Rmult_le_compat_r; lra. }
    destruct (Rgt_dec (u * IZR n) (IZR n - 1)) as [A|A]; [assert (0 = IZR n - 1) by lra; replace (IZR n - 1) with 0; apply (Ztrunc_IZR 0)|].
    destruct (Rlt_dec (u * IZR n) 0) as [B|B]; [apply (Ztrunc_IZR 0)|]. replace (u * IZR n) with 0 by lra. apply (Ztrunc_IZR 0).
  - intros U. assert (Q : IZR n <= u * IZR n). { rewrite <- (Rmult_1_l (IZR n)) at 1. apply Rmult_le_compat_r; lra. }
    destruct (Rgt_dec (u * IZR n) (IZR n - 1)) as [A|A]; [|lra]. rewrite <- (minus_IZR n 1). apply Ztrunc_IZR.
Qed.
Print Assumptions C62_cell.
(** beyond 2^24 pixels the largest coordinate is rounded up, out of the image *)
Theorem C62_wide_refuted : exists im scale, (1 <= iw im)%Z /\ (1 <= ih im)%Z /\ forall v, image_texture rnd32 im scale (Some 1) (Some v) = UB.
Proof.
  exists (Img (2 ^ 24 + 4) 1 (fun _ _ => V3 0 0 0)), (V3 1 1 1). cbn [iw ih]. split; [lia|]. split; [lia|]. intros v.
  assert (R3 : rnd32 (IZR (2 ^ 24 + 4 - 1)) = IZR (2 ^ 24 + 4)).
  { unfold rnd32, round, scaled_mantissa, cexp. assert (M : (mag radix2 (IZR (2 ^ 24 + 4 - 1)) = 25 :> Z)%Z).
    { apply mag_unique. rewrite Rabs_pos_eq by (apply IZR_le; lia). split; [change (bpow radix2 (25 - 1)) with (IZR (2 ^ 24)); apply IZR_le; lia|change (bpow radix2 25) with (IZR (2 ^ 25)); apply IZR_lt; lia]. }
    rewrite M. replace (fexp32 25) with 1%Z by (unfold fexp32, FLT_exp; lia).
    replace (IZR (2 ^ 24 + 4 - 1) * bpow radix2 (- (1))) with (IZR 8388609 + 1 / 2) by (change (bpow radix2 (-(1))) with (/ 2); change (2 ^ 24 + 4 - 1)%Z with (2 * 8388609 + 1)%Z; rewrite plus_IZR, mult_IZR; field).
    assert (Z : ZnearestE (IZR 8388609 + 1 / 2) = 8388610%Z).
    { unfold ZnearestE, Znearest. assert (F : Zfloor (IZR 8388609 + 1 / 2) = 8388609%Z) by (apply Zfloor_imp; rewrite plus_IZR; lra). rewrite F.
      replace (IZR 8388609 + 1 / 2 - IZR 8388609) with (/ 2) by field. rewrite Rcompare_Eq by reflexivity. cbn [Z.even negb].
      apply Zceil_imp. change 8388610%Z with (8388609 + 1)%Z. rewrite minus_IZR, plus_IZR. lra. }
    rewrite Z. unfold F2R. cbn [Fnum Fexp]. change (bpow radix2 1) with 2. rewrite <- (mult_IZR 8388610 2). reflexivity. }
  assert (RB : rnd32 (IZR (2 ^ 24 + 4)) = IZR (2 ^ 24 + 4)).
  { unfold rnd32. apply round_generic; [apply valid_rnd_N|]. apply generic_format_FLT. apply (FLT_spec radix2 (-149) 24 _ (Float radix2 8388610 1)); [unfold F2R; cbn [Fnum Fexp]; change (bpow radix2 1) with 2; rewrite <- (mult_IZR 8388610 2); reflexivity|cbn; lia|cbn; lia]. }
  unfold image_texture, tex_coord. cbn [iw ih bind]. rewrite R3, RB, Rmult_1_l, RB. assert (B : bound (IZR (2 ^ 24 + 4)) 0 (IZR (2 ^ 24 + 4)) = IZR (2 ^ 24 + 4)).
  { unfold bound. destruct (Rgt_dec _ _); [reflexivity|]. destruct (Rlt_dec _ _) as [L|L]; [|reflexivity]. exfalso. apply lt_IZR in L. lia. }
  rewrite B, Ztrunc_IZR. unfold img_at. cbn [iw ih]. rewrite Z.ltb_irrefl, Bool.andb_false_r. reflexivity.
Qed.
Print Assumptions C62_wide_refuted.
(** a coordinate that is not a number has no pixel *)
Theorem C62_nan_refuted rnd im scale v : image_texture rnd im scale None v = UB /\ (forall u, image_texture rnd im scale (Some u) None = UB).
Proof. split; [reflexivity|]. intros u. reflexivity. Qed.
Print Assumptions C62_nan_refuted.
Definition checker : image := Img 2 2 (fun x y => if Z.eqb x y then V3 1 1 1 else V3 0 0 0).
Example C62_case : (1 <= iw checker <= 2 ^ 24)%Z /\ (1 <= ih checker <= 2 ^ 24)%Z /\ image_texture (fun r => r) checker (V3 1 1 1) (Some (3 / 4)) (Some 7) = Ok (V3 1 1 1).
Proof.
  split; [cbn; lia|]. split; [cbn; lia|]. destruct (C62_cell (3 / 4) 2 ltac:(lia)) as (x&EX&X&_), (C62_cell 7 2 ltac:(lia)) as (y&EY&_&_&Y).
  unfold image_texture. cbn [checker iw ih]. rewrite EX, EY. cbn [bind]. rewrite (Y ltac:(lra)). specialize (X ltac:(lra)).
  assert (x = 1%Z) as ->. { destruct X as (A&B). assert (IZR x < 2) by lra. assert (0 < IZR x) by (rewrite plus_IZR in B; lra). apply lt_IZR in H, H0. lia. }
  cbn. f_equal. apply V3_eq; cbn; ring.
Qed.

(** * C132: a texture resampled at its own size is the image *)
Lemma foldM_app {A B} (f : A -> outcome B) l : forall acc g, (forall a, In a l -> f a = Ok (g a)) ->
  foldM (fun im a => bind (f a) (fun c => Ok (im ++ [c]))) l acc = Ok (acc ++ map g l).
Proof.
  induction l as [|a l IH]; intros acc g H; cbn [foldM map]; [rewrite app_nil_r; reflexivity|]. rewrite (H a (or_introl eq_refl)). cbn [bind]. rewrite (IH (acc ++ [g a]) g).
  - rewrite <- app_assoc. reflexivity.
  - intros b B1. apply H. right. exact B1.
Qed.
Lemma foldM_ext_in {A S} (f g : S -> A -> outcome S) l : forall s, (forall s a, In a l -> f s a = g s a) -> foldM f l s = foldM g l s.
Proof.
  induction l as [|a l IH]; intros s H; cbn [foldM]; [reflexivity|]. rewrite (H s a (or_introl eq_refl)). destruct (g s a); cbn [bind]; [|reflexivity..]. apply IH. intros s' b B. apply H. right. exact B.
Qed.
Lemma foldM_rows {A B} (row : A -> list B) l : forall acc, foldM (fun im a => Ok (im ++ row a)) l acc = Ok (acc ++ flat_map row l).
Proof. induction l as [|a l IH]; intros acc; cbn [foldM flat_map bind]; [rewrite app_nil_r; reflexivity|]. rewrite IH, <- app_assoc. reflexivity. Qed.
Lemma evaluate_image_ok tex w h g : (forall i j, (j < w)%nat -> (i < h)%nat -> tex (Some (pixel_pos (Z.of_nat j) (Z.of_nat w))) (Some (pixel_pos (Z.of_nat i) (Z.of_nat h))) = Ok (g j i)) ->
  evaluate_image tex w h = Ok (flat_map (fun i => map (fun j => (j, i, g j i)) (seq 0 w)) (seq 0 h)).
Proof.
  intros H. unfold evaluate_image. rewrite (foldM_ext_in _ (fun im i => Ok (im ++ map (fun j => (j, i, g j i)) (seq 0 w)))).
  - rewrite foldM_rows. reflexivity.
  - intros im i I. apply in_seq in I. rewrite (foldM_ext_in _ (fun im j => bind (Ok (j, i, g j i)) (fun c => Ok (im ++ [c])))).
    + apply (foldM_app (fun j => Ok (j, i, g j i)) (seq 0 w) im (fun j => (j, i, g j i))). reflexivity.
    + intros im' j J. apply in_seq in J. rewrite H by lia. reflexivity.
Qed.
Lemma own_coord j n : (0 <= j < n)%Z -> tex_coord (fun r => r) (Some (pixel_pos j n)) n = Ok j.
Proof.
  intros J. unfold tex_coord, pixel_pos. assert (P : 1 <= IZR n) by (apply IZR_le; lia). replace ((IZR j / IZR n + 1 / 2 / IZR n) * IZR n) with (IZR j + 1 / 2) by (field; lra).
  assert (A : 0 <= IZR j) by (apply IZR_le; lia). assert (B : IZR j <= IZR (n - 1)) by (apply IZR_le; lia). unfold bound.
  destruct (Rgt_dec (IZR j + 1 / 2) (IZR (n - 1))) as [G|G].
  - assert (j = n - 1)%Z as E. { assert (IZR (n - 1) < IZR (j + 1)) by (rewrite plus_IZR; lra). apply lt_IZR in H. apply le_IZR in B. lia. } rewrite Ztrunc_IZR. f_equal. lia.
  - destruct (Rlt_dec (IZR j + 1 / 2) 0); [lra|]. rewrite Ztrunc_floor by lra. f_equal. apply Zfloor_imp. rewrite plus_IZR. lra.
Qed.
Theorem C132_identity im scale w h : iw im = Z.of_nat w -> ih im = Z.of_nat h ->
  exists l, evaluate_image (image_texture (fun r => r) im scale) w h = Ok l /\
  (forall x y, (x < w)%nat -> (y < h)%nat -> In (x, y, vmul (px im (Z.of_nat x) (Z.of_nat y)) scale) l) /\
  (forall x y c, In (x, y, c) l -> (x < w)%nat /\ (y < h)%nat /\ c = vmul (px im (Z.of_nat x) (Z.of_nat y)) scale).
Proof.
  intros W H. eexists. split; [apply (evaluate_image_ok _ w h (fun j i => vmul (px im (Z.of_nat j) (Z.of_nat i)) scale))|].
  - intros i j J I. unfold image_texture. rewrite W, H, !own_coord by lia. cbn [bind]. unfold img_at. rewrite W, H. rewrite (proj2 (Z.leb_le 0 (Z.of_nat j))), (proj2 (Z.ltb_lt (Z.of_nat j) _)), (proj2 (Z.leb_le 0 (Z.of_nat i))), (proj2 (Z.ltb_lt (Z.of_nat i) _)) by lia. reflexivity.
  - split.
    + intros x y X Y. apply in_flat_map. exists y. split; [apply in_seq; lia|]. apply in_map_iff. exists x. split; [reflexivity|apply in_seq; lia].
    + intros x y c I. apply in_flat_map in I. destruct I as (i&I&M). apply in_map_iff in M. destruct M as (j&E&J). injection E as <- <- <-. apply in_seq in I, J. repeat split; lia.
Qed.
Print Assumptions C132_identity.
Example C132_case : iw checker = Z.of_nat 2 /\ ih checker = Z.of_nat 2.
Proof. split; reflexivity. Qed.

(** * C133: sine textures *)
(** every channel stays within its amplitude of its offset *)
Theorem C133_range amp phase freq y u v : let c := sin_texture amp phase freq y u v in
  Rabs (vx c - vx y) <= Rabs (vx amp) /\ Rabs (vy c - vy y) <= Rabs (vy amp) /\ Rabs (vz c - vz y) <= Rabs (vz amp).
Proof.
  cbn. assert (G : forall a x o, Rabs (a * sin x + o - o) <= Rabs a).
  { intros a x o. replace (a * sin x + o - o) with (a * sin x) by ring. rewrite Rabs_mult. rewrite <- (Rmult_1_r (Rabs a)) at 2. apply Rmult_le_compat_l; [apply Rabs_pos|]. apply Rabs_le. pose proof (SIN_bound x). lra. }
  repeat split; apply G.
Qed.
Print Assumptions C133_range.
(** the first channel depends on the distance to the middle, the second on v, the third on nothing *)
Theorem C133_channels amp phase freq y u v u' v' : let c := sin_texture amp phase freq y u v in let c' := sin_texture amp phase freq y u' v' in
  ((u - 1 / 2) ^ 2 + (v - 1 / 2) ^ 2 = (u' - 1 / 2) ^ 2 + (v' - 1 / 2) ^ 2 -> vx c = vx c') /\ (v = v' -> vy c = vy c') /\ vz c = vz c'.
Proof.
  cbn. split; [|split; [intros ->; reflexivity|reflexivity]]. intros E. replace ((1 / 2 - u) * (1 / 2 - u) + (1 / 2 - v) * (1 / 2 - v)) with ((1 / 2 - u') * (1 / 2 - u') + (1 / 2 - v') * (1 / 2 - v')) by nra. reflexivity.
Qed.
Print Assumptions C133_channels.
(** so a wave asked for in the third channel is not there *)
Theorem C133_third_refuted : exists amp phase freq y, vz amp <> 0 /\ vz freq <> 0 /\ forall u v u' v', vz (sin_texture amp phase freq y u v) = vz (sin_texture amp phase freq y u' v') /\ vz (sin_texture amp phase freq y u v) = 0.
Proof. exists (V3 1 1 1), (V3 0 0 0), (V3 1 1 1), (V3 0 0 0). cbn. split; [lra|]. split; [lra|]. intros. split; [reflexivity|]. rewrite Rmult_0_l, sin_0. ring. Qed.
Print Assumptions C133_third_refuted.
Example C133_case : vx (sin_texture (V3 2 1 1) (V3 (PI / 2) 0 0) (V3 1 1 1) (V3 1 0 0) (1 / 2) (1 / 2)) = 3 /\ (0 - 1 / 2) ^ 2 + (1 / 2 - 1 / 2) ^ 2 = (1 / 2 - 1 / 2) ^ 2 + (0 - 1 / 2) ^ 2.
Proof.
  split; [|ring]. unfold sin_texture. cbn [vx]. replace ((1 / 2 - 1 / 2) * (1 / 2 - 1 / 2) + (1 / 2 - 1 / 2) * (1 / 2 - 1 / 2)) with 0 by ring. rewrite sqrt_0. replace (0 * 1 + PI / 2) with (PI / 2) by ring. rewrite sin_PI2. ring.
Qed.
