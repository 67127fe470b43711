(** C195-C197: the radiance of a camera sample in single precision. *)
From Coq Require Import ZArith Reals List Bool Lia Lra.
From Flocq Require Import Core BinarySingleNaN.
From Verif.Base Require Import F32.
From Verif.Model Require Import FloatDirs FloatPath.
From Verif.Spec Require Import FloatDirsSpec FloatPathSpec FloatEstSpec.
From Verif.Proof Require Import FloatDirsProof FloatPathProof FloatEstProof.
Import ListNotations.
Open Scope R_scope.

Lemma grown_le k n : (INR n <= 900000)%R -> grown k (S n) 0 <= 3 * INR (S n) * bpow radix2 k.
Proof.
  intros N. unfold grown. rewrite Rplus_0_l, bpow_plus. simpl (bpow radix2 1). assert (U : u32 = / 16777216) by (unfold u32; lra).
  assert (S1 : INR (S n) <= 900001) by (rewrite S_INR; lra). assert (P : (1 + u32) ^ S n <= 1 + 2 * (INR (S n) * u32)). { apply pow_bound; rewrite U; lra. }
  assert (Q : (1 + u32) ^ S n <= 3 / 2) by (rewrite U in *; lra). assert (0 < INR (S n)) by (apply lt_0_INR; lia). pose proof (bpow_gt_0 radix2 k).
  assert (0 < INR (S n) * bpow radix2 k) by (apply Rmult_lt_0_compat; lra).
  apply Rle_trans with (INR (S n) * (bpow radix2 k * 2) * (3 / 2)); [apply Rmult_le_compat_l; [|exact Q]; nra|lra].
Qed.
Lemma path_in k l sky : (-140 <= k <= 80)%Z -> INR (length l) <= 900000 -> (forall s, sky = Some s -> col_in (bpow radix2 k) s) ->
  List.Forall (turn_ok (bpow radix2 k)) l -> col_in (3 * INR (S (length l)) * bpow radix2 k) (f_sample l sky).
Proof.
  intros K N Sky Ok. assert (U : u32 = / 16777216) by (unfold u32; lra). eapply col_mono; [apply (grown_le k); exact N|].
  apply (f_path_in k sky K Sky l 0 1); auto; try lra.
  - rewrite Rmult_1_l. eapply Rle_trans; [apply pow_bound; rewrite U; lra|]. rewrite U. lra.
  - eapply Rle_trans; [apply grown_le; exact N|]. assert (bpow radix2 k <= bpow radix2 80) by (apply bpow_le; lia). pose proof (bpow_gt_0 radix2 k).
    rewrite S_INR. apply Rle_trans with (bpow radix2 23 * bpow radix2 80); [|rewrite <- bpow_plus; apply bpow_le; lia]. apply Rmult_le_compat; try lra.
    + pose proof (pos_INR (length l)). lra.
    + simpl (bpow radix2 23). lra.
  - cbn. repeat split; simpl; lra.
  - destruct f1_val as (V & F). unfold col_in, num_in. cbn [fvx fvy fvz]. rewrite V. repeat split; try exact F; lra.
Qed.

(** * C195: the path integrator.  Whatever numbers are drawn for the roulette, 0 included, a sample is
    made of finite non-negative numbers, at most three times what lights of strength 2^k give. *)
Theorem C195_finite : forall k vs sky, (-140 <= k <= 80)%Z -> INR (length vs) <= 900000 ->
  (forall v, In v vs -> tame v /\ col_in (bpow radix2 k) (v_light v)) -> (forall s, sky = Some s -> col_in (bpow radix2 k) s) ->
  col_in (3 * INR (S (length vs)) * bpow radix2 k) (f_sample (map (ESurface None) vs) sky).
Proof.
  intros k vs sky K N V Sky. rewrite <- (map_length (ESurface None) vs). apply path_in; auto; [now rewrite map_length|].
  apply List.Forall_forall. intros e I. apply in_map_iff in I as (v & <- & I). destruct (V v I) as (T & L). split; [exact T|]. split; [exact L|]. discriminate.
Qed.
Print Assumptions C195_finite.
(** A case: a grey surface of albedo 1/2 lit by a light of strength 1, met for any number of times up
    to 900000 with draws of 0. *)
Definition grey : fvertex := FVert (FV f1 f1 f1) (FV fhalf fhalf fhalf) fhalf fhalf f0.
Lemma half_val : B2R fhalf = / 2 /\ is_finite fhalf = true.
Proof. split; [|reflexivity]. unfold fhalf. destruct (f_of_small 1 (-1)) as (A & _); [lia|lia|]. rewrite A. unfold F2R. simpl. lra. Qed.
Example C195_case : forall n, (INR n <= 900000)%R -> col_in (3 * INR (S n) * 1) (f_sample (map (ESurface None) (repeat grey n)) (Some (FV f1 f1 f1))).
Proof.
  intros n N. pose proof half_val as (VH & FH). destruct f1_val as (V1 & F1). assert (U : u32 = / 16777216) by (unfold u32; lra).
  assert (One : col_in (bpow radix2 0) (FV f1 f1 f1)). { unfold col_in, num_in. cbn [fvx fvy fvz]. rewrite V1. simpl (bpow radix2 0). repeat split; try exact F1; lra. }
  assert (T : tame grey).
  { unfold tame, grey. cbn [v_albedo v_cos v_pdf v_draw fvx fvy fvz]. rewrite VH.
    split; [exists 1; unfold col_in, num_in; cbn [fvx fvy fvz]; rewrite VH; repeat split; try exact FH; lra|]. split; [exists 1; split; [exact FH|rewrite VH; lra]|].
    split; [reflexivity|]. split; [exact FH|]. split; [right; split; [apply Rle_trans with (bpow radix2 (-1)); [apply bpow_le; lia|simpl; lra]|apply Rle_trans with (bpow radix2 0); [simpl; lra|apply bpow_le; lia]]|].
    intros _. rewrite U. repeat split; lra. }
  replace (3 * INR (S n) * 1) with (3 * INR (S (length (repeat grey n))) * bpow radix2 0) by (rewrite repeat_length; simpl (bpow radix2 0); ring). apply C195_finite; [lia|rewrite repeat_length; exact N| |].
  - intros v I. apply repeat_spec in I as ->. split; [exact T|exact One].
  - intros s [= <-]. exact One.
Qed.

(** * C196: the volumetric integrators.  The same bound, when weights of media are in [0, 1], phase
    functions are at most 1 and no number drawn inside a medium is 0. *)
Theorem C196_finite : forall k l sky, (-140 <= k <= 80)%Z -> INR (length l) <= 900000 ->
  (forall e, In e l -> turn_ok (bpow radix2 k) e) -> (forall s, sky = Some s -> col_in (bpow radix2 k) s) ->
  col_in (3 * INR (S (length l)) * bpow radix2 k) (f_sample l sky).
Proof. intros k l sky K N V Sky. apply path_in; auto. apply List.Forall_forall. exact V. Qed.
Print Assumptions C196_finite.
(** With a draw of 0, which the sampler can give, one opaque stretch of medium in front of an ordinary
    surface makes the sample not a number, whatever comes after: the throughput is multiplied by the
    weight after the only test for a black throughput, 0 < 0 does not stop the path, and 0 is divided
    by 0. *)
Theorem C196_zero_draw_refuted : exists v, tame v /\ col_in 1 (v_light v) /\ v_draw v = f0 /\ col_in 1 (FV f0 f0 f0) /\
  forall rest sk, all_nan (f_sample (ESurface (Some (FV f0 f0 f0)) v :: rest) (Some sk)).
Proof.
  pose proof half_val as (VH & FH). destruct f1_val as (V1 & F1). assert (U : u32 = / 16777216) by (unfold u32; lra).
  exists grey. split; [|split; [|split; [reflexivity|split]]].
  - unfold tame, grey. cbn [v_albedo v_cos v_pdf v_draw fvx fvy fvz]. rewrite VH.
    split; [exists 1; unfold col_in, num_in; cbn [fvx fvy fvz]; rewrite VH; repeat split; try exact FH; lra|]. split; [exists 1; split; [exact FH|rewrite VH; lra]|].
    split; [reflexivity|]. split; [exact FH|]. split; [right; split; [apply Rle_trans with (bpow radix2 (-1)); [apply bpow_le; lia|simpl; lra]|apply Rle_trans with (bpow radix2 0); [simpl; lra|apply bpow_le; lia]]|].
    intros _. rewrite U. repeat split; lra.
  - unfold col_in, num_in, grey. cbn [v_light fvx fvy fvz]. rewrite V1. repeat split; try exact F1; lra.
  - unfold col_in, num_in. cbn. repeat split; lra.
  - intros rest sk. rewrite zero_draw; [repeat split| | |]; unfold grey; cbn [v_pdf v_draw]; auto. rewrite VH. lra.
Qed.
Print Assumptions C196_zero_draw_refuted.
(** A case for the bound: a scattering event in fog, then a null surface, then a surface seen through
    fog, each draw one half. *)
Definition fog : fvec := FV fhalf fhalf fhalf.
Definition foggy : list fevent := [EScatter fog fhalf (FV f1 f1 f1) fhalf; ENull (Some fog); ESurface (Some fog) (FVert (FV f1 f1 f1) fog fhalf fhalf fhalf)].
Example C196_case : col_in (3 * 4 * 1) (f_sample foggy None) /\ f_sample foggy None <> FV f0 f0 f0.
Proof.
  pose proof half_val as (VH & FH). destruct f1_val as (V1 & F1). assert (U : u32 = / 16777216) by (unfold u32; lra). split.
  - replace (3 * 4 * 1) with (3 * INR (S (length foggy)) * bpow radix2 0) by (simpl; lra). apply C196_finite; [lia|simpl; lra| |discriminate].
    assert (One : forall a, (0 <= a)%Z -> col_in (bpow radix2 a) (FV f1 f1 f1)).
    { intros a A. assert (1 <= bpow radix2 a) by (change 1 with (bpow radix2 0); apply bpow_le; lia). unfold col_in, num_in. cbn [fvx fvy fvz]. rewrite V1. repeat split; try exact F1; lra. }
    assert (Fg : col_in 1 fog). { unfold col_in, num_in, fog. cbn [fvx fvy fvz]. rewrite VH. repeat split; try exact FH; lra. }
    assert (Nh : num_in 1 fhalf) by (split; [exact FH|rewrite VH; lra]).
    assert (B23 : bpow radix2 (-23) <= / 2) by (apply Rle_trans with (bpow radix2 (-1)); [apply bpow_le; lia|simpl; lra]).
    intros e [<-|[<-|[<-|[]]]]; cbn [turn_ok v_draw v_light].
    + rewrite VH. repeat split; try apply Fg; try apply Nh; try apply (One 0%Z); auto; lia.
    + intros x [= <-]. exact Fg.
    + split; [|split; [apply One; lia|intros x [= <-]; split; [exact Fg|now rewrite VH]]].
      unfold tame. cbn [v_albedo v_cos v_pdf v_draw]. unfold fog at 2 3 4. cbn [fvx fvy fvz]. rewrite VH. split; [exists 1; exact Fg|]. split; [exists 1; exact Nh|]. split; [exact FH|]. split; [exact FH|].
      split; [right; split; [apply Rle_trans with (bpow radix2 (-1)); [apply bpow_le; lia|simpl; lra]|apply Rle_trans with (bpow radix2 0); [simpl; lra|apply bpow_le; lia]]|].
      intros _. rewrite U. repeat split; lra.
  - intros E. apply (f_equal (fun v => flt f0 (fvx v))) in E. revert E. vm_compute. discriminate.
Qed.

(** * C197: rounding hardly changes a sample.  For every path there are fates of its turns that follow
    the rules of the integrator with the numbers drawn, such that the sample is the exact estimate for
    these fates up to 12 (n + 1) units of 2^-24. *)
Theorem C197_estimate : forall k om vs sky, (-60 <= k <= 80)%Z -> INR (length vs) <= 900000 ->
  0 < om <= 1 -> bpow radix2 (-60) <= om ^ length vs -> (forall v, In v vs -> plain k om v) ->
  (forall s, sky = Some s -> col_in (bpow radix2 k) s /\ forall c, clear (bpow radix2 (-60)) (val c s)) ->
  exists fs, follows (4 * (length vs + 1)) (fun _ => 1) vs fs /\
    forall c, Rabs (val c (f_sample (map (ESurface None) vs) sky) - estimate c vs sky fs) <= 12 * INR (length vs + 1) / 2 ^ 24 * estimate c vs sky fs.
Proof.
  intros k om vs sky K N Om OmN V Sky. assert (U : u32 = / 16777216) by (unfold u32; lra). set (n := length vs) in *.
  assert (N4 : INR (4 * (n + 1)) <= 3600004). { rewrite mult_INR, plus_INR. simpl (INR 4). simpl (INR 1). lra. }
  destruct (est_in k sky om n K Sky Om OmN N4 vs 0 0 1 (FV f0 f0 f0) (FV f1 f1 f1) (fun _ => 0) (fun _ => 1)) as (fs & Fo & Es); fold n; auto; try lra.
  - rewrite Rmult_1_l. eapply Rle_trans; [apply pow_bound; rewrite U; lra|]. rewrite U. lra.
  - eapply Rle_trans; [apply grown_le; exact N|]. assert (bpow radix2 k <= bpow radix2 80) by (apply bpow_le; lia). pose proof (bpow_gt_0 radix2 k).
    rewrite S_INR. apply Rle_trans with (bpow radix2 23 * bpow radix2 80); [|rewrite <- bpow_plus; apply bpow_le; lia]. apply Rmult_le_compat; try lra.
    + pose proof (pos_INR n). lra.
    + simpl (bpow radix2 23). lra.
  - now apply List.Forall_forall.
  - cbn. repeat split; simpl; lra.
  - destruct f1_val as (V1 & F). unfold col_in, num_in. cbn [fvx fvy fvz]. rewrite V1. repeat split; try exact F; lra.
  - intros _. lra.
  - intros c. destruct f1_val as (V1 & _). assert (E : val c (FV f1 f1 f1) = 1) by (destruct c; exact V1). rewrite E. apply rel_refl.
  - intros _. right. simpl. lra.
  - intros _. lra.
  - intros c. assert (E : val c (FV f0 f0 f0) = 0) by (destruct c; reflexivity). rewrite E. apply rel_refl.
  - exists fs. split; [exact Fo|]. intros c. specialize (Es c). rewrite Rplus_0_l, Rmult_1_l in Es. fold (f_sample (map (ESurface None) vs) sky) in Es.
    set (x := val c (f_sample (map (ESurface None) vs) sky)) in *. set (y := estimate c vs sky fs) in *. destruct Es as (A & B). destruct (ro_two _ N4) as (R3 & _). pose proof (ro_pow (4 * (n + 1))) as R1.
    assert (E4 : 3 * (INR (4 * (n + 1)) * u32) = 12 * INR (n + 1) / 2 ^ 24). { rewrite mult_INR, U. simpl (INR 4). lra. }
    rewrite E4 in R3. set (e := 12 * INR (n + 1) / 2 ^ 24) in *. set (r := ro ^ (4 * (n + 1))) in *.
    assert (X0 : 0 <= x). { apply (col_val (3 * INR (S (length vs)) * bpow radix2 k)). apply C195_finite; auto; [lia| |].
      - intros v I. destruct (V v I) as (Ta & Li & _). now split.
      - intros s E. apply (Sky s E). }
    assert (Y0 : 0 <= y). { destruct (Rle_dec 0 y) as [H|H]; [exact H|]. apply Rnot_le_lt in H. nra. }
    apply Rabs_le. assert (r * y <= (1 + e) * y) by (apply Rmult_le_compat_r; lra). split; [|lra].
    assert (Q : y * (1 - e) <= x); [|lra]. assert (E0 : 0 <= e) by lra. destruct (Rle_dec e 1) as [L|L].
    + apply Rle_trans with (r * x * (1 - e)); [apply Rmult_le_compat_r; lra|]. assert (r * (1 - e) <= 1). { apply Rle_trans with ((1 + e) * (1 - e)); [apply Rmult_le_compat_r; lra|nra]. } nra.
    + apply Rnot_le_lt in L. nra.
Qed.
Print Assumptions C197_estimate.
(** A case: up to 60 grey surfaces under a white sky. *)
Example C197_case : forall n, (n <= 60)%nat -> exists fs, follows (4 * (n + 1)) (fun _ => 1) (repeat grey n) fs /\
  forall c, Rabs (val c (f_sample (map (ESurface None) (repeat grey n)) (Some (FV f1 f1 f1))) - estimate c (repeat grey n) (Some (FV f1 f1 f1)) fs)
    <= 12 * INR (n + 1) / 2 ^ 24 * estimate c (repeat grey n) (Some (FV f1 f1 f1)) fs.
Proof.
  intros n N. pose proof half_val as (VH & FH). destruct f1_val as (V1 & F1). assert (U : u32 = / 16777216) by (unfold u32; lra).
  assert (One : col_in (bpow radix2 0) (FV f1 f1 f1)). { unfold col_in, num_in. cbn [fvx fvy fvz]. rewrite V1. simpl (bpow radix2 0). repeat split; try exact F1; lra. }
  assert (C1 : forall c, clear (bpow radix2 (-60)) (val c (FV f1 f1 f1))). { intros c. right. replace (val c (FV f1 f1 f1)) with (bpow radix2 0) by (destruct c; cbn [val get]; unfold val; cbn [get fvx fvy fvz]; rewrite V1; reflexivity). apply bpow_le. lia. }
  pose proof (C197_estimate 0 (/ 2) (repeat grey n) (Some (FV f1 f1 f1))) as H. rewrite repeat_length in H. apply H; clear H; [lia| |lra| | |].
  - apply Rle_trans with (INR 60); [now apply le_INR|simpl; lra].
  - rewrite <- Rinv_pow by lra. replace (bpow radix2 (-60)) with (/ 2 ^ 60) by (rewrite (pow_IZR 2 60); reflexivity). apply Rinv_le_contravar; [apply pow_lt; lra|]. apply Rle_pow; [lra|exact N].
  - intros v I. apply repeat_spec in I as ->. split; [|split; [exact One|split; [exact C1|]]].
    + unfold tame, grey. cbn [v_albedo v_cos v_pdf v_draw fvx fvy fvz]. rewrite VH.
      split; [exists 1; unfold col_in, num_in; cbn [fvx fvy fvz]; rewrite VH; repeat split; try exact FH; lra|]. split; [exists 1; split; [exact FH|rewrite VH; lra]|].
      split; [reflexivity|]. split; [exact FH|]. split; [right; split; [apply Rle_trans with (bpow radix2 (-1)); [apply bpow_le; lia|simpl; lra]|apply Rle_trans with (bpow radix2 0); [simpl; lra|apply bpow_le; lia]]|].
      intros _. rewrite U. repeat split; lra.
    + intros _ c. right. unfold bsdf, val, grey. cbn [v_albedo v_cos v_pdf]. replace (B2R (get c (FV fhalf fhalf fhalf))) with (/ 2) by (destruct c; cbn [get fvx fvy fvz]; now rewrite VH). rewrite VH. lra.
  - intros s [= <-]. split; [exact One|exact C1].
Qed.
