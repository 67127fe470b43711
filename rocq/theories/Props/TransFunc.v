(** Transmittance functions (src/media/trans_funcs). *)
From Coq Require Import Reals List Lra Lia Psatz.
From Coquelicot Require Import Coquelicot.
From Verif.Base Require Import Outcome RTac.
From Verif.Model Require Import Vec Media TransFunc.
From Verif.Spec Require Import MediaSpec TransSpec.
From Verif.Proof Require Import VecLemmas WarpProof MediaProof TransProof.
Open Scope R_scope.

(** meaningful parameters *)
Definition sane (f : trans_func) : Prop :=
  match f with ExpTrans => True | LinearTrans maxT => 0 < maxT | DavisTrans h c => 0 < c end.
Lemma beta_range h : -1 <= davis_beta h <= 1.
Proof. unfold davis_beta. pose proof (Rmin_r (Rmax h 0) 1). pose proof (Rmin_glb (Rmax h 0) 1 0 (Rmax_r h 0) ltac:(lra)). lra. Qed.
Lemma exp_anti a b : b <= a -> exp (- a) <= exp (- b).
Proof. intros [L| ->]; [left; apply exp_increasing; lra|right; reflexivity]. Qed.

(** * C112 *)
(** transmittance from surface to surface is a survival probability of the (gray) optical depth, in each channel *)
Theorem C112_survival f k : sane f -> survival (fun t => channel k (surfaceSurface f (V3c t))).
Proof.
  intros S. destruct f as [|maxT|h c].
  - assert (E : forall t, channel k (surfaceSurface ExpTrans (V3c t)) = exp (- t)) by (intros; destruct k as [|[|k]]; reflexivity).
    split; [rewrite E, Ropp_0; apply exp_0|]. split; [intros t T; rewrite E; split; [left; apply exp_pos|rewrite <- exp_0, <- Ropp_0; apply exp_anti, T]|].
    intros s t H. rewrite !E. apply exp_anti. lra.
  - simpl in S. assert (E : forall t, channel k (surfaceSurface (LinearTrans maxT) (V3c t)) = 1 - Rmin (t / maxT) 1) by (intros; destruct k as [|[|k]]; reflexivity).
    assert (D : forall t, 0 <= t -> 0 <= t / maxT) by (intros; apply Rle_div_iff; lra).
    split; [rewrite E; replace (0 / maxT) with 0 by (field; lra); rewrite Rmin_left by lra; ring|].
    split; [intros t T; rewrite E; pose proof (Rmin_r (t / maxT) 1); pose proof (Rmin_glb (t / maxT) 1 0 (D t T) ltac:(lra)); lra|].
    intros s t H. rewrite !E. assert (s / maxT <= t / maxT) by (apply Rmult_le_compat_r; [left; apply Rinv_0_lt_compat, S|lra]).
    pose proof (Rle_min_compat_r (s / maxT) (t / maxT) 1 H0). lra.
  - assert (E : forall t, channel k (surfaceSurface (DavisTrans h c) (V3c t)) = davis_ss (davis_beta h) c t) by (intros; destruct k as [|[|k]]; reflexivity).
    split; [rewrite E; unfold davis_ss; destruct (Rlt_dec 0 (1 / 10000)); [reflexivity|lra]|].
    split; [intros t T; rewrite E; pose proof (davis_ss_range (davis_beta h) c t); lra|].
    intros s t H. rewrite !E. apply davis_ss_anti; [apply beta_range|lra].
Qed.
Print Assumptions C112_survival.
(** the free-flight density from a surface is minus its derivative *)
Theorem C112_surface_density f k t : sane f ->
  match f with ExpTrans => True | LinearTrans maxT => 0 < t /\ t <> maxT | DavisTrans _ _ => 1 / 10000 < t end ->
  density_of_survival (fun t => channel k (surfaceSurface f (V3c t))) (fun t => channel k (surfaceMedium f (V3c t))) t.
Proof.
  intros S H. unfold density_of_survival. destruct f as [|maxT|h c].
  - apply (is_derive_ext (fun t => exp (- t))); [intros; destruct k as [|[|k]]; reflexivity|].
    replace (channel k (surfaceMedium ExpTrans (V3c t))) with (exp (- t)) by (destruct k as [|[|k]]; reflexivity). auto_derive; [trivial|ring].
  - simpl in S. destruct H as [T N].
    replace (channel k (surfaceMedium (LinearTrans maxT) (V3c t))) with (step1 t maxT * (1 / maxT)) by (destruct k as [|[|k]]; reflexivity).
    apply (is_derive_ext (fun t => 1 - Rmin (t / maxT) 1)); [intros; destruct k as [|[|k]]; reflexivity|]. unfold step1. destruct (Rgt_dec maxT t) as [G|G].
    + apply (is_derive_ext_loc (fun t => 1 - t / maxT)).
      * assert (E : 0 < maxT - t) by lra. exists (mkposreal _ E). intros y Y. assert (K : Rabs (y - t) < maxT - t) by exact Y. apply Rabs_def2 in K.
        rewrite Rmin_left; [reflexivity|]. apply Rdiv_le_iff; lra.
      * auto_derive; [trivial|]. field. lra.
    + apply Rnot_gt_le in G. apply (is_derive_ext_loc (fun _ => 0)).
      * assert (E : 0 < t - maxT) by lra. exists (mkposreal _ E). intros y Y. assert (K : Rabs (y - t) < t - maxT) by exact Y. apply Rabs_def2 in K.
        rewrite Rmin_right; [match goal with |- ?a = ?b => change (@eq R a b) end; ring|]. apply Rle_div_iff; lra.
      * auto_derive; [trivial|]. ring.
  - apply (is_derive_ext (davis_ss (davis_beta h) c)); [intros; destruct k as [|[|k]]; reflexivity|].
    replace (channel k (surfaceMedium (DavisTrans h c) (V3c t))) with (davis_sm (davis_beta h) c t) by (destruct k as [|[|k]]; reflexivity). apply davis_ss_derive, H.
Qed.
Print Assumptions C112_surface_density.
(** likewise from inside the medium, for the exponential and Davis functions *)
Theorem C112_medium_density f k t :
  match f with ExpTrans => True | LinearTrans maxT => False | DavisTrans _ _ => 1 / 10000 < t end ->
  density_of_survival (fun t => channel k (mediumSurface f (V3c t))) (fun t => channel k (mediumMedium f (V3c t))) t.
Proof.
  intros H. unfold density_of_survival. destruct f as [|maxT|h c]; [|contradiction|].
  - apply (is_derive_ext (fun t => exp (- t))); [intros; destruct k as [|[|k]]; reflexivity|].
    replace (channel k (mediumMedium ExpTrans (V3c t))) with (exp (- t)) by (destruct k as [|[|k]]; reflexivity). auto_derive; [trivial|ring].
  - apply (is_derive_ext (davis_sm (davis_beta h) c)); [intros; destruct k as [|[|k]]; reflexivity|].
    replace (channel k (mediumMedium (DavisTrans h c) (V3c t))) with (davis_mm (davis_beta h) c t) by (destruct k as [|[|k]]; reflexivity). apply davis_sm_derive, H.
Qed.
Print Assumptions C112_medium_density.
(** the linear function replaces the point mass at maxT by a box of height 1: its total is 1/500, not 1 *)
Theorem C112_linear_medium_refuted maxT k : 1 / 1000 < maxT ->
  is_RInt (fun t => channel k (mediumMedium (LinearTrans maxT) (V3c t))) 0 (2 * maxT) (1 / 500) /\
  exists t, 0 < t /\ is_derive (fun t => channel k (mediumSurface (LinearTrans maxT) (V3c t))) t 0 /\ channel k (mediumMedium (LinearTrans maxT) (V3c t)) = 1.
Proof.
  intros M. set (e := 1 / 1000) in *. assert (Ev : e = 1 / 1000) by reflexivity. clearbody e.
  assert (V : forall t, channel k (mediumMedium (LinearTrans maxT) (V3c t)) = boxcar1 t (maxT - e) (maxT + e)) by (intros; rewrite Ev; destruct k as [|[|k]]; reflexivity).
  split.
  - apply (is_RInt_ext (fun t => boxcar1 t (maxT - e) (maxT + e))); [intros; symmetry; apply V|].
    apply (is_RInt_val _ _ _ (0 + (2 * e + 0))); [lra|].
    refine (is_RInt_Chasles (V := R_NormedModule) _ 0 (maxT - e) (2 * maxT) 0 (2 * e + 0) _ _).
    { apply (is_RInt_ext (fun _ => 0)); [|apply const_int; ring]. rewrite Rmin_left, Rmax_right by lra. intros x X. unfold boxcar1. destruct (Rle_dec (maxT - e) x); [lra|reflexivity]. }
    refine (is_RInt_Chasles (V := R_NormedModule) _ (maxT - e) (maxT + e) (2 * maxT) (2 * e) 0 _ _).
    { apply (is_RInt_ext (fun _ => 1)); [|apply const_int; ring]. rewrite Rmin_left, Rmax_right by lra. intros x X. unfold boxcar1.
      destruct (Rle_dec (maxT - e) x) as [P|P]; [|exfalso; lra]. destruct (Rle_dec x (maxT + e)) as [Q|Q]; [reflexivity|exfalso; lra]. }
    { apply (is_RInt_ext (fun _ => 0)); [|apply const_int; ring]. rewrite Rmin_left, Rmax_right by lra. intros x X. unfold boxcar1.
      destruct (Rle_dec (maxT - e) x); [|reflexivity]. destruct (Rle_dec x (maxT + e)); [lra|reflexivity]. }
  - exists (maxT - e / 2). split; [lra|]. split.
    + apply (is_derive_ext_loc (fun _ => 1)); [|auto_derive; [trivial|reflexivity]].
      assert (E : 0 < e / 2) by lra. exists (mkposreal _ E). intros y Y. assert (K : Rabs (y - (maxT - e / 2)) < e / 2) by exact Y. apply Rabs_def2 in K.
      assert (Z : step1 y maxT = 1) by (unfold step1; destruct (Rgt_dec maxT y); [reflexivity|lra]). destruct k as [|[|k]]; simpl; rewrite Z; reflexivity.
    + rewrite V. unfold boxcar1. destruct (Rle_dec (maxT - e) (maxT - e / 2)) as [P|P]; [|exfalso; lra]. destruct (Rle_dec (maxT - e / 2) (maxT + e)) as [Q|Q]; [reflexivity|exfalso; lra].
Qed.
Print Assumptions C112_linear_medium_refuted.
Example C112_case : sane (DavisTrans (1 / 2) 2) /\ 1 / 10000 < 3 /\ davis_ss (davis_beta (1 / 2)) 2 3 = Rpower (1 + 3 / (Rpower 3 (1 - 0) / Rpower 2 (1 + 0))) (- (Rpower 3 (1 - 0) / Rpower 2 (1 + 0))).
Proof.
  split; [simpl; lra|]. split; [lra|]. assert (B : davis_beta (1 / 2) = 0) by (unfold davis_beta; rewrite Rmax_left, Rmin_left by lra; field).
  rewrite B. unfold davis_ss. destruct (Rlt_dec 3 (1 / 10000)); [lra|]. reflexivity.
Qed.

(** * C113: starting in the medium = starting on a surface, weighted: reciprocity of the four functions *)
Theorem C113_reciprocal f tau : sane f -> surfaceMedium f tau = vscale (mediumSurface f tau) (sigmaBar f).
Proof. intros S. destruct f; simpl in *; apply V3_eq; simpl; ring. Qed.
Print Assumptions C113_reciprocal.
(** the value used for a segment ending on a surface is the survival probability, ending in the medium the density over sigmaBar *)
Theorem C113_eval f tau start : sane f ->
  tf_eval f tau start true = surfaceProbability f tau start /\ vscale (tf_eval f tau start false) (sigmaBar f) = mediumPdf f tau start.
Proof.
  intros S. assert (N : sigmaBar f <> 0) by (destruct f; simpl in *; try lra; apply Rgt_not_eq, Rdiv_lt_0_compat; lra).
  split; [destruct start; reflexivity|]. destruct start; unfold tf_eval, mediumPdf; simpl.
  - symmetry. apply C113_reciprocal, S.
  - unfold vscale, vdiv. destruct (mediumMedium f tau); simpl. apply V3_eq; simpl; field; exact N.
Qed.
Print Assumptions C113_eval.
(** sigmaBar is the density right after a surface *)
Theorem C113_sigma_bar f : sane f -> surfaceMedium f (V3c 0) = V3c (sigmaBar f).
Proof.
  intros S. destruct f as [|maxT|h c]; simpl in *; unfold V3c; apply V3_eq; simpl; try (rewrite Ropp_0; apply exp_0).
  all: try (unfold step1; destruct (Rgt_dec maxT 0); [ring|contradiction]). all: unfold davis_sm; destruct (Rlt_dec 0 (1 / 10000)); [reflexivity|lra].
Qed.
Print Assumptions C113_sigma_bar.
Example C113_case : sane (DavisTrans (1 / 2) 2) /\ sane (LinearTrans 4) /\ sigmaBar (LinearTrans 4) = 1 / 4 /\
  vx (surfaceMedium (LinearTrans 4) (V3c 1)) = 1 / 4 /\ vx (mediumSurface (LinearTrans 4) (V3c 1)) = 1.
Proof. simpl. unfold step1. rcase; repeat split; lra. Qed.
(** the Davis function only looks at the first channel *)
Theorem C113_davis_channels_refuted : exists f tau, sane f /\ vx tau = 0 /\ vy tau = 1 /\ vy (surfaceSurface f tau) = 1 /\ vy (surfaceSurface f (V3c 1)) < 1.
Proof.
  exists (DavisTrans (1 / 2) 1), (V3 0 1 0). simpl. split; [lra|]. split; [reflexivity|]. split; [reflexivity|]. split.
  - unfold davis_ss. destruct (Rlt_dec 0 (1 / 10000)); [reflexivity|lra].
  - unfold davis_ss. destruct (Rlt_dec 1 (1 / 10000)); [lra|]. cbv zeta. unfold Rpower.
    pose proof (alpha_pos (davis_beta (1 / 2)) 1 1) as A. assert (0 < 1 / davis_alpha (davis_beta (1 / 2)) 1 1) by (apply Rdiv_lt_0_compat; lra).
    assert (0 < ln (1 + 1 / davis_alpha (davis_beta (1 / 2)) 1 1)) by (rewrite <- ln_1; apply ln_increasing; lra).
    apply (Rlt_le_trans _ (exp 0)); [apply exp_increasing; nra|rewrite exp_0; lra].
Qed.
Print Assumptions C113_davis_channels_refuted.
(** exactly: all its values, for every kind of segment and in every channel, are those of the depth of
    the first channel *)
Theorem C113_davis_first h c tau start stop k :
  channel k (tf_eval (DavisTrans h c) tau start stop) = channel 0 (tf_eval (DavisTrans h c) (V3c (channel 0 tau)) start stop).
Proof. destruct start, stop, k as [|[|k]]; reflexivity. Qed.
Print Assumptions C113_davis_first.
Example C113_davis_first_case : vz (tf_eval (DavisTrans (1 / 2) 1) (V3 0 5 9) true true) = 1.
Proof.
  pose proof (C113_davis_first (1 / 2) 1 (V3 0 5 9) true true 2) as H. cbn [channel] in H. rewrite H. cbn. unfold davis_ss. destruct (Rlt_dec 0 (1 / 10000)); [reflexivity|lra].
Qed.
(** the other two treat every channel on its own *)
Theorem C113_channels f tau start stop k : (match f with DavisTrans _ _ => False | _ => True end) ->
  channel k (tf_eval f tau start stop) = channel k (tf_eval f (V3c (channel k tau)) start stop).
Proof. intros H. destruct f; [| |contradiction]; destruct start, stop, k as [|[|k]]; reflexivity. Qed.
Print Assumptions C113_channels.
Example C113_channels_case : vz (tf_eval (LinearTrans 4) (V3 1 3 2) true true) = 1 / 2.
Proof.
  pose proof (C113_channels (LinearTrans 4) (V3 1 3 2) true true 2 I) as H. cbn [channel] in H. rewrite H. cbn. rewrite Rmin_left; lra.
Qed.

(** * C114: sampled depths *)
(** exponential: exactly the survival probability, from a surface and from the medium *)
Theorem C114_exponential fuel (start : bool) k : exists g, (forall u, tf_sample fuel ExpTrans u start = Ok (g u)) /\
  samples_survival g (fun t => channel k (surfaceProbability ExpTrans (V3c t) start)).
Proof.
  exists (fun u => - ln (1 - u)). split; [intros; destruct start; reflexivity|].
  assert (E : forall t, channel k (surfaceProbability ExpTrans (V3c t) start) = exp (- t)) by (intros; destruct start, k as [|[|k]]; reflexivity).
  intros t T. left. intros u U. rewrite E. rewrite <- (exp_ln (1 - u)) at 2 by lra. split; intros H.
  - apply exp_increasing. lra.
  - apply exp_lt_inv in H. lra.
Qed.
Print Assumptions C114_exponential.
(** linear, from the medium: always the maximal depth, as its survival probability says *)
Theorem C114_linear_medium fuel maxT k : 0 < maxT -> exists g, (forall u, tf_sample fuel (LinearTrans maxT) u false = Ok (g u)) /\
  samples_survival g (fun t => channel k (surfaceProbability (LinearTrans maxT) (V3c t) false)).
Proof.
  intros M. exists (fun _ => maxT). split; [reflexivity|].
  assert (E : forall t, channel k (surfaceProbability (LinearTrans maxT) (V3c t) false) = step1 t maxT) by (intros; destruct k as [|[|k]]; reflexivity).
  intros t T. right. intros u U. rewrite E. unfold step1. destruct (Rgt_dec maxT t); lra.
Qed.
Print Assumptions C114_linear_medium.
(** linear, from a surface: uniform, but on an interval that is shorter by the factor 1 - 1e-5 *)
Theorem C114_linear_surface fuel maxT : 0 < maxT -> exists g, (forall u, tf_sample fuel (LinearTrans maxT) u true = Ok (g u)) /\
  forall t u, 0 <= t -> 0 <= u < 1 -> (t < g u <-> t / (maxT * (1 - 1 / 100000)) < u).
Proof.
  intros M. exists (fun u => maxT * (1 - 1 / 100000) * u). split; [reflexivity|]. intros t u T U. set (q := maxT * (1 - 1 / 100000)). assert (0 < q) by (unfold q; nra).
  split; intros H'; [apply Rdiv_lt_iff; lra|]. apply (Rmult_lt_compat_l q) in H'; [|assumption]. replace (q * (t / q)) with t in H' by (field; lra). lra.
Qed.
Print Assumptions C114_linear_surface.
Theorem C114_linear_surface_refuted maxT k : 0 < maxT -> exists t, 0 < channel k (surfaceProbability (LinearTrans maxT) (V3c t) true) /\
  forall fuel u x, 0 <= u < 1 -> tf_sample fuel (LinearTrans maxT) u true = Ok x -> x <= t.
Proof.
  intros M. set (t := maxT * (1 - 1 / 100000)). exists t. split.
  - replace (channel k (surfaceProbability (LinearTrans maxT) (V3c t) true)) with (1 - Rmin (t / maxT) 1) by (destruct k as [|[|k]]; reflexivity).
    assert (Z : t / maxT = 1 - 1 / 100000) by (unfold t; field; lra). rewrite Z, Rmin_left by lra. lra.
  - intros fuel u x U H. simpl in H. injection H as <-. fold t. assert (0 < t) by (unfold t; nra). nra.
Qed.
Print Assumptions C114_linear_surface_refuted.
(** Davis: the search always ends after 41 tests; the result lies in a bracket of width 4e-6 around a depth where the survival probability crosses 1 - u *)
Theorem C114_davis h c u (start : bool) : 0 <= u ->
  u < 1 - channel 0 (surfaceProbability (DavisTrans h c) (V3c 4000000) start) ->
  exists x, tf_sample 41 (DavisTrans h c) u start = Ok x /\ 0 <= x <= 4000000 /\
    exists l r, 0 <= l <= x /\ x <= r /\ r - l <= 4 / 1000000 /\
      channel 0 (surfaceProbability (DavisTrans h c) (V3c r) start) < 1 - u <= channel 0 (surfaceProbability (DavisTrans h c) (V3c l) start).
Proof.
  intros U0 U1. set (S := fun t => channel 0 (surfaceProbability (DavisTrans h c) (V3c t) start)).
  assert (R : forall fuel, tf_sample fuel (DavisTrans h c) u start = bisect fuel (fun t => 1 - S t) u 1000000 (1000000 * 2)) by (intros; destruct start; reflexivity).
  assert (Z : S 0 = 1).
  { unfold S. destruct start; simpl; [unfold davis_ss|unfold davis_sm]; destruct (Rlt_dec 0 (1 / 10000)); (reflexivity || lra). }
  destruct (bisect_total (fun t => 1 - S t) u 40 1000000 (1000000 * 2)) as (x&X); [simpl; lra|].
  exists x. rewrite R. split; [exact X|].
  destruct (bisect_bracket (fun t => 1 - S t) u 41 1000000 (1000000 * 2) 0 4000000 x ltac:(lra) ltac:(lra) ltac:(lra) ltac:(cbv beta; rewrite Z; fold (S 4000000) in U1; lra) X) as (l&r&A&B&C&D&E).
  split; [lra|]. exists l, r. fold (S l). fold (S r). repeat split; lra.
Qed.
Print Assumptions C114_davis.
Example C114_case : exists x, tf_sample 41 (DavisTrans 1 1) 0 true = Ok x /\ 0 <= x <= 4000000.
Proof.
  destruct (C114_davis 1 1 0 true ltac:(lra)) as (x&X&Y&_).
  - simpl. assert (B : davis_beta 1 = 1) by (unfold davis_beta; rewrite Rmax_left, Rmin_left by lra; ring). rewrite B.
    unfold davis_ss. destruct (Rlt_dec 4000000 (1 / 10000)); [lra|]. cbv zeta. unfold Rpower.
    pose proof (alpha_pos 1 1 4000000) as A. assert (0 < 4000000 / davis_alpha 1 1 4000000) by (apply Rdiv_lt_0_compat; lra).
    assert (0 < ln (1 + 4000000 / davis_alpha 1 1 4000000)) by (rewrite <- ln_1; apply ln_increasing; lra).
    assert (exp (- davis_alpha 1 1 4000000 * ln (1 + 4000000 / davis_alpha 1 1 4000000)) < 1); [|lra].
    apply (Rlt_le_trans _ (exp 0)); [apply exp_increasing; nra|rewrite exp_0; lra].
  - exists x. split; assumption.
Qed.
