(** Participating media: transmittance estimators, free-flight sampling, the medium interface. *)
From Coq Require Import Reals List Lra Lia Psatz.
From Coquelicot Require Import Coquelicot.
From Flocq Require Import Core.Raux.
From Verif.Base Require Import Outcome RTac.
From Verif.Model Require Import Vec Matrix BBox Media.
From Verif.Spec Require Import LinAlgSpec MediaSpec.
From Verif.Proof Require Import VecLemmas WarpProof TransformProof MediaProof.
Import ListNotations.
Open Scope R_scope.

(** a constant medium: every channel has density d >= 0, the same everywhere *)
Definition constant_medium (m : media) (d : vec3) : Prop := m_dens m = ConstantDensity d /\ each (Rle 0) d /\ each (Rle 0) (m_abs m) /\ each (Rle 0) (m_sca m).
Lemma constant_D m d p : constant_medium m d -> m_D m p = vmul d (m_sigma_t m).
Proof. intros (H&_). unfold m_D. rewrite H. reflexivity. Qed.
Lemma each_channel (P : R -> Prop) c : (forall k, P (channel k c)) <-> each P c.
Proof. unfold each. split; [intros H; repeat split; [apply (H 0%nat)|apply (H 1%nat)|apply (H 2%nat)]|intros (A&B&C) [|[|k]]; assumption]. Qed.
Lemma sigma_nonneg m d k : constant_medium m d -> 0 <= channel k (m_sigma_t m).
Proof.
  intros (_&_&A&B). pose proof (proj2 (each_channel (Rle 0) _) A k) as X. pose proof (proj2 (each_channel (Rle 0) _) B k) as Y.
  unfold m_sigma_t. destruct k as [|[|k]]; simpl in *; lra.
Qed.

(** * C43 *)
(** the homogeneous estimator of a constant medium returns exp(-density * sigma_t * length), per channel, and no other result *)
Theorem C43_homogeneous fuel m d r a b us : constant_medium m d -> m_est m = Homo ->
  exists c, media_transmittance fuel m r a b us = Ok (c, us) /\
    forall k, channel k c = attenuation (fun _ => channel k d * channel k (m_sigma_t m)) a b.
Proof.
  intros Cm E. unfold media_transmittance. rewrite E. simpl. eexists. split; [reflexivity|]. intros k. unfold homo_tr.
  rewrite (constant_D m d) by exact Cm. rewrite channel_exp, channel_scale, channel_mul, attenuation_const. f_equal. ring.
Qed.
Print Assumptions C43_homogeneous.
Definition homo_value (m : media) (d : vec3) (a b : R) (k : nat) : R := attenuation (fun _ => channel k d * channel k (m_sigma_t m)) a b.
(** the value read off the code: in (0,1], 1 on the empty segment, shrinking with length, a product over adjacent segments *)
Theorem C43_laws fuel m d r us : constant_medium m d -> m_est m = Homo ->
  forall a b c x y z k, media_transmittance fuel m r a b us = Ok (x, us) -> media_transmittance fuel m r b c us = Ok (y, us) ->
    media_transmittance fuel m r a c us = Ok (z, us) ->
    (a <= b -> 0 < channel k x <= 1) /\ (a = b -> channel k x = 1) /\ (b <= c -> channel k z <= channel k x) /\ channel k z = channel k x * channel k y.
Proof.
  intros Cm E a b c x y z k X Y Z.
  assert (V : forall a b x, media_transmittance fuel m r a b us = Ok (x, us) -> channel k x = exp (- (channel k d * channel k (m_sigma_t m) * (b - a)))).
  { intros a' b' x' H. destruct (C43_homogeneous fuel m d r a' b' us Cm E) as (w&W&K). rewrite H in W. injection W as <-. rewrite K, attenuation_const. reflexivity. }
  rewrite (V _ _ _ X), (V _ _ _ Y), (V _ _ _ Z).
  pose proof (sigma_nonneg m d k Cm) as S. assert (Dn : 0 <= channel k d) by (destruct Cm as (_&Dd&_); apply (proj2 (each_channel (Rle 0) d) Dd)).
  set (e := channel k d * channel k (m_sigma_t m)) in *. assert (0 <= e) by (apply Rmult_le_pos; assumption).
  assert (EL : forall p q, p <= q -> exp p <= exp q) by (intros p q [L| ->]; [left; apply exp_increasing, L|right; reflexivity]).
  split; [intros L; split; [apply exp_pos|rewrite <- exp_0; apply EL; nra]|]. split; [intros ->; rewrite <- exp_0; f_equal; ring|].
  split; [intros L; apply EL; nra|]. rewrite <- exp_plus. f_equal. ring.
Qed.
Print Assumptions C43_laws.
(** black medium of density 2 under the identity: channel 0 of a segment of length 3 is exp(-6) *)
Definition fog (e : estimator) (s : sampling) (d abs sca : vec3) : media := Media e s (ConstantDensity d) (tf_id) abs sca.
Example C43_case : constant_medium (fog Homo Analytic (V3c 2) (V3c 1) (V3c 0)) (V3c 2) /\
  exists c, media_transmittance 0 (fog Homo Analytic (V3c 2) (V3c 1) (V3c 0)) (Ray (V3c 0) (V3 0 0 1) 0 9) 1 4 [] = Ok (c, []) /\ vx c = exp (-6).
Proof.
  split; [unfold constant_medium, each; simpl; repeat split; lra|]. eexists. split; [reflexivity|]. simpl. f_equal. ring.
Qed.

(** * C44 *)
(** the ray-marching estimator of a constant medium: the extinction (density * sigma_t^2) once per step, whatever the step length *)
Theorem C44_exact m d r a b step u us : constant_medium m d -> m_est m = March step -> 0 < step -> a <= b ->
  exists N, forall fuel, (N <= fuel)%nat -> exists c, media_transmittance fuel m r a b (u :: us) = Ok (c, us) /\
    forall k, channel k c = exp (- (channel k d * channel k (m_sigma_t m) * channel k (m_sigma_t m)) * IZR (Zceil ((b - a) / step))).
Proof.
  intros Cm E S L. destruct (steps_exist b a step S) as (n&N1&N2&N3). exists (Datatypes.S n). intros fuel F.
  set (r' := tf_ray (tf_inverse (m_transform m)) r).
  pose proof (march_const (m_D m) (m_sigma_t m) step r' b u (vmul (vmul d (m_sigma_t m)) (m_sigma_t m)) S
    (fun t => f_equal (fun z => vmul z (m_sigma_t m)) (constant_D m d (ray_at r' t) Cm)) n fuel a (V3c 0) ltac:(lia) N1 N2) as H.
  unfold media_transmittance. rewrite E. simpl. fold r'. rewrite H. simpl. eexists. split; [reflexivity|]. intros k.
  rewrite <- N3 by exact L. rewrite channel_exp. f_equal.
  transitivity (- channel k (vscale (vmul (vmul d (m_sigma_t m)) (m_sigma_t m)) (INR n))); [destruct k as [|[|k]]; simpl; ring|].
  rewrite channel_scale, !channel_mul. ring.
Qed.
Print Assumptions C44_exact.
(** so halving the step of a segment of length 1 squares the result: the estimate depends on the number of steps *)
Theorem C44_step_independent_refuted : exists m1 m2 d r a b u us c1 c2,
  constant_medium m1 d /\ constant_medium m2 d /\ m_abs m1 = m_abs m2 /\ m_sca m1 = m_sca m2 /\ m_est m1 = March 1 /\ m_est m2 = March (1 / 2) /\
  (exists fuel, media_transmittance fuel m1 r a b (u :: us) = Ok (c1, us)) /\ (exists fuel, media_transmittance fuel m2 r a b (u :: us) = Ok (c2, us)) /\
  vx c1 <> vx c2.
Proof.
  set (r := Ray (V3c 0) (V3 0 0 1) 0 9).
  set (m1 := fog (March 1) Analytic (V3c 1) (V3c 1) (V3c 0)). set (m2 := fog (March (1 / 2)) Analytic (V3c 1) (V3c 1) (V3c 0)).
  assert (K1 : constant_medium m1 (V3c 1)) by (unfold constant_medium, each; simpl; repeat split; lra).
  assert (K2 : constant_medium m2 (V3c 1)) by (unfold constant_medium, each; simpl; repeat split; lra).
  destruct (C44_exact m1 (V3c 1) r 0 1 1 0 [] K1 eq_refl ltac:(lra) ltac:(lra)) as (N1&H1). destruct (H1 N1 (le_n _)) as (c1&C1&V1).
  destruct (C44_exact m2 (V3c 1) r 0 1 (1/2) 0 [] K2 eq_refl ltac:(lra) ltac:(lra)) as (N2&H2). destruct (H2 N2 (le_n _)) as (c2&C2&V2).
  exists m1, m2, (V3c 1), r, 0, 1, 0, [], c1, c2. repeat (split; [first [exact K1|exact K2|reflexivity]|]).
  split; [exists N1; exact C1|]. split; [exists N2; exact C2|].
  pose proof (V1 0%nat) as W1. pose proof (V2 0%nat) as W2. simpl in W1, W2. rewrite W1, W2.
  replace ((1 - 0) / 1) with (IZR 1) by (simpl; field). replace ((1 - 0) / (1 / 2)) with (IZR 2) by (simpl; field). rewrite !Zceil_IZR.
  intros X. apply exp_inv in X. lra.
Qed.
Print Assumptions C44_step_independent_refuted.
(** and with ever smaller steps it tends to 0 instead of the transmittance *)
Theorem C44_vanishes d sg a b k : a < b -> 0 < channel k d -> 0 < channel k sg -> forall eps, 0 < eps ->
  exists s0, 0 < s0 /\ forall m step r u us, constant_medium m d -> m_sigma_t m = sg -> m_est m = March step -> 0 < step < s0 ->
    exists fuel c, media_transmittance fuel m r a b (u :: us) = Ok (c, us) /\ 0 < channel k c < eps.
Proof.
  intros L Dp Sp eps He. set (e := channel k d * channel k sg * channel k sg). assert (Ep : 0 < e) by (repeat apply Rmult_lt_0_compat; assumption).
  set (w := Rmax 1 (- ln eps / e + 1)). assert (W1 : 1 <= w) by apply Rmax_l. assert (W2 : - ln eps / e + 1 <= w) by apply Rmax_r.
  exists ((b - a) / w). split; [apply Rdiv_lt_0_compat; lra|]. intros m step r u us Cm <- E [S0 S1].
  destruct (C44_exact m d r a b step u us Cm E S0 ltac:(lra)) as (N&H). destruct (H N (le_n _)) as (c&C1&V). exists N, c. split; [exact C1|].
  rewrite V. split; [apply exp_pos|]. fold e. rewrite <- (exp_ln eps He). apply exp_increasing.
  assert (w <= IZR (Zceil ((b - a) / step))).
  { eapply Rle_trans; [|apply Zceil_ub]. apply Rle_div_iff; [exact S0|]. apply (Rmult_lt_compat_r w) in S1; [|lra]. unfold Rdiv in S1. rewrite Rmult_assoc, Rinv_l in S1; lra. }
  assert (- ln eps < e * w). { replace (- ln eps) with (e * (- ln eps / e)) by (field; lra). apply Rmult_lt_compat_l; lra. } nra.
Qed.
Print Assumptions C44_vanishes.
Example C44_case : constant_medium (fog (March (1 / 2)) Analytic (V3c 2) (V3c 1) (V3c 0)) (V3c 2) /\
  exists fuel c, media_transmittance fuel (fog (March (1 / 2)) Analytic (V3c 2) (V3c 1) (V3c 0)) (Ray (V3c 0) (V3 0 0 1) 0 9) 0 2 [1 / 3] = Ok (c, []) /\ vx c = exp (-8).
Proof.
  assert (K : constant_medium (fog (March (1 / 2)) Analytic (V3c 2) (V3c 1) (V3c 0)) (V3c 2)) by (unfold constant_medium, each; simpl; repeat split; lra).
  split; [exact K|]. destruct (C44_exact _ (V3c 2) (Ray (V3c 0) (V3 0 0 1) 0 9) 0 2 (1 / 2) (1 / 3) [] K eq_refl ltac:(lra) ltac:(lra)) as (N&H).
  destruct (H N (le_n _)) as (c&C1&V). exists N, c. split; [exact C1|]. specialize (V 0%nat). simpl in V. rewrite V. f_equal.
  replace ((2 - 0) / (1 / 2)) with (IZR 4) by (simpl; lra). rewrite Zceil_IZR. lra.
Qed.

(** * C47 *)
(** whatever is drawn, each channel of the estimate is in [0,1]; extinctions above the majorant are clamped to it *)
Theorem C47_range fuel m maj r a b us c us' : m_est m = Ratio maj -> 0 < maj ->
  (forall p, each (Rle 0) (vmul (m_D m p) (m_sigma_t m))) ->
  media_transmittance fuel m r a b us = Ok (c, us') -> each (fun x => 0 <= x <= 1) c.
Proof.
  intros E M P H. unfold media_transmittance in H. rewrite E in H. simpl in H. unfold ratio_tr in H.
  refine (ratio_range _ _ _ _ _ _ M _ _ _ _ _ _ H); [intros t; apply P|unfold each; simpl; repeat split; lra].
Qed.
Print Assumptions C47_range.
(** every channel is an unbiased estimate of the attenuation by density * sigma_t along the segment, and the walk ends with probability 1 *)
Theorem C47_unbiased D sg maj r a b k : 0 < maj -> a <= b ->
  (forall t, continuous (fun s => channel k (vmul (D (ray_at r s)) sg)) t) -> (forall t, channel k (vmul (D (ray_at r t)) sg) <= maj) ->
  mean_tends (payoff (channel k) (ratio_tr D sg maj r a b)) (attenuation (fun t => channel k (vmul (D (ray_at r t)) sg)) a b) /\
  mean_tends (payoff (fun _ => 1) (ratio_tr D sg maj r a b)) 1.
Proof.
  intros M L C B. split.
  - destruct (track_attenuation maj b (fun t => channel k (vmul (D (ray_at r t)) sg)) a M C L) as (g&G&Lm). exists g. split; [|exact Lm].
    intros n. eapply is_mean_ext; [|apply G]. intros us. unfold ratio_tr. rewrite (payoff_ratio D sg maj r b k us M B a (V3c 1)), channel_c, Rmult_1_l. reflexivity.
  - destruct (track_attenuation maj b (fun _ => 0) a M (fun s => continuous_const 0 s) L) as (g&G&Lm). exists g. split.
    + intros n. eapply is_mean_ext; [|apply G]. intros us. unfold ratio_tr. rewrite (payoff_done D sg maj r b us M a (V3c 1)). reflexivity.
    + rewrite is_RInt_attenuation_one in Lm. exact Lm.
Qed.
Print Assumptions C47_unbiased.
Definition constant_ext (m : media) (d : vec3) (k : nat) : R := channel k d * channel k (m_sigma_t m) * channel k (m_sigma_t m).
Lemma constant_pull m d k r s : constant_medium m d -> channel k (vmul (m_D m (ray_at r s)) (m_sigma_t m)) = constant_ext m d k.
Proof. intros Cm. rewrite (constant_D m d _ Cm), !channel_mul. reflexivity. Qed.
Theorem C47_constant_medium fuel m d maj r a b k : constant_medium m d -> m_est m = Ratio maj -> 0 < maj -> a <= b -> constant_ext m d k <= maj ->
  mean_tends (payoff (channel k) (media_transmittance fuel m r a b)) (exp (- (constant_ext m d k * (b - a)))).
Proof.
  intros Cm E M L B. set (r' := tf_ray (tf_inverse (m_transform m)) r).
  assert (Hc : forall s, channel k (vmul (m_D m (ray_at r' s)) (m_sigma_t m)) = constant_ext m d k) by (intros; apply constant_pull, Cm).
  destruct (C47_unbiased (m_D m) (m_sigma_t m) maj r' a b k M L) as [(g&G&Lm) _].
  - intros t. apply (continuous_ext (fun _ => constant_ext m d k)); [intros; symmetry; apply Hc|apply continuous_const].
  - intros t. rewrite Hc. exact B.
  - exists g. split.
    + intros n. eapply is_mean_ext; [|apply G]. intros us. unfold media_transmittance. rewrite E. reflexivity.
    + replace (exp (- (constant_ext m d k * (b - a)))) with (attenuation (fun t => channel k (vmul (m_D m (ray_at r' t)) (m_sigma_t m))) a b); [exact Lm|].
      rewrite <- attenuation_const. unfold attenuation. do 2 f_equal. apply (RInt_ext (V := R_CompleteNormedModule)). intros; apply Hc.
Qed.
Print Assumptions C47_constant_medium.
(** a linearly growing density along the ray: the mean over ever more numbers is exp(-1/4) *)
Example C47_case : mean_tends (payoff vx (ratio_tr (fun p => V3c (Rmin (Rmax (vz p) 0) 1)) (V3c (1 / 2)) 3 (Ray (V3c 0) (V3 0 0 1) 0 9) 0 1)) (exp (- (1 / 4))).
Proof.
  set (f := fun s : R => Rmin (Rmax s 0) 1 * (1 / 2)).
  assert (F : forall s, channel 0 (vmul ((fun p => V3c (Rmin (Rmax (vz p) 0) 1)) (ray_at (Ray (V3c 0) (V3 0 0 1) 0 9) s)) (V3c (1 / 2))) = f s).
  { intros s. unfold f, channel, ray_at; simpl. do 2 f_equal. f_equal. ring. }
  destruct (C47_unbiased (fun p => V3c (Rmin (Rmax (vz p) 0) 1)) (V3c (1 / 2)) 3 (Ray (V3c 0) (V3 0 0 1) 0 9) 0 1 0 ltac:(lra) ltac:(lra)) as [H _].
  - intros t. apply (continuous_ext f); [intros; symmetry; apply F|]. unfold f.
    apply (continuous_ext (fun s => 1 / 4 * ((1 + Rabs s) - Rabs (1 - s)))).
    + intros s. unfold Rmin, Rmax, Rabs. destruct (Rle_dec s 0), (Rcase_abs s), (Rcase_abs (1 - s));
        match goal with |- context [Rle_dec ?x 1] => destruct (Rle_dec x 1) end; match goal with |- ?x = ?y => change (@eq R x y) end; try lra.
    + apply (continuous_scal_r (1 / 4) (fun s => (1 + Rabs s) - Rabs (1 - s))). apply (continuous_minus (fun s => 1 + Rabs s) (fun s => Rabs (1 - s))).
      * apply (continuous_plus (fun _ => 1) Rabs); [apply continuous_const|apply continuous_Rabs].
      * apply (continuous_comp (fun s => 1 - s) Rabs); [|apply continuous_Rabs]. apply (continuous_minus (fun _ => 1) (fun s => s)); [apply continuous_const|apply continuous_id].
  - intros t. rewrite F. unfold f. pose proof (Rmin_r (Rmax t 0) 1). lra.
  - replace (exp (- (1 / 4))) with (attenuation (fun t => channel 0 (vmul ((fun p => V3c (Rmin (Rmax (vz p) 0) 1)) (ray_at (Ray (V3c 0) (V3 0 0 1) 0 9) t)) (V3c (1 / 2)))) 0 1); [exact H|].
    unfold attenuation. do 2 f_equal. apply (is_RInt_unique (V := R_CompleteNormedModule)).
    apply (is_RInt_ext (fun s => s * (1 / 2))).
    { rewrite Rmin_left, Rmax_right by lra. intros x X. rewrite F. unfold f. rewrite (Rmax_left x 0), (Rmin_left x 1) by lra. reflexivity. }
    apply (is_RInt_val _ _ _ (1 * 1 / 4 - 0 * 0 / 4)); [field|].
    apply (is_RInt_derive (fun s => s * s / 4) (fun s => s * (1 / 2))); intros x _.
    + auto_derive; [trivial|field].
    + apply (ex_derive_continuous (fun s => s * (1 / 2))). auto_derive. trivial.
Qed.

(** * C103: do the estimators agree on a constant medium? *)
(** the homogeneous estimator attenuates by density * sigma_t, ratio tracking by density * sigma_t^2: they agree only where sigma_t is 1 *)
Theorem C103_agree_iff fuel m1 m2 d r a b us maj k c g : constant_medium m1 d -> constant_medium m2 d -> m_sigma_t m1 = m_sigma_t m2 ->
  m_est m1 = Homo -> m_est m2 = Ratio maj -> 0 < maj -> a < b -> constant_ext m2 d k <= maj -> 0 < channel k d * channel k (m_sigma_t m1) ->
  media_transmittance fuel m1 r a b us = Ok (c, us) -> mean_tends (payoff (channel k) (media_transmittance fuel m2 r a b)) g ->
  (channel k c = g <-> channel k (m_sigma_t m1) = 1).
Proof.
  intros C1 C2 S E1 E2 M L B P H (f&F&Lf).
  destruct (C47_constant_medium fuel m2 d maj r a b k C2 E2 M ltac:(lra) B) as (f'&F'&Lf').
  assert (Eq : forall n, f n = f' n) by (intros n; eapply is_mean_unique; [apply F|apply F']).
  assert (G : g = exp (- (constant_ext m2 d k * (b - a)))).
  { apply (is_lim_seq_ext _ _ _ Eq) in Lf. apply is_lim_seq_unique in Lf. apply is_lim_seq_unique in Lf'. rewrite Lf in Lf'. injection Lf'. tauto. }
  destruct (C43_homogeneous fuel m1 d r a b us C1 E1) as (c'&X&K). rewrite H in X. injection X as <-. rewrite K, G, attenuation_const. unfold constant_ext. rewrite <- S.
  set (s := channel k (m_sigma_t m1)) in *. set (q := channel k d) in *. split; intros Z.
  - apply exp_inv in Z. assert (W : q * s * (b - a) * (s - 1) = 0) by (rewrite Rmult_minus_distr_l; lra).
    apply Rmult_integral in W. destruct W as [W|W]; [|lra]. apply Rmult_integral in W. destruct W; lra.
  - rewrite Z. f_equal. ring.
Qed.
Print Assumptions C103_agree_iff.
Theorem C103_agree_refuted : exists m1 m2 d r, constant_medium m1 d /\ constant_medium m2 d /\ m_dens m1 = m_dens m2 /\ m_abs m1 = m_abs m2 /\ m_sca m1 = m_sca m2 /\
  m_est m1 = Homo /\ m_est m2 = Ratio 9 /\ forall c g, media_transmittance 0 m1 r 0 1 [] = Ok (c, []) -> mean_tends (payoff vx (media_transmittance 0 m2 r 0 1)) g -> vx c <> g.
Proof.
  exists (fog Homo Analytic (V3c 1) (V3c 2) (V3c 0)), (fog (Ratio 9) Analytic (V3c 1) (V3c 2) (V3c 0)), (V3c 1), (Ray (V3c 0) (V3 0 0 1) 0 9).
  split; [unfold constant_medium, each; simpl; repeat split; lra|]. split; [unfold constant_medium, each; simpl; repeat split; lra|]. repeat (split; [reflexivity|]).
  intros c g Hc Hg E.
  pose proof (C103_agree_iff 0 (fog Homo Analytic (V3c 1) (V3c 2) (V3c 0)) (fog (Ratio 9) Analytic (V3c 1) (V3c 2) (V3c 0)) (V3c 1) (Ray (V3c 0) (V3 0 0 1) 0 9) 0 1 [] 9 0 c g) as I.
  assert (Bad : channel 0 (m_sigma_t (fog Homo Analytic (V3c 1) (V3c 2) (V3c 0))) = 1); [|simpl in Bad; lra].
  apply I; try assumption; try reflexivity; try (unfold constant_medium, each; simpl; repeat split; lra); try (unfold constant_ext; simpl; lra); lra.
Qed.
Print Assumptions C103_agree_refuted.
Example C103_case : constant_medium (fog Homo Analytic (V3c 3) (V3 1 2 1) (V3c 0)) (V3c 3) /\ constant_medium (fog (Ratio 20) Analytic (V3c 3) (V3 1 2 1) (V3c 0)) (V3c 3) /\
  constant_ext (fog (Ratio 20) Analytic (V3c 3) (V3 1 2 1) (V3c 0)) (V3c 3) 1 <= 20 /\
  channel 0 (m_sigma_t (fog Homo Analytic (V3c 3) (V3 1 2 1) (V3c 0))) = 1 /\ channel 1 (m_sigma_t (fog Homo Analytic (V3c 3) (V3 1 2 1) (V3c 0))) = 2.
Proof. unfold constant_medium, constant_ext, each; simpl. repeat split; lra. Qed.

(** * C104: delta tracking *)
(** the probability of leaving the segment without collision is the attenuation by the smallest channel of density * sigma_t
    (Color3f::max() returns the minimum) *)
Theorem C104_escape D sg maj r a b : 0 < maj -> a <= b ->
  (forall t, continuous (fun s => least (vmul (D (ray_at r s)) sg)) t) -> (forall t, 0 <= least (vmul (D (ray_at r t)) sg) <= maj) ->
  exists p, (forall n, is_mean (2 * n) (payoff (escaped b) (fun us => delta_loop D sg maj r b us a)) (p n)) /\
    is_lim_seq p (attenuation (fun t => least (vmul (D (ray_at r t)) sg)) a b).
Proof.
  intros M L C B. destruct (track_attenuation maj b (fun t => least (vmul (D (ray_at r t)) sg)) a M C L) as (g&G&Lm). exists g. split; [|exact Lm].
  intros n. apply delta_mean; [exact M|exact B|apply G].
Qed.
Print Assumptions C104_escape.
(** for a gray extinction that is the transmittance of every channel *)
Theorem C104_gray D sg maj r a b k : 0 < maj -> a <= b -> (forall t, exists x, vmul (D (ray_at r t)) sg = V3c x /\ 0 <= x <= maj) ->
  (forall t, continuous (fun s => channel k (vmul (D (ray_at r s)) sg)) t) ->
  exists p, (forall n, is_mean (2 * n) (payoff (escaped b) (fun us => delta_loop D sg maj r b us a)) (p n)) /\
    is_lim_seq p (attenuation (fun t => channel k (vmul (D (ray_at r t)) sg)) a b).
Proof.
  intros M L G C.
  assert (H : forall t, least (vmul (D (ray_at r t)) sg) = channel k (vmul (D (ray_at r t)) sg)).
  { intros t. destruct (G t) as (x&->&_). rewrite channel_c. unfold least; simpl. rewrite !(Rmin_left x x) by lra. reflexivity. }
  destruct (C104_escape D sg maj r a b M L) as (p&P&Lp).
  - intros t. apply (continuous_ext (fun s => channel k (vmul (D (ray_at r s)) sg))); [intros; symmetry; apply H|apply C].
  - intros t. destruct (G t) as (x&E&X). rewrite H, E, channel_c. exact X.
  - exists p. split; [exact P|]. replace (attenuation (fun t => channel k (vmul (D (ray_at r t)) sg)) a b) with (attenuation (fun t => least (vmul (D (ray_at r t)) sg)) a b); [exact Lp|].
    unfold attenuation. do 2 f_equal. apply (RInt_ext (V := R_CompleteNormedModule)). intros; apply H.
Qed.
Print Assumptions C104_gray.
(** in a coloured medium the other channels get the wrong probability: extinctions 0, 1, 1, nothing ever collides *)
Theorem C104_coloured_refuted : exists D sg maj r, 0 < maj /\ (forall t, each (fun x => 0 <= x <= maj) (vmul (D (ray_at r t)) sg)) /\
  attenuation (fun t => channel 1 (vmul (D (ray_at r t)) sg)) 0 1 < 1 /\
  forall us t us', List.Forall (fun u => 0 <= u < 1) us -> delta_loop D sg maj r 1 us 0 = Ok (t, us') -> t >= 1.
Proof.
  exists (fun _ => V3 0 1 1), (V3c 1), 1, (Ray (V3c 0) (V3 0 0 1) 0 9). split; [lra|]. split; [intros; unfold each; simpl; repeat split; lra|]. split.
  { simpl. rewrite attenuation_const. apply (Rlt_le_trans _ (exp 0)); [apply exp_increasing; lra|rewrite exp_0; lra]. }
  enough (W : forall us a t us', List.Forall (fun u => 0 <= u < 1) us -> delta_loop (fun _ => V3 0 1 1) (V3c 1) 1 (Ray (V3c 0) (V3 0 0 1) 0 9) 1 us a = Ok (t, us') -> t >= 1) by (intros us t us' F H; exact (W us 0 t us' F H)).
  intros us. remember (length us) as n eqn:Hn. revert us Hn. induction n as [n IH] using (well_founded_induction Wf_nat.lt_wf). intros us Hn a t us' F H.
  destruct us as [|u us]; [discriminate|]. simpl in H. destruct (Rge_dec _ 1) as [G|G]; [injection H as <- <-; exact G|].
  destruct us as [|u2 us2]; [discriminate|]. inversion F as [|? ? U F1]; subst. inversion F1 as [|? ? U2 F2]; subst.
  destruct (Rgt_dec _ u2) as [K|K].
  - exfalso. rewrite vmax_val_least in K. unfold least in K; simpl in K. rewrite !Rmult_1_r, (Rmin_left 1 1), (Rmin_left 0 1) in K by lra. lra.
  - eapply (IH (length us2)); [simpl; lia|reflexivity|exact F2|exact H].
Qed.
Print Assumptions C104_coloured_refuted.
Example C104_case : exists p, (forall n, is_mean (2 * n) (payoff (escaped 2) (fun us => delta_loop (fun _ => V3 1 3 2) (V3c 1) 4 (Ray (V3c 0) (V3 0 0 1) 0 9) 2 us 0)) (p n)) /\
  is_lim_seq p (exp (- (1 * (2 - 0)))).
Proof.
  assert (H : least (vmul (V3 1 3 2) (V3c 1)) = 1) by (unfold least; simpl; rewrite !Rmult_1_r, (Rmin_right 3 2), (Rmin_left 1 2) by lra; reflexivity).
  destruct (C104_escape (fun _ => V3 1 3 2) (V3c 1) 4 (Ray (V3c 0) (V3 0 0 1) 0 9) 0 2) as (p&P&L); try lra.
  - intros t. rewrite H. apply continuous_const.
  - intros t. rewrite H. lra.
  - exists p. split; [exact P|]. rewrite H, attenuation_const in L. exact L.
Qed.

(** * C105: analytic free-flight sampling *)
(** the sampled distance exceeds t_min + s exactly for the numbers below exp(-extinction * s): the exponential law.
    The extinction is the smallest channel at the middle of the segment *)
Theorem C105_exponential D sg r a b u s : 0 <= u < 1 -> 0 <= s ->
  0 < least (vmul (D (ray_at r ((b - a) / 2 + a))) sg) ->
  (Rbar_lt (a + s) (analytic_t D sg r a b u) <-> u < exp (- (least (vmul (D (ray_at r ((b - a) / 2 + a))) sg) * s))).
Proof.
  intros U S P. unfold analytic_t. rewrite vmax_val_least. set (e := least _) in *.
  destruct (Req_EM_T e 0) as [Z|Z]; [lra|]. destruct (Req_EM_T u 0) as [->|U0].
  - destruct (Rlt_dec 0 e); [|contradiction]. split; [intros _; apply exp_pos|intros _; exact I].
  - simpl. assert (Up : 0 < u) by lra. rewrite <- (exp_ln u Up) at 2. split; intros H.
    + apply exp_increasing. assert (s < - ln u / e) by lra. apply (Rmult_lt_compat_r e) in H0; [|exact P]. unfold Rdiv in H0. rewrite Rmult_assoc, Rinv_l in H0 by lra. lra.
    + apply exp_lt_inv in H. assert (s < - ln u / e); [|lra]. apply (Rmult_lt_reg_r e); [exact P|]. unfold Rdiv. rewrite Rmult_assoc, Rinv_l by lra. lra.
Qed.
Print Assumptions C105_exponential.
(** without extinction nothing is ever hit *)
Theorem C105_empty D sg r a b u : least (vmul (D (ray_at r ((b - a) / 2 + a))) sg) = 0 -> analytic_t D sg r a b u = p_infty.
Proof. intros H. unfold analytic_t. rewrite vmax_val_least, H. destruct (Req_EM_T 0 0); [reflexivity|contradiction]. Qed.
Print Assumptions C105_empty.
(** the scattering probability of Media::sample and the transmittance reported for shadow rays are both exp(-c*length), but with c = d*sigma_t^2
    and c = d*sigma_t: with sigma_t = 2, d = 1 a path passes with probability exp(-4), a shadow ray carries exp(-2) *)
Theorem C105_consistent_refuted : exists m r c, m_est m = Homo /\ m_samp m = Analytic /\ constant_medium m (V3c 1) /\
  media_transmittance 0 m r 0 1 [] = Ok (c, []) /\
  (exists u, 0 < u < 1 /\ (forall v, 0 <= v < 1 -> (handleScatter (analytic_t (m_D m) (m_sigma_t m) (tf_ray (tf_inverse (m_transform m)) r) 0 1 v) 1 = false <-> v <= u)) /\ vx c <> u).
Proof.
  set (m := fog Homo Analytic (V3c 1) (V3c 1) (V3c 1)). set (r := Ray (V3c 0) (V3 0 0 1) 0 9). exists m, r. eexists. split; [reflexivity|]. split; [reflexivity|].
  split; [unfold constant_medium, each; simpl; repeat split; lra|]. split; [reflexivity|]. exists (exp (-4)).
  split; [split; [apply exp_pos|rewrite <- exp_0; apply exp_increasing; lra]|]. split.
  - intros v V. unfold handleScatter. set (r' := tf_ray _ r).
    assert (Lm : least (vmul (m_D m (ray_at r' ((1 - 0) / 2 + 0))) (m_sigma_t m)) = 4).
    { unfold m_D; simpl. unfold least; simpl. replace (1 * (1 + 1) * (1 + 1)) with 4 by ring. rewrite !(Rmin_left 4 4) by lra. reflexivity. }
    unfold analytic_t. rewrite vmax_val_least, Lm. destruct (Req_EM_T 4 0); [lra|]. destruct (Req_EM_T v 0) as [->|N].
    + destruct (Rlt_dec 0 4); [|lra]. destruct (Rbar_lt_dec p_infty 1) as [Q|Q]; [contradiction Q|]. split; [intros _; left; apply exp_pos|reflexivity].
    + destruct (Rbar_lt_dec _ _) as [Q|Q]; simpl in Q; (split; [intros X|intros X]); try discriminate; try reflexivity.
      * exfalso. assert (- ln v < 4) by lra. assert (-4 < ln v) by lra. apply exp_increasing in H0. rewrite exp_ln in H0 by lra. lra.
      * apply Rnot_lt_le in Q. rewrite <- (exp_ln v) by lra. destruct (Req_dec (ln v) (-4)) as [->|Ne]; [right; reflexivity|left; apply exp_increasing; lra].
  - simpl. intros X. apply exp_inv in X. lra.
Qed.
Print Assumptions C105_consistent_refuted.
Example C105_case : 0 < least (vmul ((fun _ : vec3 => V3 1 3 2) (ray_at (Ray (V3c 0) (V3 0 0 1) 0 9) ((4 - 0) / 2 + 0))) (V3c 1)) /\
  analytic_t (fun _ => V3 1 3 2) (V3c 1) (Ray (V3c 0) (V3 0 0 1) 0 9) 0 4 (exp (-3)) = Finite 3.
Proof.
  assert (H : least (vmul (V3 1 3 2) (V3c 1)) = 1) by (unfold least; simpl; rewrite !Rmult_1_r, (Rmin_right 3 2), (Rmin_left 1 2) by lra; reflexivity).
  split; [rewrite H; lra|]. unfold analytic_t. rewrite vmax_val_least, H. pose proof (exp_pos (-3)). destruct (Req_EM_T 1 0); [lra|].
  destruct (Req_EM_T (exp (-3)) 0); [lra|]. rewrite ln_exp. f_equal. field.
Qed.

(** * C106: sampled distances *)
(** no sampled distance lies before the start of the segment *)
Theorem C106_after_start fuel s D sg r a b us t us' : a <= b -> List.Forall (fun u => 0 <= u < 1) us -> (forall p, each (Rle 0) (vmul (D p) sg)) ->
  match s with Analytic => True | DeltaSamp maj => 0 < maj | MarchSamp step => 0 < step end ->
  free_flight fuel s D sg r a b us = Ok (t, us') -> Rbar_le a t.
Proof.
  intros L F P S H. destruct s as [|maj|step]; simpl in H.
  - destruct us as [|u us]; [discriminate|]. injection H as <- <-. inversion F as [|? ? U _]; subst. unfold analytic_t. rewrite vmax_val_least.
    destruct (P (ray_at r ((b - a) / 2 + a))) as (X&Y&Z). assert (0 <= least (vmul (D (ray_at r ((b - a) / 2 + a))) sg)) by (unfold least; repeat apply Rmin_glb; assumption).
    set (e := least _) in *. destruct (Req_EM_T e 0); [exact I|]. destruct (Req_EM_T u 0); [destruct (Rlt_dec 0 e); [exact I|lra]|]. simpl.
    assert (ln u <= 0) by (rewrite <- ln_1; left; apply ln_increasing; lra). assert (0 < / e) by (apply Rinv_0_lt_compat; lra). unfold Rdiv. nra.
  - destruct (delta_loop D sg maj r b us a) as [[t0 u0]| | |] eqn:E; try discriminate. simpl in H. injection H as <- <-. simpl. eapply delta_ge; eassumption.
  - destruct us as [|u [|u2 us2]]; try discriminate. inversion F as [|? ? U F1]; subst. inversion F1 as [|? ? U2 F2]; subst.
    destruct (march_samp_loop fuel D sg step r b u (- ln (1 - u2)) a (V3c 0)) as [t0| | |] eqn:E; try discriminate. simpl in H. injection H as <- <-. simpl.
    apply march_samp_range in E; [destruct E; lra|exact S|].
    rewrite vmax_val_least. unfold least; simpl. rewrite !(Rmin_left 0 0) by lra.
    assert (ln (1 - u2) <= 0); [|lra]. destruct (Req_dec u2 0) as [->|]; [rewrite Rminus_0_r, ln_1; lra|]. left. rewrite <- ln_1. apply ln_increasing; lra.
Qed.
Print Assumptions C106_after_start.
(** ray marching either scatters inside the segment or reports one unit beyond its end *)
Theorem C106_march fuel step D sg r a b u1 u2 us t us' : 0 < step -> 0 <= u2 < 1 ->
  free_flight fuel (MarchSamp step) D sg r a b (u1 :: u2 :: us) = Ok (t, us') -> (exists x, t = Finite x /\ a <= x < b) \/ t = Finite (b + 1).
Proof.
  intros S U2 H. simpl in H. destruct (march_samp_loop fuel D sg step r b u1 (- ln (1 - u2)) a (V3c 0)) as [t0| | |] eqn:E; try discriminate. simpl in H. injection H as <- <-.
  apply march_samp_range in E; [|exact S|].
  - destruct E as [E| ->]; [left; exists t0; split; [reflexivity|exact E]|right; reflexivity].
  - rewrite vmax_val_least. unfold least; simpl. rewrite !(Rmin_left 0 0) by lra.
    assert (ln (1 - u2) <= 0); [|lra]. destruct (Req_dec u2 0) as [->|]; [rewrite Rminus_0_r, ln_1; lra|]. left. rewrite <- ln_1. apply ln_increasing; lra.
Qed.
Print Assumptions C106_march.
(** ray-march sampling of a constant medium passes with the probability the ray-march estimator reports for the smallest channel *)
Theorem C106_march_law D sg step r a b E u1 : 0 < step -> a <= b -> 0 < least E -> (forall t, vmul (D (ray_at r t)) sg = E) ->
  exists N, forall fuel u2 us, (N <= fuel)%nat -> 0 <= u2 < 1 ->
    exists t, free_flight fuel (MarchSamp step) D sg r a b (u1 :: u2 :: us) = Ok (Finite t, us) /\
      (handleScatter t b = false <-> 1 - u2 <= exp (- (least E * IZR (Zceil ((b - a) / step))))).
Proof.
  intros S L P HE. destruct (steps_exist b a step S) as (n&N1&N2&N3). exists (Datatypes.S n). intros fuel u2 us F U2.
  rewrite <- vmax_val_least in P. assert (Ln : ln (1 - u2) <= 0).
  { destruct (Req_dec u2 0) as [->|]; [rewrite Rminus_0_r, ln_1; lra|]. left. rewrite <- ln_1. apply ln_increasing; lra. }
  destruct (march_samp_const D sg step r b u1 (- ln (1 - u2)) E S P HE n fuel a 0 ltac:(lia) N1 N2) as (out&O1&O2&O3).
  { rewrite vmax_val_least. unfold least, vscale; simpl. rewrite !Rmult_0_r, !(Rmin_left 0 0) by lra. lra. }
  replace (vscale E (INR 0)) with (V3c 0) in O1 by (unfold vscale; apply V3_eq; simpl; ring).
  exists out. simpl. rewrite O1. split; [reflexivity|]. rewrite <- N3 by exact L. rewrite <- vmax_val_least. simpl in O2.
  assert (Q : handleScatter out b = false <-> out = b + 1).
  { unfold handleScatter. destruct (Rbar_lt_dec out b) as [K|K]; simpl in K; split; intros X; try discriminate; try reflexivity; [lra|destruct O3; lra]. }
  rewrite Q, O2. rewrite <- (exp_ln (1 - u2)) at 2 by lra. split; intros X.
  - destruct (Req_dec (ln (1 - u2)) (- (vmax_val E * INR n))) as [->|Ne]; [right; reflexivity|left; apply exp_increasing; lra].
  - destruct X as [X|X]; [apply exp_lt_inv in X|apply exp_inv in X]; lra.
Qed.
Print Assumptions C106_march_law.
Example C106_case : List.Forall (fun u => 0 <= u < 1) [1 / 2; 0] /\ free_flight 2 (MarchSamp 1) (fun _ => V3c 1) (V3c 1) (Ray (V3c 0) (V3 0 0 1) 0 9) 3 5 [1 / 2; 0] = Ok (Finite 3, []).
Proof.
  split; [repeat constructor; lra|]. unfold free_flight. cbn [march_samp_loop]. destruct (Rlt_dec 3 5); [|lra]. rewrite !vmax_val_least.
  replace (1 - 0) with 1 by ring. rewrite ln_1. unfold least, vadd, vmul, V3c; simpl. rewrite !(Rmin_left 0 0) by lra. replace (0 + 1 * 1) with 1 by ring. rewrite !(Rmin_left 1 1) by lra.
  destruct (Rgt_dec 1 (- 0)); [|lra]. simpl. do 3 f_equal. field.
Qed.

(** * C107: scattering weight *)
(** when every channel of sigma_t is positive the weight is defined, its channels are in [0,1], and albedo + absorbed fraction = 1 *)
Theorem C107_weight m t b : each (Rle 0) (m_abs m) -> each (Rle 0) (m_sca m) -> each (Rlt 0) (m_sigma_t m) ->
  exists c, scatter_weight m t b = oc_of c /\ each (fun x => 0 <= x <= 1) c /\
    (handleScatter t b = true -> forall k, channel k c * channel k (m_sigma_t m) = channel k (m_sca m)) /\ (handleScatter t b = false -> c = V3c 1).
Proof.
  intros (A1&A2&A3) (S1&S2&S3) (T1&T2&T3). unfold scatter_weight. destruct (handleScatter t b) eqn:H.
  - exists (V3 (vx (m_sca m) / vx (m_sigma_t m)) (vy (m_sca m) / vy (m_sigma_t m)) (vz (m_sca m) / vz (m_sigma_t m))).
    unfold cdiv. destruct (Req_EM_T (vx (m_sigma_t m)) 0), (Req_EM_T (vy (m_sigma_t m)) 0), (Req_EM_T (vz (m_sigma_t m)) 0); try lra.
    split; [reflexivity|]. split; [|split; [intros _ [|[|k]]; simpl; field; assumption|discriminate]].
    unfold each, m_sigma_t in *; simpl in *. repeat split; try (apply Rle_div_iff; lra); apply Rdiv_le_iff; lra.
  - exists (V3c 1). split; [reflexivity|]. split; [unfold each; simpl; repeat split; lra|]. split; [discriminate|reflexivity].
Qed.
Print Assumptions C107_weight.
(** a channel that neither absorbs nor scatters becomes 0/0 in a scattering medium *)
Theorem C107_defined_refuted : exists m t b, each (Rle 0) (m_abs m) /\ each (Rle 0) (m_sca m) /\ m_sca m <> V3c 0 /\ handleScatter t b = true /\ oy (scatter_weight m t b) = None.
Proof.
  exists (fog Homo Analytic (V3c 1) (V3c 0) (V3 1 0 0)), (Finite 1), 2. split; [unfold each; simpl; repeat split; lra|]. split; [unfold each; simpl; repeat split; lra|].
  split; [intros X; injection X; lra|]. assert (H : handleScatter 1 2 = true) by (unfold handleScatter; destruct (Rbar_lt_dec 1 2) as [Q|Q]; [reflexivity|exfalso; apply Q; simpl; lra]).
  split; [exact H|]. unfold scatter_weight. rewrite H. simpl. unfold cdiv. destruct (Req_EM_T (0 + 0) 0); [reflexivity|lra].
Qed.
Print Assumptions C107_defined_refuted.
Example C107_case : each (Rlt 0) (m_sigma_t (fog Homo Analytic (V3c 1) (V3 3 2 1) (V3 1 2 3))) /\ ox (scatter_weight (fog Homo Analytic (V3c 1) (V3 3 2 1) (V3 1 2 3)) (Finite 1) 2) = Some (1 / 4).
Proof.
  split; [unfold each; simpl; repeat split; lra|]. unfold scatter_weight, handleScatter. destruct (Rbar_lt_dec 1 2) as [Q|Q]; [|exfalso; apply Q; simpl; lra].
  simpl. unfold cdiv. replace (3 + 1) with 4 by ring. destruct (Req_EM_T 4 0); [lra|reflexivity].
Qed.

(** * C108: purely absorbing media *)
Theorem C108_absorbing fuel m r a b us : m_sca m = V3c 0 ->
  media_sample fuel m r a b us = bind (media_transmittance fuel m r a b us) (fun p => Ok (oc_of (fst p), Finite b, snd p)) /\
  handleScatter b b = false.
Proof.
  intros H. split.
  - unfold media_sample, media_transmittance. destruct (veq_dec (m_sca m) (V3c 0)); [reflexivity|contradiction].
  - unfold handleScatter. destruct (Rbar_lt_dec b b) as [Q|Q]; [exfalso; simpl in Q; lra|reflexivity].
Qed.
Print Assumptions C108_absorbing.
(** any other medium samples a distance; the weight then only depends on whether it lies before the end *)
Theorem C108_scattering fuel m r a b us w t us' : m_sca m <> V3c 0 -> media_sample fuel m r a b us = Ok (w, t, us') ->
  w = scatter_weight m t b /\ free_flight fuel (m_samp m) (m_D m) (m_sigma_t m) (tf_ray (tf_inverse (m_transform m)) r) a b us = Ok (t, us').
Proof.
  intros N H. unfold media_sample in H. destruct (veq_dec (m_sca m) (V3c 0)); [contradiction|].
  destruct (free_flight _ _ _ _ _ _ _ _) as [[t0 u0]| | |] eqn:E; try discriminate. simpl in H. injection H as <- <- <-. split; reflexivity.
Qed.
Print Assumptions C108_scattering.
Example C108_case : media_sample 0 (fog Homo Analytic (V3c 2) (V3c 1) (V3c 0)) (Ray (V3c 0) (V3 0 0 1) 0 9) 1 4 [] = Ok (oc_of (vexp (vscale (V3 (2 * (1 + 0)) (2 * (1 + 0)) (2 * (1 + 0))) (- (4 - 1)))), Finite 4, []).
Proof. rewrite (proj1 (C108_absorbing 0 (fog Homo Analytic (V3c 2) (V3c 1) (V3c 0)) _ _ _ _ eq_refl)). reflexivity. Qed.

(** * C109: a medium moves with its transform *)
(** estimates and samples are those of the field pulled back to world space: density at p is the density at T^-1 p *)
Theorem C109_moves fuel m r a b us : affine (tinv (m_transform m)) ->
  media_transmittance fuel m r a b us = transmittance fuel (m_est m) (fun p => m_D m (tf_point (tf_inverse (m_transform m)) p)) (m_sigma_t m) r a b us /\
  free_flight fuel (m_samp m) (m_D m) (m_sigma_t m) (tf_ray (tf_inverse (m_transform m)) r) a b us =
    free_flight fuel (m_samp m) (fun p => m_D m (tf_point (tf_inverse (m_transform m)) p)) (m_sigma_t m) r a b us.
Proof.
  intros A. assert (H : forall t, m_D m (ray_at (tf_ray (tf_inverse (m_transform m)) r) t) = m_D m (tf_point (tf_inverse (m_transform m)) (ray_at r t))).
  { intros t. rewrite tf_ray_at; [reflexivity|exact A]. }
  split; [unfold media_transmittance; apply transmittance_ext, H|apply free_flight_ext, H].
Qed.
Print Assumptions C109_moves.

(** a medium shifted by 5 along z: the density found at world height z is that of height z - 5 *)
Definition shift5 : transform := Tf (M4 1 0 0 0 0 1 0 0 0 0 1 5 0 0 0 1) (M4 1 0 0 0 0 1 0 0 0 0 1 (-5) 0 0 0 1).
Example C109_case : affine (tinv shift5) /\ tf_point (tf_inverse shift5) (V3 1 2 7) = V3 1 2 2.
Proof. split; [unfold affine; simpl; repeat split|]. unfold tf_point, m4_vec, V4_of3, head4, vdiv; simpl. apply V3_eq; simpl; field. Qed.

(** * C110: densities *)
(** the reported maximum bounds the field *)
Theorem C110_max f sg p : match f with SphereDensity d _ => each (Rle 0) d | _ => True end -> each (fun x => x <= dens_max f sg) (dens_D f sg p).
Proof.
  assert (B : forall x y z, each (fun v => v <= Rmax x (Rmax y z)) (V3 x y z)).
  { intros x y z. unfold each; simpl. pose proof (Rmax_l x (Rmax y z)). pose proof (Rmax_r x (Rmax y z)). pose proof (Rmax_l y z). pose proof (Rmax_r y z). repeat split; lra. }
  destruct f as [d|d r]; simpl.
  - intros _. apply B.
  - intros (X&Y&Z). pose proof (proj1 (B (vx d) (vy d) (vz d))) as W; simpl in W. destruct (Rlt_dec _ _); unfold each; simpl; repeat split; lra.
Qed.
Print Assumptions C110_max.
(** a sphere density fills exactly the open ball of its radius, with the first channel of the density in all three *)
Theorem C110_sphere d r sg p : 0 <= r -> (norm p < r -> dens_D (SphereDensity d r) sg p = V3c (vx d)) /\ (r <= norm p -> dens_D (SphereDensity d r) sg p = V3c 0).
Proof.
  intros Rp. unfold norm. simpl. assert (Q : 0 <= sqrNorm p) by (unfold sqrNorm; nra). pose proof (sqrt_sqrt _ Q) as E. pose proof (sqrt_pos (sqrNorm p)).
  change (sqrt (vx p * vx p + vy p * vy p + vz p * vz p)) with (sqrt (sqrNorm p)).
  set (s := sqrt (sqrNorm p)) in *. split; intros H'; destruct (Rlt_dec (sqrNorm p) (r * r)) as [N|N]; try reflexivity; exfalso.
  - apply N. rewrite <- E. apply Rmult_le_0_lt_compat; lra.
  - assert (r * r <= s * s) by (apply Rmult_le_compat; lra). lra.
Qed.
Print Assumptions C110_sphere.
Example C110_case : dens_D (SphereDensity (V3 1 2 3) 2) (V3c 7) (V3 1 0 0) = V3c 1 /\ dens_max (SphereDensity (V3 1 2 3) 2) (V3c 7) = 3.
Proof.
  split; [|simpl; rewrite (Rmax_right 2 3), (Rmax_right 1 3) by lra; reflexivity]. simpl. unfold sqrNorm; simpl. destruct (Rlt_dec _ _) as [L|L]; [reflexivity|exfalso; apply L; lra].
Qed.
(** so a coloured sphere density loses its color, and sigma_t does not scale it *)
Theorem C110_colour_refuted : exists d r sg p, norm p < r /\ channel 1 (dens_D (SphereDensity d r) sg p) <> channel 1 d.
Proof.
  exists (V3 1 2 3), 1, (V3c 1), (V3c 0). assert (Z : norm (V3c 0) = 0) by (unfold norm, sqrNorm; simpl; replace (0 * 0 + 0 * 0 + 0 * 0) with 0 by ring; apply sqrt_0).
  split; [rewrite Z; lra|]. rewrite (proj1 (C110_sphere (V3 1 2 3) 1 (V3c 1) (V3c 0) ltac:(lra))) by (rewrite Z; lra). simpl. lra.
Qed.
Print Assumptions C110_colour_refuted.

(** * C111: media sharing a density object *)
(** a density object that exactly one medium refers to gets the coefficients of that medium *)
Theorem C111_unshared ms d m st : In (d, m) ms -> (forall m', In (d, m') ms -> m' = m) -> preprocess_media ms st d = m_sigma_t m.
Proof.
  unfold preprocess_media. intros I U.
  assert (G : forall ms, (forall m', In (d, m') ms -> m' = m) -> forall st, (In (d, m) ms \/ st d = m_sigma_t m) -> fold_left (fun st p => fun i => if Nat.eqb i (fst p) then m_sigma_t (snd p) else st i) ms st d = m_sigma_t m).
  { clear. induction ms as [|[e m'] ms IH]; intros U st H; simpl; [destruct H as [[]|H]; exact H|]. apply IH; [intros m'' K; apply U; right; exact K|].
    simpl. destruct (Nat.eqb_spec d e) as [<-|N].
    - right. rewrite (U m' (or_introl eq_refl)). reflexivity.
    - destruct H as [[H|H]|H]; [injection H; intros; subst; contradiction|left; exact H|right; exact H]. }
  apply G; [exact U|left; exact I].
Qed.
Print Assumptions C111_unshared.
(** so every medium with a density of its own is evaluated with its own coefficients *)
Theorem C111_own ms d m st p : In (d, m) ms -> (forall m', In (d, m') ms -> m' = m) -> scene_D (preprocess_media ms st) d (m_dens m) p = m_D m p.
Proof. intros I U. unfold scene_D, m_D. rewrite (C111_unshared ms d m st I U). reflexivity. Qed.
Print Assumptions C111_own.
(** when two media share one, the last wins: the first is evaluated with foreign coefficients *)
Theorem C111_shared_refuted : exists m1 m2 d f p st, let st' := preprocess_media [(d, m1); (d, m2)] st in
  m_dens m1 = f /\ m_dens m2 = f /\ scene_D st' d f p <> m_D m1 p /\ scene_D st' d f p = m_D m2 p.
Proof.
  exists (fog Homo Analytic (V3c 1) (V3c 1) (V3c 0)), (fog Homo Analytic (V3c 1) (V3c 2) (V3c 0)), 0%nat, (ConstantDensity (V3c 1)), (V3c 0), (fun _ => V3c 0).
  simpl. split; [reflexivity|]. split; [reflexivity|]. split; [|reflexivity]. unfold scene_D, m_D; simpl. unfold m_sigma_t; simpl. intros X. injection X. lra.
Qed.
Print Assumptions C111_shared_refuted.
Example C111_case : let m1 := fog Homo Analytic (V3c 1) (V3c 1) (V3c 0) in let m2 := fog Homo Analytic (V3c 1) (V3c 2) (V3c 0) in
  preprocess_media [(0%nat, m1); (1%nat, m2)] (fun _ => V3c 0) 0%nat = m_sigma_t m1.
Proof. apply C111_unshared; [left; reflexivity|]. intros m' [H|[H|[]]]; injection H; intros; subst; congruence. Qed.

(** * C122: only the density inside the segment matters, and estimators without an implementation throw *)
Definition est_ok (e : estimator) : Prop := match e with Ratio maj => 0 < maj | March step => 0 < step | _ => True end.
Definition samp_ok (s : sampling) : Prop := match s with DeltaSamp maj => 0 < maj | MarchSamp step => 0 < step | Analytic => True end.
Lemma flight_back maj u : 0 < maj -> 0 <= u < 1 -> 0 <= - (ln (1 - u) / maj).
Proof.
  intros M U. assert (L : ln (1 - u) <= 0) by (rewrite <- ln_1; destruct (Req_dec u 0) as [->|N]; [right; f_equal; ring|left; apply ln_increasing; lra]).
  assert (0 < / maj) by (apply Rinv_0_lt_compat; exact M). unfold Rdiv. nra.
Qed.
Lemma step_loc step b t u : 0 < step -> t < b -> 0 <= u < 1 -> t <= t + Rmin step (b - t) * u <= b.
Proof.
  intros S L U. assert (0 < Rmin step (b - t)) by (apply Rmin_glb_lt; lra). pose proof (Rmin_r step (b - t)). nra.
Qed.
Theorem C122_segment_only fuel e D D' sg r a b us : est_ok e -> a <= b -> List.Forall (fun u => 0 <= u < 1) us ->
  (forall t, a <= t <= b -> D (ray_at r t) = D' (ray_at r t)) ->
  transmittance fuel e D sg r a b us = transmittance fuel e D' sg r a b us.
Proof.
  intros O L U H. destruct e; simpl in *; try reflexivity.
  - unfold homo_tr. rewrite H by lra. reflexivity.
  - unfold ratio_tr. generalize (V3c 1). revert a L H. induction U as [|u us Hu U IH]; intros a L H tr; [reflexivity|]. simpl.
    pose proof (flight_back maj u O Hu) as F. destruct (Rge_dec _ b) as [G|G]; [reflexivity|]. apply Rnot_ge_lt in G.
    rewrite (H (a - ln (1 - u) / maj)) by lra. apply IH; [lra|]. intros t T. apply H. lra.
  - unfold march_tr. destruct us as [|u us]; [reflexivity|]. inversion U as [|? ? Hu _]; subst. f_equal.
    enough (K : forall c od, a <= c -> march_loop fuel D sg step r b u c od = march_loop fuel D' sg step r b u c od) by (apply K; lra).
    induction fuel as [|fuel IH]; intros c od Lc; [reflexivity|]. simpl. destruct (Rlt_dec c b) as [Q|Q]; [|reflexivity].
    rewrite H by (pose proof (step_loc step b c u O Q Hu); lra). apply IH. lra.
Qed.
Print Assumptions C122_segment_only.
Theorem C122_flight_segment_only fuel s D D' sg r a b us : samp_ok s -> a <= b -> List.Forall (fun u => 0 <= u < 1) us ->
  (forall t, a <= t <= b -> D (ray_at r t) = D' (ray_at r t)) ->
  free_flight fuel s D sg r a b us = free_flight fuel s D' sg r a b us.
Proof.
  intros O L U H. destruct s; simpl in *.
  - destruct us; [reflexivity|]. unfold analytic_t. rewrite H by lra. reflexivity.
  - f_equal. remember (length us) as n eqn:Hn. revert us U Hn a L H. induction n as [n IH] using (well_founded_induction lt_wf). intros us U Hn a L H.
    destruct us as [|u us]; [reflexivity|]. inversion U as [|? ? Hu U']; subst. simpl. pose proof (flight_back maj u O Hu) as F.
    destruct (Rge_dec _ b) as [G|G]; [reflexivity|]. apply Rnot_ge_lt in G. destruct us as [|u2 us2]; [reflexivity|]. rewrite H by lra.
    destruct (Rgt_dec _ u2); [reflexivity|]. inversion U'; subst. eapply (IH (length us2)); [simpl; lia|assumption|reflexivity|lra|]. intros t T. apply H. lra.
  - destruct us as [|u [|u2 us2]]; try reflexivity. inversion U as [|? ? Hu _]; subst. f_equal.
    enough (K : forall c od, a <= c -> march_samp_loop fuel D sg step r b u (- ln (1 - u2)) c od = march_samp_loop fuel D' sg step r b u (- ln (1 - u2)) c od) by (apply K; lra).
    induction fuel as [|fuel IH]; intros c od Lc; [reflexivity|]. simpl.
    destruct (Rlt_dec c b) as [Q|Q]; [|reflexivity]. rewrite H by (pose proof (step_loc step b c u O Q Hu); lra).
    destruct (Rgt_dec _ (- ln (1 - u2))); [reflexivity|]. apply IH. lra.
Qed.
Print Assumptions C122_flight_segment_only.
Theorem C122_unsupported fuel m r a b us : m_est m = DeltaTr \/ m_est m = PSeries ->
  exists msg, media_transmittance fuel m r a b us = Throw msg.
Proof. intros [E|E]; unfold media_transmittance; rewrite E; eexists; reflexivity. Qed.
Print Assumptions C122_unsupported.
(** two fields that differ only behind the end of the segment *)
Example C122_case : let D := fun p => if Rlt_dec (vx p) 1 then V3c 1 else V3c 0 in let r := Ray (V3c 0) (V3 1 0 0) 0 9 in
  (forall t, 0 <= t <= 1 / 2 -> D (ray_at r t) = (fun _ => V3c 1) (ray_at r t)) /\ D (V3 2 0 0) <> V3c 1 /\ est_ok (March (1 / 4)).
Proof.
  simpl. split; [intros t T; destruct (Rlt_dec _ 1); [reflexivity|lra]|]. split; [|lra]. destruct (Rlt_dec 2 1); [lra|]. intros X. injection X. lra.
Qed.
