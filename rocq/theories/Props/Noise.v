(** C200: how the noise of a picture falls with the number of samples. *)
From Coq Require Import Reals List Bool ZArith Lra Lia.
From Coquelicot Require Import Rbar.
From Verif.Base Require Import Outcome.
From Verif.Model Require Import Vec Frame BBox Warp Clocker Integrators Bsdf Scene Renderer VolPath.
From Verif.Spec Require Import IntegratorSpec PathSpec SceneSpec BoundSpec VolPathSpec ExpectSpec NoiseSpec.
From Verif.Proof Require Import VecLemmas IntegratorProof SceneProof BoundProof VolPathTheory ExpectProof ExpectScene NoiseProof.
From Verif.Props Require VolPath.
From Verif.Props Require Import Expect.
Import ListNotations.
Open Scope R_scope.

Section Pixel.
Context {M : Type}.
Variable hit : ray -> option isect.
Variable d : R.
Variable e1 : (R -> R) -> R.
Variable e2 : (vec2 -> R) -> R.
Variable env : ray -> vec3.
Variable boundary : nat -> option (option M * option M).
Variable ms : M -> option bool -> ray -> R -> query (vec3 * R).
Variable ph : M -> vec3 -> vec2 -> vec3 * R.
Variable nee : bool -> bool -> isect -> option M -> query (list emitter_eval).
Variable ev : isect -> ray -> option M -> closure -> query closure.
Variable mat : isect -> vec3 -> vec3 -> vec3.
Variable sample : isect -> closure -> query closure.
Variable nonexp : bool.
Variable n : nat.
Variable L : R.
Variable P : closure -> Prop.
Variable get : vec3 -> R.
Variable fuel : nat.
Variable md : option M.
Variable camera : vec2 -> ray.
(** a sample of a pixel: a random position in the pixel, and the radiance along its camera ray *)
Definition pixel_sample : query (outcome (vec3 * list (vevent M))) :=
  QRand2 (fun s => vol_Li M env boundary ms ph nee ev mat sample nonexp n fuel md (camera s)).
(** the light that arrives at the pixel *)
Definition pixel_light : R :=
  e2 (fun s => arrives hit e1 e2 M env boundary ms ph nee ev mat sample nonexp n get fuel n (camera s) (closure_init nonexp true (V3c 0)) md true).
Hypothesis av : averages d e1 e2.
Hypothesis d_pos : 0 <= d.
Hypothesis ch : channel get.
Hypothesis ge : gentle hit M env boundary ms ph nee ev mat sample nonexp L P.

Lemma pixel_range o : hleaf hit pixel_sample o -> 0 <= result get o <= INR n * L.
Proof.
  intros H. unfold pixel_sample in H. inversion H as [| | |? s ? H']; subst. clear H.
  assert (W : within 1 (V3c 1)) by (unfold within; cbn; lra).
  pose proof (vol_range hit env boundary ms ph nee ev mat sample nonexp n L P ge get ch fuel n (V3c 0) (V3c 1) (camera s) _ md true [] o
    (ge_start _ _ _ _ _ _ _ _ _ _ _ _ _ ge) W H') as B.
  assert (0 <= INR n * L) by (apply Rmult_le_pos; [apply pos_INR|apply (ge_light _ _ _ _ _ _ _ _ _ _ _ _ _ ge)]).
  destruct o as [[v k]|m| |]; cbn [brighter result] in *; [rewrite (get_c get ch) in B; lra|lra..].
Qed.
(** C200: the mean of N samples of a pixel is off their average by (n L)^2 / (4 N) in mean square *)
Theorem C200_noise N : (0 < N)%nat ->
  let average := expect hit e1 e2 pixel_sample (result get) in
  expect hit e1 e2 (samples N pixel_sample) (fun l => (mean (map (result get) l) - average) * (mean (map (result get) l) - average)) <= (INR n * L) * (INR n * L) / (4 * INR N).
Proof.
  intros N0 average. pose proof (mean_square d e1 e2 av hit pixel_sample (result get) (INR n * L) N average N0 pixel_range) as H. fold average in H.
  replace ((average - average) * (average - average)) with 0 in H by ring. rewrite Rplus_0_r in H. exact H.
Qed.
Lemma pixel_bias : (forall s, ends hit (vol_Li M env boundary ms ph nee ev mat sample nonexp n fuel md (camera s))) ->
  pixel_light - 1 / 10000 * (INR n * L) <= expect hit e1 e2 pixel_sample (result get) <= pixel_light + d * L * (INR n * INR n).
Proof.
  intros En. unfold pixel_light, pixel_sample. cbn [expect].
  match goal with |- e2 ?f - ?x <= e2 ?g <= e2 ?f + ?y => pose proof (e2_near d e1 e2 av g f 0 1 x y) as H end.
  rewrite !Rplus_0_l, !Rmult_1_l in H. apply H. intros s. rewrite Rplus_0_l, Rmult_1_l.
  apply C199_average with (P := P); try assumption. apply En.
Qed.
(** ... and off the light that arrives at the pixel by this and the square of the bias of C199 *)
Theorem C200_converges N : (0 < N)%nat -> (forall s, ends hit (vol_Li M env boundary ms ph nee ev mat sample nonexp n fuel md (camera s))) ->
  let bias := Rmax (1 / 10000 * (INR n * L)) (d * L * (INR n * INR n)) in
  expect hit e1 e2 (samples N pixel_sample) (fun l => (mean (map (result get) l) - pixel_light) * (mean (map (result get) l) - pixel_light))
    <= (INR n * L) * (INR n * L) / (4 * INR N) + bias * bias.
Proof.
  intros N0 En bias. eapply Rle_trans; [apply (mean_square d e1 e2 av hit pixel_sample (result get) (INR n * L) N pixel_light N0 pixel_range)|].
  apply Rplus_le_compat_l. destruct (pixel_bias En) as (B1 & B2). pose proof (Rmax_l (1 / 10000 * (INR n * L)) (d * L * (INR n * INR n))). pose proof (Rmax_r (1 / 10000 * (INR n * L)) (d * L * (INR n * INR n))). fold bias in H, H0.
  assert (- bias <= expect hit e1 e2 pixel_sample (result get) - pixel_light <= bias) by lra. nra.
Qed.
(** a pixel is off by t or more with a probability of at most that over t^2 *)
Theorem C200_unlikely N t : (0 < N)%nat -> 0 < t -> (forall s, ends hit (vol_Li M env boundary ms ph nee ev mat sample nonexp n fuel md (camera s))) ->
  let bias := Rmax (1 / 10000 * (INR n * L)) (d * L * (INR n * INR n)) in
  expect hit e1 e2 (samples N pixel_sample) (fun l => off_by t pixel_light (mean (map (result get) l)))
    <= ((INR n * L) * (INR n * L) / (4 * INR N) + bias * bias) / (t * t).
Proof.
  intros N0 T En bias. eapply Rle_trans; [apply (chebyshev d e1 e2 av hit pixel_sample (result get) N pixel_light t T)|].
  apply Rmult_le_compat_r; [left; apply Rinv_0_lt_compat; nra|]. apply C200_converges; assumption.
Qed.
End Pixel.
Print Assumptions C200_noise.
Print Assumptions C200_converges.
Print Assumptions C200_unlikely.

(** the same in the scenes of C199_scene, for random numbers k/K *)
Theorem C200_scene {M} (S : scene M) lines surfaces boundary ms ph K n L get fuel md camera N :
  (0 < N)%nat -> (0 < K)%nat -> channel get -> 0 <= L -> sc_emitters S = [] -> (forall m, all_bsdfs plain (sc_shader S m)) ->
  unit_normals (fun (_ : unit) r => (scene_hit lines r, tt)) ->
  (forall m e d c, sc_object_emitter S m = Some e -> em_evaluate e d = Ok c -> within L c) ->
  (forall d c, env_emission (sc_envs S) d = Ok c -> within L c) ->
  (forall m f r t wt, hleaf (scene_hit lines) (ms m f r t) wt -> within 1 (fst wt)) ->
  rigid lines -> (forall p d, (List.length (lines p d) <= surfaces)%nat) -> (n * Datatypes.S surfaces + surfaces < fuel)%nat ->
  let sample := pixel_sample (sc_env S) boundary ms ph (sc_nee S) (sc_evaluate_in S) (sc_mat S) (sc_sample S) false n fuel md camera in
  let light := pixel_light (scene_hit lines) (grid1 K) (grid2 K) (sc_env S) boundary ms ph (sc_nee S) (sc_evaluate_in S) (sc_mat S) (sc_sample S) false n get fuel md camera in
  let bias := Rmax (1 / 10000 * (INR n * L)) (1 / INR K * L * (INR n * INR n)) in
  expect (scene_hit lines) (grid1 K) (grid2 K) (samples N sample) (fun l => (mean (map (result get) l) - light) * (mean (map (result get) l) - light))
    <= (INR n * L) * (INR n * L) / (4 * INR N) + bias * bias.
Proof.
  intros N0 K0 Ch L0 Dark Plain Norm Glow Sky Med Rg Few Fu. apply C200_converges with (P := quiet); try assumption.
  - apply C199_grid, K0.
  - apply Rmult_le_pos; [lra|left; apply Rinv_0_lt_compat, lt_0_INR, K0].
  - apply scene_gentle; try assumption. intros q i Hi. exact (Norm tt q i Hi).
  - intros s o Ho. destruct (VolPath.C142_terminates _ _ _ _ _ _ _ _ _ _ _ _ _ _ _ _ Rg Few Fu Ho) as (v & h & ->). eauto.
Qed.
Print Assumptions C200_scene.

(** the two mirrors of C199: N samples with random numbers of 23 bits *)
Example C200_case N n : (0 < N)%nat ->
  let bias := Rmax (1 / 10000 * INR n) (1 / INR (2 ^ 23) * (INR n * INR n)) in
  expect (scene_hit (VolPath.sheets hall)) (grid1 (2 ^ 23)) (grid2 (2 ^ 23))
    (samples N (pixel_sample (sc_env hall_scene) (fun _ => None) no_media no_phase (sc_nee hall_scene) (sc_evaluate_in hall_scene) (sc_mat hall_scene) (sc_sample hall_scene) false n (n * 3 + 3) None (fun _ => in_hall true)))
    (fun l => (mean (map (result vx) l) - (2 - 2 / 2 ^ n)) * (mean (map (result vx) l) - (2 - 2 / 2 ^ n))) <= INR n * INR n / (4 * INR N) + bias * bias.
Proof.
  intros N0.
  assert (K0 : (0 < 2 ^ 23)%nat) by (apply Nat.neq_0_lt_0, Nat.pow_nonzero; discriminate).
  remember (2 ^ 23)%nat as K eqn:EK. clear EK. cbv zeta.
  assert (Light : pixel_light (scene_hit (VolPath.sheets hall)) (grid1 K) (grid2 K) (sc_env hall_scene) (fun _ => None) no_media no_phase (sc_nee hall_scene) (sc_evaluate_in hall_scene)
    (sc_mat hall_scene) (sc_sample hall_scene) false n vx (n * 3 + 3) None (fun _ => in_hall true) = 2 - 2 / 2 ^ n).
  { unfold pixel_light. rewrite (e2_const _ _ _ (C199_grid K K0)). apply hall_light; [lia|reflexivity..]. }
  pose proof (C200_scene hall_scene (VolPath.sheets hall) 2 (fun _ => None) no_media no_phase K n 1 vx (n * 3 + 3) None (fun _ => in_hall true) N N0 K0 (or_introl eq_refl) Rle_0_1 eq_refl) as H.
  cbv zeta in H. rewrite Light in H. rewrite !Rmult_1_r in H. apply H.
  - intros m. cbn. unfold within; cbn. lra.
  - apply hall_normals.
  - intros m e d c E V. injection E as <-. injection V as <-. unfold within; cbn; lra.
  - intros d c E. injection E as <-. unfold within; cbn; lra.
  - intros m f q t wt Lw. apply hleaf_leaf, leaf_ret_inv in Lw. subst. unfold within; cbn; lra.
  - apply VolPath.sheets_rigid.
  - intros p d. apply VolPath.sheets_few.
  - lia.
Qed.
