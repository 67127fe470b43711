(** C199, C200 and C201 in scenes with lamps. *)
From Coq Require Import Reals List Bool ZArith Lra Lia.
From Coquelicot Require Import Rbar.
From Flocq Require Import Core.Raux.
From Verif.Base Require Import Outcome.
From Verif.Model Require Import Vec Frame BBox Warp Clocker Integrators Bsdf Scene Renderer VolPath.
From Verif.Spec Require Import IntegratorSpec PathSpec SceneSpec BoundSpec VolPathSpec ExpectSpec NoiseSpec BounceSpec LitSpec.
From Verif.Proof Require Import VecLemmas IntegratorProof SceneProof BoundProof VolPathTheory ExpectProof ExpectScene BounceProof LitScene.
From Verif.Props Require VolPath.
From Verif.Props Require Import Expect Noise Bounce.
Import ListNotations.
Open Scope R_scope.

(** a scene of diffuse surfaces, mirrors and glass of albedo at most 1, of media of weight at most 1 and phase
    functions of at most F, with a sky and glowing objects of at most E; seen from any surface and any scattering
    event the point and mesh lights together are at most B; at most K surfaces on any line, unit normals *)
Record lit_scene {M} (S : scene M) (lines : vec3 -> vec3 -> list isect) (K : nat) (ms : M -> option bool -> ray -> R -> query (vec3 * R))
    (ph : M -> vec3 -> vec2 -> vec3 * R) (E B F : R) : Prop := {
  ls_pos : 0 <= E /\ 0 <= B /\ 0 <= F;
  ls_plain : forall m, all_bsdfs plain (sc_shader S m);
  ls_normals : unit_normals (fun (_ : unit) r => (scene_hit lines r, tt));
  ls_glow : forall m e d c, sc_object_emitter S m = Some e -> em_evaluate e d = Ok c -> within E c;
  ls_sky : forall d c, env_emission (sc_envs S) d = Ok c -> within E c;
  ls_lamps : plain_lamps S;
  ls_surfaces : forall r i, scene_hit lines r = Some i -> lamps S B (i_p i);
  ls_events : forall m f r i wt, scene_hit lines r = Some i -> hleaf (scene_hit lines) (ms m f r (i_t i)) wt -> snd wt < i_t i -> lamps S B (ray_at r (snd wt));
  ls_clear : absorbing S;
  ls_media : forall m f r t wt, hleaf (scene_hit lines) (ms m f r t) wt -> within 1 (fst wt);
  ls_phase : forall m w u, 0 <= snd (ph m w u) <= F;
  ls_rigid : rigid lines;
  ls_few : forall p d, (List.length (lines p d) <= K)%nat }.
(** the most that a vertex sends out *)
Definition brightest (E B F : R) : R := E + Rmax 1 F * B.

Section Scenes.
Context {M : Type}.
Variable S : scene M.
Variable lines : vec3 -> vec3 -> list isect.
Variable K : nat.
Variable boundary : nat -> option (option M * option M).
Variable ms : M -> option bool -> ray -> R -> query (vec3 * R).
Variable ph : M -> vec3 -> vec2 -> vec3 * R.
Variable E B F : R.
Hypothesis lit : lit_scene S lines K ms ph E B F.
Variable N : nat.
Hypothesis N_pos : (0 < N)%nat.
Variable get : vec3 -> R.
Hypothesis ch : channel get.
Variable fuel : nat.
Variable md : option M.
Notation hit := (scene_hit lines).
Notation program n r := (vol_Li M (sc_env S) boundary ms ph (sc_nee S) (sc_evaluate_in S) (sc_mat S) (sc_sample S) false n fuel md r).
Notation light n r := (arrives hit (grid1 N) (grid2 N) M (sc_env S) boundary ms ph (sc_nee S) (sc_evaluate_in S) (sc_mat S) (sc_sample S) false n get fuel n r (closure_init false true (V3c 0)) md true).
Notation L := (brightest E B F).

Lemma lamps_gentle : gentle hit M (sc_env S) boundary ms ph (sc_nee S) (sc_evaluate_in S) (sc_mat S) (sc_sample S) false L (calm B).
Proof.
  destruct lit as [Pos Plain Norm Glow Sky La Su Ev Cl Med Pha Rg Few]. destruct Pos as (E0 & B0 & F0). apply lit_gentle; try assumption.
  intros r i Hi. split; [exact (Norm tt r i Hi)|exact (Su r i Hi)].
Qed.
Lemma lamps_end n r : (n * Datatypes.S K + K < fuel)%nat -> ends hit (program n r).
Proof. intros Fu o Ho. destruct (VolPath.C142_terminates _ _ _ _ _ _ _ _ _ _ _ _ _ _ _ _ (ls_rigid _ _ _ _ _ _ _ _ lit) (ls_few _ _ _ _ _ _ _ _ lit) Fu Ho) as (v & h & ->). eauto. Qed.
Lemma step_pos : 0 <= 1 / INR N.
Proof. apply Rmult_le_pos; [lra|left; apply Rinv_0_lt_compat, lt_0_INR, N_pos]. Qed.

(** C199 *)
Theorem C199_lamps n r : (n * Datatypes.S K + K < fuel)%nat ->
  light n r - 1 / 10000 * (INR n * L) <= expect hit (grid1 N) (grid2 N) (program n r) (result get) <= light n r + 1 / INR N * L * (INR n * INR n).
Proof.
  intros Fu. apply C199_average with (P := calm B); [apply C199_grid, N_pos|apply step_pos|exact ch|apply lamps_gentle|apply lamps_end, Fu].
Qed.
(** C200 *)
Theorem C200_lamps n camera samples_ : (0 < samples_)%nat -> (n * Datatypes.S K + K < fuel)%nat ->
  let sample := pixel_sample (sc_env S) boundary ms ph (sc_nee S) (sc_evaluate_in S) (sc_mat S) (sc_sample S) false n fuel md camera in
  let pixel := pixel_light hit (grid1 N) (grid2 N) (sc_env S) boundary ms ph (sc_nee S) (sc_evaluate_in S) (sc_mat S) (sc_sample S) false n get fuel md camera in
  let bias := Rmax (1 / 10000 * (INR n * L)) (1 / INR N * L * (INR n * INR n)) in
  expect hit (grid1 N) (grid2 N) (samples samples_ sample) (fun l => (mean (map (result get) l) - pixel) * (mean (map (result get) l) - pixel))
    <= (INR n * L) * (INR n * L) / (4 * INR samples_) + bias * bias.
Proof.
  intros S0 Fu. apply C200_converges with (P := calm B); [apply C199_grid, N_pos|apply step_pos|exact ch|apply lamps_gentle|exact S0|]. intros s. apply lamps_end, Fu.
Qed.
Lemma lamps_fading rho : 0 <= rho < 1 -> (forall m, all_bsdfs (dull rho) (sc_shader S m)) ->
  (forall m f r t wt, hleaf hit (ms m f r t) wt -> snd wt < t -> within rho (fst wt)) ->
  fading hit M ms (sc_evaluate_in S) (sc_mat S) (sc_sample S) rho (calm B).
Proof.
  intros Rh Dull Med.
  destruct lit as [Pos Plain Norm Glow Sky La Su Ev Cl _ Pha Rg Few]. destruct Pos as (E0 & B0 & F0). constructor; [exact Rh| |exact Med].
  intros q i md' c c1 c3 Hi Q Lf L3 P0. apply hleaf_leaf in Lf. pose proof (Norm tt q i Hi) as No. cbn in No.
  apply (evaluate_shone S B B0 Cl La) in Lf; [|apply (chosen_all S plain i Plain)|exact No|exact (Su q i Hi)|reflexivity|reflexivity|exact Q]. destruct Lf as (Sp & _).
  apply hleaf_leaf in L3. unfold sc_sample in L3. pose proof (chosen_all S (dull rho) i Dull) as P.
  apply sample_weight with (i := i) in L3; [| |exact No|exact Sp].
  2: { destruct (chosen_bsdf S i); cbn in P; try contradiction; exact I. }
  destruct L3 as (A1 & A2 & A3 & A4). destruct (A4 P0) as (A5 & A6).
  replace (vscale (c_albedo c3) (cos_term i c3 / c_pdf c3)) with (vscale (vscale (c_albedo c3) (cos_term i c3)) (/ c_pdf c3)) by (apply vec3_eq; cbn; unfold Rdiv; ring).
  rewrite A6. replace (vscale (vscale (colour (chosen_bsdf S i)) (c_pdf c3)) (/ c_pdf c3)) with (colour (chosen_bsdf S i)) by (apply vec3_eq; cbn; field; lra).
  destruct (chosen_bsdf S i); cbn in P |- *; try contradiction; exact P.
Qed.
(** C201 *)
Theorem C201_lamps rho n k r : 0 <= rho < 1 -> (forall m, all_bsdfs (dull rho) (sc_shader S m)) ->
  (forall m f r t wt, hleaf hit (ms m f r t) wt -> snd wt < t -> within rho (fst wt)) -> ((n + k) * Datatypes.S K + K < fuel)%nat ->
  let average n := expect hit (grid1 N) (grid2 N) (program n r) (result get) in
  let cut := 1 / 10000 * (INR (n + k) * L) in
  let steps := 1 / INR N * L * (INR (n + k) * INR (n + k)) in
  average n - cut - steps <= average (n + k)%nat <= average n + rest L rho n + cut + steps.
Proof.
  intros Rh Dull Med Fu. apply C201_average with (P := calm B); [apply C199_grid, N_pos|apply step_pos|exact ch|apply lamps_gentle| |apply lamps_end; nia|apply lamps_end; nia].
  apply lamps_fading; assumption.
Qed.
End Scenes.
Print Assumptions C199_lamps.
Print Assumptions C200_lamps.
Print Assumptions C201_lamps.

(** a diffuse floor of albedo a, one unit below a lamp of power p *)
Definition floor : list (nat * R * R * bool) := [(0%nat, 0, 1, false)].
Definition floor_scene (a p : R) : scene unit :=
  Scene [EPoint (V3c p) (V3 0 0 1)] [] (fun _ => None) (fun _ => Simple (Diffuse (V3c a))) (fun m => m) (fun _ _ => UB) (fun _ => None) (fun _ _ => QRet (V3c 1)) 3 false.
Lemma floor_z r i : scene_hit (VolPath.sheets floor) r = Some i -> vz (i_p i) = 0 /\ fn (i_s i) = V3 0 0 1 /\ fs (i_s i) = V3 1 0 0 /\ ft (i_s i) = V3 0 1 0.
Proof.
  intros H. unfold scene_hit, first_in in H. apply find_some in H as (H & _). unfold VolPath.sheets, floor in H.
  destruct (Rlt_dec 0 _); [|destruct (Rlt_dec _ 0); [|destruct H]]; cbn in H; destruct H as [<-|[]]; cbn; repeat split; field; lra.
Qed.
Lemma floor_lit a p : 0 <= a <= 1 -> 0 <= p -> lit_scene (floor_scene a p) (VolPath.sheets floor) 1 no_media no_phase 0 (p / (4 * PI)) 0.
Proof.
  intros A P. pose proof PI_RGT_0 as Pi.
  assert (B0 : 0 <= p / (4 * PI)) by (apply Rmult_le_pos; [exact P|left; apply Rinv_0_lt_compat; lra]).
  assert (Z : forall b, 0 <= b -> within b (V3c 0)) by (intros b Hb; unfold within; cbn; lra).
  constructor.
  - lra.
  - intros m. cbn. unfold within; cbn. lra.
  - intros [] r i H. cbn in H. destruct (floor_z _ _ H) as (_ & -> & -> & ->). unfold dot; cbn. lra.
  - discriminate.
  - intros d c H. injection H as <-. apply Z. lra.
  - intros e [<-|[]]. reflexivity.
  - intros r i H. destruct (floor_z _ _ H) as (Iz & _). intros e u s [<-|[]] Sa _. cbn [sample_nee] in Sa. injection Sa as <-. cbn [es_color es_pdf].
    set (q := i_p i) in *. assert (D : 1 <= sqrNorm (vsub (V3 0 0 1) q)) by (unfold sqrNorm; cbn; rewrite Iz; nra). set (d := sqrNorm _) in *.
    assert (G : 0 <= p / d * (1 / (4 * PI)) / 1 <= p / (4 * PI) / 1).
    { replace (p / d * (1 / (4 * PI)) / 1) with (p / (4 * PI) * / d) by (field; lra). replace (p / (4 * PI) / 1) with (p / (4 * PI) * 1) by (field; lra).
      assert (0 < / d <= 1). { split; [apply Rinv_0_lt_compat; lra|]. rewrite <- Rinv_1. apply Rinv_le_contravar; lra. }
      split; [apply Rmult_le_pos; lra|apply Rmult_le_compat_l; lra]. }
    unfold within; cbn in *. repeat split; apply G.
  - intros m f r i wt _ H. apply hleaf_leaf, leaf_ret_inv in H. subst. cbn. intros X; lra.
  - intros m r t H. apply leaf_ret_inv in H. subst. unfold within; cbn; lra.
  - intros m f r t wt H. apply hleaf_leaf, leaf_ret_inv in H. subst. unfold within; cbn; lra.
  - intros m w u. cbn. lra.
  - apply VolPath.sheets_rigid.
  - intros q d. apply VolPath.sheets_few.
Qed.
Lemma total_ext n f g : (forall k, (k < n)%nat -> f k = g k) -> total n f = total n g.
Proof. induction n as [|n IH]; intros H; [reflexivity|]. cbn. rewrite IH, H by (intros; try apply H; lia). reflexivity. Qed.
Lemma grid1_const N f c : (0 < N)%nat -> (forall u, 0 <= u < 1 -> f u = c) -> grid1 N f = c.
Proof.
  intros N0 H. unfold grid1. pose proof (lt_0_INR N N0). rewrite (total_ext N _ (fun _ => c * 1 + 0 * 1)).
  - rewrite total_lin, !total_one. field. lra.
  - intros k Hk. rewrite H; [ring|]. pose proof (pos_INR k). apply lt_INR in Hk. split; [apply Rmult_le_pos; [lra|left; apply Rinv_0_lt_compat; lra]|].
    apply Rmult_lt_reg_r with (INR N); [lra|]. unfold Rdiv. rewrite Rmult_assoc, Rinv_l by lra. lra.
Qed.
Lemma grid2_const N f c : (0 < N)%nat -> (forall u, f u = c) -> grid2 N f = c.
Proof. intros N0 H. unfold grid2. apply grid1_const; [exact N0|]. intros x _. apply grid1_const; [exact N0|]. intros y _. apply H. Qed.
(** nothing is above the floor *)
Lemma above_floor d far : scene_hit (VolPath.sheets floor) (Ray (V3c 0) d (Finite Epsilon) far) = None.
Proof.
  assert (0 < Epsilon) by (unfold Epsilon; lra). unfold scene_hit, first_in, VolPath.sheets, floor. cbn [org dir rnear rfar].
  destruct (Rlt_dec 0 (vz d)); [|destruct (Rlt_dec (vz d) 0); [|reflexivity]]; cbn -[Rbar_leb];
    (replace ((0 - 0) / vz d) with 0 by (field; lra)); destruct (Rbar_leb (Finite Epsilon) (Finite 0)) eqn:X; try reflexivity; apply leb_iff in X; cbn in X; lra.
Qed.
Definition floor_point : isect := let f := Fr (V3 1 0 0) (V3 0 1 0) (V3 0 0 1) in Isect (V3c 0) (1 / 2) (V3c (1 / 3)) f f 0 false.
Definition floor_ray : ray := Ray (V3 0 0 (1 / 2)) (V3 0 0 (-1)) (Finite Epsilon) p_infty.
Lemma on_floor : scene_hit (VolPath.sheets floor) floor_ray = Some floor_point.
Proof.
  assert (Epsilon < 1 / 2) by (unfold Epsilon; lra). unfold scene_hit, first_in, VolPath.sheets, floor, floor_ray. cbn [org dir rnear rfar vz].
  destruct (Rlt_dec 0 (-1)); [lra|]. destruct (Rlt_dec (-1) 0); [|lra]. cbn -[Rbar_leb]. replace ((0 - 1 / 2) / -1) with (1 / 2) by field.
  replace (Rbar_leb (Finite Epsilon) (Finite (1 / 2))) with true by (symmetry; apply leb_iff; cbn; lra).
  replace (Rbar_leb (Finite (1 / 2)) p_infty) with true by (symmetry; apply leb_iff; exact I). cbn [andb]. unfold floor_point. do 2 f_equal; apply vec3_eq; cbn; lra.
Qed.
Lemma up_unit : normalized (V3 0 0 1) = V3 0 0 1.
Proof.
  assert (X : norm (V3 0 0 1) = 1) by (transitivity (sqrt 1); [unfold norm; f_equal; unfold dot; cbn; lra|apply sqrt_1]). unfold normalized. rewrite X. apply vec3_eq; cbn; field.
Qed.
Definition lamp_light (p : R) : emitter_eval := EmEval (V3c (p / (4 * PI))) (V3 0 0 1) true.
Lemma floor_shade a p N wi wo sh al em ne pdf eta sp f : (0 < N)%nat ->
  expect (scene_hit (VolPath.sheets floor)) (grid1 N) (grid2 N) (sc_evaluate_in (floor_scene a p) floor_point floor_ray None (Closure wi wo sh al em ne pdf eta sp true false true)) f
  = f (Closure wi wo [lamp_light p] al (V3c 0) ne pdf eta false false false true).
Proof.
  intros N0. pose proof PI_RGT_0 as Pi. unfold sc_evaluate_in, sc_try_in. cbn [sc_shader floor_scene]. unfold simple_evaluate_in, shade_in. cbn [isDelta].
  cbn [set_spec c_last_spec c_accepts c_all qbind obind accumulate_emission sc_object_emitter floor_scene i_mesh floor_point].
  unfold eval_one, choose_emitter. cbn [sc_emitters floor_scene].
  unfold no_failure; cbn [qbind obind accumulate_emission expect set_emission c_accepts c_all]. apply grid1_const; [exact N0|]. intros u Hu.
  unfold naive_choice. cbn [List.length INR]. rewrite Rmult_1_r, Ztrunc_floor by lra. rewrite (Zfloor_imp 0 u) by (cbn; lra). cbn [Z.ltb Z.compare Z.to_nat nth_error em_mesh qbind obind].
  unfold eval_emitter. cbn [qbind obind expect]. apply grid2_const; [exact N0|]. intros u2. cbn [sample_nee qbind obind i_p floor_point].
  unfold shadow_query. cbn [needs_visibility es_sqr_dist es_wi es_pdf es_color qbind obind]. unfold intersect_transmittance. cbn [sc_fuel floor_scene tr_loop org dir rnear rfar qbind obind expect].
  cbn [i_p floor_point]. rewrite above_floor. cbn [finish attenuate qbind obind negb orb expect sc_ignore floor_scene].
  destruct (Req_EM_T 1 0); [lra|]. cbn [qbind obind expect eval_of set_emission set_shadow set_spec c_last_spec c_accepts c_all c_wi c_wo c_shadow c_albedo c_emission c_nee c_pdf c_eta c_spec i_s floor_point fn].
  assert (D : vsub (V3 0 0 1) (V3c 0) = V3 0 0 1) by (apply vec3_eq; cbn; lra).
  assert (D1 : sqrNorm (V3 0 0 1) = 1) by (unfold sqrNorm; cbn; lra).
  rewrite D, D1, up_unit. f_equal. f_equal. unfold lamp_light.
  assert (T : toLocal (Fr (V3 1 0 0) (V3 0 1 0) (V3 0 0 1)) (V3 0 0 1) = V3 0 0 1) by (apply vec3_eq; cbn; unfold dot; cbn; lra). rewrite T. repeat f_equal.
  unfold nee_cos. cbn [dir]. replace (dot (V3 0 0 1) (V3 0 0 1)) with 1 by (unfold dot; cbn; lra). destruct (Rlt_dec 1 (- Epsilon)) as [X|_]; [unfold Epsilon in X; lra|].
  match goal with |- context [EmEval ?x _ _] => replace x with (V3c (p / (4 * PI))) by (apply vec3_eq; cbn; field; lra) end. reflexivity.
Qed.
Lemma floor_light a p N n max : (0 < N)%nat -> forall fuel, (2 <= fuel)%nat ->
  arrives (scene_hit (VolPath.sheets floor)) (grid1 N) (grid2 N) unit (sc_env (floor_scene a p)) (fun _ => None) no_media no_phase (sc_nee (floor_scene a p)) (sc_evaluate_in (floor_scene a p))
    (sc_mat (floor_scene a p)) (sc_sample (floor_scene a p)) false max vx fuel (Datatypes.S n) floor_ray (closure_init false true (V3c 0)) None true
  = a / PI * (p / (4 * PI)).
Proof.
  intros N0 fuel Hf. pose proof PI_RGT_0 as Pi. destruct fuel as [|[|fuel]]; [lia|lia|]. remember (Datatypes.S fuel) as fu eqn:Fu. cbn [arrives]. rewrite on_floor. cbn [i_null floor_point].
  change (Isect _ _ _ _ _ _ _) with floor_point. unfold closure_init, reset_closure. cbn [c_wo c_shadow c_albedo c_emission c_nee c_pdf c_eta c_spec c_last_spec c_all c_accepts].
  rewrite floor_shade by exact N0. cbn zeta.
  set (c2 := accumulate_shadow_rays _ _). set (dark := fun c3 : closure => if Req_EM_T (c_pdf c3) 0 then 0 else _).
  assert (Dark : forall c3, dark c3 = 0).
  { intros c3. unfold dark. destruct (Req_EM_T (c_pdf c3) 0); [reflexivity|]. subst fu. destruct n; cbn [arrives]; [ring|].
    unfold next_ray. cbn [i_p floor_point]. rewrite above_floor. cbn. ring. }
  match goal with |- ?x + ?y = _ => assert (Y : y = 0) end.
  { unfold sc_sample, chosen_bsdf. cbn [sc_shader floor_scene i_mesh floor_point bsdf_sample]. destruct (Rle_dec _ 0); cbn [expect]; [apply Dark|].
    apply grid2_const; [exact N0|]. intros u. apply Dark. }
  rewrite Y, Rplus_0_r. unfold c2, accumulate_shadow_rays, lamp_light. cbn [c_emission c_nee c_shadow c_wi shadow_sum e_valid e_throughput e_dir].
  unfold sc_mat, chosen_bsdf. cbn [sc_shader floor_scene i_mesh floor_point bsdf_value].
  rewrite up_unit. unfold cosTheta, isect_toLocal. destruct (Rle_dec _ 0) as [X|_]; [unfold toLocal, dot in X; cbn in X; lra|].
  destruct (Rle_dec _ 0) as [X|_]; [cbn in X; lra|]. cbn. field. lra.
Qed.

Definition floor_program (a p : R) (n : nat) := vol_Li unit (sc_env (floor_scene a p)) (fun _ => None) no_media no_phase (sc_nee (floor_scene a p)) (sc_evaluate_in (floor_scene a p))
  (sc_mat (floor_scene a p)) (sc_sample (floor_scene a p)) false n 50 None floor_ray.
(** the lamp of power 4 pi sends 1 down to the floor, which sends a / pi of it up to the camera; 50 = fuel *)
Example C199_lamps_case a N n : 0 <= a <= 1 -> (0 < N)%nat -> (n < 20)%nat ->
  a / PI - 1 / 10000 * INR (S n) <= expect (scene_hit (VolPath.sheets floor)) (grid1 N) (grid2 N) (floor_program a (4 * PI) (S n)) (result vx) <= a / PI + 1 / INR N * (INR (S n) * INR (S n)).
Proof.
  intros A N0 Hn. pose proof PI_RGT_0 as Pi.
  assert (P : 0 <= 4 * PI) by lra.
  pose proof (C199_lamps (floor_scene a (4 * PI)) (VolPath.sheets floor) 1 (fun _ => None) no_media no_phase 0 (4 * PI / (4 * PI)) 0 (floor_lit a (4 * PI) A P) N N0 vx (or_introl eq_refl) 50 None (S n) floor_ray ltac:(lia)) as H.
  rewrite floor_light in H by (try exact N0; lia). unfold floor_program. 
  assert (L : brightest 0 (4 * PI / (4 * PI)) 0 = 1) by (unfold brightest; rewrite Rmax_left by lra; field; lra). rewrite L in H.
  replace (a / PI * (4 * PI / (4 * PI))) with (a / PI) in H by (field; lra). lra.
Qed.
(** pictures of that floor of any number of samples *)
Example C200_lamps_case a N n samples_ : 0 <= a <= 1 -> (0 < N)%nat -> (n < 20)%nat -> (0 < samples_)%nat ->
  let bias := Rmax (1 / 10000 * INR (S n)) (1 / INR N * (INR (S n) * INR (S n))) in
  expect (scene_hit (VolPath.sheets floor)) (grid1 N) (grid2 N)
    (samples samples_ (pixel_sample (sc_env (floor_scene a (4 * PI))) (fun _ => None) no_media no_phase (sc_nee (floor_scene a (4 * PI))) (sc_evaluate_in (floor_scene a (4 * PI)))
      (sc_mat (floor_scene a (4 * PI))) (sc_sample (floor_scene a (4 * PI))) false (S n) 50 None (fun _ => floor_ray)))
    (fun l => (mean (map (result vx) l) - a / PI) * (mean (map (result vx) l) - a / PI)) <= INR (S n) * INR (S n) / (4 * INR samples_) + bias * bias.
Proof.
  intros A N0 Hn S0 bias. pose proof PI_RGT_0 as Pi. assert (P : 0 <= 4 * PI) by lra.
  pose proof (C200_lamps (floor_scene a (4 * PI)) (VolPath.sheets floor) 1 (fun _ => None) no_media no_phase 0 (4 * PI / (4 * PI)) 0 (floor_lit a (4 * PI) A P) N N0 vx (or_introl eq_refl) 50 None (S n) (fun _ => floor_ray) samples_ S0 ltac:(lia)) as H.
  cbv zeta in H. unfold pixel_light in H at 1 2. rewrite !(e2_const _ _ _ (C199_grid N N0)), !floor_light in H by (try exact N0; lia).
  assert (L : brightest 0 (4 * PI / (4 * PI)) 0 = 1) by (unfold brightest; rewrite Rmax_left by lra; field; lra). rewrite L, !Rmult_1_r in H.
  replace (a / PI * (4 * PI / (4 * PI))) with (a / PI) in H by (field; lra). exact H.
Qed.
(** one bounce more never matters on that floor: the bound of C201 is 2 / 2^n for a = 1/2 *)
Example C201_lamps_case N n k : (0 < N)%nat -> (n + k < 20)%nat ->
  let average m := expect (scene_hit (VolPath.sheets floor)) (grid1 N) (grid2 N) (floor_program (1 / 2) (4 * PI) m) (result vx) in
  rest 1 (1 / 2) n = 2 / 2 ^ n /\
  average (n + k)%nat <= average n + 2 / 2 ^ n + 1 / 10000 * INR (n + k) + 1 / INR N * (INR (n + k) * INR (n + k)).
Proof.
  intros N0 Hn average. assert (Re : rest 1 (1 / 2) n = 2 / 2 ^ n).
  { unfold rest. rewrite Rmult_1_l. replace (1 / 2) with (/ 2) by lra. rewrite pow_inv. pose proof (pow_lt 2 n ltac:(lra)). field. lra. }
  split; [exact Re|]. pose proof PI_RGT_0 as Pi. assert (P : 0 <= 4 * PI) by lra.
  pose proof (C201_lamps (floor_scene (1 / 2) (4 * PI)) (VolPath.sheets floor) 1 (fun _ => None) no_media no_phase 0 (4 * PI / (4 * PI)) 0 (floor_lit (1 / 2) (4 * PI) ltac:(lra) P) N N0 vx (or_introl eq_refl) 50 None (1 / 2) n k floor_ray ltac:(lra)) as H.
  cbv zeta in H. assert (L : brightest 0 (4 * PI / (4 * PI)) 0 = 1) by (unfold brightest; rewrite Rmax_left by lra; field; lra). rewrite L, Re, !Rmult_1_r in H.
  apply H; [| |lia].
  - intros m. cbn. unfold within; cbn. lra.
  - intros m f q t wt Lw. apply hleaf_leaf, leaf_ret_inv in Lw. subst. cbn. intros X; lra.
Qed.
