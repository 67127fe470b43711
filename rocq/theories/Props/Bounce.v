(** C201: what the limit on the number of bounces leaves out. *)
From Coq Require Import Reals List Bool ZArith Lra Lia.
From Coquelicot Require Import Rbar.
From Verif.Base Require Import Outcome.
From Verif.Model Require Import Vec Frame BBox Warp Clocker Integrators Bsdf Scene Renderer VolPath.
From Verif.Spec Require Import IntegratorSpec PathSpec SceneSpec BoundSpec VolPathSpec ExpectSpec BounceSpec.
From Verif.Proof Require Import VecLemmas IntegratorProof SceneProof BoundProof VolPathTheory ExpectProof ExpectScene BounceProof.
From Verif.Props Require VolPath.
From Verif.Props Require Import Expect.
Import ListNotations.
Open Scope R_scope.

(** C201: where surfaces and media pass on at most the share rho, k more vertices never take light away, and
    they add at most L (rho^n + ... + rho^(n+k-1)) *)
Theorem C201_light {M} hit d e1 e2 env boundary ms ph nee ev mat sample max L rho P get fuel n k r c md surf :
  averages d e1 e2 -> channel get -> gentle hit M env boundary ms ph nee ev mat sample false L P -> fading hit M ms ev mat sample rho P -> P c ->
  let light n := arrives hit e1 e2 M env boundary ms ph nee ev mat sample false max get fuel n r c md surf in
  light n <= light (n + k)%nat <= light n + (rest L rho n - rest L rho (n + k)).
Proof. intros Av Ch Ge Fa Pc light. apply (many_more d e1 e2 Av hit env boundary ms ph nee ev mat sample L rho P Ge Fa get Ch max), Pc. Qed.
Print Assumptions C201_light.

(** ... so the average picture hardly changes with the limit once rho^n is small *)
Theorem C201_average {M} hit d e1 e2 env boundary ms ph nee ev mat sample L rho P get fuel n k md r :
  averages d e1 e2 -> 0 <= d -> channel get -> gentle hit M env boundary ms ph nee ev mat sample false L P -> fading hit M ms ev mat sample rho P ->
  let program n := vol_Li M env boundary ms ph nee ev mat sample false n fuel md r in
  let average n := expect hit e1 e2 (program n) (result get) in
  let cut := 1 / 10000 * (INR (n + k) * L) in
  let steps := d * L * (INR (n + k) * INR (n + k)) in
  ends hit (program n) -> ends hit (program (n + k)%nat) ->
  average n - cut - steps <= average (n + k)%nat <= average n + rest L rho n + cut + steps.
Proof.
  intros Av D Ch Ge Fa program average cut steps E1 E2.
  pose proof (C199_average hit d e1 e2 env boundary ms ph nee ev mat sample false n L P get fuel md r Av D Ch Ge E1) as A1.
  pose proof (C199_average hit d e1 e2 env boundary ms ph nee ev mat sample false (n + k) L P get fuel md r Av D Ch Ge E2) as A2.
  cbv zeta in A1, A2. fold (program n) in A1. fold (program (n + k)%nat) in A2. fold (average n) in A1. fold (average (n + k)%nat) in A2. fold cut in A2. fold steps in A2.
  pose proof (C201_light hit d e1 e2 env boundary ms ph nee ev mat sample n L rho P get fuel n k r _ md true Av Ch Ge Fa (ge_start _ _ _ _ _ _ _ _ _ _ _ _ _ Ge)) as B.
  cbv zeta in B.
  rewrite (arrives_max e1 e2 hit env boundary ms ph nee ev mat sample get (n + k) n) in A2.
  pose proof (rest_pos hit env boundary ms ph nee ev mat sample L rho P Ge Fa (n + k)).
  assert (L0 := ge_light _ _ _ _ _ _ _ _ _ _ _ _ _ Ge). pose proof (pos_INR n). pose proof (pos_INR k).
  assert (S1 : 1 / 10000 * (INR n * L) <= cut). { unfold cut. rewrite plus_INR. nra. }
  assert (S2 : d * L * (INR n * INR n) <= steps). { unfold steps. rewrite plus_INR. apply Rmult_le_compat_l; [apply Rmult_le_pos; assumption|]. nra. }
  lra.
Qed.
Print Assumptions C201_average.

(** in a scene of diffuse surfaces, mirrors and glass of colour at most rho *)
Lemma scene_fading {M} (S : scene M) hit ms rho : sc_emitters S = [] -> 0 <= rho < 1 -> (forall m, all_bsdfs (dull rho) (sc_shader S m)) ->
  (forall r i, hit r = Some i -> normal_ok i) ->
  (forall m f r t wt, hleaf hit (ms m f r t) wt -> snd wt < t -> within rho (fst wt)) ->
  fading hit M ms (sc_evaluate_in S) (sc_mat S) (sc_sample S) rho quiet.
Proof.
  intros Dark Rh Dull Norm Med. constructor; [exact Rh| |exact Med].
  intros r i md c c1 c3 Hi Q Lf L3 P0. apply hleaf_leaf in Lf. apply (evaluate_quiet S Dark) in Lf; [|reflexivity..|exact Q]. destruct Lf as (Sp & Ne & Em & Inv).
  apply hleaf_leaf in L3. unfold sc_sample in L3. pose proof (chosen_all S (dull rho) i Dull) as P.
  apply sample_weight with (i := i) in L3; [| |exact (Norm r i Hi)|exact Sp].
  2: { destruct (chosen_bsdf S i); cbn in P; try contradiction; exact I. }
  destruct L3 as (A1 & A2 & A3 & A4). destruct (A4 P0) as (A5 & A6).
  replace (vscale (c_albedo c3) (cos_term i c3 / c_pdf c3)) with (vscale (vscale (c_albedo c3) (cos_term i c3)) (/ c_pdf c3)) by (apply vec3_eq; cbn; unfold Rdiv; ring).
  rewrite A6. replace (vscale (vscale (colour (chosen_bsdf S i)) (c_pdf c3)) (/ c_pdf c3)) with (colour (chosen_bsdf S i)) by (apply vec3_eq; cbn; field; lra).
  destruct (chosen_bsdf S i); cbn in P |- *; try contradiction; exact P.
Qed.
Theorem C201_scene {M} (S : scene M) lines K boundary ms ph N n k L rho get fuel md r :
  (0 < N)%nat -> channel get -> 0 <= L -> 0 <= rho < 1 -> sc_emitters S = [] -> (forall m, all_bsdfs (dull rho) (sc_shader S m)) ->
  unit_normals (fun (_ : unit) r => (scene_hit lines r, tt)) ->
  (forall m e d c, sc_object_emitter S m = Some e -> em_evaluate e d = Ok c -> within L c) ->
  (forall d c, env_emission (sc_envs S) d = Ok c -> within L c) ->
  (forall m f r t wt, hleaf (scene_hit lines) (ms m f r t) wt -> within 1 (fst wt) /\ (snd wt < t -> within rho (fst wt))) ->
  rigid lines -> (forall p d, (List.length (lines p d) <= K)%nat) -> ((n + k) * Datatypes.S K + K < fuel)%nat ->
  let program n := vol_Li M (sc_env S) boundary ms ph (sc_nee S) (sc_evaluate_in S) (sc_mat S) (sc_sample S) false n fuel md r in
  let average n := expect (scene_hit lines) (grid1 N) (grid2 N) (program n) (result get) in
  let cut := 1 / 10000 * (INR (n + k) * L) in
  let steps := 1 / INR N * L * (INR (n + k) * INR (n + k)) in
  average n - cut - steps <= average (n + k)%nat <= average n + rest L rho n + cut + steps.
Proof.
  intros N0 Ch L0 Rh Dark Dull Norm Glow Sky Med Rg Few Fu.
  assert (Fin : forall n', (n' <= n + k)%nat -> ends (scene_hit lines) (vol_Li M (sc_env S) boundary ms ph (sc_nee S) (sc_evaluate_in S) (sc_mat S) (sc_sample S) false n' fuel md r)).
  { intros n' Hn o Ho. assert (Fu' : (n' * Datatypes.S K + K < fuel)%nat) by nia. destruct (VolPath.C142_terminates _ _ _ _ _ _ _ _ _ _ _ _ _ _ _ _ Rg Few Fu' Ho) as (v & h & ->). eauto. }
  apply C201_average with (P := quiet); try exact Ch.
  - apply C199_grid, N0.
  - apply Rmult_le_pos; [lra|left; apply Rinv_0_lt_compat, lt_0_INR, N0].
  - apply scene_gentle; try assumption.
    + intros m. specialize (Dull m). assert (Im : forall b, dull rho b -> plain b). { intros b. destruct b; cbn; try tauto; unfold within; lra. }
      destruct (sc_shader S m); cbn in *; [auto|]. destruct Dull; split; auto.
    + intros q i Hi. exact (Norm tt q i Hi).
    + intros m f q t wt Lw. apply (Med _ _ _ _ _ Lw).
  - apply scene_fading; try assumption; [intros q i Hi; exact (Norm tt q i Hi)|]. intros m f q t wt Lw. apply (Med _ _ _ _ _ Lw).
  - apply Fin. lia.
  - apply Fin. lia.
Qed.
Print Assumptions C201_scene.

(** the two mirrors of C199 that send back half of the light: after n bounces 2/2^n are missing, as bounded *)
Example C201_case N n k : (0 < N)%nat ->
  let average m := expect (scene_hit (VolPath.sheets hall)) (grid1 N) (grid2 N) (hall_sample m ((n + k) * 3 + 3) (in_hall true)) (result vx) in
  rest 1 (1 / 2) n = 2 / 2 ^ n /\
  average (n + k)%nat <= average n + 2 / 2 ^ n + 1 / 10000 * INR (n + k) + 1 / INR N * (INR (n + k) * INR (n + k)).
Proof.
  intros N0 average. assert (Re : rest 1 (1 / 2) n = 2 / 2 ^ n).
  { unfold rest. rewrite Rmult_1_l. replace (1 / 2) with (/ 2) by lra. rewrite pow_inv. pose proof (pow_lt 2 n ltac:(lra)). field. lra. }
  split; [exact Re|].
  pose proof (C201_scene hall_scene (VolPath.sheets hall) 2 (fun _ => None) no_media no_phase N n k 1 (1 / 2) vx ((n + k) * 3 + 3) None (in_hall true) N0 (or_introl eq_refl) Rle_0_1 ltac:(lra) eq_refl) as H.
  cbv zeta in H. rewrite Re, !Rmult_1_r in H. apply H.
  - intros m. cbn. unfold within; cbn. lra.
  - apply hall_normals.
  - intros m e d c E V. injection E as <-. injection V as <-. unfold within; cbn; lra.
  - intros d c E. injection E as <-. unfold within; cbn; lra.
  - intros m f q t wt Lw. apply hleaf_leaf, leaf_ret_inv in Lw. subst. cbn. split; [unfold within; cbn; lra|intros X; lra].
  - apply VolPath.sheets_rigid.
  - intros p d. apply VolPath.sheets_few.
  - lia.
Qed.
