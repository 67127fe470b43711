(** C204: brighter paint. *)
From Coq Require Import Reals List Bool ZArith Lra Lia FunctionalExtensionality.
From Coquelicot Require Import Rbar.
From Verif.Base Require Import Outcome.
From Verif.Model Require Import Vec Frame BBox Warp Clocker Integrators Bsdf Scene Renderer VolPath.
From Verif.Spec Require Import IntegratorSpec PathSpec SceneSpec BoundSpec VolPathSpec ExpectSpec NoiseSpec LitSpec TapeSpec PaintSpec.
From Verif.Proof Require Import VecLemmas IntegratorProof SceneProof BoundProof VolPathTheory ExpectProof ExpectScene LitScene TapeProof PaintProof.
From Verif.Props Require VolPath.
From Verif.Props Require Import Expect Noise Bounce Lamps PathMean.
Import ListNotations.
Open Scope R_scope.

Section Paint.
Context {M : Type}.
Variable S : scene M.
Variable paint : nat -> shader.
Hypothesis brighter : forall m, brighter_shader (sc_shader S m) (paint m).
Hypothesis sound_paint : forall m, all_bsdfs plain (paint m).
Variable lines : vec3 -> vec3 -> list isect.
Variable K : nat.
Variable boundary : nat -> option (option M * option M).
Variable ms : M -> option bool -> ray -> R -> query (vec3 * R).
Variable ph : M -> vec3 -> vec2 -> vec3 * R.
Variable E B F : R.
Hypothesis lit : lit_scene S lines K ms ph E B F.
Variable N : nat.
Hypothesis N_pos : (0 < N)%nat.
Variable get : vec3 -> R.
Hypothesis ch : channel get.
Notation S' := (repainted S paint).
Notation hit := (scene_hit lines).
Notation light X fuel md n r := (arrives hit (grid1 N) (grid2 N) M (sc_env X) boundary ms ph (sc_nee X) (sc_evaluate_in X) (sc_mat X) (sc_sample X) false n get fuel n r (closure_init false true (V3c 0)) md true).
Notation program X fuel md n r := (vol_Li M (sc_env X) boundary ms ph (sc_nee X) (sc_evaluate_in X) (sc_mat X) (sc_sample X) false n fuel md r).

Lemma repainted_lit : lit_scene S' lines K ms ph E B F.
Proof. destruct lit as [Pos Plain Norm Glow Sky La Su Ev Cl Med Pha Rg Few]. constructor; assumption. Qed.

(** C204: no channel of the light that arrives along any ray over any number of vertices gets darker *)
Theorem C204_light fuel md n r : light S fuel md n r <= light S' fuel md n r.
Proof.
  pose proof (lamps_gentle S lines K boundary ms ph E B F lit) as G.
  assert (Ex : sc_evaluate_in S' = sc_evaluate_in S) by (do 4 (apply functional_extensionality; intros ?); apply evaluate_same, brighter).
  change (sc_env S') with (sc_env S). change (sc_nee S') with (sc_nee S). rewrite Ex. apply (arrives_painted (1 / INR N) (grid1 N) (grid2 N) (C199_grid N N_pos) hit) with (L := brightest E B F) (P := calm B); [exact G|exact ch| |apply (ge_start _ _ _ _ _ _ _ _ _ _ _ _ _ G)|intros w; reflexivity].
  intros q i md' c c1 Hi Pc Lf. cbv zeta. destruct lit as [Pos Plain Norm Glow Sky La Su Ev Cl Med Pha Rg Few]. destruct Pos as (E0 & B0 & F0).
  apply hleaf_leaf in Lf. pose proof (Norm tt q i Hi) as No. cbn in No.
  pose proof Lf as Lf'. rewrite <- (evaluate_same S paint brighter) in Lf'.
  apply (evaluate_shone S B B0 Cl La) in Lf; [|apply (chosen_all S plain i Plain)|exact No|exact (Su q i Hi)|reflexivity|reflexivity|exact Pc].
  apply (evaluate_shone S' B B0 Cl La) in Lf'; [|apply (chosen_all S' plain i sound_paint)|exact No|exact (Su q i Hi)|reflexivity|reflexivity|exact Pc].
  destruct Lf as (_ & Ne & _ & _ & _ & Each). destruct Lf' as (_ & _ & _ & _ & _ & Each'). split.
  - unfold accumulate_shadow_rays. cbn [c_nee]. apply sum_darker; [exact brighter|exact ch| |lra]. intros e wi In V. split; [apply (get_in get ch) with B, Each; assumption|].
    split; [apply (get_in get ch) with B, Each'; assumption|apply (get_in get ch) with 1, mat_in, (chosen_all S plain i Plain)].
  - unfold sc_sample. set (wi := isect_toLocal i (vneg (dir q))).
    change (set_wi (accumulate_shadow_rays (sc_mat S' i) c1) wi) with (set_nee (set_wi (accumulate_shadow_rays (sc_mat S i) c1) wi) (c_nee (accumulate_shadow_rays (sc_mat S' i) c1))).
    apply bsdf_moved; [exact ch|apply chosen_brighter, brighter].
Qed.
(** ... so neither does the mean of the samples, up to the bias of C199 *)
Theorem C204_mean fuel md n r : (n * Datatypes.S K + K < fuel)%nat ->
  expect hit (grid1 N) (grid2 N) (program S fuel md n r) (result get) <= expect hit (grid1 N) (grid2 N) (program S' fuel md n r) (result get)
    + 1 / 10000 * (INR n * brightest E B F) + 1 / INR N * brightest E B F * (INR n * INR n).
Proof.
  intros Fu. pose proof (C199_lamps S lines K boundary ms ph E B F lit N N_pos get ch fuel md n r Fu) as A1.
  pose proof (C199_lamps S' lines K boundary ms ph E B F repainted_lit N N_pos get ch fuel md n r Fu) as A2. pose proof (C204_light fuel md n r). lra.
Qed.
End Paint.
Print Assumptions C204_light.
Print Assumptions C204_mean.

(** the same for the path integrator in scenes without null surfaces *)
Section Path.
Context {M B : Type}.
Variable now : B -> R * B.
Variable S : scene M.
Variable paint : nat -> shader.
Hypothesis brighter : forall m, brighter_shader (sc_shader S m) (paint m).
Hypothesis sound_paint : forall m, all_bsdfs plain (paint m).
Variable lines : vec3 -> vec3 -> list isect.
Hypothesis solid : forall r i, scene_hit lines r = Some i -> i_null i = false.
Variable K : nat.
Variable E Bl : R.
Hypothesis lit : lit_scene S lines K (fun _ _ _ t => QRet (V3c 1, t)) (fun _ _ _ => (V3c 0, 0)) E Bl 0.
Variable N : nat.
Hypothesis N_pos : (0 < N)%nat.
Variable get : vec3 -> R.
Hypothesis ch : channel get.
Variable nn : nat.
Notation path X n r := (scene_path X (tape * B) (own_now now) (own_hit (fun l x => (scene_hit lines x, l))) (own_rnd one_of) (own_rnd two_of) (Datatypes.S nn) n r).
Theorem C204_path n r b : exists J, forall j clk log, (J <= j)%nat -> idle clk ->
  let average X := over_tapes N j (fun t => value get (path X n r (St _ clk (t, b) log))) in
  average S <= average (repainted S paint) + 1 / 10000 * (INR n * (E + Bl)) + 1 / INR N * (E + Bl) * (INR n * INR n).
Proof.
  pose proof (repainted_lit S paint sound_paint lines K _ _ E Bl 0 lit) as lit'.
  destruct (C203_scenes now S lines solid K E Bl lit N N_pos get ch nn n r b) as (J1 & A1).
  destruct (C203_scenes now (repainted S paint) lines solid K E Bl lit' N N_pos get ch nn n r b) as (J2 & A2).
  exists (Nat.max J1 J2). intros j clk log Hj I. cbv zeta. specialize (A1 j clk log ltac:(lia) I). specialize (A2 j clk log ltac:(lia) I).
  pose proof (C204_light S paint brighter sound_paint lines K (fun _ => None) _ _ E Bl 0 lit N N_pos get ch (Datatypes.S n) None n r) as Le.
  rewrite !arrives_solid in Le by (try exact solid; lia).
  assert (Q : forall X : scene M, (fun i r c => sc_evaluate_in X i r None c) = sc_evaluate X) by (intros X; do 3 (apply functional_extensionality; intros ?); symmetry; apply evaluate_none).
  rewrite !Q in Le. lra.
Qed.
End Path.
Print Assumptions C204_path.

(** a lamp above a floor of the colours a and a' *)
Example C204_case p : 0 <= p -> let paint := fun _ : nat => Simple (Diffuse (V3 1 (1 / 2) (1 / 2))) in
  (forall m, brighter_shader (sc_shader (floor_scene (1 / 2) p) m) (paint m)) /\ (forall m, all_bsdfs plain (paint m)) /\
  lit_scene (floor_scene (1 / 2) p) (VolPath.sheets floor) 1 (fun _ _ _ t => QRet (V3c 1, t)) (fun _ _ _ => (V3c 0, 0)) 0 (p / (4 * PI)) 0.
Proof.
  intros P paint. split; [intros m; cbn; unfold darker; cbn; lra|]. split; [intros m; cbn; unfold within; cbn; lra|]. exact (floor_lit (1 / 2) p ltac:(lra) P).
Qed.
