(** The plugged-in surface renderer in two scenes that differ by a displacement and by the lights. *)
From Coq Require Import Reals List Bool ZArith Lra Lia FunctionalExtensionality.
From Coquelicot Require Import Rbar.
From Verif.Base Require Import Outcome.
From Verif.Model Require Import Vec Frame BBox Integrators Bsdf Scene Renderer.
From Verif.Spec Require Import TransportSpec.
From Verif.Proof Require Import VecLemmas TransportProof.
Import ListNotations.
Open Scope R_scope.

Lemma vadd_0 v : vadd v (V3c 0) = v. Proof. vring. Qed.
Lemma vmul_1 v : vmul v (V3c 1) = v. Proof. vring. Qed.
Lemma moved_ray_0 r : moved_ray (V3c 0) r = r. Proof. destruct r; unfold moved_ray; cbn. now rewrite vadd_0. Qed.
Lemma moved_hit_0 i : moved_hit (V3c 0) i = i. Proof. destruct i; unfold moved_hit; cbn. now rewrite vadd_0. Qed.
Lemma moved_hits_0 o : option_map (moved_hit (V3c 0)) o = o. Proof. destruct o; cbn; [now rewrite moved_hit_0|reflexivity]. Qed.
Lemma moved_world_0 {W} (hit : W -> ray -> option isect * W) : moved_world (V3c 0) hit hit.
Proof. intros w r. rewrite moved_ray_0, moved_hits_0. now destruct (hit w r). Qed.
Lemma same_program_0 {A} (q : query A) : same_program (V3c 0) eq q q.
Proof.
  induction q; try (constructor; auto; fail). pattern r at 2. rewrite <- (moved_ray_0 r). constructor. intros x. rewrite moved_hits_0. auto.
Qed.
Lemma moved_brighter k e : moved_emitter (V3c 0) k e = brighter k e.
Proof. destruct e; cbn; rewrite ?vadd_0; reflexivity. Qed.
Lemma moved_displaced t e : moved_emitter t (V3c 1) e = displaced t e.
Proof. destruct e; cbn; rewrite ?vmul_1; reflexivity. Qed.

Record moved_scene {M} (t k : vec3) (S S' : scene M) : Prop := {
  mv_emitters : sc_emitters S' = map (moved_emitter t k) (sc_emitters S);
  mv_envs : sc_envs S' = map (moved_emitter t k) (sc_envs S);
  mv_object : sc_object_emitter S' = fun n => option_map (moved_emitter t k) (sc_object_emitter S n);
  mv_shader : sc_shader S' = sc_shader S; mv_inst : sc_inst S' = sc_inst S;
  mv_point : forall m u, same_outcome (fun a b => b = (vadd (fst (fst a)) t, snd (fst a), snd a)) (sc_mesh_point S m u) (sc_mesh_point S' m u);
  mv_inside : sc_inside S' = sc_inside S;
  mv_tr : forall m r, same_program t eq (sc_transmittance S m r) (sc_transmittance S' m (moved_ray t r));
  mv_fuel : sc_fuel S' = sc_fuel S; mv_ignore : sc_ignore S' = sc_ignore S }.

Lemma brighter_is_moved {M} k (S : scene M) : moved_scene (V3c 0) k S (brighter_scene k S).
Proof.
  destruct S as [em envs oe sh inst mp ins tr fu ig]. constructor; cbn; auto.
  - apply map_ext. intros e. now rewrite moved_brighter.
  - apply map_ext. intros e. now rewrite moved_brighter.
  - apply functional_extensionality. intros n. destruct (oe n); cbn; [now rewrite moved_brighter|reflexivity].
  - intros m u. destruct (mp m u) as [[[p n] d]| | |]; cbn; auto. now rewrite vadd_0.
  - intros m r. rewrite moved_ray_0. apply same_program_0.
Qed.
Lemma displaced_is_moved {M} t (S S' : scene M) : displaced_scene t S S' -> moved_scene t (V3c 1) S S'.
Proof.
  intros (A & B & C & D & E & F & G & H & I & J). constructor; auto.
  - rewrite A. apply map_ext. intros e. now rewrite moved_displaced.
  - rewrite B. apply map_ext. intros e. now rewrite moved_displaced.
  - apply functional_extensionality. intros n. rewrite C. destruct (sc_object_emitter S n); cbn; [now rewrite moved_displaced|reflexivity].
Qed.

Section Moved.
Context {M : Type}.
Variables t k : vec3.
Variables S S' : scene M.
Hypothesis H : moved_scene t k S S'.

Lemma chosen_moved i : chosen_bsdf S' (moved_hit t i) = chosen_bsdf S i.
Proof. unfold chosen_bsdf. rewrite (mv_shader _ _ _ _ H). reflexivity. Qed.
Lemma sc_mat_moved : moved_mat t (sc_mat S) (sc_mat S').
Proof. intros i wi wo. unfold sc_mat. rewrite chosen_moved. reflexivity. Qed.
Lemma sc_sample_moved : moved_sample t k (sc_sample S) (sc_sample S').
Proof. intros i c c' C. unfold sc_sample. rewrite chosen_moved. apply bsdf_moved, C. Qed.
Lemma sc_env_moved : moved_env t k (sc_env S) (sc_env S').
Proof.
  intros r. unfold sc_env. rewrite (mv_envs _ _ _ _ H). change (dir (moved_ray t r)) with (dir r).
  pose proof (env_emission_moved t k (sc_envs S) (dir r)) as G.
  destruct (env_emission (sc_envs S) (dir r)), (env_emission (map _ _) (dir r)); cbn in G; try contradiction; [exact G| | |]; vring.
Qed.
Lemma sc_try_moved i r c c' : same_closure k c c' -> same_program t (same_outcome (same_closure k)) (sc_try S i r c) (sc_try S' (moved_hit t i) (moved_ray t r) c').
Proof.
  intros C. unfold sc_try. rewrite (mv_shader _ _ _ _ H), (mv_emitters _ _ _ _ H), (mv_object _ _ _ _ H), (mv_inst _ _ _ _ H), (mv_inside _ _ _ _ H),
    (mv_fuel _ _ _ _ H), (mv_ignore _ _ _ _ H).
  change (i_mesh (moved_hit t i)) with (i_mesh i). destruct (sc_shader S (i_mesh i)) as [b|th wi me].
  - apply simple_moved; [apply (mv_point _ _ _ _ H)|apply (mv_tr _ _ _ _ H)|exact C].
  - unfold wireframe_evaluate. change (i_bary (moved_hit t i)) with (i_bary i). apply shade_moved; [apply (mv_point _ _ _ _ H)|apply (mv_tr _ _ _ _ H)|exact C].
Qed.
Lemma sc_evaluate_moved : moved_evaluate t k (sc_evaluate S) (sc_evaluate S').
Proof. intros i r c c' C. unfold sc_evaluate. rewrite chosen_moved. apply sp_total; [unfold same_closure in *; cbn; intuition|]. apply sc_try_moved, C. Qed.
Lemma sc_evaluate_in_moved : moved_evaluate_in t k (sc_evaluate_in S) (sc_evaluate_in S').
Proof.
  intros i r md c c' C. unfold sc_evaluate_in. rewrite chosen_moved. apply sp_total; [unfold same_closure in *; cbn; intuition|].
  unfold sc_try_in. rewrite (mv_shader _ _ _ _ H), (mv_emitters _ _ _ _ H), (mv_object _ _ _ _ H), (mv_inst _ _ _ _ H), (mv_inside _ _ _ _ H),
    (mv_fuel _ _ _ _ H), (mv_ignore _ _ _ _ H).
  change (i_mesh (moved_hit t i)) with (i_mesh i). destruct (sc_shader S (i_mesh i)) as [b|th wi me].
  - apply simple_moved; [apply (mv_point _ _ _ _ H)|apply (mv_tr _ _ _ _ H)|exact C].
  - change (i_bary (moved_hit t i)) with (i_bary i). apply shade_moved; [apply (mv_point _ _ _ _ H)|apply (mv_tr _ _ _ _ H)|exact C].
Qed.
Lemma sc_nee_moved : moved_nee t k (sc_nee S) (sc_nee S').
Proof.
  intros a b i md. apply sp_total; [constructor|].
  rewrite (mv_emitters _ _ _ _ H), (mv_inst _ _ _ _ H), (mv_inside _ _ _ _ H), (mv_fuel _ _ _ _ H), (mv_ignore _ _ _ _ H).
  destruct a; [apply eval_all_moved|apply eval_one_moved]; first [apply (mv_point _ _ _ _ H)|apply (mv_tr _ _ _ _ H)].
Qed.

Context {W : Type}.
Variable now : W -> R * W.
Variables hit hit' : W -> ray -> option isect * W.
Variable rnd1 : W -> R * W.
Variable rnd2 : W -> vec2 * W.
Variable nn : nat.
Hypothesis hit_moved : moved_world t hit hit'.
Theorem scene_path_moved n : same_integrator t k (scene_path S W now hit rnd1 rnd2 nn n) (scene_path S' W now hit' rnd1 rnd2 nn n).
Proof. apply path_moved; [exact hit_moved|apply sc_env_moved|apply sc_evaluate_moved|apply sc_mat_moved|apply sc_sample_moved]. Qed.
Theorem scene_whitted_moved n : same_integrator t k (scene_whitted S W now hit rnd1 rnd2 nn n) (scene_whitted S' W now hit' rnd1 rnd2 nn n).
Proof. apply whitted_moved; [exact hit_moved|apply sc_env_moved|apply sc_evaluate_moved|apply sc_mat_moved|apply sc_sample_moved]. Qed.
Theorem scene_volpath_moved boundary ms ms' phase n fuel md : moved_distance t ms ms' ->
  same_integrator t k (scene_volpath S W now hit rnd1 rnd2 boundary ms phase n fuel md) (scene_volpath S' W now hit' rnd1 rnd2 boundary ms' phase n fuel md).
Proof.
  intros D. unfold scene_volpath. apply vol_integrator_moved;
    [exact hit_moved|apply sc_env_moved|apply sc_mat_moved|apply sc_sample_moved|exact D|apply sc_nee_moved|apply sc_evaluate_in_moved].
Qed.
End Moved.
