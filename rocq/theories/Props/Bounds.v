(** C190, C191: how bright a camera sample of the path integrator can be. *)
From Coq Require Import Reals List Bool ZArith Lra Lia.
From Coquelicot Require Import Rbar.
From Verif.Base Require Import Outcome.
From Verif.Model Require Import Vec Frame BBox Warp Clocker Integrators Bsdf Scene Renderer.
From Verif.Spec Require Import IntegratorSpec BoundSpec.
From Verif.Proof Require Import VecLemmas IntegratorProof SceneProof BoundProof.
From Verif.Props Require Integrators.
Import ListNotations.
Open Scope R_scope.

Section Bounds.
Context {M W : Type}.
Variable S : scene M.
Variable now : W -> R * W.
Variable hit : W -> ray -> option isect * W.
Variable rnd1 : W -> R * W.
Variable rnd2 : W -> vec2 * W.
Variable nn : nat.

(** C190: no lights to sample, diffuse surfaces, mirrors and glass of albedo at most 1, glowing objects
    and sky of at most B: a sample with at most n bounces is between 0 and n B in every channel *)
Theorem C190_bounded B n r s v s' : 0 <= B -> sc_emitters S = [] -> (forall m, all_bsdfs plain (sc_shader S m)) -> unit_normals hit ->
  (forall m e d c, sc_object_emitter S m = Some e -> em_evaluate e d = Ok c -> within B c) ->
  (forall d c, env_emission (sc_envs S) d = Ok c -> within B c) ->
  scene_path S W now hit rnd1 rnd2 nn n r s = (Ok v, s') -> within (INR n * B) v.
Proof.
  intros B0 Dark Plain Norm Glow Sky. apply path_Li_bound; [exact B0| |].
  - intros q. unfold sc_env. destruct (env_emission (sc_envs S) (dir q)) eqn:E; [exact (Sky _ _ E)|apply within_0, B0..].
  - intros w r0 i q c c0 Hw Sh L. apply (evaluate_dark S Dark) in L; auto. destruct L as (Sp & Ne & Em & Inv). rewrite dark_sum by exact Inv.
    split.
    + rewrite Ne, vadd_0_r. destruct Em as [->|(e & d & O & V)]; [apply within_0, B0|exact (Glow _ _ _ _ O V)].
    + intros c2 L2. unfold sc_sample in L2. pose proof (chosen_all S plain i Plain) as P.
      apply sample_weight with (i := i) in L2; [| |exact (Norm w r0 i Hw)|exact Sp].
      2: { destruct (chosen_bsdf S i); cbn in P; try contradiction; exact I. }
      destruct L2 as (A1 & A2 & A3 & A4). cbn in A1, A2, A3. rewrite dark_sum in A3 by exact Inv. split; [exact A1|]. split; [exact A2|]. split; [exact A3|].
      intros P0. destruct (A4 P0) as (A5 & A6). split; [exact A5|]. rewrite A6.
      destruct (chosen_bsdf S i); cbn in P |- *; try contradiction; unfold within in *; cbn; repeat split; nra.
Qed.

(** C191: white surfaces, no lights, a sky of the same radiance L everywhere: a sample whose path leaves
    the scene is exactly L, any other is black *)
Theorem C191_furnace L n r s v s' : sc_emitters S = [] -> (forall m, sc_object_emitter S m = None) -> sc_envs S = [EEnv None L] ->
  (forall m, all_bsdfs white (sc_shader S m)) -> unit_normals hit ->
  scene_path S W now hit rnd1 rnd2 nn n r s = (Ok v, s') ->
  exists h, s_log W s' = s_log W s ++ h /\ v = match escape h with Some _ => L | None => V3c 0 end.
Proof.
  intros Dark Unlit Sky White Norm E.
  destruct (path_Li_furnace now hit rnd1 rnd2 (sc_env S) (sc_evaluate S) (sc_mat S) (sc_sample S) nn) with (n := n) (r := r) (s := s) (v := v) (s' := s') as (h & Lg & V).
  - intros w r0 i q c c0 Hw Sh Lf. apply (evaluate_dark S Dark) in Lf; auto. destruct Lf as (Sp & Ne & Em & Inv). rewrite dark_sum by exact Inv.
    split.
    + rewrite Ne, vadd_0_r. destruct Em as [->|(e & d & O & V)]; [reflexivity|]. rewrite Unlit in O. discriminate.
    + intros c2 L2. unfold sc_sample in L2. pose proof (chosen_all S white i White) as P.
      apply sample_weight with (i := i) in L2; [| |exact (Norm w r0 i Hw)|exact Sp].
      2: { destruct (chosen_bsdf S i); cbn in P; try contradiction; exact I. }
      destruct L2 as (A1 & A2 & A3 & A4). cbn in A1, A2, A3. rewrite dark_sum in A3 by exact Inv. split; [exact A1|]. split; [exact A2|]. split; [exact A3|].
      intros P0. destruct (A4 P0) as (A5 & A6). rewrite A6.
      destruct (chosen_bsdf S i); cbn in P |- *; try contradiction; subst; apply vec3_eq; cbn; ring.
  - exact E.
  - exists h. split; [exact Lg|]. rewrite V. unfold sky. destruct (escape h) as [q|]; [|reflexivity].
    unfold sc_env. rewrite Sky. cbn. apply vec3_eq; cbn; ring.
Qed.
End Bounds.
Print Assumptions C190_bounded.
Print Assumptions C191_furnace.

(** a diffuse floor under a sky of 2, and a mirror floor that glows with 5 *)
Definition ex_frame : frame := Fr (V3 1 0 0) (V3 0 1 0) (V3 0 0 1).
Definition ex_floor (w : nat) (r : ray) : option isect * nat :=
  (if Rlt_dec (vz (dir r)) 0 then
     Some (Isect (ray_at r (- vz (org r) / vz (dir r))) (- vz (org r) / vz (dir r)) (V3c (1 / 3)) ex_frame ex_frame 0 false)
   else None, w).
Definition ex_scene (glow : option emitter) (b : bsdf) : scene unit :=
  Scene [] [EEnv None (V3c 2)] (fun _ => glow) (fun _ => Simple b) (fun m => m) (fun _ _ => UB) (fun _ => None) (fun _ _ => QRet (V3c 1)) 3 false.
Definition ex_st : st nat := St nat clk_init 0%nat [].
Definition ex_ray : ray := Ray (V3 0 0 1) (V3 0 0 (-1)) (Finite 0) p_infty.
Definition ex_path glow b n : outcome vec3 * st nat :=
  scene_path (ex_scene glow b) nat (fun w => (0, w)) ex_floor (fun w => (1 / 2, w)) (fun w => (V2 (1 / 2) (1 / 2), w)) 1 n ex_ray ex_st.
Lemma ex_ends glow b n : exists v s', ex_path glow b n = (Ok v, s').
Proof.
  apply Integrators.C55_terminates; [intros c _; reflexivity|discriminate|].
  intros w r i H. unfold ex_floor in H. cbn in H. destruct (Rlt_dec _ _); [|discriminate]. injection H as <-. reflexivity.
Qed.
Lemma ex_normals : unit_normals ex_floor.
Proof.
  intros w r i H. unfold ex_floor in H. cbn in H. destruct (Rlt_dec _ _); [|discriminate]. injection H as <-. repeat split; unfold dot; cbn; ring.
Qed.
Example C190_case : exists v s', ex_path (Some (EMesh 0 (V3c 5))) (Mirror (V3c 1)) 3 = (Ok v, s') /\ within (3 * 5) v.
Proof.
  destruct (ex_ends (Some (EMesh 0 (V3c 5))) (Mirror (V3c 1)) 3) as (v & s' & E). exists v, s'. split; [exact E|].
  replace (3 * 5) with (INR 3 * 5) by (cbn; ring). refine (C190_bounded _ _ _ _ _ _ 5 3 _ _ v s' _ _ _ ex_normals _ _ E).
  - lra.
  - reflexivity.
  - intros m. cbn. unfold within; cbn; lra.
  - intros m e d c H V. injection H as <-. cbn in V. destruct (Rlt_dec _ _); injection V as <-; unfold within; cbn; lra.
  - intros d c V. cbn in V. injection V as <-. unfold within; cbn; lra.
Qed.
Example C191_case : exists v s' h, ex_path None (Diffuse (V3c 1)) 3 = (Ok v, s') /\ s_log nat s' = h /\ v = match escape h with Some _ => V3c 2 | None => V3c 0 end.
Proof.
  destruct (ex_ends None (Diffuse (V3c 1)) 3) as (v & s' & E).
  destruct (C191_furnace (ex_scene None (Diffuse (V3c 1))) _ _ _ _ _ (V3c 2) 3 _ _ v s' eq_refl (fun _ => eq_refl) eq_refl ltac:(intros m; reflexivity) ex_normals E) as (h & L & V).
  exists v, s', h. repeat split; [exact E|exact L|exact V].
Qed.
