(** C213: black objects only take light away. *)
From Coq Require Import Reals List Bool ZArith Lra Lia FunctionalExtensionality.
From Coquelicot Require Import Rbar.
From Verif.Base Require Import Outcome.
From Verif.Model Require Import Vec Frame BBox Clocker Integrators Bsdf Scene Renderer VolPath.
From Verif.Spec Require Import IntegratorSpec SceneSpec PathSpec BoundSpec VolPathSpec ExpectSpec NoiseSpec LitSpec TapeSpec OrderSpec BlackSpec.
From Verif.Proof Require Import VecLemmas IntegratorProof SceneProof BoundProof VolPathTheory ExpectProof ExpectScene LitScene TapeProof OrderProof SumProof BlackProof.
From Verif.Props Require VolPath.
From Verif.Props Require Import Expect Noise Bounce Lamps PathMean.
Import ListNotations.
Open Scope R_scope.

(** a ray meets what it met before, or one of the black objects *)
Lemma objects_blackened {M} (S : scene M) lines lines' : more_objects S lines lines' -> blackened S (scene_hit lines) (scene_hit lines').
Proof.
  intros H r. unfold scene_hit, first_in. induction (H (org r) (dir r)) as [|i l l' _ IH|i l l' Nu B _ IH]; [now left| |].
  - cbn [find]. destruct (_ && _)%bool; [now left|exact IH].
  - cbn [find]. destruct (_ && _)%bool; [right; exists i; auto|exact IH].
Qed.
Lemma objects_solid {M} (S : scene M) lines lines' : more_objects S lines lines' ->
  (forall r i, scene_hit lines r = Some i -> i_null i = false) -> forall r i, scene_hit lines' r = Some i -> i_null i = false.
Proof. intros H So r i Hi. destruct (objects_blackened S lines lines' H r) as [E|(j & E & Nj & _)]; rewrite E in Hi; [exact (So r i Hi)|]. injection Hi as <-. exact Nj. Qed.

Section Black.
Context {M B : Type}.
Variable now : B -> R * B.
Variable S : scene M.
(** the surfaces of the scene, and those of the scene with the black objects *)
Variable lines lines' : vec3 -> vec3 -> list isect.
Hypothesis more : more_objects S lines lines'.
Hypothesis solid : forall r i, scene_hit lines r = Some i -> i_null i = false.
Variable K : nat.
Variable E Bl : R.
Hypothesis lit : lit_scene S lines K (fun _ _ _ t => QRet (V3c 1, t)) (fun _ _ _ => (V3c 0, 0)) E Bl 0.
Variable N : nat.
Hypothesis N_pos : (0 < N)%nat.
Variable get : vec3 -> R.
Hypothesis ch : channel get.
(** the light that arrives along a ray, over at most n vertices *)
Notation light lines n r := (arrives_there (scene_hit lines) (grid1 N) (grid2 N) (sc_env S) (sc_evaluate S) (sc_mat S) (sc_sample S) get n r (closure_init false true (V3c 0))).

(** C213: with the black objects less light arrives, along every ray *)
Theorem C213_light n r : light lines' n r <= light lines n r.
Proof.
  assert (Q : shine S = sc_evaluate S) by (do 3 (apply functional_extensionality; intros ?); symmetry; apply evaluate_none).
  pose proof (lamps_gentle S lines K (fun _ => None) _ _ _ _ _ lit) as Ge. destruct lit as [Pos Plain Norm Glow Sky La Su Ev Cl Med Pha Rg Few].
  rewrite <- Q. apply (darker S (scene_hit lines) (scene_hit lines') solid (objects_blackened S lines lines' more) N N_pos get ch La Bl (proj1 (proj2 Pos)) Cl La Plain (fun r i H => Norm tt r i H) Su).
  2: split; reflexivity.
  clear n r. intros n r c (Al & Sh).
  pose proof (C199_light _ _ _ _ _ _ _ _ _ _ _ _ false (Datatypes.S n) _ _ get (Datatypes.S n) n r c None true (C199_grid N N_pos) ch Ge) as G.
  rewrite arrives_solid in G by (try exact solid; lia). apply G. split; [exact Al|]. rewrite Sh. split; [cbn; lia|constructor].
Qed.
(** the means of the samples of the path integrator *)
Variable K' : nat.
Variable Bl' : R.
Hypothesis lit' : lit_scene S lines' K' (fun _ _ _ t => QRet (V3c 1, t)) (fun _ _ _ => (V3c 0, 0)) E Bl' 0.
Variable nn : nat.
Notation path lines n r := (scene_path S (tape * B) (own_now now) (own_hit (fun l x => (scene_hit lines x, l))) (own_rnd one_of) (own_rnd two_of) (Datatypes.S nn) n r).
Theorem C213_mean n r b : exists J, forall j clk log, (J <= j)%nat -> idle clk ->
  let average lines := over_tapes N j (fun t => value get (path lines n r (St _ clk (t, b) log))) in
  average lines' <= average lines + (1 / 10000 * (INR n * (E + Bl)) + 1 / INR N * (E + Bl') * (INR n * INR n)).
Proof.
  destruct (C203_scenes now S lines solid K E Bl lit N N_pos get ch nn n r b) as (J1 & A1).
  destruct (C203_scenes now S lines' (objects_solid S lines lines' more solid) K' E Bl' lit' N N_pos get ch nn n r b) as (J2 & A2).
  exists (Nat.max J1 J2). intros j clk log Hj I. cbv zeta. specialize (A1 j clk log ltac:(lia) I). specialize (A2 j clk log ltac:(lia) I).
  pose proof (C213_light n r) as H. lra.
Qed.
End Black.
Print Assumptions C213_light.
Print Assumptions C213_mean.

(** below a sky of brightness s, on a floor that reflects the part a: a black ceiling hides the sky *)
Definition yard (a s : R) : scene unit :=
  Scene [] [EEnv None (V3c s)] (fun _ => None) (fun m => Simple (Diffuse (V3c (if (m =? 0)%nat then a else 0)))) (fun m => m) (fun _ _ => UB) (fun _ => None) (fun _ _ => QRet (V3c 1)) 3 false.
Definition roofed : list (nat * R * R * bool) := [(0%nat, 0, 1, false); (1%nat, 1, -1, false)].
Definition up_ray : ray := Ray (V3 0 0 (1 / 2)) (V3 0 0 1) (Finite Epsilon) p_infty.
Lemma yard_lit a s l : 0 <= a <= 1 -> 0 <= s -> (forall m z n b, In (m, z, n, b) l -> n = 1 \/ n = -1) ->
  lit_scene (yard a s) (VolPath.sheets l) (length l) (fun _ _ _ t => QRet (V3c 1, t)) (fun _ _ _ => (V3c 0, 0)) s 0 0.
Proof.
  intros A S0 Up. assert (Z : forall b, 0 <= b -> within b (V3c 0)) by (intros b Hb; unfold within; cbn; lra).
  assert (Sh : forall o d i, In i (VolPath.sheets l o d) -> exists n, (n = 1 \/ n = -1) /\ i_s i = Fr (V3 1 0 0) (V3 0 1 0) (V3 0 0 n)).
  { intros o d i H. unfold VolPath.sheets in H. assert (G : exists k, In k l /\ VolPath.sheet o d k = i).
    { destruct (Rlt_dec 0 _); [|destruct (Rlt_dec _ 0); [|destruct H]]; apply in_map_iff in H as (k & <- & H); exists k; split; try reflexivity; [exact H|apply in_rev, H]. }
    destruct G as ([[[m z] n] b] & I & <-). exists n. split; [exact (Up m z n b I)|reflexivity]. }
  constructor.
  - lra.
  - intros m. cbn. unfold within; cbn. destruct (m =? 0)%nat; lra.
  - intros w r i H. cbn in H. unfold scene_hit, first_in in H. apply find_some in H as (H & _). apply Sh in H as (n & Hn & ->). cbn. unfold dot; cbn. destruct Hn as [->| ->]; lra.
  - intros m e d c X. discriminate.
  - intros d c X. cbn in X. injection X as <-. unfold within; cbn. lra.
  - intros e [].
  - intros r i _ e u t [].
  - intros m f r i wt _ _ _ e u t [].
  - intros m r t H. apply leaf_ret_inv in H. subst. unfold within; cbn; lra.
  - intros m f r t wt H. apply hleaf_leaf, leaf_ret_inv in H. subst. unfold within; cbn; lra.
  - intros m w u. cbn. lra.
  - apply VolPath.sheets_rigid.
  - intros p d. unfold VolPath.sheets. destruct (Rlt_dec 0 _); [|destruct (Rlt_dec _ 0)]; rewrite ?map_length, ?rev_length; cbn; lia.
Qed.
Example C213_case a s N n : 0 <= a <= 1 -> 0 <= s -> (0 < N)%nat ->
  more_objects (yard a s) (VolPath.sheets floor) (VolPath.sheets roofed) /\
  lit_scene (yard a s) (VolPath.sheets floor) 1 (fun _ _ _ t => QRet (V3c 1, t)) (fun _ _ _ => (V3c 0, 0)) s 0 0 /\
  lit_scene (yard a s) (VolPath.sheets roofed) 2 (fun _ _ _ t => QRet (V3c 1, t)) (fun _ _ _ => (V3c 0, 0)) s 0 0 /\
  let light lines := arrives_there (scene_hit lines) (grid1 N) (grid2 N) (sc_env (yard a s)) (sc_evaluate (yard a s)) (sc_mat (yard a s)) (sc_sample (yard a s)) vx (Datatypes.S n) up_ray (closure_init false true (V3c 0)) in
  light (VolPath.sheets floor) = s /\ light (VolPath.sheets roofed) = 0.
Proof.
  intros A S0 N0. split; [|split; [|split]].
  - intros o d. unfold VolPath.sheets, floor, roofed. destruct (Rlt_dec 0 _); [|destruct (Rlt_dec _ 0); [|constructor]]; cbn [map rev app].
    + constructor. constructor; [reflexivity|split; reflexivity|constructor].
    + constructor; [reflexivity|split; reflexivity|]. constructor. constructor.
  - apply (yard_lit a s floor A S0). intros m z k b [[= <- <- <- <-]|[]]. now left.
  - apply (yard_lit a s roofed A S0). intros m z k b [[= <- <- <- <-]|[[= <- <- <- <-]|[]]]; [now left|now right].
  - assert (H1 : scene_hit (VolPath.sheets floor) up_ray = None).
    { unfold scene_hit, first_in, VolPath.sheets, floor, up_ray. cbn [org dir rnear rfar vz]. destruct (Rlt_dec 0 1); [|lra]. cbn -[Rbar_leb].
      replace (Rbar_leb (Finite Epsilon) _) with false; [reflexivity|]. symmetry. apply not_true_iff_false. rewrite leb_iff. cbn. unfold Epsilon. lra. }
    assert (H2 : exists i, scene_hit (VolPath.sheets roofed) up_ray = Some i /\ black (yard a s) i).
    { unfold scene_hit, first_in, VolPath.sheets, roofed, up_ray. cbn [org dir rnear rfar vz]. destruct (Rlt_dec 0 1); [|lra]. cbn -[Rbar_leb].
      replace (Rbar_leb (Finite Epsilon) (Finite ((0 - 1 / 2) / 1))) with false by (symmetry; apply not_true_iff_false; rewrite leb_iff; cbn; unfold Epsilon; lra).
      replace (Rbar_leb (Finite Epsilon) (Finite ((1 - 1 / 2) / 1))) with true by (symmetry; apply leb_iff; cbn; unfold Epsilon; lra).
      replace (Rbar_leb (Finite ((1 - 1 / 2) / 1)) p_infty) with true by (symmetry; apply leb_iff; exact I). cbn [andb]. eexists. split; [reflexivity|split; reflexivity]. }
    destruct H2 as (i & H2 & Bi). split.
    + cbn [arrives_there]. rewrite H1. cbn. lra.
    + assert (Q : shine (yard a s) = sc_evaluate (yard a s)) by (do 3 (apply functional_extensionality; intros ?); symmetry; apply evaluate_none).
      rewrite <- Q. cbn [arrives_there]. rewrite H2. cbv zeta. apply (black_vertex (yard a s) N N0 vx (or_introl eq_refl) (scene_hit (VolPath.sheets roofed)) n i up_ray _ _ Bi); reflexivity.
Qed.
