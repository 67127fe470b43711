(** C211: the light of several lamps is the sum of their lights. *)
From Coq Require Import Reals List Bool ZArith Lra Lia FunctionalExtensionality.
From Flocq Require Core.Raux.
From Coquelicot Require Import Rbar.
From Verif.Base Require Import Outcome.
From Verif.Model Require Import Vec Frame BBox Clocker Integrators Bsdf Scene Renderer VolPath.
From Verif.Spec Require Import IntegratorSpec SceneSpec PathSpec BoundSpec VolPathSpec ExpectSpec NoiseSpec LitSpec TapeSpec OrderSpec SumSpec.
From Verif.Proof Require Import VecLemmas IntegratorProof SceneProof BoundProof VolPathTheory ExpectProof ExpectScene LitScene TapeProof OrderProof SumProof.
From Verif.Props Require VolPath.
From Verif.Props Require Import Expect Noise Bounce Lamps PathMean.
Import ListNotations.
Open Scope R_scope.

Section Sum.
Context {M B : Type}.
Variable now : B -> R * B.
Variable S : scene M.
(** two lists of lamps *)
Variable L1 L2 : list emitter.
Notation both := (L1 ++ L2).
Variable lines : vec3 -> vec3 -> list isect.
Hypothesis solid : forall r i, scene_hit lines r = Some i -> i_null i = false.
Variable K : nat.
Variable E Bl : R.
Hypothesis lit : lit_scene (with_lights S both) lines K (fun _ _ _ t => QRet (V3c 1, t)) (fun _ _ _ => (V3c 0, 0)) E Bl 0.
Hypothesis near : forall e, In e both -> near_lamp S e.
Hypothesis searches : (0 < sc_fuel S)%nat.
Variable N : nat.
Hypothesis N_pos : (0 < N)%nat.
Variable get : vec3 -> R.
Hypothesis ch : channel get.
Variable nn : nat.
Notation hit := (scene_hit lines).
Notation path L n r := (scene_path (with_lights S L) (tape * B) (own_now now) (own_hit (fun l x => (scene_hit lines x, l))) (own_rnd one_of) (own_rnd two_of) (Datatypes.S nn) n r).
(** the light that arrives along a ray, over at most n vertices, when only the lamps L are lit *)
Notation light L n r := (arrives_there hit (grid1 N) (grid2 N) (sc_env S) (sc_evaluate (with_lights S L)) (sc_mat S) (sc_sample S) get n r (closure_init false true (V3c 0))).
Notation left_over := (SumSpec.left_over N).
Notation U := (left_over both + left_over L1 + left_over L2).

Lemma sub_lamps_ok L : (forall e, In e L -> In e both) -> (length L <= length both)%nat ->
  lamps_ok S hit Bl L /\ lit_scene (with_lights S L) lines K (fun _ _ _ t => QRet (V3c 1, t)) (fun _ _ _ => (V3c 0, 0)) E Bl 0.
Proof.
  intros Sub Len. destruct lit as [Pos Plain Norm Glow Sky La Su Ev Cl Med Pha Rg Few].
  assert (Ok0 : lamps_ok S hit Bl both).
  { split; [|split; [exact La|exact Su]]. apply solid_steady; [exact solid|exact searches|]. intros e Ie. split; [apply La, Ie|apply near, Ie]. }
  assert (Ok1 : lamps_ok S hit Bl L) by (apply (fewer S hit N N_pos Bl (proj1 (proj2 Pos)) L1 L2 Ok0); assumption).
  split; [exact Ok1|]. destruct Ok1 as (_ & La1 & Su1). constructor; try assumption.
  intros m f r i wt _ H. apply hleaf_leaf, leaf_ret_inv in H. subst. cbn. intros X; lra.
Qed.
Lemma sub1 : forall e, In e L1 -> In e both. Proof. intros e Ie. apply in_or_app. now left. Qed.
Lemma sub2 : forall e, In e L2 -> In e both. Proof. intros e Ie. apply in_or_app. now right. Qed.
Lemma len1 : (length L1 <= length both)%nat. Proof. rewrite app_length. lia. Qed.
Lemma len2 : (length L2 <= length both)%nat. Proof. rewrite app_length. lia. Qed.
Lemma ev_all L : ev S L = sc_evaluate (with_lights S L).
Proof. do 3 (apply functional_extensionality; intros ?). symmetry. apply evaluate_none. Qed.

(** C211: with all lamps lit, plus with none, is what the two lists of lamps give separately *)
Theorem C211_light n r : Rabs (light both n r + light [] n r - light L1 n r - light L2 n r) <= INR n * (U * Bl).
Proof.
  destruct (sub_lamps_ok both (fun e I => I) (le_n _)) as (Ok0 & _). destruct lit as [Pos Plain Norm Glow Sky La Su Ev Cl Med Pha Rg Few].
  pose proof (adds S hit N N_pos get ch Bl (proj1 (proj2 Pos)) Cl Plain (fun r i H => Norm tt r i H) L1 L2 Ok0 n r (closure_init false true (V3c 0)) (conj eq_refl eq_refl)) as H.
  rewrite !ev_all in H. exact H.
Qed.
(** exactly so when the random numbers are dealt out evenly *)
Theorem C211_exact n r : (forall L, In L [both; L1; L2] -> L <> [] -> (N mod length L = 0)%nat) -> light both n r + light [] n r = light L1 n r + light L2 n r.
Proof.
  intros D. assert (Z : forall L, In L [both; L1; L2] -> left_over L = 0).
  { intros L IL. unfold SumSpec.left_over. destruct L as [|e L']; [reflexivity|]. unfold uneven. rewrite D by (try exact IL; discriminate). cbn [INR]. unfold Rdiv. ring. }
  pose proof (C211_light n r) as H. rewrite !Z in H by (cbn; auto). rewrite !Rplus_0_r, Rmult_0_l, Rmult_0_r in H. apply Flocq.Core.Raux.Rabs_le_inv in H. lra.
Qed.
(** a lamp never takes light away *)
Theorem C211_more n r : light [] n r <= light L1 n r /\ light L1 n r <= light both n r + INR n * (U * Bl).
Proof.
  destruct (sub_lamps_ok L1 sub1 len1) as (Ok1 & _). destruct (sub_lamps_ok L2 sub2 len2) as (Ok2 & _). pose proof (C211_light n r) as H. destruct lit as [Pos Plain Norm Glow Sky La Su Ev Cl Med Pha Rg Few].
  pose proof (more S hit N N_pos get ch Bl (proj1 (proj2 Pos)) Cl Plain (fun r i H => Norm tt r i H) L1 Ok1 n r (closure_init false true (V3c 0)) (conj eq_refl eq_refl)) as A1.
  pose proof (more S hit N N_pos get ch Bl (proj1 (proj2 Pos)) Cl Plain (fun r i H => Norm tt r i H) L2 Ok2 n r (closure_init false true (V3c 0)) (conj eq_refl eq_refl)) as A2.
  rewrite !ev_all in *. split; [exact A1|]. apply Flocq.Core.Raux.Rabs_le_inv in H. lra.
Qed.
(** the means of the samples of the path integrator *)
Theorem C211_mean n r b : exists J, forall j clk log, (J <= j)%nat -> idle clk ->
  let average L := over_tapes N j (fun t => value get (path L n r (St _ clk (t, b) log))) in
  Rabs (average both + average [] - average L1 - average L2)
    <= INR n * (U * Bl) + 2 * (1 / 10000 * (INR n * (E + Bl)) + 1 / INR N * (E + Bl) * (INR n * INR n)).
Proof.
  destruct (sub_lamps_ok L1 sub1 len1) as (_ & Li1). destruct (sub_lamps_ok L2 sub2 len2) as (_ & Li2). destruct (sub_lamps_ok [] ltac:(intros e []) ltac:(cbn; lia)) as (_ & Li0).
  destruct (C203_scenes now (with_lights S both) lines solid K E Bl lit N N_pos get ch nn n r b) as (J1 & A1).
  destruct (C203_scenes now (with_lights S []) lines solid K E Bl Li0 N N_pos get ch nn n r b) as (J2 & A2).
  destruct (C203_scenes now (with_lights S L1) lines solid K E Bl Li1 N N_pos get ch nn n r b) as (J3 & A3).
  destruct (C203_scenes now (with_lights S L2) lines solid K E Bl Li2 N N_pos get ch nn n r b) as (J4 & A4).
  exists (Nat.max (Nat.max J1 J2) (Nat.max J3 J4)). intros j clk log Hj I. cbv zeta.
  specialize (A1 j clk log ltac:(lia) I). specialize (A2 j clk log ltac:(lia) I). specialize (A3 j clk log ltac:(lia) I). specialize (A4 j clk log ltac:(lia) I).
  pose proof (C211_light n r) as H. apply Flocq.Core.Raux.Rabs_le_inv in H. 
  change (sc_env (with_lights S both)) with (sc_env S) in A1. change (sc_env (with_lights S [])) with (sc_env S) in A2. change (sc_env (with_lights S L1)) with (sc_env S) in A3. change (sc_env (with_lights S L2)) with (sc_env S) in A4.
  change (sc_mat (with_lights S both)) with (sc_mat S) in A1. change (sc_mat (with_lights S [])) with (sc_mat S) in A2. change (sc_mat (with_lights S L1)) with (sc_mat S) in A3. change (sc_mat (with_lights S L2)) with (sc_mat S) in A4.
  change (sc_sample (with_lights S both)) with (sc_sample S) in A1. change (sc_sample (with_lights S [])) with (sc_sample S) in A2. change (sc_sample (with_lights S L1)) with (sc_sample S) in A3. change (sc_sample (with_lights S L2)) with (sc_sample S) in A4.
  apply Rabs_le. lra.
Qed.
End Sum.
Print Assumptions C211_light.
Print Assumptions C211_exact.
Print Assumptions C211_more.
Print Assumptions C211_mean.

(** the floor below two lamps of powers p and p' is as bright as below one of power p + p' *)
Definition lamp (p : R) : emitter := EPoint (V3c p) (V3 0 0 1).
Lemma lamps_lit a p p' : 0 <= a <= 1 -> 0 <= p -> 0 <= p' ->
  lit_scene (with_lights (floor_scene a 0) ([lamp p] ++ [lamp p'])) (VolPath.sheets floor) 1 (fun _ _ _ t => QRet (V3c 1, t)) (fun _ _ _ => (V3c 0, 0)) 0 (2 * ((p + p') / (4 * PI))) 0.
Proof.
  intros A P P'. pose proof PI_RGT_0 as Pi. assert (I0 : 0 < / (4 * PI)) by (apply Rinv_0_lt_compat; lra).
  pose proof (floor_lit a (p + p') A ltac:(lra)) as [Pos Plain Norm Glow Sky La Su Ev Cl Med Pha Rg Few].
  pose proof (floor_lit a p A P) as F1. pose proof (floor_lit a p' A P') as F2.
  constructor; try assumption.
  - unfold Rdiv. repeat split; [lra|apply Rmult_le_pos; [lra|apply Rmult_le_pos; lra]|lra].
  - intros e [<-|[<-|[]]]; reflexivity.
  - intros r i H e u s Ie Sa P0. cbn [with_lights sc_emitters length app] in *. replace (2 * ((p + p') / (4 * PI)) / INR 2) with ((p + p') / (4 * PI)) by (cbn; field; lra).
    assert (G : within (p / (4 * PI)) (vdiv (es_color s) (es_pdf s)) \/ within (p' / (4 * PI)) (vdiv (es_color s) (es_pdf s))).
    { destruct Ie as [<-|[<-|[]]]; [left; pose proof (ls_surfaces _ _ _ _ _ _ _ _ F1 r i H _ u s (or_introl eq_refl) Sa P0) as W|right; pose proof (ls_surfaces _ _ _ _ _ _ _ _ F2 r i H _ u s (or_introl eq_refl) Sa P0) as W];
      cbn [floor_scene sc_emitters length INR] in W; unfold Rdiv in *; rewrite Rinv_1, Rmult_1_r in W; exact W. }
    unfold Rdiv in *. destruct G as [G|G]; apply within_le with (2 := G); nra.
  - intros m f r i wt _ H. apply hleaf_leaf, leaf_ret_inv in H. subst. cbn. intros X; lra.
Qed.
Example C211_case a p p' n : 0 <= a <= 1 -> 0 <= p -> 0 <= p' -> let S := floor_scene a 0 in let N := Nat.pow 2 23 in
  (forall e, In e ([lamp p] ++ [lamp p']) -> near_lamp S e) /\
  (forall L, In L [[lamp p] ++ [lamp p']; [lamp p]; [lamp p']] -> L <> [] -> (N mod length L = 0)%nat) /\
  let light L := arrives_there (scene_hit (VolPath.sheets floor)) (grid1 N) (grid2 N) (sc_env S) (sc_evaluate (with_lights S L)) (sc_mat S) (sc_sample S) vx (Datatypes.S n) floor_ray (closure_init false true (V3c 0)) in
  light [] = 0 /\ light [lamp p; lamp p'] = a / PI * ((p + p') / (4 * PI)).
Proof.
  intros A P P' S N. assert (N0 : (0 < N)%nat) by (unfold N; apply Nat.neq_0_lt_0, Nat.pow_nonzero; discriminate).
  assert (Ne : forall p, forall q u, exists s d, sample_nee (sc_mesh_point S) (lamp p) q u = Ok s /\ es_sqr_dist s = Some d) by (intros; do 2 eexists; split; reflexivity).
  assert (Nr : forall x y e, In e ([lamp x] ++ [lamp y]) -> near_lamp S e) by (intros x y e [<-|[<-|[]]] q u; apply Ne).
  assert (D : forall x y L, In L [[lamp x] ++ [lamp y]; [lamp x]; [lamp y]] -> L <> [] -> (N mod length L = 0)%nat).
  { intros x y L [<-|[<-|[<-|[]]]] _; cbn [length app]; [unfold N; rewrite Nat.pow_succ_r', Nat.mul_comm; apply Nat.mod_mul; discriminate|apply Nat.mod_1_r..]. }
  split; [apply Nr|]. split; [apply D|]. intros light.
  assert (One : forall x, light [lamp x] = a / PI * (x / (4 * PI))).
  { intros x. rewrite <- (floor_light a x N n (Datatypes.S n) N0 (Datatypes.S (Datatypes.S n))) by lia. symmetry. apply (arrives_solid (M := unit)); [exact floor_solid|lia]. }
  assert (Dark : light [] = 0).
  { pose proof (C211_more S [lamp 0] [lamp 0] (VolPath.sheets floor) floor_solid 1 0 _ (lamps_lit a 0 0 A (Rle_refl 0) (Rle_refl 0)) (Nr 0 0) ltac:(cbn; lia) N N0 vx (or_introl eq_refl) (Datatypes.S n) floor_ray) as (H & _).
    change (light [] <= light [lamp 0]) in H. rewrite One in H. unfold Rdiv in H. rewrite Rmult_0_l, Rmult_0_r in H.
    destruct (sub_lamps_ok S [lamp 0] [lamp 0] (VolPath.sheets floor) floor_solid 1 0 _ (lamps_lit a 0 0 A (Rle_refl 0) (Rle_refl 0)) (Nr 0 0) ltac:(cbn; lia) N N0 [] ltac:(intros e []) ltac:(cbn; lia)) as (_ & Li).
    pose proof (C199_light _ _ _ _ _ _ _ _ _ _ _ _ false (Datatypes.S n) _ _ vx (Datatypes.S (Datatypes.S n)) (Datatypes.S n) floor_ray (closure_init false true (V3c 0)) None true (C199_grid N N0) (or_introl eq_refl)
      (lamps_gentle _ _ _ (fun _ => None) _ _ _ _ _ Li) (ge_start _ _ _ _ _ _ _ _ _ _ _ _ _ (lamps_gentle _ _ _ (fun _ => None) _ _ _ _ _ Li))) as (G & _).
    rewrite arrives_solid in G by (try exact floor_solid; lia).
    assert (Q : (fun i r c => sc_evaluate_in (with_lights S []) i r None c) = sc_evaluate (with_lights S [])) by (do 3 (apply functional_extensionality; intros ?); symmetry; apply evaluate_none).
    rewrite Q in G. change (0 <= light []) in G. lra. }
  split; [exact Dark|].
  pose proof (C211_exact S [lamp p] [lamp p'] (VolPath.sheets floor) floor_solid 1 0 _ (lamps_lit a p p' A P P') (Nr p p') ltac:(cbn; lia) N N0 vx (or_introl eq_refl) (Datatypes.S n) floor_ray (D p p')) as H.
  change (light [lamp p; lamp p'] + light [] = light [lamp p] + light [lamp p']) in H. rewrite !One, Dark in H. unfold Rdiv in *. lra.
Qed.
