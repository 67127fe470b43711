(** C184, C185: the sandbox integrator. *)
From Coq Require Import Reals List Bool Lia Lra String.
From Coquelicot Require Import Rbar Coquelicot.
From Verif.Base Require Import Outcome.
From Verif.Model Require Import Vec Frame BBox Warp Clocker Integrators Bsdf Scene Phase VolPath Sandbox.
From Verif.Spec Require Import LinAlgSpec IntegratorSpec PathSpec SceneSpec VolPathSpec.
From Verif.Proof Require Import VecLemmas IntegratorProof HistoryProof EstimateProof SceneProof VolPathProof VolPathTheory.
From Verif.Props Require Integrators.
From Verif.Props Require Import Lighting VolPath.
Import ListNotations.
Open Scope R_scope.

(** the radiance and the remaining random numbers of a run *)
Definition seen {A} (x : option (outcome (vec3 * A) * list R * list vec2)) : option (outcome vec3 * list R * list vec2) :=
  option_map (fun x => let '(o, us, vs) := x in (bind o (fun vh => Ok (fst vh)), us, vs)) x.

Section Claims.
Context {M : Type}.
Variable boundary : nat -> option (option M * option M).
Variable boundary_of : nat -> option (option (option M)).
Variable med_sample : M -> option bool -> ray -> R -> query (vec3 * R).
Variable phase_sample : M -> vec3 -> vec2 -> vec3 * R.
Variable nee_media : bool -> bool -> isect -> option M -> query (list emitter_eval).
Variable ev : isect -> ray -> option M -> closure -> query closure.
Variable mat : isect -> vec3 -> vec3 -> vec3.
Variable sample : isect -> closure -> query closure.
Notation sandbox := (sandbox_Li M boundary_of med_sample phase_sample nee_media ev mat sample).
Notation one_bounce fuel cam := (vol_Li M (fun _ => V3c 0) boundary med_sample phase_sample nee_media ev mat sample false 1 fuel None cam).

Lemma seen_none {A} (x : option (outcome (vec3 * A) * list R * list vec2)) : x = None -> seen x = None.
Proof. intros ->. reflexivity. Qed.
Lemma one_nonzero : ~ isZero (V3c 1).
Proof. apply gray_nonzero. lra. Qed.
Lemma surface_same hit fuel beta r md cl surf i h us vs : (0 < fuel)%nat ->
  reset_closure cl (isect_toLocal i (vneg (dir r))) = reset_closure (closure_init false true (V3c 0)) (isect_toLocal i (vneg (dir r))) -> i_null i = false ->
  seen (play hit (sb_surface M ev mat sample beta r md i) us vs) =
  seen (play hit (arrive M boundary ev mat sample false 1 (vol_loop M (fun _ => V3c 0) boundary med_sample phase_sample nee_media ev mat sample false 1 fuel) 0 (V3c 0) beta r cl md surf i h) us vs).
Proof.
  intros F C N. unfold arrive. rewrite N. unfold sb_surface, at_surface. rewrite C, !play_bind.
  destruct (play hit (ev i r md _) us vs) as [[[c us1] vs1]|]; [|reflexivity]. cbn [play]. destruct us1 as [|u us1]; [reflexivity|].
  destruct (Rgt_dec u _); [reflexivity|]. rewrite !play_bind. destruct (play hit (sample i _) us1 vs1) as [[[c2 us2] vs2]|]; [|reflexivity].
  destruct (Req_EM_T _ _); [reflexivity|]. destruct fuel; [lia|]. reflexivity.
Qed.

(** C184: before a solid surface, or the void, the sandbox shows what the volumetric path integrator
    shows with one bounce in a dark environment *)
Theorem C184_solid hit fuel cam us vs : (2 <= fuel)%nat -> (forall i, hit cam = Some i -> i_null i = false) ->
  seen (play hit (sandbox cam) us vs) = seen (play hit (one_bounce fuel cam) us vs).
Proof.
  intros F H. destruct fuel as [|fuel]; [lia|]. unfold sandbox_Li, vol_Li. cbn [vol_loop].
  destruct (isZero_dec (V3c 1)) as [Z|_]; [exfalso; exact (one_nonzero Z)|]. cbn [play]. destruct (hit cam) as [i|] eqn:E.
  - rewrite (H i eq_refl). unfold traverse. apply surface_same; [lia|reflexivity|apply H; reflexivity].
  - cbn. repeat f_equal. apply vec3_eq; cbn; lra.
Qed.
(** it does the same for a shape with a medium inside, entered from outside, in front of a solid surface *)
Theorem C184_medium hit fuel cam i j m outside us vs : (3 <= fuel)%nat -> hit cam = Some i -> i_null i = true ->
  boundary_of (i_mesh i) = Some (Some (Some m)) -> boundary (i_mesh i) = Some (outside, Some m) -> dot (dir cam) (fn (i_s i)) < 0 ->
  hit (Ray (i_p i) (dir cam) (Finite (1 / 1000)) p_infty) = Some j -> i_null j = false ->
  seen (play hit (sandbox cam) us vs) = seen (play hit (one_bounce fuel cam) us vs).
Proof.
  intros F H N Bo Bd D H2 N2. destruct fuel as [|fuel]; [lia|]. unfold sandbox_Li, vol_Li. cbn [vol_loop].
  destruct (isZero_dec (V3c 1)) as [Z|_]; [exfalso; exact (one_nonzero Z)|]. cbn [play]. rewrite H, N, Bo. cbn [play]. unfold Epsilon. rewrite H2.
  cbn [traverse]. unfold arrive. rewrite N. unfold at_boundary. destruct fuel as [|fuel]; [lia|]. cbn [vol_loop].
  destruct (isZero_dec (V3c 1)) as [Z|_]; [exfalso; exact (one_nonzero Z)|]. cbn [play]. unfold Epsilon. rewrite H2.
  replace (cross_boundary M boundary cam i None) with (Some m).
  2:{ unfold cross_boundary. rewrite Bd. destruct (Rle_dec _ _) as [X|X]; [|reflexivity]. exfalso. unfold isect_toLocal, toLocal, dot in X. cbn in X. unfold dot in D. lra. }
  cbn [traverse andb]. rewrite !play_bind. destruct (play hit (med_sample m None _ _) us vs) as [[[[w t] us1] vs1]|]; [|reflexivity]. cbn [fst snd].
  destruct (Rlt_dec t (i_t j)) as [L|L].
  - unfold sb_scatter, scatter. rewrite !play_bind. unfold boundary_closure. rewrite Bd. cbn [c_all set_wi closure_init].
    destruct (play hit (nee_media _ _ _ _) us1 vs1) as [[[l us2] vs2]|]; [|reflexivity]. cbn [play]. destruct vs2 as [|s vs2]; [reflexivity|].
    destruct (phase_sample m _ s) as [wi ph]. cbn [play]. destruct us2 as [|u us2]; [reflexivity|]. destruct (Rgt_dec u _); [reflexivity|].
    destruct fuel; [lia|]. reflexivity.
  - rewrite N2. apply surface_same; [lia| |exact N2]. unfold boundary_closure. rewrite Bd. reflexivity.
Qed.
(** the value before a solid surface: emitted light and the light of the unblocked light samples *)
Theorem C184_direct_light hit cam i us vs o us' vs' : keeps_light sample -> hit cam = Some i -> i_null i = false ->
  seen (play hit (sandbox cam) us vs) = Some (o, us', vs') -> exists c, leaf (ev i cam None (reset_closure (closure_init false true (V3c 0)) (isect_toLocal i (vneg (dir cam))))) c /\
  o = Ok (vadd (c_emission c) (vadd (c_nee c) (IntegratorSpec.vsum (map (fun e => vmul (e_throughput e) (mat i (c_wi c) (normalized (e_dir e)))) (filter e_valid (c_shadow c)))))).
Proof.
  intros K H N P. unfold sandbox_Li in P. cbn [play] in P. rewrite H, N in P. unfold sb_surface in P. rewrite play_bind in P.
  destruct (play hit (ev i cam None _) us vs) as [[[c us1] vs1]|] eqn:E; [|discriminate]. apply play_leaf in E. exists c. split; [exact E|].
  set (total := vadd (c_emission c) _).
  assert (T : forall c', c_emission c' = c_emission c -> c_nee c' = shadow_sum (mat i) (c_wi c) (c_shadow c) (c_nee c) ->
     vadd (V3c 0) (vmul (V3c 1) (vadd (c_emission c') (c_nee c'))) = total /\ vadd (V3c 0) (vmul (V3c 1) (vadd (c_nee c') (c_emission c'))) = total).
  { intros c' -> ->. assert (S : forall l n, shadow_sum (mat i) (c_wi c) l n = vadd n (IntegratorSpec.vsum (map (fun e => vmul (e_throughput e) (mat i (c_wi c) (normalized (e_dir e)))) (filter e_valid l)))).
    { induction l as [|e l IH]; intros n; cbn [shadow_sum filter]; [cbn; apply vec3_eq; cbn; lra|]. rewrite IH. destruct (e_valid e); [|reflexivity].
      cbn [map]. unfold IntegratorSpec.vsum at 2. cbn [fold_right]. fold (IntegratorSpec.vsum (map (fun e0 => vmul (e_throughput e0) (mat i (c_wi c) (normalized (e_dir e0)))) (filter e_valid l))). generalize (IntegratorSpec.vsum (map (fun e0 => vmul (e_throughput e0) (mat i (c_wi c) (normalized (e_dir e0)))) (filter e_valid l))).
      intros x. apply vec3_eq; cbn; ring. }
    rewrite S. unfold total. generalize (IntegratorSpec.vsum (map (fun e => vmul (e_throughput e) (mat i (c_wi c) (normalized (e_dir e)))) (filter e_valid (c_shadow c)))). intros x. split; apply vec3_eq; cbn; ring. }
  cbn [play] in P. destruct us1 as [|u us1]; [discriminate|]. destruct (Rgt_dec u _).
  - cbn in P. injection P as <- _ _. f_equal. apply (T (accumulate_shadow_rays (mat i) c)); reflexivity.
  - rewrite play_bind in P. destruct (play hit (sample i _) us1 vs1) as [[[c2 us2] vs2]|] eqn:E2; [|discriminate]. apply play_leaf in E2. apply K in E2. destruct E2 as (E2&E3).
    destruct (Req_EM_T _ _); cbn in P; injection P as <- _ _; f_equal; apply (T c2); assumption.
Qed.
(** a null shape without media data, or without a medium named inside: a null pointer is followed *)
Theorem C184_no_medium_refuted hit cam i us vs : hit cam = Some i -> i_null i = true -> boundary_of (i_mesh i) = None \/ boundary_of (i_mesh i) = Some None ->
  play hit (sandbox cam) us vs = Some (UB, us, vs).
Proof. intros H N [B|B]; unfold sandbox_Li; cbn [play]; rewrite H, N, B; reflexivity. Qed.
(** beyond the far side of a shape everything is black *)
Theorem C184_beyond_refuted hit cam i j m us vs w t us' vs' : hit cam = Some i -> i_null i = true -> boundary_of (i_mesh i) = Some (Some (Some m)) ->
  hit (Ray (i_p i) (dir cam) (Finite (1 / 1000)) p_infty) = Some j -> i_null j = true ->
  play hit (med_sample m None (Ray (i_p i) (dir cam) (Finite (1 / 1000)) p_infty) (i_t j)) us vs = Some ((w, t), us', vs') -> i_t j <= t ->
  play hit (sandbox cam) us vs = Some (Ok (V3c 0, tt), us', vs').
Proof.
  intros H N B H2 N2 E L. unfold sandbox_Li. cbn [play]. rewrite H, N, B. cbn [play]. unfold Epsilon. rewrite H2, play_bind, E. cbn [fst snd].
  destruct (Rlt_dec t (i_t j)); [lra|]. rewrite N2. reflexivity.
Qed.
(** an open shape: the medium reaches as far behind its surface as the camera is before it *)
Theorem C184_open_refuted hit cam i m us vs w t us' vs' : hit cam = Some i -> i_null i = true -> boundary_of (i_mesh i) = Some (Some (Some m)) ->
  hit (Ray (i_p i) (dir cam) (Finite (1 / 1000)) p_infty) = None ->
  play hit (med_sample m None (Ray (i_p i) (dir cam) (Finite (1 / 1000)) p_infty) (i_t i)) us vs = Some ((w, t), us', vs') -> i_t i <= t ->
  play hit (sandbox cam) us vs = Some (Ok (V3c 0, tt), us', vs').
Proof.
  intros H N B H2 E L. unfold sandbox_Li. cbn [play]. rewrite H, N, B. cbn [play]. unfold Epsilon. rewrite H2, play_bind, E. cbn [fst snd].
  destruct (Rlt_dec t (i_t i)); [lra|]. reflexivity.
Qed.

(** C185: clocks, when every null shape has a medium inside *)
Lemma sandbox_defined : (forall m, boundary_of m <> None /\ boundary_of m <> Some None) -> forall r o, leaf (sandbox r) o -> o = OutOfFuel \/ exists v, o = Ok v.
Proof.
  intros B r o L. right. unfold sandbox_Li in L.
  assert (S : forall beta r md i o, leaf (sb_surface M ev mat sample beta r md i) o -> exists v, o = Ok v).
  { intros beta r' md i o' L'. unfold sb_surface in L'. apply leaf_bind in L'. destruct L' as (c&_&L'). inversion L'; subst. match goal with X : leaf _ o' |- _ => rename X into L2 end.
    destruct (Rgt_dec u _); [inversion L2; eauto|]. apply leaf_bind in L2. destruct L2 as (c2&_&L2). destruct (Req_EM_T _ _); inversion L2; eauto. }
  inversion L; subst. match goal with X : leaf _ o |- _ => rename X into L2 end. destruct x as [i|]; [|inversion L2; eauto].
  destruct (i_null i); [|eapply S; exact L2]. destruct (B (i_mesh i)) as (B1&B2). destruct (boundary_of (i_mesh i)) as [[md|]|]; [|contradiction|contradiction].
  inversion L2; subst. match goal with X : leaf (match md with _ => _ end) o |- _ => rename X into L3 end. destruct md as [m|]; [|inversion L3; eauto].
  apply leaf_bind in L3. destruct L3 as ((w&t)&_&L3). cbn [fst snd] in L3. destruct (Rlt_dec _ _).
  - unfold sb_scatter in L3. apply leaf_bind in L3. destruct L3 as (l&_&L3). inversion L3; subst. match goal with X : leaf (let (_, _) := _ in _) o |- _ => rename X into L4 end.
    destruct (phase_sample _ _ _). inversion L4; subst. match goal with X : leaf (QRet _) o |- _ => inversion X end. eauto.
  - destruct x as [j|]; [|inversion L3; eauto]. destruct (i_null j); [inversion L3; eauto|]. eapply S. exact L3.
Qed.
Theorem C185_clocks (W : Type) now hit rnd1 rnd2 cam (s : st W) : (forall m, boundary_of m <> None /\ boundary_of m <> Some None) -> idle (s_clk W s) ->
  clean (as_Li W now hit rnd1 rnd2 (sandbox cam) s) s.
Proof.
  intros B Id. assert (S0 : safe_Li (fun r => as_Li W now hit rnd1 rnd2 (sandbox r))).
  { apply as_Li_safe. intros r o L. destruct (sandbox_defined B r o L) as [->|(v&->)]; eauto. }
  exact (Props.Integrators.runs_clean _ _ _ _ (S0 cam _ Id)).
Qed.
Theorem C185_render_clocks (W : Type) now hit rnd1 rnd2 camera film (s : st W) : (forall m, boundary_of m <> None /\ boundary_of m <> Some None) -> idle_render (s_clk W s) ->
  clean (render W now rnd2 (fun r => as_Li W now hit rnd1 rnd2 (sandbox r)) camera film s) s.
Proof.
  intros B Id. assert (S0 : safe_Li (fun r => as_Li W now hit rnd1 rnd2 (sandbox r))).
  { apply as_Li_safe. intros r o L. destruct (sandbox_defined B r o L) as [->|(v&->)]; eauto. }
  exact (Props.Integrators.runs_clean _ _ _ _ (runs_render now rnd2 _ camera film _ S0 Id)).
Qed.
End Claims.
Print Assumptions C184_solid.
Print Assumptions C184_medium.
Print Assumptions C184_direct_light.
Print Assumptions C184_no_medium_refuted.
Print Assumptions C184_beyond_refuted.
Print Assumptions C184_open_refuted.
Print Assumptions C185_clocks.
Print Assumptions C185_render_clocks.

(** ** smoke between heights 1 and 2, a glowing sheet at height 3: the sandbox shows black, one bounce of
    the volumetric path integrator the sheet *)
Theorem C184_wall_behind_refuted :
  seen (play (scene_hit (sheets dome)) (sandbox_Li medium smoke_box halve no_scatter no_lights glow (fun _ _ _ => V3c 1) absorbs (upwards 0)) [1 / 8] []) = Some (Ok (V3c 0), [1 / 8], []) /\
  seen (play (scene_hit (sheets dome)) (vol_Li medium (fun _ => V3c 0) only_inside halve no_scatter no_lights glow (fun _ _ _ => V3c 1) absorbs false 1 20 None (upwards 0)) [1 / 8] []) = Some (Ok (V3c 4), [], []).
Proof.
  split.
  - erewrite (C184_beyond_refuted smoke_box halve no_scatter no_lights glow (fun _ _ _ => V3c 1) absorbs _ (upwards 0) s1 s2 Smoke [1 / 8] [] (V3c (1 / 2)) (2 - 1)).
    + reflexivity.
    + exact dome_1.
    + reflexivity.
    + reflexivity.
    + exact dome_2.
    + reflexivity.
    + reflexivity.
    + apply Rle_refl.
  - unfold vol_Li. erewrite loop_step; [|nonzero|exact dome_1]. cbn [traverse]. rewrite boundary_step by reflexivity.
    replace (cross_boundary medium only_inside (upwards 0) s1 None) with (Some Smoke).
    2:{ unfold cross_boundary. cbn [i_mesh s1 only_inside]. destruct (Rle_dec _ _) as [X|X]; [|reflexivity]. exfalso. unfold isect_toLocal, toLocal, dot in X. simpl in X. lra. }
    change (onwards (i_p s1) (dir (upwards 0))) with (upwards 1).
    erewrite loop_step; [|nonzero|exact dome_2]. erewrite pass_step; [|reflexivity|apply Rle_refl]. rewrite boundary_step by reflexivity.
    replace (cross_boundary medium only_inside (upwards 1) s2 (Some Smoke)) with (@None medium).
    2:{ unfold cross_boundary. cbn [i_mesh s2 only_inside]. destruct (Rle_dec _ _) as [X|X]; [reflexivity|]. exfalso. apply X. unfold isect_toLocal, toLocal, dot. simpl. lra. }
    change (onwards (i_p s2) (dir (upwards 1))) with (upwards 2).
    erewrite loop_step; [|nonzero|exact dome_3]. cbn [traverse].
    erewrite surface_step; [|reflexivity|reflexivity|reflexivity| |reflexivity].
    + cbn [no_pdf c_pdf]. destruct (Req_EM_T 0 0) as [_|X]; [|lra]. cbn [seen option_map bind fst]. repeat f_equal. apply vec3_eq; simpl; lra.
    + rewrite !gray_mul, gray_rr. apply Rmin_glb; lra.
Qed.
Print Assumptions C184_wall_behind_refuted.
(** the same smoke without a far side before the glowing sheet *)
Definition half_dome : list (nat * R * R * bool) := [(0%nat, 1, -1, true); (1%nat, 3, -1, false)].
Definition t3 : isect := Isect (V3 0 0 3) (3 - 1) (V3c (1 / 3)) (Fr (V3 1 0 0) (V3 0 1 0) (V3 0 0 (-1))) (Fr (V3 1 0 0) (V3 0 1 0) (V3 0 0 (-1))) 1 false.
Example C184_case :
  seen (play (scene_hit (sheets half_dome)) (sandbox_Li medium smoke_box halve no_scatter no_lights glow (fun _ _ _ => V3c 1) absorbs (upwards 0)) [1 / 8] []) =
  seen (play (scene_hit (sheets half_dome)) (vol_Li medium (fun _ => V3c 0) only_inside halve no_scatter no_lights glow (fun _ _ _ => V3c 1) absorbs false 1 3 None (upwards 0)) [1 / 8] []) /\
  seen (play (scene_hit (sheets half_dome)) (sandbox_Li medium smoke_box halve no_scatter no_lights glow (fun _ _ _ => V3c 1) absorbs (upwards 0)) [1 / 8] []) = Some (Ok (V3c 4), [], []).
Proof.
  assert (H1 : scene_hit (sheets half_dome) (upwards 0) = Some s1) by (unfold s1; rewrite <- sheet_up; apply (sheets_up [] _ _ 0); [intros x []|cbn; lra]).
  assert (H2 : scene_hit (sheets half_dome) (upwards 1) = Some t3) by (unfold t3; rewrite <- sheet_up; apply (sheets_up [(0%nat, 1, -1, true)] _ _ 1); [intros x [<-|[]]; lra|cbn; lra]).
  split.
  - apply (C184_medium only_inside smoke_box halve no_scatter no_lights glow (fun _ _ _ => V3c 1) absorbs _ 3 (upwards 0) s1 t3 Smoke None); try reflexivity; [exact H1| |exact H2].
    unfold dot. cbn. lra.
  - unfold sandbox_Li. cbn [play]. rewrite H1. cbn [i_null s1 i_mesh smoke_box play i_p].
    change (Ray (V3 0 0 1) (dir (upwards 0)) Epsilon p_infty) with (upwards 1). rewrite H2. cbn [i_t t3]. rewrite play_bind. cbn [halve play fst snd].
    destruct (Rlt_dec (3 - 1) (3 - 1)); [lra|]. cbn [i_null t3]. unfold sb_surface.
    rewrite play_bind. cbn [glow play]. rewrite gray_mul, gray_rr.
    destruct (Rgt_dec (1 / 8) (Rmin (1 * (1 / 2)) 1)) as [X|_]; [exfalso; assert (1 / 8 <= Rmin (1 * (1 / 2)) 1) by (apply Rmin_glb; lra); lra|].
    rewrite play_bind. cbn [absorbs play no_pdf c_pdf]. destruct (Req_EM_T 0 0) as [_|X]; [|lra]. cbn [play seen option_map bind fst]. repeat f_equal. apply vec3_eq; simpl; lra.
Qed.
(** a glowing surface right before the camera; a null shape without media data *)
Example C184_solid_case :
  seen (play (fun _ => Some s3) (sandbox_Li medium (fun _ => None) halve no_scatter no_lights glow (fun _ _ _ => V3c 1) absorbs (upwards 2)) [1 / 8] []) =
  seen (play (fun _ => Some s3) (vol_Li medium (fun _ => V3c 0) only_inside halve no_scatter no_lights glow (fun _ _ _ => V3c 1) absorbs false 1 2 None (upwards 2)) [1 / 8] []).
Proof. apply C184_solid; [lia|]. intros i E. injection E as <-. reflexivity. Qed.
Example C184_no_medium_case : play (fun _ => Some s1) (sandbox_Li medium (fun _ => None) halve no_scatter no_lights glow (fun _ _ _ => V3c 1) absorbs (upwards 0)) [] [] = Some (UB, [], []).
Proof. eapply C184_no_medium_refuted; [reflexivity|reflexivity|left; reflexivity]. Qed.
Example C185_case (camera : nat -> vec2 -> vec2 -> ray) : clean (render nat (fun w => (0, w)) half2 (fun r => as_Li nat (fun w => (0, w)) one_surface half1 half2
    (sandbox_Li medium (fun _ => Some (Some (Some Smoke))) halve no_scatter no_lights glow (fun _ _ _ => V3c 1) absorbs r)) camera [0%nat; 1%nat] (St nat clk_init 0%nat [])) (St nat clk_init 0%nat []).
Proof. apply C185_render_clocks; [intros m; split; discriminate|]. intros c _. reflexivity. Qed.
