(** C199: what the volumetric path integrators compute on average. *)
From Coq Require Import Reals List Bool ZArith Lra Lia.
From Coquelicot Require Import Rbar.
From Verif.Base Require Import Outcome.
From Verif.Model Require Import Vec Frame BBox Warp Clocker Integrators Bsdf Scene Renderer VolPath.
From Verif.Spec Require Import IntegratorSpec PathSpec SceneSpec BoundSpec VolPathSpec ExpectSpec.
From Verif.Proof Require Import VecLemmas IntegratorProof SceneProof BoundProof VolPathTheory ExpectProof ExpectScene.
From Verif.Props Require VolPath.
Import ListNotations.
Open Scope R_scope.

(** the value of a finished sample *)
Definition result {M} (get : vec3 -> R) (o : outcome (vec3 * list (vevent M))) : R := match o with Ok (v, _) => get v | _ => 0 end.

(** C199: in a scene where surfaces and media do not create light and no vertex sends out more than L, the
    average of a channel over independent random numbers of resolution d is the light that arrives over at
    most n vertices, except for the paths that are cut when they carry less than 1/10000 and for the
    resolution of the random numbers *)
Theorem C199_average {M} hit d e1 e2 env boundary ms ph nee ev mat sample nonexp n L P get fuel md r :
  averages d e1 e2 -> 0 <= d -> channel get ->
  gentle hit M env boundary ms ph nee ev mat sample nonexp L P ->
  let program := vol_Li M env boundary ms ph nee ev mat sample nonexp n fuel md r in
  let light := arrives hit e1 e2 M env boundary ms ph nee ev mat sample nonexp n get fuel n r (closure_init nonexp true (V3c 0)) md true in
  ends hit program ->
  light - 1 / 10000 * (INR n * L) <= expect hit e1 e2 program (result get) <= light + d * L * (INR n * INR n).
Proof.
  intros Av D Ch Ge program light En.
  assert (P1 : pos (V3c 1)) by (unfold pos; cbn; lra).
  pose proof (vol_sound d e1 e2 Av hit env boundary ms ph nee ev mat sample nonexp n L P Ge get Ch D fuel n (V3c 0) (V3c 1) r _ md true []
    (ge_start _ _ _ _ _ _ _ _ _ _ _ _ _ Ge) P1 En) as H.
  unfold near in H. rewrite !(get_c get Ch) in H. fold light in H. unfold tau in H. rewrite Rplus_0_l, Rmult_1_l in H. exact H.
Qed.
Print Assumptions C199_average.

(** ... and that light is between 0 and n L *)
Theorem C199_light {M} hit d e1 e2 env boundary ms ph nee ev mat sample nonexp max L P get fuel n r c md surf :
  averages d e1 e2 -> channel get -> gentle hit M env boundary ms ph nee ev mat sample nonexp L P -> P c ->
  0 <= arrives hit e1 e2 M env boundary ms ph nee ev mat sample nonexp max get fuel n r c md surf <= INR n * L.
Proof. intros Av Ch Ge. apply (arrives_range d e1 e2 Av hit env boundary ms ph nee ev mat sample nonexp max L P Ge get Ch). Qed.
Print Assumptions C199_light.

(** numbers k/N that are equally likely are such an average, of resolution 1/N *)
Theorem C199_grid N : (0 < N)%nat -> averages (1 / INR N) (grid1 N) (grid2 N).
Proof. apply grid_averages. Qed.
Print Assumptions C199_grid.

(** the volumetric integrator in a scene without lights to sample, of diffuse surfaces, mirrors and glass of
    albedo at most 1 and media of weight at most 1, with sky and glowing objects of at most L, at most K
    surfaces on any line, and random numbers k/N *)
Theorem C199_scene {M} (S : scene M) lines K boundary ms ph N n L get fuel md r :
  (0 < N)%nat -> channel get -> 0 <= L -> sc_emitters S = [] -> (forall m, all_bsdfs plain (sc_shader S m)) ->
  unit_normals (fun (_ : unit) r => (scene_hit lines r, tt)) ->
  (forall m e d c, sc_object_emitter S m = Some e -> em_evaluate e d = Ok c -> within L c) ->
  (forall d c, env_emission (sc_envs S) d = Ok c -> within L c) ->
  (forall m f r t wt, hleaf (scene_hit lines) (ms m f r t) wt -> within 1 (fst wt)) ->
  rigid lines -> (forall p d, (List.length (lines p d) <= K)%nat) -> (n * Datatypes.S K + K < fuel)%nat ->
  let program := vol_Li M (sc_env S) boundary ms ph (sc_nee S) (sc_evaluate_in S) (sc_mat S) (sc_sample S) false n fuel md r in
  let light := arrives (scene_hit lines) (grid1 N) (grid2 N) M (sc_env S) boundary ms ph (sc_nee S) (sc_evaluate_in S) (sc_mat S) (sc_sample S) false n get fuel n r
                 (closure_init false true (V3c 0)) md true in
  light - 1 / 10000 * (INR n * L) <= expect (scene_hit lines) (grid1 N) (grid2 N) program (result get) <= light + 1 / INR N * L * (INR n * INR n).
Proof.
  intros N0 Ch L0 Dark Plain Norm Glow Sky Med Rg Few Fu. apply C199_average with (P := quiet).
  - apply C199_grid, N0.
  - apply Rmult_le_pos; [lra|left; apply Rinv_0_lt_compat, lt_0_INR, N0].
  - exact Ch.
  - apply scene_gentle; try assumption. intros q i Hi. exact (Norm tt q i Hi).
  - intros o Ho. destruct (VolPath.C142_terminates _ _ _ _ _ _ _ _ _ _ _ _ _ _ _ _ Rg Few Fu Ho) as (v & h & ->). eauto.
Qed.
Print Assumptions C199_scene.

(** two parallel mirrors that send back half of the light and glow with 1: n vertices show 2 - 2/2^n *)
Definition hall : list (nat * R * R * bool) := [(0%nat, 0, 1, false); (1%nat, 1, -1, false)].
Definition hall_scene : scene unit :=
  Scene [] [] (fun _ => Some (EEnv None (V3c 1))) (fun _ => Simple (Mirror (V3c (1 / 2)))) (fun m => m) (fun _ _ => UB) (fun _ => None) (fun _ _ => QRet (V3c 1)) 3 false.
Definition no_media (_ : unit) (_ : option bool) (_ : ray) (t : R) : query (vec3 * R) := QRet (V3c 1, t).
Definition no_phase (_ : unit) (_ : vec3) (_ : vec2) : vec3 * R := (V3c 0, 0).
Definition hall_sample n fuel r := vol_Li unit (sc_env hall_scene) (fun _ => None) no_media no_phase (sc_nee hall_scene) (sc_evaluate_in hall_scene) (sc_mat hall_scene) (sc_sample hall_scene) false n fuel None r.
Definition in_hall (up : bool) : ray := Ray (V3 0 0 (if up then 0 else 1)) (V3 0 0 (if up then 1 else -1)) (Finite Epsilon) p_infty.
Definition hall_at (up : bool) : isect :=
  let f := Fr (V3 1 0 0) (V3 0 1 0) (V3 0 0 (if up then -1 else 1)) in
  Isect (V3 0 0 (if up then 1 else 0)) 1 (V3c (1 / 3)) f f (if up then 1%nat else 0%nat) false.
Lemma hall_hit up : scene_hit (VolPath.sheets hall) (in_hall up) = Some (hall_at up).
Proof.
  unfold scene_hit, VolPath.sheets, first_in, in_hall, hall, Epsilon. destruct up; cbn [org dir rnear rfar vz].
  - destruct (Rlt_dec 0 1) as [_|X]; [|lra]. cbn [map find]. rewrite !VolPath.sheet_up. cbn [i_t].
    replace (Rbar_leb (1 / 1000) (0 - 0)) with false by (symmetry; apply not_true_is_false; intros X; apply leb_iff in X; cbn in X; lra).
    replace (Rbar_leb (1 / 1000) (1 - 0)) with true by (symmetry; apply leb_iff; cbn; lra). 
    replace (Rbar_leb (1 - 0) p_infty) with true by (symmetry; apply leb_iff; exact I). cbn [andb]. unfold hall_at. do 2 f_equal. ring.
  - destruct (Rlt_dec 0 (-1)) as [X|_]; [lra|]. destruct (Rlt_dec (-1) 0) as [_|X]; [|lra]. cbn [rev app map find]. rewrite !VolPath.sheet_down. cbn [i_t].
    replace (Rbar_leb (1 / 1000) (1 - 1)) with false by (symmetry; apply not_true_is_false; intros X; apply leb_iff in X; cbn in X; lra).
    replace (Rbar_leb (1 / 1000) (1 - 0)) with true by (symmetry; apply leb_iff; cbn; lra). 
    replace (Rbar_leb (1 - 0) p_infty) with true by (symmetry; apply leb_iff; exact I). cbn [andb]. unfold hall_at. do 2 f_equal. ring.
Qed.
Lemma hall_normals : unit_normals (fun (_ : unit) r => (scene_hit (VolPath.sheets hall) r, tt)).
Proof.
  intros w r i H. cbn in H. unfold scene_hit, first_in in H. apply find_some in H as (H & _). unfold VolPath.sheets, hall in H.
  destruct (Rlt_dec 0 _); [|destruct (Rlt_dec _ 0); [|destruct H]]; cbn in H; destruct H as [<-|[<-|[]]]; unfold dot; cbn; repeat split; ring.
Qed.
Lemma hall_light N n : forall fuel m c up, (m < fuel)%nat -> c_last_spec c = true -> c_shadow c = [] ->
    arrives (scene_hit (VolPath.sheets hall)) (grid1 N) (grid2 N) unit (sc_env hall_scene) (fun _ => None) no_media no_phase (sc_nee hall_scene) (sc_evaluate_in hall_scene)
      (sc_mat hall_scene) (sc_sample hall_scene) false n vx fuel m (in_hall up) c None true = 2 - 2 / 2 ^ m.
Proof.
  induction fuel as [|fuel IH]; intros m c up Hm Ls Sh; [lia|]. cbn [arrives]. destruct m as [|m]; [cbn; lra|].
    rewrite hall_hit. cbv zeta. cbn [hall_at i_null].
    assert (Ev : sc_evaluate_in hall_scene (hall_at up) (in_hall up) None (reset_closure c (isect_toLocal (hall_at up) (vneg (dir (in_hall up))))) =
      QRet (Closure (V3 0 0 1) (c_wo c) [] (V3c 0) (V3c 1) (V3c 0) (c_pdf c) (c_eta c) true true (c_all c) (c_accepts c))).
    { unfold sc_evaluate_in, no_failure, sc_try_in. cbn. rewrite Ls. cbn. unfold set_spec, set_emission, reset_closure. cbn. rewrite Sh. do 2 f_equal. destruct up; apply vec3_eq; cbn; unfold dot; cbn; ring. }
    assert (Wi : isect_toLocal (hall_at up) (vneg (dir (in_hall up))) = V3 0 0 1) by (destruct up; apply vec3_eq; cbn; unfold dot; cbn; ring).
    rewrite Ev. cbn [expect]. rewrite Wi. unfold accumulate_shadow_rays, sc_sample, bsdf_sample. cbn. unfold cosTheta. cbn. destruct (Rle_dec 1 0) as [X|_]; [lra|]. cbn.
    destruct (Req_EM_T 1 0) as [X|_]; [lra|]. unfold cos_term. cbn.
    match goal with |- context [?F fuel m ?r ?k None true] => assert (E : F fuel m r k None true = 2 - 2 / 2 ^ m) end.
    { replace (next_ray _ _) with (in_hall (negb up)) by (unfold next_ray, in_hall; cbn; f_equal; destruct up; cbn; apply vec3_eq; cbn; ring).
      apply IH; [lia|reflexivity..]. }
    rewrite E. pose proof (pow_lt 2 m ltac:(lra)). field. lra.
Qed.
Example C199_case N n fuel : (0 < N)%nat -> (n * 3 + 2 < fuel)%nat ->
  2 - 2 / 2 ^ n - 1 / 10000 * INR n <= expect (scene_hit (VolPath.sheets hall)) (grid1 N) (grid2 N) (hall_sample n fuel (in_hall true)) (result vx)
    <= 2 - 2 / 2 ^ n + 1 / INR N * (INR n * INR n).
Proof.
  intros N0 Fu.
  pose proof (C199_scene hall_scene (VolPath.sheets hall) 2 (fun _ => None) no_media no_phase N n 1 vx fuel None (in_hall true) N0 (or_introl eq_refl) Rle_0_1 eq_refl) as H.
  cbv zeta in H. rewrite hall_light in H; [|lia|reflexivity..].
  rewrite !Rmult_1_r in H. apply H.
  - intros m. cbn. unfold within; cbn. lra.
  - apply hall_normals.
  - intros m e d c E V. injection E as <-. injection V as <-. unfold within; cbn; lra.
  - intros d c E. injection E as <-. unfold within; cbn; lra.
  - intros m f q t wt Lw. apply hleaf_leaf, leaf_ret_inv in Lw. subst. unfold within; cbn; lra.
  - apply VolPath.sheets_rigid.
  - intros p d. apply VolPath.sheets_few.
  - lia.
Qed.
