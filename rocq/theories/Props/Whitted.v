(** C205, C206: the mean and the depth of the samples of Whitted's integrator. *)
From Coq Require Import Reals List Bool ZArith Lra Lia.
From Coquelicot Require Import Rbar.
From Verif.Base Require Import Outcome.
From Verif.Model Require Import Vec Frame BBox Warp Clocker Integrators Bsdf Scene Renderer VolPath.
From Verif.Spec Require Import IntegratorSpec PathSpec SceneSpec BoundSpec VolPathSpec ExpectSpec NoiseSpec BounceSpec LitSpec TapeSpec WhittedSpec.
From Verif.Proof Require Import VecLemmas IntegratorProof SceneProof BoundProof VolPathTheory ExpectProof ExpectScene BounceProof LitScene TapeProof WhittedProof.
From Verif.Props Require VolPath Integrators.
From Verif.Props Require Import Expect Noise Bounce Lamps PathMean.
Import ListNotations.
Open Scope R_scope.

(** one when a run needs more surfaces than it was allowed *)
Definition too_deep {S} (x : outcome vec3 * S) : R := match fst x with OutOfFuel => 1 | _ => 0 end.

Section Whitted.
Context {B : Type}.
Variable now : B -> R * B.
Variable hit : ray -> option isect.
Hypothesis solid : forall r i, hit r = Some i -> i_null i = false.
Variable env : ray -> vec3.
Variable ev : isect -> ray -> closure -> query closure.
Variable mat : isect -> vec3 -> vec3 -> vec3.
Variable sample : isect -> closure -> query closure.
Variable N : nat.
Hypothesis N_pos : (0 < N)%nat.
Variable nn : nat.
(** Whitted's integrator on a tape of random numbers, with at most n surfaces one after the other *)
Notation whitted n r := (whitted_Li (tape * B) (own_now now) (own_hit (fun l x => (hit x, l))) (own_rnd one_of) (own_rnd two_of) env ev mat sample (Datatypes.S nn) n r).
Notation run q t := (qrun (fun (l : tape) r => (hit r, l)) one_of two_of q t).
Notation prog := (mirrors env ev mat sample).
Notation p := (kept (grid1 N)).

Lemma whitted_run n r s : idle (s_clk _ s) -> done (fst (whitted n r s)) /\ fst (run (prog n r) (fst (s_w _ s))) = fst (whitted n r s).
Proof.
  intros I. pose proof (whitted_ends env ev mat sample now (fun (l : tape) x => (hit x, l)) one_of two_of nn n r s I) as D. split; [exact D|].
  destruct (mirrors_same env ev mat sample now (fun (l : tape) x => (hit x, l)) one_of two_of nn ltac:(intros a q i; apply solid) n r s _ _ D (surjective_pairing _)) as (a & E & _).
  rewrite E. reflexivity.
Qed.

(** C206: the share of the random numbers with which a path goes on is 0.95, up to their steps, and the
    share of the samples that see more than n surfaces in a row is at most its n-th power *)
Theorem C206_share : 95 / 100 <= p <= 95 / 100 + 1 / INR N.
Proof. apply p_in with (e2 := grid2 N). apply grid_averages, N_pos. Qed.
Theorem C206_ends n r b : exists K, forall k clk log, (K <= k)%nat -> idle clk ->
  (forall t, done (fst (whitted n r (St _ clk (t, b) log)))) /\
  over_tapes N k (fun t => too_deep (whitted n r (St _ clk (t, b) log))) <= p ^ n.
Proof.
  destruct (run_tapes N N_pos hit (prog n r)) as (K & H). exists K. intros k clk log Hk I.
  assert (R0 : forall t, done (fst (whitted n r (St _ clk (t, b) log))) /\ fst (run (prog n r) t) = fst (whitted n r (St _ clk (t, b) log)))
    by (intros t; apply (whitted_run n r (St _ clk (t, b) log) I)).
  split; [intros t; apply R0|].
  rewrite (over_ext N k _ (fun t => over (fst (run (prog n r) t)))).
  2: { intros t. destruct (R0 t) as (D & ->). unfold too_deep. destruct (fst (whitted n r _)); try contradiction; reflexivity. }
  rewrite (H k over Hk). apply (deep (1 / INR N) (grid1 N) (grid2 N) (grid_averages N N_pos)).
Qed.

Variable L rho : R.
Hypothesis po : polite hit env ev mat sample L rho.
Variable get : vec3 -> R.
Hypothesis ch : channel get.
Notation light n r := (seen hit (grid1 N) (grid2 N) env ev mat sample get n r).
(** C205: the mean of the samples that end within n surfaces is what is seen over n surfaces, up to what the
    deeper samples would have shown; it never exceeds it *)
Theorem C205_mean n r b : let q := p * Rmax 1 (rho / (95 / 100)) in
  exists K, forall k clk log, (K <= k)%nat -> idle clk ->
    light n r - INR n * L * q ^ n <= over_tapes N k (fun t => value get (whitted n r (St _ clk (t, b) log))) <= light n r.
Proof.
  intros q. destruct (run_tapes N N_pos hit (prog n r)) as (K & H). exists K. intros k clk log Hk I.
  rewrite (over_ext N k _ (fun t => shown get (fst (run (prog n r) t)))).
  2: { intros t. destruct (whitted_run n r (St _ clk (t, b) log) I) as (D & E). cbn [s_w fst] in E. rewrite E. reflexivity. }
  rewrite (H k (shown get) Hk). apply (shown_light (1 / INR N) (grid1 N) (grid2 N) (grid_averages N N_pos) hit env ev mat sample L rho po get ch).
Qed.
(** more surfaces in a row *)
Theorem C205_depth n k r : let q := p * (rho / (95 / 100)) in q < 1 -> light n r <= light (n + k)%nat r <= light n r + (rest L q n - rest L q (n + k)).
Proof.
  intros q Q. induction k as [|k IH].
  - rewrite Nat.add_0_r. lra.
  - pose proof (light_step (1 / INR N) (grid1 N) (grid2 N) (grid_averages N N_pos) hit env ev mat sample L rho po get ch (n + k) r) as H.
    replace (n + Datatypes.S k)%nat with (Datatypes.S (n + k)) by lia. fold q in H.
    assert (Z : rest L q (n + k) - rest L q (Datatypes.S (n + k)) = L * q ^ (n + k)) by (unfold rest; cbn [pow]; field; lra). lra.
Qed.
End Whitted.
Print Assumptions C206_share.
Print Assumptions C206_ends.
Print Assumptions C205_mean.
Print Assumptions C205_depth.

(** the same in scenes with lamps, glowing objects and a sky, without null surfaces *)
Section Scenes.
Context {M B : Type}.
Variable now : B -> R * B.
Variable S : scene M.
Variable lines : vec3 -> vec3 -> list isect.
Hypothesis solid : forall r i, scene_hit lines r = Some i -> i_null i = false.
Variable K : nat.
Variable E Bl rho : R.
Hypothesis lit : lit_scene S lines K (fun _ _ _ t => QRet (V3c 1, t)) (fun _ _ _ => (V3c 0, 0)) E Bl 0.
Hypothesis rho_in : 0 <= rho <= 1.
Hypothesis dull_all : forall m, all_bsdfs (dull rho) (sc_shader S m).
Variable N : nat.
Hypothesis N_pos : (0 < N)%nat.
Variable get : vec3 -> R.
Hypothesis ch : channel get.
Variable nn : nat.
Notation whitted n r := (scene_whitted S (tape * B) (own_now now) (own_hit (fun l x => (scene_hit lines x, l))) (own_rnd one_of) (own_rnd two_of) (Datatypes.S nn) n r).
Notation light n r := (seen (scene_hit lines) (grid1 N) (grid2 N) (sc_env S) (sc_evaluate S) (sc_mat S) (sc_sample S) get n r).
Notation p := (kept (grid1 N)).

Lemma scene_polite : polite (scene_hit lines) (sc_env S) (sc_evaluate S) (sc_mat S) (sc_sample S) (2 * E + Bl) rho.
Proof.
  destruct lit as [Pos Plain Norm Glow Sky La Su Ev Cl _ Pha Rg Few]. destruct Pos as (E0 & B0 & _). constructor; [lra|lra| |].
  - intros r. unfold sc_env. destruct (env_emission (sc_envs S) (dir r)) eqn:Ee; [apply within_le with E; [lra|exact (Sky _ _ Ee)]|apply within_0; lra..].
  - intros r i c1 Hi Lf. rewrite (evaluate_none S) in Lf. apply hleaf_leaf in Lf.
    apply (evaluate_shone S Bl B0 Cl La) in Lf; [|apply (chosen_all S plain i Plain)|exact (Norm tt r i Hi)|exact (Su r i Hi)|reflexivity|reflexivity|].
    2: { unfold calm. cbn. repeat split; [lia|constructor]. }
    destruct Lf as (Sp & Ne & Em & Al & Sum & _). cbv zeta. unfold accumulate_shadow_rays at 1 2 3. cbn [c_emission c_nee]. rewrite Ne.
    assert (Em' : within E (c_emission c1)) by (destruct Em as [->|(e & d & O & V)]; [apply within_0, E0|exact (Glow _ _ _ _ O V)]).
    split; [apply within_le with (E + Bl + E); [lra|]; apply within_add; [apply within_add; assumption|exact Em']|].
    intros _ c3 L3. apply hleaf_leaf in L3. pose proof (bsdf_sample_keeps _ _ _ L3) as Keep. pose proof (chosen_all S (dull rho) i dull_all) as P.
    assert (Kp : c_emission c3 = c_emission c1 /\ c_nee c3 = shadow_sum (sc_mat S i) (c_wi c1) (c_shadow c1) (V3c 0)).
    { unfold sc_sample in L3. apply sample_weight with (i := i) in L3; [| |exact (Norm tt r i Hi)|exact Sp].
      2: { destruct (chosen_bsdf S i); cbn in P; try contradiction; exact I. }
      destruct L3 as (_ & A2 & A3 & _). cbn in A2, A3. rewrite A2, A3, Ne. split; reflexivity. }
    destruct Kp as (-> & ->). split; [apply within_le with (E + Bl); [lra|apply within_add; assumption]|].
    pose proof PI_RGT_0 as Pi. assert (Pi1 : 0 <= 1 / PI <= 1).
    { pose proof PI2_3_2. split; [apply Rmult_le_pos; [lra|left; apply Rinv_0_lt_compat; lra]|]. apply Rmult_le_reg_r with PI; [lra|]. replace (1 / PI * PI) with 1 by (field; lra). lra. }
    unfold sc_sample in L3. destruct (chosen_bsdf S i); cbn in P; try contradiction; cbn [bsdf_sample] in L3;
      repeat match type of L3 with
      | leaf (if ?x then _ else _) _ => destruct x
      | leaf (QRet _) _ => apply leaf_ret_inv in L3; subst c3
      | leaf (QRand1 ?k) _ => apply leaf_rand1_inv in L3 as (? & L3); cbv zeta in L3
      | leaf (QRand2 ?k) _ => apply leaf_rand2_inv in L3 as (? & L3); cbv zeta in L3
      end; cbn [put kill c_albedo]; first [exact P|apply within_0; lra|apply within_cos; assumption].
Qed.
Theorem C205_scenes n r b : let q := p * Rmax 1 (rho / (95 / 100)) in
  exists J, forall j clk log, (J <= j)%nat -> idle clk ->
    light n r - INR n * (2 * E + Bl) * q ^ n <= over_tapes N j (fun t => value get (whitted n r (St _ clk (t, b) log))) <= light n r.
Proof. exact (C205_mean now (scene_hit lines) solid (sc_env S) (sc_evaluate S) (sc_mat S) (sc_sample S) N N_pos nn (2 * E + Bl) rho scene_polite get ch n r b). Qed.
Theorem C205_scenes_depth n k r : let q := p * (rho / (95 / 100)) in q < 1 ->
  light n r <= light (n + k)%nat r <= light n r + (rest (2 * E + Bl) q n - rest (2 * E + Bl) q (n + k)).
Proof. exact (C205_depth (scene_hit lines) (sc_env S) (sc_evaluate S) (sc_mat S) (sc_sample S) N N_pos (2 * E + Bl) rho scene_polite get ch n k r). Qed.
End Scenes.
Print Assumptions C205_scenes.
Print Assumptions C205_scenes_depth.

(** ** between two parallel mirrors *)
Lemma hall_solid r i : scene_hit (VolPath.sheets hall) r = Some i -> i_null i = false.
Proof.
  intros H. unfold scene_hit, first_in in H. apply find_some in H as (H & _). unfold VolPath.sheets, hall in H.
  destruct (Rlt_dec 0 _); [|destruct (Rlt_dec _ 0); [|destruct H]]; cbn in H; destruct H as [<-|[<-|[]]]; reflexivity.
Qed.
Lemma hall_lit : lit_scene hall_scene (VolPath.sheets hall) 2 (fun _ _ _ t => QRet (V3c 1, t)) (fun _ _ _ => (V3c 0, 0)) 1 0 0.
Proof.
  constructor.
  - lra.
  - intros m. cbn. unfold within; cbn. lra.
  - apply hall_normals.
  - intros m e d c E V. injection E as <-. injection V as <-. unfold within; cbn; lra.
  - intros d c E. injection E as <-. unfold within; cbn; lra.
  - intros e [].
  - intros r i _ e u s [].
  - intros m f r i wt _ _ _ e u s [].
  - intros m r t H. apply leaf_ret_inv in H. subst. unfold within; cbn; lra.
  - intros m f r t wt H. apply hleaf_leaf, leaf_ret_inv in H. subst. unfold within; cbn; lra.
  - intros m w u. cbn. lra.
  - apply VolPath.sheets_rigid.
  - intros q d. apply VolPath.sheets_few.
Qed.
Definition hall_cl : closure := Closure (V3 0 0 1) (V3c 1) [] (V3c 0) (V3c 1) (V3c 0) 1 1 true true false true.
Definition hall_cl' : closure := Closure (V3 0 0 1) (mirrored (V3 0 0 1)) [] (V3c (1 / 2)) (V3c 1) (V3c 0) 1 1 true true false true.
Lemma hall_wi up : isect_toLocal (hall_at up) (vneg (dir (in_hall up))) = V3 0 0 1.
Proof. destruct up; apply vec3_eq; cbn; unfold dot; cbn; ring. Qed.
Lemma hall_eval up : sc_evaluate hall_scene (hall_at up) (in_hall up) (closure_init false true (V3 0 0 1)) = QRet hall_cl.
Proof. unfold sc_evaluate, no_failure, sc_try. cbn. reflexivity. Qed.
Lemma hall_acc up : accumulate_shadow_rays (sc_mat hall_scene (hall_at up)) hall_cl = hall_cl.
Proof. reflexivity. Qed.
Lemma hall_take up : sc_sample hall_scene (hall_at up) (set_wi hall_cl (V3 0 0 1)) = QRet hall_cl'.
Proof. unfold sc_sample, bsdf_sample. cbn. unfold cosTheta. cbn. destruct (Rle_dec 1 0) as [X|_]; [lra|]. reflexivity. Qed.
Lemma hall_next up : next_ray (hall_at up) hall_cl' = in_hall (negb up).
Proof. unfold next_ray, in_hall; cbn; f_equal; destruct up; cbn; apply vec3_eq; cbn; ring. Qed.
Lemma hall_bright : ~ isZero (vscale (c_albedo hall_cl') (1 / (95 / 100))).
Proof. unfold isZero. cbn. rewrite Rabs_pos_eq by lra. lra. Qed.

Notation hall_whitted n up t := (scene_whitted hall_scene (tape * unit) (own_now (fun b => (0, b))) (own_hit (fun l x => (scene_hit (VolPath.sheets hall) x, l))) (own_rnd one_of) (own_rnd two_of) 1 n (in_hall up) (St _ clk_init (t, tt) [])).
Notation hall_prog := (mirrors (sc_env hall_scene) (sc_evaluate hall_scene) (sc_mat hall_scene) (sc_sample hall_scene)).
Lemma idle_start : idle clk_init.
Proof. intros c _. reflexivity. Qed.
Lemma hall_run n up t : fst (qrun (fun (l : tape) r => (scene_hit (VolPath.sheets hall) r, l)) one_of two_of (hall_prog n (in_hall up)) t) = fst (hall_whitted n up t).
Proof.
  apply (whitted_run (fun b => (0, b)) (scene_hit (VolPath.sheets hall)) hall_solid (sc_env hall_scene) (sc_evaluate hall_scene) (sc_mat hall_scene) (sc_sample hall_scene) 0 n (in_hall up) (St _ clk_init (t, tt) []) idle_start).
Qed.
Lemma hall_zeros n : forall up, fst (qrun (fun (l : tape) r => (scene_hit (VolPath.sheets hall) r, l)) one_of two_of (hall_prog n (in_hall up)) []) = OutOfFuel.
Proof.
  induction n as [|n IH]; intros up; [reflexivity|]. cbn [mirrors qrun]. rewrite hall_hit, run_bind, hall_wi, hall_eval. cbn [qrun]. rewrite hall_acc. cbn [c_spec hall_cl]. rewrite run_bind. fold hall_cl. rewrite hall_take. cbn [qrun one_of].
  destruct (Rgt_dec 0 rr_cont) as [X|_]; [unfold rr_cont in X; lra|]. unfold rr_cont. destruct (isZero_dec _) as [X|_]; [destruct (hall_bright X)|].
  unfold obind. rewrite run_bind, hall_next. specialize (IH (negb up)). destruct (qrun _ _ _ _ _) as [o w]. cbn [fst] in IH. subst o. reflexivity.
Qed.
(** C206 is a matter of chance: between two parallel mirrors a sample whose random numbers are all 0 never ends *)
Theorem C206_bounded_refuted : ~ exists n, forall t, exists v, fst (hall_whitted n true t) = Ok v.
Proof. intros (n & H). destruct (H []) as (v & E). rewrite <- hall_run, hall_zeros in E. discriminate. Qed.
Print Assumptions C206_bounded_refuted.
(** there the bound of C206 is exact *)
Theorem C206_hall N n : (0 < N)%nat -> exists K, forall k, (K <= k)%nat -> over_tapes N k (fun t => too_deep (hall_whitted n true t)) = kept (grid1 N) ^ n.
Proof.
  intros N0. destruct (run_tapes N N0 (scene_hit (VolPath.sheets hall)) (hall_prog n (in_hall true))) as (K & H). exists K. intros k Hk.
  rewrite (over_ext N k _ (fun t => over (fst (qrun (fun (l : tape) r => (scene_hit (VolPath.sheets hall) r, l)) one_of two_of (hall_prog n (in_hall true)) t)))).
  2: { intros t. destruct (whitted_run (fun b => (0, b)) (scene_hit (VolPath.sheets hall)) hall_solid (sc_env hall_scene) (sc_evaluate hall_scene) (sc_mat hall_scene) (sc_sample hall_scene) 0 n (in_hall true) (St _ clk_init (t, tt) []) idle_start) as (D & E).
    rewrite hall_run. unfold too_deep. unfold scene_whitted. destruct (fst (whitted_Li _ _ _ _ _ _ _ _ _ _ _ _ _)); try contradiction; reflexivity. }
  rewrite (H k over Hk). clear H Hk. generalize true as up. pose proof (grid_averages N N0) as Av.
  induction n as [|n IH]; intros up; [reflexivity|]. rewrite (prog_step _ _ _ Av), hall_hit. cbv zeta. rewrite hall_wi, hall_eval. cbn [expect]. rewrite hall_acc. cbn [c_spec hall_cl]. fold hall_cl. rewrite hall_take. cbn [expect].
  destruct (isZero_dec _) as [X|_]; [destruct (hall_bright X)|]. cbn [over]. rewrite (roulette _ _ _ Av). cbn [pow]. f_equal. rewrite hall_next, <- (IH (negb up)).
  apply (expect_eq _ _ _ Av). intros [|m| |] _; reflexivity.
Qed.
Print Assumptions C206_hall.
Lemma total_upto c : forall m, (m <= c)%nat -> forall f, (forall k, (k < m)%nat -> f k = 1) -> total m f = INR m.
Proof. induction m as [|m IH]; intros Hm f F; [reflexivity|]. cbn [total]. rewrite IH by (try lia; intros; apply F; lia). rewrite F by lia. rewrite S_INR. ring. Qed.
Lemma total_after c f : (forall k, (k < c)%nat -> f k = 1) -> (forall k, (c <= k)%nat -> f k = 0) -> forall m, total (c + m) f = INR c.
Proof.
  intros F G. induction m as [|m IH]; [rewrite Nat.add_0_r; apply total_upto with c; [lia|exact F]|]. replace (c + Datatypes.S m)%nat with (Datatypes.S (c + m)) by lia.
  cbn [total]. rewrite IH, G by lia. ring.
Qed.
(** the share, for numbers of steps 1/(20 m): one more than 95 of 100 *)
Example C206_case m : (0 < m)%nat -> kept (grid1 (20 * m)) = 95 / 100 + 1 / INR (20 * m).
Proof.
  intros M0. assert (M1 : 1 <= INR m) by (apply (le_INR 1); lia). assert (T : INR (20 * m) = 20 * INR m) by (rewrite mult_INR; cbn; ring).
  unfold kept, grid1. rewrite T. replace (20 * m)%nat with ((19 * m + 1) + (m - 1))%nat by lia.
  rewrite (total_after (19 * m + 1)).
  - rewrite plus_INR, mult_INR. cbn. field. lra.
  - intros k Hk. destruct (Rgt_dec _ _) as [X|_]; [|reflexivity]. exfalso. assert (KK : INR k <= 19 * INR m) by (replace 19 with (INR 19) by (cbn; ring); rewrite <- mult_INR; apply le_INR; lia).
    apply Rgt_lt in X. apply Rmult_lt_compat_r with (r := 20 * INR m) in X; [|lra]. replace (INR k / (20 * INR m) * (20 * INR m)) with (INR k) in X by (field; lra). lra.
  - intros k Hk. destruct (Rgt_dec _ _) as [_|X]; [reflexivity|]. exfalso. apply X. assert (KK : 19 * INR m < INR k) by (replace 19 with (INR 19) by (cbn; ring); rewrite <- mult_INR; apply lt_INR; lia).
    apply Rlt_gt, Rmult_lt_reg_r with (20 * INR m); [lra|]. replace (INR k / (20 * INR m) * (20 * INR m)) with (INR k) by (field; lra). lra.
Qed.
(** what is seen between the mirrors, that glow with 1 and reflect half: with q = p / 1.9, p (1 + q + q^2 + ...) *)
Lemma hall_seen N n : (0 < N)%nat -> let p := kept (grid1 N) in let q := p * (1 / 2 / (95 / 100)) in
  forall up, seen (scene_hit (VolPath.sheets hall)) (grid1 N) (grid2 N) (sc_env hall_scene) (sc_evaluate hall_scene) (sc_mat hall_scene) (sc_sample hall_scene) vx n (in_hall up) = p * ((1 - q ^ n) / (1 - q)).
Proof.
  intros N0 p q. assert (Q : q < 1).
  { assert (P1 : p <= 1). { unfold p, kept. apply Rle_trans with (grid1 N (fun _ => 1)); [apply (grid_mono N N0); intros u; destruct (Rgt_dec _ _); lra|rewrite (grid_one N N0); lra]. } unfold q. lra. }
  induction n as [|n IH]; intros up; [cbn; field; lra|]. cbn [seen]. rewrite hall_hit. cbv zeta. rewrite hall_wi, hall_eval. cbn [expect]. rewrite hall_acc. cbn [c_spec hall_cl]. fold hall_cl. rewrite hall_take. cbn [expect].
  destruct (isZero_dec _) as [X|_]; [destruct (hall_bright X)|]. rewrite hall_next, IH. cbn [hall_cl' c_emission c_nee c_albedo vx V3c]. fold p. cbn [pow].
  set (x := (1 - q ^ n) / (1 - q)). transitivity (p * (1 + q * x)); [unfold q at 1; ring|]. unfold x. field. lra.
Qed.
Example C205_case N n : (0 < N)%nat -> let p := kept (grid1 N) in let q := p * (1 / 2 / (95 / 100)) in
  (lit_scene hall_scene (VolPath.sheets hall) 2 (fun _ _ _ t => QRet (V3c 1, t)) (fun _ _ _ => (V3c 0, 0)) 1 0 0 /\ (forall m, all_bsdfs (dull (1 / 2)) (sc_shader hall_scene m))) /\
  exists J, forall j, (J <= j)%nat ->
    p * ((1 - q ^ n) / (1 - q)) - 2 * INR n * p ^ n <= over_tapes N j (fun t => value vx (hall_whitted n true t)) <= p * ((1 - q ^ n) / (1 - q)).
Proof.
  intros N0 p q. assert (D : forall m, all_bsdfs (dull (1 / 2)) (sc_shader hall_scene m)) by (intros m; cbn; unfold within; cbn; lra).
  split; [split; [exact hall_lit|exact D]|].
  destruct (C205_scenes (fun b : unit => (0, b)) hall_scene (VolPath.sheets hall) hall_solid 2 1 0 (1 / 2) hall_lit ltac:(lra) D N N0 vx (or_introl eq_refl) 0 n (in_hall true) tt) as (J & H).
  exists J. intros j Hj. specialize (H j clk_init [] Hj idle_start). pose proof (hall_seen N n N0 true) as E. cbv zeta in E. rewrite E in H. fold p in H. fold q in H.
  replace (Rmax 1 (1 / 2 / (95 / 100))) with 1 in H by (rewrite Rmax_left; lra). replace (p * 1) with p in H by ring. replace (2 * INR n * p ^ n) with (INR n * (2 * 1 + 0) * p ^ n) by ring. exact H.
Qed.
