(** C203: mean and noise of the samples of the path integrator. *)
From Coq Require Import Reals List Bool ZArith Lra Lia.
From Coquelicot Require Import Rbar.
From Verif.Base Require Import Outcome.
From Verif.Model Require Import Vec Frame BBox Warp Clocker Integrators Bsdf Scene Renderer VolPath.
From Verif.Spec Require Import IntegratorSpec PathSpec SceneSpec BoundSpec VolPathSpec ExpectSpec NoiseSpec BounceSpec LitSpec TapeSpec.
From Verif.Proof Require Import VecLemmas IntegratorProof SceneProof BoundProof VolPathTheory ExpectProof ExpectScene BounceProof LitScene TapeProof.
From Verif.Props Require VolPath Integrators.
From Verif.Props Require Import Expect Noise Bounce Lamps.
Import ListNotations.
Open Scope R_scope.

(** a channel of what a run returns *)
Definition value {S} (get : vec3 -> R) (x : outcome vec3 * S) : R := match fst x with Ok v => get v | _ => 0 end.
Definition values {S} (get : vec3 -> R) (x : outcome (list vec3) * S) : list R := match fst x with Ok l => map get l | _ => [] end.

Section Path.
Context {B : Type}.
Variable now : B -> R * B.
Variable hit : ray -> option isect.
Hypothesis solid : forall r i, hit r = Some i -> i_null i = false.
Variable env : ray -> vec3.
Variable ev : isect -> ray -> closure -> query closure.
Variable mat : isect -> vec3 -> vec3 -> vec3.
Variable sample : isect -> closure -> query closure.
Variable L : R.
Variable P : closure -> Prop.
Hypothesis ge : gentle_surfaces hit env ev mat sample L P.
Variable get : vec3 -> R.
Hypothesis ch : channel get.
Variable N : nat.
Hypothesis N_pos : (0 < N)%nat.
Variable nn : nat.
(** the path integrator on a tape of random numbers *)
Notation path n r := (path_Li (tape * B) (own_now now) (own_hit (fun l x => (hit x, l))) (own_rnd one_of) (own_rnd two_of) env ev mat sample (Datatypes.S nn) n r).
Notation light n r := (arrives_there hit (grid1 N) (grid2 N) env ev mat sample get n r (closure_init false true (V3c 0))).

Definition nowhere (_ : nat) : option (option Empty_set * option Empty_set) := None.
Definition nothing (m : Empty_set) (_ : option bool) (_ : ray) (_ : R) : query (vec3 * R) := match m with end.
Definition no_turn (m : Empty_set) (_ : vec3) (_ : vec2) : vec3 * R := match m with end.
Definition unseen (_ _ : bool) (_ : isect) (_ : option Empty_set) : query (list emitter_eval) := QRet [].
Notation program n r := (vol_Li Empty_set env nowhere nothing no_turn unseen (fun i x _ c => ev i x c) mat sample false n (Datatypes.S n) None r).

Lemma surfaces_gentle : gentle hit Empty_set env nowhere nothing no_turn unseen (fun i r _ c => ev i r c) mat sample false L P.
Proof. destruct ge as [G1 G2 G3 G4]. constructor; try assumption; try (intros; match goal with m : Empty_set |- _ => destruct m end). - intros r i c H. exact H. - intros r i md c c1. apply G4. Qed.
Lemma path_run n r s : idle (s_clk _ s) -> exists v h s', path n r s = (Ok v, s') /\ idle (s_clk _ s') /\
  qrun (fun (l : tape) r => (hit r, l)) one_of two_of (program n r) (fst (s_w _ s)) = (Ok (v, h), fst (s_w _ s')).
Proof.
  intros I.
  assert (So : forall (w : tape * B) q i, fst (own_hit (fun l r => (hit r, l)) w q) = Some i -> i_null i = false) by (intros w q i; apply solid).
  destruct (Integrators.C55_terminates (own_now now) (own_hit (fun l r => (hit r, l))) (own_rnd one_of) (own_rnd two_of) env ev mat sample (Datatypes.S nn) n r s I ltac:(discriminate) So) as (v & s' & E).
  pose proof (Integrators.C21_path_clocks (own_now now) (own_hit (fun l r => (hit r, l))) (own_rnd one_of) (own_rnd two_of) env ev mat sample (Datatypes.S nn) n r s I) as C.
  rewrite E in C. cbn in C.
  destruct (VolPath.C144_no_media env nowhere nothing no_turn unseen (fun i r _ c => ev i r c) mat sample n now (fun l r => (hit r, l)) one_of two_of nn (Datatypes.S n) r s v s') as (h & H);
    [intros a q i; apply solid|lia|exact E|].
  exists v, h, s'. split; [exact E|]. split; [|exact H]. intros c Hc. rewrite C. apply I, Hc.
Qed.
Lemma path_ends n r : B -> ends hit (program n r).
Proof.
  intros b o H. apply leaf_tape in H as (t & H). destruct (path_run n r (St _ clk_init (t, b) []) ltac:(intros c _; reflexivity)) as (v & h & s' & _ & _ & E).
  cbn [s_w fst] in E. rewrite E in H. cbn in H. subst o. eauto.
Qed.
Lemma path_light n r max : arrives hit (grid1 N) (grid2 N) Empty_set env nowhere nothing no_turn unseen (fun i r _ c => ev i r c) mat sample false max get (Datatypes.S n) n r (closure_init false true (V3c 0)) None true = light n r.
Proof. rewrite arrives_solid; [reflexivity|exact solid|lia]. Qed.

(** C203: the mean of a sample over all tapes of random numbers 0, 1/N, ..., (N-1)/N that are long enough is the
    light that arrives over n vertices, up to the paths that are dropped and the steps of the numbers *)
Theorem C203_average n r b : exists K, forall k clk log, (K <= k)%nat -> idle clk ->
  light n r - 1 / 10000 * (INR n * L) <= over_tapes N k (fun t => value get (path n r (St _ clk (t, b) log))) <= light n r + 1 / INR N * L * (INR n * INR n).
Proof.
  destruct (run_tapes N N_pos hit (program n r)) as (K & H). exists K. intros k clk log Hk I.
  rewrite (over_ext N k _ (fun t => result get (fst (qrun (fun (l : tape) r => (hit r, l)) one_of two_of (program n r) t)))).
  2: { intros t. destruct (path_run n r (St _ clk (t, b) log) I) as (v & h & s' & E1 & _ & E2). cbn [s_w fst] in E2. rewrite E1, E2. reflexivity. }
  rewrite (H k (result get) Hk), <- (path_light n r n).
  apply C199_average with (P := P); [apply C199_grid, N_pos|apply step_pos, N_pos|exact ch|exact surfaces_gentle|apply path_ends, b].
Qed.

(** a sample of a pixel, with its own position in the pixel *)
Definition shot n (camera : vec2 -> ray) : Integrators.M (tape * B) vec3 := bindM (tape * B) (next2 (tape * B) (own_rnd two_of)) (fun u => path n (camera u)).
(** the mean of the samples is off the light that arrives at the pixel by little *)
Theorem C203_noise n camera samples_ b : (0 < samples_)%nat ->
  let pixel := grid2 N (fun u => light n (camera u)) in
  let bias := Rmax (1 / 10000 * (INR n * L)) (1 / INR N * L * (INR n * INR n)) in
  exists K, forall k clk log, (K <= k)%nat -> idle clk ->
    over_tapes N k (fun t => let m := mean (values get (shots samples_ (shot n camera) (St _ clk (t, b) log))) in (m - pixel) * (m - pixel))
      <= (INR n * L) * (INR n * L) / (4 * INR samples_) + bias * bias.
Proof.
  intros S0 pixel bias. set (one := QRand2 (fun u => program n (camera u))).
  destruct (run_tapes N N_pos hit (samples samples_ one)) as (K & H). exists K. intros k clk log Hk I.
  rewrite (over_ext N k _ (fun t => (fun l => (mean (map (result get) l) - pixel) * (mean (map (result get) l) - pixel)) (fst (qrun (fun (l : tape) r => (hit r, l)) one_of two_of (samples samples_ one) t)))).
  2: { intros t. destruct (shots_samples (fun (l : tape) r => (hit r, l)) one_of two_of (shot n camera) one (fun s => idle (s_clk _ s))) with (n := samples_) (s := St (tape * B) clk (t, b) log) as (l & l' & s' & E1 & _ & E2 & F); [|exact I|].
    { intros s Is. unfold shot, bindM, next2, own_rnd. unfold one. cbn [qrun]. destruct (two_of (fst (s_w _ s))) as [u t'].
      destruct (path_run n (camera u) (St _ (s_clk _ s) (t', snd (s_w _ s)) (s_log _ s)) Is) as (v & h & s' & P1 & P2 & P3). exists v, h, s'. split; [exact P1|]. split; [exact P2|exact P3]. }
    cbn [s_w fst] in E2. rewrite E1, E2. cbn [values fst]. replace (map (result get) l') with (map get l); [reflexivity|].
    clear E1 E2. induction F as [|v o l l' (y & ->) F IH]; [reflexivity|]. cbn. rewrite IH. reflexivity. }
  rewrite (H k (fun l => (mean (map (result get) l) - pixel) * (mean (map (result get) l) - pixel)) Hk).
  pose proof (C200_converges hit (1 / INR N) (grid1 N) (grid2 N) env nowhere nothing no_turn unseen (fun i r _ c => ev i r c) mat sample false n L P get (Datatypes.S n) None camera
    (C199_grid N N_pos) (step_pos N N_pos) ch surfaces_gentle samples_ S0 (fun u => path_ends n (camera u) b)) as C.
  cbv zeta in C. assert (Px : pixel_light hit (grid1 N) (grid2 N) env nowhere nothing no_turn unseen (fun i r _ c => ev i r c) mat sample false n get (Datatypes.S n) None camera = pixel).
  { unfold pixel_light, pixel, grid2. apply grid1_ext. intros i _. apply grid1_ext. intros j _. apply path_light. }
  rewrite Px in C. exact C.
Qed.
(** raising the bounce limit *)
Theorem C203_bounces rho n k r c : fading_surfaces hit ev mat sample rho P -> P c ->
  let light n := arrives_there hit (grid1 N) (grid2 N) env ev mat sample get n r c in
  light n <= light (n + k)%nat <= light n + (rest L rho n - rest L rho (n + k)).
Proof.
  intros Fs Pc light'. unfold light'.
  assert (Fa : fading hit Empty_set nothing (fun i r _ c => ev i r c) mat sample rho P).
  { destruct Fs as [F1 F2]. constructor; [exact F1|intros q i md; apply F2|intros m; destruct m]. }
  pose proof (C201_light hit (1 / INR N) (grid1 N) (grid2 N) env nowhere nothing no_turn unseen (fun i r _ c => ev i r c) mat sample n L rho P get (Datatypes.S (n + k)) n k r c None true
    (C199_grid N N_pos) ch surfaces_gentle Fa Pc) as H.
  cbv zeta beta in H. rewrite !arrives_solid in H by (try exact solid; lia). exact H.
Qed.
End Path.
Print Assumptions C203_average.
Print Assumptions C203_noise.
Print Assumptions C203_bounces.

(** the same in scenes with lamps, glowing objects and a sky, without null surfaces *)
Section Scenes.
Context {M B : Type}.
Variable now : B -> R * B.
Variable S : scene M.
Variable lines : vec3 -> vec3 -> list isect.
Hypothesis solid : forall r i, scene_hit lines r = Some i -> i_null i = false.
Variable K : nat.
Variable E Bl : R.
Hypothesis lit : lit_scene S lines K (fun _ _ _ t => QRet (V3c 1, t)) (fun _ _ _ => (V3c 0, 0)) E Bl 0.
Variable N : nat.
Hypothesis N_pos : (0 < N)%nat.
Variable get : vec3 -> R.
Hypothesis ch : channel get.
Variable nn : nat.
Notation hit := (scene_hit lines).
Notation path n r := (scene_path S (tape * B) (own_now now) (own_hit (fun l x => (scene_hit lines x, l))) (own_rnd one_of) (own_rnd two_of) (Datatypes.S nn) n r).
Notation light n r := (arrives_there hit (grid1 N) (grid2 N) (sc_env S) (sc_evaluate S) (sc_mat S) (sc_sample S) get n r (closure_init false true (V3c 0))).

Lemma evaluate_none i r c : sc_evaluate S i r c = sc_evaluate_in S i r None c.
Proof. unfold sc_evaluate, sc_evaluate_in, sc_try, sc_try_in. destruct (sc_shader S (i_mesh i)); [reflexivity|]. unfold wireframe_evaluate. destruct (on_wire _ _); reflexivity. Qed.
Lemma scene_surfaces : gentle_surfaces hit (sc_env S) (sc_evaluate S) (sc_mat S) (sc_sample S) (E + Bl) (calm Bl).
Proof.
  pose proof (lamps_gentle S lines K (fun _ => None) _ _ E Bl 0 lit) as G. unfold brightest in G. rewrite Rmax_left in G by lra. rewrite Rmult_1_l in G.
  destruct G as [G1 G2 G3 G4 G5 G6 G7]. constructor; try assumption. intros r i c c1 Hi Pc Lf. apply (G5 r i None c c1 Hi Pc).
  replace (sc_evaluate_in S i r None _) with (sc_evaluate S i r (reset_closure c (isect_toLocal i (vneg (dir r))))); [exact Lf|]. now rewrite evaluate_none.
Qed.
Lemma scene_fading rho : 0 <= rho < 1 -> (forall m, all_bsdfs (dull rho) (sc_shader S m)) -> fading_surfaces hit (sc_evaluate S) (sc_mat S) (sc_sample S) rho (calm Bl).
Proof.
  intros Rh Du. destruct (lamps_fading S lines K _ _ E Bl 0 lit rho Rh Du) as [F1 F2 _].
  { intros m f r t wt H. apply hleaf_leaf, leaf_ret_inv in H. subst. cbn. lra. }
  constructor; [exact F1|]. intros r i c c1 c3 Hi Pc Lf. rewrite evaluate_none in Lf. exact (F2 r i None c c1 c3 Hi Pc Lf).
Qed.
Theorem C203_scenes n r b : exists J, forall j clk log, (J <= j)%nat -> idle clk ->
  light n r - 1 / 10000 * (INR n * (E + Bl)) <= over_tapes N j (fun t => value get (path n r (St _ clk (t, b) log))) <= light n r + 1 / INR N * (E + Bl) * (INR n * INR n).
Proof. exact (C203_average now hit solid (sc_env S) (sc_evaluate S) (sc_mat S) (sc_sample S) (E + Bl) (calm Bl) scene_surfaces get ch N N_pos nn n r b). Qed.
Theorem C203_scenes_noise n camera samples_ b : (0 < samples_)%nat ->
  let pixel := grid2 N (fun u => light n (camera u)) in
  let bias := Rmax (1 / 10000 * (INR n * (E + Bl))) (1 / INR N * (E + Bl) * (INR n * INR n)) in
  let shot := bindM (tape * B) (next2 (tape * B) (own_rnd two_of)) (fun u => path n (camera u)) in
  exists J, forall j clk log, (J <= j)%nat -> idle clk ->
    over_tapes N j (fun t => let m := mean (values get (shots samples_ shot (St _ clk (t, b) log))) in (m - pixel) * (m - pixel))
      <= (INR n * (E + Bl)) * (INR n * (E + Bl)) / (4 * INR samples_) + bias * bias.
Proof. exact (C203_noise now hit solid (sc_env S) (sc_evaluate S) (sc_mat S) (sc_sample S) (E + Bl) (calm Bl) scene_surfaces get ch N N_pos nn n camera samples_ b). Qed.
Theorem C203_scenes_bounces rho n k r : 0 <= rho < 1 -> (forall m, all_bsdfs (dull rho) (sc_shader S m)) ->
  light n r <= light (n + k)%nat r <= light n r + (rest (E + Bl) rho n - rest (E + Bl) rho (n + k)).
Proof.
  intros Rh Du. exact (C203_bounces hit solid (sc_env S) (sc_evaluate S) (sc_mat S) (sc_sample S) (E + Bl) (calm Bl) scene_surfaces get ch N N_pos rho n k r _
    (scene_fading rho Rh Du) (gs_start _ _ _ _ _ _ _ scene_surfaces)).
Qed.
End Scenes.
Print Assumptions C203_scenes.
Print Assumptions C203_scenes_noise.
Print Assumptions C203_scenes_bounces.

(** the floor below the lamp: samples along a ray to the spot below the lamp, of power p, have the mean a p / (4 PI^2) *)
Lemma floor_solid r i : scene_hit (VolPath.sheets floor) r = Some i -> i_null i = false.
Proof.
  intros H. unfold scene_hit, first_in in H. apply find_some in H as (H & _). unfold VolPath.sheets, floor in H.
  destruct (Rlt_dec 0 _); [|destruct (Rlt_dec _ 0); [|destruct H]]; cbn in H; destruct H as [<-|[]]; reflexivity.
Qed.
Example C203_case a p N n nn : 0 <= a <= 1 -> 0 <= p -> (0 < N)%nat ->
  lit_scene (floor_scene a p) (VolPath.sheets floor) 1 (fun _ _ _ t => QRet (V3c 1, t)) (fun _ _ _ => (V3c 0, 0)) 0 (p / (4 * PI)) 0 /\
  (exists J, forall j clk log, (J <= j)%nat -> idle clk ->
    let mean := over_tapes N j (fun t => value vx (scene_path (floor_scene a p) (tape * unit) (own_now (fun b => (0, b))) (own_hit (fun l x => (scene_hit (VolPath.sheets floor) x, l))) (own_rnd one_of) (own_rnd two_of)
      (Datatypes.S nn) (Datatypes.S n) floor_ray (St _ clk (t, tt) log))) in
    a / PI * (p / (4 * PI)) - 1 / 10000 * (INR (Datatypes.S n) * (0 + p / (4 * PI))) <= mean
    <= a / PI * (p / (4 * PI)) + 1 / INR N * (0 + p / (4 * PI)) * (INR (Datatypes.S n) * INR (Datatypes.S n))).
Proof.
  intros A P0 N0. assert (Li : lit_scene (floor_scene a p) (VolPath.sheets floor) 1 (fun _ _ _ t => QRet (V3c 1, t)) (fun _ _ _ => (V3c 0, 0)) 0 (p / (4 * PI)) 0) by exact (floor_lit a p A P0).
  split; [exact Li|].
  assert (Lg : arrives_there (scene_hit (VolPath.sheets floor)) (grid1 N) (grid2 N) (sc_env (floor_scene a p)) (sc_evaluate (floor_scene a p)) (sc_mat (floor_scene a p)) (sc_sample (floor_scene a p)) vx (Datatypes.S n) floor_ray (closure_init false true (V3c 0))
    = a / PI * (p / (4 * PI))).
  { rewrite <- (floor_light a p N n (Datatypes.S n) N0 (Datatypes.S (Datatypes.S n))) by lia. symmetry. apply (arrives_solid (M := unit)); [exact floor_solid|lia]. }
  pose proof (C203_scenes (B := unit) (fun b => (0, b)) (floor_scene a p) (VolPath.sheets floor) floor_solid 1 0 (p / (4 * PI)) Li N N0 vx (or_introl eq_refl) nn (Datatypes.S n) floor_ray tt) as H.
  rewrite Lg in H. exact H.
Qed.
