(** C21, C55-C58, C82-C85: the integrators. *)
From Coq Require Import Reals List Bool String Lia Lra.
From Coquelicot Require Import Coquelicot.
From Verif.Base Require Import Outcome.
From Verif.Model Require Import Vec Frame BBox Warp Clocker Integrators.
From Verif.Spec Require Import IntegratorSpec.
From Verif.Proof Require Import IntegratorProof EstimateProof.
Import ListNotations.
Open Scope R_scope.

Lemma runs_clean {W A} (m : M W A) s E T : runs m (actives (s_clk W s)) (actives (s_clk W s)) E T -> clean (m s) s.
Proof. intros R0. destruct (R0 s (fun _ => eq_refl)) as (h&_&O). unfold clean. destruct (fst (m s)); tauto. Qed.
Lemma runs_result {W A} (m : M W A) s E T : runs m (actives (s_clk W s)) (actives (s_clk W s)) E T ->
  forall a s', m s = (Ok a, s') -> exists h, s_log W s' = s_log W s ++ h /\ E h a.
Proof. intros R0 a s' Eq. destruct (R0 s (fun _ => eq_refl)) as (h&L&O). rewrite Eq in *. cbn [fst snd] in *. exists h. tauto. Qed.

Section Claims.
Context {W : Type}.
Variable now : W -> R * W.
Variable hit : W -> ray -> option isect * W.
Variable rnd1 : W -> R * W.
Variable rnd2 : W -> vec2 * W.
Variable env : ray -> vec3.
Variable sh_evaluate : isect -> ray -> closure -> query closure.
Variable sh_mat : isect -> vec3 -> vec3 -> vec3.
Variable sh_sample : isect -> closure -> query closure.
Variable nn_fuel : nat.
Notation path := (path_Li W now hit rnd1 rnd2 env sh_evaluate sh_mat sh_sample nn_fuel).
Notation whitted := (whitted_Li W now hit rnd1 rnd2 env sh_evaluate sh_mat sh_sample nn_fuel).
Notation ao := (amb_occ_Li W now hit rnd2 nn_fuel).

(** C21: whatever the scene, shaders and random numbers answer, no clock error is raised and every
    clock is left as it was found *)
Theorem C21_path_clocks n r s : idle (s_clk W s) -> clean (path n r s) s.
Proof. intros I. eapply runs_clean, runs_path, I. Qed.
Theorem C21_whitted_clocks n r s : idle (s_clk W s) -> clean (whitted n r s) s.
Proof. intros I. eapply runs_clean, runs_whitted, I. Qed.
Theorem C21_amb_occ_clocks r s : idle (s_clk W s) -> clean (ao r s) s.
Proof. intros I. eapply runs_clean, runs_amb_occ, I. Qed.

(** C55: at most [n] rays are cast and at most [n] surfaces are shaded, however the run ends *)
Theorem C55_bounce_limit n r s : idle (s_clk W s) ->
  exists h, s_log W (snd (path n r s)) = s_log W s ++ h /\ (rays_cast h <= n)%nat /\ (surfaces h <= n)%nat.
Proof.
  intros I. destruct (runs_path now hit rnd1 rnd2 env sh_evaluate sh_mat sh_sample nn_fuel n (V3c 0) (V3c 1) r
    (closure_init false true (V3c 0)) _ I s (fun _ => eq_refl)) as (h&L&O).
  exists h. split; [exact L|]. unfold path_Li. destruct (fst _); tauto.
Qed.

(** ... and the call returns: unless infinitely many null boundaries lie on one ray (here: none),
    every path, with any shaders and any random numbers, ends with a value *)
Theorem C55_terminates n r s : idle (s_clk W s) -> nn_fuel <> O ->
  (forall w r i, fst (hit w r) = Some i -> i_null i = false) ->
  exists Li s', path n r s = (Ok Li, s').
Proof.
  intros I F N. pose proof (C21_path_clocks n r s I) as C. unfold clean in C.
  pose proof (path_no_fuel now hit rnd1 rnd2 env sh_evaluate sh_mat sh_sample nn_fuel F N n (V3c 0) (V3c 1) r (closure_init false true (V3c 0)) s) as NF.
  fold (path_Li W now hit rnd1 rnd2 env sh_evaluate sh_mat sh_sample nn_fuel n r) in NF.
  destruct (path n r s) as [[a|m| |] s'] eqn:E; simpl in *; try contradiction; eauto.
Qed.

(** C56: the radiance is the sum over the vertices of the carried weight times the light found
    there, plus the carried weight times the environment if the path escapes *)
Theorem C56_sum_of_contributions n r s Li s' : keeps_light sh_sample -> idle (s_clk W s) ->
  path n r s = (Ok Li, s') ->
  exists h, s_log W s' = s_log W s ++ h /\ Li = estimate env (V3c 1) h.
Proof.
  intros K I E. destruct (runs_result _ _ _ _ (runs_path now hit rnd1 rnd2 env sh_evaluate sh_mat sh_sample nn_fuel n (V3c 0) (V3c 1) r
    (closure_init false true (V3c 0)) _ I) _ _ E) as (h&L&_&_&V).
  exists h. split; [exact L|]. rewrite (V K). apply vec3_eq; simpl; ring.
Qed.

(** with shaders that never return negative light, albedo or density, and a non-negative
    environment, the radiance is not negative *)
Theorem C56_nonnegative n r s Li s' : keeps_light sh_sample -> physical_shaders sh_evaluate sh_mat sh_sample ->
  idle (s_clk W s) -> (forall r, nonneg (env r)) -> path n r s = (Ok Li, s') -> nonneg Li.
Proof.
  intros K Ph I En E. destruct (C56_sum_of_contributions n r s Li s' K I E) as (h&L&->).
  assert (N0 : nonneg (V3c 0)) by (repeat split; simpl; lra).
  destruct (path_physical now hit rnd1 rnd2 env sh_evaluate sh_mat sh_sample nn_fuel physical_event n (V3c 0) (V3c 1) r (closure_init false true (V3c 0))
    Ph (fun _ x => x)) with (s := s) as (h'&L'&F&_).
  { repeat split; simpl; try apply N0; constructor. }
  unfold path_Li in E. rewrite E in L'. simpl in L'. rewrite L in L'. apply app_inv_head in L'. subst h'.
  rewrite Forall_forall in F. apply estimate_nonneg; auto; [repeat split; simpl; lra|].
  split; intros i c Hin; exact (F _ Hin).
Qed.

(** C57 *)
Theorem C57_zero_or_one r s v s' : idle (s_clk W s) -> ao r s = (Ok v, s') ->
  exists h, s_log W s' = s_log W s ++ h /\
    ((h = [HRay r None] /\ v = V3c 0) \/
     exists i u b, h = [HRay r (Some i); HPoint u; HRay (ao_ray i u) b] /\
       (b = None -> v = V3c 1) /\ (b <> None -> v = V3c 0)).
Proof.
  intros I E. destruct (runs_result _ _ _ _ (runs_amb_occ now hit rnd2 nn_fuel r _ I) _ _ E) as (h&L&[O|(i&u&b&->&->)]).
  - exists h. split; [exact L|auto].
  - eexists. split; [exact L|]. right. exists i, u, b. split; [reflexivity|]. destruct b; split; congruence.
Qed.

(** C58: every value Whitted returns, by history; on a non-specular surface the emission is counted
    twice *)
Theorem C58_whitted_values n r s v s' : idle (s_clk W s) -> whitted n r s = (Ok v, s') ->
  exists h, s_log W s' = s_log W s ++ h /\ whitted_value env h v.
Proof.
  intros I E. destruct (runs_result _ _ _ _ (runs_whitted now hit rnd1 rnd2 env sh_evaluate sh_mat sh_sample nn_fuel n r _ I) _ _ E) as (h&L&V&_).
  eauto.
Qed.
Theorem C58_surface_value n r s v s' i c : idle (s_clk W s) -> whitted n r s = (Ok v, s') ->
  s_log W s = [] -> s_log W s' = [HRay r (Some i); HShade i c] ->
  v = vadd (c_nee c) (vscale (c_emission c) 2) /\
  (v = vadd (c_emission c) (c_nee c) <-> c_emission c = V3c 0).
Proof.
  intros I E L0 L. destruct (C58_whitted_values n r s v s' I E) as (h&Lh&V). rewrite L0, L in Lh. simpl in Lh. subst h.
  inversion V; subst. assert (E2 : vadd (c_nee c) (vadd (c_emission c) (c_emission c)) = vadd (c_nee c) (vscale (c_emission c) 2)).
  { apply vec3_eq; simpl; ring. }
  split; [exact E2|]. split; intros H.
  - apply vec3_eq; [apply (f_equal vx) in H|apply (f_equal vy) in H|apply (f_equal vz) in H]; simpl in *; lra.
  - rewrite H. apply vec3_eq; simpl; ring.
Qed.

(** C82: debug views *)
Theorem C82_normal_view r s : idle (s_clk W s) ->
  clean (normal_Li W now hit nn_fuel r s) s /\
  forall v s', normal_Li W now hit nn_fuel r s = (Ok v, s') -> exists h, s_log W s' = s_log W s ++ h /\
    ((h = [HRay r None] /\ v = V3c 0) \/ exists i, h = [HRay r (Some i)] /\ v = vabs (fn (i_s i))).
Proof.
  intros I. pose proof (runs_normal now hit nn_fuel r _ I) as R0. split; [exact (runs_clean _ _ _ _ R0)|].
  intros v s' E. exact (runs_result _ _ _ _ R0 _ _ E).
Qed.
Theorem C82_nice_normal_view r s : idle (s_clk W s) ->
  clean (nice_normal_Li W now hit nn_fuel r s) s /\
  forall v s', nice_normal_Li W now hit nn_fuel r s = (Ok v, s') -> exists h, s_log W s' = s_log W s ++ h /\
    ((h = [HRay r None] /\ v = V3c 0) \/
     exists i, h = [HRay r (Some i)] /\ (norm (fn (i_s i)) = 1 -> nonneg v /\ le3 v (V3c 1)) /\
       fn (i_s i) = vsub (vscale v 2) (V3c 1)).
Proof.
  intros I. pose proof (runs_nice_normal now hit nn_fuel r _ I) as R0. split; [exact (runs_clean _ _ _ _ R0)|].
  intros v s' E. destruct (runs_result _ _ _ _ R0 _ _ E) as (h&L&[O|(i&->&->)]); eexists; (split; [exact L|]); [left; exact O|].
  right. exists i. split; [reflexivity|]. split; [|apply vec3_eq; simpl; field].
  intros N. destruct (fn (i_s i)) as [a b c]. unfold norm in N; simpl in N.
  assert (S0 : a * a + b * b + c * c = 1).
  { rewrite <- (sqrt_sqrt (a * a + b * b + c * c)) by nra. rewrite N. ring. }
  unfold nonneg, le3; simpl. repeat split; nra.
Qed.
Theorem C82_cosine_view r s : idle (s_clk W s) ->
  clean (cosine_Li W now hit nn_fuel r s) s /\
  forall v s', cosine_Li W now hit nn_fuel r s = (Ok v, s') -> exists h, s_log W s' = s_log W s ++ h /\
    ((h = [HRay r None] /\ v = V3c (-2)) \/
     exists i, h = [HRay r (Some i)] /\ v = V3c (dot (fn (i_s i)) (dir r))).
Proof.
  intros I. pose proof (runs_cosine now hit nn_fuel r _ I) as R0. split; [exact (runs_clean _ _ _ _ R0)|].
  intros v s' E. exact (runs_result _ _ _ _ R0 _ _ E).
Qed.
Theorem C82_wireframe_view r s : idle (s_clk W s) ->
  clean (bary_Li W now hit nn_fuel r s) s /\
  forall v s', bary_Li W now hit nn_fuel r s = (Ok v, s') -> exists h, s_log W s' = s_log W s ++ h /\
    ((h = [HRay r None] /\ v = V3c (-2)) \/
     exists i, h = [HRay r (Some i)] /\
       let b := i_bary i in
       ((v = V3c 1 /\ (vx b < 1 / 100 \/ vy b < 1 / 100 \/ vz b < 1 / 100)) \/
        (v = V3c 0 /\ 1 / 100 <= vx b /\ 1 / 100 <= vy b /\ 1 / 100 <= vz b))).
Proof.
  intros I. pose proof (runs_bary now hit nn_fuel r _ I) as R0. split; [exact (runs_clean _ _ _ _ R0)|].
  intros v s' E. destruct (runs_result _ _ _ _ R0 _ _ E) as (h&L&[O|(i&->&O)]); eexists; (split; [exact L|]); [left; exact O|].
  right. exists i. split; [reflexivity|]. cbv zeta.
  destruct O as [[O ->]|[O ->]]; [left|right]; (split; [reflexivity|]).
  - unfold Rmin in O. repeat destruct (Rle_dec _ _) in O; lra.
  - pose proof (Rmin_l (vx (i_bary i)) (Rmin (vy (i_bary i)) (vz (i_bary i)))). pose proof (Rmin_r (vx (i_bary i)) (Rmin (vy (i_bary i)) (vz (i_bary i)))).
    pose proof (Rmin_l (vy (i_bary i)) (vz (i_bary i))). pose proof (Rmin_r (vy (i_bary i)) (vz (i_bary i))). lra.
Qed.

(** C83: a whole render with any of these integrators raises no clock error *)
Theorem C83_render_clocks (Li : ray -> M W vec3) camera film s :
  In Li [ao; normal_Li W now hit nn_fuel; nice_normal_Li W now hit nn_fuel;
         cosine_Li W now hit nn_fuel; bary_Li W now hit nn_fuel] \/
  (exists n, Li = path n) \/ (exists n, Li = whitted n) ->
  idle_render (s_clk W s) -> clean (render W now rnd2 Li camera film s) s /\
  forall xs s', render W now rnd2 Li camera film s = (Ok xs, s') -> List.length xs = List.length film.
Proof.
  intros H I.
  assert (Any : forall (m : M W vec3) f E T, runs m f f E T -> runs m f f (fun _ _ => True) (fun _ => True))
    by (intros m f E T R0; eapply runs_conv; [exact R0|auto..]).
  assert (S0 : safe_Li Li).
  { intros r f F. destruct H as [H|[[n ->]|[n ->]]].
    - simpl in H. destruct H as [<-|[<-|[<-|[<-|[<-|[]]]]]].
      + exact (Any _ _ _ _ (runs_amb_occ now hit rnd2 nn_fuel r f F)).
      + exact (Any _ _ _ _ (runs_normal now hit nn_fuel r f F)).
      + exact (Any _ _ _ _ (runs_nice_normal now hit nn_fuel r f F)).
      + exact (Any _ _ _ _ (runs_cosine now hit nn_fuel r f F)).
      + exact (Any _ _ _ _ (runs_bary now hit nn_fuel r f F)).
    - exact (Any _ _ _ _ (runs_path now hit rnd1 rnd2 env sh_evaluate sh_mat sh_sample nn_fuel n (V3c 0) (V3c 1) r (closure_init false true (V3c 0)) f F)).
    - exact (Any _ _ _ _ (runs_whitted now hit rnd1 rnd2 env sh_evaluate sh_mat sh_sample nn_fuel n r f F)). }
  pose proof (runs_render now rnd2 Li camera film _ S0 I) as R0. split; [exact (runs_clean _ _ _ _ R0)|].
  intros xs s' E. destruct (runs_result _ _ _ _ R0 _ _ E) as (h&_&L). exact L.
Qed.
End Claims.
Print Assumptions C21_path_clocks.
Print Assumptions C21_whitted_clocks.
Print Assumptions C21_amb_occ_clocks.
Print Assumptions C55_bounce_limit.
Print Assumptions C55_terminates.
Print Assumptions C56_sum_of_contributions.
Print Assumptions C56_nonnegative.
Print Assumptions C57_zero_or_one.
Print Assumptions C58_whitted_values.
Print Assumptions C58_surface_value.
Print Assumptions C82_normal_view.
Print Assumptions C82_nice_normal_view.
Print Assumptions C82_cosine_view.
Print Assumptions C82_wireframe_view.
Print Assumptions C83_render_clocks.

(** C56: more light at any vertex, or a brighter environment, never lowers the radiance *)
Theorem C56_monotone env env' h h' : physical h ->
  scatterings h = scatterings h' -> escape h = escape h' -> Forall2 le3 (lights h) (lights h') ->
  (forall r, le3 (env r) (env' r)) -> le3 (estimate env (V3c 1) h) (estimate env' (V3c 1) h').
Proof. intros P S0 E L En. apply estimate_mono; auto. repeat split; simpl; lra. Qed.
Print Assumptions C56_monotone.

(** C84: the path roulette: averaged over the random number, the weight of the continued path is
    the weight without roulette *)
Theorem C84_path_roulette_unbiased beta i c : 0 < maxValue beta -> c_pdf c <> 0 ->
  let continued := fun (get : vec3 -> R) u => if Rgt_dec u (rr_prob beta) then 0 else get (vmul beta (attenuation beta (i, c))) in
  let cosine := if c_spec c then 1 else Rabs (dot (fn (i_s i)) (toWorld (i_s i) (c_wo c))) in
  let full := vscale (vmul beta (c_albedo c)) (cosine / c_pdf c) in
  is_RInt (continued vx) 0 1 (vx full) /\ is_RInt (continued vy) 0 1 (vy full) /\ is_RInt (continued vz) 0 1 (vz full).
Proof.
  intros B P. cbv zeta.
  assert (S0 : 0 < rr_prob beta) by (unfold rr_prob; apply Rmin_pos; lra).
  assert (G : forall x y, y = x * / rr_prob beta -> is_RInt (fun u => if Rgt_dec u (rr_prob beta) then 0 else y) 0 1 x).
  { intros x y ->. assert (rr_prob beta <= 1) by apply Rmin_r.
    assert (K := step_integral (rr_prob beta) (x * / rr_prob beta) 0 ltac:(lra)).
    replace (rr_prob beta * (x * / rr_prob beta) + (1 - rr_prob beta) * 0) with x in K by (field; lra). exact K. }
  rewrite rr_survival in *. unfold attenuation.
  set (k := if c_spec c then 1 else _).
  repeat split; apply G; cbn [vmul vscale vx vy vz]; field; split; lra.
Qed.
Print Assumptions C84_path_roulette_unbiased.

(** C58 refuted in a concrete run: a glowing surface, lit by nothing, seen by the camera *)
Definition demo_cl (c : closure) : closure :=
  Closure (c_wi c) (V3 0 0 1) [] (V3c (1 / 2)) (V3c 3) (V3c 0) (/ 2) 1 false false false true.
Definition demo_frame : frame := Fr (V3 1 0 0) (V3 0 1 0) (V3 0 0 1).
Definition demo_isect : isect := Isect (V3 0 0 0) 1 (V3 (1 / 3) (1 / 3) (1 / 3)) demo_frame demo_frame 0 false.
Definition demo_ray : ray := Ray (V3 0 0 1) (V3 0 0 (-1)) (Finite 0) p_infty.
Definition demo_now (w : nat) : R * nat := (0, w).
(** the first ray meets the surface, every other ray leaves the scene *)
Definition demo_hit (w : nat) (_ : ray) : option isect * nat := (match w with O => Some demo_isect | _ => None end, S w).
Definition demo_rnd1 (w : nat) : R * nat := (1 / 2, w).
Definition demo_rnd2 (w : nat) : vec2 * nat := (V2 (1 / 2) (1 / 2), w).
Definition demo_env (_ : ray) : vec3 := V3c 7.
Definition demo_sh (_ : isect) (_ : ray) (c : closure) : query closure := QRet (demo_cl c).
Definition demo_mat (_ : isect) (_ _ : vec3) : vec3 := V3c (1 / 2).
Definition demo_sample (_ : isect) (c : closure) : query closure := QRand2 (fun _ => QRet
  (Closure (c_wi c) (V3 0 0 1) [] (V3c (1 / 2)) (c_emission c) (c_nee c) (1 / 2) 1 false false false true)).
Definition demo_st : st nat := St nat clk_init 0%nat [].
Definition demo_spec_sample (_ : isect) (c : closure) : query closure :=
  QRand2 (fun _ => QRet (Closure (c_wi c) (V3 0 0 1) [] (V3c 1) (c_emission c) (c_nee c) 1 1 true true false true)).

Ltac run := cbv -[Rplus Rmult Rminus Ropp Rinv Rdiv IZR sqrt Rlt_dec Rgt_dec Req_EM_T Rle_dec cos sin PI Rmin isZero_dec isZero].

Lemma idle_init : idle (s_clk nat demo_st).
Proof. intros c _. reflexivity. Qed.

(** evaluating an operation that stops the clocks and returns a value *)
Notation demo_whitted := (whitted_Li nat demo_now demo_hit demo_rnd1 demo_rnd2 demo_env demo_sh demo_mat demo_sample 1).
Notation demo_path := (path_Li nat demo_now demo_hit demo_rnd1 demo_rnd2 demo_env demo_sh demo_mat demo_sample 1).
Notation demo_ao := (amb_occ_Li nat demo_now demo_hit demo_rnd2 1).

Lemma demo_whitted_run : exists v s' c, demo_whitted 3%nat demo_ray demo_st = (Ok v, s') /\
  s_log nat s' = [HRay demo_ray (Some demo_isect); HShade demo_isect c] /\ c_emission c = V3c 3 /\ c_nee c = V3c 0.
Proof.
  destruct (demo_whitted 3%nat demo_ray demo_st) as [o s'] eqn:E.
  assert (L : exists c, s_log nat s' = [HRay demo_ray (Some demo_isect); HShade demo_isect c] /\ c_emission c = V3c 3 /\ c_nee c = V3c 0).
  { replace s' with (snd (demo_whitted 3%nat demo_ray demo_st)) by (rewrite E; reflexivity). run. eexists. split; [reflexivity|split; reflexivity]. }
  assert (O : exists v, o = Ok v).
  { replace o with (fst (demo_whitted 3%nat demo_ray demo_st)) by (rewrite E; reflexivity). run. eexists. reflexivity. }
  destruct L as (c&L), O as (v&->). exists v, s', c. split; [reflexivity|exact L].
Qed.

(** the claim "on a non-specular surface Whitted returns emission + direct light" is false *)
Theorem C58_emission_once_refuted :
  ~ (forall W now hit rnd1 rnd2 env ev mat sample nn n r (s : st W) v s' i c, idle (s_clk W s) ->
       whitted_Li W now hit rnd1 rnd2 env ev mat sample nn n r s = (Ok v, s') ->
       s_log W s = [] -> s_log W s' = [HRay r (Some i); HShade i c] -> v = vadd (c_emission c) (c_nee c)).
Proof.
  intros H. destruct demo_whitted_run as (v&s'&c&E&L&Em&_).
  pose proof (H _ _ _ _ _ _ _ _ _ _ _ _ _ _ _ _ _ idle_init E eq_refl L) as X.
  destruct (C58_surface_value demo_now demo_hit demo_rnd1 demo_rnd2 demo_env demo_sh demo_mat demo_sample 1 3 demo_ray demo_st v s' demo_isect c
    idle_init E eq_refl L) as [_ [K _]].
  specialize (K X). rewrite Em in K. apply (f_equal vx) in K. simpl in K. lra.
Qed.
Print Assumptions C58_emission_once_refuted.
(** a lamp of radiance 3 seen directly gives 6 *)
Example C58_case : exists s', demo_whitted 3%nat demo_ray demo_st = (Ok (V3c 6), s').
Proof.
  destruct demo_whitted_run as (v&s'&c&E&L&Em&Nee). exists s'. rewrite E. repeat f_equal.
  destruct (C58_surface_value demo_now demo_hit demo_rnd1 demo_rnd2 demo_env demo_sh demo_mat demo_sample 1 3 demo_ray demo_st v s' demo_isect c
    idle_init E eq_refl L) as [-> _]. rewrite Em, Nee. apply vec3_eq; simpl; lra.
Qed.

(** C85: Whitted's roulette: averaged over the random number, a specular vertex is worth
    0.95 (emission + direct) + albedo * v, so the roulette is unbiased exactly if the vertex itself
    contributes no light *)
Theorem C85_expected_value env r i c c' h v (V : R -> vec3) : c_spec c = true -> ~ negligible (vdiv (c_albedo c') (95 / 100)) ->
  (exists a h', h = HRay (Ray (i_p i) (toWorld (i_s i) (c_wo c')) (Finite (1 / 1000)) p_infty) a :: h') ->
  whitted_value env h v ->
  (forall u, whitted_value env (HRay r (Some i) :: HShade i c :: HSample i c' :: HRoulette u :: (if Rgt_dec u (95 / 100) then [] else h)) (V u) ) ->
  let light := vadd (c_emission c') (c_nee c') in
  let exact := vadd (vmul (c_albedo c') v) light in
  let mean := vadd (vmul (c_albedo c') v) (vscale light (95 / 100)) in
  is_RInt (fun u => vx (V u)) 0 1 (vx mean) /\ is_RInt (fun u => vy (V u)) 0 1 (vy mean) /\ is_RInt (fun u => vz (V u)) 0 1 (vz mean) /\
  (mean = exact <-> light = V3c 0).
Proof.
  intros Sp NZ Hh Hv HV. cbv zeta.
  assert (VV : forall u, V u = if Rgt_dec u (95 / 100) then V3c 0 else
     vadd (vmul (vdiv (c_albedo c') (95 / 100)) v) (vadd (c_emission c') (c_nee c'))).
  { intros u. specialize (HV u). destruct Hh as (a&h'&->). destruct (Rgt_dec u (95 / 100)).
    - inversion HV; subst; try reflexivity; lra.
    - inversion HV; subst. f_equal. f_equal. eapply whitted_value_fun; eassumption. }
  assert (G : forall x y, 95 / 100 * y = x -> is_RInt (fun u => if Rgt_dec u (95 / 100) then 0 else y) 0 1 x).
  { intros x y <-. replace (95 / 100 * y) with (95 / 100 * y + (1 - 95 / 100) * 0) by ring. apply step_integral; lra. }
  set (X := vadd (vmul (vdiv (c_albedo c') (95 / 100)) v) (vadd (c_emission c') (c_nee c'))) in *.
  repeat split.
  - apply (is_RInt_ext (fun u => if Rgt_dec u (95 / 100) then 0 else vx X)); [intros u _; rewrite VV; destruct (Rgt_dec u (95 / 100)); reflexivity|].
    apply G. unfold X; simpl; field.
  - apply (is_RInt_ext (fun u => if Rgt_dec u (95 / 100) then 0 else vy X)); [intros u _; rewrite VV; destruct (Rgt_dec u (95 / 100)); reflexivity|].
    apply G. unfold X; simpl; field.
  - apply (is_RInt_ext (fun u => if Rgt_dec u (95 / 100) then 0 else vz X)); [intros u _; rewrite VV; destruct (Rgt_dec u (95 / 100)); reflexivity|].
    apply G. unfold X; simpl; field.
  - intros H. apply vec3_eq; [apply (f_equal vx) in H|apply (f_equal vy) in H|apply (f_equal vz) in H]; simpl in *; lra.
  - intros H. rewrite H. apply vec3_eq; simpl; ring.
Qed.
Print Assumptions C85_expected_value.

(** a glowing mirror in front of a lit background: the hypotheses are met and the mean is too dark *)
Theorem C85_roulette_unbiased_refuted :
  exists env r i c c' h v (V : R -> vec3),
    c_spec c = true /\ whitted_value env h v /\
    (forall u, whitted_value env (HRay r (Some i) :: HShade i c :: HSample i c' :: HRoulette u :: (if Rgt_dec u (95 / 100) then [] else h)) (V u)) /\
    vadd (vmul (c_albedo c') v) (vadd (c_emission c') (c_nee c')) = V3c 10 /\
    is_RInt (fun u => vx (V u)) 0 1 (985 / 100).
Proof.
  set (c := Closure (V3 0 0 1) (V3 0 0 1) [] (V3c 1) (V3c 3) (V3c 0) 1 1 true true false true).
  set (h := [HRay (Ray (V3 0 0 0) (toWorld demo_frame (V3 0 0 1)) (Finite (1 / 1000)) p_infty) None]).
  assert (NZ : ~ isZero (vdiv (c_albedo c) (95 / 100))).
  { intros [X _]. subst c. cbn [vdiv c_albedo vx V3c] in X. rewrite Rabs_pos_eq in X; lra. }
  assert (Hh : exists a h', h = HRay (Ray (i_p demo_isect) (toWorld (i_s demo_isect) (c_wo c)) (Finite (1 / 1000)) p_infty) a :: h')
    by (exists None, []; reflexivity).
  assert (Hv : whitted_value demo_env h (V3c 7)) by apply (wv_miss demo_env).
  pose (V := fun u => if Rgt_dec u (95 / 100) then V3c 0 else
     vadd (vmul (vdiv (c_albedo c) (95 / 100)) (V3c 7)) (vadd (c_emission c) (c_nee c))).
  assert (HV : forall u, whitted_value demo_env (HRay demo_ray (Some demo_isect) :: HShade demo_isect c :: HSample demo_isect c :: HRoulette u :: (if Rgt_dec u (95 / 100) then [] else h)) (V u)).
  { intros u. unfold V. destruct (Rgt_dec u (95 / 100)).
    - apply wv_killed; [reflexivity|lra].
    - apply wv_bounce; [reflexivity|lra|exact NZ|exact Hh|exact Hv]. }
  exists demo_env, demo_ray, demo_isect, c, c, h, (V3c 7), V. split; [reflexivity|]. split; [exact Hv|]. split; [exact HV|]. split.
  - subst c. apply vec3_eq; simpl; ring.
  - destruct (C85_expected_value demo_env demo_ray demo_isect c c h (V3c 7) V eq_refl NZ Hh Hv HV) as [X _].
    cbn [vadd vmul vscale vx c_albedo c_emission c_nee V3c c] in X. replace (1 * 7 + (3 + 0) * (95 / 100)) with (985 / 100) in X by field. exact X.
Qed.
Print Assumptions C85_roulette_unbiased_refuted.

(** concrete cases: one scene, every integrator; the hypotheses of the theorems above hold *)
Lemma demo_keeps : keeps_light demo_sample.
Proof.
  intros i c c' H. unfold demo_sample in H. inversion H as [| | |k u a L E1 E2].
  clear -L. inversion L. split; reflexivity.
Qed.

Example C55_case : exists Li s', demo_path 4%nat demo_ray demo_st = (Ok Li, s').
Proof. apply C55_terminates; [exact idle_init|discriminate|]. intros [|w] r i H; simpl in H; [injection H as <-; reflexivity|discriminate]. Qed.

Lemma demo_physical : physical_shaders demo_sh demo_mat demo_sample.
Proof.
  assert (P : forall x, 0 <= x -> nonneg (V3c x)) by (intros; repeat split; simpl; lra).
  split; [|split].
  - intros i r c c' _ H. inversion H. split; [|split]; [apply P; lra|apply P; lra|constructor].
  - intros i a b. apply P. lra.
  - intros i c c' (E&N&_) H. unfold demo_sample in H. inversion H as [| | |k u a L E1 E2]. clear -P E N L. inversion L.
    split; [split; [exact E|split; [exact N|constructor]]|]. split; [apply P; lra|simpl; lra].
Qed.
Example C56_case : exists Li s' h, demo_path 4%nat demo_ray demo_st = (Ok Li, s') /\
  s_log nat s' = h /\ Li = estimate demo_env (V3c 1) h /\ nonneg Li.
Proof.
  destruct C55_case as (Li&s'&E).
  destruct (C56_sum_of_contributions demo_now demo_hit demo_rnd1 demo_rnd2 demo_env demo_sh demo_mat demo_sample 1 4 demo_ray demo_st Li s' demo_keeps idle_init E) as (h&L&V).
  exists Li, s', h. repeat split; [exact E|exact L|exact V|..];
    apply (C56_nonnegative demo_now demo_hit demo_rnd1 demo_rnd2 demo_env demo_sh demo_mat demo_sample 1 4 demo_ray demo_st Li s' demo_keeps demo_physical idle_init
      (fun _ => ltac:(repeat split; simpl; lra)) E).
Qed.
(** two vertices and an escape: 3 + (1/2)/(1/2) (5 + (1/2)/(1/2) 7) *)
Definition demo_vertex (e : R) : closure := Closure (V3 0 0 1) (V3 0 0 1) [] (V3c (1 / 2)) (V3c e) (V3c 0) (1 / 2) 1 false false false true.
Definition demo_history (e : R) : list event :=
  [HRay demo_ray (Some demo_isect); HShade demo_isect (demo_vertex 3); HRoulette (1 / 2); HSample demo_isect (demo_vertex 3);
   HRay demo_ray (Some demo_isect); HShade demo_isect (demo_vertex e); HRoulette (1 / 2); HSample demo_isect (demo_vertex 3);
   HRay demo_ray None].
Example C56_estimate_case : estimate demo_env (V3c 1) (demo_history 5) = V3c 15.
Proof.
  assert (A : forall e, attenuation (V3c 1) (demo_isect, demo_vertex e) = V3c 1).
  { intros e. unfold attenuation, survival. cbn [demo_vertex c_spec c_wo c_albedo c_pdf demo_isect i_s demo_frame fn fs ft toWorld dot vx vy vz V3c vadd vscale].
    replace (Rmin 1 (Rmax 1 (Rmax 1 1))) with 1 by (unfold Rmax, Rmin; repeat destruct (Rle_dec _ _); lra).
    assert (Ab : Rabs (dot (fn demo_frame) (toWorld demo_frame (V3 0 0 1))) = 1) by (unfold dot, toWorld; cbn; rewrite Rabs_pos_eq; lra).
    cbn [fn demo_frame] in *. rewrite Ab. apply vec3_eq; simpl; field. }
  unfold estimate. cbn [demo_history scatterings lights escape surfaces List.length carried zip_mul nth].
  rewrite A. replace (vmul (V3c 1) (V3c 1)) with (V3c 1) by (apply vec3_eq; simpl; ring). rewrite A.
  replace (vmul (V3c 1) (V3c 1)) with (V3c 1) by (apply vec3_eq; simpl; ring). apply vec3_eq; simpl; ring.
Qed.
Example C56_monotone_case : le3 (estimate demo_env (V3c 1) (demo_history 5)) (estimate demo_env (V3c 1) (demo_history 6)).
Proof.
  apply C56_monotone; try reflexivity.
  - split; intros i c H; simpl in H; repeat (destruct H as [H|H]; [try discriminate; injection H as <- <-|]); try contradiction; repeat split; simpl; lra.
  - repeat constructor; simpl; lra.
  - intros r. repeat split; simpl; lra.
Qed.

Example C21_case : clean (demo_path 4%nat demo_ray demo_st) demo_st /\ clean (demo_whitted 3%nat demo_ray demo_st) demo_st /\ clean (demo_ao demo_ray demo_st) demo_st.
Proof. split; [|split]; [apply C21_path_clocks|apply C21_whitted_clocks|apply C21_amb_occ_clocks]; exact idle_init. Qed.

(** the surface is seen, the occlusion ray leaves the scene *)
Example C57_case : fst (demo_ao demo_ray demo_st) = Ok (V3c 1).
Proof. reflexivity. Qed.

Example C82_case : exists v s', nice_normal_Li nat demo_now demo_hit 1 demo_ray demo_st = (Ok v, s') /\ s_log nat s' = [HRay demo_ray (Some demo_isect)] /\
  V3 0 0 1 = vsub (vscale v 2) (V3c 1).
Proof.
  destruct (nice_normal_Li nat demo_now demo_hit 1 demo_ray demo_st) as [o s'] eqn:E.
  assert (X : exists v, o = Ok v) by (replace o with (fst (nice_normal_Li nat demo_now demo_hit 1 demo_ray demo_st)) by (rewrite E; reflexivity); eexists; reflexivity).
  assert (Y : s_log nat s' = [HRay demo_ray (Some demo_isect)]) by (replace s' with (snd (nice_normal_Li nat demo_now demo_hit 1 demo_ray demo_st)) by (rewrite E; reflexivity); reflexivity).
  destruct X as (v&->). exists v, s'. split; [reflexivity|]. split; [exact Y|].
  destruct (C82_nice_normal_view demo_now demo_hit 1 demo_ray demo_st idle_init) as [_ V]. destruct (V v s' E) as (h&L&[[Hh _]|(i&Hh&_&N)]);
    rewrite Y in L; simpl in L; subst h; [discriminate|]. injection Hh as <-. exact N.
Qed.

(** two camera samples with the path integrator, two with ambient occlusion *)
Example C83_case (camera : nat -> vec2 -> vec2 -> ray) :
  clean (render nat demo_now demo_rnd2 (demo_path 4%nat) camera [0%nat; 1%nat] demo_st) demo_st /\
  clean (render nat demo_now demo_rnd2 demo_ao camera [0%nat; 1%nat] demo_st) demo_st.
Proof.
  split; apply (C83_render_clocks demo_now demo_hit demo_rnd1 demo_rnd2 demo_env demo_sh demo_mat demo_sample 1);
    try (intros c _; reflexivity); [right; left; eauto|left; simpl; tauto].
Qed.

(** throughput 1/4: a quarter of the paths survives, with weight 4 *)
Example C84_case : 0 < maxValue (V3c (1 / 4)) /\ c_pdf (demo_vertex 3) <> 0 /\ rr_prob (V3c (1 / 4)) = 1 / 4.
Proof.
  assert (E : maxValue (V3c (1 / 4)) = 1 / 4) by (unfold maxValue; simpl; repeat destruct (Rgt_dec _ _); lra).
  unfold rr_prob. rewrite E. repeat split; [lra|simpl; lra|]. unfold Rmin. destruct (Rle_dec _ _); lra.
Qed.
