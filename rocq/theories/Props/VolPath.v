(** C142-C154: the volumetric path integrators. *)
From Coq Require Import Reals List Bool Lia Lra String.
From Coquelicot Require Import Rbar Coquelicot.
From Verif.Base Require Import Outcome.
From Verif.Model Require Import Vec Frame BBox Warp Clocker Integrators Bsdf Scene Phase VolPath.
From Verif.Spec Require Import LinAlgSpec IntegratorSpec PathSpec SceneSpec VolPathSpec.
From Verif.Proof Require Import VecLemmas IntegratorProof HistoryProof EstimateProof SceneProof VolPathProof VolPathTheory.
From Verif.Props Require Integrators.
From Verif.Props Require Import Lighting.
Import ListNotations.
Open Scope R_scope.

Section Claims.
Context {M : Type}.
Variable env : ray -> vec3.
Variable boundary : nat -> option (option M * option M).
Variable med_sample : M -> option bool -> ray -> R -> query (vec3 * R).
Variable phase_sample : M -> vec3 -> vec2 -> vec3 * R.
Variable nee_media : bool -> bool -> isect -> option M -> query (list emitter_eval).
Variable ev : isect -> ray -> option M -> closure -> query closure.
Variable mat : isect -> vec3 -> vec3 -> vec3.
Variable sample : isect -> closure -> query closure.
Variable max_bounces : nat.
Notation Li nonexp fuel md cam := (vol_Li M env boundary med_sample phase_sample nee_media ev mat sample nonexp max_bounces fuel md cam).
Notation history := (vol_history boundary med_sample phase_sample nee_media ev mat sample).

(** C142: a path has at most max_bounces vertices (boundaries do not count) *)
Theorem C142_bounce_limit nonexp fuel md cam v h : leaf (Li nonexp fuel md cam) (Ok (v, h)) -> (vertices h <= max_bounces)%nat.
Proof. intros L. apply vol_sound in L as (k&->&_&V&_). exact V. Qed.
(** ... and in a scene with at most K surfaces on any line it ends *)
Theorem C142_terminates nonexp fuel md cam lines K o : rigid lines -> (forall p d, (List.length (lines p d) <= K)%nat) ->
  (max_bounces * S K + K < fuel)%nat -> hleaf (scene_hit lines) (Li nonexp fuel md cam) o -> exists v h, o = Ok (v, h).
Proof.
  intros Rg Fe Fu L. destruct (loop_flags env boundary med_sample phase_sample nee_media ev mat sample max_bounces nonexp fuel max_bounces (V3c 0) (V3c 1) cam
    (closure_init nonexp true (V3c 0)) md true [] o (le_n _) (hleaf_leaf _ _ _ L)) as [->|(v&k&->&_)]; [|eauto].
  exfalso. refine (loop_ends env boundary med_sample phase_sample nee_media ev mat sample nonexp max_bounces lines K Rg Fe fuel max_bounces _ _ cam _ _ _ _ _ L).
  pose proof (ahead_few lines K Fe cam). lia.
Qed.

(** C143: the radiance is the sum over the events of the path of what is carried times the light found
    there; the events follow each other as in [vol_history] *)
Theorem C143_sum_of_contributions nonexp fuel md cam v h : keeps_light sample -> leaf (Li nonexp fuel md cam) (Ok (v, h)) ->
  v = vol_estimate env (V3c 1) h.
Proof. intros K L. apply vol_sound in L as (k&->&_&_&E). rewrite (E K). apply vadd_0_l. Qed.
Theorem C143_history nonexp fuel md cam v h : leaf (Li nonexp fuel md cam) (Ok (v, h)) ->
  history max_bounces (V3c 1) md (closure_init nonexp true (V3c 0)) cam h.
Proof. intros L. apply vol_sound in L as (k&->&H&_). exact H. Qed.
Theorem C143_nonnegative nonexp fuel md cam v h : keeps_light sample -> leaf (Li nonexp fuel md cam) (Ok (v, h)) ->
  (forall r, nonneg (env r)) -> List.Forall physical_step h -> nonneg v.
Proof. intros K L E P. rewrite (C143_sum_of_contributions _ _ _ _ _ _ K L). apply estimate_vol_nonneg; auto. repeat split; simpl; lra. Qed.

(** C144: without media and boundaries the path integrator and this one do the same: same random
    numbers, same rays, same radiance *)
Theorem C144_no_media {A B} (now : B -> R * B) (hit : A -> ray -> option isect * A) rnd1 rnd2 nn_fuel fuel cam s v s' :
  (forall a r i, fst (hit a r) = Some i -> i_null i = false) -> (max_bounces < fuel)%nat ->
  path_Li (A * B) (own_now now) (own_hit hit) (own_rnd rnd1) (own_rnd rnd2) env (fun i r c => ev i r None c) mat sample (S nn_fuel) max_bounces cam s = (Ok v, s') ->
  exists h, qrun hit rnd1 rnd2 (Li false fuel None cam) (fst (s_w _ s)) = (Ok (v, h), fst (s_w _ s')).
Proof.
  intros So Fu E. destruct (path_same now hit rnd1 rnd2 env boundary med_sample phase_sample nee_media ev mat sample max_bounces nn_fuel So max_bounces fuel
    (V3c 0) (V3c 1) cam (closure_init false true (V3c 0)) true [] s v s' Fu E) as (k&H). exists k. exact H.
Qed.

(** C145: every segment is crossed in the medium behind the last boundary, once *)
Theorem C145_media_tracked nonexp fuel md cam v h : leaf (Li nonexp fuel md cam) (Ok (v, h)) -> segments boundary md None h.
Proof. intros L. exact (history_segments _ _ _ _ _ _ _ _ _ _ _ _ _ (C143_history _ _ _ _ _ _ L)). Qed.

(** C147: with a phase function that is the same for all directions, direct light is scattered as it
    should be *)
Theorem C147_isotropic_partial (val : M -> vec3 -> vec3 -> R) nonexp fuel md cam v h :
  (forall m wo a b, val m wo a = val m wo b) -> (forall m wo s, snd (phase_sample m wo s) = val m wo (fst (phase_sample m wo s))) ->
  leaf (Li nonexp fuel md cam) (Ok (v, h)) -> forall t m f r i d w g l wi ph u, let e := VScatter m f r i d w g l wi ph u in
  In e h -> gain env t e = phased val t e.
Proof.
  intros Co Va L t m f r i d w g l wi ph u e H. destruct (history_phase _ _ _ _ _ _ _ _ _ _ _ _ _ (C143_history _ _ _ _ _ _ L) _ _ _ _ _ _ _ _ _ _ _ H) as (s&P).
  assert (K : forall x, val m (vneg (dir r)) x = ph) by (intros x; rewrite (Co _ _ x (fst (phase_sample m (vneg (dir r)) s))), <- Va, P; reflexivity).
  cbn [e gain phased]. unfold unblocked. clear H. induction (filter e_valid l) as [|x l' IH]; cbn [map IntegratorSpec.vsum fold_right].
  - apply vec3_eq; simpl; ring.
  - unfold IntegratorSpec.vsum in IH. rewrite <- IH, K. apply vec3_eq; simpl; ring.
Qed.

(** C148 is false: nothing is lost on the way out of the scene *)
Theorem C148_environment_refuted nonexp fuel m cam us vs : (0 < max_bounces)%nat -> (0 < fuel)%nat ->
  play (fun _ => None) (Li nonexp fuel (Some m) cam) us vs = Some (Ok (vadd (V3c 0) (vmul (V3c 1) (env cam)), [VEscape cam]), us, vs).
Proof.
  intros B F. unfold vol_Li. destruct fuel as [|fuel]; [lia|]. cbn [vol_loop]. destruct max_bounces as [|n]; [lia|].
  destruct (isZero_dec (V3c 1)) as [Z|_]; [exfalso; destruct Z as (Z&_); cbn in Z; rewrite Rabs_R1 in Z; lra|]. reflexivity.
Qed.

(** C149: roulette: averaged over the random number the path carries what it would without *)
Theorem C149_medium_roulette t m f r i d w g l wi ph : 0 < survival (vmul t w) ->
  let carried := fun (get : vec3 -> R) u => if Rgt_dec u (survival (vmul t w)) then 0 else get (after t (@VScatter M m f r i d w g l wi ph u)) in
  is_RInt (carried vx) 0 1 (vx (vmul t w)) /\ is_RInt (carried vy) 0 1 (vy (vmul t w)) /\ is_RInt (carried vz) 0 1 (vz (vmul t w)).
Proof.
  intros P. cbv zeta. cbn [after]. set (s := survival (vmul t w)) in *. assert (S1 : s <= 1) by apply Rmin_l.
  assert (G : forall x, is_RInt (fun u => if Rgt_dec u s then 0 else x / s) 0 1 x).
  { intros x. pose proof (step_integral s (x / s) 0 ltac:(lra)) as K. replace (s * (x / s) + (1 - s) * 0) with x in K by (field; lra). exact K. }
  repeat split; [exact (G (vx (vmul t w)))|exact (G (vy (vmul t w)))|exact (G (vz (vmul t w)))].
Qed.

(** C150: clocks *)
Theorem C150_clocks (W : Type) now hit rnd1 rnd2 nonexp fuel md cam (s : st W) : idle (s_clk W s) ->
  clean (as_Li W now hit rnd1 rnd2 (Li nonexp fuel md cam) s) s.
Proof.
  intros Id. assert (S0 : safe_Li (fun r => as_Li W now hit rnd1 rnd2 (Li nonexp fuel md r))).
  { apply as_Li_safe. intros r o L. apply loop_flags in L; [|apply le_n]. destruct L as [->|(v&k&->&_)]; eauto. }
  exact (Props.Integrators.runs_clean _ _ _ _ (S0 cam _ Id)).
Qed.
Theorem C150_render_clocks (W : Type) now hit rnd1 rnd2 nonexp fuel md camera film (s : st W) : idle_render (s_clk W s) ->
  clean (render W now rnd2 (fun r => as_Li W now hit rnd1 rnd2 (Li nonexp fuel md r)) camera film s) s.
Proof.
  intros Id. assert (S0 : safe_Li (fun r => as_Li W now hit rnd1 rnd2 (Li nonexp fuel md r))).
  { apply as_Li_safe. intros r o L. apply loop_flags in L; [|apply le_n]. destruct L as [->|(v&k&->&_)]; eauto. }
  exact (Props.Integrators.runs_clean _ _ _ _ (runs_render now rnd2 _ camera film _ S0 Id)).
Qed.

(** C152: the flags *)
Theorem C152_flags_given fuel md cam v h : leaf (Li true fuel md cam) (Ok (v, h)) -> flags_given 0 true h.
Proof.
  intros L. apply loop_flags in L; [|apply le_n]. destruct L as [|(v'&k&E&F)]; [discriminate|]. injection E as -> ->. unfold flagged in F. rewrite Nat.sub_diag in F. exact F.
Qed.
(** volpath.cpp does not set the flag for distance sampling, and always says surface to light sampling *)
Theorem C152_unset_refuted fuel md cam v h : leaf (Li false fuel md cam) (Ok (v, h)) ->
  List.Forall (fun e => match e with VPass _ f _ _ _ => f = None | VScatter _ f _ _ _ _ g _ _ _ _ => f = None /\ g = true | _ => True end) h.
Proof.
  intros L. apply loop_flags in L; [|apply le_n]. destruct L as [|(v'&k&E&F)]; [discriminate|]. injection E as -> ->. exact (F eq_refl).
Qed.

(** C151: the transmittance view: nothing in the way or no boundary: 1; otherwise the transmittance of
    the inside medium from the first surface to the next *)
Variable transmittance : M -> ray -> R -> query vec3.
Variable boundary_of : nat -> option (option (option M)).
Notation trans r := (vol_trans_Li M transmittance boundary_of r).
Theorem C151_transmittance hit r i j m us vs c us' vs' : hit r = Some i -> boundary_of (i_mesh i) = Some (Some (Some m)) ->
  hit (onwards (i_p i) (dir r)) = Some j -> play hit (transmittance m (onwards (i_p i) (dir r)) (i_t j)) us vs = Some (c, us', vs') ->
  play hit (trans r) us vs = Some (Ok c, us', vs').
Proof.
  intros Hi Bo Hj T. unfold vol_trans_Li. cbn [play]. rewrite Hi, Bo. cbn [play].
  change (Ray (i_p i) (dir r) (Finite Epsilon) p_infty) with (onwards (i_p i) (dir r)). rewrite Hj, play_bind, T. reflexivity.
Qed.
Theorem C151_clear hit r us vs : match hit r with None => True | Some i => boundary_of (i_mesh i) = None \/ boundary_of (i_mesh i) = Some (Some None) end ->
  play hit (trans r) us vs = Some (Ok (V3c 1), us, vs).
Proof.
  intros H. unfold vol_trans_Li. cbn [play]. destruct (hit r) as [i|]; [|reflexivity]. destruct H as [-> | ->]; [reflexivity|]. cbn [play]. destruct (hit (Ray (i_p i) (dir r) (Finite Epsilon) p_infty)); reflexivity.
Qed.
(** a boundary that only names the medium outside: a null pointer is followed *)
Theorem C151_no_inside_refuted hit r i us vs : hit r = Some i -> boundary_of (i_mesh i) = Some None -> play hit (trans r) us vs = Some (UB, us, vs).
Proof. intros Hi Bo. unfold vol_trans_Li. cbn [play]. rewrite Hi, Bo. reflexivity. Qed.
(** an open shape: the distance of the first surface from the camera is taken for the depth of the medium *)
Theorem C151_open_shape_refuted hit r i m us vs c us' vs' : hit r = Some i -> boundary_of (i_mesh i) = Some (Some (Some m)) ->
  hit (onwards (i_p i) (dir r)) = None -> play hit (transmittance m (onwards (i_p i) (dir r)) (i_t i)) us vs = Some (c, us', vs') ->
  play hit (trans r) us vs = Some (Ok c, us', vs').
Proof.
  intros Hi Bo Hj T. unfold vol_trans_Li. cbn [play]. rewrite Hi, Bo. cbn [play].
  change (Ray (i_p i) (dir r) (Finite Epsilon) p_infty) with (onwards (i_p i) (dir r)). rewrite Hj, play_bind, T. reflexivity.
Qed.
End Claims.
Print Assumptions C142_bounce_limit.
Print Assumptions C142_terminates.
Print Assumptions C143_sum_of_contributions.
Print Assumptions C143_history.
Print Assumptions C143_nonnegative.
Print Assumptions C144_no_media.
Print Assumptions C145_media_tracked.
Print Assumptions C147_isotropic_partial.
Print Assumptions C148_environment_refuted.
Print Assumptions C149_medium_roulette.
Print Assumptions C150_clocks.
Print Assumptions C150_render_clocks.
Print Assumptions C151_transmittance.
Print Assumptions C151_clear.
Print Assumptions C151_no_inside_refuted.
Print Assumptions C151_open_shape_refuted.
Print Assumptions C152_flags_given.
Print Assumptions C152_unset_refuted.

(** C146: with the simple shader, emitted light counts after a scattering event exactly as if that
    event had not sampled lights when it follows the camera or a specular surface *)
Theorem C146_counting_rule mesh_point {M} inside tr fuel emitters inst ignore object_emitter (material : isect -> bsdf) ev mat
    (ev_simple : forall i r md c c', leaf (ev i r md c) c' ->
       leaf (simple_evaluate_in mesh_point M inside tr fuel emitters inst ignore object_emitter md (isDelta (material i)) i r c) (Ok c'))
    env boundary med_sample phase_sample nee_media nonexp max_bounces f md cam v h :
  leaf (vol_Li M env boundary med_sample phase_sample nee_media ev mat (fun i c => bsdf_sample (material i) c) nonexp max_bounces f md cam) (Ok (v, h)) ->
  counted_late true true h.
Proof.
  intros L. apply C143_history in L.
  exact (proj1 (rules_hold mesh_point inside tr fuel emitters inst ignore object_emitter material boundary med_sample phase_sample nee_media ev mat ev_simple _ _ _ _ _ _ L)).
Qed.
Print Assumptions C146_counting_rule.
(** so it counts once on paths without such an event *)
Theorem C146_counted_once_partial mesh_point {M} inside tr fuel emitters inst ignore object_emitter (material : isect -> bsdf) ev mat
    (ev_simple : forall i r md c c', leaf (ev i r md c) c' ->
       leaf (simple_evaluate_in mesh_point M inside tr fuel emitters inst ignore object_emitter md (isDelta (material i)) i r c) (Ok c'))
    env boundary med_sample phase_sample nee_media nonexp max_bounces f md cam v h :
  leaf (vol_Li M env boundary med_sample phase_sample nee_media ev mat (fun i c => bsdf_sample (material i) c) nonexp max_bounces f md cam) (Ok (v, h)) ->
  no_late true h -> counted_once true h.
Proof.
  intros L. apply once_unless_late.
  exact (C146_counting_rule mesh_point inside tr fuel emitters inst ignore object_emitter material ev mat ev_simple _ _ _ _ _ _ _ _ _ _ _ _ L).
Qed.
Print Assumptions C146_counted_once_partial.
(** C153: light samples of a scattering event are used again at a specular surface that follows *)
Theorem C153_sample_rule mesh_point {M} inside tr fuel emitters inst ignore object_emitter (material : isect -> bsdf) ev mat
    (ev_simple : forall i r md c c', leaf (ev i r md c) c' ->
       leaf (simple_evaluate_in mesh_point M inside tr fuel emitters inst ignore object_emitter md (isDelta (material i)) i r c) (Ok c'))
    env boundary med_sample phase_sample nee_media nonexp max_bounces f md cam v h :
  leaf (vol_Li M env boundary med_sample phase_sample nee_media ev mat (fun i c => bsdf_sample (material i) c) nonexp max_bounces f md cam) (Ok (v, h)) ->
  samples_late mat [] h.
Proof.
  intros L. apply C143_history in L.
  exact (proj2 (rules_hold mesh_point inside tr fuel emitters inst ignore object_emitter material boundary med_sample phase_sample nee_media ev mat ev_simple _ _ _ _ _ _ L)).
Qed.
Print Assumptions C153_sample_rule.

(** ** concrete scenes: horizontal sheets (mesh, height, normal up or down, null), given from below *)
Definition sheet (o d : vec3) (k : nat * R * R * bool) : isect :=
  let '(m, z, n, null) := k in
  let t := (z - vz o) / vz d in
  let f := Fr (V3 1 0 0) (V3 0 1 0) (V3 0 0 n) in
  Isect (vadd o (vscale d t)) t (V3c (1 / 3)) f f m null.
Definition sheets (l : list (nat * R * R * bool)) (o d : vec3) : list isect :=
  if Rlt_dec 0 (vz d) then map (sheet o d) l else if Rlt_dec (vz d) 0 then map (sheet o d) (rev l) else [].
Lemma sheets_rigid l : rigid (sheets l).
Proof.
  intros o d i H. unfold sheets in *.
  assert (G : vz d <> 0 -> forall l, In i (map (sheet o d) l) -> forall l', map (sheet (i_p i) d) l' = map (shift (i_t i)) (map (sheet o d) l')).
  { intros D l0 H0 l'. apply in_map_iff in H0 as ([[[m z] n] b]&<-&_). rewrite map_map. apply map_ext. intros [[[m' z'] n'] b'].
    unfold sheet, shift. cbn [i_p i_t i_bary i_s i_g i_mesh i_null].
    assert (T : (z' - vz (vadd o (vscale d ((z - vz o) / vz d)))) / vz d = (z' - vz o) / vz d - (z - vz o) / vz d) by (simpl; field; exact D).
    rewrite T. f_equal. apply vec3_eq; simpl; field; exact D. }
  destruct (Rlt_dec 0 (vz d)); [apply (G ltac:(lra) l H)|]. destruct (Rlt_dec (vz d) 0); [apply (G ltac:(lra) _ H)|destruct H].
Qed.
Lemma sheets_few l o d : (List.length (sheets l o d) <= List.length l)%nat.
Proof. unfold sheets. destruct (Rlt_dec _ _); [|destruct (Rlt_dec _ _)]; rewrite ?map_length, ?rev_length; simpl; lia. Qed.
Definition upwards (z : R) : ray := onwards (V3 0 0 z) (V3 0 0 1).
(** the sheet that an upward ray meets *)
Lemma sheets_up l1 k l2 z far : (forall x, In x l1 -> let '(_, y, _, _) := x in y - z < 1 / 1000) ->
  (let '(_, y, _, _) := k in 1 / 1000 <= y - z /\ Rbar_le (y - z) far) ->
  scene_hit (sheets (l1 ++ k :: l2)) (Ray (V3 0 0 z) (V3 0 0 1) (Finite (1 / 1000)) far) = Some (sheet (V3 0 0 z) (V3 0 0 1) k).
Proof.
  intros B K. unfold scene_hit, sheets, first_in. cbn [org dir rnear rfar vz]. destruct (Rlt_dec 0 1) as [_|X]; [|lra].
  rewrite map_app. cbn [map]. induction l1 as [|[[[m y] n] b] l1 IH]; cbn [app map find].
  - destruct k as [[[m y] n] b]. replace (Rbar_leb _ _ && Rbar_leb _ _)%bool with true; [reflexivity|]. symmetry.
    unfold sheet. cbn [i_t vz]. replace ((y - z) / 1) with (y - z) by field. apply andb_true_intro. split; apply leb_iff; [simpl; lra|tauto].
  - specialize (B _ (or_introl eq_refl)) as B0. cbn in B0. replace (Rbar_leb (1 / 1000) (i_t (sheet (V3 0 0 z) (V3 0 0 1) (m, y, n, b)))) with false.
    + cbn [andb]. apply IH. intros x X. apply B. now right.
    + symmetry. apply not_true_is_false. intros X. apply leb_iff in X. cbn in X. lra.
Qed.
(** the sheet, with its numbers *)
Lemma sheet_up z m y n b : sheet (V3 0 0 z) (V3 0 0 1) (m, y, n, b) =
  Isect (V3 0 0 y) (y - z) (V3c (1 / 3)) (Fr (V3 1 0 0) (V3 0 1 0) (V3 0 0 n)) (Fr (V3 1 0 0) (V3 0 1 0) (V3 0 0 n)) m b.
Proof. unfold sheet. cbn [vz]. replace ((y - z) / 1) with (y - z) by field. f_equal. apply vec3_eq; simpl; lra. Qed.
Lemma sheet_down z m y n b : sheet (V3 0 0 z) (V3 0 0 (-1)) (m, y, n, b) =
  Isect (V3 0 0 y) (z - y) (V3c (1 / 3)) (Fr (V3 1 0 0) (V3 0 1 0) (V3 0 0 n)) (Fr (V3 1 0 0) (V3 0 1 0) (V3 0 0 n)) m b.
Proof. unfold sheet. cbn [vz]. replace ((y - z) / -1) with (z - y) by field. f_equal. apply vec3_eq; simpl; lra. Qed.

(** ** C142, C143, C145: an object (mesh 0, heights 1 to 2) with a medium inside, in a medium that fills
    the scene; mesh 1 glows at height 3.  Every segment in a medium halves the light. *)
Inductive medium := Air | Smoke.
Definition dome : list (nat * R * R * bool) := [(0%nat, 1, -1, true); (0%nat, 2, 1, true); (1%nat, 3, -1, false)].
(** what api.cpp:878-894 makes of an object whose only medium is the one inside *)
Definition only_inside (m : nat) : option (option medium * option medium) := match m with O => Some (None, Some Smoke) | _ => None end.
Definition halve (_ : medium) (_ : option bool) (_ : ray) (t : R) : query (vec3 * R) := QRet (V3c (1 / 2), t).
Definition no_scatter (_ : medium) (_ : vec3) (_ : vec2) : vec3 * R := (V3c 0, 0).
Definition no_lights {M} (_ _ : bool) (_ : isect) (_ : option M) : query (list emitter_eval) := QRet [].
Definition glow {M} (_ : isect) (_ : ray) (_ : option M) (c : closure) : query closure := QRet (set_emission c (V3c 8)).
Definition no_pdf (c : closure) : closure := Closure (c_wi c) (c_wo c) (c_shadow c) (c_albedo c) (c_emission c) (c_nee c) 0 (c_eta c) (c_spec c) (c_last_spec c) (c_all c) (c_accepts c).
Definition absorbs (_ : isect) (c : closure) : query closure := QRet (no_pdf c).
Lemma absorbs_keeps : keeps_light absorbs.
Proof. intros i c c' L. apply leaf_ret_inv in L. subst. split; reflexivity. Qed.
Definition through_dome (boundary : nat -> option (option medium * option medium)) nonexp :=
  vol_Li medium (fun _ => V3c 0) boundary halve no_scatter no_lights glow (fun _ _ _ => V3c 1) absorbs nonexp 4 20 (Some Air) (upwards 0).

Lemma gray_nonzero x : 1 / 10000 <= x -> ~ isZero (V3c x).
Proof. intros X (Z&_). cbn in Z. rewrite Rabs_pos_eq in Z; lra. Qed.
Lemma gray_rr x : rr_prob (V3c x) = Rmin x 1.
Proof. unfold rr_prob. f_equal. unfold maxValue. cbn [V3c vx vy vz]. repeat destruct (Rgt_dec _ _); lra. Qed.
Lemma gray_mul x y : vmul (V3c x) (V3c y) = V3c (x * y).
Proof. apply vec3_eq; simpl; lra. Qed.
Lemma gray_add x y : vadd (V3c x) (V3c y) = V3c (x + y).
Proof. apply vec3_eq; simpl; lra. Qed.
Lemma gray_div x y : vdiv (V3c x) y = V3c (x / y).
Proof. apply vec3_eq; simpl; lra. Qed.

Section Steps.
Context {M : Type}.
Variable env : ray -> vec3.
Variable boundary : nat -> option (option M * option M).
Variable med_sample : M -> option bool -> ray -> R -> query (vec3 * R).
Variable phase_sample : M -> vec3 -> vec2 -> vec3 * R.
Variable nee_media : bool -> bool -> isect -> option M -> query (list emitter_eval).
Variable ev : isect -> ray -> option M -> closure -> query closure.
Variable mat : isect -> vec3 -> vec3 -> vec3.
Variable sample : isect -> closure -> query closure.
Variable nonexp : bool.
Variable max_bounces : nat.
Notation loop := (vol_loop M env boundary med_sample phase_sample nee_media ev mat sample nonexp max_bounces).
Variable hit : ray -> option isect.

Lemma loop_step fuel n Li beta r cl md surf h i us vs : ~ isZero beta -> hit r = Some i ->
  play hit (loop (S fuel) (S n) Li beta r cl md surf h) us vs =
  play hit (traverse M boundary med_sample phase_sample nee_media ev mat sample nonexp max_bounces (loop fuel) n Li beta r cl md surf i h) us vs.
Proof. intros Z H. cbn [vol_loop]. destruct (isZero_dec beta); [contradiction|]. cbn [play]. rewrite H. reflexivity. Qed.
Lemma loop_end fuel Li beta r cl md surf h us vs : play hit (loop (S fuel) 0%nat Li beta r cl md surf h) us vs = Some (Ok (Li, h), us, vs).
Proof. reflexivity. Qed.
Lemma pass_step next n Li beta r cl m surf i h w t us vs us' vs' :
  let f := if nonexp then Some surf else None in
  play hit (med_sample m f r (i_t i)) us vs = Some ((w, t), us', vs') -> i_t i <= t ->
  play hit (traverse M boundary med_sample phase_sample nee_media ev mat sample nonexp max_bounces next n Li beta r cl (Some m) surf i h) us vs =
  play hit (arrive M boundary ev mat sample nonexp max_bounces next n Li (vmul beta w) r cl (Some m) surf i (h ++ [VPass m f r i w])) us' vs'.
Proof.
  intros f E T. unfold traverse. fold f. rewrite play_bind, E. cbn [fst snd]. destruct (Rlt_dec t (i_t i)); [lra|]. reflexivity.
Qed.
Lemma scatter_step next n Li beta r cl m surf i h w t us vs us1 vs1 l us2 s vs2 u us3 wi ph :
  let f := if nonexp then Some surf else None in
  play hit (med_sample m f r (i_t i)) us vs = Some ((w, t), us1, vs1) -> t < i_t i ->
  play hit (nee_media (c_all cl) surf (set_p i (ray_at r t)) (Some m)) us1 vs1 = Some (l, us2, s :: vs2) -> us2 = u :: us3 ->
  phase_sample m (vneg (dir r)) s = (wi, ph) -> u <= rr_prob (vmul beta w) ->
  let nee := media_nee (vmul beta w) ph l (V3c 0) in
  play hit (traverse M boundary med_sample phase_sample nee_media ev mat sample nonexp max_bounces next n Li beta r cl (Some m) surf i h) us vs =
  play hit (next n (vadd Li nee) (vdiv (vmul beta w) (rr_prob (vmul beta w))) (Ray (ray_at r t) (normalized wi) (Finite Epsilon) p_infty)
            (scatter_closure cl (vneg (dir r)) l nee) (Some m) (negb nonexp) (h ++ [VScatter m f r i t w surf l wi ph u])) us3 vs2.
Proof.
  intros f E T N -> P U nee. unfold traverse. fold f. rewrite play_bind, E. cbn [fst snd]. destruct (Rlt_dec t (i_t i)); [|lra].
  unfold scatter. rewrite play_bind, N. cbn [play]. rewrite P. cbn [play]. destruct (Rgt_dec u _); [lra|]. reflexivity.
Qed.
Lemma boundary_step next n Li beta r cl md surf i h us vs : i_null i = true ->
  play hit (arrive M boundary ev mat sample nonexp max_bounces next n Li beta r cl md surf i h) us vs =
  play hit (next (S n) Li beta (onwards (i_p i) (dir r)) (boundary_closure M boundary r i cl) (cross_boundary M boundary r i md)
    (if nonexp && (S n =? max_bounces - 1)%nat then true else surf)%bool (h ++ [VBoundary r i])) us vs.
Proof. intros N. unfold arrive. rewrite N. reflexivity. Qed.
Lemma surface_step next n Li beta r cl md surf i h us vs c1 us1 vs1 u us2 c2 us3 vs3 : i_null i = false ->
  play hit (ev i r md (reset_closure cl (isect_toLocal i (vneg (dir r))))) us vs = Some (c1, us1, vs1) -> us1 = u :: us2 -> u <= rr_prob beta ->
  let c := accumulate_shadow_rays (mat i) c1 in
  play hit (sample i (set_wi c (isect_toLocal i (vneg (dir r))))) us2 vs1 = Some (c2, us3, vs3) ->
  play hit (arrive M boundary ev mat sample nonexp max_bounces next n Li beta r cl md surf i h) us vs =
  if Req_EM_T (c_pdf c2) 0
  then Some (Ok (vadd Li (vmul beta (vadd (c_emission c2) (c_nee c2))), h ++ [VShade r i c; VRoulette u; VSample i c2]), us3, vs3)
  else play hit (next n (vadd Li (vmul beta (vadd (c_nee c2) (c_emission c2))))
              (vmul beta (vdiv (vscale (c_albedo c2) (cos_term i c2)) (c_pdf c2 * rr_prob beta)))
              (next_ray i c2) c2 md true (h ++ [VShade r i c; VRoulette u; VSample i c2])) us3 vs3.
Proof.
  intros N E -> U c S. unfold arrive. rewrite N. unfold at_surface. rewrite play_bind, E. cbn [play]. destruct (Rgt_dec u _); [lra|].
  fold c. rewrite play_bind, S. destruct (Req_EM_T _ _); reflexivity.
Qed.
End Steps.

Ltac low := intros x [<-|[<-|[<-|[]]]] || intros x [<-|[<-|[]]] || intros x [<-|[]] || intros x []; cbn; lra.
Definition start (x : bool) : closure := closure_init x true (V3c 0).
Definition s1 : isect := Isect (V3 0 0 1) (1 - 0) (V3c (1 / 3)) (Fr (V3 1 0 0) (V3 0 1 0) (V3 0 0 (-1))) (Fr (V3 1 0 0) (V3 0 1 0) (V3 0 0 (-1))) 0 true.
Definition s2 : isect := Isect (V3 0 0 2) (2 - 1) (V3c (1 / 3)) (Fr (V3 1 0 0) (V3 0 1 0) (V3 0 0 1)) (Fr (V3 1 0 0) (V3 0 1 0) (V3 0 0 1)) 0 true.
Definition s3 : isect := Isect (V3 0 0 3) (3 - 2) (V3c (1 / 3)) (Fr (V3 1 0 0) (V3 0 1 0) (V3 0 0 (-1))) (Fr (V3 1 0 0) (V3 0 1 0) (V3 0 0 (-1))) 1 false.
Lemma dome_1 : scene_hit (sheets dome) (upwards 0) = Some s1.
Proof. unfold s1. rewrite <- sheet_up. apply (sheets_up [] _ _ 0); [intros x []|]. cbn. lra. Qed.
Lemma dome_2 : scene_hit (sheets dome) (upwards 1) = Some s2.
Proof. unfold s2. rewrite <- sheet_up. apply (sheets_up [(0%nat, 1, -1, true)] _ _ 1); [intros x [<-|[]]; lra|]. cbn. lra. Qed.
Lemma dome_3 : scene_hit (sheets dome) (upwards 2) = Some s3.
Proof. unfold s3. rewrite <- sheet_up. apply (sheets_up [(0%nat, 1, -1, true); (0%nat, 2, 1, true)] _ _ 2); [intros x [<-|[<-|[]]]; lra|]. cbn. lra. Qed.
Ltac nonzero := rewrite ?gray_mul; apply gray_nonzero; lra.
Lemma enter_1 b md : boundary_closure medium b (upwards 0) s1 md = match b 0%nat with None => md | Some _ => set_wi md (V3 0 0 1) end.
Proof. unfold boundary_closure. cbn [i_mesh s1]. destruct (b 0%nat); [|reflexivity]. f_equal. unfold isect_toLocal, toLocal, dot. apply vec3_eq; simpl; lra. Qed.

(** leaving the object the path is in no medium: the last segment is not attenuated *)
Theorem C145_surroundings_lost_refuted nonexp : exists h,
  play (scene_hit (sheets dome)) (through_dome only_inside nonexp) [1 / 8] [] = Some (Ok (V3c 2, h), [], []) /\
  medium_after only_inside (Some Air) h = None /\ forall m f r i w, In (VPass m f r i w) h -> i_mesh i = 0%nat.
Proof.
  eexists. split; [|split].
  - unfold through_dome, vol_Li. erewrite loop_step; [|nonzero|exact dome_1].
    erewrite pass_step; [|reflexivity|apply Rle_refl].
    rewrite boundary_step by reflexivity.
    replace (cross_boundary medium only_inside (upwards 0) s1 (Some Air)) with (Some Smoke).
    2:{ unfold cross_boundary. cbn [i_mesh s1 only_inside]. destruct (Rle_dec _ _) as [X|X]; [|reflexivity]. exfalso. unfold isect_toLocal, toLocal, dot in X. simpl in X. lra. }
    change (onwards (i_p s1) (dir (upwards 0))) with (upwards 1).
    erewrite loop_step; [|nonzero|exact dome_2].
    erewrite pass_step; [|reflexivity|apply Rle_refl].
    rewrite boundary_step by reflexivity.
    replace (cross_boundary medium only_inside (upwards 1) s2 (Some Smoke)) with (@None medium).
    2:{ unfold cross_boundary. cbn [i_mesh s2 only_inside]. destruct (Rle_dec _ _) as [X|X]; [reflexivity|]. exfalso. apply X. unfold isect_toLocal, toLocal, dot. simpl. lra. }
    change (onwards (i_p s2) (dir (upwards 1))) with (upwards 2).
    erewrite loop_step; [|nonzero|exact dome_3].
    unfold traverse. erewrite surface_step; [|reflexivity|reflexivity|reflexivity| |reflexivity].
    + cbn [no_pdf c_pdf]. destruct (Req_EM_T 0 0) as [_|X]; [|lra]. repeat f_equal. apply vec3_eq; simpl; lra.
    + rewrite !gray_mul, gray_rr. apply Rmin_glb; lra.
  - cbn [app medium_after]. unfold beyond. cbn [i_mesh s1 s2 only_inside]. destruct (Rle_dec 0 (dot (dir (upwards 1)) _)) as [X|X]; [reflexivity|].
    exfalso. apply X. unfold dot. simpl. lra.
  - cbn [app]. intros m f r i w H. repeat destruct H as [H|H]; try discriminate; try contradiction; injection H as <- <- <- <- <-; reflexivity.
Qed.
Print Assumptions C145_surroundings_lost_refuted.

(** with the surrounding medium named as the outside medium of the object every segment counts *)
Definition both_sides (m : nat) : option (option medium * option medium) := match m with O => Some (Some Air, Some Smoke) | _ => None end.
Lemma dome_run nonexp : exists h, play (scene_hit (sheets dome)) (through_dome both_sides nonexp) [1 / 8] [] = Some (Ok (V3c 1, h), [], []) /\
  List.Forall physical_step h /\ vertices h = 1%nat /\ medium_after both_sides (Some Air) h = Some Air.
Proof.
  eexists. split; [|split; [|split]].
  - unfold through_dome, vol_Li. erewrite loop_step; [|nonzero|exact dome_1].
    erewrite pass_step; [|reflexivity|apply Rle_refl]. rewrite boundary_step by reflexivity.
    replace (cross_boundary medium both_sides (upwards 0) s1 (Some Air)) with (Some Smoke).
    2:{ unfold cross_boundary. cbn [i_mesh s1 both_sides]. destruct (Rle_dec _ _) as [X|X]; [|reflexivity]. exfalso. unfold isect_toLocal, toLocal, dot in X. simpl in X. lra. }
    change (onwards (i_p s1) (dir (upwards 0))) with (upwards 1).
    erewrite loop_step; [|nonzero|exact dome_2]. erewrite pass_step; [|reflexivity|apply Rle_refl]. rewrite boundary_step by reflexivity.
    replace (cross_boundary medium both_sides (upwards 1) s2 (Some Smoke)) with (Some Air).
    2:{ unfold cross_boundary. cbn [i_mesh s2 both_sides]. destruct (Rle_dec _ _) as [X|X]; [reflexivity|]. exfalso. apply X. unfold isect_toLocal, toLocal, dot. simpl. lra. }
    change (onwards (i_p s2) (dir (upwards 1))) with (upwards 2).
    erewrite loop_step; [|nonzero|exact dome_3]. erewrite pass_step; [|reflexivity|apply Rle_refl].
    erewrite surface_step; [|reflexivity|reflexivity|reflexivity| |reflexivity].
    + cbn [no_pdf c_pdf]. destruct (Req_EM_T 0 0) as [_|X]; [|lra]. repeat f_equal. apply vec3_eq; simpl; lra.
    + rewrite !gray_mul, gray_rr. apply Rmin_glb; lra.
  - repeat (apply List.Forall_cons || apply List.Forall_nil); cbn; unfold nonneg; cbn; repeat split; lra.
  - reflexivity.
  - cbn [app medium_after]. unfold beyond. cbn [i_mesh s1 s2 both_sides]. destruct (Rle_dec 0 (dot (dir (upwards 1)) _)) as [X|X]; [reflexivity|].
    exfalso. apply X. unfold dot. simpl. lra.
Qed.
Example C142_case nonexp : (exists h, leaf (through_dome both_sides nonexp) (Ok (V3c 1, h)) /\ (1 <= vertices h <= 4)%nat) /\
  forall o, hleaf (scene_hit (sheets dome)) (through_dome both_sides nonexp) o -> exists v h, o = Ok (v, h).
Proof.
  split.
  - destruct (dome_run nonexp) as (h&P&_&V&_). apply play_leaf in P as L. exists h. split; [exact L|].
    split; [rewrite V; apply le_n|exact (C142_bounce_limit _ _ _ _ _ _ _ _ 4 _ _ _ _ _ _ L)].
  - intros o. apply (C142_terminates _ _ _ _ _ _ _ _ 4 nonexp 20 (Some Air) (upwards 0) (sheets dome) 3); [apply sheets_rigid|apply (sheets_few dome)|simpl; lia].
Qed.
Example C143_case nonexp : exists h, leaf (through_dome both_sides nonexp) (Ok (V3c 1, h)) /\ V3c 1 = vol_estimate (fun _ => V3c 0) (V3c 1) h /\
  vol_history both_sides halve no_scatter no_lights glow (fun _ _ _ => V3c 1) absorbs 4 (V3c 1) (Some Air) (start nonexp) (upwards 0) h /\
  List.Forall physical_step h /\ nonneg (V3c 1).
Proof.
  destruct (dome_run nonexp) as (h&P&F&_). apply play_leaf in P as L. exists h. split; [exact L|]. split; [|split; [|split; [exact F|]]].
  - exact (C143_sum_of_contributions _ _ _ _ _ _ _ _ 4 _ _ _ _ _ _ absorbs_keeps L).
  - exact (C143_history _ _ _ _ _ _ _ _ 4 _ _ _ _ _ _ L).
  - apply (C143_nonnegative _ _ _ _ _ _ _ _ 4 _ _ _ _ _ _ absorbs_keeps L); [|exact F]. intros r. repeat split; simpl; lra.
Qed.
Example C145_case nonexp : exists h, leaf (through_dome both_sides nonexp) (Ok (V3c 1, h)) /\ segments both_sides (Some Air) None h /\ medium_after both_sides (Some Air) h = Some Air.
Proof.
  destruct (dome_run nonexp) as (h&P&_&_&A). apply play_leaf in P as L. exists h. split; [exact L|]. split; [|exact A].
  exact (C145_media_tracked _ _ _ _ _ _ _ _ 4 _ _ _ _ _ _ L).
Qed.
(** no surface: the light of the sky through any amount of smoke *)
Example C148_case nonexp : play (fun _ => None) (vol_Li medium (fun _ => V3c 3) both_sides halve no_scatter no_lights glow (fun _ _ _ => V3c 1) absorbs nonexp 4 20 (Some Smoke) (upwards 0)) [] []
  = Some (Ok (V3c 3, [VEscape (upwards 0)]), [], []).
Proof. rewrite C148_environment_refuted by lia. repeat f_equal. apply vec3_eq; simpl; lra. Qed.
Example C149_case : survival (vmul (V3c 1) (V3c (1 / 4))) = 1 / 4 /\ after (V3c 1) (VScatter Smoke None (upwards 0) s1 (1 / 2) (V3c (1 / 4)) true [] (V3 0 0 1) 1 (1 / 8)) = V3c 1.
Proof.
  assert (S0 : survival (vmul (V3c 1) (V3c (1 / 4))) = 1 / 4) by (rewrite gray_mul; unfold survival, V3c, Rmin, Rmax; cbn [vx vy vz]; repeat destruct (Rle_dec _ _); lra).
  split; [exact S0|]. cbn [after]. rewrite S0. apply vec3_eq; simpl; lra.
Qed.
(** a world with nothing but one surface; wall clock always 0 *)
Definition one_surface (w : nat) (_ : ray) : option isect * nat := (match w with O => Some s3 | _ => None end, S w).
Definition stopped (b : unit) : R * unit := (0, b).
Definition half1 (w : nat) : R * nat := (1 / 2, w).
Definition half2 (w : nat) : vec2 * nat := (V2 (1 / 2) (1 / 2), w).
Definition at_rest : st (nat * unit) := St _ clk_init (0%nat, tt) [].
Example C144_case n : exists v s' h,
  path_Li _ (own_now stopped) (own_hit one_surface) (own_rnd half1) (own_rnd half2) (fun _ => V3c 3) (fun i r c => @glow medium i r None c) (fun _ _ _ => V3c 1) absorbs 1 n (upwards 2) at_rest = (Ok v, s') /\
  qrun one_surface half1 half2 (vol_Li medium (fun _ => V3c 3) both_sides halve no_scatter no_lights glow (fun _ _ _ => V3c 1) absorbs false n (S n) None (upwards 2)) 0%nat = (Ok (v, h), fst (s_w _ s')).
Proof.
  assert (So : forall w r i, fst (one_surface w r) = Some i -> i_null i = false) by (intros [|w] r i E; [injection E as <-; reflexivity|discriminate]).
  destruct (Props.Integrators.C55_terminates (own_now stopped) (own_hit one_surface) (own_rnd half1) (own_rnd half2) (fun _ => V3c 3) (fun i r c => @glow medium i r None c) (fun _ _ _ => V3c 1) absorbs 1 n (upwards 2) at_rest) as (v&s'&E).
  - intros c _. reflexivity.
  - discriminate.
  - intros [[|w] b] r i X; [injection X as <-; reflexivity|discriminate].
  - exists v, s'. destruct (C144_no_media (fun _ => V3c 3) both_sides halve no_scatter no_lights glow (fun _ _ _ => V3c 1) absorbs n stopped one_surface half1 half2 0 (S n) (upwards 2) at_rest v s' So (Nat.lt_succ_diag_r n) E) as (h&Q).
    exists h. split; [exact E|exact Q].
Qed.
Example C150_case (camera : nat -> vec2 -> vec2 -> ray) : clean (render nat (fun w => (0, w)) half2 (fun r => as_Li nat (fun w => (0, w)) one_surface half1 half2
    (vol_Li medium (fun _ => V3c 3) both_sides halve no_scatter no_lights glow (fun _ _ _ => V3c 1) absorbs true 4 20 (Some Air) r)) camera [0%nat; 1%nat] (St nat clk_init 0%nat [])) (St nat clk_init 0%nat []).
Proof. apply C150_render_clocks. intros c _. reflexivity. Qed.

(** C151: a box of smoke between heights 1 and 2 seen from height 0, and one without a top *)
Definition smoke_box (m : nat) : option (option (option medium)) := match m with O => Some (Some (Some Smoke)) | _ => None end.
Definition thick (_ : medium) (_ : ray) (t : R) : query vec3 := QRet (V3c (exp (- t))).
Example C151_case : play (scene_hit (sheets dome)) (vol_trans_Li medium thick smoke_box (upwards 0)) [] [] = Some (Ok (V3c (exp (- (2 - 1)))), [], []).
Proof. exact (C151_transmittance thick smoke_box (scene_hit (sheets dome)) (upwards 0) s1 s2 Smoke [] [] _ [] [] dome_1 eq_refl dome_2 eq_refl). Qed.
Example C151_open_case : play (scene_hit (sheets [(0%nat, 1, -1, true)])) (vol_trans_Li medium thick smoke_box (upwards 0)) [] [] = Some (Ok (V3c (exp (- (1 - 0)))), [], []).
Proof.
  assert (H : scene_hit (sheets [(0%nat, 1, -1, true)]) (upwards 0) = Some s1) by (unfold s1; rewrite <- sheet_up; apply (sheets_up [] _ _ 0); [intros x []|cbn; lra]).
  apply (C151_open_shape_refuted thick smoke_box _ (upwards 0) s1 Smoke [] [] _ [] []); [exact H|reflexivity| |reflexivity].
  unfold scene_hit, sheets, first_in. cbn [onwards org dir rnear rfar vz upwards i_p s1 map find]. destruct (Rlt_dec 0 1) as [_|X]; [|lra].
  cbn [map]. rewrite sheet_up. cbn [find i_t]. replace (Rbar_leb (1 / 1000) (1 - 1)) with false; [reflexivity|]. symmetry. apply not_true_is_false. intros X. apply leb_iff in X. cbn in X. lra.
Qed.
Example C151_clear_case : play (scene_hit (sheets dome)) (vol_trans_Li medium thick (fun _ => None) (upwards 0)) [] [] = Some (Ok (V3c 1), [], []).
Proof. apply C151_clear. rewrite dome_1. left. reflexivity. Qed.
Example C151_no_inside_case : play (scene_hit (sheets dome)) (vol_trans_Li medium thick (fun _ => Some None) (upwards 0)) [] [] = Some (UB, [], []).
Proof. exact (C151_no_inside_refuted thick (fun _ => Some None) _ _ _ [] [] dome_1 eq_refl). Qed.

(** C152: smoke everywhere; the path scatters at height 1/2, crosses sheet 1 (smoke on both sides) and
    crosses the medium up to sheet 2 *)
Definition smoky (m : nat) : option (option medium * option medium) := Some (Some Smoke, Some Smoke).
(** scatters at distance 1/2 on a segment from height 0, never later *)
Definition first_only (_ : medium) (_ : option bool) (r : ray) (t : R) : query (vec3 * R) := QRet (V3c (1 / 2), if Rle_dec (vz (org r)) 0 then 1 / 2 else t).
Definition ahead_only (_ : medium) (_ : vec3) (_ : vec2) : vec3 * R := (V3 0 0 1, 1).
Definition in_smoke := vol_Li medium (fun _ => V3c 0) smoky first_only ahead_only no_lights glow (fun _ _ _ => V3c 1) absorbs true 4 20 (Some Smoke) (upwards 0).
Lemma norm_up : normalized (V3 0 0 1) = V3 0 0 1.
Proof. unfold normalized. replace (norm (V3 0 0 1)) with 1; [apply vec3_eq; simpl; field|]. unfold norm. cbn [vx vy vz]. match goal with |- _ = sqrt ?x => replace x with 1 by lra end. symmetry. apply sqrt_1. Qed.
Theorem C152_flags_refuted : exists v h, leaf in_smoke (Ok (v, h)) /\ ~ flags_right true h /\
  exists w1 w2 i1 i2 i3 l, h = [VScatter Smoke (Some true) (upwards 0) s1 (1 / 2) w1 true [] (V3 0 0 1) 1 (1 / 8); VPass Smoke (Some false) (upwards (1 / 2)) i1 w2; VBoundary (upwards (1 / 2)) i1;
    VPass Smoke (Some true) (upwards 1) i2 w2; VBoundary (upwards 1) i2; VPass Smoke (Some true) (upwards 2) i3 w2] ++ l.
Proof.
  assert (R0 : exists v h, play (scene_hit (sheets dome)) in_smoke [1 / 8; 1 / 8] [V2 0 0] = Some (Ok (v, h), [], []) /\
    exists w1 w2 i1 i2 i3 l, h = [VScatter Smoke (Some true) (upwards 0) s1 (1 / 2) w1 true [] (V3 0 0 1) 1 (1 / 8); VPass Smoke (Some false) (upwards (1 / 2)) i1 w2; VBoundary (upwards (1 / 2)) i1;
    VPass Smoke (Some true) (upwards 1) i2 w2; VBoundary (upwards 1) i2; VPass Smoke (Some true) (upwards 2) i3 w2] ++ l).
  2:{ destruct R0 as (v&h&P&E). exists v, h. split; [exact (play_leaf _ _ _ _ _ _ _ P)|]. split; [|exact E].
      destruct E as (w1&w2&i1&i2&i3&l&->). cbn. intros (_&X&_). discriminate. }
  do 2 eexists. split.
  - unfold in_smoke, vol_Li. erewrite loop_step; [|nonzero|exact dome_1].
    erewrite scatter_step.
    2:{ cbn [play first_only]. destruct (Rle_dec _ _) as [_|X]; [reflexivity|exfalso; apply X; simpl; lra]. }
    2:{ simpl. lra. } 2:{ reflexivity. } 2:{ reflexivity. } 2:{ reflexivity. }
    2:{ rewrite gray_mul, gray_rr. apply Rmin_glb; lra. }
    cbn [media_nee]. rewrite norm_up, gray_mul, gray_rr, gray_div. rewrite Rmin_left by lra.
    replace (ray_at (upwards 0) (1 / 2)) with (V3 0 0 (1 / 2)) by (apply vec3_eq; simpl; lra).
    change (Ray (V3 0 0 (1 / 2)) (V3 0 0 1) (Finite Epsilon) p_infty) with (upwards (1 / 2)).
    erewrite loop_step; [|apply gray_nonzero; lra|].
    2:{ apply (sheets_up [] _ [(0%nat, 2, 1, true); (1%nat, 3, -1, false)] (1 / 2)); [intros x []|cbn; lra]. }
    rewrite sheet_up. erewrite pass_step.
    2:{ cbn [play first_only]. destruct (Rle_dec _ _) as [X|_]; [exfalso; simpl in X; lra|reflexivity]. }
    2:{ apply Rle_refl. }
    rewrite boundary_step by reflexivity. change (cross_boundary medium smoky ?a ?b ?c) with (if Rle_dec (vz (isect_toLocal b (vneg (dir a)))) 0 then Some Smoke else Some Smoke).
    replace (if Rle_dec _ 0 then Some Smoke else Some Smoke) with (Some Smoke) by (destruct (Rle_dec _ 0); reflexivity).
    cbn [i_p]. change (onwards (V3 0 0 1) (dir (upwards (1 / 2)))) with (upwards 1). change ((true && (3 =? 4 - 1)%nat)%bool) with true. cbv iota.
    erewrite loop_step; [|rewrite gray_mul; apply gray_nonzero; lra|exact dome_2].
    erewrite pass_step.
    2:{ cbn [play first_only]. destruct (Rle_dec _ _) as [X|_]; [exfalso; simpl in X; lra|reflexivity]. }
    2:{ apply Rle_refl. }
    rewrite boundary_step by reflexivity. change (cross_boundary medium smoky ?a ?b ?c) with (if Rle_dec (vz (isect_toLocal b (vneg (dir a)))) 0 then Some Smoke else Some Smoke).
    replace (if Rle_dec _ 0 then Some Smoke else Some Smoke) with (Some Smoke) by (destruct (Rle_dec _ 0); reflexivity).
    change (onwards (i_p s2) (dir (upwards 1))) with (upwards 2). change ((true && (3 =? 4 - 1)%nat)%bool) with true. cbv iota.
    erewrite loop_step; [|rewrite !gray_mul; apply gray_nonzero; lra|exact dome_3].
    erewrite pass_step.
    2:{ cbn [play first_only]. destruct (Rle_dec _ _) as [X|_]; [exfalso; simpl in X; lra|reflexivity]. }
    2:{ apply Rle_refl. }
    erewrite surface_step; [|reflexivity|reflexivity|reflexivity| |reflexivity].
    + cbn [no_pdf c_pdf]. destruct (Req_EM_T 0 0) as [_|X]; [|lra]. reflexivity.
    + rewrite !gray_mul, gray_rr. apply Rmin_glb; lra.
  - do 6 eexists. cbn [app]. reflexivity.
Qed.
Print Assumptions C152_flags_refuted.
Example C152_case : exists v h, leaf in_smoke (Ok (v, h)) /\ flags_given 0 true h.
Proof. destruct C152_flags_refuted as (v&h&L&_). exists v, h. split; [exact L|]. exact (C152_flags_given _ _ _ _ _ _ _ _ 4 _ _ _ _ _ L). Qed.
Example C152_unset_case : exists h, leaf (through_dome both_sides false) (Ok (V3c 1, h)) /\ List.Forall (fun e => match e with VPass _ f _ _ _ => f = None | VScatter _ f _ _ _ _ g _ _ _ _ => f = None /\ g = true | _ => True end) h.
Proof. destruct (dome_run false) as (h&P&_). apply play_leaf in P as L. exists h. split; [exact L|]. exact (C152_unset_refuted _ _ _ _ _ _ _ _ 4 _ _ _ _ _ L). Qed.

(** ** C146, C153, C154: a room full of smoke, a mirror floor (mesh 0, height -1) and a lamp (mesh 1,
    height 2) that is the only light.  The camera at height 1 looks down; the first event is at height 0. *)
Definition room : list (nat * R * R * bool) := [(0%nat, -1, 1, false); (1%nat, 2, -1, false)].
Definition room_lights : list emitter := [EMesh 1 (V3c 5)].
Definition room_emitter (m : nat) : option emitter := match m with 1%nat => Some (EMesh 1 (V3c 5)) | _ => None end.
Definition room_material (i : isect) : bsdf := match i_mesh i with O => Mirror (V3c 1) | _ => Diffuse (V3c (1 / 2)) end.
Definition halved (_ : medium) (_ _ : Rbar) : vec3 := V3c (1 / 2).
Definition halving (m : medium) (r : ray) : query vec3 := QRet (halved m (rnear r) (rfar r)).
Definition smoke_inside (_ : nat) : option (option medium) := Some (Some Smoke).
Definition or_else {A} (d : A) (q : query (outcome A)) : query A := qbind q (fun o => QRet (match o with Ok a => a | _ => d end)).
Definition room_nee (all g : bool) (i : isect) (md : option medium) : query (list emitter_eval) :=
  or_else [] (if all then eval_all lamp_point medium smoke_inside halving 10 false i md true room_lights
              else eval_one lamp_point medium smoke_inside halving 10 room_lights (fun m => m) false i md true).
Definition room_ev (i : isect) (r : ray) (md : option medium) (c : closure) : query closure :=
  or_else c (simple_evaluate_in lamp_point medium smoke_inside halving 10 room_lights (fun m => m) false room_emitter md (isDelta (room_material i)) i r c).
Definition room_mat (i : isect) (wi wo : vec3) : vec3 := match bsdf_value (room_material i) wi wo with Some a => a | None => V3c 0 end.
Definition near_only (_ : medium) (_ : option bool) (r : ray) (t : R) : query (vec3 * R) := QRet (V3c (1 / 2), if Rlt_dec (vz (dir r)) 0 then 1 else t).
Definition goes (d : vec3) (_ : medium) (_ : vec3) (_ : vec2) : vec3 * R := (d, 1).
Definition in_room (d : vec3) := vol_Li medium (fun _ => V3c 0) (fun _ => None) near_only (goes d) room_nee room_ev room_mat
  (fun i c => bsdf_sample (room_material i) c) false 2 5 (Some Smoke) down.
Definition the_floor (t : R) : isect := Isect (V3 0 0 (-1)) t (V3c (1 / 3)) (Fr (V3 1 0 0) (V3 0 1 0) (V3 0 0 1)) (Fr (V3 1 0 0) (V3 0 1 0) (V3 0 0 1)) 0 false.
Definition the_lamp : isect := Isect (V3 0 0 2) (2 - 0) (V3c (1 / 3)) (Fr (V3 1 0 0) (V3 0 1 0) (V3 0 0 (-1))) (Fr (V3 1 0 0) (V3 0 1 0) (V3 0 0 (-1))) 1 false.

Lemma room_down z : -1 + 1 / 1000 <= z < 2 -> scene_hit (sheets room) (onwards (V3 0 0 z) (V3 0 0 (-1))) = Some (the_floor (z - -1)).
Proof.
  intros Z. unfold scene_hit, sheets, first_in. cbn [onwards org dir rnear rfar vz]. destruct (Rlt_dec 0 (-1)) as [X|_]; [lra|]. destruct (Rlt_dec (-1) 0) as [_|X]; [|lra].
  cbn [room rev app map]. rewrite !sheet_down. cbn [find i_t].
  replace (Rbar_leb (1 / 1000) (z - 2)) with false by (symmetry; apply not_true_is_false; intros X; apply leb_iff in X; simpl in X; lra).
  replace (Rbar_leb (1 / 1000) (z - -1)) with true by (symmetry; apply leb_iff; simpl; lra).
  replace (Rbar_leb (z - -1) p_infty) with true by (symmetry; apply leb_iff; exact I). reflexivity.
Qed.
Lemma room_up : scene_hit (sheets room) (upwards 0) = Some the_lamp.
Proof. unfold the_lamp. rewrite <- sheet_up. apply (sheets_up [(0%nat, -1, 1, false)] _ [] 0); [intros x [<-|[]]; lra|cbn; lra]. Qed.
Lemma room_clear : on_ray (sheets room) (Ray (V3c 0) (V3 0 0 1) (Finite (1 / 1000)) (Finite (2 - 1 / 1000))) = [].
Proof.
  unfold on_ray, sheets. cbn [org dir rnear rfar vz]. destruct (Rlt_dec 0 1) as [_|X]; [|lra]. cbn [room map]. change (V3c 0) with (V3 0 0 0). rewrite !sheet_up. cbn [filter i_t].
  replace (Rbar_leb (1 / 1000) (-1 - 0)) with false by (symmetry; apply not_true_is_false; intros X; apply leb_iff in X; simpl in X; lra).
  replace (Rbar_leb (2 - 0) (2 - 1 / 1000)) with false by (symmetry; apply not_true_is_false; intros X; apply leb_iff in X; simpl in X; lra).
  rewrite andb_false_r. reflexivity.
Qed.
Lemma room_ordered : ordered (1 / 1000) (sheets room (V3c 0) (V3 0 0 1)).
Proof.
  unfold sheets. cbn [vz]. destruct (Rlt_dec 0 1) as [_|X]; [|lra]. cbn [room map]. change (V3c 0) with (V3 0 0 0). rewrite !sheet_up. cbn. lra.
Qed.
Definition lamp_light (i : isect) : list emitter_eval := [EmEval (V3c (5 / 2)) (toLocal (i_s i) (V3 0 0 1)) true].
(** the light of the lamp at the scattering event *)
Lemma room_light i us vs : i_p i = V3c 0 -> i_mesh i = 0%nat ->
  play (scene_hit (sheets room)) (room_nee false true i (Some Smoke)) (0 :: us) (V2 0 0 :: vs) = Some (lamp_light i, us, vs).
Proof.
  intros P Me. unfold room_nee, or_else. rewrite play_bind. unfold eval_one.
  erewrite play_obind. 2:{ apply (choose_cell room_lights (fun m => m) _ i 0 (EMesh 1 (V3c 5)) 0 us _ eq_refl); [simpl; lra|simpl; rewrite Me; discriminate]. }
  cbv beta iota. erewrite play_obind.
  2:{ unfold eval_emitter. cbn [play]. erewrite play_obind.
      2:{ cbn [sample_nee lamp_point bind]. rewrite P, up_dir. destruct (Rle_dec _ _) as [X|X]; [exfalso; unfold Epsilon, dot in X; simpl in X; lra|]. reflexivity. }
      cbv beta iota. erewrite play_obind.
      2:{ unfold shadow_query. cbn [needs_visibility es_sqr_dist es_wi es_pdf es_color play]. rewrite sqrNorm_norm, up_norm, sqrt_square by lra. rewrite P. reflexivity. }
      cbv beta iota. erewrite play_obind.
      2:{ apply (C92_computed smoke_inside halved (sheets room) 10 (Ray (V3c 0) (V3 0 0 1) (Finite (1 / 1000)) (Finite (2 - 1 / 1000))) (Some Smoke) (V3c 1)); [exact room_ordered|intros x _ _; discriminate|].
          rewrite room_clear. simpl. lia. }
      rewrite room_clear. cbn [existsb negb orb dir play]. reflexivity. }
  cbn [play eval_of]. unfold lamp_light. repeat f_equal. 
  assert (A : Rabs (dot (vneg (V3 0 0 1)) (V3 0 0 (-1))) = 1) by (unfold dot; cbn; rewrite Rabs_pos_eq; lra). rewrite A.
  destruct (Req_EM_T _ 0) as [X|X]; [lra|]. apply vec3_eq; unfold halved; cbn; field.
Qed.

Definition scattered (d : vec3) (l : list emitter_eval) : vevent medium := VScatter Smoke None down (the_floor (1 - -1)) 1 (V3c (1 / 2)) true l d 1 (1 / 8).
Definition lit : isect := set_p (the_floor (1 - -1)) (V3c 0).
(** the first event *)
Lemma room_first d us vs : play (scene_hit (sheets room)) (in_room d) (0 :: 1 / 8 :: us) (V2 0 0 :: V2 0 0 :: vs) =
  play (scene_hit (sheets room)) (vol_loop medium (fun _ => V3c 0) (fun _ => None) near_only (goes d) room_nee room_ev room_mat (fun i c => bsdf_sample (room_material i) c) false 2
    4 1%nat (V3c (5 / 4)) (V3c 1) (onwards (V3c 0) (normalized d))
    (Closure (V3 0 0 1) (V3c 1) (lamp_light lit) (V3c 0) (V3c 0) (V3c (5 / 4)) 1 1 false true false true) (Some Smoke) true [scattered d (lamp_light lit)]) us vs.
Proof.
  unfold in_room, vol_Li. erewrite loop_step; [|nonzero|exact (room_down 1 ltac:(lra))].
  assert (Pt : ray_at down 1 = V3c 0) by (apply vec3_eq; simpl; lra).
  erewrite scatter_step.
  2:{ cbn [play near_only down dir vz]. destruct (Rlt_dec _ _) as [_|X]; [reflexivity|exfalso; apply X; lra]. }
  2:{ simpl. lra. }
  2:{ rewrite Pt. apply (room_light lit); reflexivity. }
  2:{ reflexivity. } 2:{ reflexivity. }
  2:{ rewrite gray_mul, gray_rr. apply Rmin_glb; lra. }
  rewrite Pt, gray_mul, gray_rr, gray_div, Rmin_left by lra.
  assert (N : media_nee (V3c (1 * (1 / 2))) 1 (lamp_light lit) (V3c 0) = V3c (5 / 4)) by (cbn; apply vec3_eq; simpl; lra). rewrite N, gray_add.
  replace (0 + 5 / 4) with (5 / 4) by lra. replace (1 * (1 / 2) / (1 * (1 / 2))) with 1 by field.
  replace (vneg (dir down)) with (V3 0 0 1) by (apply vec3_eq; simpl; lra). reflexivity.
Qed.
(** C146 is false: camera, scattering, lamp: the lamp is sampled at the event and counted again when it
    is reached (5/4 and 5/2) *)
Definition lamp_seen : closure := Closure (V3 0 0 1) (V3c 1) [] (V3c 0) (V3c 5) (V3c 0) 1 1 false false false true.
Theorem C146_counted_twice_refuted : exists e l c, let h := scattered (V3 0 0 1) (lamp_light lit) :: e :: VShade (upwards 0) the_lamp lamp_seen :: l in
  play (scene_hit (sheets room)) (in_room (V3 0 0 1)) [0; 1 / 8; 0; 1 / 8] [V2 0 0; V2 0 0; V2 0 0] = Some (Ok (V3c (15 / 4), h), [], []) /\
  unblocked (lamp_light lit) = V3c (5 / 2) /\ c_emission lamp_seen = V3c 5 /\ ~ counted_once true h /\ In (VSample the_lamp c) l.
Proof.
  do 3 eexists. cbv zeta. split; [|split; [|split; [reflexivity|split]]].
  - rewrite room_first, norm_up. change (onwards (V3c 0) (V3 0 0 1)) with (upwards 0).
    erewrite loop_step; [|apply gray_nonzero; lra|exact room_up].
    erewrite pass_step.
    2:{ cbn [play near_only upwards onwards dir vz]. destruct (Rlt_dec _ _) as [X|_]; [exfalso; lra|reflexivity]. }
    2:{ apply Rle_refl. }
    assert (Wi : isect_toLocal the_lamp (vneg (dir (upwards 0))) = V3 0 0 1) by (unfold isect_toLocal, toLocal, dot; apply vec3_eq; simpl; lra).
    erewrite surface_step; [|reflexivity| |reflexivity| |].
    2:{ rewrite Wi. unfold room_ev, or_else. rewrite play_bind. unfold simple_evaluate_in. erewrite play_obind.
        2:{ unfold shade_in. cbv zeta. cbn [reset_closure set_spec c_last_spec c_accepts]. unfold accumulate_emission. cbn [i_mesh the_lamp room_emitter em_evaluate bind]. unfold obind at 1. cbn [qbind].
            destruct (Rlt_dec _ _) as [X|_]; [exfalso; unfold toLocal, dot, Epsilon in X; simpl in X; lra|].
            cbn [room_material the_lamp i_mesh isDelta set_emission c_accepts c_all set_spec reset_closure].
            erewrite play_obind.
            2:{ unfold eval_one. erewrite play_obind. 2:{ unfold choose_emitter. cbn [room_lights play]. rewrite (naive_cell room_lights 0 0) by (simpl; lia || lra). cbn. reflexivity. } reflexivity. }
            reflexivity. }
        cbn [play]. reflexivity. }
    2:{ rewrite gray_mul, gray_rr. apply Rmin_glb; lra. }
    2:{ cbn [room_material the_lamp i_mesh bsdf_sample]. rewrite Wi. cbn [set_wi c_wi]. destruct (Rle_dec _ _) as [X|_]; [exfalso; unfold cosTheta in X; simpl in X; lra|]. cbn [play]. reflexivity. }
    cbn [put c_pdf]. destruct (Req_EM_T _ 0) as [X|_].
    { exfalso. unfold cosTheta, sqrToCosHemi, sqrToUniDisk in X. cbn [vz x2 y2] in X. rewrite sqrt_0, !Rmult_0_r, !Rminus_0_r, Rmax_right, sqrt_1 in X by lra. pose proof PI_RGT_0.
      assert (0 < 1 / PI) by (apply Rdiv_lt_0_compat; lra). lra. }
    rewrite loop_end. match goal with |- Some (Ok (?v, _), _, _) = _ => replace v with (V3c (15 / 4)) by (apply vec3_eq; simpl; lra) end. reflexivity.
  - unfold unblocked, lamp_light. cbn. apply vec3_eq; simpl; lra.
  - cbn. intros [X _]. specialize (X eq_refl). injection X as X _ _. lra.
  - right. left. reflexivity.
Qed.
Print Assumptions C146_counted_twice_refuted.

(** C153 is false: camera, scattering, mirror: the samples of the event are delivered again at the mirror *)
Definition mirror_seen : closure := Closure (V3 0 0 1) (V3c 1) (lamp_light lit) (V3c 0) (V3c 0) (V3c 0) 1 1 true true false true.
Theorem C153_stale_samples_refuted : exists v e c l, let h := scattered (V3 0 0 (-1)) (lamp_light lit) :: e :: VShade (onwards (V3c 0) (V3 0 0 (-1))) (the_floor (0 - -1)) c :: l in
  play (scene_hit (sheets room)) (in_room (V3 0 0 (-1))) [0; 1 / 8; 1 / 8] [V2 0 0; V2 0 0] = Some (Ok (v, h), [], []) /\
  c_spec c = true /\ c_nee c = V3c (5 / 2) /\ ~ samples_once h.
Proof.
  assert (Nd : normalized (V3 0 0 (-1)) = V3 0 0 (-1)).
  { unfold normalized. replace (norm (V3 0 0 (-1))) with 1; [apply vec3_eq; simpl; field|]. unfold norm. cbn [vx vy vz]. match goal with |- _ = sqrt ?x => replace x with 1 by lra end. symmetry. apply sqrt_1. }
  assert (Ne : c_nee (accumulate_shadow_rays (room_mat (the_floor (0 - -1))) mirror_seen) = V3c (5 / 2)).
  { cbn [accumulate_shadow_rays mirror_seen c_nee c_wi c_shadow lamp_light shadow_sum e_valid e_throughput e_dir].
    unfold room_mat, room_material. cbn [the_floor i_mesh bsdf_value]. destruct (Rle_dec (cosTheta (V3 0 0 1)) 0) as [X|_]; [exfalso; unfold cosTheta in X; simpl in X; lra|]. apply vec3_eq; simpl; lra. }
  do 4 eexists. cbv zeta. split; [|split; [|split]].
  - rewrite room_first, Nd. erewrite loop_step; [|apply gray_nonzero; lra|exact (room_down 0 ltac:(lra))].
    erewrite pass_step.
    2:{ cbn [play near_only onwards dir vz]. destruct (Rlt_dec _ _) as [_|X]; [reflexivity|exfalso; lra]. }
    2:{ simpl. lra. }
    assert (Wi : isect_toLocal (the_floor (0 - -1)) (vneg (dir (onwards (V3c 0) (V3 0 0 (-1))))) = V3 0 0 1) by (unfold isect_toLocal, toLocal, dot; apply vec3_eq; simpl; lra).
    erewrite surface_step; [|reflexivity| |reflexivity| |].
    2:{ rewrite Wi. unfold room_ev, or_else. rewrite play_bind. transitivity (Some (mirror_seen, [1 / 8], @nil vec2)); reflexivity. }
    2:{ rewrite gray_mul, gray_rr. apply Rmin_glb; lra. }
    2:{ cbn [room_material the_floor i_mesh bsdf_sample]. rewrite Wi. cbn [set_wi c_wi]. destruct (Rle_dec _ _) as [X|_]; [exfalso; unfold cosTheta in X; simpl in X; lra|]. cbn [play]. reflexivity. }
    cbn [put c_pdf]. destruct (Req_EM_T 1 0) as [X|_]; [lra|]. rewrite loop_end. reflexivity.
  - reflexivity.
  - exact Ne.
  - cbn [samples_once scattered app]. intros [X _]. specialize (X eq_refl). rewrite Ne in X. apply (f_equal vx) in X. simpl in X. lra.
Qed.
Print Assumptions C153_stale_samples_refuted.

(** C154 is false: the same event with the lamp behind it gets no light, whatever the random number *)
Theorem C154_lamp_behind_refuted : unblocked (lamp_light lit) = V3c (5 / 2) /\
  play (scene_hit (sheets room)) (room_nee false true (set_p (the_floor (1 - -1)) (V3c 0)) (Some Smoke)) [0] [V2 0 0] = Some (lamp_light lit, [], []) /\
  forall u us vs, 0 <= u < 1 -> exists l, play (scene_hit (sheets room)) (room_nee false true (set_p the_lamp (V3c 0)) (Some Smoke)) (u :: us) vs = Some (l, us, vs) /\ unblocked l = V3c 0.
Proof.
  split; [unfold unblocked, lamp_light; cbn; apply vec3_eq; simpl; lra|]. split; [apply room_light; reflexivity|].
  intros u us vs U. exists [no_eval]. split; [|reflexivity]. unfold room_nee, or_else. rewrite play_bind.
  unfold eval_one. erewrite play_obind. 2:{ unfold choose_emitter. cbn [room_lights play]. rewrite (naive_cell room_lights 0 u) by (simpl; lia || lra). cbn. reflexivity. } reflexivity.
Qed.
Print Assumptions C154_lamp_behind_refuted.
(** the rule for any scene and any chosen light on the surface behind the event *)
Theorem C154_skipped_exact mesh_point {M} inside tr fuel emitters inst ignore hit (i : isect) (md : option M) in_media u us vs k e m :
  nth_error emitters k = Some e -> em_mesh e = Some m -> inst m = inst (i_mesh i) -> INR k <= u * INR (List.length emitters) < INR k + 1 ->
  play hit (eval_one mesh_point M inside tr fuel emitters inst ignore i md in_media) (u :: us) vs = Some (Ok [no_eval], us, vs).
Proof.
  intros N Me In U. unfold eval_one. rewrite (play_obind hit _ _ (u :: us) vs None us vs); [reflexivity|]. unfold choose_emitter. destruct emitters as [|e0 l0] eqn:El; [destruct k; discriminate|]. rewrite <- El in *.
  cbn [play]. rewrite (naive_cell emitters k u) by (assumption || (apply nth_error_Some; congruence)).
  replace (Z.of_nat k <? 0)%Z with false by (symmetry; apply Z.ltb_ge; lia). rewrite Nat2Z.id, N, Me, In, Nat.eqb_refl. reflexivity.
Qed.
Print Assumptions C154_skipped_exact.
Example C154_case : play (scene_hit (sheets room)) (eval_one lamp_point medium smoke_inside halving 10 room_lights (fun m => m) false (set_p the_lamp (V3c 0)) (Some Smoke) true) [1 / 2] [] = Some (Ok [no_eval], [], []).
Proof. apply (C154_skipped_exact _ _ _ _ room_lights _ _ _ _ _ _ _ _ _ 0 (EMesh 1 (V3c 5)) 1); try reflexivity. simpl. lra. Qed.

(** C147 is false: the only light is the same, but what reaches the camera after one event depends on the
    direction the path would take next *)
Definition hg_phase (g : R) (_ : medium) (wo : vec3) (s : vec2) : vec3 * R := match phase_sample (HG g) s wo with Ok x => x | _ => (V3c 0, 0) end.
Definition one_event ps := vol_Li medium (fun _ => V3c 0) (fun _ => None) near_only ps room_nee room_ev room_mat (fun i c => bsdf_sample (room_material i) c) false 1 5 (Some Smoke) down.
Lemma one_event_run ps s : play (scene_hit (sheets room)) (one_event ps) [0; 1 / 8] [V2 0 0; s] =
  Some (Ok (V3c (5 / 4 * snd (ps Smoke (V3 0 0 1) s)), [VScatter Smoke None down (the_floor (1 - -1)) 1 (V3c (1 / 2)) true (lamp_light lit) (fst (ps Smoke (V3 0 0 1) s)) (snd (ps Smoke (V3 0 0 1) s)) (1 / 8)]), [], []).
Proof.
  unfold one_event, vol_Li. erewrite loop_step; [|nonzero|exact (room_down 1 ltac:(lra))].
  assert (Pt : ray_at down 1 = V3c 0) by (apply vec3_eq; simpl; lra).
  assert (Ng : vneg (dir down) = V3 0 0 1) by (apply vec3_eq; simpl; lra).
  erewrite scatter_step.
  2:{ cbn [play near_only down dir vz]. destruct (Rlt_dec _ _) as [_|X]; [reflexivity|exfalso; apply X; lra]. }
  2:{ simpl. lra. }
  2:{ rewrite Pt. apply (room_light lit); reflexivity. }
  2:{ reflexivity. } 2:{ rewrite Ng. apply surjective_pairing. }
  2:{ rewrite gray_mul, gray_rr. apply Rmin_glb; lra. }
  rewrite loop_end. match goal with |- Some (Ok (?v, _), _, _) = _ => replace v with (V3c (5 / 4 * snd (ps Smoke (V3 0 0 1) s))) by (cbn; apply vec3_eq; simpl; lra) end. reflexivity.
Qed.
Theorem C147_phase_refuted : exists k h1 h2, k <> 0 /\
  play (scene_hit (sheets room)) (one_event (hg_phase (1 / 2))) [0; 1 / 8] [V2 0 0; V2 0 0] = Some (Ok (V3c (27 * k), h1), [], []) /\
  play (scene_hit (sheets room)) (one_event (hg_phase (1 / 2))) [0; 1 / 8] [V2 0 0; V2 1 0] = Some (Ok (V3c k, h2), [], []).
Proof.
  pose proof (one_event_run (hg_phase (1 / 2)) (V2 0 0)) as R1. pose proof (one_event_run (hg_phase (1 / 2)) (V2 1 0)) as R2.
  exists (5 / 4 * (1 / (4 * PI) * (2 / 9))). do 2 eexists. pose proof PI_RGT_0.
  assert (C0 : hg_cos (1 / 2) 0 = -1) by (unfold hg_cos; destruct (Rlt_dec _ _) as [X|_]; [rewrite Rabs_pos_eq in X by lra; lra|]; cbv zeta; field).
  assert (C1 : hg_cos (1 / 2) 1 = 1) by (unfold hg_cos; destruct (Rlt_dec _ _) as [X|_]; [rewrite Rabs_pos_eq in X by lra; lra|]; cbv zeta; field).
  split; [|split].
  - apply Rmult_integral_contrapositive_currified; [lra|]. apply Rmult_integral_contrapositive_currified; [|lra]. apply Rgt_not_eq, Rdiv_lt_0_compat; lra.
  - rewrite R1. match goal with |- Some (Ok (?v, _), _, _) = Some (Ok (?w, _), _, _) => enough (v = w) as -> by reflexivity end. f_equal. unfold hg_phase. cbn [phase_sample x2 snd]. rewrite C0. unfold hg. cbv zeta.
    replace (1 + 1 / 2 * (1 / 2) - 2 * (1 / 2) * - -1) with (1 / 2 * (1 / 2)) by lra. rewrite sqrt_square by lra. field. lra.
  - rewrite R2. match goal with |- Some (Ok (?v, _), _, _) = Some (Ok (?w, _), _, _) => enough (v = w) as -> by reflexivity end. f_equal. unfold hg_phase. cbn [phase_sample x2 snd]. rewrite C1. unfold hg. cbv zeta.
    replace (1 + 1 / 2 * (1 / 2) - 2 * (1 / 2) * - (1)) with (3 / 2 * (3 / 2)) by lra. rewrite sqrt_square by lra. field. lra.
Qed.
Print Assumptions C147_phase_refuted.
Definition iso_phase (_ : medium) (wo : vec3) (s : vec2) : vec3 * R := match phase_sample Isotropic s wo with Ok x => x | _ => (V3c 0, 0) end.
Example C147_case : exists v e h, leaf (one_event iso_phase) (Ok (v, e :: h)) /\ vertex e = true /\ gain (fun _ => V3c 0) (V3c 1) e = phased (fun m wo wi => phase_eval Isotropic wo wi) (V3c 1) e.
Proof.
  pose proof (one_event_run iso_phase (V2 0 0)) as R0. apply play_leaf in R0 as L. do 3 eexists. split; [exact L|]. split; [reflexivity|].
  eapply (C147_isotropic_partial _ _ _ iso_phase _ _ _ _ _ (fun m wo wi => phase_eval Isotropic wo wi)); [reflexivity|reflexivity|exact L|left; reflexivity].
Qed.

(** ** a shader for which the rules of C146 and C153 apply: one point light, every shape glows *)
Definition lit_simple (md : option unit) := simple_evaluate_in (fun _ _ => UB) unit fog (fun m r => QRet (absorb m (rnear r) (rfar r))) 10 demo_lights (fun m => m) false (fun _ => Some (EMesh 0 (V3c 9))) md.
Lemma lit_light_ok md its nrm p us v vs : exists o,
  play (fun _ => None) (eval_emitter (fun _ _ => UB) unit fog (fun m r => QRet (absorb m (rnear r) (rfar r))) 10 false its md nrm false p (EPoint (V3c (4 * PI)) (V3 0 0 2))) us (v :: vs) = Some (Ok o, us, vs).
Proof. destruct md; eexists; unfold eval_emitter; cbn [play]; unfold obind; cbn; reflexivity. Qed.
Lemma lit_simple_ok md delta i r c : exists c' us vs, play (fun _ => None) (lit_simple md delta i r c) [0] [V2 0 0] = Some (Ok c', us, vs).
Proof.
  assert (Sh : exists c1 us vs, play (fun _ => None) (shade_in (fun _ _ => UB) unit fog (fun m r => QRet (absorb m (rnear r) (rfar r))) 10 demo_lights (fun m => m) false (fun _ => Some (EMesh 0 (V3c 9))) md delta i r c) [0] [V2 0 0] = Some (Ok c1, us, vs)).
  { unfold shade_in. cbv zeta.
    assert (A : exists c2, (if c_last_spec (set_spec c delta (c_last_spec c) (c_accepts c)) then accumulate_emission (fun m => m) (fun _ => Some (EMesh 0 (V3c 9))) i r (set_spec c delta (c_last_spec c) (c_accepts c)) else Ok (set_spec c delta (c_last_spec c) (c_accepts c))) = Ok c2).
    { destruct (c_last_spec _); eexists; reflexivity. }
    destruct A as (c2&A). rewrite A. unfold obind at 1. cbn [qbind]. destruct delta; [do 3 eexists; reflexivity|]. destruct (c_accepts c2); [|do 3 eexists; reflexivity].
    assert (Q : exists l us vs, play (fun _ => None) (if c_all c2 then eval_all (fun _ _ => UB) unit fog (fun m r => QRet (absorb m (rnear r) (rfar r))) 10 false i md false demo_lights
      else eval_one (fun _ _ => UB) unit fog (fun m r => QRet (absorb m (rnear r) (rfar r))) 10 demo_lights (fun m => m) false i md false) [0] [V2 0 0] = Some (Ok l, us, vs)).
    { destruct (c_all c2).
      - destruct (lit_light_ok md i (fn (i_g i)) 1 [0] (V2 0 0) []) as (o&O). unfold demo_lights. cbn [eval_all]. erewrite play_obind by exact O. do 3 eexists. reflexivity.
      - destruct (lit_light_ok md i (fn (i_s i)) (1 / INR 1) [] (V2 0 0) []) as (o&O). unfold eval_one. erewrite play_obind.
        2:{ apply (choose_cell demo_lights (fun m => m) _ i 0 (EPoint (V3c (4 * PI)) (V3 0 0 2)) 0 [] [V2 0 0] eq_refl); [simpl; lra|exact I]. }
        cbv beta iota. unfold demo_lights at 1. cbn [List.length]. erewrite play_obind by exact O. do 3 eexists. reflexivity. }
    destruct Q as (l&us&vs&Q). erewrite play_obind by exact Q. do 3 eexists. reflexivity. }
  destruct Sh as (c1&us&vs&Sh). unfold lit_simple, simple_evaluate_in. erewrite play_obind by exact Sh. do 3 eexists. reflexivity.
Qed.
Definition lit_run (md : option unit) (i : isect) (r : ray) (c : closure) : closure :=
  match play (fun _ => None) (lit_simple md (isDelta (demo_material i)) i r c) [0] [V2 0 0] with Some (Ok c', _, _) => c' | _ => c end.
Definition lit_ev (i : isect) (r : ray) (md : option unit) (c : closure) : query closure := QRet (lit_run md i r c).
Lemma lit_ev_simple i r md c c' : leaf (lit_ev i r md c) c' -> leaf (lit_simple md (isDelta (demo_material i)) i r c) (Ok c').
Proof.
  intros L. apply leaf_ret_inv in L. subst c'. unfold lit_run. destruct (lit_simple_ok md (isDelta (demo_material i)) i r c) as (c'&us&vs&E).
  rewrite E. exact (play_leaf _ _ _ _ _ _ _ E).
Qed.
(** camera, diffuse sheet (mesh 2), scattering below it, mirror floor (mesh 0); the light samples of the
    event shine on the mirror, its own glow is not counted *)
Definition hall : list (nat * R * R * bool) := [(0%nat, -1, 1, false); (2%nat, 2, -1, false)].
Definition one_sample (_ _ : bool) (_ : isect) (_ : option unit) : query (list emitter_eval) := QRet [EmEval (V3c 7) (V3 0 0 1) true].
(** scatters half way when going down from above height 1, never otherwise *)
Definition below_ceiling (_ : unit) (_ : option bool) (r : ray) (t : R) : query (vec3 * R) := QRet (V3c 1, if Rlt_dec 1 (vz (org r)) then t / 2 else t).
Definition onto_floor (_ : unit) (_ : vec3) (_ : vec2) : vec3 * R := (V3 0 0 (-1), 1).
Definition in_hall := vol_Li unit (fun _ => V3c 0) (fun _ => None) below_ceiling onto_floor one_sample lit_ev (fun _ _ _ => V3c 1)
  (fun i c => bsdf_sample (demo_material i) c) false 3 10 (Some tt) (upwards 0).
Lemma lit_spec md i r c : c_spec (lit_run md i r c) = isDelta (demo_material i).
Proof. pose proof (lit_ev_simple i r md c _ (leaf_ret _)) as L. apply simple_in_leaf in L as ((_&_&A&_)&_). exact A. Qed.
Definition ceiling : isect := Isect (V3 0 0 2) (2 - 0) (V3c (1 / 3)) (Fr (V3 1 0 0) (V3 0 1 0) (V3 0 0 (-1))) (Fr (V3 1 0 0) (V3 0 1 0) (V3 0 0 (-1))) 2 false.
Definition ground (t : R) : isect := Isect (V3 0 0 (-1)) t (V3c (1 / 3)) (Fr (V3 1 0 0) (V3 0 1 0) (V3 0 0 1)) (Fr (V3 1 0 0) (V3 0 1 0) (V3 0 0 1)) 0 false.
Lemma hall_up : scene_hit (sheets hall) (upwards 0) = Some ceiling.
Proof. unfold ceiling. rewrite <- sheet_up. apply (sheets_up [(0%nat, -1, 1, false)] _ [] 0); [intros x [<-|[]]; lra|cbn; lra]. Qed.
Lemma hall_down z : -1 + 1 / 1000 <= z <= 2 -> scene_hit (sheets hall) (onwards (V3 0 0 z) (V3 0 0 (-1))) = Some (ground (z - -1)).
Proof.
  intros Z. unfold scene_hit, sheets, first_in. cbn [onwards org dir rnear rfar vz]. destruct (Rlt_dec 0 (-1)) as [X|_]; [lra|]. destruct (Rlt_dec (-1) 0) as [_|X]; [|lra].
  cbn [hall rev app map]. rewrite !sheet_down. cbn [find i_t].
  replace (Rbar_leb (1 / 1000) (z - 2)) with false by (symmetry; apply not_true_is_false; intros X; apply leb_iff in X; simpl in X; lra).
  replace (Rbar_leb (1 / 1000) (z - -1)) with true by (symmetry; apply leb_iff; simpl; lra).
  replace (Rbar_leb (z - -1) p_infty) with true by (symmetry; apply leb_iff; exact I). reflexivity.
Qed.
Lemma hemi_0 : sqrToCosHemi (V2 0 0) = V3 0 0 1.
Proof.
  unfold sqrToCosHemi, sqrToUniDisk. cbv zeta. cbn [x2 y2]. rewrite sqrt_0, !Rmult_0_r, !Rminus_0_r, Rmax_right, sqrt_1 by lra. reflexivity.
Qed.
Lemma norm_down : normalized (V3 0 0 (-1)) = V3 0 0 (-1).
Proof.
  unfold normalized. replace (norm (V3 0 0 (-1))) with 1; [apply vec3_eq; simpl; field|]. unfold norm. cbn [vx vy vz]. match goal with |- _ = sqrt ?x => replace x with 1 by lra end. symmetry. apply sqrt_1.
Qed.
Lemma hall_run : exists v c1 c2 c3 c4 w1 w2 s, let h := [VPass tt None (upwards 0) ceiling w1; VShade (upwards 0) ceiling c1; VRoulette (1 / 8); VSample ceiling c2;
    s; VPass tt None (onwards (V3 0 0 (1 / 2)) (V3 0 0 (-1))) (ground (1 / 2 - -1)) w2; VShade (onwards (V3 0 0 (1 / 2)) (V3 0 0 (-1))) (ground (1 / 2 - -1)) c3; VRoulette (1 / 8); VSample (ground (1 / 2 - -1)) c4] in
  leaf in_hall (Ok (v, h)) /\ s = VScatter tt None (onwards (V3 0 0 2) (V3 0 0 (-1))) (ground (2 - -1)) ((2 - -1) / 2) (V3c 1) true [EmEval (V3c 7) (V3 0 0 1) true] (V3 0 0 (-1)) 1 (1 / 8) /\
  c_spec c1 = false /\ c_spec c3 = true.
Proof.
  assert (R0 : exists v c1 c2 c3 c4 w1 w2 s, let h := [VPass tt None (upwards 0) ceiling w1; VShade (upwards 0) ceiling c1; VRoulette (1 / 8); VSample ceiling c2;
    s; VPass tt None (onwards (V3 0 0 (1 / 2)) (V3 0 0 (-1))) (ground (1 / 2 - -1)) w2; VShade (onwards (V3 0 0 (1 / 2)) (V3 0 0 (-1))) (ground (1 / 2 - -1)) c3; VRoulette (1 / 8); VSample (ground (1 / 2 - -1)) c4] in
    play (scene_hit (sheets hall)) in_hall [1 / 8; 1 / 8; 1 / 8] [V2 0 0; V2 0 0] = Some (Ok (v, h), [], []) /\
    s = VScatter tt None (onwards (V3 0 0 2) (V3 0 0 (-1))) (ground (2 - -1)) ((2 - -1) / 2) (V3c 1) true [EmEval (V3c 7) (V3 0 0 1) true] (V3 0 0 (-1)) 1 (1 / 8) /\ c_spec c1 = false /\ c_spec c3 = true).
  2:{ destruct R0 as (v&c1&c2&c3&c4&w1&w2&s&P&H). exists v, c1, c2, c3, c4, w1, w2, s. split; [exact (play_leaf _ _ _ _ _ _ _ P)|exact H]. }
  do 8 eexists. cbv zeta. split; [|split; [reflexivity|split]].
  - unfold in_hall, vol_Li. erewrite loop_step; [|nonzero|exact hall_up].
    erewrite pass_step.
    2:{ cbn [play below_ceiling upwards onwards org vz]. destruct (Rlt_dec _ _) as [X|_]; [exfalso; lra|reflexivity]. }
    2:{ apply Rle_refl. }
    assert (Wi : isect_toLocal ceiling (vneg (dir (upwards 0))) = V3 0 0 1) by (unfold isect_toLocal, toLocal, dot; apply vec3_eq; simpl; lra).
    erewrite surface_step; [|reflexivity|reflexivity|reflexivity| |].
    2:{ rewrite gray_mul, gray_rr. apply Rmin_glb; lra. }
    2:{ cbn [demo_material ceiling i_mesh bsdf_sample]. rewrite Wi. cbn [set_wi c_wi]. destruct (Rle_dec _ _) as [X|_]; [exfalso; unfold cosTheta in X; simpl in X; lra|]. cbn [play]. rewrite hemi_0. reflexivity. }
    cbn [put c_pdf c_albedo]. unfold cosTheta. cbn [vz]. pose proof PI_RGT_0. assert (0 < 1 / PI) by (apply Rdiv_lt_0_compat; lra).
    destruct (Req_EM_T _ 0) as [X|_]; [exfalso; lra|].
    match goal with |- context [cos_term ceiling ?c] => assert (Ct : cos_term ceiling c = 1) end.
    { unfold cos_term. cbn [put c_spec set_wi accumulate_shadow_rays]. rewrite lit_spec. cbn [demo_material ceiling i_mesh isDelta].
      assert (D : dot (fn (i_s ceiling)) (V3 0 0 (-1)) = 1) by (unfold dot; simpl; lra).
      match goal with |- context [dir ?r] => replace (dir r) with (V3 0 0 (-1)) by (unfold next_ray, isect_toWorld, toWorld; apply vec3_eq; simpl; lra) end.
      cbn [ceiling i_s] in D |- *. rewrite D. destruct (Rlt_dec 1 0) as [X|_]; lra. }
    rewrite Ct, gray_mul, gray_rr, Rmin_left by lra.
    match goal with |- context [vmul (V3c (1 * 1)) ?b] => replace (vmul (V3c (1 * 1)) b) with (V3c (1 / 2)) by (apply vec3_eq; simpl; field; lra) end.
    match goal with |- context [next_ray ceiling ?c] => replace (next_ray ceiling c) with (onwards (V3 0 0 2) (V3 0 0 (-1))) end.
    2:{ unfold next_ray, onwards, isect_toWorld, toWorld. cbn [i_p ceiling put c_wo i_s fs ft fn]. f_equal. apply vec3_eq; simpl; lra. }
    erewrite loop_step; [|apply gray_nonzero; lra|exact (hall_down 2 ltac:(lra))].
    assert (Pt : ray_at (onwards (V3 0 0 2) (V3 0 0 (-1))) ((2 - -1) / 2) = V3 0 0 (1 / 2)) by (apply vec3_eq; simpl; lra).
    erewrite scatter_step.
    2:{ cbn [play below_ceiling onwards org vz]. destruct (Rlt_dec _ _) as [_|X]; [reflexivity|exfalso; lra]. }
    2:{ simpl. lra. } 2:{ reflexivity. } 2:{ reflexivity. } 2:{ reflexivity. }
    2:{ rewrite gray_mul, gray_rr. apply Rmin_glb; lra. }
    cbn [i_t ground]. rewrite Pt, norm_down, gray_mul, gray_rr, Rmin_left, gray_div by lra.
    change (Ray (V3 0 0 (1 / 2)) (V3 0 0 (-1)) (Finite Epsilon) p_infty) with (onwards (V3 0 0 (1 / 2)) (V3 0 0 (-1))).
    erewrite loop_step; [|apply gray_nonzero; lra|exact (hall_down (1 / 2) ltac:(lra))].
    erewrite pass_step.
    2:{ cbn [play below_ceiling onwards org vz]. destruct (Rlt_dec _ _) as [X|_]; [exfalso; lra|reflexivity]. }
    2:{ apply Rle_refl. }
    assert (Wj : isect_toLocal (ground (1 / 2 - -1)) (vneg (dir (onwards (V3 0 0 (1 / 2)) (V3 0 0 (-1))))) = V3 0 0 1) by (unfold isect_toLocal, toLocal, dot; apply vec3_eq; simpl; lra).
    erewrite surface_step; [|reflexivity|reflexivity|reflexivity| |].
    2:{ rewrite gray_mul, gray_rr. apply Rmin_glb; lra. }
    2:{ cbn [demo_material ground i_mesh bsdf_sample]. rewrite Wj. cbn [set_wi c_wi]. destruct (Rle_dec _ _) as [X|_]; [exfalso; unfold cosTheta in X; simpl in X; lra|]. reflexivity. }
    cbn [put c_pdf]. destruct (Req_EM_T 1 0) as [X|_]; [lra|]. rewrite loop_end. cbn [app]. reflexivity.
  - cbn [accumulate_shadow_rays c_spec]. apply lit_spec.
  - cbn [accumulate_shadow_rays c_spec]. apply lit_spec.
Qed.
Example C146_case : exists v h, leaf in_hall (Ok (v, h)) /\ counted_late true true h /\ no_late true h /\ counted_once true h /\ vertices h = 3%nat.
Proof.
  destruct hall_run as (v&c1&c2&c3&c4&w1&w2&s&L&->&S1&S3). do 2 eexists. split; [exact L|].
  assert (N : no_late true [VPass tt None (upwards 0) ceiling w1; VShade (upwards 0) ceiling c1; VRoulette (1 / 8); VSample ceiling c2;
    VScatter tt None (onwards (V3 0 0 2) (V3 0 0 (-1))) (ground (2 - -1)) ((2 - -1) / 2) (V3c 1) true [EmEval (V3c 7) (V3 0 0 1) true] (V3 0 0 (-1)) 1 (1 / 8);
    VPass tt None (onwards (V3 0 0 (1 / 2)) (V3 0 0 (-1))) (ground (1 / 2 - -1)) w2; VShade (onwards (V3 0 0 (1 / 2)) (V3 0 0 (-1))) (ground (1 / 2 - -1)) c3; VRoulette (1 / 8); VSample (ground (1 / 2 - -1)) c4])
    by (cbn; rewrite S1; auto).
  split; [exact (C146_counting_rule _ _ _ _ _ _ _ _ demo_material lit_ev _ lit_ev_simple _ _ _ _ _ _ _ _ _ _ _ _ L)|]. split; [exact N|]. split; [|reflexivity].
  exact (C146_counted_once_partial _ _ _ _ _ _ _ _ demo_material lit_ev _ lit_ev_simple _ _ _ _ _ _ _ _ _ _ _ _ L N).
Qed.
(** the mirror delivers the samples of the event before it *)
Example C153_case : exists v h, leaf in_hall (Ok (v, h)) /\ samples_late (fun _ _ _ => V3c 1) [] h /\ exists r i c, In (VShade r i c) h /\ c_spec c = true /\ c_nee c = V3c 7.
Proof.
  destruct hall_run as (v&c1&c2&c3&c4&w1&w2&s&L&->&S1&S3). do 2 eexists. split; [exact L|].
  pose proof (C153_sample_rule _ _ _ _ _ _ _ _ demo_material lit_ev _ lit_ev_simple _ _ _ _ _ _ _ _ _ _ _ _ L) as Q. split; [exact Q|].
  cbn in Q. destruct Q as (_&Q&_). specialize (Q S3). do 3 eexists. split; [do 6 right; left; reflexivity|]. split; [exact S3|]. rewrite Q. unfold delivered. cbn. apply vec3_eq; simpl; lra.
Qed.
