(** Scenes with lamps: what a vertex sends out is bounded. *)
From Coq Require Import Reals List Bool ZArith Lra Lia.
From Coquelicot Require Import Rbar.
From Verif.Base Require Import Outcome.
From Verif.Model Require Import Vec Frame BBox Warp Integrators Bsdf Scene Renderer VolPath.
From Verif.Spec Require Import LinAlgSpec IntegratorSpec BoundSpec VolPathSpec ExpectSpec LitSpec.
From Verif.Proof Require Import VecLemmas IntegratorProof SceneProof BoundProof VolPathTheory ExpectProof ExpectScene.
Import ListNotations.
Open Scope R_scope.

Lemma unit_or_less v : dot (normalized v) (normalized v) <= 1.
Proof.
  destruct (Req_dec (sqrNorm v) 0) as [Z|Z].
  - assert (v = V3 0 0 0). { unfold sqrNorm in Z. apply vec3_eq; cbn; nra. } subst. unfold normalized, dot; cbn. nra.
  - pose proof (normalized_unit v) as U. unfold unit3 in U. rewrite U; [lra|]. intros ->. apply Z. unfold sqrNorm; cbn; ring.
Qed.
Lemma cos_range n w : dot n n = 1 -> dot w w <= 1 -> -1 <= dot n w <= 1.
Proof. unfold dot. intros N W. pose proof (Rle_0_sqr (vx n - vx w)). pose proof (Rle_0_sqr (vy n - vy w)). pose proof (Rle_0_sqr (vz n - vz w)).
  pose proof (Rle_0_sqr (vx n + vx w)). pose proof (Rle_0_sqr (vy n + vy w)). pose proof (Rle_0_sqr (vz n + vz w)). unfold Rsqr in *. split; lra. Qed.
Lemma within_cos b x k : within b x -> 0 <= k <= 1 -> within b (vscale x k).
Proof. unfold within; cbn. intros (X & Y & Z) K. repeat split; nra. Qed.

Section Lit.
Context {M : Type}.
Variable S : scene M.
Variable B : R.
Hypothesis B_pos : 0 <= B.
Hypothesis clear : absorbing S.
Hypothesis simple : plain_lamps S.
Notation n := (INR (length (sc_emitters S))).

Lemma attenuate_in segs : forall beta b, within 1 beta -> leaf (attenuate M (sc_transmittance S) segs beta) (Ok b) -> within 1 b.
Proof.
  induction segs as [|[m r] l IH]; intros beta b N L; cbn [attenuate] in L.
  - apply leaf_ret_inv in L. injection L as ->. exact N.
  - apply leaf_bind in L as (t & L1 & L2). apply (IH _ _ (within_mul _ _ _ N (clear _ _ _ L1)) L2).
Qed.
Lemma finish_in o beta x : within 1 beta -> leaf (finish M (sc_transmittance S) o beta) (Ok x) -> within 1 (snd x).
Proof.
  intros N L. destruct o as [l|]; cbn [finish] in L.
  - apply leaf_obind in L as (b & L1 & L2). apply leaf_ret_inv in L2. injection L2 as ->. exact (attenuate_in _ _ _ N L1).
  - apply leaf_ret_inv in L. injection L as ->. exact N.
Qed.
Lemma transmittance_in r i beta x : within 1 beta -> leaf (intersect_transmittance M (sc_inside S) (sc_transmittance S) (sc_fuel S) r i beta) (Ok x) -> within 1 (snd x).
Proof.
  intros N L. unfold intersect_transmittance in L. destruct i as [m|].
  - apply leaf_hit_inv in L as (a & L). destruct a as [i|].
    + destruct (i_null i).
      * apply leaf_obind in L as (o & _ & L). exact (finish_in _ _ _ N L).
      * apply leaf_ret_inv in L. injection L as ->. exact N.
    + apply leaf_obind in L as (o & _ & L). exact (finish_in _ _ _ N L).
  - apply leaf_obind in L as (o & _ & L). exact (finish_in _ _ _ N L).
Qed.
(** one lamp: a part x of at most B, times the cosine at a surface *)
Lemma lamp_in its md nrm im e w t : In e (sc_emitters S) -> lamps S B (i_p its) ->
  leaf (eval_emitter (sc_mesh_point S) M (sc_inside S) (sc_transmittance S) (sc_fuel S) (sc_ignore S) its md nrm im (1 / n) e) (Ok (Some (w, t))) ->
  exists x, within B x /\ t = vscale x (if im then 1 else nee_cos nrm w) /\ dot w w <= 1.
Proof.
  intros In La L. unfold eval_emitter in L. apply leaf_rand2_inv in L as (u & L). apply leaf_obind in L as (s & L1 & L). apply leaf_ret_inv in L1. symmetry in L1.
  apply leaf_obind in L as ([[r c] pdf] & L2 & L). apply leaf_obind in L as ([bl tr] & L3 & L). cbv beta iota in L.
  apply transmittance_in in L3; [|unfold within; cbn; lra]. cbn [snd] in L3.
  assert (Q : c = es_color s /\ pdf = es_pdf s /\ dir r = es_wi s /\ exists d, es_sqr_dist s = Some d).
  { unfold shadow_query in L2. rewrite (simple e In) in L2. destruct (es_sqr_dist s); apply leaf_ret_inv in L2; [|discriminate]. injection L2 as -> -> ->. eauto. }
  destruct Q as (-> & -> & Dir & (d & Ds)).
  assert (Unit : dot (es_wi s) (es_wi s) <= 1).
  { destruct e; cbn [sample_nee] in L1; try discriminate.
    - injection L1 as <-. apply unit_or_less.
    - injection L1 as <-. discriminate.
    - injection L1 as <-. discriminate.
    - destruct (sc_mesh_point S mesh u) as [[[q nn] pa]|m| |]; cbn [bind] in L1; try discriminate. destruct (Rle_dec _ _); injection L1 as <-; apply unit_or_less.
    - injection L1 as <-. discriminate. }
  destruct (negb bl || sc_ignore S)%bool; apply leaf_ret_inv in L; [|discriminate]. injection L as -> ->. rewrite Dir.
  destruct (Req_EM_T (es_pdf s) 0) as [Z|Z].
  - exists (V3c 0). split; [apply within_0, B_pos|]. split; [apply vec3_eq; cbn; ring|exact Unit].
  - pose proof (La e u s In L1 Z) as W.
    assert (N0 : 0 < n) by (apply lt_0_INR; destruct (sc_emitters S); [destruct In|cbn; lia]).
    assert (W' : within B (vscale (vdiv (es_color s) (es_pdf s)) n)).
    { destruct W as (W1 & W2 & W3). unfold within. cbn in *.
      assert (G : forall x, 0 <= x <= B / n -> 0 <= x * n <= B). { intros x X. replace B with (B / n * n) by (field; lra). split; [apply Rmult_le_pos; lra|apply Rmult_le_compat_r; lra]. }
      auto. }
    exists (vmul tr (vscale (vdiv (es_color s) (es_pdf s)) n)). split; [apply within_mul; assumption|]. split; [|exact Unit].
    destruct im; apply vec3_eq; cbn; field; lra.
Qed.

(** what the closure carries along: at most one light sample, of at most B *)
Definition dimmed (e : emitter_eval) : Prop := e_valid e = true -> within B (e_throughput e).
Definition calm (c : closure) : Prop := c_all c = false /\ (length (c_shadow c) <= 1)%nat /\ List.Forall dimmed (c_shadow c).
(** a light sample taken at a surface *)
Definition at_point (i : isect) (e : emitter_eval) : Prop :=
  e_valid e = true -> exists x w, within B x /\ e_throughput e = vscale x (nee_cos (fn (i_s i)) w) /\ e_dir e = toLocal (i_s i) w /\ dot w w <= 1.
Lemma one_light i md im l : lamps S B (i_p i) ->
  leaf (eval_one (sc_mesh_point S) M (sc_inside S) (sc_transmittance S) (sc_fuel S) (sc_emitters S) (sc_inst S) (sc_ignore S) i md im) (Ok l) ->
  (length l <= 1)%nat /\ List.Forall (if im then dimmed else at_point i) l.
Proof.
  intros La L. unfold eval_one in L. apply leaf_obind in L as (o & L1 & L). destruct o as [[e p]|].
  2:{ apply leaf_ret_inv in L. injection L as ->. split; [cbn; lia|]. repeat constructor. destruct im; discriminate. }
  assert (In : In e (sc_emitters S) /\ p = 1 / n).
  { unfold choose_emitter in L1. destruct (sc_emitters S) as [|e0 l0] eqn:E; [apply leaf_ret_inv in L1; discriminate|]. rewrite <- E in *. clear E e0 l0.
    apply leaf_rand1_inv in L1 as (u & L1). unfold naive_choice in L1. destruct (_ <? 0)%Z; [apply leaf_ret_inv in L1; discriminate|].
    destruct (nth_error _ _) as [e'|] eqn:Ne; [|apply leaf_ret_inv in L1; discriminate]. apply nth_error_In in Ne.
    destruct (em_mesh e') as [m|]; [destruct (_ =? _)%nat|]; apply leaf_ret_inv in L1; try discriminate; injection L1 as -> ->; auto. }
  destruct In as (In & ->). apply leaf_obind in L as (o & L2 & L). apply leaf_ret_inv in L. injection L as ->. split; [cbn; lia|].
  constructor; [|constructor]. destruct o as [[w t]|]; [|destruct im; discriminate]. apply lamp_in in L2; [|assumption..]. destruct L2 as (x & Wx & -> & Un).
  destruct im; intros _; cbn.
  - replace (vscale x 1) with x by (apply vec3_eq; cbn; ring). exact Wx.
  - exists x, w. auto.
Qed.
Lemma nee_calm hit surf i md l : lamps S B (i_p i) -> hleaf hit (sc_nee S false surf i md) l -> (length l <= 1)%nat /\ List.Forall dimmed l.
Proof.
  intros La H. apply hleaf_leaf in H. unfold sc_nee, no_failure in H. apply leaf_bind in H as (o & L & R0). apply leaf_ret_inv in R0. subst l.
  destruct o as [l|m| |]; try (split; [cbn; lia|constructor]). apply (one_light i md true l La L).
Qed.
(** the material times a light sample *)
Lemma mat_in i wi wo : plain (chosen_bsdf S i) -> within 1 (sc_mat S i wi wo).
Proof.
  assert (Pi : 0 < 1 / PI <= 1). { pose proof PI_RGT_0. pose proof PI2_1. split; [apply Rdiv_lt_0_compat; lra|]. apply Rmult_le_reg_r with PI; [lra|]. unfold Rdiv. rewrite Rmult_assoc, Rinv_l by lra. lra. }
  unfold sc_mat. intros P. destruct (chosen_bsdf S i); cbn in *; try contradiction; try exact P.
  - destruct (Rle_dec _ _); [apply within_0; lra|]. destruct (Rle_dec _ _); [apply within_0; lra|]. apply within_cos; [exact P|lra].
  - destruct (Rle_dec _ _); [apply within_0; lra|exact P].
Qed.
Lemma facing v : 0 < vz (normalized v) -> 0 < vz v.
Proof.
  unfold normalized. cbn. intros H. destruct (Rlt_dec 0 (vz v)) as [|X]; [assumption|]. exfalso.
  assert (0 <= / norm v). { destruct (Req_dec (norm v) 0) as [Z|Z]; [rewrite Z, Rinv_0; lra|]. left. apply Rinv_0_lt_compat. pose proof (norm_nonneg v). lra. }
  unfold Rdiv in *. nra.
Qed.
Lemma own_light i wi e : plain (chosen_bsdf S i) -> isDelta (chosen_bsdf S i) = false -> normal_ok i -> at_point i e -> e_valid e = true ->
  within B (vmul (e_throughput e) (sc_mat S i wi (normalized (e_dir e)))).
Proof.
  intros P D (N1 & N2 & N3) A V. destruct (A V) as (x & w & Wx & -> & -> & Un).
  pose proof (mat_in i wi (normalized (toLocal (i_s i) w)) P) as Wm.
  assert (Z : sc_mat S i wi (normalized (toLocal (i_s i) w)) = V3c 0 \/ 0 < dot (fn (i_s i)) w).
  { unfold sc_mat. destruct (chosen_bsdf S i); cbn in P, D; try contradiction; try discriminate. cbn. destruct (Rle_dec _ _); [now left|]. destruct (Rle_dec _ _) as [|C]; [now left|]. right.
    unfold cosTheta in C. apply Rnot_le_lt in C. apply (facing (toLocal (i_s i) w)) in C. cbn in C. rewrite dot_comm. exact C. }
  destruct Z as [->|C].
  - replace (vmul _ (V3c 0)) with (V3c 0) by (apply vec3_eq; cbn; ring). apply within_0, B_pos.
  - pose proof (cos_range _ w N3 Un). unfold nee_cos. destruct (Rlt_dec _ _) as [X|_]; [unfold Epsilon in X; lra|].
    replace (vmul _ _) with (vmul (sc_mat S i wi (normalized (toLocal (i_s i) w))) (vscale x (dot (fn (i_s i)) w))) by (apply vec3_eq; cbn; ring).
    apply within_mul; [exact Wm|]. apply within_cos; [exact Wx|lra].
Qed.
Lemma carried_light i wi e : plain (chosen_bsdf S i) -> dimmed e -> e_valid e = true -> within B (vmul (e_throughput e) (sc_mat S i wi (normalized (e_dir e)))).
Proof.
  intros P A V. replace (vmul _ _) with (vmul (sc_mat S i wi (normalized (e_dir e))) (e_throughput e)) by (apply vec3_eq; cbn; ring).
  apply within_mul; [apply mat_in, P|apply A, V].
Qed.
(** the light a surface sends on directly *)
Lemma shadow_in i wi l : (length l <= 1)%nat -> (forall e, In e l -> e_valid e = true -> within B (vmul (e_throughput e) (sc_mat S i wi (normalized (e_dir e))))) ->
  within B (shadow_sum (sc_mat S i) wi l (V3c 0)).
Proof.
  intros Le H. destruct l as [|e [|]]; cbn in *; [apply within_0, B_pos| |lia]. destruct (e_valid e) eqn:V; [|apply within_0, B_pos].
  rewrite vadd_0_l. apply H; auto.
Qed.
Definition shone (i : isect) (c0 : closure) : Prop :=
  c_spec c0 = isDelta (chosen_bsdf S i) /\ c_nee c0 = V3c 0 /\ lit_by S i (c_emission c0) /\ c_all c0 = false /\ within B (shadow_sum (sc_mat S i) (c_wi c0) (c_shadow c0) (V3c 0)) /\
  (forall e wi, In e (c_shadow c0) -> e_valid e = true -> within B (vmul (e_throughput e) (sc_mat S i wi (normalized (e_dir e))))).
Lemma shaded_shone md i r c c0 : plain (chosen_bsdf S i) -> normal_ok i -> lamps S B (i_p i) -> c_nee c = V3c 0 -> c_emission c = V3c 0 -> calm c ->
  SceneProof.shaded (sc_mesh_point S) (sc_inside S) (sc_transmittance S) (sc_fuel S) (sc_emitters S) (sc_inst S) (sc_ignore S) (sc_object_emitter S) md (isDelta (chosen_bsdf S i)) i r c c0 -> shone i c0.
Proof.
  intros P No La N E (C1 & C2 & C3) (A1 & A2 & A3 & A4 & A5 & A6 & A7 & A8). unfold shone.
  split; [exact A3|]. split; [congruence|]. split.
  { destruct (c_last_spec c) eqn:Ls.
    - specialize (A2 eq_refl). unfold lit_by. destruct (sc_object_emitter S (sc_inst S (i_mesh i))) as [e|]; [right; eauto|left; exact A2].
    - left. rewrite A1; auto. }
  split; [congruence|].
  assert (Each : (forall e wi, In e (c_shadow c0) -> e_valid e = true -> within B (vmul (e_throughput e) (sc_mat S i wi (normalized (e_dir e))))) /\ (length (c_shadow c0) <= 1)%nat).
  { assert (Old : c_shadow c0 = c_shadow c -> (forall e wi, In e (c_shadow c0) -> e_valid e = true -> within B (vmul (e_throughput e) (sc_mat S i wi (normalized (e_dir e))))) /\ (length (c_shadow c0) <= 1)%nat).
    { intros ->. split; [|exact C2]. intros e wi In V. apply carried_light; auto. rewrite List.Forall_forall in C3. apply C3, In. }
    destruct (isDelta (chosen_bsdf S i)) eqn:D; [apply Old, A7; auto|]. destruct (c_accepts c) eqn:Ac; [|apply Old, A7; auto].
    specialize (A8 eq_refl eq_refl). unfold lights in A8. rewrite C1 in A8. apply (one_light i md false _ La) in A8 as (Le & Fo).
    split; [|exact Le]. intros e wi In V. apply own_light; auto. rewrite List.Forall_forall in Fo. apply Fo, In. }
  destruct Each as (Each & Le). split; [|exact Each]. apply shadow_in; [exact Le|]. intros e. apply Each.
Qed.
Lemma evaluate_shone md i r c c0 : plain (chosen_bsdf S i) -> normal_ok i -> lamps S B (i_p i) -> c_nee c = V3c 0 -> c_emission c = V3c 0 -> calm c ->
  leaf (sc_evaluate_in S i r md c) c0 -> shone i c0.
Proof.
  intros P No La N E C L. unfold sc_evaluate_in, no_failure in L. apply leaf_bind in L as (o & L & R0). apply leaf_ret_inv in R0.
  assert (Unl : shone i (Renderer.unlit (isDelta (chosen_bsdf S i)) c)).
  { destruct C as (C1 & C2 & C3). rewrite List.Forall_forall in C3.
    assert (Each : forall e wi, In e (c_shadow c) -> e_valid e = true -> within B (vmul (e_throughput e) (sc_mat S i wi (normalized (e_dir e))))) by (intros e wi In V; apply carried_light; auto).
    unfold shone, Renderer.unlit. cbn [c_spec c_nee c_emission c_all c_wi c_shadow set_spec]. split; [reflexivity|]. split; [exact N|]. split; [now left|]. split; [exact C1|].
    split; [|exact Each]. apply shadow_in; [exact C2|]. intros e. apply Each. }
  destruct o as [c1|m| |]; subst; try exact Unl.
  unfold sc_try_in in L. unfold chosen_bsdf in *. destruct (sc_shader S (i_mesh i)) as [b|th wi me] eqn:Sh.
  - apply simple_in_leaf in L as (L & _ & _). eapply shaded_shone; unfold chosen_bsdf; rewrite ?Sh; eassumption.
  - apply shade_in_leaf in L as (L & _ & _). eapply shaded_shone; unfold chosen_bsdf; rewrite ?Sh; eassumption.
Qed.

Variable hit : ray -> option isect.
Variable boundary : nat -> option (option M * option M).
Variable ms : M -> option bool -> ray -> R -> query (vec3 * R).
Variable ph : M -> vec3 -> vec2 -> vec3 * R.
Variable E F : R.
Lemma lit_gentle : 0 <= E -> 0 <= F -> (forall m, all_bsdfs plain (sc_shader S m)) ->
  (forall r i, hit r = Some i -> normal_ok i /\ lamps S B (i_p i)) ->
  (forall m e d c, sc_object_emitter S m = Some e -> em_evaluate e d = Ok c -> within E c) ->
  (forall d c, env_emission (sc_envs S) d = Ok c -> within E c) ->
  (forall m f r i wt, hit r = Some i -> hleaf hit (ms m f r (i_t i)) wt -> snd wt < i_t i -> lamps S B (ray_at r (snd wt))) ->
  (forall m f r t wt, hleaf hit (ms m f r t) wt -> within 1 (fst wt)) ->
  (forall m w u, 0 <= snd (ph m w u) <= F) ->
  gentle hit M (sc_env S) boundary ms ph (sc_nee S) (sc_evaluate_in S) (sc_mat S) (sc_sample S) false (E + Rmax 1 F * B) calm.
Proof.
  intros E0 F0 Plain Surf Glow Sky Fog Med Pha.
  assert (M1 : 1 * B <= Rmax 1 F * B) by (apply Rmult_le_compat_r; [exact B_pos|apply Rmax_l]).
  assert (M2 : F * B <= Rmax 1 F * B) by (apply Rmult_le_compat_r; [exact B_pos|apply Rmax_r]).
  constructor.
  - lra.
  - intros r. unfold sc_env. destruct (env_emission (sc_envs S) (dir r)) eqn:Ee; [apply within_le with E; [lra|exact (Sky _ _ Ee)]|apply within_0; lra..].
  - unfold calm. cbn. repeat split; [lia|constructor].
  - intros r i c Q. unfold boundary_closure. destruct (boundary (i_mesh i)); exact Q.
  - intros r i md c c1 Hi Q Lf. destruct (Surf r i Hi) as (No & La). pose proof (chosen_all S plain i Plain) as P.
    apply hleaf_leaf in Lf. apply evaluate_shone in Lf; [|assumption..|reflexivity|reflexivity|exact Q]. destruct Lf as (Sp & Ne & Em & Al & Sum & _). cbv zeta. split.
    + unfold accumulate_shadow_rays. cbn [c_emission c_nee]. rewrite Ne. apply within_le with (E + B); [lra|]. apply within_add; [|exact Sum].
      destruct Em as [->|(e & d & O & V)]; [apply within_0, E0|exact (Glow _ _ _ _ O V)].
    + intros c3 L3. apply hleaf_leaf in L3. pose proof (bsdf_sample_keeps _ _ _ L3) as Keep. unfold sc_sample in L3.
      apply sample_weight with (i := i) in L3; [| |exact No|exact Sp].
      2: { destruct (chosen_bsdf S i); cbn in P; try contradiction; exact I. }
      destruct L3 as (A1 & A2 & A3 & A4). split; [exact A2|]. split; [exact A3|]. split.
      { unfold calm. rewrite A1. cbn. split; [|split; [lia|constructor]]. cbn in Keep. intuition congruence. }
      intros P0. destruct (A4 P0) as (A5 & A6).
      replace (vscale (c_albedo c3) (cos_term i c3 / c_pdf c3)) with (vscale (vscale (c_albedo c3) (cos_term i c3)) (/ c_pdf c3)) by (apply vec3_eq; cbn; unfold Rdiv; ring).
      rewrite A6. replace (vscale (vscale (colour (chosen_bsdf S i)) (c_pdf c3)) (/ c_pdf c3)) with (colour (chosen_bsdf S i)) by (apply vec3_eq; cbn; field; lra).
      destruct (chosen_bsdf S i); cbn in P |- *; try contradiction; exact P.
  - exact Med.
  - intros surf i m f r c wt l s k Q Hi Lw Ins Ll. destruct Q as (Q1 & _). rewrite Q1 in Ll. apply nee_calm in Ll; [|exact (Fog _ _ _ _ _ Hi Lw Ins)].
    destruct Ll as (Le & Fo). split; [|split; [exact Q1|split; assumption]].
    specialize (Pha m (vneg (dir r)) s). set (p := snd _) in *.
    destruct l as [|e [|]]; cbn in *; [apply within_0; lra| |lia]. destruct (e_valid e) eqn:V; [|apply within_0; lra].
    inversion Fo as [|? ? D _]; subst. destruct (D V) as (D1 & D2 & D3). unfold within; cbn.
    assert (G : forall x, 0 <= x <= B -> 0 <= 0 + x * 1 * p <= E + Rmax 1 F * B). { intros x X. nra. }
    replace (V3c 0) with (V3 0 0 0) by reflexivity. cbn.
    pose proof (G _ D1). pose proof (G _ D2). pose proof (G _ D3). repeat split; lra.
Qed.
End Lit.
