(** Averages of camera samples in concrete scenes, and of numbers on a grid. *)
From Coq Require Import Reals List Bool ZArith Lra Lia.
From Coquelicot Require Import Rbar.
From Verif.Base Require Import Outcome.
From Verif.Model Require Import Vec Frame BBox Warp Integrators Bsdf Scene Renderer VolPath.
From Verif.Spec Require Import IntegratorSpec BoundSpec VolPathSpec ExpectSpec.
From Verif.Proof Require Import VecLemmas IntegratorProof SceneProof BoundProof VolPathTheory ExpectProof.
Import ListNotations.
Open Scope R_scope.

(** ** numbers on a grid *)
Lemma total_lin n x y f g : total n (fun k => x * f k + y * g k) = x * total n f + y * total n g.
Proof. induction n as [|n IH]; cbn; [ring|]. rewrite IH. ring. Qed.
Lemma total_mono n f g : (forall k, f k <= g k) -> total n f <= total n g.
Proof. intros H. induction n as [|n IH]; cbn; [lra|]. specialize (H n). lra. Qed.
Lemma total_one n : total n (fun _ => 1) = INR n.
Proof. induction n as [|n IH]; [reflexivity|]. rewrite S_INR. cbn [total]. rewrite IH. reflexivity. Qed.
Section Grid.
Variable N : nat.
Hypothesis N_pos : (0 < N)%nat.
Lemma N_R : 0 < INR N. Proof. apply lt_0_INR, N_pos. Qed.
Lemma grid_lin x y f g : grid1 N (fun u => x * f u + y * g u) = x * grid1 N f + y * grid1 N g.
Proof. unfold grid1. rewrite total_lin. field. pose proof N_R. lra. Qed.
Lemma grid_mono f g : (forall u, f u <= g u) -> grid1 N f <= grid1 N g.
Proof.
  intros H. unfold grid1. apply Rmult_le_compat_r; [left; apply Rinv_0_lt_compat, N_R|]. apply total_mono. intros k. apply H.
Qed.
Lemma grid_one : grid1 N (fun _ => 1) = 1.
Proof. unfold grid1. rewrite total_one. field. pose proof N_R. lra. Qed.
Lemma grid_ext f g : (forall u, f u = g u) -> grid1 N f = grid1 N g.
Proof. intros H. apply Rle_antisym; apply grid_mono; intros u; rewrite H; lra. Qed.
Lemma grid_count p n : 0 <= p -> 
  let T := total n (fun k => if Rgt_dec (INR k / INR N) p then 0 else 1) in
  T <= INR n /\ T <= p * INR N + 1 /\ Rmin (INR n) (p * INR N) <= T.
Proof.
  intros Hp. cbv zeta. pose proof N_R as NR. assert (0 <= p * INR N) by (apply Rmult_le_pos; lra). induction n as [|n (A & B & C)].
  - cbn [total INR]. split; [lra|]. split; [lra|apply Rmin_l].
  - cbn [total]. rewrite S_INR. set (T := total n _) in *.
    assert (Q : INR n / INR N * INR N = INR n) by (field; lra).
    destruct (Rgt_dec (INR n / INR N) p) as [G|G].
    + assert (p * INR N < INR n) by (rewrite <- Q; apply Rmult_lt_compat_r; lra). unfold Rmin in *. destruct (Rle_dec (INR n) (p * INR N)); destruct (Rle_dec (INR n + 1) (p * INR N)); lra.
    + assert (INR n <= p * INR N) by (rewrite <- Q; apply Rmult_le_compat_r; lra). unfold Rmin in *. destruct (Rle_dec (INR n) (p * INR N)); destruct (Rle_dec (INR n + 1) (p * INR N)); lra.
Qed.
Lemma grid_averages : averages (1 / INR N) (grid1 N) (grid2 N).
Proof.
  pose proof N_R as NR. constructor.
  - apply grid_lin.
  - apply grid_mono.
  - apply grid_one.
  - intros. unfold grid2. rewrite <- grid_lin. apply grid_ext. intros u. apply grid_lin.
  - intros f g H. unfold grid2. apply grid_mono. intros u. apply grid_mono. intros v. apply H.
  - unfold grid2. rewrite (grid_ext _ (fun _ => 1)); [apply grid_one|intros u; apply grid_one].
  - intros p (P0 & P1). unfold grid1. destruct (grid_count p N P0) as (A & B & C). rewrite Rmin_right in C.
    + split; apply Rmult_le_reg_r with (INR N); try exact NR; unfold Rdiv; rewrite Rmult_assoc, Rinv_l by lra; [lra|].
      rewrite Rmult_1_l, Rmult_plus_distr_r, Rinv_l by lra. lra.
    + rewrite <- (Rmult_1_l (INR N)) at 2. apply Rmult_le_compat_r; lra.
Qed.
End Grid.

(** ** scenes without lights to sample *)
Section Scenes.
Context {M : Type}.
Variable S : scene M.
Hypothesis dark : sc_emitters S = [].
Notation off := (fun e => e_valid e = false).
Definition quiet (c : closure) : Prop := Forall off (c_shadow c).
Definition shades (i : isect) (delta : bool) (c0 : closure) : Prop :=
  c_spec c0 = delta /\ c_nee c0 = V3c 0 /\ lit_by S i (c_emission c0) /\ quiet c0.
Lemma shade_quiet md delta i r c c0 : c_nee c = V3c 0 -> c_emission c = V3c 0 -> quiet c ->
  leaf (shade_in (sc_mesh_point S) M (sc_inside S) (sc_transmittance S) (sc_fuel S) [] (sc_inst S) (sc_ignore S) (sc_object_emitter S) md delta i r c) (Ok c0) ->
  shades i delta c0.
Proof.
  intros N E Sh L. unfold shade_in in L. apply leaf_obind in L. destruct L as (c1 & L1 & L). apply leaf_ret_inv in L1.
  assert (H1 : shades i delta c1).
  { destruct (c_last_spec (set_spec c delta (c_last_spec c) (c_accepts c))).
    - unfold accumulate_emission in L1. destruct (sc_object_emitter S (sc_inst S (i_mesh i))) as [e|] eqn:O.
      + destruct (em_evaluate e _) eqn:V; try discriminate. injection L1 as ->. unfold shades, quiet; cbn. repeat split; auto. right. eauto.
      + injection L1 as ->. unfold shades, quiet; cbn. repeat split; auto. now left.
    - injection L1 as ->. unfold shades, quiet; cbn. repeat split; auto. left. exact E. }
  clear L1. destruct delta.
  - apply leaf_ret_inv in L. injection L as ->. destruct H1 as (A & B & C & D). unfold shades, quiet; cbn. auto.
  - destruct (c_accepts c1); [|apply leaf_ret_inv in L; injection L as ->; exact H1].
    apply leaf_obind in L. destruct L as (l & L1 & L). apply leaf_ret_inv in L. injection L as ->. destruct H1 as (A & B & C & D). unfold shades, quiet; cbn.
    repeat split; auto. destruct (c_all c1); [apply leaf_ret_inv in L1; injection L1 as ->; constructor|].
    unfold eval_one, choose_emitter in L1. apply leaf_obind in L1. destruct L1 as (o & L1 & L). apply leaf_ret_inv in L1. injection L1 as ->.
    apply leaf_ret_inv in L. injection L as ->. repeat constructor.
Qed.
Lemma evaluate_quiet md i r c c0 : c_nee c = V3c 0 -> c_emission c = V3c 0 -> quiet c -> leaf (sc_evaluate_in S i r md c) c0 ->
  shades i (isDelta (chosen_bsdf S i)) c0.
Proof.
  intros N E Sh L. unfold sc_evaluate_in, no_failure in L. apply leaf_bind in L. destruct L as (o & L & R0). apply leaf_ret_inv in R0.
  destruct o as [c1|m| |]; subst; [|unfold shades, unlit, quiet; cbn; repeat split; auto; left; exact E..].
  unfold sc_try_in in L. unfold chosen_bsdf. rewrite dark in L. destruct (sc_shader S (i_mesh i)) as [b|th wi me].
  - unfold simple_evaluate_in in L. apply leaf_obind in L. destruct L as (c2 & L & R0). apply leaf_ret_inv in R0. injection R0 as ->.
    apply shade_quiet in L; auto. destruct (isDelta b); [exact L|]. destruct L as (A & B & C & D). unfold shades, quiet; cbn. auto.
  - apply shade_quiet in L; auto.
Qed.
Lemma nee_quiet hit all surf i md l : hleaf hit (sc_nee S all surf i md) l -> Forall off l.
Proof.
  intros H. apply hleaf_leaf in H. unfold sc_nee, no_failure in H. apply leaf_bind in H. destruct H as (o & L & R0). apply leaf_ret_inv in R0. subst l.
  destruct o as [l|m| |]; try constructor. rewrite dark in L. destruct all; [apply leaf_ret_inv in L; injection L as ->; constructor|].
  unfold eval_one, choose_emitter in L. apply leaf_obind in L. destruct L as (o & L1 & L). apply leaf_ret_inv in L1. injection L1 as ->.
  apply leaf_ret_inv in L. injection L as ->. repeat constructor.
Qed.
Lemma media_quiet beta ph l : Forall off l -> forall n, media_nee beta ph l n = n.
Proof. induction 1 as [|e l V _ IH]; intros n; cbn; [reflexivity|]. rewrite V. apply IH. Qed.

Variable hit : ray -> option isect.
Variable boundary : nat -> option (option M * option M).
Variable ms : M -> option bool -> ray -> R -> query (vec3 * R).
Variable ph : M -> vec3 -> vec2 -> vec3 * R.
Variable L : R.
Lemma scene_gentle : 0 <= L -> (forall m, all_bsdfs plain (sc_shader S m)) ->
  (forall r i, hit r = Some i -> normal_ok i) ->
  (forall m e d c, sc_object_emitter S m = Some e -> em_evaluate e d = Ok c -> within L c) ->
  (forall d c, env_emission (sc_envs S) d = Ok c -> within L c) ->
  (forall m f r t wt, hleaf hit (ms m f r t) wt -> within 1 (fst wt)) ->
  gentle hit M (sc_env S) boundary ms ph (sc_nee S) (sc_evaluate_in S) (sc_mat S) (sc_sample S) false L quiet.
Proof.
  intros L0 Plain Norm Glow Sky Med. constructor.
  - exact L0.
  - intros r. unfold sc_env. destruct (env_emission (sc_envs S) (dir r)) eqn:E; [exact (Sky _ _ E)|apply within_0, L0..].
  - constructor.
  - intros r i c Q. unfold boundary_closure. destruct (boundary (i_mesh i)); exact Q.
  - intros r i md c c1 Hi Q Lf. apply hleaf_leaf in Lf. apply evaluate_quiet in Lf; [|reflexivity..|exact Q]. destruct Lf as (Sp & Ne & Em & Inv). cbv zeta.
    unfold quiet in Inv. split.
    + unfold accumulate_shadow_rays. cbn. rewrite dark_sum by exact Inv. rewrite Ne, vadd_0_r. destruct Em as [->|(e & d & O & V)]; [apply within_0, L0|exact (Glow _ _ _ _ O V)].
    + intros c3 L3. apply hleaf_leaf in L3. unfold sc_sample in L3. pose proof (chosen_all S plain i Plain) as P.
      apply sample_weight with (i := i) in L3; [| |exact (Norm r i Hi)|exact Sp].
      2: { destruct (chosen_bsdf S i); cbn in P; try contradiction; exact I. }
      destruct L3 as (A1 & A2 & A3 & A4). split; [exact A2|]. split; [exact A3|]. split; [unfold quiet; rewrite A1; cbn; first [exact Inv|constructor]|].
      intros P0. destruct (A4 P0) as (A5 & A6).
      replace (vscale (c_albedo c3) (cos_term i c3 / c_pdf c3)) with (vscale (vscale (c_albedo c3) (cos_term i c3)) (/ c_pdf c3)) by (apply vec3_eq; cbn; unfold Rdiv; ring).
      rewrite A6. replace (vscale (vscale (colour (chosen_bsdf S i)) (c_pdf c3)) (/ c_pdf c3)) with (colour (chosen_bsdf S i)) by (apply vec3_eq; cbn; field; lra).
      destruct (chosen_bsdf S i); cbn in P |- *; try contradiction; exact P.
  - exact Med.
  - intros surf i m f r c wt l s n Q _ _ _ Ll. apply nee_quiet in Ll. split; [rewrite media_quiet by exact Ll; apply within_0, L0|exact Ll].
Qed.
End Scenes.
