(** The light of several lamps is the sum of their lights. *)
From Coq Require Import Reals List Bool ZArith Lra Lia FunctionalExtensionality.
From Flocq Require Import Core.Raux.
From Coquelicot Require Import Rbar.
From Verif.Base Require Import Outcome.
From Verif.Model Require Import Vec Frame BBox Warp Integrators Bsdf Scene Renderer.
From Verif.Spec Require Import LinAlgSpec IntegratorSpec BoundSpec PathSpec VolPathSpec ExpectSpec NoiseSpec LitSpec TapeSpec OrderSpec SumSpec.
From Verif.Proof Require Import VecLemmas IntegratorProof SceneProof BoundProof VolPathTheory ExpectProof ExpectScene LitScene TapeProof OrderProof PaintProof.
Import ListNotations.
Open Scope R_scope.

Section Sum.
Context {M : Type}.
Variable Sc : scene M.
Variable hit : ray -> option isect.
Variable N : nat.
Hypothesis N_pos : (0 < N)%nat.
Variable get : vec3 -> R.
Hypothesis ch : channel get.
Notation av := (grid_averages N N_pos).
Notation E := (expect hit (grid1 N) (grid2 N)).
Notation one L i := (eval_one (sc_mesh_point Sc) M (sc_inside Sc) (sc_transmittance Sc) (sc_fuel Sc) L (sc_inst Sc) (sc_ignore Sc) i None false).
Notation lamp i p e := (eval_emitter (sc_mesh_point Sc) M (sc_inside Sc) (sc_transmittance Sc) (sc_fuel Sc) (sc_ignore Sc) i None (fn (i_s i)) false p e).
(** what light samples add at a surface *)
Definition added i wi (l : list emitter_eval) : R := get (shadow_sum (sc_mat Sc i) wi l (V3c 0)).
Definition gained i wi (o : outcome (option (vec3 * vec3))) : R := match o with Ok o => added i wi [eval_of i o] | _ => 0 end.

(** a light chosen with density p counts 1 / p times *)
Lemma scaled i wi p e : 0 < p -> E (lamp i p e) (gained i wi) = 0 + / p * E (lamp i 1 e) (gained i wi).
Proof.
  intros P. unfold eval_emitter. cbn [expect]. rewrite <- (e2_affine _ _ _ av). apply (e2_ext _ _ _ av). intros u.
  unfold obind. rewrite !(expect_bind _ _ _ av). cbn [expect]. destruct (sample_nee _ e (i_p i) u) as [s|m| |]; cbn [expect gained]; try ring.
  rewrite !(expect_bind _ _ _ av), <- (expect_affine _ _ _ av). apply (expect_eq _ _ _ av). intros [[[r c] pdf]|m| |] _; cbn [expect gained]; try ring.
  rewrite !(expect_bind _ _ _ av), <- (expect_affine _ _ _ av). apply (expect_eq _ _ _ av). intros [[bl tr]|m| |] _; cbn [expect gained]; try ring.
  destruct (negb bl || sc_ignore Sc)%bool; cbn [expect gained]; unfold added; cbn [eval_of shadow_sum no_eval e_valid e_throughput e_dir].
  - rewrite !(get_add get ch), !(get_mul get ch), !(get_c get ch). destruct (Req_EM_T pdf 0) as [|Z]; [rewrite !(get_c get ch); ring|].
    rewrite !(get_mul get ch), !(get_div get ch). field. lra.
  - rewrite (get_c get ch). ring.
Qed.
(** what one light gives *)
Definition share i wi (e : emitter) : R :=
  match em_mesh e with
  | Some m => if (sc_inst Sc m =? sc_inst Sc (i_mesh i))%nat then 0 else E (lamp i 1 e) (gained i wi)
  | None => E (lamp i 1 e) (gained i wi)
  end.
Lemma one_mean L r i wi a (g : list emitter_eval -> R) z : hit r = Some i -> steady Sc hit L -> (forall l, g l = a + added i wi l) -> (0 < length L)%nat -> forall e0,
  E (one L i) (fun o => match o with Ok l => g l | _ => z end) = a + total N (fun k => INR (length L) * share i wi (nth (k * length L / N) L e0)) / INR N.
Proof.
  intros Hi St G Len e0. pose proof (lt_0_INR _ N_pos) as N0. pose proof (lt_0_INR _ Len) as L0. unfold eval_one, obind. rewrite (expect_bind _ _ _ av), (choose_mean Sc N N_pos hit e0) by exact Len.
  replace a with (total N (fun _ => a) / INR N) at 1 by (rewrite total_const; field; lra).
  unfold Rdiv. rewrite <- Rmult_plus_distr_r. f_equal. rewrite <- (Rmult_1_l (total N (fun _ => a))), <- (Rmult_1_l (total N (fun k => _ * _))), <- total_lin. apply total_ext. intros k Hk.
  assert (I : (k * length L / N < length L)%nat) by (apply Nat.div_lt_upper_bound; nia).
  pose proof (nth_In L e0 I) as In. set (e := nth _ L e0) in *. rewrite !Rmult_1_l.
  assert (Z : g [no_eval] = a) by (rewrite G; unfold added; cbn; rewrite (get_c get ch); ring).
  assert (Ev : E (qbind (lamp i (1 / INR (length L)) e) (fun o => match o with Ok o => QRet (Ok [eval_of i o]) | Throw m => QRet (Throw m) | UB => QRet UB | OutOfFuel => QRet OutOfFuel end))
      (fun o => match o with Ok l => g l | _ => z end) = a + INR (length L) * E (lamp i 1 e) (gained i wi)).
  { rewrite (expect_bind _ _ _ av). replace (a + INR (length L) * E (lamp i 1 e) (gained i wi)) with (a + 1 * E (lamp i (1 / INR (length L)) e) (gained i wi)).
    2:{ rewrite scaled by (apply Rdiv_lt_0_compat; lra). field. lra. }
    rewrite <- (expect_affine _ _ _ av). apply (expect_eq _ _ _ av). intros o Lo. destruct (St e r i _ o In Hi Lo) as (x & ->). cbn [expect gained]. rewrite G. ring. }
  unfold pick, share. destruct (em_mesh e) as [m|]; [destruct (Nat.eqb _ _)|]; cbn [expect]; rewrite ?Z; try exact Ev. ring.
Qed.

Variable Bl : R.
Hypothesis B_pos : 0 <= Bl.
Hypothesis clear : absorbing Sc.
(** the n samples of one light of n: at most Bl *)
Lemma share_in L i wi e : In e L -> plain_lamps (with_lights Sc L) -> plain (chosen_bsdf Sc i) -> isDelta (chosen_bsdf Sc i) = false -> normal_ok i -> lamps (with_lights Sc L) Bl (i_p i) ->
  0 <= INR (length L) * share i wi e <= Bl.
Proof.
  intros Ie Pl P D No La. assert (L0 : 0 < INR (length L)) by (apply lt_0_INR; destruct L; [destruct Ie|cbn; lia]).
  assert (H : 0 <= E (lamp i (1 / INR (length L)) e) (gained i wi) <= Bl).
  { apply (expect_between _ _ _ av). intros o Lo. apply hleaf_leaf in Lo. destruct o as [[[w t]|]|m| |]; cbn [gained]; try lra.
    - pose proof (lamp_in (with_lights Sc L) Bl B_pos clear Pl i None (fn (i_s i)) false e w t Ie La Lo) as (x & Wx & Et & Un).
      apply (get_in get ch). unfold added. cbn [eval_of shadow_sum e_valid e_throughput e_dir]. rewrite vadd_0_l.
      apply (own_light (with_lights Sc L) Bl B_pos i wi (EmEval t (toLocal (i_s i) w) true) P D No); [|reflexivity]. intros _. exists x, w. auto.
    - unfold added. cbn. rewrite (get_c get ch). lra. }
  rewrite scaled in H by (apply Rdiv_lt_0_compat; lra).
  replace (INR (length L) * share i wi e) with (match em_mesh e with Some m => if (sc_inst Sc m =? sc_inst Sc (i_mesh i))%nat then 0 else 0 + / (1 / INR (length L)) * E (lamp i 1 e) (gained i wi) | None => 0 + / (1 / INR (length L)) * E (lamp i 1 e) (gained i wi) end).
  2:{ unfold share. destruct (em_mesh e) as [m|]; [destruct (Nat.eqb _ _)|]; field; lra. }
  destruct (em_mesh e) as [m|]; [destruct (Nat.eqb _ _)|]; lra.
Qed.
Lemma lights_mean L r i wi a g z : hit r = Some i -> steady Sc hit L -> plain_lamps (with_lights Sc L) -> plain (chosen_bsdf Sc i) -> isDelta (chosen_bsdf Sc i) = false -> normal_ok i -> lamps (with_lights Sc L) Bl (i_p i) ->
  (forall l, g l = a + added i wi l) ->
  a <= E (one L i) (fun o => match o with Ok l => g l | _ => z end) /\
  Rabs (E (one L i) (fun o => match o with Ok l => g l | _ => z end) - (a + sum (map (share i wi) L))) <= (match L with [] => 0 | _ => uneven N (length L) end) * Bl.
Proof.
  intros Hi St Pl P D No La G. destruct L as [|e0 L'] eqn:EL.
  { unfold eval_one, obind. cbn. rewrite G. unfold added. cbn. rewrite (get_c get ch). rewrite Rabs_right; lra. }
  rewrite <- EL in *. assert (Len : (0 < length L)%nat) by (rewrite EL; cbn; lia). rewrite (one_mean L r i wi a g z Hi St G Len e0). clear EL.
  pose proof (lt_0_INR _ N_pos) as N0. pose proof (lt_0_INR _ Len) as L0. set (n := length L) in *.
  assert (Range : forall j, 0 <= INR n * share i wi (nth j L e0) <= Bl \/ (n <= j)%nat).
  { intros j. destruct (Nat.lt_ge_cases j n) as [J|J]; [left|now right]. apply share_in; auto. apply nth_In, J. }
  set (g' := fun j => if (j <? n)%nat then INR n * share i wi (nth j L e0) else 0).
  assert (G' : forall j, 0 <= g' j <= Bl). { intros j. unfold g'. destruct (Nat.ltb_spec j n); [destruct (Range j) as [|]; [assumption|lia]|lra]. }
  pose proof (dealt N n N_pos Len g' Bl G') as De.
  rewrite (total_ext N (fun k => INR n * share i wi (nth (k * n / N) L e0)) (fun k => g' (k * n / N)%nat)).
  2:{ intros k Hk. unfold g'. replace (_ <? n)%nat with true; [reflexivity|]. symmetry. apply Nat.ltb_lt, Nat.div_lt_upper_bound; nia. }
  assert (Q : total n g' = INR n * sum (map (share i wi) L)).
  { rewrite (total_ext n g' (fun j => INR n * share i wi (nth j L e0) + 0 * 0)) by (intros k Hk; unfold g'; rewrite (proj2 (Nat.ltb_lt k n) Hk); ring).
    rewrite (total_lin n (INR n) 0 (fun j => share i wi (nth j L e0)) (fun _ => 0)). pose proof (total_list e0 (share i wi) L) as T. fold n in T. cbv beta in T. rewrite T. ring. }
  rewrite Q in De. assert (QN : INR N = INR n * INR (N / n) + INR (N mod n)) by (rewrite <- mult_INR, <- plus_INR, <- Nat.div_mod by lia; reflexivity).
  assert (Sm : 0 <= sum (map (share i wi) L) <= Bl).
  { assert (T : forall m, 0 <= total m g' <= INR m * Bl). { induction m as [|m IH]; [cbn; lra|]. rewrite S_INR. cbn [total]. specialize (G' m). lra. }
    specialize (T n). rewrite Q in T. split; [apply Rmult_le_reg_l with (INR n); lra|apply Rmult_le_reg_l with (INR n); lra]. }
  set (s := sum _) in *. set (t := total N _) in *. pose proof (pos_INR (N mod n)) as R0. pose proof (pos_INR (N / n)) as D0.
  split.
  { assert (0 <= t / INR N); [|lra]. apply Rmult_le_pos; [|left; apply Rinv_0_lt_compat, N0]. apply total_nonneg. intros k _. apply G'. }
  unfold uneven. apply Rabs_le. assert (K : - (INR (N mod n) * Bl) <= t - INR N * s <= INR (N mod n) * Bl) by (rewrite QN; nra).
  replace (a + t / INR N - (a + s)) with ((t - INR N * s) * / INR N) by (field; lra). replace (INR (N mod n) / INR N * Bl) with (INR (N mod n) * Bl * / INR N) by (field; lra).
  pose proof (Rinv_0_lt_compat _ N0). split; [|apply Rmult_le_compat_r; lra]. rewrite <- Ropp_mult_distr_l_reverse. apply Rmult_le_compat_r; lra.
Qed.

(** ** a vertex *)
Lemma evaluate_split i r c : c_all c = false -> c_shadow c = [] ->
  (exists q, (forall L, sc_evaluate_in (with_lights Sc L) i r None c = q) /\ (forall c1, leaf q c1 -> c_shadow c1 = [])) \/
  (isDelta (chosen_bsdf Sc i) = false /\ exists c1, c_shadow c1 = [] /\ c_nee c1 = c_nee c /\ c_all c1 = false /\ c_spec c1 = false /\
    forall L f, E (sc_evaluate_in (with_lights Sc L) i r None c) f = E (one L i) (fun o => match o with Ok l => f (set_shadow c1 l) | _ => f (Renderer.unlit false c) end)).
Proof.
  intros Al Sh. unfold sc_evaluate_in, sc_try_in, chosen_bsdf. cbn [with_lights sc_shader].
  assert (Core : forall delta, (exists q, (forall L, shade_in (sc_mesh_point Sc) M (sc_inside Sc) (sc_transmittance Sc) (sc_fuel Sc) L (sc_inst Sc) (sc_ignore Sc) (sc_object_emitter Sc) None delta i r c = q) /\
      (forall c1, leaf q (Ok c1) -> c_shadow c1 = [])) \/
    (delta = false /\ exists c1, c_shadow c1 = [] /\ c_nee c1 = c_nee c /\ c_all c1 = false /\ c_spec c1 = false /\
      forall L, shade_in (sc_mesh_point Sc) M (sc_inside Sc) (sc_transmittance Sc) (sc_fuel Sc) L (sc_inst Sc) (sc_ignore Sc) (sc_object_emitter Sc) None delta i r c = obind (one L i) (fun l => QRet (Ok (set_shadow c1 l))))).
  { intros delta. unfold shade_in. set (c0 := set_spec c delta (c_last_spec c) (c_accepts c)).
    assert (F0 : c_all c0 = false /\ c_shadow c0 = [] /\ c_nee c0 = c_nee c /\ c_spec c0 = delta) by (repeat split; assumption). clearbody c0.
    destruct (if c_last_spec c0 then accumulate_emission (sc_inst Sc) (sc_object_emitter Sc) i r c0 else Ok c0) as [c1|m| |] eqn:Ec.
    2: left; exists (QRet (Throw m)); (split; [intros L; reflexivity|]); intros c1 Lf; apply leaf_ret_inv in Lf; discriminate.
    2: left; exists (QRet UB); (split; [intros L; reflexivity|]); intros c1 Lf; apply leaf_ret_inv in Lf; discriminate.
    2: left; exists (QRet OutOfFuel); (split; [intros L; reflexivity|]); intros c1 Lf; apply leaf_ret_inv in Lf; discriminate.
    assert (F1 : c_all c1 = false /\ c_shadow c1 = [] /\ c_nee c1 = c_nee c /\ c_spec c1 = delta).
    { destruct (c_last_spec c0); [apply emission_leaf in Ec as (_ & ->); cbn; exact F0|]. injection Ec as <-. exact F0. }
    clear Ec F0. destruct F1 as (F1 & F2 & F3 & F4). destruct delta.
    - left. exists (QRet (Ok (set_spec c1 true true (c_accepts c1)))). split; [intros L; reflexivity|]. intros c2 Lf. apply leaf_ret_inv in Lf. injection Lf as ->. exact F2.
    - destruct (c_accepts c1) eqn:Ac.
      + right. split; [reflexivity|]. exists c1. repeat split; try assumption. intros L. unfold obind at 1. cbn [qbind]. rewrite Ac, F1. reflexivity.
      + left. exists (QRet (Ok c1)). split; [intros L; unfold obind at 1; cbn [qbind]; rewrite Ac; reflexivity|]. intros c2 Lf. apply leaf_ret_inv in Lf. injection Lf as ->. exact F2. }
  assert (Uns : forall b, c_shadow (Renderer.unlit b c) = []) by (intros b; exact Sh).
  destruct (sc_shader Sc (i_mesh i)) as [b|th b1 b2].
  - destruct (Core (isDelta b)) as [(q & Q & Lq)|(D & c1 & A1 & A2 & A3 & A4 & Q)].
    + left. eexists. split; [intros L; unfold simple_evaluate_in; cbn [with_lights sc_mesh_point sc_inside sc_transmittance sc_fuel sc_emitters sc_inst sc_ignore sc_object_emitter]; rewrite Q; reflexivity|].
      intros c1 Lf. unfold no_failure in Lf. apply leaf_bind in Lf as (o & L1 & L2). apply leaf_ret_inv in L2. subst c1. destruct o as [c1|m| |]; try apply Uns.
      apply leaf_obind in L1 as (c2 & L1 & L2). apply leaf_ret_inv in L2. injection L2 as ->. apply Lq in L1. destruct (isDelta b); exact L1.
    + right. split; [exact D|]. exists (set_spec c1 false false true). repeat split; try assumption. intros L f.
      unfold simple_evaluate_in. cbn [with_lights sc_mesh_point sc_inside sc_transmittance sc_fuel sc_emitters sc_inst sc_ignore sc_object_emitter]. rewrite Q, D.
      unfold no_failure, obind. rewrite !(expect_bind _ _ _ av). apply (expect_eq _ _ _ av). intros [l|m| |] _; reflexivity.
  - destruct (Core (isDelta (if on_wire (i_bary i) th then b1 else b2))) as [(q & Q & Lq)|(D & c1 & A1 & A2 & A3 & A4 & Q)].
    + left. eexists. split; [intros L; cbn [with_lights sc_mesh_point sc_inside sc_transmittance sc_fuel sc_emitters sc_inst sc_ignore sc_object_emitter]; rewrite Q; reflexivity|].
      intros c1 Lf. unfold no_failure in Lf. apply leaf_bind in Lf as (o & L1 & L2). apply leaf_ret_inv in L2. subst c1. destruct o as [c1|m| |]; try apply Uns. exact (Lq c1 L1).
    + right. split; [exact D|]. exists c1. repeat split; try assumption. intros L f.
      cbn [with_lights sc_mesh_point sc_inside sc_transmittance sc_fuel sc_emitters sc_inst sc_ignore sc_object_emitter]. rewrite Q, D.
      unfold no_failure, obind. rewrite !(expect_bind _ _ _ av). apply (expect_eq _ _ _ av). intros [l|m| |] _; reflexivity.
Qed.

Lemma expect_lin {A} (q : query A) x y f g : E q (fun a => x * f a + y * g a) = x * E q f + y * E q g.
Proof.
  induction q as [a|r k IH|k IH|k IH]; cbn.
  - reflexivity.
  - apply IH.
  - rewrite <- (av_lin1 _ _ _ av). apply (e1_ext _ _ _ av). intros u. apply IH.
  - rewrite <- (av_lin2 _ _ _ av). apply (e2_ext _ _ _ av). intros u. apply IH.
Qed.
Lemma expect_four {A} (q : query A) f g h k : E q f + E q g - E q h - E q k = E q (fun a => 1 * (1 * f a + 1 * g a) + -1 * (1 * h a + 1 * k a)).
Proof. rewrite (expect_lin q 1 (-1) (fun a => 1 * f a + 1 * g a) (fun a => 1 * h a + 1 * k a)), !expect_lin. ring. Qed.
Lemma expect_abs {A} (q : query A) f x : (forall a, hleaf hit q a -> Rabs (f a) <= x) -> Rabs (E q f) <= x.
Proof.
  intros H. assert (B : - x <= E q f <= x). { apply (expect_between _ _ _ av). intros a La. specialize (H a La). apply Rabs_le_inv in H. lra. }
  apply Rabs_le. lra.
Qed.
Lemma sample_without_nee b c v f : E (bsdf_sample b (set_nee c v)) f = E (bsdf_sample b c) (fun c3 => f (set_nee c3 v)).
Proof.
  destruct b; unfold bsdf_sample; cbn [set_nee c_wi c_eta]; try reflexivity; try (destruct (Rle_dec _ 0); [reflexivity|]); try reflexivity; cbn [expect].
  - apply (e1_ext _ _ _ av). intros u. destruct (ltb_nan _ _); reflexivity.
  - apply (e1_ext _ _ _ av). intros u. destruct (_ || _)%bool; reflexivity.
  - apply (e2_ext _ _ _ av). intros u. cbv zeta. destruct (Rlt_dec (norm _) _); reflexivity.
Qed.

Hypothesis Plain : forall m, all_bsdfs plain (sc_shader Sc m).
Hypothesis Normal : forall r i, hit r = Some i -> normal_ok i.
Definition lamps_ok (L : list emitter) : Prop :=
  steady Sc hit L /\ plain_lamps (with_lights Sc L) /\ forall r i, hit r = Some i -> lamps (with_lights Sc L) Bl (i_p i).
Notation left_over := (SumSpec.left_over N).
Lemma left_over_pos L : 0 <= left_over L.
Proof. unfold left_over. destruct L; [lra|apply uneven_pos, N_pos]. Qed.
Definition ev L i r c := sc_evaluate_in (with_lights Sc L) i r None c.
Notation light L n r c := (arrives_there hit (grid1 N) (grid2 N) (sc_env Sc) (ev L) (sc_mat Sc) (sc_sample Sc) get n r c).
(** what is scattered at a surface *)
Definition onward L n i wi c1 : R :=
  E (sc_sample Sc i (set_wi (accumulate_shadow_rays (sc_mat Sc i) c1) wi)) (fun c3 =>
    if Req_EM_T (c_pdf c3) 0 then 0 else get (vscale (c_albedo c3) (cos_term i c3 / c_pdf c3)) * light L n (next_ray i c3) c3).
Definition fresh (c : closure) : Prop := c_all c = false /\ c_shadow c = [].
Lemma onward_same L n i wi c1 l : onward L n i wi (set_shadow c1 l) = onward L n i wi c1.
Proof.
  unfold onward, sc_sample. change (set_wi (accumulate_shadow_rays (sc_mat Sc i) (set_shadow c1 l)) wi) with
    (set_nee (set_wi (accumulate_shadow_rays (sc_mat Sc i) c1) wi) (shadow_sum (sc_mat Sc i) (c_wi c1) l (c_nee c1))).
  rewrite sample_without_nee. apply (expect_eq _ _ _ av). intros c3 _. cbn [set_nee c_pdf c_albedo]. destruct (Req_EM_T _ 0); [reflexivity|]. destruct n; reflexivity.
Qed.
Lemma weight1 i c c3 : normal_ok i -> c_spec c = isDelta (chosen_bsdf Sc i) -> leaf (sc_sample Sc i c) c3 -> c_pdf c3 <> 0 ->
  0 <= get (vscale (c_albedo c3) (cos_term i c3 / c_pdf c3)) <= 1.
Proof.
  intros No Sp L3 P0. pose proof (chosen_all Sc plain i Plain) as P. unfold sc_sample in L3. apply sample_weight with (i := i) in L3; [| |exact No|exact Sp].
  2: { destruct (chosen_bsdf Sc i); cbn in P; try contradiction; exact I. }
  destruct L3 as (_ & _ & _ & A4). destruct (A4 P0) as (A5 & A6). apply (get_in get ch).
  replace (vscale (c_albedo c3) (cos_term i c3 / c_pdf c3)) with (vscale (vscale (c_albedo c3) (cos_term i c3)) (/ c_pdf c3)) by (apply vec3_eq; cbn; unfold Rdiv; ring).
  rewrite A6. replace (vscale (vscale (colour (chosen_bsdf Sc i)) (c_pdf c3)) (/ c_pdf c3)) with (colour (chosen_bsdf Sc i)) by (apply vec3_eq; cbn; field; lra).
  destruct (chosen_bsdf Sc i); cbn in P |- *; try contradiction; exact P.
Qed.
Lemma scattered i wi c1 c3 : c_all c1 = false -> leaf (sc_sample Sc i (set_wi (accumulate_shadow_rays (sc_mat Sc i) c1) wi)) c3 -> fresh c3.
Proof. intros Al Lf. apply bsdf_sample_keeps in Lf as (_ & A1 & A2 & _). split; [rewrite A2; exact Al|rewrite A1; reflexivity]. Qed.
(** the light of a vertex: its own, the light of the lamps, and what it scatters *)
Lemma vertex L n i wi c1 l : c_nee c1 = V3c 0 ->
  (let c2 := accumulate_shadow_rays (sc_mat Sc i) (set_shadow c1 l) in get (vadd (c_emission c2) (c_nee c2)) + onward L n i wi (set_shadow c1 l))
  = (get (c_emission c1) + onward L n i wi c1) + added i (c_wi c1) l.
Proof. intros Ne. cbv zeta. rewrite onward_same. unfold accumulate_shadow_rays. cbn [set_shadow c_emission c_nee c_wi c_shadow]. rewrite Ne, (get_add get ch). unfold added. ring. Qed.

Lemma more L : lamps_ok L -> forall n r c, fresh c -> light [] n r c <= light L n r c.
Proof.
  intros (St & Pl & La). assert (OK0 : steady Sc hit [] /\ plain_lamps (with_lights Sc []) /\ forall r i, hit r = Some i -> lamps (with_lights Sc []) Bl (i_p i)).
  { split; [intros e r i p o []|]. split; [intros e []|]. intros r i _ e u s []. }
  destruct OK0 as (St0 & Pl0 & La0).
  induction n as [|n IH]; intros r c (Al & Sh); cbn [arrives_there]; [lra|]. destruct (hit r) as [i|] eqn:Hi; [|lra]. cbv zeta.
  set (wi := isect_toLocal i (vneg (dir r))). pose proof (Normal r i Hi) as No.
  assert (On : forall c1, c_all c1 = false -> c_spec c1 = isDelta (chosen_bsdf Sc i) -> onward [] n i wi c1 <= onward L n i wi c1).
  { intros c1 A1 Sp. unfold onward. apply (expect_le _ _ _ av). intros c3 L3. apply hleaf_leaf in L3. destruct (Req_EM_T _ 0) as [|P0]; [lra|].
    apply Rmult_le_compat_l; [apply (weight1 i _ c3 No) with (2 := L3); [exact Sp|exact P0]|]. apply IH, (scattered i wi c1 c3 A1 L3). }
  destruct (evaluate_split i r (reset_closure c wi) Al Sh) as [(q & Q & Lq)|(D & c1 & A1 & A2 & A3 & A4 & Q)].
  - unfold ev at 1 3. rewrite !Q. apply (expect_le _ _ _ av). intros c1 L1. apply hleaf_leaf in L1. apply Rplus_le_compat_l.
    rewrite <- (Q []) in L1. apply (evaluate_keeps Sc [] hit) in L1 as (K1 & K2). apply On; [rewrite K1; exact Al|exact K2].
  - unfold ev at 1 3. rewrite !Q. specialize (On c1 A3 ltac:(congruence)).
    destruct (lights_mean [] r i (c_wi c1) (get (c_emission c1) + onward [] n i wi c1) _
      (let c2 := accumulate_shadow_rays (sc_mat Sc i) (Renderer.unlit false (reset_closure c wi)) in get (vadd (c_emission c2) (c_nee c2)) + onward [] n i wi (Renderer.unlit false (reset_closure c wi)))
      Hi St0 Pl0 (chosen_all Sc plain i Plain) D No (La0 r i Hi) (fun l => vertex [] n i wi c1 l A2)) as (_ & H0).
    destruct (lights_mean L r i (c_wi c1) (get (c_emission c1) + onward L n i wi c1) _
      (let c2 := accumulate_shadow_rays (sc_mat Sc i) (Renderer.unlit false (reset_closure c wi)) in get (vadd (c_emission c2) (c_nee c2)) + onward L n i wi (Renderer.unlit false (reset_closure c wi)))
      Hi St Pl (chosen_all Sc plain i Plain) D No (La r i Hi) (fun l => vertex L n i wi c1 l A2)) as (H1 & _).
    cbv beta iota in H0. cbn [map sum] in H0. rewrite Rmult_0_l in H0. apply Rabs_le_inv in H0. unfold onward in *. cbv zeta in *. lra.
Qed.

(** ** two lists of lamps *)
Variable A B : list emitter.
Hypothesis okAB : lamps_ok (A ++ B).
Lemma fewer (L : list emitter) : (forall e, In e L -> In e (A ++ B)) -> (length L <= length (A ++ B))%nat -> lamps_ok L.
Proof.
  destruct okAB as (St & Pl & La). intros Sub Len. split; [intros e r i p o Ie; apply St, Sub, Ie|]. split; [intros e Ie; apply Pl, Sub, Ie|].
  intros r i Hi e u s Ie Sa P0. cbn [with_lights sc_emitters sc_mesh_point] in *. pose proof (La r i Hi e u s (Sub e Ie) Sa P0) as W. cbn [with_lights sc_emitters] in W.
  apply within_le with (2 := W). unfold Rdiv. apply Rmult_le_compat_l; [exact B_pos|]. apply Rinv_le_contravar; [apply lt_0_INR; destruct L; [destruct Ie|cbn; lia]|apply le_INR, Len].
Qed.
Lemma okA : lamps_ok A. Proof. apply fewer; [intros e Ie; apply in_or_app; now left|rewrite app_length; lia]. Qed.
Lemma okB : lamps_ok B. Proof. apply fewer; [intros e Ie; apply in_or_app; now right|rewrite app_length; lia]. Qed.
Lemma ok0 : lamps_ok []. Proof. apply fewer; [intros e []|cbn; lia]. Qed.
Notation U := (left_over (A ++ B) + left_over A + left_over B).
Lemma adds n : forall r c, fresh c -> Rabs (light (A ++ B) n r c + light [] n r c - light A n r c - light B n r c) <= INR n * (U * Bl).
Proof.
  pose proof (left_over_pos (A ++ B)) as U1. pose proof (left_over_pos A) as U2. pose proof (left_over_pos B) as U3.
  assert (UB0 : 0 <= U * Bl) by (apply Rmult_le_pos; lra).
  induction n as [|n IH]; intros r c (Al & Sh); cbn [arrives_there]; [cbn; rewrite Rabs_right; lra|].
  destruct (hit r) as [i|] eqn:Hi. 2:{ rewrite Rabs_right by lra. pose proof (pos_INR (S n)). nra. } cbv zeta.
  set (wi := isect_toLocal i (vneg (dir r))). pose proof (Normal r i Hi) as No.
  assert (On : forall c1, c_all c1 = false -> c_spec c1 = isDelta (chosen_bsdf Sc i) ->
    Rabs (onward (A ++ B) n i wi c1 + onward [] n i wi c1 - onward A n i wi c1 - onward B n i wi c1) <= INR n * (U * Bl)).
  { intros c1 A1 Sp. unfold onward. rewrite expect_four. apply expect_abs. intros c3 L3. apply hleaf_leaf in L3. destruct (Req_EM_T _ 0) as [|P0].
    - replace (1 * (1 * 0 + 1 * 0) + -1 * (1 * 0 + 1 * 0)) with 0 by ring. rewrite Rabs_R0. apply Rmult_le_pos; [apply pos_INR|exact UB0].
    - pose proof (weight1 i (set_wi (accumulate_shadow_rays (sc_mat Sc i) c1) wi) c3 No Sp L3 P0) as W. set (w := get _) in *. specialize (IH (next_ray i c3) c3 (scattered i wi c1 c3 A1 L3)).
      match type of IH with Rabs ?x <= _ => match goal with |- Rabs ?y <= _ => replace y with (w * x) by ring end end.
      rewrite Rabs_mult, (Rabs_pos_eq w) by lra. pose proof (Rabs_pos (light (A ++ B) n (next_ray i c3) c3 + light [] n (next_ray i c3) c3 - light A n (next_ray i c3) c3 - light B n (next_ray i c3) c3)). nra. }
  rewrite S_INR. destruct (evaluate_split i r (reset_closure c wi) Al Sh) as [(q & Q & Lq)|(D & c1 & A1 & A2 & A3 & A4 & Q)].
  - replace (ev (A ++ B) i r (reset_closure c wi)) with q by (symmetry; apply Q). replace (ev [] i r (reset_closure c wi)) with q by (symmetry; apply Q).
    replace (ev A i r (reset_closure c wi)) with q by (symmetry; apply Q). replace (ev B i r (reset_closure c wi)) with q by (symmetry; apply Q).
    rewrite expect_four. apply expect_abs. intros c1 L1. apply hleaf_leaf in L1.
    rewrite <- (Q []) in L1. apply (evaluate_keeps Sc [] hit) in L1 as (K1 & K2). specialize (On c1 ltac:(rewrite K1; exact Al) K2).
    unfold onward in On. match type of On with Rabs ?x <= _ => match goal with |- Rabs ?y <= _ => replace y with x by ring end end. lra.
  - specialize (On c1 A3 ltac:(congruence)). set (cu := Renderer.unlit false (reset_closure c wi)) in *.
    assert (Mean : forall L, lamps_ok L -> Rabs (E (ev L i r (reset_closure c wi)) (fun c1 => let c2 := accumulate_shadow_rays (sc_mat Sc i) c1 in get (vadd (c_emission c2) (c_nee c2)) + onward L n i wi c1)
      - (get (c_emission c1) + onward L n i wi c1 + sum (map (share i (c_wi c1)) L))) <= left_over L * Bl).
    { intros L (St & Pl & La). unfold ev. rewrite Q.
      exact (proj2 (lights_mean L r i (c_wi c1) (get (c_emission c1) + onward L n i wi c1) _
        (let c2 := accumulate_shadow_rays (sc_mat Sc i) cu in get (vadd (c_emission c2) (c_nee c2)) + onward L n i wi cu)
        Hi St Pl (chosen_all Sc plain i Plain) D No (La r i Hi) (fun l => vertex L n i wi c1 l A2))). }
    pose proof (Mean _ okAB) as M1. pose proof (Mean _ okA) as M2. pose proof (Mean _ okB) as M3. pose proof (Mean _ ok0) as M4. clear Mean.
    rewrite map_app, sum_app in M1. cbn [map sum left_over] in M4. rewrite Rmult_0_l in M4.
    apply Rabs_le_inv in M1, M2, M3, M4, On. unfold onward in *. cbv zeta in *. apply Rabs_le. lra.
Qed.
End Sum.

(** without null surfaces the search for what is in between ends at once *)
Lemma solid_steady {M} (Sc : scene M) hit L : (forall r i, hit r = Some i -> i_null i = false) -> (0 < sc_fuel Sc)%nat ->
  (forall e, In e L -> needs_visibility e = false /\ near_lamp Sc e) -> steady Sc hit L.
Proof.
  intros So Fu Ne e r i p o Ie Hi Lf. destruct (Ne e Ie) as (V & Nl). unfold eval_emitter in Lf.
  inversion Lf as [| | |k u a Lf1]; subst. clear Lf. destruct (Nl (i_p i) u) as (s & d & Sa & Di). rewrite Sa in Lf1. unfold obind at 1 in Lf1. cbn [qbind] in Lf1.
  unfold shadow_query in Lf1. rewrite V, Di in Lf1. unfold obind at 1 in Lf1. cbn [qbind] in Lf1. unfold intersect_transmittance in Lf1.
  destruct (sc_fuel Sc) as [|f]; [lia|]. cbn [tr_loop] in Lf1. unfold obind at 1 in Lf1. apply hleaf_bind in Lf1 as (o1 & L1 & L2).
  assert (O1 : exists x, o1 = Ok x).
  { unfold obind at 1 in L1. apply hleaf_bind in L1 as (o2 & L3 & L4). inversion L3 as [|r' k' a' L5| |]; subst. clear L3.
    match type of L5 with context [hit ?x] => destruct (hit x) as [j|] eqn:Hj end.
    - rewrite (So _ _ Hj) in L5. apply hleaf_leaf, leaf_ret_inv in L5. subst. cbn in L4. apply hleaf_leaf, leaf_ret_inv in L4. eauto.
    - apply hleaf_leaf, leaf_ret_inv in L5. subst. cbn in L4. apply hleaf_leaf, leaf_ret_inv in L4. eauto. }
  destruct O1 as ([bl tr] & ->). destruct (negb bl || sc_ignore Sc)%bool; apply hleaf_leaf, leaf_ret_inv in L2; eauto.
Qed.
