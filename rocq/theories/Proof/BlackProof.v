(** Black objects take light away. *)
From Coq Require Import Reals List Bool ZArith Lra Lia.
From Coquelicot Require Import Rbar.
From Verif.Base Require Import Outcome.
From Verif.Model Require Import Vec Frame BBox Warp Integrators Bsdf Scene Renderer.
From Verif.Spec Require Import LinAlgSpec IntegratorSpec BoundSpec PathSpec VolPathSpec ExpectSpec NoiseSpec LitSpec TapeSpec OrderSpec SumSpec BlackSpec.
From Verif.Proof Require Import VecLemmas IntegratorProof SceneProof BoundProof VolPathTheory ExpectProof ExpectScene LitScene TapeProof OrderProof PaintProof SumProof.
Import ListNotations.
Open Scope R_scope.

Section Black.
Context {M : Type}.
Variable Sc : scene M.
Variable hit hit' : ray -> option isect.
Hypothesis solid : forall r i, hit r = Some i -> i_null i = false.
Hypothesis more_black : blackened Sc hit hit'.
Variable N : nat.
Hypothesis N_pos : (0 < N)%nat.
Variable get : vec3 -> R.
Hypothesis ch : channel get.
Notation av := (grid_averages N N_pos).
Notation E h := (expect h (grid1 N) (grid2 N)).
Notation one i := (eval_one (sc_mesh_point Sc) M (sc_inside Sc) (sc_transmittance Sc) (sc_fuel Sc) (sc_emitters Sc) (sc_inst Sc) (sc_ignore Sc) i None false).
Notation lamp i p e := (eval_emitter (sc_mesh_point Sc) M (sc_inside Sc) (sc_transmittance Sc) (sc_fuel Sc) (sc_ignore Sc) i None (fn (i_s i)) false p e).

(** a light sample is blocked or what it was *)
Lemma lamp_darker i p e f : needs_visibility e = false -> (forall x, hleaf hit (lamp i p e) (Ok (Some x)) -> f (Ok None) <= f (Ok (Some x))) -> E hit' (lamp i p e) f <= E hit (lamp i p e) f.
Proof.
  intros V F. unfold eval_emitter in *. cbn [expect]. apply (av_mono2 _ _ _ av). intros u.
  assert (F1 : forall x, hleaf hit _ (Ok (Some x)) -> f (Ok None) <= f (Ok (Some x))) by (intros x H; apply F; apply (hleaf_rand2 _ _ u); exact H). clear F. cbv beta in F1.
  unfold obind in *. cbn [qbind] in *. destruct (sample_nee _ e (i_p i) u) as [s|m| |]; cbn [qbind expect] in *; try lra.
  unfold shadow_query in *. rewrite V in *. destruct (es_sqr_dist s) as [d|]; cbn [qbind expect] in *; [|lra].
  unfold intersect_transmittance in *. destruct (sc_fuel Sc) as [|fu]; [cbn; lra|].
  cbn [tr_loop obind qbind rnear org dir rfar] in *. unfold obind in *. cbn [qbind expect] in *. set (q := Ray _ _ _ _) in *.
  destruct (more_black q) as [Eq|(j & Ej & Nj & _)].
  - rewrite Eq. destruct (hit q) as [j|] eqn:Hq; [rewrite (solid q j Hq)|]; cbn; destruct (sc_ignore Sc); cbn; apply Rle_refl.
  - rewrite Ej, Nj. destruct (hit q) as [k|] eqn:Hq; [rewrite (solid q k Hq)|]; cbn in *; destruct (sc_ignore Sc) eqn:Ig; cbn in *; try apply Rle_refl.
    apply F1. apply hleaf_hit. rewrite Hq. cbn. constructor.
Qed.
Hypothesis near : forall e, In e (sc_emitters Sc) -> needs_visibility e = false.
Lemma one_darker i f : (forall l, hleaf hit (one i) (Ok l) -> f (Ok [no_eval]) <= f (Ok l)) -> E hit' (one i) f <= E hit (one i) f.
Proof.
  assert (G : forall L, (forall e, In e L -> needs_visibility e = false) -> let q := eval_one (sc_mesh_point Sc) M (sc_inside Sc) (sc_transmittance Sc) (sc_fuel Sc) L (sc_inst Sc) (sc_ignore Sc) i None false in
    (forall l, hleaf hit q (Ok l) -> f (Ok [no_eval]) <= f (Ok l)) -> E hit' q f <= E hit q f).
  2: exact (G (sc_emitters Sc) near).
  intros L Ne q F. unfold q, eval_one, choose_emitter, obind in *. destruct L as [|e0 L'] eqn:EL; [apply Rle_refl|]. rewrite <- EL in *. clear EL.
  cbn [qbind expect] in *. apply (av_mono1 _ _ _ av). intros u.
  assert (F1 : forall l, hleaf hit _ (Ok l) -> f (Ok [no_eval]) <= f (Ok l)) by (intros x H; apply F; apply (hleaf_rand1 _ _ u); exact H). clear F. cbv beta in F1.
  destruct (naive_choice L u) as [k pdf]. destruct (k <? 0)%Z; [apply Rle_refl|]. destruct (nth_error L (Z.to_nat k)) as [e|] eqn:Ek; [|apply Rle_refl].
  apply nth_error_In in Ek. specialize (Ne e Ek).
  assert (Ev : (forall l, hleaf hit (qbind (lamp i pdf e) (fun o => match o with Ok o => QRet (Ok [eval_of i o]) | Throw m => QRet (Throw m) | UB => QRet UB | OutOfFuel => QRet OutOfFuel end)) (Ok l) -> f (Ok [no_eval]) <= f (Ok l)) ->
    E hit' (qbind (lamp i pdf e) (fun o => match o with Ok o => QRet (Ok [eval_of i o]) | Throw m => QRet (Throw m) | UB => QRet UB | OutOfFuel => QRet OutOfFuel end)) f <=
    E hit (qbind (lamp i pdf e) (fun o => match o with Ok o => QRet (Ok [eval_of i o]) | Throw m => QRet (Throw m) | UB => QRet UB | OutOfFuel => QRet OutOfFuel end)) f).
  { intros F. set (g := fun o : outcome (option (vec3 * vec3)) => f (match o with Ok o => Ok [eval_of i o] | Throw m => Throw m | UB => UB | OutOfFuel => OutOfFuel end)).
    assert (Eq : forall h, E h (qbind (lamp i pdf e) (fun o => match o with Ok o => QRet (Ok [eval_of i o]) | Throw m => QRet (Throw m) | UB => QRet UB | OutOfFuel => QRet OutOfFuel end)) f = E h (lamp i pdf e) g)
      by (intros h; rewrite (expect_bind _ _ _ av); apply (expect_eq _ _ _ av); intros [o|m| |] _; reflexivity).
    rewrite !Eq. apply lamp_darker; [exact Ne|]. intros x Lx. unfold g. apply (F [eval_of i (Some x)]). apply (hleaf_bind_intro _ _ _ _ _ Lx). constructor. }
  destruct (em_mesh e) as [m|]; [destruct (Nat.eqb _ _)|]; cbn [qbind] in *; [apply Rle_refl|apply Ev, F1..].
Qed.

(** ** a vertex *)
Definition kept i (c c1 : closure) : Prop :=
  c_all c1 = false /\ c_nee c1 = c_nee c /\ c_shadow c1 = c_shadow c /\ c_spec c1 = isDelta (chosen_bsdf Sc i) /\
  (sc_object_emitter Sc (sc_inst Sc (i_mesh i)) = None -> c_emission c = V3c 0 -> c_emission c1 = V3c 0).
Lemma evaluate_form i r c : c_all c = false ->
  (exists c1, kept i c c1 /\ sc_evaluate_in Sc i r None c = QRet c1) \/
  (isDelta (chosen_bsdf Sc i) = false /\ exists c1, kept i c c1 /\
    forall h f, E h (sc_evaluate_in Sc i r None c) f = E h (one i) (fun o => match o with Ok l => f (set_shadow c1 l) | _ => f (Renderer.unlit false c) end)).
Proof.
  intros Al. unfold sc_evaluate_in, sc_try_in, kept, chosen_bsdf.
  assert (Core : forall delta,
    let like c1 := c_all c1 = false /\ c_nee c1 = c_nee c /\ c_shadow c1 = c_shadow c /\ c_spec c1 = delta /\
      (sc_object_emitter Sc (sc_inst Sc (i_mesh i)) = None -> c_emission c = V3c 0 -> c_emission c1 = V3c 0) in
    let q := shade_in (sc_mesh_point Sc) M (sc_inside Sc) (sc_transmittance Sc) (sc_fuel Sc) (sc_emitters Sc) (sc_inst Sc) (sc_ignore Sc) (sc_object_emitter Sc) None delta i r c in
    (exists o, q = QRet o /\ forall c1, o = Ok c1 -> like c1) \/ (delta = false /\ exists c1, like c1 /\ q = obind (one i) (fun l => QRet (Ok (set_shadow c1 l))))).
  { intros delta like q. unfold q, shade_in. set (c0 := set_spec c delta (c_last_spec c) (c_accepts c)).
    assert (F0 : like c0 /\ c_emission c0 = c_emission c) by (unfold like, c0; cbn; repeat split; auto). clearbody c0.
    destruct (if c_last_spec c0 then accumulate_emission (sc_inst Sc) (sc_object_emitter Sc) i r c0 else Ok c0) as [c1|m| |] eqn:Ec.
    2-4: left; eexists; (split; [reflexivity|discriminate]).
    assert (F1 : like c1).
    { destruct F0 as (F0 & Em). destruct (c_last_spec c0); [|injection Ec as <-; exact F0]. apply emission_leaf in Ec as (Ec & ->). unfold like in *. cbn [set_emission c_all c_nee c_shadow c_spec c_emission].
      repeat split; try apply F0. intros No _. rewrite No in Ec. exact Ec. }
    clear Ec F0. unfold obind at 1. cbn [qbind]. destruct delta.
    - left. eexists. split; [reflexivity|]. intros c2 [= <-]. unfold like in *. cbn. tauto.
    - destruct (c_accepts c1) eqn:Ac; [|left; eexists; split; [reflexivity|]; intros c2 [= <-]; exact F1].
      right. split; [reflexivity|]. exists c1. split; [exact F1|]. unfold obind at 1. cbn [qbind]. destruct F1 as (F1 & _). rewrite Ac, F1. reflexivity. }
  destruct (sc_shader Sc (i_mesh i)) as [b|th b1 b2].
  - destruct (Core (isDelta b)) as [(o & Q & Lo)|(D & c1 & A & Q)].
    + left. unfold simple_evaluate_in. rewrite Q. unfold no_failure, obind. destruct o as [c1|m| |]; cbn [qbind]; eexists; (split; [|reflexivity]).
      2-4: cbn; tauto. specialize (Lo c1 eq_refl). destruct (isDelta b); cbn; tauto.
    + right. split; [exact D|]. exists (set_spec c1 false false true). split; [cbn; rewrite D; tauto|]. intros h f.
      unfold simple_evaluate_in. rewrite Q, D. unfold no_failure, obind. rewrite !(expect_bind _ _ _ av). apply (expect_eq _ _ _ av). intros [l|m| |] _; reflexivity.
  - destruct (Core (isDelta (if on_wire (i_bary i) th then b1 else b2))) as [(o & Q & Lo)|(D & c1 & A & Q)].
    + left. rewrite Q. unfold no_failure. destruct o as [c1|m| |]; cbn [qbind]; eexists; (split; [|reflexivity]).
      2-4: cbn; tauto. exact (Lo c1 eq_refl).
    + right. split; [exact D|]. exists c1. split; [exact A|]. intros h f.
      rewrite Q, D. unfold no_failure, obind. rewrite !(expect_bind _ _ _ av). apply (expect_eq _ _ _ av). intros [l|m| |] _; reflexivity.
Qed.

Variable Bl : R.
Hypothesis B_pos : 0 <= Bl.
Hypothesis clear : absorbing Sc.
Hypothesis Lamps : plain_lamps Sc.
Hypothesis Plain : forall m, all_bsdfs plain (sc_shader Sc m).
Hypothesis Normal : forall r i, hit r = Some i -> normal_ok i.
Hypothesis Reach : forall r i, hit r = Some i -> lamps Sc Bl (i_p i).
Definition shine i r c := sc_evaluate_in Sc i r None c.
Notation light h n r c := (arrives_there h (grid1 N) (grid2 N) (sc_env Sc) shine (sc_mat Sc) (sc_sample Sc) get n r c).
Hypothesis lit : forall n r c, fresh c -> 0 <= light hit n r c.
(** what is scattered at a surface *)
Definition goes_on h n i wi c1 : R :=
  E h (sc_sample Sc i (set_wi (accumulate_shadow_rays (sc_mat Sc i) c1) wi)) (fun c3 =>
    if Req_EM_T (c_pdf c3) 0 then 0 else get (vscale (c_albedo c3) (cos_term i c3 / c_pdf c3)) * light h n (next_ray i c3) c3).
Definition leaves h n i wi c1 : R := get (vadd (c_emission c1) (shadow_sum (sc_mat Sc i) (c_wi c1) (c_shadow c1) (c_nee c1))) + goes_on h n i wi c1.

(** the samples of a surface do not look at the scene *)
Lemma sample_blind h i c f : E h (sc_sample Sc i c) f = E hit (sc_sample Sc i c) f.
Proof.
  unfold sc_sample. destruct (chosen_bsdf Sc i); unfold bsdf_sample; cbn [expect]; try reflexivity; try (destruct (Rle_dec _ 0); reflexivity).
  - apply (e1_ext _ _ _ av). intros u. destruct (ltb_nan _ _); reflexivity.
  - apply (e1_ext _ _ _ av). intros u. destruct (_ || _)%bool; reflexivity.
  - destruct (Rle_dec _ 0); [reflexivity|]. cbn [expect]. apply (e2_ext _ _ _ av). intros u. cbv zeta. destruct (Rlt_dec (norm _) _); reflexivity.
Qed.
(** nothing leaves a black surface *)
Lemma black_mat i wi wo : black Sc i -> sc_mat Sc i wi wo = V3c 0.
Proof. intros (B1 & _). unfold sc_mat, chosen_bsdf. rewrite B1. cbn. repeat (destruct (Rle_dec _ _); [reflexivity|]). apply vec3_eq; cbn; ring. Qed.
Lemma black_sum i wi l v : black Sc i -> shadow_sum (sc_mat Sc i) wi l v = v.
Proof.
  intros B. revert v. induction l as [|e l IH]; intros v; cbn [shadow_sum]; [reflexivity|]. rewrite IH. destruct (e_valid e); [|reflexivity].
  rewrite black_mat by exact B. apply vec3_eq; cbn; ring.
Qed.
Lemma black_on h n i wi c1 : black Sc i -> goes_on h n i wi c1 = 0.
Proof.
  intros (B1 & _). unfold goes_on, sc_sample, chosen_bsdf. rewrite B1. unfold bsdf_sample. set (c2 := set_wi _ _).
  assert (Z : forall c3, c_albedo c3 = V3c 0 -> (if Req_EM_T (c_pdf c3) 0 then 0 else get (vscale (c_albedo c3) (cos_term i c3 / c_pdf c3)) * light h n (next_ray i c3) c3) = 0).
  { intros c3 A. destruct (Req_EM_T _ 0); [reflexivity|]. rewrite A. replace (vscale (V3c 0) (cos_term i c3 / c_pdf c3)) with (V3c 0) by (apply vec3_eq; cbn; ring). rewrite (get_c get ch). ring. }
  destruct (Rle_dec _ 0); cbn [expect].
  - apply Z. reflexivity.
  - rewrite (e2_ext _ _ _ av _ (fun _ => 0)); [apply (e2_const _ _ _ av)|]. intros u. apply Z. cbn. apply vec3_eq; cbn; ring.
Qed.
Lemma black_vertex h n i r wi c : black Sc i -> c_all c = false -> c_nee c = V3c 0 -> c_emission c = V3c 0 -> E h (shine i r c) (leaves h n i wi) = 0.
Proof.
  intros B Al Ne Em. assert (Z : forall c1, c_emission c1 = V3c 0 -> c_nee c1 = V3c 0 -> leaves h n i wi c1 = 0).
  { intros c1 E1 N1. unfold leaves. rewrite black_sum, black_on, E1, N1 by exact B. rewrite (get_add get ch), !(get_c get ch). ring. }
  unfold shine. destruct (evaluate_form i r c Al) as [(c1 & (_ & K2 & _ & _ & K5) & Q)|(D & c1 & (_ & K2 & _ & _ & K5) & Q)]; rewrite Q.
  - cbn [expect]. apply Z; [apply K5; [apply B|exact Em]|congruence].
  - transitivity (E h (one i) (fun _ => 0)); [apply (expect_eq _ _ _ av)|apply (expect_const _ _ _ av)]. intros o _. destruct o as [l|m| |]; apply Z; cbn; try assumption; [apply K5; [apply B|exact Em]|congruence].
Qed.

Lemma leaves_split n i wi c1 l : c_nee c1 = V3c 0 -> leaves hit n i wi (set_shadow c1 l) = (get (c_emission c1) + goes_on hit n i wi c1) + added Sc get i (c_wi c1) l.
Proof.
  intros Ne. unfold leaves. replace (goes_on hit n i wi (set_shadow c1 l)) with (goes_on hit n i wi c1).
  - unfold added. cbn [set_shadow c_emission c_nee c_wi c_shadow]. rewrite Ne, (get_add get ch). ring.
  - unfold goes_on, sc_sample. change (set_wi (accumulate_shadow_rays (sc_mat Sc i) (set_shadow c1 l)) wi) with
      (set_nee (set_wi (accumulate_shadow_rays (sc_mat Sc i) c1) wi) (shadow_sum (sc_mat Sc i) (c_wi c1) l (c_nee c1))).
    rewrite sample_without_nee by exact N_pos. apply (expect_eq _ _ _ av). intros c3 _. cbn [set_nee c_pdf c_albedo]. destruct (Req_EM_T _ 0); [reflexivity|]. destruct n; reflexivity.
Qed.
Lemma darker n : forall r c, fresh c -> light hit' n r c <= light hit n r c.
Proof.
  induction n as [|n IH]; intros r c Fr; [cbn; lra|]. pose proof (lit (S n) r c Fr) as Pos. destruct Fr as (Al & Sh). destruct (more_black r) as [Er|(j & Ej & Nj & Bj)].
  2:{ apply Rle_trans with (2 := Pos). cbn [arrives_there]. rewrite Ej. cbv zeta.
      change (E hit' (shine j r (reset_closure c (isect_toLocal j (vneg (dir r))))) (leaves hit' n j (isect_toLocal j (vneg (dir r)))) <= 0).
      rewrite black_vertex by (try exact Bj; try exact Al; reflexivity). apply Rle_refl. }
  cbn [arrives_there]. rewrite Er. destruct (hit r) as [i|] eqn:Hi; [|apply Rle_refl]. cbv zeta. clear Pos.
  set (wi := isect_toLocal i (vneg (dir r))). change (E hit' (shine i r (reset_closure c wi)) (leaves hit' n i wi) <= E hit (shine i r (reset_closure c wi)) (leaves hit n i wi)).
  pose proof (Normal r i Hi) as No.
  assert (On : forall c1, c_all c1 = false -> c_spec c1 = isDelta (chosen_bsdf Sc i) -> leaves hit' n i wi c1 <= leaves hit n i wi c1).
  { intros c1 A1 Sp. unfold leaves. apply Rplus_le_compat_l. unfold goes_on. rewrite sample_blind. apply (expect_le _ _ _ av). intros c3 L3. apply hleaf_leaf in L3. destruct (Req_EM_T _ 0) as [|P0]; [lra|].
    apply Rmult_le_compat_l; [apply (weight1 Sc get ch Plain i _ c3 No) with (2 := L3); [exact Sp|exact P0]|]. apply IH, (scattered Sc i wi c1 c3 A1 L3). }
  unfold shine. destruct (evaluate_form i r (reset_closure c wi) Al) as [(c1 & (K1 & _ & _ & K4 & _) & Q)|(D & c1 & (K1 & K2 & _ & K4 & _) & Q)]; rewrite !Q.
  - cbn [expect]. apply On; assumption.
  - apply Rle_trans with (E hit' (one i) (fun o => match o with Ok l => leaves hit n i wi (set_shadow c1 l) | _ => leaves hit n i wi (Renderer.unlit false (reset_closure c wi)) end)).
    + apply (expect_le _ _ _ av). intros o _. destruct o as [l|m| |]; apply On; try assumption; symmetry; exact D.
    + apply one_darker. intros l Ll.
      rewrite !leaves_split by exact K2. apply Rplus_le_compat_l. apply hleaf_leaf in Ll. destruct (one_light Sc Bl B_pos clear Lamps i None false l (Reach r i Hi) Ll) as (Len & Fa).
      unfold added. cbn [shadow_sum no_eval e_valid]. rewrite (get_c get ch). destruct l as [|e [|e' l]]; cbn [length] in Len; [cbn; rewrite (get_c get ch); lra| |lia].
      cbn [shadow_sum]. destruct (e_valid e) eqn:Ve; [|rewrite (get_c get ch); lra]. inversion Fa as [|? ? At _]; subst.
      pose proof (get_in get ch Bl _ (own_light Sc Bl B_pos i (c_wi c1) e (chosen_all Sc plain i Plain) D No At Ve)). rewrite (get_add get ch), (get_c get ch). lra.
Qed.
End Black.
