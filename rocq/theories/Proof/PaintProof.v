(** More light arrives in a scene with brighter paint. *)
From Coq Require Import Reals List Bool ZArith Lra Lia.
From Coquelicot Require Import Rbar.
From Verif.Base Require Import Outcome.
From Verif.Model Require Import Vec Frame BBox Warp Integrators Bsdf Scene Renderer VolPath.
From Verif.Spec Require Import IntegratorSpec PathSpec SceneSpec BoundSpec VolPathSpec ExpectSpec LitSpec PaintSpec.
From Verif.Proof Require Import VecLemmas IntegratorProof SceneProof BoundProof VolPathTheory ExpectProof ExpectScene LitScene.
Import ListNotations.
Open Scope R_scope.

(** two programs that ask the same and return related results *)
Inductive in_step {A} (Rl : A -> A -> Prop) : query A -> query A -> Prop :=
| is_ret a b : Rl a b -> in_step Rl (QRet a) (QRet b)
| is_hit r k k' : (forall h, in_step Rl (k h) (k' h)) -> in_step Rl (QHit r k) (QHit r k')
| is_1 k k' : (forall u, in_step Rl (k u) (k' u)) -> in_step Rl (QRand1 k) (QRand1 k')
| is_2 k k' : (forall u, in_step Rl (k u) (k' u)) -> in_step Rl (QRand2 k) (QRand2 k').

Section Paint.
Variable d : R.
Variable e1 : (R -> R) -> R.
Variable e2 : (vec2 -> R) -> R.
Hypothesis av : averages d e1 e2.
Variable hit : ray -> option isect.
Notation expect := (expect hit e1 e2).
Lemma expect_in_step {A} (Rl : A -> A -> Prop) q q' f g : in_step Rl q q' -> (forall a b, hleaf hit q a -> Rl a b -> f a <= g b) -> expect q f <= expect q' g.
Proof.
  induction 1 as [a b H|r k k' _ IH|k k' _ IH|k k' _ IH]; intros Le; cbn.
  - apply Le; [constructor|exact H].
  - apply IH. intros a b L. apply Le. constructor. exact L.
  - apply (av_mono1 _ _ _ av). intros u. apply IH. intros a b L. apply Le. econstructor. exact L.
  - apply (av_mono2 _ _ _ av). intros u. apply IH. intros a b L. apply Le. econstructor. exact L.
Qed.
Context {M : Type}.
Variable env : ray -> vec3.
Variable boundary : nat -> option (option M * option M).
Variable ms : M -> option bool -> ray -> R -> query (vec3 * R).
Variable ph : M -> vec3 -> vec2 -> vec3 * R.
Variable nee : bool -> bool -> isect -> option M -> query (list emitter_eval).
Variable ev : isect -> ray -> option M -> closure -> query closure.
Variable mat mat' : isect -> vec3 -> vec3 -> vec3.
Variable sample sample' : isect -> closure -> query closure.
Variable L : R.
Variable P : closure -> Prop.
Hypothesis ge : gentle hit M env boundary ms ph nee ev mat sample false L P.
Variable get : vec3 -> R.
Hypothesis ch : channel get.
Definition moved (i : isect) (c c' : closure) : Prop :=
  alike c c' /\ c_wo c = c_wo c' /\ c_pdf c = c_pdf c' /\
  (c_pdf c <> 0 -> get (vscale (c_albedo c) (cos_term i c / c_pdf c)) <= get (vscale (c_albedo c') (cos_term i c' / c_pdf c'))).
Hypothesis painted : forall r i md c c1, hit r = Some i -> P c -> hleaf hit (ev i r md (reset_closure c (isect_toLocal i (vneg (dir r))))) c1 ->
  let wi := isect_toLocal i (vneg (dir r)) in let c2 := accumulate_shadow_rays (mat i) c1 in let c2' := accumulate_shadow_rays (mat' i) c1 in
  get (c_nee c2) <= get (c_nee c2') /\ in_step (moved i) (sample i (set_wi c2 wi)) (sample' i (set_wi c2' wi)).
Variable max : nat.
Notation arrives := (arrives hit e1 e2 M env boundary ms ph nee ev mat sample false max get).
Notation arrives' := (ExpectSpec.arrives hit e1 e2 M env boundary ms ph nee ev mat' sample' false max get).
Lemma arrives_painted fuel : forall n r c c' md surf, P c -> alike c c' -> arrives fuel n r c md surf <= arrives' fuel n r c' md surf.
Proof.
  induction fuel as [|fuel IH]; intros n r c c' md surf Pc A; cbn [ExpectSpec.arrives]; [lra|].
  destruct n as [|n]; [lra|]. destruct (hit r) as [i|] eqn:Hi; [|lra]. cbv zeta.
  assert (Al : c_all c = c_all c') by exact (f_equal c_all (A (V3c 0))).
  match goal with |- match md with None => ?x | _ => _ end <= match md with None => ?y | _ => _ end => set (b := x); set (b' := y) end.
  assert (B : b <= b').
  { unfold b, b'. destruct (i_null i).
    - apply IH; [apply (ge_cross _ _ _ _ _ _ _ _ _ _ _ _ _ ge), Pc|]. intros wi. unfold boundary_closure. destruct (boundary (i_mesh i)); [|apply A]. exact (A wi).
    - rewrite A. apply (expect_le d e1 e2 av hit). intros c1 L1. rewrite <- A in L1. destruct (painted r i md c c1 Hi Pc L1) as (Ne & St).
      destruct (ge_vertex _ _ _ _ _ _ _ _ _ _ _ _ _ ge r i md c c1 Hi Pc L1) as (_ & Gs). cbv zeta in Gs.
      apply Rplus_le_compat.
      + rewrite !(get_add get ch). unfold accumulate_shadow_rays in *. cbn [c_emission c_nee] in *. lra.
      + apply (expect_in_step (moved i)); [exact St|]. intros c3 c3' L3 (M1 & M2 & M3 & M4). destruct (Gs c3 L3) as (_ & _ & P3 & W3).
        rewrite <- M3 in M4 |- *. destruct (Req_EM_T (c_pdf c3) 0) as [|P0]; [lra|].
        assert (Nx : next_ray i c3 = next_ray i c3') by (unfold next_ray; rewrite M2; reflexivity). rewrite <- Nx.
        apply Rmult_le_compat; [apply (get_in get ch) in W3; [apply W3|exact P0]|apply (arrives_range d e1 e2 av hit env boundary ms ph nee ev mat sample false max L P ge get ch), P3|apply M4, P0|].
        apply IH; assumption. }
  destruct md as [m|]; [|exact B]. apply (expect_le d e1 e2 av hit). intros wt Lw. apply Rmult_le_compat_l; [apply (get_in get ch) with 1, (ge_medium _ _ _ _ _ _ _ _ _ _ _ _ _ ge _ _ _ _ _ Lw)|].
  destruct (Rlt_dec _ _) as [Ins|]; [|exact B]. rewrite <- Al. apply (expect_le d e1 e2 av hit). intros l Ll. apply (av_mono2 _ _ _ av). intros s.
  destruct (ge_scatter _ _ _ _ _ _ _ _ _ _ _ _ _ ge surf i m _ r c wt l s (V3c 0) Pc Hi Lw Ins Ll) as (_ & Ps).
  destruct (ph m (vneg (dir r)) s) as [wi phase]. apply Rplus_le_compat_l. apply IH; [exact Ps|].
  intros w. pose proof (A w) as Q. unfold reset_closure, scatter_closure in *. cbn. injection Q as Q1 Q2 Q3 Q4 Q5 Q6 Q7 Q8. now rewrite Q1, Q3, Q4, Q5, Q7, Q8.
Qed.
End Paint.

(** ** scenes *)
Lemma cos_term_pos i c : 0 <= cos_term i c.
Proof. unfold cos_term. cbv zeta. destruct (c_spec c); [lra|]. destruct (Rlt_dec _ 0); lra. Qed.
Lemma darker_get get a b k : channel get -> darker a b -> 0 <= k -> get (vscale a k) <= get (vscale b k).
Proof. intros Ch (X & Y & Z) K. destruct Ch as [->|[->| ->]]; cbn; apply Rmult_le_compat_r; assumption. Qed.
Lemma cos_hemi_up u : 0 <= vz (sqrToCosHemi u).
Proof. unfold sqrToCosHemi. cbn. apply sqrt_pos. Qed.
Definition set_nee (c : closure) (v : vec3) : closure :=
  Closure (c_wi c) (c_wo c) (c_shadow c) (c_albedo c) (c_emission c) v (c_pdf c) (c_eta c) (c_spec c) (c_last_spec c) (c_all c) (c_accepts c).
Lemma put_moved get i c v wo a a' pdf eta sp ac : channel get -> darker a a' -> 0 <= pdf -> moved get i (put c wo a pdf eta sp ac) (put (set_nee c v) wo a' pdf eta sp ac).
Proof.
  intros Ch D P. unfold moved. split; [intros w; reflexivity|]. split; [reflexivity|]. split; [reflexivity|]. cbn [c_pdf put c_albedo]. intros P0.
  change (cos_term i (put (set_nee c v) wo a' pdf eta sp ac)) with (cos_term i (put c wo a pdf eta sp ac)). apply darker_get; [exact Ch|exact D|].
  apply Rmult_le_pos; [apply cos_term_pos|]. left. apply Rinv_0_lt_compat. lra.
Qed.
Lemma kill_moved get i c v : moved get i (kill c) (kill (set_nee c v)).
Proof. unfold moved. split; [intros w; reflexivity|]. split; [reflexivity|]. split; [reflexivity|]. cbn. lra. Qed.
Lemma bsdf_moved get i b b' c v : channel get -> brighter_bsdf b b' -> in_step (moved get i) (bsdf_sample b c) (bsdf_sample b' (set_nee c v)).
Proof.
  intros Ch Br. pose proof PI_RGT_0. assert (0 < 1 / PI) by (apply Rdiv_lt_0_compat; lra). destruct b, b'; cbn in Br; try contradiction; cbn [bsdf_sample c_wi set_nee].
  - destruct (Rle_dec _ 0); [constructor; apply kill_moved|]. constructor. intros u. constructor. apply put_moved; [exact Ch| |].
    + destruct Br as (X & Y & Z). unfold darker; cbn. repeat split; apply Rmult_le_compat_r; lra.
    + apply Rmult_le_pos; [lra|apply cos_hemi_up].
  - destruct (Rle_dec _ 0); [constructor; apply kill_moved|]. constructor. apply put_moved; [exact Ch|exact Br|lra].
  - destruct Br as (<- & <- & Br). constructor. intros u. cbv zeta. destruct (ltb_nan _ _); constructor; (apply put_moved; [exact Ch|exact Br|lra]).
  - destruct Br as (<- & <- & Br). constructor. intros u. cbv zeta. destruct (_ || _)%bool; constructor; (apply put_moved; [exact Ch|exact Br|lra]).
Qed.
Lemma brighter_delta b b' : brighter_bsdf b b' -> isDelta b = isDelta b'.
Proof. destruct b, b'; cbn; try contradiction; reflexivity. Qed.
Lemma brighter_value b b' wi wo : brighter_bsdf b b' -> exists v v', bsdf_value b wi wo = Some v /\ bsdf_value b' wi wo = Some v' /\ darker v v'.
Proof.
  pose proof PI_RGT_0. assert (0 < 1 / PI) by (apply Rdiv_lt_0_compat; lra). assert (Z : darker (V3c 0) (V3c 0)) by (unfold darker; lra).
  destruct b, b'; cbn; try contradiction; intros Br; try match type of Br with _ = _ /\ _ => destruct Br as (_ & _ & Br) end; try (destruct (Rle_dec (cosTheta wi) 0)); try (destruct (Rle_dec (cosTheta wo) 0));
    do 2 eexists; (split; [reflexivity|]); (split; [reflexivity|]); try assumption.
  destruct Br as (X & Y & Z'). unfold darker; cbn. repeat split; apply Rmult_le_compat_r; lra.
Qed.

Section Scenes.
Context {M : Type}.
Variable S : scene M.
Variable paint : nat -> shader.
Hypothesis br : forall m, brighter_shader (sc_shader S m) (paint m).
Notation S' := (repainted S paint).
Lemma chosen_brighter i : brighter_bsdf (chosen_bsdf S i) (chosen_bsdf S' i).
Proof.
  unfold chosen_bsdf. cbn [sc_shader repainted]. specialize (br (i_mesh i)). destruct (sc_shader S (i_mesh i)), (paint (i_mesh i)); cbn in br; try contradiction; [exact br|].
  destruct br as (<- & B1 & B2). destruct (on_wire _ _); assumption.
Qed.
Lemma evaluate_same i r md c : sc_evaluate_in S' i r md c = sc_evaluate_in S i r md c.
Proof.
  unfold sc_evaluate_in. rewrite <- (brighter_delta _ _ (chosen_brighter i)). f_equal. unfold sc_try_in. cbn [sc_shader repainted sc_emitters sc_envs sc_object_emitter sc_inst sc_mesh_point sc_inside sc_transmittance sc_fuel sc_ignore].
  specialize (br (i_mesh i)). destruct (sc_shader S (i_mesh i)), (paint (i_mesh i)); cbn in br; try contradiction; [rewrite (brighter_delta _ _ br); reflexivity|].
  destruct br as (<- & B1 & B2). destruct (on_wire _ _); rewrite ?(brighter_delta _ _ B1), ?(brighter_delta _ _ B2); reflexivity.
Qed.
Lemma mat_darker i wi wo : darker (sc_mat S i wi wo) (sc_mat S' i wi wo).
Proof. unfold sc_mat. destruct (brighter_value _ _ wi wo (chosen_brighter i)) as (v & v' & -> & -> & D). exact D. Qed.
Lemma sum_darker get i wi l : channel get ->
  (forall e wi, In e l -> e_valid e = true -> (0 <= get (vmul (e_throughput e) (sc_mat S i wi (normalized (e_dir e))))) /\ 0 <= get (vmul (e_throughput e) (sc_mat S' i wi (normalized (e_dir e)))) /\ 0 <= get (sc_mat S i wi (normalized (e_dir e)))) ->
  forall n n', get n <= get n' -> get (shadow_sum (sc_mat S i) wi l n) <= get (shadow_sum (sc_mat S' i) wi l n').
Proof.
  intros Ch. induction l as [|e l IH]; intros H n n' Le; [exact Le|]. cbn [shadow_sum]. apply IH; [intros e' wi' In; apply H; now right|].
  destruct (e_valid e) eqn:V; [|exact Le]. rewrite !(get_add get Ch). apply Rplus_le_compat; [exact Le|].
  destruct (H e wi (or_introl eq_refl) V) as (H1 & H2 & H3). rewrite !(get_mul get Ch) in *.
  assert (D : get (sc_mat S i wi (normalized (e_dir e))) <= get (sc_mat S' i wi (normalized (e_dir e)))) by (destruct (mat_darker i wi (normalized (e_dir e))) as (X & Y & Z); destruct Ch as [->|[->| ->]]; assumption).
  set (a := get (sc_mat S i _ _)) in *. set (b := get (sc_mat S' i _ _)) in *. set (t := get (e_throughput e)) in *.
  destruct (Rle_dec 0 t) as [T|T]; [apply Rmult_le_compat_l; assumption|]. apply Rnot_le_lt in T. assert (b <= 0) by nra. nra.
Qed.
End Scenes.
