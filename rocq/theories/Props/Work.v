(** C212: the work of a camera sample is bounded. *)
From Coq Require Import Reals List Bool Lia FunctionalExtensionality.
From Coquelicot Require Import Rbar.
From Verif.Base Require Import Outcome.
From Verif.Model Require Import Vec Frame BBox Clocker Integrators Bsdf Scene Renderer.
From Verif.Spec Require Import IntegratorSpec SceneSpec WorkSpec OrderSpec TapeSpec.
From Verif.Proof Require Import IntegratorProof SceneProof OrderProof WorkProof.
From Verif.Props Require VolPath.
From Verif.Props Require Import Lamps PathMean.
Import ListNotations.
Open Scope nat_scope.

Section Work.
Context {Med W : Type}.
Variable Sc : scene Med.
(** any clock, any scene geometry without null surfaces, any random numbers *)
Variable now : W -> R * W.
Variable hit : W -> ray -> option isect * W.
Variable rnd1 : W -> R * W.
Variable rnd2 : W -> vec2 * W.
Hypothesis solid : solid_world hit.
(** 0 when no light is a directional mesh, else 1: such a light is looked for before its sample is tested *)
Variable extra : nat.
Hypothesis seen : forall e, In e (sc_emitters Sc) -> needs_visibility e = true -> 1 <= extra.
Variable nn : nat.
Notation world := (account W).
Notation path := (scene_path Sc world (counted_now now) (counted_hit hit) (counted_rnd1 rnd1) (counted_rnd2 rnd2) nn).
Notation whitted := (scene_whitted Sc world (counted_now now) (counted_hit hit) (counted_rnd1 rnd1) (counted_rnd2 rnd2) nn).
Notation amb_occ := (amb_occ_Li world (counted_now now) (counted_hit hit) (counted_rnd2 rnd2) nn).

Ltac plain_steps := repeat first
  [ apply costs_then; [first [apply costs_start|apply costs_stop|apply costs_note]|intros _]
  | progress cbv zeta ].
Ltac done := first [ apply costs_ret | eapply costs_le; [| |apply costs_ret]; lia ].
Lemma with_same : with_lights Sc (sc_emitters Sc) = Sc. Proof. destruct Sc. reflexivity. Qed.

(** C212: one ray per vertex and at most one or two for the light sample; six random numbers per vertex *)
Theorem C212_path n r : costs (n * (2 + extra)) (n * 6) (path n r).
Proof.
  unfold scene_path, path_Li. assert (A0 : c_all (closure_init false true (V3c 0)) = false) by reflexivity. revert A0.
  generalize (V3c 0) at 2 as Li. generalize (V3c 1) as beta. revert r. generalize (closure_init false true (V3c 0)) as c.
  induction n as [|n IH]; intros c r beta Li Al; cbn [path_loop]; [done|].
  destruct (isZero_dec beta); [done|]. plain_steps. replace (S n * (2 + extra)) with (1 + (extra + 1 + n * (2 + extra))) by lia. apply costs_seen; [exact solid|]. intros [its|].
  2:{ plain_steps. done. }
  plain_steps. replace (S n * 6) with (3 + (3 + n * 6)) by lia. apply costs_query; [exact solid|apply evaluate_asks; [exact seen|exact Al]|].
  intros c1 L1. assert (A1 : c_all c1 = false).
  { rewrite evaluate_none in L1. rewrite <- with_same in L1. apply (evaluate_keeps Sc (sc_emitters Sc) (fun _ => None)) in L1 as (K & _). rewrite K. exact Al. }
  plain_steps. replace (3 + n * 6) with (1 + (2 + n * 6)) by lia. apply (costs_bind 0 1); [apply costs_next1|]. intros u.
  plain_steps. destruct (Rgt_dec u _); plain_steps; [done|].
  apply (costs_query now hit rnd1 rnd2 solid _ _ (n * (2 + extra)) (n * 6) 0 2); [apply sample_asks|]. intros c2 L2.
  plain_steps. destruct (Req_EM_T _ 0); plain_steps; [done|]. apply IH. apply bsdf_sample_keeps in L2 as (_ & _ & -> & _). exact A1.
Qed.
(** all samples of a pixel: two more numbers for the place on the film *)
Theorem C212_pixel many n camera : costs (many * (n * (2 + extra))) (many * (2 + n * 6)) (shots many (bindM world (next2 world (counted_rnd2 rnd2)) (fun u => path n (camera u)))).
Proof.
  induction many as [|k IH]; cbn [shots]; [done|]. cbn [Nat.mul]. apply costs_bind.
  - apply (costs_bind 0 2); [apply costs_next2|]. intros u. apply C212_path.
  - intros v. apply costs_le with (k * (n * (2 + extra)) + 0) (k * (2 + n * 6) + 0); [lia|lia|]. apply costs_bind; [exact IH|]. intros l. apply costs_ret.
Qed.
(** Whitted's integrator follows mirrors with one ray each and samples a light at most once *)
Theorem C212_whitted d r : costs (d + (1 + extra)) (d * 3 + 3) (whitted d r).
Proof.
  unfold scene_whitted. revert r. induction d as [|d IH]; intros r; cbn [whitted_Li]; [intros s; cbn; lia|].
  plain_steps. replace (S d + (1 + extra)) with (1 + (d + (1 + extra))) by lia. apply costs_seen; [exact solid|]. intros [its|].
  2:{ plain_steps. done. }
  plain_steps. set (c0 := closure_init false true _).
  assert (Sp : forall c1, leaf (sc_evaluate Sc its r c0) c1 -> c_spec c1 = isDelta (chosen_bsdf Sc its)).
  { intros c1 L1. rewrite evaluate_none in L1. rewrite <- with_same in L1. apply (evaluate_keeps Sc (sc_emitters Sc) (fun _ => None)) in L1 as (_ & K). exact K. }
  destruct (isDelta (chosen_bsdf Sc its)) eqn:D.
  - apply (costs_query now hit rnd1 rnd2 solid _ _ (d + (1 + extra)) (S d * 3 + 3) 0 0); [apply delta_asks, D|]. intros c1 L1. plain_steps.
    change (c_spec (accumulate_shadow_rays (sc_mat Sc its) c1)) with (c_spec c1). rewrite (Sp c1 L1). plain_steps.
    replace (S d * 3 + 3) with (2 + (1 + (d * 3 + 3))) by lia. apply (costs_query now hit rnd1 rnd2 solid _ _ (d + (1 + extra)) (1 + (d * 3 + 3)) 0 2); [apply sample_asks|]. intros c2 _. plain_steps.
    apply (costs_bind 0 1 (d + (1 + extra)) (d * 3 + 3)); [apply costs_next1|]. intros u. plain_steps. destruct (Rgt_dec u _); plain_steps; [done|].
    destruct (isZero_dec _); [done|]. apply costs_le with (d + (1 + extra) + 0) (d * 3 + 3 + 0); [lia|lia|]. apply costs_bind; [apply IH|]. intros v. apply costs_ret.
  - apply costs_le with (extra + 1 + d) (3 + S d * 3); [lia|lia|]. apply costs_query; [exact solid|apply evaluate_asks; [exact seen|reflexivity]|]. intros c1 L1. plain_steps.
    change (c_spec (accumulate_shadow_rays (sc_mat Sc its) c1)) with (c_spec c1). rewrite (Sp c1 L1). plain_steps. done.
Qed.
(** ambient occlusion: the camera ray and one more *)
Theorem C212_amb_occ r : costs 2 2 (amb_occ r).
Proof.
  unfold amb_occ_Li. plain_steps. apply (costs_seen now hit solid nn r _ 1 2). intros [its|]; plain_steps; [|done].
  apply (costs_bind 0 2 1 0); [apply costs_next2|]. intros u. plain_steps. apply (costs_seen now hit solid nn _ _ 0 0). intros [j|]; plain_steps; done.
Qed.
End Work.
Print Assumptions C212_path.
Print Assumptions C212_pixel.
Print Assumptions C212_whitted.
Print Assumptions C212_amb_occ.

(** five bounces between the floor and the lamp: at most ten rays and thirty numbers, whatever the numbers are *)
Example C212_case a p (rnd1 : nat -> R) (rnd2 : nat -> vec2) nn r : let hit (k : nat) q := (scene_hit (VolPath.sheets floor) q, S k) in
  solid_world hit /\
  costs 10 30 (scene_path (floor_scene a p) (account nat) (counted_now (fun k => (0%R, k))) (counted_hit hit) (counted_rnd1 (fun k => (rnd1 k, S k))) (counted_rnd2 (fun k => (rnd2 k, S k))) nn 5 r).
Proof.
  intros hit. assert (So : solid_world hit) by (intros w q i; cbn; apply floor_solid). split; [exact So|].
  apply (C212_path (floor_scene a p) (fun k => (0%R, k)) hit (fun k => (rnd1 k, S k)) (fun k => (rnd2 k, S k)) So 0). intros e [<-|[]]. discriminate.
Qed.
