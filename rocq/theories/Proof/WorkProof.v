(** The work of a camera sample. *)
From Coq Require Import Reals List Bool Lia.
From Coquelicot Require Import Rbar.
From Verif.Base Require Import Outcome.
From Verif.Model Require Import Vec Frame BBox Clocker Integrators Bsdf Scene Renderer.
From Verif.Spec Require Import WorkSpec LitSpec IntegratorSpec PathSpec.
From Verif.Proof Require Import IntegratorProof SceneProof.
Import ListNotations.
Open Scope nat_scope.

(** what a program asks for when no surface is null *)
Fixpoint asks {A} (a b : nat) (q : query A) : Prop :=
  match q with
  | QRet _ => True
  | QHit r k => 1 <= a /\ forall o, (forall i, o = Some i -> i_null i = false) -> asks (a - 1) b (k o)
  | QRand1 k => 1 <= b /\ forall u, asks a (b - 1) (k u)
  | QRand2 k => 2 <= b /\ forall u, asks a (b - 2) (k u)
  end.
Lemma asks_le {A} (q : query A) : forall a b a' b', a <= a' -> b <= b' -> asks a b q -> asks a' b' q.
Proof.
  induction q as [x|r k IH|k IH|k IH]; intros a b a' b' Ha Hb; cbn; [trivial| | |]; intros (H & K); (split; [lia|]).
  - intros o So. apply (IH o (a - 1) b); [lia|lia|exact (K o So)].
  - intros u. apply (IH u a (b - 1)); [lia|lia|apply K].
  - intros u. apply (IH u a (b - 2)); [lia|lia|apply K].
Qed.
Lemma asks_bind {A B} (q : query A) (f : A -> query B) : forall a b a' b', asks a b q -> (forall x, asks a' b' (f x)) -> asks (a + a') (b + b') (qbind q f).
Proof.
  induction q as [x|r k IH|k IH|k IH]; intros a b a' b'; cbn.
  - intros _ H. apply asks_le with a' b'; [lia|lia|apply H].
  - intros (H & K) F. split; [lia|]. intros o So. replace (a + a' - 1) with (a - 1 + a') by lia. apply IH; [exact (K o So)|exact F].
  - intros (H & K) F. split; [lia|]. intros o. replace (b + b' - 1) with (b - 1 + b') by lia. apply IH; [apply K|exact F].
  - intros (H & K) F. split; [lia|]. intros o. replace (b + b' - 2) with (b - 2 + b') by lia. apply IH; [apply K|exact F].
Qed.
Lemma asks_obind {A B} (q : query (outcome A)) (f : A -> query (outcome B)) a b a' b' : asks a b q -> (forall x, asks a' b' (f x)) -> asks (a + a') (b + b') (obind q f).
Proof. intros Q F. apply asks_bind; [exact Q|]. intros [x|m| |]; cbn; auto. Qed.

Section Scene.
Context {Med : Type}.
Variable Sc : scene Med.
(** 1 more ray when some light has to be seen first *)
Variable extra : nat.
Hypothesis seen : forall e, In e (sc_emitters Sc) -> needs_visibility e = true -> 1 <= extra.
Lemma tr_asks r beta : asks 1 0 (intersect_transmittance Med (sc_inside Sc) (sc_transmittance Sc) (sc_fuel Sc) r None beta).
Proof.
  unfold intersect_transmittance. destruct (sc_fuel Sc) as [|f]; cbn; [trivial|]. split; [lia|]. intros [i|] So; cbn; [rewrite (So i eq_refl)|]; cbn; trivial.
Qed.
Lemma emitter_asks i n p e : In e (sc_emitters Sc) -> asks (extra + 1) 2 (eval_emitter (sc_mesh_point Sc) Med (sc_inside Sc) (sc_transmittance Sc) (sc_fuel Sc) (sc_ignore Sc) i None n false p e).
Proof.
  intros Ie. unfold eval_emitter. cbn [asks]. split; [lia|]. intros u. change (2 - 2) with 0.
  apply (asks_obind (QRet _) _ 0 0 (extra + 1) 0); [exact I|]. intros s.
  apply (asks_obind _ _ extra 0 1 0).
  - unfold shadow_query. destruct (needs_visibility e) eqn:V.
    + pose proof (seen e Ie V) as X. apply asks_le with (1 + 0) (0 + 0); [lia|lia|]. apply asks_obind.
      * destruct (sc_fuel Sc) as [|f]; cbn; [trivial|]. split; [lia|]. intros [j|] So; cbn; [rewrite (So j eq_refl)|]; cbn; trivial.
      * intros [j|]; cbv zeta; repeat (match goal with |- context [match ?x with _ => _ end] => destruct x end; cbn; trivial).
    + destruct (es_sqr_dist s); cbn; trivial.
  - intros [[r c] pdf]. apply (asks_obind _ _ 1 0 0 0); [apply tr_asks|]. intros [bl tr]. destruct (negb bl || _)%bool; cbn; trivial.
Qed.
Lemma one_asks_in i L : (forall e, In e L -> In e (sc_emitters Sc)) -> asks (extra + 1) 3 (eval_one (sc_mesh_point Sc) Med (sc_inside Sc) (sc_transmittance Sc) (sc_fuel Sc) L (sc_inst Sc) (sc_ignore Sc) i None false).
Proof.
  intros Sub. unfold eval_one, choose_emitter. destruct L as [|e0 l]; [cbn; trivial|]. set (L := e0 :: l) in *. unfold obind. cbn [qbind asks]. split; [lia|]. intros u. change (3 - 1) with 2.
  destruct (naive_choice _ u) as [k pdf]. destruct (Z.ltb k 0); cbn [qbind asks]; trivial. destruct (nth_error _ _) as [e|] eqn:Ne; cbn [qbind asks]; trivial. apply nth_error_In, Sub in Ne.
  assert (G : asks (extra + 1) 2 (obind (eval_emitter (sc_mesh_point Sc) Med (sc_inside Sc) (sc_transmittance Sc) (sc_fuel Sc) (sc_ignore Sc) i None (fn (i_s i)) false pdf e) (fun o => QRet (Ok [eval_of i o])))).
  { apply asks_le with (extra + 1 + 0) (2 + 0); [lia|lia|]. apply asks_obind; [apply emitter_asks, Ne|]. intros x. exact I. }
  destruct (em_mesh e) as [m|]; [destruct (Nat.eqb _ _)|]; cbn [qbind asks]; trivial.
Qed.
Lemma one_asks i : asks (extra + 1) 3 (eval_one (sc_mesh_point Sc) Med (sc_inside Sc) (sc_transmittance Sc) (sc_fuel Sc) (sc_emitters Sc) (sc_inst Sc) (sc_ignore Sc) i None false).
Proof. apply one_asks_in. trivial. Qed.
Lemma shade_asks delta i r c : c_all c = false ->
  asks (extra + 1) 3 (shade_in (sc_mesh_point Sc) Med (sc_inside Sc) (sc_transmittance Sc) (sc_fuel Sc) (sc_emitters Sc) (sc_inst Sc) (sc_ignore Sc) (sc_object_emitter Sc) None delta i r c).
Proof.
  intros Al. unfold shade_in. set (c0 := set_spec c delta (c_last_spec c) (c_accepts c)). assert (A0 : c_all c0 = false) by exact Al.
  assert (Rest : forall c1, c_all c1 = false -> asks (extra + 1) 3
    (if delta then QRet (Ok (set_spec c1 delta delta (c_accepts c1))) else if c_accepts c1 then
       obind (if c_all c1 then eval_all (sc_mesh_point Sc) Med (sc_inside Sc) (sc_transmittance Sc) (sc_fuel Sc) (sc_ignore Sc) i None false (sc_emitters Sc)
              else eval_one (sc_mesh_point Sc) Med (sc_inside Sc) (sc_transmittance Sc) (sc_fuel Sc) (sc_emitters Sc) (sc_inst Sc) (sc_ignore Sc) i None false) (fun l => QRet (Ok (set_shadow c1 l)))
     else QRet (Ok c1))).
  { intros c1 A1. destruct delta; [exact I|]. destruct (c_accepts c1); [|exact I]. rewrite A1. apply asks_le with (extra + 1 + 0) (3 + 0); [lia|lia|]. apply asks_obind; [apply one_asks|]. intros l. exact I. }
  clearbody c0. unfold obind at 1. cbn [qbind]. destruct (c_last_spec c0); [|apply Rest, A0].
  unfold accumulate_emission. destruct (sc_object_emitter Sc _) as [e|]; [|apply Rest, A0]. destruct (em_evaluate e _) as [v|m| |]; cbn [bind]; try exact I. apply Rest, A0.
Qed.
Lemma evaluate_asks i r c : c_all c = false -> asks (extra + 1) 3 (sc_evaluate Sc i r c).
Proof.
  intros Al. unfold sc_evaluate, no_failure. apply asks_le with (extra + 1 + 0) (3 + 0); [lia|lia|]. apply asks_bind; [|intros x; exact I].
  unfold sc_try. destruct (sc_shader Sc (i_mesh i)) as [b|th wire mesh]; [|unfold wireframe_evaluate, shade; apply shade_asks, Al].
  unfold simple_evaluate, simple_evaluate_in. apply asks_le with (extra + 1 + 0) (3 + 0); [lia|lia|]. apply asks_obind; [apply shade_asks, Al|]. intros x. exact I.
Qed.
Lemma delta_asks i r c : isDelta (chosen_bsdf Sc i) = true -> asks 0 0 (sc_evaluate Sc i r c).
Proof.
  intros D. unfold sc_evaluate, no_failure. apply (asks_bind _ _ 0 0 0 0); [|intros x; exact I].
  assert (Sh : asks 0 0 (shade_in (sc_mesh_point Sc) Med (sc_inside Sc) (sc_transmittance Sc) (sc_fuel Sc) (sc_emitters Sc) (sc_inst Sc) (sc_ignore Sc) (sc_object_emitter Sc) None true i r c)).
  { unfold shade_in. unfold obind at 1. cbn [qbind]. destruct (c_last_spec (set_spec _ _ _ _)); [|exact I]. unfold accumulate_emission. destruct (sc_object_emitter Sc _) as [e|]; [|exact I]. destruct (em_evaluate e _); exact I. }
  unfold sc_try. unfold chosen_bsdf in D. destruct (sc_shader Sc (i_mesh i)) as [b|th wire mesh].
  - unfold simple_evaluate, simple_evaluate_in. rewrite D. apply (asks_obind _ _ 0 0 0 0); [exact Sh|]. intros x. exact I.
  - unfold wireframe_evaluate, shade. destruct (on_wire _ _); rewrite D; exact Sh.
Qed.
Lemma sample_asks i c : asks 0 2 (sc_sample Sc i c).
Proof.
  unfold sc_sample. destruct (chosen_bsdf Sc i); unfold bsdf_sample; cbn [asks]; try exact I; repeat (match goal with |- asks _ _ (match ?x with _ => _ end) => destruct x end); cbn [asks]; try exact I;
    (split; [lia|]); intros u; repeat (match goal with |- asks _ _ (match ?x with _ => _ end) => destruct x | |- asks _ _ (let _ := _ in _) => cbv zeta end); exact I.
Qed.
End Scene.

Section Runs.
Context {W : Type}.
Variable now : W -> R * W.
Variable hit : W -> ray -> option isect * W.
Variable rnd1 : W -> R * W.
Variable rnd2 : W -> vec2 * W.
Hypothesis solid : solid_world hit.
Notation M := (Integrators.M (account W)).
Notation cost := (costs (W := W)).
Lemma costs_le {A} a b a' b' (m : M A) : a <= a' -> b <= b' -> cost a b m -> cost a' b' m.
Proof. intros Ha Hb H s. destruct (H s). cbv zeta in *. lia. Qed.
Lemma costs_bind {A B} a b a' b' (m : M A) (f : A -> M B) : cost a b m -> (forall x, cost a' b' (f x)) -> cost (a + a') (b + b') (bindM _ m f).
Proof.
  intros H F s. cbv zeta. destruct (H s) as (H1 & H2). unfold bindM. destruct (m s) as [[x|e| |] s1]; cbn [snd] in *; try lia. destruct (F x s1). cbv zeta in *. lia.
Qed.
Lemma costs_then {A B} a b (m : M A) (f : A -> M B) : cost 0 0 m -> (forall x, cost a b (f x)) -> cost a b (bindM _ m f).
Proof. intros H F. exact (costs_bind 0 0 a b m f H F). Qed.
Lemma costs_ret {A} (x : A) : cost 0 0 (ret (account W) x).
Proof. intros s. cbn. lia. Qed.
Lemma costs_start c : cost 0 0 (clk_start (account W) (counted_now now) c).
Proof. intros s. unfold clk_start, counted_now. destruct (now _) as [t w]. destruct (start_clock _ _ _); cbn; lia. Qed.
Lemma costs_stop c : cost 0 0 (clk_stop (account W) (counted_now now) c).
Proof. intros s. unfold clk_stop, counted_now. destruct (now _) as [t w]. destruct (end_clock _ _ _); cbn; lia. Qed.
Lemma costs_note e : cost 0 0 (note (account W) e).
Proof. intros s. cbn. lia. Qed.
Lemma costs_next1 : cost 0 1 (next1 (account W) (counted_rnd1 rnd1)).
Proof. intros s. unfold next1, counted_rnd1. destruct (rnd1 _) as [t w]. cbn. lia. Qed.
Lemma costs_next2 : cost 0 2 (next2 (account W) (counted_rnd2 rnd2)).
Proof. intros s. unfold next2, counted_rnd2. destruct (rnd2 _) as [t w]. cbn. lia. Qed.
Lemma answer r s x s' : accel_intersect (account W) (counted_now now) (counted_hit hit) r s = (x, s') ->
  a_rays (s_w _ s') <= a_rays (s_w _ s) + 1 /\ a_numbers (s_w _ s') <= a_numbers (s_w _ s) /\ forall o, x = Ok o -> forall i, o = Some i -> i_null i = false.
Proof.
  unfold accel_intersect. unfold bindM at 1. destruct (costs_start EMBREE s) as (H1 & H2). cbv zeta in *.
  destruct (clk_start _ _ EMBREE s) as [[[]|e| |] s1]; cbn [snd] in *; try (intros E; injection E as <- <-; repeat split; try lia; discriminate). unfold bindM at 1. unfold counted_hit at 1.
  destruct (hit (a_world (s_w _ s1)) r) as [o w] eqn:Ho. cbn [s_w s_clk s_log].
  set (s2 := St _ _ _ _). assert (E2 : a_rays (s_w _ s2) = S (a_rays (s_w _ s1)) /\ a_numbers (s_w _ s2) = a_numbers (s_w _ s1)) by (split; reflexivity). clearbody s2. destruct E2 as (E2 & E3).
  unfold bindM at 1. destruct (costs_stop EMBREE s2) as (H3 & H4). cbv zeta in *. destruct (clk_stop _ _ EMBREE s2) as [[[]|e| |] s3]; cbn [snd ret] in *;
    (intros E; injection E as <- <-; repeat split; try lia; try discriminate).
  intros o' E. injection E as <-. intros i ->. apply (solid (a_world (s_w _ s1)) r i). rewrite Ho. reflexivity.
Qed.
(** what is done with the answer to a ray *)
Lemma costs_ask {A} r (f : option isect -> M A) a b : (forall o, (forall i, o = Some i -> i_null i = false) -> cost a b (f o)) ->
  cost (1 + a) b (bindM _ (accel_intersect (account W) (counted_now now) (counted_hit hit) r) f).
Proof.
  intros F s. cbv zeta. unfold bindM. destruct (accel_intersect _ _ _ r s) as [x s1] eqn:E. apply answer in E as (H1 & H2 & So).
  destruct x as [o|e| |]; cbn [snd]; try lia. destruct (F o (So o eq_refl) s1). cbv zeta in *. lia.
Qed.
Lemma costs_same {A} a b (m m' : M A) : (forall s, m s = m' s) -> cost a b m -> cost a b m'.
Proof. intros E H s. rewrite <- E. apply H. Qed.
Lemma bind_assoc {A B C} (m : M A) (g : A -> M B) (f : B -> M C) s : bindM _ m (fun a => bindM _ (g a) f) s = bindM _ (bindM _ m g) f s.
Proof. unfold bindM. destruct (m s) as [[x|e| |] s1]; reflexivity. Qed.
Lemma costs_query {A B} (q : query A) (f : A -> M B) a' b' : forall a b, asks a b q -> (forall x, leaf q x -> cost a' b' (f x)) ->
  cost (a + a') (b + b') (bindM _ (run_query (account W) (counted_now now) (counted_hit hit) (counted_rnd1 rnd1) (counted_rnd2 rnd2) q) f).
Proof.
  induction q as [x|r k IH|k IH|k IH]; intros a b; cbn [asks run_query].
  - intros _ F. apply costs_le with a' b'; [lia|lia|]. exact (F x (leaf_ret _)).
  - intros (Ha & K) F. apply (costs_same _ _ _ _ (bind_assoc _ _ _)). replace (a + a') with (1 + (a - 1 + a')) by lia. apply costs_ask. intros o So. apply IH; [apply K, So|]. intros x L. apply F. econstructor; exact L.
  - intros (Ha & K) F. apply (costs_same _ _ _ _ (bind_assoc _ _ _)). apply costs_le with (0 + (a + a')) (1 + (b - 1 + b')); [lia|lia|]. apply costs_bind; [apply costs_next1|]. intros u. apply IH; [apply K|]. intros x L. apply F. econstructor; exact L.
  - intros (Ha & K) F. apply (costs_same _ _ _ _ (bind_assoc _ _ _)). apply costs_le with (0 + (a + a')) (2 + (b - 2 + b')); [lia|lia|]. apply costs_bind; [apply costs_next2|]. intros u. apply IH; [apply K|]. intros x L. apply F. econstructor; exact L.
Qed.
Lemma costs_seen {A} nn r (f : option isect -> M A) a b : (forall o, cost a b (f o)) ->
  cost (1 + a) b (bindM _ (intersect_non_null (account W) (counted_now now) (counted_hit hit) nn r) f).
Proof.
  intros F. apply costs_le with (1 + a) (0 + b); [lia|lia|]. apply costs_bind; [|exact F]. unfold intersect_non_null. apply costs_le with (1 + 0) (0 + 0); [lia|lia|]. apply costs_bind.
  - destruct nn as [|nn]; cbn [nn_loop]; [intros s; cbn; lia|]. apply (costs_ask _ _ 0 0). intros [i|] So; [rewrite (So i eq_refl)|]; apply costs_ret.
  - intros o. apply costs_then; [apply costs_note|]. intros _. apply costs_ret.
Qed.
End Runs.
