(** Calls leave alone what they do not name: definitions of other names, the names of objects,
    and the absence of a scene. *)
From Coq Require Import String List Bool Arith Lia Relations.
From Verif.Model Require Import Vec Matrix ApiTransform Api.
From Verif.Spec Require Import ApiSpec.
From Verif.Proof Require Import ApiBase ApiCalls ApiRun ApiObject ApiProof ApiClock ApiTotal.
Import ListNotations.
Open Scope list_scope.
Open Scope api_scope.

(** ---- no definition for (k, n) ---- *)
Section Undef.
Variable k : kind.
Variable n : string.
Hypothesis SP : special k n = false.
Definition uq {A} (m : M A) : Prop := forall s, undef s k n -> undef (fst (m s)) k n.

Lemma uq_bind {A B} (m : M A) (f : A -> M B) : uq m -> (forall a, uq (f a)) -> uq (bindM m f).
Proof.
  intros H1 H2 s U. unfold bindM. specialize (H1 s U).
  destruct (m s) as [s' [a|e| |]]; simpl in *; auto. now apply H2.
Qed.
Lemma uq_ret {A} (a : A) : uq (ret a). Proof. now intros s. Qed.
Lemma uq_throw {A} e : uq (@throw A e). Proof. now intros s. Qed.
Lemma uq_crash {A} : uq (@crash A). Proof. now intros s. Qed.
Lemma uq_nonnull o : uq (nonnull o). Proof. intros s. now destruct o. Qed.
Lemma uq_get p : uq (get p).
Proof. intros s. unfold get. now destruct (nth_error _ _). Qed.
Lemma uq_get_scn : uq get_scn. Proof. intros s. unfold get_scn. now destruct (scn s). Qed.
Lemma uq_set_scn x : uq (set_scn x). Proof. now intros s. Qed.
Lemma uq_get_cur : uq get_cur. Proof. now intros s. Qed.
Lemma uq_set_cur t : uq (set_cur t). Proof. now intros s. Qed.
Lemma uq_get_clk : uq get_clk. Proof. now intros s. Qed.
Lemma uq_set_clk t : uq (set_clk t). Proof. now intros s. Qed.
Lemma uq_check p e : uq (check_undef p e).
Proof. apply uq_bind; [apply uq_get|]. intros x. destruct (ndef x); [apply uq_throw|apply uq_ret]. Qed.
Lemma uq_start b : uq (start_api b).
Proof.
  unfold start_api. destruct b; [|apply uq_ret]. apply uq_bind; [apply uq_get_clk|].
  intros []; [apply uq_throw|apply uq_set_clk].
Qed.
Lemma uq_stop b : uq (stop_api b).
Proof.
  unfold stop_api. destruct b; [|apply uq_ret]. apply uq_bind; [apply uq_get_clk|].
  intros []; [apply uq_set_clk|apply uq_throw].
Qed.
Lemma undef_upd s p f :
  (forall nd, nth_error (heap s) p = Some nd -> nkind (f nd) = k -> nname (f nd) = n -> ndef (f nd) = None) ->
  undef s k n -> undef (fst (modify p f s)) k n.
Proof.
  intros H U q nd. simpl. rewrite nth_upd. destruct (Nat.eqb_spec p q) as [<-|NE]; [|apply U].
  destruct (nth_error (heap s) p) as [x|] eqn:E; [|discriminate]. simpl. intros [= <-]. now apply H.
Qed.
Lemma uq_modify p f : (forall nd, nkind (f nd) = nkind nd /\ nname (f nd) = nname nd /\ ndef (f nd) = ndef nd) ->
  uq (modify p f).
Proof.
  intros H s U. apply undef_upd; auto. intros nd E. destruct (H nd) as (-> & -> & ->). now apply (U p).
Qed.
Lemma undef_alloc s k' n' : undef s k n -> undef (fst (alloc k' n' s)) k n.
Proof.
  intros U q nd. simpl. intros E. destruct (Nat.lt_ge_cases q (length (heap s))) as [L|L].
  - rewrite nth_error_app1 in E by exact L. now apply (U q).
  - rewrite nth_error_app2 in E by exact L. destruct (q - length (heap s)); simpl in E; [|now destruct n0].
    injection E as <-. reflexivity.
Qed.
Lemma uq_find_plain k' n' : uq (find_plain k' n').
Proof.
  intros s U. unfold find_plain, find_or. destruct (lookup s k' n'); auto.
  unfold bindM. now apply undef_alloc.
Qed.
Lemma alloc_nth s k' n' : nth_error (heap (fst (alloc k' n' s))) (length (heap s)) = Some (new_node k' n').
Proof. simpl. now rewrite nth_error_app2, Nat.sub_diag by lia. Qed.
Lemma uq_find_default k' d n' : (special k' "default" = true) -> uq (find_default k' d n').
Proof.
  intros S s U. unfold find_default, find_or. destruct (lookup s k' n'); auto.
  unfold bindM at 1. change (alloc k' n' s) with (fst (alloc k' n' s), Ret (length (heap s))).
  cbv beta iota. pose proof (undef_alloc s k' n' U) as U2. pose proof (alloc_nth s k' n') as N.
  set (s2 := fst (alloc k' n' s)) in *. clearbody s2.
  destruct (String.eqb_spec n' "default") as [->|NE]; [|exact U2].
  apply (undef_upd s2 (length (heap s)) (put_def (Some d))); [|exact U2].
  intros nd E. rewrite N in E. injection E as <-. simpl. intros -> <-. congruence.
Qed.
Lemma uq_find_mat n' : uq (find_mat n').
Proof.
  intros s U. unfold find_mat, find_or. destruct (lookup s KMat n'); auto.
  unfold bindM at 1. change (alloc KMat n' s) with (fst (alloc KMat n' s), Ret (length (heap s))).
  cbv beta iota. pose proof (undef_alloc s KMat n' U) as U2. pose proof (alloc_nth s KMat n') as N.
  set (s2 := fst (alloc KMat n' s)) in *. clearbody s2.
  destruct (String.eqb_spec n' "default") as [->|NE]; [|exact U2].
  unfold bindM at 1. unfold bindM at 1. unfold find_bsdf.
  pose proof (uq_find_default KBsdf null_bsdf "default" eq_refl s2 U2) as U3.
  assert (N3 : nth_error (heap (fst (find_default KBsdf null_bsdf "default" s2))) (length (heap s)) = Some (new_node KMat "default")).
  { unfold find_default, find_or. destruct (lookup s2 KBsdf "default"); [exact N|].
    unfold bindM. simpl. rewrite nth_upd.
    destruct (Nat.eqb_spec (length (heap s2)) (length (heap s))) as [E|E].
    - assert (nth_error (heap s2) (length (heap s)) = None) by (apply nth_error_None; lia). congruence.
    - rewrite nth_error_app1; [exact N|]. apply nth_error_Some. congruence. }
  destruct (find_default KBsdf null_bsdf "default" s2) as [s3 [b|e| |]]; try exact U3.
  simpl in U3, N3. apply (undef_upd s3 (length (heap s)) (put_def (Some (simple_material b)))); [|exact U3].
  intros nd E. rewrite N3 in E. injection E as <-. simpl. intros <- <-. discriminate SP.
Qed.
Lemma uq_unless b m : uq m -> uq (unless b m).
Proof. intros H. destruct b; [apply uq_ret|]. apply uq_bind; auto. intros; apply uq_ret. Qed.
Lemma uq_add_emitter p t : uq (add_emitter p t).
Proof.
  apply uq_bind; [apply uq_get_scn|]. intros x. 
  repeat match goal with |- uq (if ?b then _ else _) => destruct b end; intros s U; exact U.
Qed.
End Undef.

Ltac uq_tac SP :=
  repeat first
  [ apply uq_bind; [|intros]
  | apply uq_ret | apply uq_throw | apply uq_crash | apply uq_nonnull | apply uq_get
  | apply uq_get_scn | apply uq_set_scn | apply uq_get_clk | apply uq_set_clk
  | apply uq_get_cur | apply uq_set_cur | apply uq_find_plain | apply (uq_find_default _ _ SP); reflexivity
  | apply (uq_find_mat _ _ SP) | apply uq_check | apply uq_unless | apply uq_start | apply uq_stop
  | apply uq_add_emitter
  | apply uq_modify; intros; simpl; now auto
  | match goal with
    | |- uq _ _ (if ?b then _ else _) => destruct b
    | |- uq _ _ (match ?o with Some _ => _ | None => _ end) => destruct o
    end ].

Section Config.
Variable clocking : bool.
Section Key.
Variable k : kind.
Variable n : string.
Hypothesis SP : special k n = false.
Notation und s := (undef s k n).

Lemma uq_boundary i o : uq k n (boundary i o).
Proof. unfold boundary, find_media. uq_tac SP. Qed.
Lemma uq_object_rec fuel : forall name mesh mat em i, uq k n (fr_object_rec clocking fuel name mesh mat em i).
Proof.
  induction fuel as [|fuel IH]; intros; cbn [fr_object_rec]; [intros s U; exact U|].
  unfold find_emitter. cbv zeta. uq_tac SP. apply IH.
Qed.

Lemma ud_find {A} (m : M A) k' n' w (f : A -> M unit) s :
  finds m k' n' w -> wf s -> und s ->
  (forall s' a, same s s' -> wf s' -> und s' -> fopt s' k' n' (w a) -> und (fst (f a s'))) ->
  und (fst (bindM m f s)).
Proof.
  intros F W U H. destruct (F s W) as (s' & a & E & S & O).
  unfold bindM. rewrite E. apply H; auto; [eapply steps_wf; [apply S|auto]|]. eapply undef_same; eauto.
Qed.
Lemma ud_seq {A} (m : M A) (f : A -> M unit) s : wf s -> und s -> uq k n m -> (forall s' r, m s = (s', r) -> same s s') ->
  (forall s' a, same s s' -> wf s' -> und s' -> und (fst (f a s'))) -> und (fst (bindM m f s)).
Proof.
  intros W U Q S H. unfold bindM. specialize (Q s U). destruct (m s) as [s' [a|e| |]] eqn:E; try exact Q.
  pose proof (S _ _ eq_refl) as SM. apply H; auto. eapply steps_wf; [apply SM|exact W].
Qed.
Lemma ud_set p d k' n' (f : unit -> M unit) s : (k', n') <> (k, n) -> fopt s k' n' (Some p) -> und s ->
  (forall a, uq k n (f a)) -> und (fst (bindM (set_def p d) f s)).
Proof.
  intros NE (x & Hx & K & N) U Q. unfold bindM, set_def.
  assert (und (fst (modify p (put_def (Some d)) s))) as U2.
  { apply undef_upd; auto. intros nd E. rewrite Hx in E. injection E as <-. simpl. congruence. }
  now apply Q.
Qed.
Lemma ud_start (f : unit -> M unit) s : wf s -> und s ->
  (forall s', wf s' -> und s' -> und (fst (f tt s'))) -> und (fst (bindM (start_api clocking) f s)).
Proof.
  intros W U H. unfold start_api. destruct clocking; [|now apply H].
  unfold bindM, get_clk. destruct (clk s); [exact U|]. cbn. apply H; [|exact U].
  eapply step_wf; [apply St_misc|exact W].
Qed.
Lemma ud_check p e (f : unit -> M unit) s : und s -> und (fst (f tt s)) -> und (fst (bindM (check_undef p e) f s)).
Proof.
  intros U H. unfold bindM, check_undef, get. unfold bindM. destruct (nth_error (heap s) p) as [x|]; [|exact U].
  destruct (ndef x); [exact U|exact H].
Qed.
Lemma ud_nonnull o k' n' (f : ptr -> M unit) s : fopt s k' n' o -> und s ->
  (forall p, o = Some p -> und (fst (f p s))) -> und (fst (bindM (nonnull o) f s)).
Proof. intros F U H. destruct o; [now apply H|exact U]. Qed.
End Key.

Ltac ucarry SM :=
  repeat match type of SM with same ?a ?b =>
    match goal with F : fopt a _ _ _ |- _ => apply (fopt_same _ _ _ _ _ SM) in F end end.
Ltac ufind p := repeat rewrite bind_assoc; eapply ud_find; [eassumption|find_tac|eassumption|eassumption|];
  let SM := fresh "SM" in intros ? p SM ? ? ?; ucarry SM.
Ltac ustart := eapply ud_start; [eassumption|eassumption|]; intros ? ? ?.
Ltac ucheck := repeat rewrite bind_assoc; apply ud_check; [eassumption|].
Ltac uset SP := repeat rewrite bind_assoc; eapply ud_set; [eassumption|eassumption|eassumption|]; intros; uq_tac SP.
Ltac unon := repeat rewrite bind_assoc; eapply ud_nonnull; [eassumption|eassumption|]; intros ? ->.
Ltac uthrow := assumption.

Lemma ud_simple k n fnd k' n' dup bad types t d s : special k n = false -> (k', n') <> (k, n) ->
  finds fnd k' n' (fun o => o) -> wf s -> undef s k n ->
  undef (fst (fr_simple clocking fnd dup bad types t d s)) k n.
Proof.
  intros SP NE F W U. unfold fr_simple. ustart.
  eapply ud_find; [eassumption|exact F|eassumption|eassumption|]. intros s2 p SM W2 U2 F2.
  unon. ucheck. destruct (one_of t types); [uset SP|exact U2].
Qed.

Lemma ud_boundary k n i o (f : list (option ptr) -> M unit) s p k' n' : special k n = false -> wf s -> undef s k n ->
  fopt s k' n' (Some p) ->
  (forall s' l, wf s' -> undef s' k n -> fopt s' k' n' (Some p) -> undef (fst (f l s')) k n) ->
  undef (fst (bindM (boundary i o) f s)) k n.
Proof.
  intros SP W U F H. unfold boundary.
  destruct (negb (String.eqb i "null") || negb (String.eqb o "null")).
  - ufind a. ufind b. now apply H.
  - unfold ret, bindM. now apply H.
Qed.

Lemma ud_boundary_set k n i o p (g : list (option ptr) -> payload) k' n' s : special k n = false -> (k', n') <> (k, n) ->
  wf s -> undef s k n -> fopt s k' n' (Some p) ->
  undef (fst (bindM (bindM (boundary i o) (fun b => set_def p (g b))) (fun _ => stop_api clocking) s)) k n.
Proof.
  intros SP NE W U F. rewrite bind_assoc. eapply ud_boundary; eauto. intros s' l W' U' F'. uset SP.
Qed.

Lemma call_undef c s k n : wf s -> reserved k n = false ->
  (forall t d, defines c <> Some (k, n, t, d)) ->
  undef s k n -> undef (fst (run_call clocking c s)) k n.
Proof.
  intros W RS ND U. rewrite reserved_special in RS. rename RS into SP.
  assert (KEY : forall k' n' t d, defines c = Some (k', n', t, d) -> (k', n') <> (k, n))
    by (intros k' n' t d E [= -> ->]; now apply (ND t d)).
  clear ND. destruct c; cbn [run_call defines] in *;
    try (assert (NE := KEY _ _ _ _ eq_refl)).
  - unfold fr_accel. revert s W U. intros s _. revert s. change (uq k n (fr_accel clocking ty)). unfold fr_accel. uq_tac SP.
  - revert s W U. intros s _. revert s. change (uq k n (fr_scene clocking integ samp cam med)). unfold fr_scene, find_media. uq_tac SP.
    intros s U. now destruct (scn s).
  - unfold fr_integrator. ustart. ufind p. ufind q. ucheck. destruct (one_of _ _); [uset SP|uthrow].
  - unfold fr_sampler. ustart. ufind p. ucheck. destruct (String.eqb _ _); [uset SP|uthrow].
  - unfold fr_camera. ustart. ufind p. ucheck. destruct (String.eqb _ _); [uset SP|uthrow].
  - apply uq_object_rec; auto.
  - unfold fr_mesh. ustart. ufind p. ucheck.
    destruct (String.eqb ty "triangle_mesh"). { ufind g. cbv beta. eapply ud_boundary_set; eauto. }
    destruct (String.eqb ty "grid"). { ufind g. ufind x. uset SP. }
    destruct (one_of _ _); [|uthrow]. eapply ud_boundary_set; eauto.
  - unfold fr_shader. ustart. destruct (String.eqb_spec ty "interp_verts_to_sphere") as [->|N1].
    + ufind p. ucheck. uset SP.
    + destruct (String.eqb ty "simple_material"); [ufind p; ucheck; ufind b; uset SP|].
      destruct (String.eqb ty "wireframe"); [ufind p; ucheck; ufind b; ufind b'; uset SP|uthrow].
  - unfold fr_media. ustart. ufind p. unon. ucheck.
    ufind q1. ufind q2. ufind q3. ufind q4. ufind q5. uset SP.
  - eapply ud_simple; eauto. apply find_density_ok.
  - revert s W U. intros s _. revert s. change (uq k n (fr_phase clocking)). unfold fr_phase. uq_tac SP.
  - eapply ud_simple; eauto. apply find_med_samp_ok.
  - eapply ud_simple; eauto. apply find_trans_est_ok.
  - eapply ud_simple; eauto. apply find_trans_func_ok.
  - unfold fr_emitter. ustart. ufind p. unon. ucheck.
    destruct (one_of _ _); [uset SP|]. destruct (String.eqb ty "environment"); [|uthrow].
    ufind x. cbv beta. uset SP.
  - unfold fr_bsdf. ustart. ufind p. ucheck.
    destruct (String.eqb_spec ty "null") as [->|N0].
    + cbn [one_of existsb String.eqb Ascii.eqb Bool.eqb orb].
      match goal with |- undef (fst (_ ?x)) _ _ => enough (Q : uq k n (fun z => (modify p (put_def None);; stop_api clocking) z)) by (apply (Q x); assumption) end.
      apply uq_bind; [|intros; uq_tac SP]. intros x Ux. apply undef_upd; auto.
    + pose proof (KEY _ _ _ _ eq_refl) as NE. destruct (one_of _ _); [uset SP|uthrow].
  - eapply ud_simple; eauto. apply find_texture_ok.
  - revert s W U. intros s _. revert s. change (uq k n (fr_transform clocking c)). unfold fr_transform. uq_tac SP.
Qed.
End Config.

(** ---- no object named n ---- *)
Section Absent.
Variable n : string.
Definition absent (s : api) : Prop :=
  forall p nd, nth_error (heap s) p = Some nd -> nkind nd = KObject -> nname nd <> n.
Definition aq {A} (m : M A) : Prop := forall s, absent s -> absent (fst (m s)).
Lemma aq_bind {A B} (m : M A) (f : A -> M B) : aq m -> (forall a, aq (f a)) -> aq (bindM m f).
Proof.
  intros H1 H2 s U. unfold bindM. specialize (H1 s U).
  destruct (m s) as [s' [a|e| |]]; simpl in *; auto. now apply H2.
Qed.
Lemma aq_ret {A} (a : A) : aq (ret a). Proof. now intros s. Qed.
Lemma aq_throw {A} e : aq (@throw A e). Proof. now intros s. Qed.
Lemma aq_crash {A} : aq (@crash A). Proof. now intros s. Qed.
Lemma aq_nonnull o : aq (nonnull o). Proof. intros s. now destruct o. Qed.
Lemma aq_get p : aq (get p).
Proof. intros s. unfold get. now destruct (nth_error _ _). Qed.
Lemma aq_get_scn : aq get_scn. Proof. intros s. unfold get_scn. now destruct (scn s). Qed.
Lemma aq_set_scn x : aq (set_scn x). Proof. now intros s. Qed.
Lemma aq_get_cur : aq get_cur. Proof. now intros s. Qed.
Lemma aq_set_cur t : aq (set_cur t). Proof. now intros s. Qed.
Lemma aq_get_clk : aq get_clk. Proof. now intros s. Qed.
Lemma aq_set_clk t : aq (set_clk t). Proof. now intros s. Qed.
Lemma aq_check p e : aq (check_undef p e).
Proof. apply aq_bind; [apply aq_get|]. intros x. destruct (ndef x); [apply aq_throw|apply aq_ret]. Qed.
Lemma aq_start b : aq (start_api b).
Proof.
  unfold start_api. destruct b; [|apply aq_ret]. apply aq_bind; [apply aq_get_clk|].
  intros []; [apply aq_throw|apply aq_set_clk].
Qed.
Lemma aq_stop b : aq (stop_api b).
Proof.
  unfold stop_api. destruct b; [|apply aq_ret]. apply aq_bind; [apply aq_get_clk|].
  intros []; [apply aq_set_clk|apply aq_throw].
Qed.
Lemma aq_modify p f : (forall nd, nkind (f nd) = nkind nd /\ nname (f nd) = nname nd) -> aq (modify p f).
Proof.
  intros H s U q nd. simpl. rewrite nth_upd. destruct (Nat.eqb_spec p q) as [<-|NE]; [|apply U].
  destruct (nth_error (heap s) p) as [x|] eqn:E; [|discriminate]. simpl. intros [= <-].
  destruct (H x) as [-> ->]. now apply (U p).
Qed.
Lemma aq_set_def p d : aq (set_def p d). Proof. now apply aq_modify. Qed.
Lemma aq_alloc k' n' : (k', n') <> (KObject, n) -> aq (alloc k' n').
Proof.
  intros NE s U q nd. simpl. intros E. destruct (Nat.lt_ge_cases q (length (heap s))) as [L|L].
  - rewrite nth_error_app1 in E by exact L. now apply (U q).
  - rewrite nth_error_app2 in E by exact L. destruct (q - length (heap s)); simpl in E; [|now destruct n0].
    injection E as <-. simpl. congruence.
Qed.
Lemma aq_find_or k' n' f : (k', n') <> (KObject, n) -> (forall p, aq (f p)) -> aq (find_or k' n' f).
Proof.
  intros NE H s U. unfold find_or. destruct (lookup s k' n'); auto.
  apply (aq_bind (alloc k' n')); auto using aq_alloc. intros p. apply aq_bind; auto. intros; apply aq_ret.
Qed.
Lemma aq_find_plain k' n' : (k', n') <> (KObject, n) -> aq (find_plain k' n').
Proof. intros NE. apply aq_find_or; auto. intros; apply aq_ret. Qed.
Lemma aq_find_default k' d n' : (k', n') <> (KObject, n) -> aq (find_default k' d n').
Proof.
  intros NE. apply aq_find_or; auto. intros. destruct (String.eqb n' "default"); [apply aq_set_def|apply aq_ret].
Qed.
Lemma aq_find_mat n' : aq (find_mat n').
Proof.
  apply aq_find_or; [congruence|]. intros. destruct (String.eqb n' "default"); [|apply aq_ret].
  apply aq_bind; [apply aq_find_default; congruence|intros; apply aq_set_def].
Qed.
Lemma aq_unless b m : aq m -> aq (unless b m).
Proof. intros H. destruct b; [apply aq_ret|]. apply aq_bind; auto. intros; apply aq_ret. Qed.
Lemma aq_add_emitter p t : aq (add_emitter p t).
Proof.
  apply aq_bind; [apply aq_get_scn|]. intros x.
  repeat match goal with |- aq (if ?b then _ else _) => destruct b end; intros s U; exact U.
Qed.
End Absent.

Ltac aq_tac :=
  repeat first
  [ apply aq_bind; [|intros]
  | apply aq_ret | apply aq_throw | apply aq_crash | apply aq_nonnull | apply aq_get
  | apply aq_get_scn | apply aq_set_scn | apply aq_get_clk | apply aq_set_clk
  | apply aq_get_cur | apply aq_set_cur | apply aq_find_plain; congruence | apply aq_find_default; congruence
  | apply aq_find_mat | apply aq_check | apply aq_unless | apply aq_start | apply aq_stop
  | apply aq_add_emitter | apply aq_set_def
  | apply aq_modify; intros; simpl; now auto
  | match goal with
    | |- aq _ (if ?b then _ else _) => destruct b
    | |- aq _ (match ?o with Some _ => _ | None => _ end) => destruct o
    end ].

Lemma clocked_object_again fuel name mesh mat em i s : clk s = true ->
  fst (fr_object_rec true fuel name mesh mat em i s) = s.
Proof.
  intros C. destruct fuel; [reflexivity|]. cbn [fr_object_rec]. unfold start_api, bindM, get_clk. now rewrite C.
Qed.

Lemma call_absent c s n : (forall m a e, c <> FrObject n m a e) -> absent n s ->
  absent n (fst (run_call true c s)).
Proof.
  intros NO. destruct c; cbn [run_call];
    try (match goal with |- _ -> absent ?n (fst (?f ?s)) => enough (Q : aq n f) by apply (Q s) end;
      unfold fr_accel, fr_scene, fr_integrator, fr_sampler, fr_camera, fr_mesh, fr_shader,
        fr_media, fr_density, fr_med_samp, fr_trans_est, fr_trans_func, fr_texture, fr_simple,
        fr_emitter, fr_bsdf, fr_transform, fr_phase, boundary, find_media, find_bsdf, find_filter, find_phase,
        find_med_samp, find_trans_est, find_trans_func, find_emitter, find_texture, find_density; aq_tac; fail).
  - match goal with |- _ -> absent ?n (fst (?f ?s)) => enough (Q : aq n f) by apply (Q s) end.
    unfold fr_scene, find_media. aq_tac. intros z. now destruct (scn z).
  - unfold fr_object. intros U. generalize (S (length (reg s))) as fuel. intros fuel. cbn [fr_object_rec]. unfold start_api at 1. unfold bindM at 1. unfold bindM at 1, get_clk at 1.
    destruct (clk s) eqn:C; [exact U|]. unfold set_clk at 1. cbv beta iota.
    set (z := Api _ _ _ _ _). assert (Uz : absent n z) by exact U. assert (Cz : clk z = true) by reflexivity. clearbody z.
    assert (NE : (KObject, index_name name None) <> (KObject, n)).
    { simpl. intros [= <-]. eapply NO. reflexivity. }
    cbv zeta. unfold bindM at 1.
    pose proof (aq_find_plain n KObject (index_name name None) NE z Uz) as U2.
    pose proof (kc_find_plain KObject (index_name name None) z) as C2.
    destruct (find_plain KObject (index_name name None) z) as [z2 [o|e| |]]; try exact U2. simpl in U2, C2.
    unfold bindM at 1. unfold get at 1. destruct (nth_error (heap z2) o) as [nd|]; [|exact U2].
    destruct (omesh nd).
    + rewrite clocked_object_again; [exact U2|congruence].
    + match goal with |- absent ?n (fst (?f ?s)) => enough (Q : aq n f) by apply (Q s U2) end.
      unfold find_emitter. aq_tac.
Qed.

(** ---- no scene yet ---- *)
Definition nosc {A} (m : M A) : Prop := forall s, scn s = None -> scn (fst (m s)) = None.
Lemma nosc_bind {A B} (m : M A) (f : A -> M B) : nosc m -> (forall a, nosc (f a)) -> nosc (bindM m f).
Proof.
  intros H1 H2 s U. unfold bindM. specialize (H1 s U).
  destruct (m s) as [s' [a|e| |]]; simpl in *; auto. now apply H2.
Qed.
Lemma nosc_ret {A} (a : A) : nosc (ret a). Proof. now intros s. Qed.
Lemma nosc_throw {A} e : nosc (@throw A e). Proof. now intros s. Qed.
Lemma nosc_crash {A} : nosc (@crash A). Proof. now intros s. Qed.
Lemma nosc_nonnull o : nosc (nonnull o). Proof. intros s. now destruct o. Qed.
Lemma nosc_get p : nosc (get p).
Proof. intros s. unfold get. now destruct (nth_error _ _). Qed.
Lemma nosc_scn {A} (f : scene -> M A) : nosc (bindM get_scn f).
Proof. intros s H. unfold bindM, get_scn. now rewrite H. Qed.
Lemma nosc_get_cur : nosc get_cur. Proof. now intros s. Qed.
Lemma nosc_set_cur t : nosc (set_cur t). Proof. now intros s. Qed.
Lemma nosc_get_clk : nosc get_clk. Proof. now intros s. Qed.
Lemma nosc_set_clk t : nosc (set_clk t). Proof. now intros s. Qed.
Lemma nosc_check p e : nosc (check_undef p e).
Proof. apply nosc_bind; [apply nosc_get|]. intros x. destruct (ndef x); [apply nosc_throw|apply nosc_ret]. Qed.
Lemma nosc_start b : nosc (start_api b).
Proof.
  unfold start_api. destruct b; [|apply nosc_ret]. apply nosc_bind; [apply nosc_get_clk|].
  intros []; [apply nosc_throw|apply nosc_set_clk].
Qed.
Lemma nosc_stop b : nosc (stop_api b).
Proof.
  unfold stop_api. destruct b; [|apply nosc_ret]. apply nosc_bind; [apply nosc_get_clk|].
  intros []; [apply nosc_set_clk|apply nosc_throw].
Qed.
Lemma nosc_modify p f : nosc (modify p f). Proof. now intros s. Qed.
Lemma nosc_set_def p f : nosc (set_def p f). Proof. now intros s. Qed.
Lemma nosc_find_or k n f : (forall p, nosc (f p)) -> nosc (find_or k n f).
Proof.
  intros H s U. unfold find_or. destruct (lookup s k n); auto.
  apply (nosc_bind (alloc k n)); auto. { now intros z. }
  intros p. apply nosc_bind; auto. intros; apply nosc_ret.
Qed.
Lemma nosc_find_plain k n : nosc (find_plain k n).
Proof. apply nosc_find_or. intros; apply nosc_ret. Qed.
Lemma nosc_find_default k d n : nosc (find_default k d n).
Proof. apply nosc_find_or. intros. destruct (String.eqb n "default"); [apply nosc_set_def|apply nosc_ret]. Qed.
Lemma nosc_find_mat n : nosc (find_mat n).
Proof.
  apply nosc_find_or. intros. destruct (String.eqb n "default"); [|apply nosc_ret].
  apply nosc_bind; [apply nosc_find_default|intros; apply nosc_set_def].
Qed.
Lemma nosc_unless b m : nosc m -> nosc (unless b m).
Proof. intros H. destruct b; [apply nosc_ret|]. apply nosc_bind; auto. intros; apply nosc_ret. Qed.

Ltac nosc_tac :=
  repeat first
  [ apply nosc_scn
  | apply nosc_bind; [|intros]
  | apply nosc_ret | apply nosc_throw | apply nosc_crash | apply nosc_nonnull | apply nosc_get
  | apply nosc_get_clk | apply nosc_set_clk
  | apply nosc_get_cur | apply nosc_set_cur | apply nosc_find_plain | apply nosc_find_default
  | apply nosc_find_mat | apply nosc_check | apply nosc_unless | apply nosc_start | apply nosc_stop
  | apply nosc_set_def | apply nosc_modify
  | match goal with
    | |- nosc (if ?b then _ else _) => destruct b
    | |- nosc (match ?o with Some _ => _ | None => _ end) => destruct o
    end ].

Lemma nosc_object_rec b fuel : forall name mesh mat em i, nosc (fr_object_rec b fuel name mesh mat em i).
Proof.
  induction fuel as [|fuel IH]; intros; cbn [fr_object_rec]; [now intros s|].
  unfold find_emitter. cbv zeta. nosc_tac. apply IH.
Qed.
Lemma call_no_scene b c s : (forall i sa ca m, c <> FrScene i sa ca m) -> scn s = None ->
  scn (fst (run_call b c s)) = None.
Proof.
  intros NS. match goal with |- _ -> scn (fst (?f ?s)) = None => enough (Q : nosc f) by apply (Q s) end.
  destruct c; cbn [run_call]; try (exfalso; eapply NS; reflexivity); try (intros z Hz; now apply nosc_object_rec);
    unfold fr_accel, fr_integrator, fr_sampler, fr_camera, fr_mesh, fr_shader,
        fr_media, fr_density, fr_med_samp, fr_trans_est, fr_trans_func, fr_texture, fr_simple,
        fr_emitter, fr_bsdf, fr_transform, fr_phase, boundary, find_media, find_bsdf, find_filter, find_phase,
        find_med_samp, find_trans_est, find_trans_func, find_emitter, find_texture, find_density, add_emitter; nosc_tac.
Qed.

(** ---- the other calls succeed ---- *)
Lemma transform_succeeds b c s : (b = true -> clk s = false) ->
  exists s', run_call b (FrTransform c) s = (s', Ret tt) /\ cur s' = tstep (cur s) c /\ heap s' = heap s /\ scn s' = scn s.
Proof.
  intros C. cbn [run_call]. unfold fr_transform, start_api, stop_api. destruct b.
  - unfold bindM, get_clk, set_clk, get_cur, set_cur. rewrite C by reflexivity. simpl. eexists. repeat split.
  - unfold bindM, ret, get_cur, set_cur. simpl. eexists. repeat split.
Qed.
Lemma accel_succeeds b t s : (b = true -> clk s = false) -> scn s <> None -> one_of t ["light_naive"; "light_spatial"]%string = true ->
  tot (run_call b (FrAccel t) s).
Proof.
  intros C N T. cbn [run_call]. unfold fr_accel, start_api, stop_api. rewrite T.
  destruct (scn s) as [x|] eqn:E; [|congruence]. destruct b.
  - unfold bindM, get_clk, set_clk, get_scn, set_scn. rewrite C by reflexivity. simpl. rewrite E. simpl. eexists; reflexivity.
  - unfold bindM, ret, get_scn, set_scn. rewrite E. simpl. eexists; reflexivity.
Qed.
Lemma scene_succeeds b i sa ca m s : wf s -> (b = true -> clk s = false) -> scn s = None ->
  tot (run_call b (FrScene i sa ca m) s).
Proof.
  intros W C N. cbn [run_call]. unfold fr_scene.
  apply tot_start; auto. intros s1 W1 Hh Hs R1. rewrite <- Hs in N. unfold bindM at 1. rewrite N. cbv beta iota.
  repeat (eapply tot_find; [find_tac|eassumption|]; let SM := fresh "SM" in let p := fresh "p" in intros ? p SM ? _;
    match goal with H : running _ _ |- _ => apply (running_same _ _ _ SM) in H end).
  destruct (String.eqb m "").
  - unfold bindM at 1, ret at 1, set_scn, bindM. apply tot_stop. assumption.
  - eapply tot_find; [find_tac|eassumption|]. intros ? x SMx ? _. apply (running_same _ _ _ SMx) in R1.
    unfold set_scn, bindM. apply tot_stop. exact R1.
Qed.
