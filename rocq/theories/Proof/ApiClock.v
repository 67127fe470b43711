(** The API clock: what an exception leaves behind, and which calls succeed. *)
From Coq Require Import String List Bool Arith Lia Relations.
From Verif.Model Require Import Vec Matrix ApiTransform Api.
From Verif.Spec Require Import ApiSpec.
From Verif.Proof Require Import ApiBase ApiCalls ApiRun ApiObject ApiProof.
Import ListNotations.
Open Scope list_scope.
Open Scope api_scope.

(** code that does not touch the clock *)
Definition kc {A} (m : M A) : Prop := forall s, clk (fst (m s)) = clk s.

Lemma kc_bind {A B} (m : M A) (f : A -> M B) : kc m -> (forall a, kc (f a)) -> kc (bindM m f).
Proof.
  intros H1 H2 s. unfold bindM. specialize (H1 s).
  destruct (m s) as [s' [a|e| |]]; simpl in *; auto. now rewrite H2.
Qed.
Lemma kc_ret {A} (a : A) : kc (ret a). Proof. now intros s. Qed.
Lemma kc_throw {A} e : kc (@throw A e). Proof. now intros s. Qed.
Lemma kc_crash {A} : kc (@crash A). Proof. now intros s. Qed.
Lemma kc_nonnull o : kc (nonnull o). Proof. intros s. now destruct o. Qed.
Lemma kc_get p : kc (get p).
Proof. intros s. unfold get. now destruct (nth_error _ _). Qed.
Lemma kc_modify p f : kc (modify p f). Proof. now intros s. Qed.
Lemma kc_set_def p f : kc (set_def p f). Proof. now intros s. Qed.
Lemma kc_alloc k n : kc (alloc k n). Proof. now intros s. Qed.
Lemma kc_find_or k n f : (forall p, kc (f p)) -> kc (find_or k n f).
Proof.
  intros H s. unfold find_or. destruct (lookup s k n); auto.
  apply (kc_bind (alloc k n)); [apply kc_alloc|]. intros p. apply kc_bind; auto.
  intros _. apply kc_ret.
Qed.
Lemma kc_get_scn : kc get_scn. Proof. intros s. unfold get_scn. now destruct (scn s). Qed.
Lemma kc_set_scn x : kc (set_scn x). Proof. now intros s. Qed.
Lemma kc_get_cur : kc get_cur. Proof. now intros s. Qed.
Lemma kc_set_cur t : kc (set_cur t). Proof. now intros s. Qed.
Lemma kc_find_plain k n : kc (find_plain k n).
Proof. apply kc_find_or. intros. apply kc_ret. Qed.
Lemma kc_find_default k d n : kc (find_default k d n).
Proof. apply kc_find_or. intros. destruct (String.eqb n "default"); [apply kc_set_def|apply kc_ret]. Qed.
Lemma kc_find_mat n : kc (find_mat n).
Proof.
  apply kc_find_or. intros. destruct (String.eqb n "default"); [|apply kc_ret].
  apply kc_bind; [apply kc_find_default|intros; apply kc_set_def].
Qed.
Lemma kc_unless b m : kc m -> kc (unless b m).
Proof. intros H. destruct b; [apply kc_ret|]. apply kc_bind; auto. intros; apply kc_ret. Qed.
Lemma kc_check p e : kc (check_undef p e).
Proof. apply kc_bind; [apply kc_get|]. intros n. destruct (ndef n); [apply kc_throw|apply kc_ret]. Qed.

Ltac kc_tac :=
  repeat first
  [ apply kc_bind; [|intros]
  | apply kc_ret | apply kc_throw | apply kc_crash | apply kc_nonnull | apply kc_get
  | apply kc_modify | apply kc_set_def | apply kc_get_scn | apply kc_set_scn
  | apply kc_get_cur | apply kc_set_cur | apply kc_find_plain | apply kc_find_default
  | apply kc_find_mat | apply kc_check | apply kc_unless
  | match goal with
    | |- kc (if ?b then _ else _) => destruct b
    | |- kc (match ?o with Some _ => _ | None => _ end) => destruct o
    end ].

Lemma kc_add_emitter p t : kc (add_emitter p t).
Proof. unfold add_emitter. kc_tac. Qed.
Lemma kc_boundary i o : kc (boundary i o).
Proof. unfold boundary, find_media. kc_tac. Qed.

(** an exit of a clocked call: exceptions leave the API clock running *)
Definition leaves_running (x : api * exit unit) : Prop :=
  match x with
  | (s', Ret _) => clk s' = false
  | (s', Exn _) => clk s' = true
  | _ => True
  end.

(** code that is entered with the clock running and ends by stopping it *)
Definition lr (m : M unit) : Prop := forall s, clk s = true -> leaves_running (m s).

Lemma lr_bind {A} (m : M A) f : kc m -> (forall a, lr (f a)) -> lr (bindM m f).
Proof.
  intros K H s C. unfold bindM. specialize (K s).
  destruct (m s) as [s' [a|e| |]]; simpl in *; auto; [|congruence].
  apply H. congruence.
Qed.
Lemma lr_stop : lr (stop_api true).
Proof. intros s C. unfold stop_api, bindM, get_clk. rewrite C. reflexivity. Qed.
Lemma lr_throw e : lr (throw e). Proof. intros s C. exact C. Qed.
Lemma lr_start f s : lr (f tt) -> leaves_running (bindM (start_api true) f s).
Proof.
  intros L. unfold start_api, bindM, get_clk. simpl. destruct (clk s) eqn:C; simpl; auto.
Qed.

Lemma object_rec_clk fuel : forall name mesh mat em idx s,
  leaves_running (fr_object_rec true fuel name mesh mat em idx s).
Proof.
  induction fuel as [|fuel IH]; intros; [exact I|].
  cbn [fr_object_rec]. apply lr_start. cbv zeta.
  apply lr_bind; [apply kc_find_plain|intros o]. apply lr_bind; [apply kc_get|intros n].
  destruct (omesh n).
  - intros z _. apply IH.
  - repeat first [apply lr_stop | apply lr_bind; [unfold find_emitter; kc_tac|intros ?]].
Qed.

Lemma kc_scn_check e : kc (fun s => match scn s with
    | Some _ => (s, Exn e) | None => (s, Ret tt) end).
Proof. intros s. now destruct (scn s). Qed.

Lemma call_clk c s : leaves_running (run_call true c s).
Proof.
  destruct c; cbn [run_call]; try apply object_rec_clk;
    unfold fr_accel, fr_scene, fr_integrator, fr_sampler, fr_camera, fr_mesh, fr_shader,
      fr_media, fr_density, fr_med_samp, fr_trans_est, fr_trans_func, fr_texture, fr_simple,
      fr_emitter, fr_bsdf, fr_transform, fr_phase; apply lr_start;
  repeat first
    [ apply lr_stop | apply lr_throw
    | apply lr_bind;
      [unfold find_emitter, find_media, find_texture, find_density, find_phase,
         find_med_samp, find_trans_est, find_trans_func, find_bsdf, find_filter, boundary;
       repeat first [progress kc_tac | apply kc_scn_check | apply kc_add_emitter
                    | unfold find_media]
      |intros ?] ].
Qed.

(** with the clock running every call fails at once and changes nothing *)
Lemma running_fails c s : clk s = true ->
  run_call true c s = (s, Exn "api already active"%string).
Proof.
  intros C.
  assert (H : forall f : unit -> M unit,
            bindM (start_api true) f s = (s, Exn "api already active"%string)).
  { intros f. unfold start_api, bindM, get_clk. now rewrite C. }
  destruct c; try apply H.
Qed.

Lemma running_history h : forall s, clk s = true ->
  run true h s = Some (s, map (fun _ => Exn "api already active"%string) h).
Proof.
  induction h as [|c h IH]; intros s C; [reflexivity|].
  cbn [run map]. rewrite (running_fails c s C), (IH s C). reflexivity.
Qed.

Lemma running_flush o e m s : clk s = true ->
  flush true o e m s = Exn "api already active"%string.
Proof. intros C. unfold flush. now rewrite C. Qed.

(** in a history whose calls all succeeded the clock is stopped *)
Lemma clean_stopped h : forall s z l, clk s = false -> run true h s = Some (z, l) ->
  Forall (fun r => r = Ret tt) l -> clk z = false.
Proof.
  induction h as [|c h IH]; intros s z l C H F.
  - now injection H as <- <-.
  - apply run_cons in H as (s' & r & l' & E & -> & H & _).
    inversion F; subst. pose proof (call_clk c s) as L. rewrite E in L. eapply IH; eauto.
Qed.
