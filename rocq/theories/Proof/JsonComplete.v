(** Which definitions and names a scene file leaves behind, and when the scene can be handed over. *)
From Coq Require Import String List Bool Arith Lia Relations Permutation.
From Verif.Base Require Import Outcome.
From Verif.Model Require Import Vec Matrix ApiTransform Api Json.
From Verif.Spec Require Import ApiSpec JsonSpec.
From Verif.Proof Require Import ApiBase ApiCalls ApiRun ApiObject ApiProof ApiClock ApiTotal ApiNew ApiFlush JsonProof JsonLoad.
Import ListNotations.
Open Scope string_scope.
Open Scope list_scope.
Open Scope api_scope.

(** ---- no node of kind k named n ---- *)
Section Absent.
Variable k : kind.
Variable n : string.
Hypothesis K3 : k = KMesh \/ k = KEmitter \/ k = KMedia.
Definition missing (s : api) : Prop :=
  forall p nd, nth_error (heap s) p = Some nd -> nkind nd = k -> nname nd <> n.
Definition mq {A} (m : M A) : Prop := forall s, missing s -> missing (fst (m s)).
Lemma mq_bind {A B} (m : M A) (f : A -> M B) : mq m -> (forall a, mq (f a)) -> mq (bindM m f).
Proof.
  intros H1 H2 s U. unfold bindM. specialize (H1 s U).
  destruct (m s) as [s' [a|e| |]]; simpl in *; auto. now apply H2.
Qed.
Lemma mq_ret {A} (a : A) : mq (ret a). Proof. now intros s. Qed.
Lemma mq_throw {A} e : mq (@throw A e). Proof. now intros s. Qed.
Lemma mq_crash {A} : mq (@crash A). Proof. now intros s. Qed.
Lemma mq_nonnull o : mq (nonnull o). Proof. intros s. now destruct o. Qed.
Lemma mq_get p : mq (get p).
Proof. intros s. unfold get. now destruct (nth_error _ _). Qed.
Lemma mq_get_scn : mq get_scn. Proof. intros s. unfold get_scn. now destruct (scn s). Qed.
Lemma mq_set_scn x : mq (set_scn x). Proof. now intros s. Qed.
Lemma mq_get_cur : mq get_cur. Proof. now intros s. Qed.
Lemma mq_set_cur t : mq (set_cur t). Proof. now intros s. Qed.
Lemma mq_get_clk : mq get_clk. Proof. now intros s. Qed.
Lemma mq_set_clk t : mq (set_clk t). Proof. now intros s. Qed.
Lemma mq_check p e : mq (check_undef p e).
Proof. apply mq_bind; [apply mq_get|]. intros x. destruct (ndef x); [apply mq_throw|apply mq_ret]. Qed.
Lemma mq_start b : mq (start_api b).
Proof.
  unfold start_api. destruct b; [|apply mq_ret]. apply mq_bind; [apply mq_get_clk|].
  intros []; [apply mq_throw|apply mq_set_clk].
Qed.
Lemma mq_stop b : mq (stop_api b).
Proof.
  unfold stop_api. destruct b; [|apply mq_ret]. apply mq_bind; [apply mq_get_clk|].
  intros []; [apply mq_set_clk|apply mq_throw].
Qed.
Lemma mq_modify p f : (forall nd, nkind (f nd) = nkind nd /\ nname (f nd) = nname nd) -> mq (modify p f).
Proof.
  intros H s U q nd. simpl. rewrite nth_upd. destruct (Nat.eqb_spec p q) as [<-|NE]; [|apply U].
  destruct (nth_error (heap s) p) as [x|] eqn:E; [|discriminate]. simpl. intros [= <-].
  destruct (H x) as [-> ->]. now apply (U p).
Qed.
Lemma mq_set_def p d : mq (set_def p d). Proof. now apply mq_modify. Qed.
Lemma mq_alloc k' n' : (k', n') <> (k, n) -> mq (alloc k' n').
Proof.
  intros NE s U q nd. simpl. intros E. destruct (Nat.lt_ge_cases q (length (heap s))) as [L|L].
  - rewrite nth_error_app1 in E by exact L. now apply (U q).
  - rewrite nth_error_app2 in E by exact L. destruct (q - length (heap s)); simpl in E; [|now destruct n0].
    injection E as <-. simpl. congruence.
Qed.
Lemma mq_find_or k' n' f : (k', n') <> (k, n) -> (forall p, mq (f p)) -> mq (find_or k' n' f).
Proof.
  intros NE H s U. unfold find_or. destruct (lookup s k' n'); auto.
  apply (mq_bind (alloc k' n')); auto using mq_alloc. intros p. apply mq_bind; auto. intros; apply mq_ret.
Qed.
Lemma mq_find_plain k' n' : (k', n') <> (k, n) -> mq (find_plain k' n').
Proof. intros NE. apply mq_find_or; auto. intros; apply mq_ret. Qed.
Lemma mq_find_default k' d n' : (k', n') <> (k, n) -> mq (find_default k' d n').
Proof.
  intros NE. apply mq_find_or; auto. intros. destruct (String.eqb n' "default"); [apply mq_set_def|apply mq_ret].
Qed.
Lemma mq_find_mat n' : mq (find_mat n').
Proof.
  assert (N : forall k' x, k' = KMat \/ k' = KBsdf -> (k', x) <> (k, n)) by (intros k' x H [= -> _]; intuition congruence).
  apply mq_find_or; [auto|]. intros. destruct (String.eqb n' "default"); [|apply mq_ret].
  apply mq_bind; [apply mq_find_default; auto|intros; apply mq_set_def].
Qed.
Lemma mq_unless b m : mq m -> mq (unless b m).
Proof. intros H. destruct b; [apply mq_ret|]. apply mq_bind; auto. intros; apply mq_ret. Qed.
Lemma mq_add_emitter p t : mq (add_emitter p t).
Proof.
  apply mq_bind; [apply mq_get_scn|]. intros x.
  repeat match goal with |- mq (if ?b then _ else _) => destruct b end; intros s U; exact U.
Qed.
End Absent.

Ltac mq_tac K3 nm :=
  repeat first
  [ apply mq_bind; [|intros]
  | apply mq_ret | apply mq_throw | apply mq_crash | apply mq_nonnull | apply mq_get
  | apply mq_get_scn | apply mq_set_scn | apply mq_get_clk | apply mq_set_clk
  | apply mq_get_cur | apply mq_set_cur | apply mq_find_plain; nm | apply mq_find_default; nm
  | apply (mq_find_mat _ _ K3) | apply mq_check | apply mq_unless | apply mq_start | apply mq_stop
  | apply mq_add_emitter | apply mq_set_def
  | apply mq_modify; intros; simpl; now auto
  | match goal with
    | |- mq _ _ (if ?b then _ else _) => destruct b
    | |- mq _ _ (match ?o with Some _ => _ | None => _ end) => destruct o
    end ].


(** the meshes, emitters and media a call may create *)
Definition names (c : call) : list (kind * string) :=
  match c with
  | FrScene _ _ _ m => if String.eqb m "" then [] else [(KMedia, m)]
  | FrObject _ m _ e => (KMesh, m) :: (if negb (String.eqb e "null") && negb (String.eqb e "") then [(KEmitter, e)] else [])
  | FrMesh n _ _ i o _ _ => [(KMesh, n); (KMedia, i); (KMedia, o)]
  | FrMedia n _ _ _ _ _ _ => [(KMedia, n)]
  | FrEmitter n _ _ _ => [(KEmitter, n)]
  | _ => []
  end.
Ltac nm_tac K3 NM := let EQ := fresh in intros EQ; first [(injection EQ as <- <-; exfalso; intuition discriminate) | (apply NM; rewrite <- EQ; cbn; tauto)].
Lemma call_missing k n c s : (k = KMesh \/ k = KEmitter \/ k = KMedia) -> ~ In (k, n) (names c) -> missing k n s -> missing k n (fst (run_call true c s)).
Proof.
  intros K3 NM. match goal with |- _ -> missing ?k ?n (fst (?f ?s)) => enough (Q : mq k n f) by apply (Q s) end.
  destruct c; cbn [run_call names] in *;
    try (unfold fr_accel, fr_integrator, fr_sampler, fr_camera, fr_mesh, fr_shader,
        fr_media, fr_density, fr_med_samp, fr_trans_est, fr_trans_func, fr_texture, fr_simple,
        fr_emitter, fr_bsdf, fr_transform, fr_phase, boundary, find_media, find_bsdf, find_filter, find_phase,
        find_med_samp, find_trans_est, find_trans_func, find_emitter, find_texture, find_density; mq_tac K3 ltac:(nm_tac K3 NM); fail).
  - unfold fr_scene, find_media. destruct (String.eqb med ""); mq_tac K3 ltac:(nm_tac K3 NM); intros z; now destruct (scn z).
  - unfold fr_object. intros s0. generalize (S (S (length (reg s0)))) as fuel. generalize (@None nat) as i. intros i fuel. revert s0.
    match goal with |- forall s0, _ -> missing k n (fst (?f s0)) => change (mq k n f) end.
    revert name i. induction fuel as [|fuel IH]; intros name i; cbn [fr_object_rec]; [now intros z|].
    unfold find_emitter. cbv zeta. destruct (negb (String.eqb emitter "null") && negb (String.eqb emitter "")); mq_tac K3 ltac:(nm_tac K3 NM); apply IH.
Qed.
Lemma run_missing k n h : (k = KMesh \/ k = KEmitter \/ k = KMedia) -> (forall c, In c h -> ~ In (k, n) (names c)) ->
  forall s z x, run true h s = Some (z, x) -> missing k n s -> missing k n z.
Proof.
  intros K3. induction h as [|c h IH]; intros NM s z x; cbn [run]; [now intros [= <- _]|].
  pose proof (call_missing k n c s K3 (NM c (or_introl eq_refl))) as C.
  destruct (run_call true c s) as [s' r]; cbn [fst] in C. intros E M0. specialize (C M0).
  destruct r; try discriminate; destruct (run true h s') as [[z' x']|] eqn:R; try discriminate; injection E as <- _;
    (eapply IH; [intros; apply NM; now right|exact R|exact C]).
Qed.
Lemma run_undef k n h : reserved k n = false -> (forall c t d, In c h -> defines c <> Some (k, n, t, d)) ->
  forall s z x, wf s -> run true h s = Some (z, x) -> undef s k n -> undef z k n.
Proof.
  intros RS. induction h as [|c h IH]; intros NM s z x W; cbn [run]; [now intros [= <- _]|].
  pose proof (call_undef true c s k n W RS (fun t d => NM c t d (or_introl eq_refl))) as C.
  pose proof (call_good true c s W) as G.
  destruct (run_call true c s) as [s' r]; cbn [fst] in C. intros E M0. specialize (C M0).
  assert (W' : r <> Crash -> wf s').
  { intros NC. destruct r; cbn in G; try easy; [destruct G as [G _]|]; eapply steps_wf; eauto. }
  destruct r; try discriminate; destruct (run true h s') as [[z' x']|] eqn:R; try discriminate; injection E as <- _;
    (eapply IH; [intros; apply NM; now right|now apply W'|exact R|exact C]).
Qed.
Lemma in_numbered c l : forall i, In c (numbered i l) -> exists j it, In it l /\ c = to_call j it.
Proof. induction l as [|it l IH]; intros i; cbn; [easy|]. intros [<- |H]; [eauto|]. destruct (IH _ H) as (j & x & I & E). eauto. Qed.
Lemma in_all_calls it l : In it (all_calls l) -> (exists c, it = ITransform c) \/ exists ts, In (it, ts) l.
Proof.
  unfold all_calls. rewrite in_flat_map. intros ([i ts] & I & H). cbn [fst snd] in H. unfold calls in H. destruct (placed i).
  - destruct H as [<- |H]; [eauto|]. apply in_app_or in H as [H|[<- |[<- |[]]]]; eauto. apply in_map_iff in H as (c & <- & _). eauto.
  - destruct H as [<- |[]]. eauto.
Qed.
Lemma all_calls_in it ts l : In (it, ts) l -> In it (all_calls l).
Proof.
  intros I. unfold all_calls. rewrite in_flat_map. exists (it, ts). split; [exact I|]. cbn [fst snd]. unfold calls. destruct (placed it); [|now left].
  right. apply in_or_app. right. now left.
Qed.
Lemma in_keys kn l : In kn (keys l) <-> exists it, In it l /\ block_key it = Some kn.
Proof.
  unfold keys. rewrite in_flat_map. split; intros (it & I & H); exists it; (split; [exact I|]).
  - destruct (block_key it); [destruct H as [<- |[]]; reflexivity|easy].
  - rewrite H. now left.
Qed.
