(** Each fr_* call in turn; histories. *)
From Coq Require Import String List Bool Arith Lia Relations.
From Verif.Model Require Import Vec Matrix ApiTransform Api.
From Verif.Spec Require Import ApiSpec.
From Verif.Proof Require Import ApiBase ApiCalls.
Import ListNotations.
Open Scope list_scope.
Open Scope api_scope.

Ltac carry SM :=
  repeat match type of SM with same ?a ?b =>
    match goal with
    | F : fopt a _ _ _ |- _ => apply (fopt_same _ _ _ _ _ SM) in F
    | Hn : nth_error (heap a) _ = Some _ |- _ => apply (proj1 (proj2 SM)) in Hn
    | S : steps _ a |- _ => apply (fun S => same_steps _ _ _ S SM) in S
    end end.

Lemma plain_integ n : plain KIntegrator n. Proof. repeat split; simpl; congruence. Qed.
Lemma plain_samp n : plain KSampler n. Proof. repeat split; simpl; congruence. Qed.
Lemma plain_cam n : plain KCamera n. Proof. repeat split; simpl; congruence. Qed.
Lemma plain_mesh n : plain KMesh n. Proof. repeat split; simpl; congruence. Qed.
Lemma plain_geom n : plain KGeom n. Proof. repeat split; simpl; congruence. Qed.

Ltac find_tac :=
  first [ apply find_bsdf_ok | apply find_filter_ok | apply find_phase_ok
        | apply find_med_samp_ok | apply find_trans_est_ok | apply find_trans_func_ok
        | apply find_emitter_ok | apply find_media_ok | apply find_texture_ok
        | apply find_density_ok | apply find_mat_ok
        | apply find_plain_ok;
          first [apply plain_integ|apply plain_samp|apply plain_cam|apply plain_mesh
                |apply plain_geom] ].
Ltac fnd p :=
  repeat rewrite bind_assoc;
  eapply good_find; [find_tac|eassumption|];
  let s := fresh "s" in let SM := fresh "SM" in let W := fresh "W" in
  let F := fresh "F" in
  intros s p SM W F; carry SM.
Ltac start :=
  apply good_start; [assumption|apply rt_refl|];
  let s := fresh "s" in intros s ? ? ? ? ? ? ?.
Ltac chk :=
  repeat rewrite bind_assoc;
  apply good_check; [assumption|];
  let nd := fresh "nd" in intros nd ? ?.
Ltac setd :=
  repeat rewrite bind_assoc;
  eapply good_set;
    [assumption|assumption|eassumption|discriminate|discriminate
    |let m := fresh in intros m ?; congruence|];
  let s := fresh "s" in let E := fresh "E" in
  intros s ? ? E ?;
  repeat match goal with F : fopt ?a _ _ _ |- _ =>
    match type of E with ext a _ => apply (fopt_ext _ _ _ _ _ E) in F end end.
Ltac nonn :=
  repeat rewrite bind_assoc;
  match goal with |- good _ _ (bindM (nonnull ?o) _ _) => destruct o as [?p|]; [|exact I] end;
  match goal with |- context [nonnull (Some ?p)] =>
    change (bindM (nonnull (Some p)) ?f ?s) with (f p s) end; cbv beta.
Ltac fin :=
  apply good_stop; [assumption|];
  let s := fresh "s" in intros s ?Hh ?Hr ?Hc ?Hs ?St;
  let W := fresh "W" in
  assert (W : wf s) by (eapply steps_wf; [eassumption|assumption]);
  intros ? ? ? ? Hdef; cbn [defines] in Hdef;
  repeat match goal with
  | F : fopt ?a _ _ _, Hh : heap s = heap ?a |- _ => apply (fopt_heap _ s _ _ _ Hh) in F
  | D : defd ?a _ _ _, Hh : heap s = heap ?a |- _ => apply (defd_heap _ s _ _ _ Hh) in D
  end;
  match goal with D : defd s _ _ _ |- _ => apply (defd_def_of s _ _ _ W) in D; rename D into DEF end.

Section Config.
Variable clocking : bool.

Notation goodc c s := (good s (defined_as c) (run_call clocking c s)).

Lemma not_def c s : defines c = None -> defined_as c s.
Proof. intros H k n t d E. congruence. Qed.

Lemma good_weak s0 (Q : api -> Prop) c s : defines c = None ->
  good s0 (fun _ => True) s -> good s0 (defined_as c) s.
Proof.
  intros D. destruct s as [s' [[]|e| |]]; simpl; auto.
  intros [H _]. split; auto. now apply not_def.
Qed.

Lemma good_sampler n t d s : wf s -> goodc (FrSampler n t d) s.
Proof.
  intros W. simpl. unfold fr_sampler. start. fnd p. chk.
  destruct (String.eqb_spec t "independent") as [->|NE]; [|now apply good_throw].
  setd. fin. injection Hdef as <- <- <- <-. eexists; split; [exact DEF|]. repeat constructor; assumption.
Qed.

Lemma good_camera n t d s : wf s -> goodc (FrCamera n t d) s.
Proof.
  intros W. simpl. unfold fr_camera. start. fnd p. chk.
  destruct (String.eqb_spec t "perspective") as [->|NE]; [|now apply good_throw].
  setd. fin. injection Hdef as <- <- <- <-. eexists; split; [exact DEF|]. repeat constructor; assumption.
Qed.

Lemma good_integrator n t f d s : wf s -> goodc (FrIntegrator n t f d) s.
Proof.
  intros W. simpl. unfold fr_integrator. start. fnd p. fnd q. chk.
  destruct (one_of t integrator_types) eqn:NE; [|now apply good_throw].
  setd. fin. injection Hdef as <- <- <- <-.
  eexists; split; [exact DEF|]. repeat constructor; assumption.
Qed.

Lemma boundary_good i o (f : list (option ptr) -> M unit) s s0 Q :
  wf s -> steps s0 s ->
  (forall s' l, same s s' -> wf s' -> Forall2 (fun r x => fopt s' (fst r) (snd r) x) (media_refs i o) l ->
     good s0 Q (f l s')) ->
  good s0 Q (bindM (boundary i o) f s).
Proof.
  intros W S H. unfold boundary, media_refs in *.
  replace (negb (i =? "null")%string || negb (o =? "null")%string)
    with (negb ((i =? "null")%string && (o =? "null")%string)) by (now rewrite negb_andb).
  destruct ((i =? "null")%string && (o =? "null")%string); cbn [negb].
  - apply H; auto. apply same_refl.
  - fnd p. fnd q. unfold bindM, ret. apply H; [eapply same_trans; eauto|auto|repeat constructor; auto].
Qed.

Lemma denotes_list s rs l : wf s ->
  Forall2 (fun r x => fopt s (fst r) (snd r) x) rs l -> map (denotes s) rs = l.
Proof.
  intros W. induction 1 as [|[k n] x rs l H F IH]; simpl; auto.
  rewrite IH. f_equal. now apply denotes_fopt.
Qed.

Lemma flist_ext s s' rs l : ext s s' ->
  Forall2 (fun r x => fopt s (fst r) (snd r) x) rs l ->
  Forall2 (fun r x => fopt s' (fst r) (snd r) x) rs l.
Proof. intros E. induction 1; constructor; eauto using fopt_ext. Qed.
Lemma flist_heap s s' rs l : heap s' = heap s ->
  Forall2 (fun r x => fopt s (fst r) (snd r) x) rs l ->
  Forall2 (fun r x => fopt s' (fst r) (snd r) x) rs l.
Proof. intros E. induction 1; constructor; eauto using fopt_heap. Qed.

Lemma good_mesh n t sh i o x d s : wf s -> goodc (FrMesh n t sh i o x d) s.
Proof.
  intros W. simpl. unfold fr_mesh. start. fnd p. chk.
  destruct (String.eqb_spec t "triangle_mesh") as [->|N1].
  - fnd g. repeat rewrite bind_assoc. apply boundary_good; auto.
    intros s' l SM' W' FL. carry SM'. setd. apply (flist_ext _ _ _ _ E) in FL. fin.
    injection Hdef as <- <- <- <-. eexists; split; [exact DEF|].
    cbn [refers String.eqb Ascii.eqb Bool.eqb].
    constructor; [assumption|]. eapply flist_heap; eauto.
  - destruct (String.eqb_spec t "grid") as [->|N2].
    + fnd g. fnd tx. setd. fin. injection Hdef as <- <- <- <-.
      eexists; split; [exact DEF|].
      cbn [refers String.eqb Ascii.eqb Bool.eqb]. repeat constructor; assumption.
    + destruct (one_of t _) eqn:O; [|now apply good_throw].
      repeat rewrite bind_assoc. apply boundary_good; auto.
      intros s' l SM' W' FL. carry SM'. setd. apply (flist_ext _ _ _ _ E) in FL. fin.
      injection Hdef as <- <- <- <-. eexists; split; [exact DEF|]. cbn [refers].
      apply String.eqb_neq in N1. apply String.eqb_neq in N2. rewrite N1, N2.
      eapply flist_heap; eauto.
Qed.

Lemma good_shader n t b1 b2 d s : wf s -> goodc (FrShader n t b1 b2 d) s.
Proof.
  intros W. simpl. unfold fr_shader. start.
  destruct (String.eqb_spec t "interp_verts_to_sphere") as [->|N1].
  - fnd p. chk. setd. fin. simpl in Hdef. injection Hdef as <- <- <- <-. eexists; split; [exact DEF|]. repeat constructor; assumption.
  - apply String.eqb_neq in N1.
    destruct (String.eqb_spec t "simple_material") as [->|N2].
    + fnd p. chk. fnd b. setd. fin. simpl in Hdef. injection Hdef as <- <- <- <-.
      eexists; split; [exact DEF|].
      cbn [refers String.eqb Ascii.eqb Bool.eqb]. repeat constructor; assumption.
    + destruct (String.eqb_spec t "wireframe") as [->|N3]; [|now apply good_throw].
      fnd p. chk. fnd b. fnd c. setd. fin. simpl in Hdef. injection Hdef as <- <- <- <-.
      eexists; split; [exact DEF|].
      cbn [refers String.eqb Ascii.eqb Bool.eqb]. repeat constructor; assumption.
Qed.

Lemma good_media n a b c d e x s : wf s -> goodc (FrMedia n a b c d e x) s.
Proof.
  intros W. simpl. unfold fr_media. start. fnd p0. nonn. chk.
  fnd q1. fnd q2. fnd q3. fnd q4. fnd q5. setd. fin. injection Hdef as <- <- <- <-.
  eexists; split; [exact DEF|]. repeat constructor; assumption.
Qed.

Lemma good_simple fnd k n dup bad types t d s (c : call) :
  defines c = Some (k, n, t, d) -> refers c = [] -> k <> KFilter -> k <> KEmitter ->
  finds fnd k n (fun o => o) -> wf s ->
  good s (defined_as c) (fr_simple clocking fnd dup bad types t d s).
Proof.
  intros D R K1 K2 F W. unfold fr_simple. start.
  repeat rewrite bind_assoc. eapply good_find; [exact F|assumption|].
  intros s2 p0 SM W2 F2. carry SM. nonn. chk.
  destruct (one_of t types); [|now apply good_throw].
  eapply good_set;
    [assumption|assumption|eassumption|assumption|assumption|intros m ?; congruence|].
  intros s3 W3 S3 E D3. fin. rewrite D in Hdef. injection Hdef as <- <- <- <-.
  eexists; split; [exact DEF|]. rewrite R. constructor.
Qed.

Lemma good_density n t d s : wf s -> goodc (FrDensity n t d) s.
Proof. eapply good_simple; try reflexivity; try discriminate. apply find_density_ok. Qed.
Lemma good_med_samp n t d s : wf s -> goodc (FrMedSamp n t d) s.
Proof. eapply good_simple; try reflexivity; try discriminate. apply find_med_samp_ok. Qed.
Lemma good_trans_est n t d s : wf s -> goodc (FrTransEst n t d) s.
Proof. eapply good_simple; try reflexivity; try discriminate. apply find_trans_est_ok. Qed.
Lemma good_trans_func n t d s : wf s -> goodc (FrTransFunc n t d) s.
Proof. eapply good_simple; try reflexivity; try discriminate. apply find_trans_func_ok. Qed.
Lemma good_texture n t d s : wf s -> goodc (FrTexture n t d) s.
Proof. eapply good_simple; try reflexivity; try discriminate. apply find_texture_ok. Qed.

Lemma good_bsdf n t d s : wf s -> goodc (FrBsdf n t d) s.
Proof.
  intros W. simpl. unfold fr_bsdf. start. fnd p. chk.
  destruct (one_of t _) eqn:O.
  - setd. fin. destruct (String.eqb_spec t "null") as [->|NE]; [discriminate|].
    injection Hdef as <- <- <- <-. eexists; split; [exact DEF|]. repeat constructor; assumption.
  - destruct (String.eqb_spec t "null") as [->|NE]; [|exact I].
    unfold modify, bindM.
    rewrite (upd_same _ _ _ nd H6) by (destruct nd; simpl in *; subst; reflexivity).
    apply good_stop; [|intros; now apply not_def].
    destruct s1; assumption.
Qed.

Lemma good_emit p k n d (f : unit -> M unit) s s0 Q :
  wf s -> steps s0 s -> fopt s KEmitter n (Some p) -> k = KEmitter ->
  (forall nd, nth_error (heap s) p = Some nd -> ndef nd = None) ->
  (forall s', wf s' -> steps s0 s' -> ext s s' -> defd s' k n d -> good s0 Q (f tt s')) ->
  good s0 Q (bindM (set_def p d;; add_emitter p (pty d)) f s).
Proof.
  intros W S (nd & Hn & K & N) -> U H. specialize (U _ Hn).
  unfold set_def, modify, add_emitter, get_scn, set_scn, bindM. simpl.
  destruct (scn s) as [x|] eqn:SX; [|exact I]. simpl.
  rewrite (upd_nth _ _ _ _ Hn).
  assert (ST : step s (with_scn (put s p (put_def (Some d) nd))
      (if String.eqb (pty d) "environment"
       then Scn (s_integ x) (s_samp x) (s_cam x) (s_media x) (s_emit x)
                (s_env x ++ [p]) (s_light x)
       else Scn (s_integ x) (s_samp x) (s_cam x) (s_media x) (s_emit x ++ [p])
                (s_env x) (s_light x)))) by (econstructor; eauto).
  unfold is_env, is_env_only.
  destruct (String.eqb (pty d) "environment"); cbn [negb];
  (apply H;
   [eapply step_wf; eauto | eapply rt_trans; [exact S|now apply rt_step]
   | now apply step_ext
   | exists p, (put_def (Some d) nd); simpl; rewrite nth_upd, Nat.eqb_refl, Hn; auto]).
Qed.

Lemma good_emitter n t x d s : wf s -> goodc (FrEmitter n t x d) s.
Proof.
  intros W. simpl. unfold fr_emitter. start. fnd p0. nonn. chk.
  destruct (one_of t _) eqn:O.
  - change t with (pty (Pay t [] d)) at 3.
    eapply good_emit; [assumption|assumption|eassumption|reflexivity
                      |intros m ?; congruence|].
    intros s3 W3 S3 E D3. fin. injection Hdef as <- <- <- <-. eexists; split; [exact DEF|].
    simpl. destruct (String.eqb_spec t "environment") as [->|NE]; [discriminate|constructor].
  - destruct (String.eqb_spec t "environment") as [->|NE]; [|now apply good_throw].
    rewrite bind_assoc. fnd tx.
    change "environment"%string with (pty (Pay "environment" [tx] d)) at 2.
    eapply good_emit; [assumption|assumption|eassumption|reflexivity
                      |intros m ?; congruence|].
    intros s4 W4 S4 E D4.
    repeat match goal with F : fopt ?a _ _ _ |- _ =>
      match type of E with ext a _ => apply (fopt_ext _ _ _ _ _ E) in F end end.
    fin. injection Hdef as <- <- <- <-. eexists; split; [exact DEF|].
    repeat constructor; assumption.
Qed.

Lemma good_accel t s : wf s -> goodc (FrAccel t) s.
Proof.
  intros W. simpl. unfold fr_accel. start. unfold get_scn. unfold bindM at 1.
  destruct (scn s0) as [x|] eqn:SX; [|exact I].
  destruct (one_of t _); [|now apply good_throw].
  unfold set_scn, bindM. apply good_stop; [|intros; now apply not_def].
  eapply rt_trans; [eassumption|]. apply rt_step. now apply St_light.
Qed.

Lemma good_scene i sa c m s : wf s -> goodc (FrScene i sa c m) s.
Proof.
  intros W. simpl. unfold fr_scene. start.
  unfold bindM at 1. destruct (scn s0) as [x|] eqn:SX; [simpl; assumption|].
  fnd p1. fnd p2. fnd p3.
  assert (FM : finds (if String.eqb m "" then ret None else find_media m)
                 (if String.eqb m "" then KTexture else KMedia) m (fun o => o)).
  { destruct (String.eqb_spec m "") as [->|NE]; [|apply find_media_ok].
    intros z Wz. exists z, None. split; [reflexivity|]. split; [apply same_refl|]. reflexivity. }
  eapply good_find; [exact FM|assumption|]. intros s5 p5 SM5 W5 F5. carry SM5.
  unfold set_scn, bindM. apply good_stop; [|intros; now apply not_def].
  eapply rt_trans; [eassumption|]. apply rt_step. apply St_scene; auto.
  - destruct SM as (_ & _ & _ & E1 & _), SM0 as (_ & _ & _ & E2 & _),
      SM1 as (_ & _ & _ & E3 & _), SM5 as (_ & _ & _ & E4 & _). congruence.
  - exists i. exact F.
  - exists sa. exact F0.
  - exists c. exact F1.
  - simpl. destruct p5 as [q|]; simpl; auto.
    destruct (String.eqb_spec m "") as [->|NE].
    + exfalso. destruct F5 as (nd & Hn & K & N).
      pose proof (ok_null _ _ (wf_nodes _ W5 _ _ Hn)) as Z. rewrite K, N in Z. discriminate.
    + exists m. exact F5.
Qed.

Lemma good_transform c s : wf s -> goodc (FrTransform c) s.
Proof.
  intros W. simpl. unfold fr_transform. start. unfold get_cur, set_cur, bindM.
  apply good_stop; [|intros; now apply not_def].
  eapply rt_trans; [eassumption|]. apply rt_step. apply St_misc.
Qed.

Lemma good_phase n t s : wf s -> goodc (FrPhase n t) s.
Proof. intros W. simpl. unfold fr_phase. start. simpl. assumption. Qed.
End Config.
