(** Histories of scene-description calls. *)
From Coq Require Import String List Bool Arith Lia Relations Permutation.
From Verif.Model Require Import Vec Matrix ApiTransform Api.
From Verif.Spec Require Import ApiSpec.
From Verif.Proof Require Import ApiBase ApiCalls ApiRun ApiObject.
Import ListNotations.
Open Scope list_scope.
Open Scope api_scope.

Section Config.
Variable clocking : bool.

Definition post (c : call) (s s' : api) : Prop :=
  defined_as c s' /\
  match c with
  | FrObject _ mesh mat em => obj_post (length (heap s)) (cur s) mesh mat em s'
  | _ => True
  end.

Lemma good_imp s0 (Q Q' : api -> Prop) x :
  (forall s, Q s -> Q' s) -> good s0 Q x -> good s0 Q' x.
Proof. intros H. destruct x as [s [[]|e| |]]; simpl; auto. intros [A B]; auto. Qed.

Lemma call_good c s : wf s -> good s (post c s) (run_call clocking c s).
Proof.
  intros W. destruct c;
    try (eapply good_imp; [intros z Hz; split; [exact Hz|exact I]|]);
    eauto using good_accel, good_scene, good_integrator, good_sampler, good_camera,
      good_mesh, good_shader, good_media, good_density, good_phase, good_med_samp,
      good_trans_est, good_trans_func, good_emitter, good_bsdf, good_texture, good_transform.
  cbn [run_call]. unfold fr_object.
  apply (good_imp s (obj_post (length (heap s)) (cur s) mesh mat emitter)).
  - intros z Hz. split; [now apply not_def|exact Hz].
  - apply good_object_rec; [assumption|assumption|apply rt_refl|reflexivity|lia|].
    pose proof (cnt_len (heap s) (String.length (index_name name None))) as L.
    rewrite (wf_lock s W). unfold reg_of. rewrite reg_from_length. lia.
Qed.

Lemma run_cons c cs s z l : run clocking (c :: cs) s = Some (z, l) ->
  exists s' r l', run_call clocking c s = (s', r) /\ l = r :: l' /\
    run clocking cs s' = Some (z, l') /\ r <> Crash /\ r <> Fuel.
Proof.
  simpl. destruct (run_call clocking c s) as [s' [[]|e| |]]; try discriminate;
    destruct (run clocking cs s') as [[z' l']|] eqn:E; try discriminate;
    intros [= <- <-]; do 3 eexists; repeat split; eauto; discriminate.
Qed.

Lemma run_steps cs : forall s z l, wf s -> run clocking cs s = Some (z, l) -> steps s z.
Proof.
  induction cs as [|c cs IH]; intros s z l W H.
  - injection H as <- <-. apply rt_refl.
  - apply run_cons in H as (s' & r & l' & E & -> & H & N1 & N2).
    pose proof (call_good c s W) as G. rewrite E in G.
    assert (S : steps s s') by (destruct r as [[]|e| |]; simpl in G; tauto).
    eapply rt_trans; [exact S|]. eapply IH; eauto. eapply steps_wf; eauto.
Qed.

Lemma run_wf cs s z l : wf s -> run clocking cs s = Some (z, l) -> wf z /\ ext s z.
Proof.
  intros W H. apply run_steps in H; auto. split; [eapply steps_wf; eauto|now apply steps_ext].
Qed.

Lemma reached_wf s : reached clocking s -> wf s.
Proof. intros (h & l & H). apply run_wf in H as [H _]; auto. apply wf_init. Qed.

Lemma run_app h1 : forall c h2 s z l, run clocking (h1 ++ c :: h2) s = Some (z, l) ->
  exists s1 l1 s2 r l2, run clocking h1 s = Some (s1, l1) /\ run_call clocking c s1 = (s2, r) /\
    run clocking h2 s2 = Some (z, l2) /\ l = l1 ++ r :: l2 /\ length l1 = length h1.
Proof.
  induction h1 as [|a h1 IH]; intros c h2 s z l H.
  - apply run_cons in H as (s' & r & l' & E & -> & H & N1 & N2).
    exists s, [], s', r, l'. simpl. auto.
  - cbn [app] in H. apply run_cons in H as (s' & r & l' & E & -> & H & N1 & N2).
    apply IH in H as (s1 & l1 & s2 & r2 & l2 & A & B & C & -> & D).
    exists s1, (r :: l1), s2, r2, l2. simpl. rewrite E, A, D.
    destruct r as [[]|e| |]; try congruence; auto.
Qed.

Lemma lookup_stable cs s z l k n p : wf s -> run clocking cs s = Some (z, l) ->
  lookup s k n = Some p -> lookup z k n = Some p.
Proof.
  intros W H L. apply run_wf in H as [Wz E]; auto.
  apply hasn_lookup; auto. eapply ext_hasn; eauto. now apply lookup_hasn.
Qed.

Lemma def_stable cs s z l k n d : wf s -> run clocking cs s = Some (z, l) ->
  def_of s k n = Some d -> def_of z k n = Some d.
Proof.
  intros W H D. apply run_wf in H as [Wz E]; auto.
  apply defd_def_of; auto. eapply defd_ext; eauto. now apply def_of_defd.
Qed.

Lemma denotes_stable s s' k n : wf s -> wf s' -> ext s s' ->
  denotes s (k, n) <> None -> denotes s' (k, n) = denotes s (k, n).
Proof.
  intros W W' E. unfold denotes. simpl. destruct (means_none k n); [congruence|].
  destruct (lookup s k n) as [p|] eqn:L; [|congruence]. intros _.
  apply hasn_lookup; auto. eapply ext_hasn; eauto. now apply lookup_hasn.
Qed.

(** ---- a defined name cannot be defined again ---- *)
Definition raises (P : string -> Prop) (x : api * exit unit) : Prop := exists s' e, x = (s', Exn e) /\ P e.

Lemma raises_start (P : string -> Prop) f s : wf s -> (clocking = true -> clk s = true -> P "api already active") ->
  (forall s', wf s' -> heap s' = heap s -> reg s' = reg s -> raises P (f tt s')) ->
  raises P (bindM (start_api clocking) f s).
Proof.
  intros W A H. unfold start_api. destruct clocking.
  - unfold bindM, get_clk. simpl. destruct (clk s) eqn:K; simpl.
    + unfold raises. eauto 6.
    + apply H; auto. eapply step_wf; [apply St_misc|auto].
  - unfold bindM, ret. auto.
Qed.

Lemma raises_find {A} (P : string -> Prop) (m : M A) k n w f s :
  finds m k n w -> wf s ->
  (forall s' a, same s s' -> wf s' -> fopt s' k n (w a) -> raises P (f a s')) ->
  raises P (bindM m f s).
Proof.
  intros F W H. destruct (F s W) as (s' & a & E & S & O).
  unfold bindM. rewrite E. apply H; auto. eapply steps_wf; [apply S|auto].
Qed.

Lemma raises_check (P : string -> Prop) p e f s k n d :
  wf s -> fopt s k n (Some p) -> defd s k n d -> P e -> raises P (bindM (check_undef p e) f s).
Proof.
  intros W F (q & nd & H & K & N & D) Pe.
  assert (p = q) as -> by (eapply (hasn_fun s k n); eauto; exists nd; auto).
  unfold check_undef, get, bindM. rewrite H, D. unfold raises. simpl. eauto 6.
Qed.

Lemma raises_nonnull P (o : option ptr) f s k n d :
  wf s -> fopt s k n o -> defd s k n d ->
  (forall p, o = Some p -> raises P (f p s)) -> raises P (bindM (nonnull o) f s).
Proof.
  intros W F (q & nd & H & K & N & D) R. destruct o as [p|].
  - now apply R.
  - exfalso. pose proof (ok_null _ _ (wf_nodes _ W _ _ H)) as Z. simpl in F. congruence.
Qed.

Lemma defd_same s s' k n d : same s s' -> defd s k n d -> defd s' k n d.
Proof. eauto using defd_ext, same_ext. Qed.

Ltac rstart := apply raises_start; [assumption|assumption|]; intros ? ? Hh ?;
  match goal with D : defd _ _ _ _ |- _ => apply (defd_heap _ _ _ _ _ Hh) in D end.
Ltac rfind p := eapply raises_find; [find_tac|assumption|];
  let SM := fresh "SM" in intros ? p SM ? ?;
  match goal with D : defd _ _ _ _ |- _ => apply (defd_same _ _ _ _ _ SM) in D end;
  repeat match type of SM with same ?a ?b =>
    match goal with F : fopt a _ _ _ |- _ => apply (fopt_same _ _ _ _ _ SM) in F end end.
Ltac rcheck := repeat rewrite bind_assoc; eapply raises_check; eauto.
Ltac rnon := eapply raises_nonnull; [assumption|eassumption|eassumption|];
  intros ? ->.

Lemma raises_simple (P : string -> Prop) fnd k n dup bad types t d x s :
  finds fnd k n (fun o => o) -> wf s -> defd s k n x -> (clocking = true -> clk s = true -> P "api already active") -> P dup ->
  raises P (fr_simple clocking fnd dup bad types t d s).
Proof.
  intros F W D A B. unfold fr_simple. rstart.
  eapply raises_find; [exact F|assumption|]. intros s2 p SM W2 F2.
  apply (defd_same _ _ _ _ _ SM) in D. rnon. rcheck.
Qed.

Lemma raises_bind P m f s : raises P (m s) -> raises P (bindM m f s).
Proof. intros (s' & e & H & Q). unfold bindM. rewrite H. unfold raises. eauto 6. Qed.

Lemma redefine_raises c s k n t d x : wf s -> defines c = Some (k, n, t, d) ->
  def_of s k n = Some x -> raises (fun e => clocking = true /\ clk s = true /\ e = "api already active" \/ e = already c) (run_call clocking c s).
Proof.
  intros W DC D0. apply (def_of_defd _ _ _ _ W) in D0.
  set (P := fun e => _ \/ _). assert (Act : clocking = true -> clk s = true -> P "api already active") by (intros; left; auto).
  assert (Al : P (already c)) by now right. clearbody P.
  destruct c; simpl in DC; try discriminate; simpl already in Al.
  - injection DC as <- <- <- <-. simpl. unfold fr_integrator. rstart. rfind p. rfind q. rcheck.
  - injection DC as <- <- <- <-. simpl. unfold fr_sampler. rstart. rfind p. rcheck.
  - injection DC as <- <- <- <-. simpl. unfold fr_camera. rstart. rfind p. rcheck.
  - injection DC as <- <- <- <-. simpl. unfold fr_mesh. rstart. rfind p. rcheck.
  - simpl. unfold fr_shader. rstart.
    destruct (String.eqb_spec ty "interp_verts_to_sphere") as [->|N1].
    + simpl in DC, Al. injection DC as <- <- <- <-.
      apply raises_bind. rfind p. rcheck.
    + injection DC as <- <- <- <-.
      apply raises_bind.
      destruct (String.eqb ty "simple_material"); [rfind p; rcheck|].
      destruct (String.eqb ty "wireframe"); [rfind p; rcheck|].
      unfold raises, throw. eauto 6.
  - injection DC as <- <- <- <-. simpl. unfold fr_media. rstart. rfind p. rnon. rcheck.
  - injection DC as <- <- <- <-. eapply raises_simple; eauto. apply find_density_ok.
  - injection DC as <- <- <- <-. eapply raises_simple; eauto. apply find_med_samp_ok.
  - injection DC as <- <- <- <-. eapply raises_simple; eauto. apply find_trans_est_ok.
  - injection DC as <- <- <- <-. eapply raises_simple; eauto. apply find_trans_func_ok.
  - injection DC as <- <- <- <-. simpl. unfold fr_emitter. rstart. rfind p. rnon. rcheck.
  - destruct (String.eqb_spec ty "null") as [->|NE]; [discriminate|].
    injection DC as <- <- <- <-. simpl. unfold fr_bsdf. rstart. rfind p. rcheck.
  - injection DC as <- <- <- <-. eapply raises_simple; eauto. apply find_texture_ok.
Qed.

(** a call that raised or succeeded left every earlier definition in place *)
Lemma call_def_stable c s s' r k n d : wf s -> run_call clocking c s = (s', r) ->
  r <> Crash -> r <> Fuel -> def_of s k n = Some d -> def_of s' k n = Some d.
Proof.
  intros W E N1 N2 D. pose proof (call_good c s W) as G. rewrite E in G.
  assert (S : steps s s') by (destruct r as [[]|e| |]; simpl in G; tauto).
  apply defd_def_of; [eapply steps_wf; eauto|].
  apply (defd_ext s); [now apply steps_ext|]. now apply def_of_defd.
Qed.

(** what a successful definition established is still there later, with every reference
    denoting what its name denotes then *)
Lemma defined_later c s2 z k n t d : wf s2 -> wf z -> ext s2 z ->
  defined_as c s2 -> defines c = Some (k, n, t, d) ->
  def_of z k n = Some (Pay t (map (denotes z) (refers c)) d).
Proof.
  intros W2 Wz E D DC. destruct (D _ _ _ _ DC) as (rs & H & F).
  apply (flist_ext _ _ _ _ E) in F. rewrite (denotes_list _ _ _ Wz F).
  apply defd_def_of; auto. eapply defd_ext; eauto. now apply def_of_defd.
Qed.
End Config.
