(** Scene description: C10-C16, C18, C78-C81. *)
From Coq Require Import String List Bool Arith Lia Reals Lra Permutation.
From Verif.Model Require Import Vec Matrix ApiTransform Api.
From Verif.Spec Require Import ApiSpec.
From Verif.Proof Require Import ApiBase ApiCalls ApiRun ApiObject ApiProof ApiClock ApiTotal
  ApiFlush.
Import ListNotations.
Open Scope nat_scope.
Open Scope string_scope.
Open Scope list_scope.

(** ** C10: a name is defined at most once *)
Theorem C10_defined_once : forall clocking s c k n t d x,
  reached clocking s -> def_of s k n = Some x -> defines c = Some (k, n, t, d) ->
  (exists s' e, run_call clocking c s = (s', Exn e) /\ def_of s' k n = Some x /\
     (clocking = true /\ clk s = true /\ e = "api already active" \/ e = already c)) /\
  (forall h z l, run clocking h s = Some (z, l) -> def_of z k n = Some x).
Proof.
  intros b s c k n t d x R D DC. pose proof (reached_wf _ _ R) as W. split.
  - destruct (redefine_raises b c s k n t d x W DC D) as (s' & e & E & Q). exists s', e. split; [exact E|]. split; [|exact Q].
    eapply call_def_stable; eauto; discriminate.
  - intros h z l H. eapply def_stable; eauto.
Qed.
Print Assumptions C10_defined_once.

(** a small scene used by the examples: two objects, an area light, forward references *)
Definition shift : vec3 := V3 1%R 2%R 3%R.
Definition demo : list call :=
  [ FrScene "integrator" "sampler" "camera" "null";
    FrObject "o1" "m1" "mat" "light";
    FrTransform (TTranslate shift);
    FrObject "o2" "m2" "default" "null";
    FrIntegrator "integrator" "path" "default" 0;
    FrSampler "sampler" "independent" 1;
    FrCamera "camera" "perspective" 2;
    FrMesh "m1" "triangle_mesh" "default" "null" "null" "" 3;
    FrMesh "m2" "sdf_sphere" "default" "fog" "null" "" 4;
    FrMedia "fog" "default" "default" "ray" "d" "" 5;
    FrShader "mat" "simple_material" "white" "" 6;
    FrBsdf "white" "diffuse" 7;
    FrEmitter "light" "mesh" "" 8;
    FrEmitter "sky" "environment" "img" 9 ].
Definition after (b : bool) (h : list call) : api :=
  match run b h api_init with Some (z, _) => z | None => api_init end.
Ltac ev := cbv -[tf_mul tf_of tf_id m4_translate shift].
Lemma after_reached b h : run b h api_init <> None -> reached b (after b h).
Proof.
  intros H. unfold after. destruct (run b h api_init) as [[z l]|] eqn:E; [|congruence].
  exists h, l. exact E.
Qed.
Definition demo_state :=
  Eval cbv -[tf_mul tf_of tf_id m4_translate shift] in after true demo.

Lemma demo_runs : run true demo api_init = Some (demo_state, repeat (Ret tt) 14).
Proof. cbv -[tf_mul tf_of tf_id m4_translate shift]. reflexivity. Qed.
Lemma demo_reached : reached true demo_state.
Proof. exists demo. eexists. exact demo_runs. Qed.

Example C10_case :
  reached true demo_state /\ def_of demo_state KMesh "m1" <> None /\
  defines (FrMesh "m1" "sdf_box" "g" "null" "null" "" 10) = Some (KMesh, "m1", "sdf_box", 10).
Proof. split; [apply demo_reached|]. split; [discriminate|reflexivity]. Qed.

(** ** C11: names may be used before they are defined *)
Theorem C11_one_node_per_name : forall clocking s k n p,
  reached clocking s -> lookup s k n = Some p ->
  (forall h z l, run clocking h s = Some (z, l) -> lookup z k n = Some p) /\
  (forall k' n', lookup s k' n' = Some p -> k' = k /\ n' = n).
Proof.
  intros b s k n p R L. pose proof (reached_wf _ _ R) as W. split.
  - intros h z l H. eapply lookup_stable; eauto.
  - intros k' n' L'. apply (lookup_hasn _ _ _ _ W) in L as (nd & H & K & N).
    apply (lookup_hasn _ _ _ _ W) in L' as (nd' & H' & K' & N').
    assert (nd' = nd) as -> by congruence. split; congruence.
Qed.
Print Assumptions C11_one_node_per_name.

(** In a whole history a successful definition refers, in the end, to exactly the nodes
    its names stand for, whether those were mentioned earlier or later. *)
Theorem C11_references_resolved : forall clocking h1 c h2 z l k n t d,
  run clocking (h1 ++ c :: h2) api_init = Some (z, l) ->
  nth_error l (length h1) = Some (Ret tt) ->
  defines c = Some (k, n, t, d) ->
  def_of z k n = Some (Pay t (map (denotes z) (refers c)) d) /\
  Forall (fun r => means_none (fst r) (snd r) = false -> denotes z r <> None) (refers c).
Proof.
  intros b h1 c h2 z l k n t d H HN DC.
  apply run_app in H as (s1 & l1 & s2 & r & l2 & A & B & C & -> & E).
  rewrite <- E, nth_error_app2, Nat.sub_diag in HN by lia. cbn in HN. injection HN as ->.
  pose proof (run_wf _ _ _ _ _ wf_init A) as [W1 _].
  pose proof (call_good b c s1 W1) as G. rewrite B in G. destruct G as [S2 [P _]].
  assert (W2 : wf s2) by (eapply steps_wf; eauto).
  pose proof (run_wf _ _ _ _ _ W2 C) as [Wz Ez].
  split; [apply (defined_later c s2); auto|].
  destruct (P _ _ _ _ DC) as (rs & _ & F).
  clear -Wz Ez F. induction F as [|[k n] o rs l X F IH]; constructor; auto.
  cbn [fst snd] in *. intros MN. apply (fopt_ext _ _ _ _ _ Ez) in X.
  rewrite (denotes_fopt _ _ _ _ Wz X). destruct o; [discriminate|].
  simpl in X. rewrite null_means in X. congruence.
Qed.
Print Assumptions C11_references_resolved.

(** the same for objects: mesh, material, emitter and transform of the object that a
    successful call created *)
Theorem C11_object_references : forall clocking h1 name mesh mat em h2 z l,
  run clocking (h1 ++ FrObject name mesh mat em :: h2) api_init = Some (z, l) ->
  nth_error l (length h1) = Some (Ret tt) ->
  exists s1 l1 o nd,
    run clocking h1 api_init = Some (s1, l1) /\ nth_error (heap s1) o = None /\
    nth_error (heap z) o = Some nd /\ nkind nd = KObject /\
    lookup z KObject (nname nd) = Some o /\
    omesh nd = lookup z KMesh mesh /\ omesh nd <> None /\
    omat nd = lookup z KMat mat /\ omat nd <> None /\
    otrans nd = cur s1 /\
    (em <> "" -> em <> "null" -> oemit nd = lookup z KEmitter em /\ oemit nd <> None).
Proof.
  intros b h1 name mesh mat em h2 z l H HN.
  apply run_app in H as (s1 & l1 & s2 & r & l2 & A & B & C & -> & E).
  rewrite <- E, nth_error_app2, Nat.sub_diag in HN by lia. cbn in HN. injection HN as ->.
  pose proof (run_wf _ _ _ _ _ wf_init A) as [W1 _].
  pose proof (call_good b (FrObject name mesh mat em) s1 W1) as G. rewrite B in G. destruct G as [S2 [_ P]].
  assert (W2 : wf s2) by (eapply steps_wf; eauto).
  pose proof (run_wf _ _ _ _ _ W2 C) as [Wz Ez].
  destruct P as (o & nd & Lo & Ho & K & (m & M1 & M2) & (a & A1 & A2) & T & EM).
  destruct (ext_node _ _ Ez _ _ Ho) as (nd' & Ho' & R).
  pose proof (rf_kind _ _ R) as R1. pose proof (rf_mesh _ _ R _ M1) as R2.
  pose proof (rf_mat _ _ R _ A1) as R3. pose proof (rf_trans _ _ R) as R4.
  apply (ext_hasn _ _ _ _ _ Ez) in M2. apply (ext_hasn _ _ _ _ _ Ez) in A2.
  exists s1, l1, o, nd'. split; auto. split; [now apply nth_error_None|].
  split; auto. split; [congruence|]. split; [apply hasn_lookup; auto; exists nd'; intuition congruence|].
  rewrite R2, R3, R4. rewrite (hasn_lookup _ _ _ _ Wz M2), (hasn_lookup _ _ _ _ Wz A2).
  split; auto. split; [discriminate|]. split; auto. split; [discriminate|]. split; auto.
  intros N1 N2. apply String.eqb_neq in N1, N2. rewrite N1, N2 in EM. cbn in EM.
  destruct EM as (e & E1 & E2). rewrite (rf_emit _ _ R _ E1).
  apply (ext_hasn _ _ _ _ _ Ez) in E2. rewrite (hasn_lookup _ _ _ _ Wz E2).
  split; [reflexivity|discriminate].
Qed.
Print Assumptions C11_object_references.

Example C11_case :
  exists l, run true demo api_init = Some (demo_state, l) /\
    demo = firstn 8 demo ++ FrMesh "m2" "sdf_sphere" "default" "fog" "null" "" 4 :: skipn 9 demo /\
    nth_error l (length (firstn 8 demo)) = Some (Ret tt) /\
    refers (FrMesh "m2" "sdf_sphere" "default" "fog" "null" "" 4)
      = [(KMedia, "fog"); (KMedia, "null")] /\
    nth_error l 1 = Some (Ret tt) /\ lookup demo_state KMesh "m1" <> None.
Proof.
  exists (repeat (Ret tt) 14). split; [exact demo_runs|]. repeat split. discriminate.
Qed.

(** ** C12: reserved names *)
Theorem C12_reserved_names : forall clocking s k,
  reached clocking s ->
  (forall n, means_none k n = true -> lookup s k n = None /\ denotes s (k, n) = None) /\
  (forall d, builtin_default k = Some d -> lookup s k "default" <> None ->
     def_of s k "default" = Some d) /\
  (lookup s KMat "default" <> None ->
     exists b, lookup s KBsdf "default" = Some b /\
       def_of s KMat "default" = Some (Pay "simple_material" [Some b] 0)).
Proof.
  intros b s k R. pose proof (reached_wf _ _ R) as W. split; [|split].
  - intros n MN. split; [|unfold denotes; cbn; now rewrite MN].
    destruct (lookup s k n) as [p|] eqn:L; auto. apply (lookup_hasn _ _ _ _ W) in L as (nd & H & K & N).
    pose proof (ok_null _ _ (wf_nodes _ W _ _ H)) as Z. rewrite null_means, K, N in Z. congruence.
  - intros d B L. unfold def_of. destruct (lookup s k "default") as [p|] eqn:E; [|congruence].
    apply (lookup_hasn _ _ _ _ W) in E as (nd & H & K & N). rewrite H.
    apply (ok_builtin _ _ (wf_nodes _ W _ _ H)); auto. rewrite K. exact B.
  - intros L. unfold def_of. destruct (lookup s KMat "default") as [p|] eqn:E; [|congruence].
    apply (lookup_hasn _ _ _ _ W) in E as (nd & H & K & N). rewrite H.
    destruct (ok_mat _ _ (wf_nodes _ W _ _ H) K N) as (bp & HB & D).
    exists bp. split; [now apply hasn_lookup|exact D].
Qed.
Print Assumptions C12_reserved_names.
Example C12_case : reached true demo_state /\
  lookup demo_state KFilter "default" <> None /\ lookup demo_state KMat "default" <> None /\
  lookup demo_state KPhase "default" <> None /\ means_none KTexture "" = true.
Proof. split; [apply demo_reached|]. repeat split; discriminate. Qed.

(** ** C13: an error makes the renderer unusable *)
Theorem C13_recovery_refuted : exists h c,
  (exists s l, run true h api_init = Some (s, l) /\ In (Exn "sampler already defined") l /\
     defines c = Some (KCamera, "camera", "perspective", 0) /\ supported c = true /\
     def_of s KCamera "camera" = None /\
     exists s', run_call true c s = (s', Exn "api already active")).
Proof.
  exists [FrSampler "s" "independent" 0; FrSampler "s" "independent" 1],
    (FrCamera "camera" "perspective" 0).
  do 2 eexists. split; [reflexivity|]. split; [simpl; auto|].
  repeat split. eexists. reflexivity.
Qed.
Print Assumptions C13_recovery_refuted.

(** whatever raised, and whatever follows: every later call and the final flush fail with
    the same message and change nothing *)
Theorem C13_error_blocks_everything : forall c s s' e,
  run_call true c s = (s', Exn e) ->
  (forall h, run true h s' = Some (s', map (fun _ => Exn "api already active") h)) /\
  (forall objs ems meds, flush true objs ems meds s' = Exn "api already active").
Proof.
  intros c s s' e E. pose proof (call_clk c s) as L. rewrite E in L. cbn in L. split.
  - intros h. now apply running_history.
  - intros. now apply running_flush.
Qed.
Print Assumptions C13_error_blocks_everything.
Example C13_case : exists s', run_call true (FrSampler "sampler" "independent" 5) demo_state = (s', Exn "sampler already defined").
Proof. eexists. reflexivity. Qed.

(** ** C14: objects with equal names *)
Theorem C14_taken_name_refuted : exists s o,
  reached true s /\ clk s = false /\ lookup s KObject "o1" = Some o /\
  forall mesh mat em, exists s',
    run_call true (FrObject "o1" mesh mat em) s = (s', Exn "api already active") /\
    heap s' = heap s.
Proof.
  assert (L : exists o, lookup demo_state KObject "o1" = Some o) by (eexists; reflexivity).
  destruct L as (o & L). exists demo_state, o. split; [apply demo_reached|].
  assert (C : clk demo_state = false) by reflexivity.
  split; [exact C|]. split; [exact L|]. intros mesh mat em.
  eexists. split.
  - eapply object_clocked_taken; eauto. eapply reached_wf. apply demo_reached.
  - reflexivity.
Qed.
Print Assumptions C14_taken_name_refuted.

(** exact behaviour with the repository's configuration: a free name works, a taken name
    never does *)
Theorem C14_clocked_object : forall s name mesh mat em,
  reached true s -> clk s = false ->
  match lookup s KObject name with
  | None => exists s', run_call true (FrObject name mesh mat em) s = (s', Ret tt)
  | Some _ => exists s', run_call true (FrObject name mesh mat em) s
                         = (s', Exn "api already active")
  end.
Proof.
  intros s name mesh mat em R C. pose proof (reached_wf _ _ R) as W.
  destruct (lookup s KObject name) as [o|] eqn:L.
  - eexists. eapply object_clocked_taken; eauto.
  - now apply object_clocked_free.
Qed.
Print Assumptions C14_clocked_object.

(** with the clocking macros off, adding an object always succeeds and adds one object
    with the requested parts *)
Theorem C14_unclocked_object : forall s name mesh mat em,
  reached false s ->
  exists s', run_call false (FrObject name mesh mat em) s = (s', Ret tt) /\
    object_added s s' mesh mat em.
Proof.
  intros s name mesh mat em R. pose proof (reached_wf _ _ R) as W.
  destruct (object_unclocked name mesh mat em s W) as (s' & E). exists s'. split; auto.
  pose proof (call_good false (FrObject name mesh mat em) s W) as G. rewrite E in G.
  destruct G as [S [_ (o & nd & Lo & Ho & K & (m & M1 & M2) & (a & A1 & A2) & T & EM)]].
  assert (W' : wf s') by (eapply steps_wf; eauto).
  exists o, nd. split; [now apply nth_error_None|]. split; auto. split; auto.
  split; [apply hasn_lookup; auto; exists nd; auto|].
  rewrite M1, A1, (hasn_lookup _ _ _ _ W' M2), (hasn_lookup _ _ _ _ W' A2).
  split; auto. split; [discriminate|]. split; auto. split; [discriminate|]. split; auto.
  destruct (String.eqb em "") eqn:E0; [now rewrite orb_true_r in EM|].
  rewrite orb_false_r in EM. unfold denotes. cbn [fst snd means_none].
  destruct (String.eqb em "null"); auto. destruct EM as (e & E1 & E2).
  rewrite E1. symmetry. now apply hasn_lookup.
Qed.
Print Assumptions C14_unclocked_object.
Example C14_case : exists s, reached false s /\ lookup s KObject "o" <> None /\
  lookup s KObject "o_0" <> None.
Proof.
  exists (after false [FrObject "o" "m" "default" ""; FrObject "o" "m" "default" "l"]).
  split; [apply after_reached; ev; discriminate|]. split; ev; discriminate.
Qed.

(** ** C15: each shape is mapped to its own object *)
Theorem C15_shape_object_correspondence : forall clocking s objs ems meds w,
  reached clocking s -> Permutation objs (entries s KObject) ->
  flush clocking objs ems meds s = Ret w ->
  w_objects w = objs /\ map Some (w_shapes w) = map (obj_mesh s) objs /\
  forall n o m, lookup s KObject n = Some o -> obj_mesh s o = Some m ->
    (forall n' o', lookup s KObject n' = Some o' -> obj_mesh s o' = Some m -> o' = o) ->
    nth_error (w_objects w) (w_inst w m) = Some o /\
    nth_error (w_shapes w) (w_inst w m) = Some m /\
    w_tf w m = obj_transform s o.
Proof.
  intros b s objs ems meds w R P H. pose proof (reached_wf _ _ R) as W.
  pose proof (flush_shapes _ _ _ _ _ _ H) as [S1 S2]. split; auto. split; auto.
  intros n o m L M U.
  assert (I : In o objs).
  { apply (Permutation_in _ (Permutation_sym P)). apply in_entries; eauto. }
  assert (ND : NoDup objs) by (apply (Permutation_NoDup (Permutation_sym P)), nodup_entries, W).
  apply in_split in I as (l1 & l2 & ->).
  assert (V : forall q, In q (l1 ++ l2) -> obj_mesh s q <> Some m).
  { intros q Q E. apply NoDup_remove in ND as [_ ND].
    assert (In q (entries s KObject)) as J.
    { apply (Permutation_in _ P). apply in_app_or in Q. apply in_or_app. simpl. tauto. }
    apply (in_entries s KObject q W) in J as (n' & J). rewrite (U n' q J E) in Q. tauto. }
  destruct (flush_inst _ _ _ _ _ _ _ _ _ H M) as (_ & I1 & I2).
  { intros q Q. apply V. apply in_or_app. auto. }
  split; auto. split; auto.
  rewrite (flush_tf _ _ _ _ _ _ m H), (users_single s m l1 o l2 M V). apply tf_mul_id_r.
Qed.
Print Assumptions C15_shape_object_correspondence.

(** and an emitter named by one object only is given that object's mesh *)
Theorem C15_emitter_mesh : forall clocking s objs ems meds w n o e,
  reached clocking s -> Permutation objs (entries s KObject) ->
  flush clocking objs ems meds s = Ret w ->
  lookup s KObject n = Some o -> obj_emitter s o = Some e ->
  (forall n' o', lookup s KObject n' = Some o' -> obj_emitter s o' = Some e -> o' = o) ->
  w_emesh w e = obj_mesh s o.
Proof.
  intros b s objs ems meds w n o e R P H L M U. pose proof (reached_wf _ _ R) as W.
  assert (I : In o objs).
  { apply (Permutation_in _ (Permutation_sym P)). apply in_entries; eauto. }
  assert (ND : NoDup objs) by (apply (Permutation_NoDup (Permutation_sym P)), nodup_entries, W).
  apply in_split in I as (l1 & l2 & ->).
  eapply flush_emesh; eauto.
  intros q Q E. apply NoDup_remove in ND as [_ ND].
  assert (In q (entries s KObject)) as J.
  { apply (Permutation_in _ P). apply in_or_app. simpl. tauto. }
  apply (in_entries s KObject q W) in J as (n' & J). rewrite (U n' q J E) in Q.
  apply ND, in_or_app. auto.
Qed.
Print Assumptions C15_emitter_mesh.

Lemma demo_objects : exists o1 o2 m1 m2,
  entries demo_state KObject = [o1; o2] /\ o1 <> o2 /\ m1 <> m2 /\
  obj_mesh demo_state o1 = Some m1 /\ obj_mesh demo_state o2 = Some m2.
Proof. do 4 eexists. split; [reflexivity|]. repeat split; discriminate. Qed.
Example C15_case : reached true demo_state /\ exists w,
  flush true (rev (entries demo_state KObject)) (entries demo_state KEmitter)
    (entries demo_state KMedia) demo_state = Ret w /\ length (w_shapes w) = 2 /\
  Permutation (rev (entries demo_state KObject)) (entries demo_state KObject).
Proof.
  split; [apply demo_reached|]. eexists. split; [reflexivity|].
  split; [reflexivity|]. apply Permutation_sym, Permutation_rev.
Qed.

(** ** C16: a shared mesh *)
Definition shared : list call :=
  [ FrScene "integrator" "sampler" "camera" "null";
    FrIntegrator "integrator" "path" "default" 0;
    FrSampler "sampler" "independent" 1;
    FrCamera "camera" "perspective" 2;
    FrMesh "m" "sdf_sphere" "" "null" "null" "" 3;
    FrObject "a" "m" "red" "null";
    FrTransform (TTranslate shift);
    FrObject "b" "m" "blue" "null" ].

Definition shared_state :=
  Eval cbv -[tf_mul tf_of tf_id m4_translate shift] in after true shared.
Lemma shared_reached : reached true shared_state.
Proof. exists shared, (repeat (Ret tt) 8). ev. reflexivity. Qed.

(** both shapes of the scene carry the number of the same object, so one of the two
    objects (with its material) is never found *)
Theorem C16_shared_mesh_refuted : exists s a b w,
  reached true s /\ lookup s KObject "a" = Some a /\ lookup s KObject "b" = Some b /\ a <> b /\
  flush true (entries s KObject) (entries s KEmitter) (entries s KMedia) s = Ret w /\
  (exists na nb, nth_error (heap s) a = Some na /\ nth_error (heap s) b = Some nb /\
     omat na <> omat nb) /\
  obj_transform s a <> obj_transform s b /\
  forall i m, nth_error (w_shapes w) i = Some m ->
    nth_error (w_objects w) (w_inst w m) = Some b /\ w_tf w m = obj_transform s b.
Proof.
  exists shared_state. do 3 eexists.
  split; [apply shared_reached|]. split; [reflexivity|]. split; [reflexivity|].
  split; [discriminate|].
  split; [reflexivity|]. split.
  - do 2 eexists. split; [reflexivity|]. split; [reflexivity|]. discriminate.
  - split.
    + intros E. apply (f_equal (fun t => n3 (tmat t))) in E. revert E.
      unfold shift. cbn. lra.
    + intros [|[|i]] m; intros H; try (destruct i; discriminate);
        injection H as <-; (split; [reflexivity|]); ev; now rewrite !tf_mul_id_r.
Qed.
Print Assumptions C16_shared_mesh_refuted.

(** what happens in general: the scene's shape is owned by the last object in iteration
    order that uses the mesh, and its transform is the product of all their transforms *)
Theorem C16_shared_mesh_behaviour : forall clocking s objs ems meds w m l1 o l2,
  reached clocking s -> flush clocking objs ems meds s = Ret w ->
  objs = l1 ++ o :: l2 -> obj_mesh s o = Some m ->
  (forall q, In q l2 -> obj_mesh s q <> Some m) ->
  (forall i, nth_error (w_shapes w) i = Some m -> nth_error (w_objects w) (w_inst w m) = Some o) /\
  w_tf w m = stacked s (users s m objs) /\
  length (users s m objs) = count_occ Nat.eq_dec (w_shapes w) m.
Proof.
  intros b s objs ems meds w m l1 o l2 R H -> M U.
  destruct (flush_inst _ _ _ _ _ _ _ _ _ H M U) as (_ & I1 & _).
  split; [auto|]. split; [now apply flush_tf with (1 := H)|].
  pose proof (flush_shapes _ _ _ _ _ _ H) as [_ S2]. clear -S2.
  revert S2. generalize (w_shapes w) as sh. generalize (l1 ++ o :: l2) as l.
  induction l as [|q l IH]; intros [|a sh] E; try discriminate; auto.
  cbn [map] in E. injection E as E1 E2. cbn [count_occ users filter]. rewrite <- E1.
  specialize (IH _ E2). unfold users in IH. destruct (Nat.eq_dec a m) as [->|NE].
  - rewrite Nat.eqb_refl. cbn. now rewrite IH.
  - destruct (Nat.eqb_spec a m); [contradiction|]. exact IH.
Qed.
Print Assumptions C16_shared_mesh_behaviour.
Example C16_case : exists w o1 o2 m,
  flush true (entries shared_state KObject) [] (entries shared_state KMedia) shared_state = Ret w /\
  entries shared_state KObject = [o1] ++ o2 :: [] /\
  obj_mesh shared_state o1 = Some m /\ obj_mesh shared_state o2 = Some m.
Proof. do 4 eexists. repeat split; reflexivity. Qed.

(** ** C18: emitters *)
Theorem C18_emitters_once : forall clocking s n d,
  reached clocking s -> def_of s KEmitter n = Some d ->
  exists x p, scn s = Some x /\ lookup s KEmitter n = Some p /\
    count_occ Nat.eq_dec (s_emit x) p = (if String.eqb (pty d) "environment" then 0 else 1) /\
    count_occ Nat.eq_dec (s_env x) p = (if String.eqb (pty d) "environment" then 1 else 0).
Proof.
  intros b s n d R D. pose proof (reached_wf _ _ R) as W.
  unfold def_of in D. destruct (lookup s KEmitter n) as [p|] eqn:L; [|discriminate].
  pose proof (lookup_hasn _ _ _ _ W L) as (nd & H & K & N). rewrite H in D.
  assert (E : emitter_def s p d) by (exists nd; auto).
  pose proof (wf_scene _ W) as SK. unfold scene_ok in SK.
  destruct (scn s) as [x|]; [|destruct (SK _ _ E)].
  destruct SK as (N1 & N2 & I1 & I2 & _). exists x, p. split; auto. split; auto.
  assert (F : forall d', emitter_def s p d' -> d' = d).
  { intros d' (nd' & H' & _ & D'). congruence. }
  assert (C1 : forall l, NoDup l -> In p l -> count_occ Nat.eq_dec l p = 1).
  { intros l ND I. rewrite (NoDup_count_occ Nat.eq_dec) in ND. specialize (ND p).
    apply (count_occ_In Nat.eq_dec) in I. lia. }
  destruct (String.eqb_spec (pty d) "environment") as [T|T].
  - split.
    + apply count_occ_not_In. intros I. apply I1 in I as (d' & E' & T').
      rewrite (F _ E') in T'. contradiction.
    + apply C1; auto. apply I2. eauto.
  - split.
    + apply C1; auto. apply I1. eauto.
    + apply count_occ_not_In. intros I. apply I2 in I as (d' & E' & T').
      rewrite (F _ E') in T'. contradiction.
Qed.
Print Assumptions C18_emitters_once.

(** and nothing else is in either list *)
Theorem C18_only_emitters : forall clocking s x p,
  reached clocking s -> scn s = Some x -> In p (s_emit x ++ s_env x) ->
  exists n d, lookup s KEmitter n = Some p /\ def_of s KEmitter n = Some d.
Proof.
  intros b s x p R S I. pose proof (reached_wf _ _ R) as W.
  pose proof (wf_scene _ W) as SK. unfold scene_ok in SK. rewrite S in SK.
  destruct SK as (_ & _ & I1 & I2 & _).
  assert (E : exists d, emitter_def s p d).
  { apply in_app_or in I as [I|I]; [apply I1 in I|apply I2 in I]; destruct I as (d & E & _); eauto. }
  destruct E as (d & nd & H & K & D). exists (nname nd), d.
  assert (L : lookup s KEmitter (nname nd) = Some p) by (apply hasn_lookup; auto; exists nd; auto).
  split; auto. unfold def_of. now rewrite L, H.
Qed.
Print Assumptions C18_only_emitters.
Example C18_case : exists x d d', reached true demo_state /\
  def_of demo_state KEmitter "light" = Some d /\ def_of demo_state KEmitter "sky" = Some d' /\
  scn demo_state = Some x /\ length (s_emit x ++ s_env x) = 2.
Proof. do 3 eexists. split; [apply demo_reached|]. repeat split. Qed.

(** ** C78: a first definition of a supported type succeeds *)
Theorem C78_first_definition_succeeds : forall clocking s c k n t d,
  reached clocking s -> (clocking = true -> clk s = false) ->
  defines c = Some (k, n, t, d) -> supported c = true ->
  means_none k n = false -> reserved k n = false -> def_of s k n = None ->
  (k = KEmitter -> scn s <> None) ->
  exists s', run_call clocking c s = (s', Ret tt) /\
    def_of s' k n = Some (Pay t (map (denotes s') (refers c)) d) /\
    (clocking = true -> clk s' = false).
Proof.
  intros b s c k n t d R C DC SU MN RS D0 SC. pose proof (reached_wf _ _ R) as W.
  destruct (definition_succeeds b c s k n t d W C DC SU MN RS D0 SC) as (s' & E).
  exists s'. split; auto. split.
  - pose proof (call_good b c s W) as G. rewrite E in G. destruct G as [S2 [P _]].
    assert (W2 : wf s') by (eapply steps_wf; eauto).
    apply (defined_later c s'); auto using ext_refl.
  - intros ->. pose proof (call_clk c s) as L. now rewrite E in L.
Qed.
Print Assumptions C78_first_definition_succeeds.
Example C78_case : reached true demo_state /\ clk demo_state = false /\
  supported (FrEmitter "lamp" "point" "" 3) = true /\ scn demo_state <> None /\
  def_of demo_state KEmitter "lamp" = None /\
  supported (FrMesh "m3" "grid" "g" "null" "null" "height" 3) = true.
Proof. split; [apply demo_reached|]. repeat split. discriminate. Qed.

(** ** C79: defining a name that stands for "nothing" *)
Theorem C79_none_name_refuted : exists c s,
  reached true s /\ clk s = false /\ supported c = true /\
  defines c = Some (KEmitter, "null", "point", 0) /\
  snd (run_call true c s) = Crash.
Proof.
  exists (FrEmitter "null" "point" "" 0), demo_state.
  split; [apply demo_reached|]. repeat split.
Qed.
Print Assumptions C79_none_name_refuted.
(** for every call and every such name, whatever the state *)
Theorem C79_none_name_always_crashes : forall clocking c s k n t d,
  (clocking = true -> clk s = false) ->
  defines c = Some (k, n, t, d) -> means_none k n = true ->
  snd (run_call clocking c s) = Crash.
Proof. exact none_crashes. Qed.
Print Assumptions C79_none_name_always_crashes.
Example C79_case : clk demo_state = false /\
  defines (FrTexture "" "sin" 4) = Some (KTexture, "", "sin", 4) /\ means_none KTexture "" = true.
Proof. repeat split. Qed.

(** ** C80: exactly the complete descriptions can be rendered *)
Theorem C80_complete_iff_flush : forall clocking s x objs ems meds,
  reached clocking s -> (clocking = true -> clk s = false) -> scn s = Some x ->
  Permutation objs (entries s KObject) -> Permutation ems (entries s KEmitter) ->
  Permutation meds (entries s KMedia) ->
  (complete s x <-> exists w, flush clocking objs ems meds s = Ret w).
Proof.
  intros b s x objs ems meds R C SC PO PE PM. pose proof (reached_wf _ _ R) as W. split.
  - intros K. eapply complete_flush; eauto. destruct b; auto.
  - intros (w & H). eapply flush_complete; eauto.
Qed.
Print Assumptions C80_complete_iff_flush.
(** an object whose mesh was never defined is reported *)
Theorem C80_missing_mesh_reported : forall clocking s x n o m l1 l2 ems meds,
  reached clocking s -> (clocking = true -> clk s = false) -> scn s = Some x ->
  Permutation (l1 ++ o :: l2) (entries s KObject) ->
  lookup s KObject n = Some o -> obj_mesh s o = Some m ->
  ~ has_def s m ->
  (forall q mq, In q l1 -> obj_mesh s q = Some mq -> has_def s mq) ->
  flush clocking (l1 ++ o :: l2) ems meds s = Exn "mesh is not initialized".
Proof.
  intros b s x n o m l1 l2 ems meds R C SC P L M U F. pose proof (reached_wf _ _ R) as W.
  assert (G : forall l w, (forall q, In q l -> In q l1) ->
     loopE (flush_object s) (l ++ o :: l2) w = Exn "mesh is not initialized").
  { induction l as [|a l IH]; intros w I.
    - cbn [app loopE]. unfold flush_object. unfold obj_mesh in M.
      destruct (nth_error (heap s) o) as [nd|] eqn:E; [|discriminate]. rewrite M.
      pose proof (ok_mesh _ _ (wf_nodes _ W _ _ E)) as OM. rewrite M in OM.
      destruct OM as (mn & md & H & _). rewrite H.
      destruct (ndef md) as [d|] eqn:D; auto. exfalso. apply U. exists md, d. auto.
    - cbn [app loopE].
      assert (J : In a (entries s KObject)).
      { apply (Permutation_in _ P), in_or_app. left. apply I. now left. }
      apply (in_entries _ _ _ W) in J as (na & J).
      pose proof (lookup_hasn _ _ _ _ W J) as (nd & H & K & _).
      destruct (ok_obj _ _ (wf_nodes _ W _ _ H) K) as (ma & MA).
      destruct (F a ma) as (md & d & H2 & D); [apply I; now left|unfold obj_mesh; now rewrite H|].
      unfold flush_object at 1. rewrite H, MA, H2, D. apply IH. intros q Q. apply I. now right. }
  unfold flush. replace (b && clk s)%bool with false by (destruct b; [rewrite C|]; auto).
  rewrite SC, G; auto.
Qed.
Print Assumptions C80_missing_mesh_reported.
Example C80_case : exists x, reached true demo_state /\ scn demo_state = Some x /\
  complete demo_state x.
Proof.
  eexists. split; [apply demo_reached|]. split; [reflexivity|].
  apply (flush_complete true demo_state _ (entries demo_state KObject)
    (entries demo_state KEmitter) (entries demo_state KMedia)
    (reached_wf _ _ demo_reached) eq_refl (Permutation_refl _) (Permutation_refl _)
    (Permutation_refl _) _ eq_refl).
Qed.
Example C80_missing_case : exists s o m,
  reached true s /\ clk s = false /\ scn s <> None /\ entries s KObject = [o] /\
  obj_mesh s o = Some m /\ ~ has_def s m.
Proof.
  exists (after true [FrScene "i" "s" "c" "null"; FrObject "o" "m" "default" "null"]).
  do 2 eexists. split; [apply after_reached; ev; discriminate|].
  split; [ev; reflexivity|]. split; [ev; discriminate|]. split; [ev; reflexivity|].
  split; [ev; reflexivity|].
  intros (nd & d & H & D). revert H. ev. intros [= <-]. discriminate D.
Qed.

(** ** C81: reconstruction filters other than "default" *)
Theorem C81_named_filter_refuted : exists s x w d f,
  reached true s /\ scn s = Some x /\
  flush true (entries s KObject) (entries s KEmitter) (entries s KMedia) s = Ret w /\
  def_of s KIntegrator "integrator" = Some d /\ lookup s KIntegrator "integrator" = Some (s_integ x) /\
  prefs d = [Some f] /\ ~ has_def s f.
Proof.
  pose (z := after true [FrScene "integrator" "sampler" "camera" "null";
    FrIntegrator "integrator" "path" "gauss" 0;
    FrSampler "sampler" "independent" 1; FrCamera "camera" "perspective" 2]).
  exists z. do 4 eexists. split; [apply after_reached; ev; discriminate|].
  split; [ev; reflexivity|]. split; [ev; reflexivity|]. split; [ev; reflexivity|].
  split; [ev; reflexivity|]. split; [ev; reflexivity|].
  intros (nd & d & H & D). revert H. ev. intros [= <-]. discriminate D.
Qed.
Print Assumptions C81_named_filter_refuted.
(** in no history does another filter name ever receive a filter *)
Theorem C81_only_default_filter : forall clocking s n d,
  reached clocking s -> def_of s KFilter n = Some d ->
  n = "default" /\ d = Pay "gauss" [] 0.
Proof.
  intros b s n d R D. pose proof (reached_wf _ _ R) as W.
  unfold def_of in D. destruct (lookup s KFilter n) as [p|] eqn:L; [|discriminate].
  pose proof (lookup_hasn _ _ _ _ W L) as (nd & H & K & N). rewrite H in D.
  pose proof (wf_nodes _ W _ _ H) as O.
  destruct (String.string_dec n "default") as [->|NE].
  - split; auto. assert (X : ndef nd = Some gauss_filter).
    { apply (ok_builtin _ _ O); auto. rewrite K. reflexivity. }
    unfold gauss_filter in X. congruence.
  - exfalso. assert (X : ndef nd = None) by (apply (ok_filter _ _ O); congruence). congruence.
Qed.
Print Assumptions C81_only_default_filter.
Example C81_case : reached true demo_state /\ def_of demo_state KFilter "default" <> None.
Proof. split; [apply demo_reached|discriminate]. Qed.
