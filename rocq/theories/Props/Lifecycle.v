(** Shared emitters, clean-up, several renders in one process, and which shapes a ray can hit. *)
From Coq Require Import String List Bool Arith Lia Permutation Reals Lra.
From Coquelicot Require Import Rbar.
From Verif.Base Require Import Outcome.
From Verif.Model Require Import Vec Matrix BBox SDF ApiTransform Api Lifecycle.
From Verif.Spec Require Import ApiSpec LifecycleSpec.
From Verif.Proof Require Import ApiBase ApiClock ApiProof ApiFlush LifecycleProof.
From Verif.Props Require Import Api.
Import ListNotations.
Open Scope string_scope.
Open Scope list_scope.

(** ** C162: an emitter named by several objects *)
Theorem C162_last_wins : forall clocking s l1 o l2 ems meds w e,
  reached clocking s -> flush clocking (l1 ++ o :: l2) ems meds s = Ret w ->
  obj_emitter s o = Some e -> (forall q, In q l2 -> obj_emitter s q <> Some e) ->
  w_emesh w e = obj_mesh s o.
Proof. intros. eapply flush_emesh; eauto. Qed.
Print Assumptions C162_last_wins.

Definition two_lamps : list call :=
  [ FrScene "integrator" "sampler" "camera" "null";
    FrEmitter "light" "mesh" "" 8;
    FrObject "a" "m1" "default" "light";
    FrObject "b" "m2" "default" "light";
    FrIntegrator "integrator" "path" "default" 0;
    FrSampler "sampler" "independent" 1;
    FrCamera "camera" "perspective" 2;
    FrMesh "m1" "triangle_mesh" "default" "null" "null" "" 3;
    FrMesh "m2" "triangle_mesh" "default" "null" "null" "" 4 ].
Definition lamps_state := Eval cbv -[tf_mul tf_of tf_id m4_translate shift] in after true two_lamps.
Lemma lamps_reached : reached true lamps_state.
Proof. exists two_lamps, (repeat (Ret tt) 9). ev. reflexivity. Qed.

Definition world_of (r : exit world) : world := match r with Ret w => w | _ => world0 end.
Definition lamps_ab := Eval cbv -[tf_mul tf_of tf_id m4_translate shift] in
  flush true [4; 8]%nat (entries lamps_state KEmitter) (entries lamps_state KMedia) lamps_state.
Definition lamps_ba := Eval cbv -[tf_mul tf_of tf_id m4_translate shift] in
  flush true [8; 4]%nat (entries lamps_state KEmitter) (entries lamps_state KMedia) lamps_state.
Lemma lamps_ab_ok : flush true [4; 8]%nat (entries lamps_state KEmitter) (entries lamps_state KMedia) lamps_state
  = Ret (world_of lamps_ab).
Proof. ev. reflexivity. Qed.
Lemma lamps_ba_ok : flush true [8; 4]%nat (entries lamps_state KEmitter) (entries lamps_state KMedia) lamps_state
  = Ret (world_of lamps_ba).
Proof. ev. reflexivity. Qed.

(** the light is sampled on one of the two lamps only, and which one depends on the order of a hash
    table *)
Theorem C162_both_sampled_refuted : exists s a b e ma mb w w',
  reached true s /\ lookup s KObject "a" = Some a /\ lookup s KObject "b" = Some b /\
  obj_emitter s a = Some e /\ obj_emitter s b = Some e /\
  obj_mesh s a = Some ma /\ obj_mesh s b = Some mb /\ ma <> mb /\
  flush true [a; b] (entries s KEmitter) (entries s KMedia) s = Ret w /\
  flush true [b; a] (entries s KEmitter) (entries s KMedia) s = Ret w' /\
  w_emesh w e = Some mb /\ w_emesh w' e = Some ma.
Proof.
  exists lamps_state, 4%nat, 8%nat, 3%nat, 5%nat, 9%nat, (world_of lamps_ab), (world_of lamps_ba).
  split; [apply lamps_reached|]. do 6 (split; [reflexivity|]). split; [discriminate|].
  split; [exact lamps_ab_ok|]. split; [exact lamps_ba_ok|]. split; reflexivity.
Qed.
Print Assumptions C162_both_sampled_refuted.
Example C162_case : exists l1 o l2 e w, reached true lamps_state /\
  flush true (l1 ++ o :: l2) (entries lamps_state KEmitter) (entries lamps_state KMedia) lamps_state = Ret w /\
  obj_emitter lamps_state o = Some e /\ l1 <> [] /\ (forall q, In q l2 -> obj_emitter lamps_state q <> Some e).
Proof.
  exists [4%nat], 8%nat, [], 3%nat, (world_of lamps_ab). split; [apply lamps_reached|].
  split; [exact lamps_ab_ok|].
  split; [reflexivity|]. split; [discriminate|]. intros q [].
Qed.

(** ** C163: clean-up *)
(** whatever was described and in whatever order the tables are walked: nothing is freed twice, and
    what is freed is everything created but the listed leaks *)
Theorem C163_freed_exactly : forall clocking s x w order target l,
  reached clocking s -> scn s = Some x -> (forall k, Permutation (order k) (entries s k)) ->
  flush clocking (order KObject) (order KEmitter) (order KMedia) s = Ret w ->
  clean_up order s x w = Ok l ->
  NoDup l /\ forall o, In o l <->
    created s x (order KObject) target o /\ ~ leaked s (order KObject) o.
Proof.
  intros b s x w order target l R X O F C. pose proof (flush_shapes _ _ _ _ _ _ F) as [E _].
  rewrite <- E. apply clean_exact with (order := order); auto. eapply reached_wf; eauto.
Qed.
Print Assumptions C163_freed_exactly.

(** clean-up is defined exactly when no photon integrator is left unused *)
Theorem C163_defined_iff : forall clocking s x w order,
  reached clocking s -> (forall k, Permutation (order k) (entries s k)) ->
  (exists l, clean_up order s x w = Ok l) <->
  (forall p, holds s p KIntegrator "photon" -> p = s_integ x).
Proof. intros b s x w order R O. apply clean_defined; auto. eapply reached_wf; eauto. Qed.
Print Assumptions C163_defined_iff.

(** a successful render of a scene that also describes an unused photon integrator ends in undefined
    behaviour *)
Definition spare : list call :=
  [ FrScene "integrator" "sampler" "camera" "null";
    FrIntegrator "integrator" "path" "default" 0;
    FrIntegrator "other" "photon" "default" 3;
    FrSampler "sampler" "independent" 1;
    FrCamera "camera" "perspective" 2 ].
Definition spare_state := Eval cbv -[tf_mul tf_of tf_id m4_translate shift] in after true spare.
Theorem C163_unused_photon_refuted : exists s x w,
  reached true s /\ scn s = Some x /\
  flush true (entries s KObject) (entries s KEmitter) (entries s KMedia) s = Ret w /\
  clean_up (entries s) s x w = UB.
Proof.
  exists spare_state. do 2 eexists.
  split; [exists spare, (repeat (Ret tt) 5); ev; reflexivity|].
  split; [reflexivity|]. split; [reflexivity|]. reflexivity.
Qed.
Print Assumptions C163_unused_photon_refuted.

(** and the demo scene with a medium leaves a boundary behind, with a named transmittance function also
    that node and what it holds *)
Definition foggy : list call := demo ++ [FrMedia "mist" "default" "default" "ray" "d" "default" 5].
Definition foggy_state := Eval cbv -[tf_mul tf_of tf_id m4_translate shift] in after true foggy.
Lemma foggy_reached : reached true foggy_state.
Proof. exists foggy, (repeat (Ret tt) 15). ev. reflexivity. Qed.
Definition foggy_flush := Eval cbv -[tf_mul tf_of tf_id m4_translate shift] in
  flush true (entries foggy_state KObject) (entries foggy_state KEmitter) (entries foggy_state KMedia) foggy_state.
Lemma foggy_flush_ok :
  flush true (entries foggy_state KObject) (entries foggy_state KEmitter) (entries foggy_state KMedia) foggy_state
  = Ret (world_of foggy_flush).
Proof. ev. reflexivity. Qed.
Definition foggy_scene := Eval cbv -[tf_mul tf_of tf_id m4_translate shift] in
  match scn foggy_state with Some x => x | None => Scn 0 0 0 None [] [] None end.
Definition foggy_freed := Eval cbv in
  match clean_up (entries foggy_state) foggy_state foggy_scene (world_of foggy_flush) with Ok l => l | _ => [] end.
Lemma foggy_freed_ok : clean_up (entries foggy_state) foggy_state foggy_scene (world_of foggy_flush) = Ok foggy_freed.
Proof. now vm_compute. Qed.
Theorem C163_leak_refuted : exists s x w l p m,
  reached true s /\ scn s = Some x /\
  flush true (entries s KObject) (entries s KEmitter) (entries s KMedia) s = Ret w /\
  clean_up (entries s) s x w = Ok l /\
  lookup s KTransFunc "default" = Some p /\ lookup s KMesh "m2" = Some m /\
  created s x (entries s KObject) true (ONode p) /\ ~ In (ONode p) l /\
  created s x (entries s KObject) true (OThing p) /\ ~ In (OThing p) l /\
  created s x (entries s KObject) true (OBoundary m) /\ ~ In (OBoundary m) l.
Proof.
  exists foggy_state, foggy_scene, (world_of foggy_flush), foggy_freed. do 2 eexists. split; [apply foggy_reached|].
  split; [reflexivity|]. split; [exact foggy_flush_ok|]. split; [exact foggy_freed_ok|].
  split; [reflexivity|]. split; [reflexivity|].
  split; [econstructor; reflexivity|]. split; [simpl; intuition discriminate|].
  split; [constructor; do 2 eexists; split; reflexivity|]. split; [simpl; intuition discriminate|].
  split; [eapply new_boundary; [reflexivity|reflexivity|reflexivity|simpl; lia|discriminate]|].
  simpl; intuition discriminate.
Qed.
Print Assumptions C163_leak_refuted.
Example C163_case : exists x w l, reached true foggy_state /\ scn foggy_state = Some x /\
  (forall k, Permutation (entries foggy_state k) (entries foggy_state k)) /\
  flush true (entries foggy_state KObject) (entries foggy_state KEmitter) (entries foggy_state KMedia) foggy_state = Ret w /\
  clean_up (entries foggy_state) foggy_state x w = Ok l /\ (20 < length l)%nat.
Proof.
  exists foggy_scene, (world_of foggy_flush), foggy_freed.
  split; [apply foggy_reached|]. split; [reflexivity|]. split; [intros; apply Permutation_refl|].
  split; [exact foggy_flush_ok|]. split; [exact foggy_freed_ok|]. vm_compute. lia.
Qed.

(** ** C164: several renders in one process *)
(** whatever happened before initialize, what the caller sees afterwards is the same *)
Theorem C164_isolated : forall clocking P Q cs,
  snd (session clocking P (Initialize :: cs)) = snd (session clocking Q (Initialize :: cs)).
Proof.
  intros b P Q cs. cbn [session]. pose proof (initialize_sim b P Q) as S. cbn [Lifecycle.step fst] in *.
  apply (session_sim b cs) in S. destruct (session b _ cs), (session b _ cs). simpl in *. congruence.
Qed.
Print Assumptions C164_isolated.

(** without initialize, at the start or after a render, every call is undefined *)
Theorem C164_needs_initialize : forall c sdf,
  (forall clocking, snd (Lifecycle.step clocking proc0 (Do c sdf)) = Broken) /\
  (forall clocking P order P' w m, Lifecycle.step clocking P (Flush order) = (P', Rendered w m) ->
     snd (Lifecycle.step clocking P' (Do c sdf)) = Broken).
Proof.
  intros c sdf. split.
  - intros []; reflexivity.
  - intros b P order P' w m. cbn [Lifecycle.step]. unfold with_api at 1.
    destruct (b && clock_gone P); [discriminate|]. destruct (p_api P) as [|a|]; try discriminate.
    destruct (flush _ _ _ _ a); try discriminate. destruct (scn a); [|discriminate].
    destruct (clean_up _ _ _ _); try discriminate. intros [= <- _ _].
    unfold with_api. cbn. destruct (b && _); reflexivity.
Qed.
Print Assumptions C164_needs_initialize.

(** the shapes are rendered in the mode that the successful scene call of this session asked for *)
Theorem C164_mode : forall P cs order os w m,
  Forall (fun c => exists k sdf, c = Do k sdf) cs ->
  snd (session true P (Initialize :: cs ++ [Flush order])) = Quiet :: os ++ [Rendered w m] ->
  exists i sa ca me, In (Do (FrScene i sa ca me) m, Called (Ret tt)) (combine cs os).
Proof.
  intros P cs order os w m F. cbn [session Lifecycle.step].
  assert (G : forall cs past Q os, Forall (fun c => exists k sdf, c = Do k sdf) cs -> mode_from past Q ->
    snd (session true Q (cs ++ [Flush order])) = os ++ [Rendered w m] ->
    exists i sa ca me, In (Do (FrScene i sa ca me) m, Called (Ret tt)) (past ++ combine cs os)).
  { clear. induction cs as [|c cs IH]; intros past Q os F M; cbn [app session].
    - unfold mode_from in M. cbn [Lifecycle.step]. unfold with_api.
      destruct (true && clock_gone Q); [destruct os as [|? [|]]; discriminate|].
      destruct (p_api Q) as [|a|]; [destruct os as [|? [|]]; discriminate| |destruct os as [|? [|]]; discriminate].
      destruct (flush true _ _ _ a) as [w'| | |] eqn:FL; [|destruct os as [|? [|]]; discriminate..].
      destruct (scn a) as [x|] eqn:X; [|destruct os as [|? [|]]; discriminate].
      destruct (clean_up _ _ _ _); [|destruct os as [|? [|]]; discriminate..].
      destruct os as [|? [|]]; [|discriminate..]. intros [= _ <-]. cbn [combine]. rewrite app_nil_r.
      destruct M as [M|[M|M]]; [|congruence|exact M].
      rewrite running_flush in FL by exact M. discriminate.
    - inversion F as [|? ? (k & sdf & ->) F']; subst.
      pose proof (mode_step past Q (Do k sdf) M) as MS.
      destruct (Lifecycle.step true Q (Do k sdf)) as [Q' o]. cbn [fst snd] in MS.
      assert (NB : o <> Broken -> snd (let (P'', os0) := session true Q' (cs ++ [Flush order]) in (P'', o :: os0)) = os ++ [Rendered w m] ->
        exists i sa ca me, In (Do (FrScene i sa ca me) m, Called (Ret tt)) (past ++ combine (Do k sdf :: cs) os)).
      { intros NB H. destruct (session true Q' (cs ++ [Flush order])) as [P'' os'] eqn:E. cbn [snd] in H.
        destruct os as [|o' os].
        - cbn [app] in H. injection H as -> ->. exfalso.
          destruct cs as [|c cs]; cbn [app session] in E.
          + destruct (Lifecycle.step true Q' (Flush order)) as [? []]; discriminate.
          + destruct (Lifecycle.step true Q' c) as [? []];
              try discriminate; destruct (session true _ _); discriminate.
        - cbn [app] in H. injection H as -> H.
          destruct (IH (past ++ [(Do k sdf, o')]) Q' os F') as (i & sa & ca & me & I).
          + apply MS; auto. intros ?; discriminate.
          + rewrite E. exact H.
          + exists i, sa, ca, me. rewrite <- app_assoc in I. exact I. }
      destruct o; try (apply NB; discriminate).
      destruct os as [|? [|]]; discriminate. }
  intros H. destruct (session true _ (cs ++ [Flush order])) as [P'' os'] eqn:E. cbn [snd] in H.
  injection H as H. apply (G cs [] (Proc (Present api_init) Live (p_sdf P)) os); auto.
  - unfold mode_from. cbn. auto.
  - rewrite E. exact H.
Qed.
Print Assumptions C164_mode.
Definition small : list cmd :=
  [ Do (FrScene "integrator" "sampler" "camera" "null") false;
    Do (FrIntegrator "integrator" "path" "default" 0) false;
    Do (FrSampler "sampler" "independent" 1) false;
    Do (FrCamera "camera" "perspective" 2) false;
    Flush (fun k => match k with KFilter => [3] | KIntegrator => [0] | KSampler => [1] | KCamera => [2] | _ => [] end)%nat ].
Definition small_world := Eval cbv -[tf_mul tf_of tf_id m4_translate shift] in
  match last (snd (session true proc0 (Initialize :: small))) Quiet with Rendered w _ => w | _ => world0 end.
Example C164_case : exists w os,
  snd (session true proc0 (Initialize :: small ++ Initialize :: small)) =
    (Quiet :: os ++ [Rendered w false]) ++ (Quiet :: os ++ [Rendered w false]).
Proof. exists small_world, (repeat (Called (Ret tt)) 4). ev. reflexivity. Qed.

(** ** C165: a hit belongs to the mesh that was hit *)
(** for every list of shapes: Embree's answers are attributed to the right mesh exactly when no
    distance shape stands before a mesh *)
Theorem C165_right_iff : forall l,
  (forall dist rtc r, embree_ok dist rtc ->
     exists a, scene_hit rtc false l r = Ok a /\ nearest dist (filter is_tri l) r a) <->
  (forall g s, (g < length (filter is_tri l))%nat -> nth_error l g = Some s -> is_tri s = true).
Proof.
  intros l. split.
  - intros H g' s' L E'. destruct (H flat (naming g') (Ray (V3 0 0 0) (V3 0 0 1) (Finite 0) (Finite 100)) (naming_ok g')) as (a & A & B).
      unfold scene_hit, embree_hit in A. rewrite embree_of_lists in A. cbn [e_attached e_meshes] in A.
      unfold naming in A. destruct (nth_error (filter is_tri l) g') as [s2|] eqn:N2; [|apply nth_error_None in N2; lia].
      pose proof (proj1 (filter_In _ _ _) (nth_error_In _ _ N2)) as [_ T2]. destruct s2 as [m2|]; [|discriminate].
      unfold at_ in A. rewrite E' in A. cbn in A. injection A as <-. destruct B as (_ & B & _).
      unfold flat in B. destruct (is_tri s'); [reflexivity|discriminate].
  - intros H dist rtc r E. apply mesh_mode_ok; auto. now apply numbers_agree.
Qed.
Print Assumptions C165_right_iff.

(** scenes of meshes only are traced correctly; no index is ever out of range *)
Theorem C165_meshes_only : forall dist rtc l r, embree_ok dist rtc ->
  (exists a, scene_hit rtc false l r = Ok a) /\
  ((forall s, In s l -> is_tri s = true) -> exists a, scene_hit rtc false l r = Ok a /\ nearest dist l r a).
Proof.
  intros dist rtc l r E. split.
  - unfold scene_hit, embree_hit. rewrite embree_of_lists. cbn [e_attached e_meshes].
    specialize (E (filter is_tri l) r). destruct (rtc (filter is_tri l) r) as [[g t]|]; [|eauto].
    destruct E as (s & N & _). unfold at_.
    destruct (nth_error l g) as [s'|] eqn:G; [cbn; eauto|]. exfalso. apply nth_error_None in G.
    assert (g < length (filter is_tri l))%nat by (apply nth_error_Some; congruence).
    pose proof (filter_nth_le is_tri l). lia.
  - intros T. assert (FL : filter is_tri l = l).
    { clear -T. induction l as [|s l IH]; simpl; auto. rewrite T by (simpl; auto). f_equal.
      apply IH. intros q Q. apply T. simpl. auto. }
    destruct (mesh_mode_ok dist rtc l r E) as (a & A & B); [now rewrite FL|]. exists a. now rewrite FL in B.
Qed.
Print Assumptions C165_meshes_only.

Definition ball : shape := Distance (SDFSphere (V3 0 0 5) 1).
(** a distance shape and a mesh: every hit with the mesh is reported as a hit with the other shape *)
Theorem C165_wrong_mesh_refuted : forall dist rtc m r t, embree_ok dist rtc ->
  dist (Triangles m) r = Some t -> scene_hit rtc false [ball; Triangles m] r = Ok (Some (ball, t)).
Proof.
  intros dist rtc m r t E H. unfold scene_hit, embree_hit. rewrite embree_of_lists. cbn [e_attached e_meshes filter is_tri ball].
  specialize (E [Triangles m] r). destruct (rtc [Triangles m] r) as [[g t']|].
  - destruct E as (s & N & I & D & _). destruct I as [<-|[]]. destruct g as [|g]; [|destruct g; discriminate].
    cbn. congruence.
  - specialize (E (Triangles m) (or_introl eq_refl)). congruence.
Qed.
Print Assumptions C165_wrong_mesh_refuted.
Example C165_case : embree_ok flat (naming 0) /\
  (forall g s, (g < length (filter is_tri [Triangles 1; Triangles 2; ball]))%nat ->
     nth_error [Triangles 1; Triangles 2; ball] g = Some s -> is_tri s = true) /\
  flat (Triangles 1) (Ray (V3 0 0 0) (V3 0 0 1) (Finite 0) (Finite 100)) = Some 1%R.
Proof.
  split; [apply naming_ok|]. split; [|reflexivity].
  intros [|[|g]] s L; simpl in *; try (intros [= <-]; reflexivity). lia.
Qed.

(** ** C166: every shape of the scene can be hit *)
Theorem C166_sdf_mode_iff : forall rtc l,
  ((forall r, exists a, scene_hit rtc true l r = Ok a) <-> (forall s, In s l -> is_tri s = false)) /\
  ((exists s, In s l /\ is_tri s = true) -> forall r, scene_hit rtc true l r = UB).
Proof.
  intros rtc l. pose proof (as_sdfs_spec l) as S. unfold scene_hit.
  destruct (as_sdfs l) as [fs| | |]; try tauto.
  - split; [split|].
    + intros _ s I. rewrite S in I. apply in_map_iff in I as (f & <- & _). reflexivity.
    + intros _ r. cbn. destruct (sdf_intersect fs r) as [h|] eqn:H; [|eauto].
      apply sdf_hit_index in H. unfold at_. rewrite S, nth_error_map.
      destruct (nth_error fs (h_shape h)) eqn:N; [cbn; eauto|]. apply nth_error_None in N. lia.
    + intros (s & I & T). rewrite S in I. apply in_map_iff in I as (f & <- & _). discriminate.
  - destruct S as (m & I). split; [split|]; cbn; auto.
    + intros H. destruct (H (Ray (V3 0 0 0) (V3 0 0 1) (Finite 0) (Finite 100))) as (a & A). discriminate.
    + intros H. specialize (H _ I). discriminate.
Qed.
Print Assumptions C166_sdf_mode_iff.

(** outside this mode distance shapes are not there: rays hit exactly when they hit a mesh *)
Theorem C166_mesh_mode : forall dist rtc l r, embree_ok dist rtc ->
  (scene_hit rtc false l r = Ok None <-> forall m, In (Triangles m) l -> dist (Triangles m) r = None).
Proof.
  intros dist rtc l r E. destruct (proj1 (C165_meshes_only dist rtc l r E)) as (a & A).
  unfold scene_hit, embree_hit in *. rewrite embree_of_lists in *. cbn [e_attached e_meshes] in *.
  specialize (E (filter is_tri l) r). destruct (rtc (filter is_tri l) r) as [[g t]|].
  - destruct E as (s & N & I & D & _). split.
    + unfold at_. destruct (nth_error l g); discriminate.
    + intros H. apply filter_In in I as [I T]. destruct s as [m|]; [|discriminate].
      rewrite (H m I) in D. discriminate.
  - split; auto. intros _ m I. apply E, filter_In. auto.
Qed.
Print Assumptions C166_mesh_mode.

(** so a ball straight ahead is not seen when the scene is rendered as meshes (the default) *)
Theorem C166_unseen_refuted : exists l r t, In ball l /\ (0 < t)%R /\
  norm (vsub (ray_at r t) (V3 0 0 5)) = 1%R /\
  forall dist rtc, embree_ok dist rtc -> scene_hit rtc false l r = Ok None.
Proof.
  exists [ball], (Ray (V3 0 0 0) (V3 0 0 1) (Finite 0) (Finite 100)), 4%R. split; [left; reflexivity|].
  split; [lra|]. split.
  - unfold norm, ray_at, vsub, vadd, vscale, sqrNorm. cbn [org dir vx vy vz].
    match goal with |- sqrt ?e = _ => replace e with (1 * 1)%R by ring end. apply sqrt_square. lra.
  - intros dist rtc E. apply (C166_mesh_mode dist rtc _ _ E). intros m [H|[]]. discriminate.
Qed.
Print Assumptions C166_unseen_refuted.
Example C166_case : (forall s, In s [ball; ball] -> is_tri s = false) /\
  (exists s, In s [ball; Triangles 0] /\ is_tri s = true) /\ embree_ok flat (naming 1).
Proof.
  split; [intros s [<-|[<-|[]]]; reflexivity|]. split; [exists (Triangles 0); simpl; auto|apply naming_ok].
Qed.
