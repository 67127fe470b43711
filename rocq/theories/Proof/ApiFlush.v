(** Handing the described objects over to the scene. *)
From Coq Require Import String List Bool Arith Lia Relations Permutation.
From Verif.Model Require Import Vec Matrix ApiTransform Api.
From Verif.Spec Require Import ApiSpec.
From Verif.Proof Require Import LinAlg ApiBase ApiCalls ApiRun ApiObject ApiProof ApiTotal.
Import ListNotations.
Open Scope list_scope.

Lemma in_entries s k p : wf s -> In p (entries s k) <-> exists n, lookup s k n = Some p.
Proof.
  intros W. unfold entries. rewrite in_map_iff. split.
  - intros ([[k' n] q] & E & H). simpl in E. subst q. apply filter_In in H as [H K].
    simpl in K. destruct (kind_eq_dec k k') as [<-|]; [|discriminate].
    exists n. rewrite (wf_lock s W) in H.
    assert (G : forall i h, In (k, n, p) (reg_from i h) ->
              exists j nd, p = i + j /\ nth_error h j = Some nd /\ key nd = (k, n)).
    { intros i h. revert i. induction h as [|a h IH]; intros i; simpl; [tauto|].
      intros [E|E].
      - injection E as <- <- <-. exists 0, a. rewrite Nat.add_0_r. auto.
      - apply IH in E as (j & nd & -> & E1 & E2). exists (S j), nd. split; [lia|auto]. }
    apply G in H as (j & nd & -> & E1 & E2). apply hasn_lookup; auto.
    exists nd. injection E2 as <- <-. auto.
  - intros (n & L). unfold lookup in L.
    destruct (find (key_eqb k n) (reg s)) as [[[k' n'] q]|] eqn:F; [|discriminate].
    injection L as ->. apply find_some in F as [F1 F2]. exists (k', n', p). split; auto.
    apply filter_In. split; auto. simpl in *. destruct (kind_eq_dec k k'); auto.
Qed.

Lemma nodup_entries s k : wf s -> NoDup (entries s k).
Proof.
  intros W. unfold entries. rewrite (wf_lock s W).
  assert (G : forall i h, NoDup (map (fun e => snd e) (filter (fun e : kind * string * ptr =>
     if kind_eq_dec k (fst (fst e)) then true else false) (reg_from i h))) /\
     forall p, In p (map (fun e => snd e) (filter (fun e : kind * string * ptr =>
     if kind_eq_dec k (fst (fst e)) then true else false) (reg_from i h))) -> i <= p).
  { intros i h. revert i. induction h as [|a h IH]; intros i; simpl.
    - split; [constructor|tauto].
    - destruct (IH (S i)) as [N L]. destruct (kind_eq_dec k (nkind a)); simpl.
      + split.
        * constructor; auto. intros H. apply L in H. lia.
        * intros p [<-|H]; auto. apply L in H. lia.
      + split; auto. intros p H. apply L in H. lia. }
  apply G.
Qed.

Definition uses (s : api) (m o : ptr) : bool :=
  match obj_mesh s o with Some m' => Nat.eqb m' m | None => false end.

Definition tf_after (s : api) (m : ptr) (l : list ptr) (t : transform) : transform :=
  fold_left (fun t o => tf_mul (obj_transform s o) t) (filter (uses s m) l) t.

Lemma flush_objects_ret s objs : forall w w',
  loopE (flush_object s) objs w = Ret w' ->
  w_objects w' = w_objects w ++ objs /\
  map Some (w_shapes w') = map Some (w_shapes w) ++ map (obj_mesh s) objs /\
  w_mediums w' = w_mediums w /\ w_emesh w' = w_emesh w /\
  (forall m, w_tf w' m = tf_after s m objs (w_tf w m)) /\
  (forall m, (forall o, In o objs -> uses s m o = false) -> w_inst w' m = w_inst w m) /\
  (forall m l1 o l2, objs = l1 ++ o :: l2 -> uses s m o = true ->
     (forall q, In q l2 -> uses s m q = false) ->
     w_inst w' m = length (w_objects w) + length l1).
Proof.
  induction objs as [|o objs IH]; intros w w' H.
  - cbn [loopE] in H. injection H as <-. rewrite !app_nil_r.
    repeat split; auto. intros m [|? ?] ? ? E; discriminate.
  - cbn [loopE] in H. unfold flush_object in H at 1.
    destruct (nth_error (heap s) o) as [nd|] eqn:E1; [|discriminate].
    destruct (omesh nd) as [m0|] eqn:E2; [|discriminate].
    destruct (nth_error (heap s) m0) as [mn|] eqn:E3; [|discriminate].
    destruct (ndef mn) as [d|] eqn:E4; [|discriminate].
    apply IH in H as (A1 & A2 & A3 & A4 & A5 & A6 & A7). cbn [w_objects w_shapes w_mediums
      w_emesh w_tf w_inst] in *.
    assert (OM : obj_mesh s o = Some m0) by (unfold obj_mesh; now rewrite E1).
    assert (OT : obj_transform s o = otrans nd) by (unfold obj_transform; now rewrite E1).
    split; [rewrite A1, <- app_assoc; reflexivity|].
    split. { rewrite A2, map_app, <- app_assoc. cbn [map app]. now rewrite OM. }
    split; [auto|]. split; [auto|]. split; [|split].
    + intros m. rewrite A5. unfold tf_after. cbn [filter]. unfold uses at 2. rewrite OM.
      unfold fupd. rewrite (Nat.eqb_sym m m0). destruct (Nat.eqb_spec m0 m) as [<-|NE]; auto.
      cbn [fold_left]. now rewrite OT.
    + intros m U. rewrite A6 by (intros q Q; apply U; now right).
      unfold fupd. specialize (U o (or_introl eq_refl)). unfold uses in U. rewrite OM in U.
      rewrite Nat.eqb_sym. now rewrite U.
    + intros m [|q l1] o' l2 E U N; cbn [app] in E; injection E as <- ->.
      * rewrite A6 by exact N. unfold uses in U. rewrite OM in U. unfold fupd.
        rewrite Nat.eqb_sym, U. simpl. lia.
      * rewrite (A7 m l1 o' l2) by auto. rewrite app_length. simpl. lia.
Qed.

(** later stages keep shapes, objects, transforms and instance numbers *)
Definition kept (w w' : world) : Prop :=
  w_shapes w' = w_shapes w /\ w_objects w' = w_objects w /\ w_tf w' = w_tf w /\
  w_inst w' = w_inst w.
Lemma kept_refl w : kept w w. Proof. repeat split. Qed.
Lemma kept_trans a b c : kept a b -> kept b c -> kept a c.
Proof. unfold kept. intuition congruence. Qed.

Lemma loop_kept {A} (f : world -> A -> exit world) l :
  (forall w a w', f w a = Ret w' -> kept w w') ->
  forall w w', loopE f l w = Ret w' -> kept w w'.
Proof.
  intros H. induction l as [|a l IH]; intros w w' E; cbn [loopE] in E.
  - injection E as <-. apply kept_refl.
  - destruct (f w a) as [v|e| |] eqn:F; try discriminate.
    eapply kept_trans; eauto.
Qed.

Lemma emitter_kept s w e w' : flush_emitter s w e = Ret w' -> kept w w'.
Proof.
  unfold flush_emitter. destruct (nth_error (heap s) e) as [n|]; [|discriminate].
  destruct (nobj n); [|intros [= <-]; apply kept_refl].
  destruct (ndef n); [|discriminate]. destruct (nth_error (heap s) p); [|discriminate].
  intros [= <-]. repeat split.
Qed.
Lemma media_kept s w e w' : flush_media s w e = Ret w' -> kept w w'.
Proof. intros [= <-]. repeat split. Qed.
Lemma pre_kept s w o w' : pre_object s w o = Ret w' -> kept w w'.
Proof.
  unfold pre_object. destruct (nth_error (heap s) o) as [n|]; [|discriminate].
  destruct (oemit n); [|intros [= <-]; apply kept_refl].
  destruct (defined s p); [|discriminate]. intros [= <-]. repeat split.
Qed.

Lemma flush_stages b s objs ems meds w : flush b objs ems meds s = Ret w ->
  exists x w1 w2 w3, scn s = Some x /\ (b && clk s = false)%bool /\
    loopE (flush_object s) objs world0 = Ret w1 /\
    loopE (flush_emitter s) ems w1 = Ret w2 /\
    loopE (flush_media s) meds w2 = Ret w3 /\
    scene_pre s x w3 = Ret w /\ render_checks s x w = Ret w.
Proof.
  unfold flush. destruct (b && clk s)%bool; [discriminate|].
  destruct (scn s) as [x|]; [|discriminate].
  destruct (loopE (flush_object s) objs world0) as [w1|e| |] eqn:E1; try discriminate.
  destruct (loopE (flush_emitter s) ems w1) as [w2|e| |] eqn:E2; try discriminate.
  destruct (loopE (flush_media s) meds w2) as [w3|e| |] eqn:E3; try discriminate.
  destruct (scene_pre s x w3) as [w4|e| |] eqn:E4; try discriminate.
  intros R. exists x, w1, w2, w3.
  assert (w4 = w) as ->.
  { unfold render_checks in R. destruct (negb (defined s (s_integ x))); [discriminate|].
    destruct (negb (defined s (s_samp x))); [discriminate|]. now injection R. }
  repeat (split; auto).
Qed.

Lemma scene_pre_loop s x w w' : scene_pre s x w = Ret w' ->
  defined s (s_cam x) = true /\ loopE (pre_object s) (w_objects w) w = Ret w' /\
  forallb (defined s) (w_mediums w') = true.
Proof.
  unfold scene_pre. destruct (defined s (s_cam x)); [|discriminate]. simpl.
  destruct (loopE (pre_object s) (w_objects w) w) as [v|e| |]; try discriminate.
  destruct (forallb (defined s) (w_mediums v)) eqn:F; [|discriminate].
  intros [= <-]. auto.
Qed.

Lemma flush_kept b s objs ems meds w : flush b objs ems meds s = Ret w ->
  exists w1, loopE (flush_object s) objs world0 = Ret w1 /\ kept w1 w.
Proof.
  intros H. apply flush_stages in H as (x & w1 & w2 & w3 & _ & _ & E1 & E2 & E3 & E4 & _).
  exists w1. split; auto.
  apply scene_pre_loop in E4 as (_ & E4 & _).
  eapply kept_trans; [eapply loop_kept; [apply emitter_kept|exact E2]|].
  eapply kept_trans; [eapply loop_kept; [apply media_kept|exact E3]|].
  eapply loop_kept; [apply pre_kept|exact E4].
Qed.

(** the shapes of the scene, in the order of the objects *)
Lemma flush_shapes b s objs ems meds w : flush b objs ems meds s = Ret w ->
  w_objects w = objs /\ map Some (w_shapes w) = map (obj_mesh s) objs.
Proof.
  intros H. apply flush_kept in H as (w1 & E & K1 & K2 & _).
  apply flush_objects_ret in E as (A1 & A2 & _). rewrite K1, K2. auto.
Qed.

Lemma map_nth {A B} (f : A -> B) l i a : nth_error l i = Some a ->
  nth_error (map f l) i = Some (f a).
Proof. intros H. now apply map_nth_error. Qed.

(** the last object (in iteration order) that uses a mesh owns its instance number *)
Lemma flush_inst b s l1 o l2 ems meds w m :
  flush b (l1 ++ o :: l2) ems meds s = Ret w -> obj_mesh s o = Some m ->
  (forall q, In q l2 -> obj_mesh s q <> Some m) ->
  w_inst w m = length l1 /\ nth_error (w_objects w) (w_inst w m) = Some o /\
  nth_error (w_shapes w) (w_inst w m) = Some m.
Proof.
  intros H M U. pose proof (flush_shapes _ _ _ _ _ _ H) as [S1 S2].
  apply flush_kept in H as (w1 & E & K1 & K2 & K3 & K4).
  apply flush_objects_ret in E as (_ & _ & _ & _ & _ & _ & A7).
  assert (I : w_inst w m = length l1).
  { rewrite K4. rewrite (A7 m l1 o l2); auto.
    - unfold uses. rewrite M. apply Nat.eqb_refl.
    - intros q Q. unfold uses. destruct (obj_mesh s q) as [m'|] eqn:E; auto.
      apply Nat.eqb_neq. intros ->. now apply (U q). }
  rewrite I. split; auto. rewrite S1. rewrite nth_error_app2, Nat.sub_diag by lia.
  split; auto.
  assert (X : nth_error (map Some (w_shapes w)) (length l1) = Some (Some m)).
  { rewrite S2, map_app. rewrite nth_error_app2; rewrite map_length; [|lia].
    rewrite Nat.sub_diag. cbn. now rewrite M. }
  destruct (nth_error (w_shapes w) (length l1)) as [q|] eqn:E.
  - rewrite (map_nth _ _ _ _ E) in X. congruence.
  - apply nth_error_None in E. assert (X' := nth_error_Some (map Some (w_shapes w)) (length l1)).
    rewrite X, map_length in X'. assert (Y : Some (Some m) <> None) by discriminate.
    apply X' in Y. lia.
Qed.

Lemma flush_tf b s objs ems meds w m : flush b objs ems meds s = Ret w ->
  w_tf w m = stacked s (users s m objs).
Proof.
  intros H. apply flush_kept in H as (w1 & E & K1 & K2 & K3 & K4).
  apply flush_objects_ret in E as (_ & _ & _ & _ & A5 & _). rewrite K3, A5. reflexivity.
Qed.

Lemma users_single s m l1 o l2 : obj_mesh s o = Some m ->
  (forall q, In q (l1 ++ l2) -> obj_mesh s q <> Some m) -> users s m (l1 ++ o :: l2) = [o].
Proof.
  intros M U. unfold users. rewrite filter_app. cbn [filter]. rewrite M, Nat.eqb_refl.
  assert (Z : forall l, (forall q, In q l -> obj_mesh s q <> Some m) ->
    filter (fun o => match obj_mesh s o with Some m' => Nat.eqb m' m | None => false end) l = []).
  { induction l as [|a l IH]; intros H; auto. cbn [filter].
    destruct (obj_mesh s a) as [m'|] eqn:E.
    - destruct (Nat.eqb_spec m' m) as [->|NE].
      + exfalso. apply (H a); simpl; auto.
      + apply IH. intros q Q. apply H. now right.
    - apply IH. intros q Q. apply H. now right. }
  rewrite !Z; auto; intros q Q; apply U; apply in_or_app; auto.
Qed.

Lemma tf_mul_id_r t : tf_mul t tf_id = t.
Proof. unfold tf_mul, tf_id. destruct t. simpl. now rewrite m4_mul_id_r, m4_mul_id_l. Qed.

(** emitters receive the mesh of the last object that names them *)
Lemma pre_emesh s objs : forall w w', loopE (pre_object s) objs w = Ret w' ->
  (forall e, (forall o, In o objs -> obj_emitter s o <> Some e) -> w_emesh w' e = w_emesh w e) /\
  (forall e l1 o l2, objs = l1 ++ o :: l2 -> obj_emitter s o = Some e ->
     (forall q, In q l2 -> obj_emitter s q <> Some e) -> w_emesh w' e = obj_mesh s o).
Proof.
  induction objs as [|o objs IH]; intros w w' H.
  - cbn [loopE] in H. injection H as <-. split; auto. intros e [|? ?] ? ? E; discriminate.
  - cbn [loopE] in H. destruct (pre_object s w o) as [v|e| |] eqn:P; try discriminate.
    apply IH in H as [A B]. unfold pre_object in P.
    destruct (nth_error (heap s) o) as [nd|] eqn:E1; [|discriminate].
    assert (OE : obj_emitter s o = oemit nd) by (unfold obj_emitter; now rewrite E1).
    assert (OM : obj_mesh s o = omesh nd) by (unfold obj_mesh; now rewrite E1).
    assert (V : forall e, w_emesh v e =
      match oemit nd with Some e0 => if Nat.eqb e e0 then omesh nd else w_emesh w e
                        | None => w_emesh w e end).
    { intros e. destruct (oemit nd) as [e0|].
      - destruct (defined s e0); [|discriminate]. injection P as <-. reflexivity.
      - now injection P as <-. }
    split.
    + intros e U. rewrite A by (intros q Q; apply U; now right). rewrite V.
      specialize (U o (or_introl eq_refl)). rewrite OE in U.
      destruct (oemit nd) as [e0|]; auto. destruct (Nat.eqb_spec e e0) as [->|]; auto. congruence.
    + intros e [|q l1] o' l2 E M U; cbn [app] in E; injection E as <- ->.
      * rewrite A by exact U. rewrite V. rewrite OE in M. rewrite M, Nat.eqb_refl. now rewrite OM.
      * eapply B; eauto.
Qed.

Lemma flush_emesh b s l1 o l2 ems meds w e :
  flush b (l1 ++ o :: l2) ems meds s = Ret w -> obj_emitter s o = Some e ->
  (forall q, In q l2 -> obj_emitter s q <> Some e) -> w_emesh w e = obj_mesh s o.
Proof.
  intros H M U. pose proof (flush_shapes _ _ _ _ _ _ H) as [S1 _].
  apply flush_stages in H as (x & w1 & w2 & w3 & _ & _ & E1 & E2 & E3 & E4 & _).
  apply scene_pre_loop in E4 as (_ & E4 & _).
  assert (O : w_objects w3 = l1 ++ o :: l2).
  { rewrite <- S1. symmetry. apply (loop_kept _ _ (pre_kept s) _ _ E4). }
  rewrite O in E4. eapply pre_emesh; eauto.
Qed.

(** ---- when it succeeds ---- *)
Lemma defined_has s p : defined s p = true <-> has_def s p.
Proof.
  unfold defined, has_def. destruct (nth_error (heap s) p) as [nd|].
  - destruct (ndef nd) as [d|] eqn:E; split; try discriminate; eauto.
    intros (nd' & d & [= <-] & D). congruence.
  - split; [discriminate|]. intros (nd' & d & D & _). discriminate.
Qed.

Lemma loop_total {A S} (f : S -> A -> exit S) l :
  (forall s a, In a l -> exists s', f s a = Ret s') -> forall s, exists s', loopE f l s = Ret s'.
Proof.
  induction l as [|a l IH]; intros H s; cbn [loopE]; [eauto|].
  destruct (H s a (or_introl eq_refl)) as (s' & ->). apply IH. intros z b B. apply H. now right.
Qed.

Lemma loop_each {A S} (f : S -> A -> exit S) l : forall s s', loopE f l s = Ret s' ->
  forall a, In a l -> exists z z', f z a = Ret z'.
Proof.
  induction l as [|b l IH]; intros s s' H a I; [destruct I|]. cbn [loopE] in H.
  destruct (f s b) as [v|e| |] eqn:F; try discriminate. destruct I as [<-|I]; eauto.
Qed.

Lemma flush_mediums s meds : forall w w', loopE (flush_media s) meds w = Ret w' ->
  w_mediums w' = w_mediums w ++ meds.
Proof.
  induction meds as [|m meds IH]; intros w w' H; cbn [loopE] in H.
  - injection H as <-. now rewrite app_nil_r.
  - cbn [flush_media] in H. apply IH in H. rewrite H. simpl. now rewrite <- app_assoc.
Qed.

Lemma loop_mediums {A} (f : world -> A -> exit world) l :
  (forall w a w', f w a = Ret w' -> w_mediums w' = w_mediums w) ->
  forall w w', loopE f l w = Ret w' -> w_mediums w' = w_mediums w.
Proof.
  intros H. induction l as [|a l IH]; intros w w' E; cbn [loopE] in E.
  - now injection E as <-.
  - destruct (f w a) as [v|e| |] eqn:F; try discriminate.
    transitivity (w_mediums v); eauto.
Qed.

Lemma emitter_mediums s w e w' : flush_emitter s w e = Ret w' -> w_mediums w' = w_mediums w.
Proof.
  unfold flush_emitter. destruct (nth_error (heap s) e) as [n|]; [|discriminate].
  destruct (nobj n); [|now intros [= <-]].
  destruct (ndef n); [|discriminate]. destruct (nth_error (heap s) p); [|discriminate].
  now intros [= <-].
Qed.
Lemma pre_mediums s w o w' : pre_object s w o = Ret w' -> w_mediums w' = w_mediums w.
Proof.
  unfold pre_object. destruct (nth_error (heap s) o) as [n|]; [|discriminate].
  destruct (oemit n); [|now intros [= <-]].
  destruct (defined s p); [|discriminate]. now intros [= <-].
Qed.

Section Complete.
Variables (b : bool) (s : api) (x : scene) (objs ems meds : list ptr).
Hypothesis W : wf s.
Hypothesis SC : scn s = Some x.
Hypothesis PO : Permutation objs (entries s KObject).
Hypothesis PE : Permutation ems (entries s KEmitter).
Hypothesis PM : Permutation meds (entries s KMedia).

Lemma in_perm l k p : Permutation l (entries s k) ->
  In p l <-> exists n, lookup s k n = Some p.
Proof.
  intros P. rewrite <- in_entries by exact W. split; apply Permutation_in; auto.
  now apply Permutation_sym.
Qed.

Lemma lookup_node k n p : lookup s k n = Some p ->
  exists nd, nth_error (heap s) p = Some nd /\ nkind nd = k.
Proof. intros L. apply lookup_hasn in L as (nd & H & K & _); eauto. Qed.

Lemma complete_flush : complete s x -> b && clk s = false ->
  exists w, flush b objs ems meds s = Ret w.
Proof.
  intros C Hc. unfold flush. rewrite Hc, SC.
  destruct (loop_total (flush_object s) objs) with (s := world0) as (w1 & E1).
  { intros w o I. apply (in_perm _ _ _ PO) in I as (n & L).
    pose proof (lookup_node _ _ _ L) as (nd & H & K).
    destruct (ok_obj _ _ (wf_nodes _ W _ _ H) K) as (m & M).
    destruct (c_mesh _ _ C _ _ _ _ L H M) as (md & d & H2 & D).
    unfold flush_object. rewrite H, M, H2, D. eauto. }
  rewrite E1.
  destruct (loop_total (flush_emitter s) ems) with (s := w1) as (w2 & E2).
  { intros w e I. apply (in_perm _ _ _ PE) in I as (n & L).
    pose proof (lookup_node _ _ _ L) as (nd & H & K).
    unfold flush_emitter. rewrite H. destruct (nobj nd) as [o|] eqn:O; [|eauto].
    destruct (c_owned _ _ C _ _ _ _ L H O) as (nd' & d & H2 & D).
    assert (nd' = nd) as -> by congruence. rewrite D.
    pose proof (ok_nobj _ _ (wf_nodes _ W _ _ H)) as Z. rewrite O in Z.
    destruct Z as (n' & on & Z & _). rewrite Z. eauto. }
  rewrite E2.
  destruct (loop_total (flush_media s) meds) with (s := w2) as (w3 & E3).
  { intros. unfold flush_media. eauto. }
  rewrite E3.
  pose proof (flush_objects_ret _ _ _ _ E1) as (O1 & _ & M1 & _).
  assert (O3 : w_objects w3 = objs).
  { pose proof (loop_kept _ _ (media_kept s) _ _ E3) as (_ & -> & _).
    pose proof (loop_kept _ _ (emitter_kept s) _ _ E2) as (_ & -> & _). exact O1. }
  assert (M3 : w_mediums w3 = meds).
  { rewrite (flush_mediums _ _ _ _ E3), (loop_mediums _ _ (emitter_mediums s) _ _ E2), M1.
    reflexivity. }
  destruct (loop_total (pre_object s) (w_objects w3)) with (s := w3) as (w4 & E4).
  { intros w o I. rewrite O3 in I. apply (in_perm _ _ _ PO) in I as (n & L).
    pose proof (lookup_node _ _ _ L) as (nd & H & K).
    unfold pre_object. rewrite H. destruct (oemit nd) as [e|] eqn:E; [|eauto].
    rewrite (proj2 (defined_has s e)) by (eapply c_emit; eauto). eauto. }
  unfold scene_pre. rewrite (proj2 (defined_has s (s_cam x))) by apply C. cbn [negb].
  rewrite E4. rewrite (loop_mediums _ _ (pre_mediums s) _ _ E4), M3.
  assert (F : forallb (defined s) meds = true).
  { apply forallb_forall. intros p I. apply (in_perm _ _ _ PM) in I as (n & L).
    apply defined_has. eapply c_media; eauto. }
  rewrite F. unfold render_checks.
  rewrite (proj2 (defined_has s (s_integ x))) by apply C.
  rewrite (proj2 (defined_has s (s_samp x))) by apply C. simpl. eauto.
Qed.

Lemma flush_complete w : flush b objs ems meds s = Ret w -> complete s x.
Proof.
  intros H. apply flush_stages in H as (x' & w1 & w2 & w3 & SC' & _ & E1 & E2 & E3 & E4 & E5).
  assert (x' = x) as -> by congruence.
  apply scene_pre_loop in E4 as (C1 & E4 & C2).
  pose proof (flush_objects_ret _ _ _ _ E1) as (O1 & _ & M1 & _).
  assert (O3 : w_objects w3 = objs).
  { pose proof (loop_kept _ _ (media_kept s) _ _ E3) as (_ & -> & _).
    pose proof (loop_kept _ _ (emitter_kept s) _ _ E2) as (_ & -> & _). exact O1. }
  assert (M3 : w_mediums w = meds).
  { rewrite (loop_mediums _ _ (pre_mediums s) _ _ E4).
    rewrite (flush_mediums _ _ _ _ E3), (loop_mediums _ _ (emitter_mediums s) _ _ E2), M1.
    reflexivity. }
  unfold render_checks in E5.
  destruct (defined s (s_integ x)) eqn:D1; [|discriminate].
  destruct (defined s (s_samp x)) eqn:D2; [|discriminate].
  split.
  - now apply defined_has.
  - now apply defined_has.
  - now apply defined_has.
  - intros n p L. rewrite M3 in C2. rewrite forallb_forall in C2. apply defined_has.
    apply C2. apply (in_perm _ _ _ PM). eauto.
  - intros n o nd m L Hn M.
    destruct (loop_each _ _ _ _ E1 o) as (z & z' & F); [apply (in_perm _ _ _ PO); eauto|].
    unfold flush_object in F. rewrite Hn, M in F.
    destruct (nth_error (heap s) m) as [mn|] eqn:N; [|discriminate].
    destruct (ndef mn) as [d|] eqn:D; [|discriminate]. exists mn, d. auto.
  - intros n o nd e L Hn M. rewrite O3 in E4.
    destruct (loop_each _ _ _ _ E4 o) as (z & z' & F); [apply (in_perm _ _ _ PO); eauto|].
    unfold pre_object in F. rewrite Hn, M in F. apply defined_has.
    destruct (defined s e); auto. discriminate.
  - intros n e nd o L Hn M.
    destruct (loop_each _ _ _ _ E2 e) as (z & z' & F); [apply (in_perm _ _ _ PE); eauto|].
    unfold flush_emitter in F. rewrite Hn, M in F.
    destruct (ndef nd) as [d|] eqn:D; [|discriminate]. exists nd, d. auto.
Qed.
End Complete.
