(** Clean-up, sessions, and the numbering of geometries. *)
From Coq Require Import String List Bool Arith Lia Permutation Reals.
From Coquelicot Require Import Rbar.
From Verif.Base Require Import Outcome.
From Verif.Model Require Import Vec Matrix BBox SDF ApiTransform Api Lifecycle.
From Verif.Spec Require Import ApiSpec LifecycleSpec.
From Verif.Proof Require Import ApiBase ApiCalls ApiRun ApiObject ApiClock ApiProof ApiTotal ApiFlush ApiNew.
Import ListNotations.
Open Scope nat_scope.
Open Scope list_scope.

Definition owner (o : obj) : option ptr :=
  match o with ONode p | OThing p | OPdf p _ | OStorage p => Some p | _ => None end.

Lemma nodup_app {A} (u v : list A) : NoDup u -> NoDup v -> (forall o, In o u -> ~ In o v) -> NoDup (u ++ v).
Proof.
  intros U V. induction U as [|o u NO U IHU]; intros F; simpl; auto. constructor.
  - rewrite in_app_iff. intros [H|H]; [auto|]. apply (F o); simpl; auto.
  - apply IHU. intros q Q. apply F. simpl. auto.
Qed.

Section Clean.
Variables (s : api) (x : scene) (w : world).

(** what goes with node p *)
Definition goes_with (p : ptr) (o : obj) : Prop :=
  o = ONode p \/ (o = OThing p /\ has_def s p) \/
  (exists i c, o = OPdf p i /\ holds s p KEmitter c /\ (c = "mesh"%string \/ c = "directional_mesh"%string) /\
     S i = pdfs_built s w p) \/
  (o = OStorage p /\ p = s_integ x /\ holds s p KIntegrator "photon").

Lemma one_of2 t a b : one_of t [a; b] = true <-> t = a \/ t = b.
Proof.
  unfold one_of. simpl. rewrite !orb_true_iff, !String.eqb_eq. intuition discriminate.
Qed.

Lemma holds_fun p k c k' c' : holds s p k c -> holds s p k' c' -> k = k' /\ c = c'.
Proof. intros (n & d & A & <- & B & <-) (n' & d' & A' & <- & B' & <-). split; congruence. Qed.

Ltac cases_of H :=
  destruct H as [-> | [[-> ?] | [(?i & ?c & -> & ?H1 & ?H2 & ?H3) | (-> & ?H1 & ?H2)]]].

Lemma destroy_node_ok p l : destroy_node s x w p = Ok l -> NoDup l /\ forall o, In o l <-> goes_with p o.
Proof.
  unfold destroy_node. destruct (nth_error (heap s) p) as [n|] eqn:N; [|discriminate].
  destruct (ndef n) as [d|] eqn:D.
  2: { intros [= <-]. split; [constructor; [tauto|constructor]|].
       assert (F : forall k c, ~ holds s p k c) by (intros k c (n' & d' & A & _ & B & _); congruence).
       intros o. split; [intros [<-|[]]; now left|]. intros [->|[[_ (n' & d' & A & B)]|[(i & c & _ & A & _)|(_ & _ & A)]]];
         [now left|congruence|now destruct (F _ _ A)..]. }
  assert (HD : has_def s p) by (now exists n, d).
  assert (HH : holds s p (nkind n) (pty d)) by (now exists n, d).
  unfold destroy_thing.
  assert (PLAIN : (nkind n = KEmitter -> pty d <> "mesh" /\ pty d <> "directional_mesh" \/ pdfs_built s w p = 0%nat)%string ->
     (nkind n = KIntegrator -> pty d <> "photon")%string ->
     NoDup [OThing p; ONode p] /\ forall o, In o [OThing p; ONode p] <-> goes_with p o).
  { intros E I. split; [constructor; [simpl; intuition discriminate|constructor; [tauto|constructor]]|].
    intros o. split.
    - intros [<-|[<-|[]]]; [right; left; auto|now left].
    - intros G. unfold goes_with in G. destruct G as [-> | [[-> _] | [(i & c & -> & H1 & H2 & H3) | (-> & H1 & H2)]]];
        [now right; left|now left| |].
      + destruct (holds_fun _ _ _ _ _ HH H1) as [K C]. destruct (E K) as [[E1 E2]|E1]; [|lia].
        destruct H2 as [-> | ->]; tauto.
      + destruct (holds_fun _ _ _ _ _ HH H2) as [K C]. now destruct (I K). }
  destruct (nkind n) eqn:K; try (intros [= <-]; apply PLAIN; discriminate).
  - destruct (String.eqb (pty d) "photon") eqn:PH.
    + apply String.eqb_eq in PH. destruct (Nat.eqb p (s_integ x)) eqn:PX; [|discriminate].
      apply Nat.eqb_eq in PX. intros [= <-]. rewrite PH in HH. split.
      * repeat constructor; simpl; intuition discriminate.
      * intros o. split.
        { intros [<-|[<-|[<-|[]]]]; [right; right; right; auto|right; left; auto|now left]. }
        { intros [-> | [[-> _] | [(i & c & -> & H1 & _) | (-> & _)]]]; simpl; auto.
          destruct (holds_fun _ _ _ _ _ HH H1). discriminate. }
    + intros [= <-]. apply PLAIN; [discriminate|]. intros _ E. now rewrite E in PH.
  - destruct (one_of (pty d) ["mesh"; "directional_mesh"]%string) eqn:M.
    + apply one_of2 in M. destruct (pdfs_built s w p) as [|i] eqn:B.
      * intros [= <-]. apply PLAIN; [auto|discriminate].
      * intros [= <-]. split.
        { repeat constructor; simpl; intuition discriminate. }
        intros o. split.
        { intros [<-|[<-|[<-|[]]]]; [right; right; left; exists i, (pty d); auto|right; left; auto|now left]. }
        { intros [-> | [[-> _] | [(j & c & -> & H1 & _ & H3) | (-> & _ & H2)]]]; simpl; auto.
          - left. f_equal. congruence.
          - destruct (holds_fun _ _ _ _ _ HH H2). discriminate. }
    + intros [= <-]. apply PLAIN; [|discriminate]. intros _. left.
      split; intros E; rewrite E in M; discriminate.
Qed.

Lemma goes_owner p o : goes_with p o -> owner o = Some p.
Proof. intros [-> | [[-> _] | [(i & c & -> & _) | (-> & _)]]]; reflexivity. Qed.

Lemma destroy_node_defined p : (exists l, destroy_node s x w p = Ok l) <->
  (exists n, nth_error (heap s) p = Some n) /\ (holds s p KIntegrator "photon" -> p = s_integ x).
Proof.
  unfold destroy_node. destruct (nth_error (heap s) p) as [n|] eqn:N.
  2: { split; [intros (l & E); discriminate|intros ((n & E) & _); discriminate]. }
  destruct (ndef n) as [d|] eqn:D.
  2: { split; [intros _|intros _; eauto]. split; [eauto|]. intros (n' & d' & A & _ & B & _). congruence. }
  assert (HH : holds s p (nkind n) (pty d)) by (now exists n, d).
  assert (Q : (exists l, destroy_thing s x w p (nkind n) d = Ok l) <->
              (holds s p KIntegrator "photon" -> p = s_integ x)).
  { unfold destroy_thing.
    assert (TRIV : nkind n <> KIntegrator -> forall l : list obj,
      (exists l', Ok l = Ok l') <-> (holds s p KIntegrator "photon" -> p = s_integ x)).
    { intros NE l. split; [|eauto]. intros _ H. destruct (holds_fun _ _ _ _ _ HH H). congruence. }
    destruct (nkind n) eqn:K; try (apply TRIV; discriminate).
    - destruct (String.eqb (pty d) "photon") eqn:PH.
      + apply String.eqb_eq in PH. rewrite PH in HH. destruct (Nat.eqb p (s_integ x)) eqn:PX.
        * apply Nat.eqb_eq in PX. split; eauto.
        * apply Nat.eqb_neq in PX. split; [intros (l & E); discriminate|]. intros F. now destruct PX; auto.
      + split; [|eauto]. intros _ H. destruct (holds_fun _ _ _ _ _ HH H) as [_ E]. now rewrite E in PH.
    - destruct (one_of _ _); [destruct (pdfs_built s w p)|]; apply TRIV; discriminate. }
  split.
  - intros (l & E). split; [eauto|]. apply Q.
    destruct (destroy_thing s x w p (nkind n) d) as [l'| | |]; try discriminate. eauto.
  - intros (_ & H). apply Q in H as (l & ->). simpl. eauto.
Qed.

Lemma destroy_all_ok ps : forall l, destroy_all s x w ps = Ok l -> NoDup ps ->
  NoDup l /\ forall o, In o l <-> exists p, In p ps /\ goes_with p o.
Proof.
  induction ps as [|p ps IH]; simpl; intros l.
  - intros [= <-] _. split; [constructor|]. intros o. split; [intros []|]. intros (p & [] & _).
  - destruct (destroy_node s x w p) as [a| | |] eqn:A; try discriminate. simpl.
    destruct (destroy_all s x w ps) as [b| | |]; try discriminate. simpl. intros [= <-] ND.
    inversion ND as [|? ? NI ND']; subst. destruct (IH b eq_refl ND') as [N2 I2].
    destruct (destroy_node_ok p a A) as [N1 I1]. split.
    + apply nodup_app; auto. intros o H1 H2. apply I1, goes_owner in H1. apply I2 in H2 as (q & Q & H2).
      apply goes_owner in H2. assert (q = p) by congruence. now subst.
    + intros o. rewrite in_app_iff, I1, I2. split.
      * intros [H|(q & Q & H)]; [exists p; auto|exists q; auto].
      * intros (q & [->|Q] & H); [now left|right; eauto].
Qed.

Lemma destroy_all_defined ps : (exists l, destroy_all s x w ps = Ok l) <->
  forall p, In p ps -> exists l, destroy_node s x w p = Ok l.
Proof.
  induction ps as [|p ps IH]; simpl; [split; [intros _ p []|eauto]|]. split.
  - intros (l & E). destruct (destroy_node s x w p) as [a| | |] eqn:A; try discriminate. simpl in E.
    destruct (destroy_all s x w ps) as [b| | |]; try discriminate.
    intros q [<-|Q]; [eauto|]. apply IH; eauto.
  - intros H. destruct (H p (or_introl eq_refl)) as (a & ->). simpl.
    assert (E : exists l, destroy_all s x w ps = Ok l) by (apply IH; auto).
    destruct E as (b & ->). simpl. eauto.
Qed.

(** the nodes the destructor of the renderer visits *)
Hypothesis W : wf s.
Variable order : kind -> list ptr.
Hypothesis O : forall k, Permutation (order k) (entries s k).

Lemma order_in k p : In p (order k) <-> exists nd, nth_error (heap s) p = Some nd /\ nkind nd = k.
Proof.
  split.
  - intros H. apply (Permutation_in _ (O k)) in H. apply in_entries in H as (n & L); auto.
    apply lookup_hasn in L as (nd & A & B & _); eauto.
  - intros (nd & A & B). apply (Permutation_in _ (Permutation_sym (O k))). apply in_entries; auto.
    exists (nname nd). apply hasn_lookup; auto. exists nd. auto.
Qed.

Lemma kinds_all k : In k destroyed_kinds <-> k <> KTransFunc.
Proof. unfold destroyed_kinds. simpl. split; [intros H ->; intuition discriminate|]. destruct k; tauto. Qed.

Lemma kinds_nodup : NoDup destroyed_kinds.
Proof. unfold destroyed_kinds. repeat constructor; simpl; intuition discriminate. Qed.

Lemma visited_in p : In p (flat_map order destroyed_kinds) <->
  exists nd, nth_error (heap s) p = Some nd /\ nkind nd <> KTransFunc.
Proof.
  rewrite in_flat_map. split.
  - intros (k & K & P). apply order_in in P as (nd & A & B). exists nd. split; auto.
    rewrite B. now apply kinds_all.
  - intros (nd & A & B). exists (nkind nd). split; [now apply kinds_all|]. apply order_in. eauto.
Qed.

Lemma visited_nodup : NoDup (flat_map order destroyed_kinds).
Proof.
  assert (G : forall ks, NoDup ks -> NoDup (flat_map order ks)).
  { induction ks as [|k ks IH]; intros ND; simpl; [constructor|].
    inversion ND as [|? ? NI ND']; subst.
    assert (NK : NoDup (order k)) by (apply (Permutation_NoDup (Permutation_sym (O k))), nodup_entries, W).
    assert (DJ : forall p, In p (order k) -> ~ In p (flat_map order ks)).
    { intros p P Q. apply in_flat_map in Q as (k' & K' & Q). apply order_in in P as (nd & A & B).
      apply order_in in Q as (nd' & A' & B'). assert (nd' = nd) by congruence. subst. auto. }
    apply nodup_app; auto. }
  apply G, kinds_nodup.
Qed.

Lemma clean_defined : (exists l, clean_up order s x w = Ok l) <->
  forall p, holds s p KIntegrator "photon" -> p = s_integ x.
Proof.
  unfold clean_up. split.
  - intros (l & E) p P.
    destruct (destroy_all s x w (flat_map order destroyed_kinds)) as [a| | |] eqn:A; try discriminate.
    assert (D : forall p, In p (flat_map order destroyed_kinds) -> exists l, destroy_node s x w p = Ok l)
      by (apply destroy_all_defined; eauto).
    destruct (proj1 (destroy_node_defined p)) as [_ F]; auto. apply D, visited_in.
    destruct P as (nd & d & A1 & A2 & _). exists nd. split; auto. rewrite A2. discriminate.
  - intros H. assert (D : exists l, destroy_all s x w (flat_map order destroyed_kinds) = Ok l).
    { apply destroy_all_defined. intros p P. apply visited_in in P as (nd & A & _).
      apply destroy_node_defined. split; eauto. }
    destruct D as (l & ->). simpl. eauto.
Qed.

Lemma pdfs_lit e : pdfs_built s w e = length (lit_by s e (w_objects w)).
Proof.
  unfold pdfs_built, lit_by, obj_emitter. f_equal. apply filter_ext. intros o.
  destruct (nth_error (heap s) o); auto.
Qed.

Lemma clean_exact l target : clean_up order s x w = Ok l ->
  NoDup l /\ forall o, In o l <-> created s x (w_objects w) target o /\ ~ leaked s (w_objects w) o.
Proof.
  unfold clean_up.
  destruct (destroy_all s x w (flat_map order destroyed_kinds)) as [a| | |] eqn:A; try discriminate.
  simpl. intros [= <-]. destruct (destroy_all_ok _ _ A visited_nodup) as [N I].
  assert (OWN : forall o, In o a -> exists p, owner o = Some p).
  { intros o H. apply I in H as (p & _ & G). exists p. now apply goes_owner. }
  assert (NT : forall p, In p (flat_map order destroyed_kinds) -> ~ trans_func_node s p).
  { intros p P (nd & B & C). apply visited_in in P as (nd' & B' & C'). congruence. }
  split.
  - apply nodup_app; auto.
    + repeat constructor; simpl; intuition discriminate.
    + intros o H T. destruct (OWN o H) as (p & E). simpl in T.
      destruct T as [<-|[<-|[<-|[<-|[]]]]]; discriminate.
  - intros o. rewrite in_app_iff, I. split.
    + intros [(p & P & G)|T].
      * pose proof (NT p P) as F. apply visited_in in P as (nd & B & C).
        destruct G as [-> | [[-> HD] | [(i & c & -> & H1 & H2 & H3) | (-> & -> & H2)]]].
        -- split; [econstructor; eauto|exact F].
        -- split; [constructor; auto|exact F].
        -- rewrite pdfs_lit in H3. split; [econstructor; eauto; lia|simpl; lia].
        -- split; [constructor; auto|tauto].
      * simpl in T. destruct T as [<-|[<-|[<-|[<-|[]]]]]; (split; [constructor|tauto]).
    + assert (NOTF : forall p nd, nth_error (heap s) p = Some nd -> ~ trans_func_node s p ->
        In p (flat_map order destroyed_kinds)).
      { intros p nd B F. apply visited_in. exists nd. split; auto. intros E. apply F. now exists nd. }
      intros [C L]. destruct C as [p nd B|p HD|p nd d B|e i c H1 H2 H3|H1| | | | |]; simpl in L; try tauto.
      * left. exists p. split; [eapply NOTF; eauto|now left].
      * left. exists p. destruct HD as (nd & d & B & D). split; [eapply NOTF; eauto|].
        right; left. split; auto. now exists nd, d.
      * left. exists e. destruct H1 as (nd & d & B & K & D & P). split.
        { apply visited_in. exists nd. rewrite K. split; [auto|discriminate]. }
        right; right; left. exists i, c. rewrite pdfs_lit. repeat split; auto; [|lia]. now exists nd, d.
      * left. exists (s_integ x). destruct H1 as (nd & d & B & K & D & P). split.
        { apply visited_in. exists nd. rewrite K. split; [auto|discriminate]. }
        right; right; right. repeat split; auto. now exists nd, d.
      * right. simpl. auto.
      * right. simpl. auto.
      * right. simpl. auto.
      * right. simpl. auto.
Qed.
End Clean.

(** ** Sessions *)
Section Sessions.
Variable b : bool.

Definition sceneless (P : proc) : Prop := match p_api P with Present a => scn a = None | _ => True end.
Definition sim (P Q : proc) : Prop :=
  p_api P = p_api Q /\ (b = true -> p_clock P = p_clock Q) /\ (p_sdf P = p_sdf Q \/ sceneless P).

Lemma not_scene c : is_scene c = false -> forall i sa ca m, c <> FrScene i sa ca m.
Proof. intros E i sa ca m ->. discriminate. Qed.

Lemma sceneless_flush o e m a : scn a = None -> forall w, flush b o e m a <> Ret w.
Proof. intros E w. unfold flush. rewrite E. destruct (b && clk a); discriminate. Qed.

Lemma step_sim P Q c : sim P Q -> snd (Lifecycle.step b P c) = snd (Lifecycle.step b Q c) /\
  sim (fst (Lifecycle.step b P c)) (fst (Lifecycle.step b Q c)).
Proof.
  intros (E1 & E2 & E3).
  assert (CK : b && clock_gone P = b && clock_gone Q).
  { destruct b; auto. unfold clock_gone. now rewrite E2. }
  destruct c as [|c sdf|order]; cbn [Lifecycle.step].
  - split; auto. split; [reflexivity|]. split; [intros ->; reflexivity|right; reflexivity].
  - unfold with_api. rewrite <- CK, <- E1.
    destruct (b && clock_gone P); [split; [auto|repeat split; auto]|].
    destruct (p_api P) as [|a|] eqn:A; [split; [auto|]; repeat split; simpl; auto; congruence| |split; [auto|]; repeat split; simpl; auto; congruence].
    pose proof (call_no_scene b c a) as NS.
    destruct (run_call b c a) as [a' e] eqn:RC. simpl in NS.
    assert (GO : forall u, sim (Proc (Present a') (p_clock P) (if is_scene c && negb (b && clk a) then sdf else p_sdf P))
                    (Proc (Present a') (p_clock Q) (if is_scene c && negb (b && clk a) then sdf else p_sdf Q)) /\ u = u :> exit unit).
    { intros u. split; auto. split; [reflexivity|]. split; [exact E2|]. simpl.
      destruct E3 as [->|E3]; [now left|]. unfold sceneless in *. simpl. rewrite A in E3.
      destruct (is_scene c) eqn:SC; simpl.
      - destruct (b && clk a) eqn:CL; simpl; [|now left]. right.
        apply andb_true_iff in CL as [-> CL]. rewrite (running_fails c a CL) in RC. now injection RC as <- <-.
      - right. apply NS; auto. now apply not_scene. }
    assert (SELF : sim P Q) by (repeat split; auto; congruence).
    destruct e; simpl; (split; [reflexivity|]); first [exact SELF | exact (proj1 (GO (Ret tt)))].
  - unfold with_api. rewrite <- CK, <- E1.
    destruct (b && clock_gone P); [split; [auto|repeat split; auto]|].
    destruct (p_api P) as [|a|] eqn:A; [split; [auto|]; repeat split; simpl; auto; congruence| |split; [auto|]; repeat split; simpl; auto; congruence].
    assert (SELF : sim P Q) by (repeat split; auto; congruence).
    pose proof (sceneless_flush (order KObject) (order KEmitter) (order KMedia) a) as SF.
    destruct (flush b (order KObject) (order KEmitter) (order KMedia) a) as [w|e| |] eqn:F; simpl.
    + destruct (scn a) as [x|] eqn:X; [|now destruct (SF eq_refl w)].
      destruct E3 as [E3|E3]; [|unfold sceneless in E3; rewrite A in E3; congruence].
      destruct (clean_up order a x w); simpl; [|split; [reflexivity|exact SELF]..].
      rewrite E3. split; [reflexivity|]. repeat split; simpl; auto. intros ->. reflexivity.
    + split; [reflexivity|]. split; [reflexivity|]. split; [exact E2|]. right. exact I.
    + split; [reflexivity|exact SELF].
    + split; [reflexivity|exact SELF].
Qed.

Lemma session_sim cs : forall P Q, sim P Q -> snd (session b P cs) = snd (session b Q cs).
Proof.
  induction cs as [|c cs IH]; intros P Q S; [reflexivity|]. cbn [session].
  destruct (step_sim P Q c S) as [O S'].
  destruct (Lifecycle.step b P c) as [P' o], (Lifecycle.step b Q c) as [Q' o']. simpl in O, S'. subst o'.
  specialize (IH P' Q' S'). destruct (session b P' cs), (session b Q' cs). simpl in IH. subst.
  destruct o; reflexivity.
Qed.

Lemma initialize_sim P Q : sim (fst (Lifecycle.step b P Initialize)) (fst (Lifecycle.step b Q Initialize)).
Proof. cbn. repeat split; simpl; [intros ->; reflexivity|now right]. Qed.
End Sessions.

(** the mode of the render is the one given with the scene *)
Definition mode_from (past : list (cmd * seen)) (P : proc) : Prop :=
  match p_api P with
  | Present a => clk a = true \/ scn a = None \/
      exists i sa ca m, In (Do (FrScene i sa ca m) (p_sdf P), Called (Ret tt)) past
  | _ => True
  end.

Lemma mode_step past P c : mode_from past P -> (forall o, c <> Flush o) -> snd (Lifecycle.step true P c) <> Broken ->
  mode_from (past ++ [(c, snd (Lifecycle.step true P c))]) (fst (Lifecycle.step true P c)).
Proof.
  intros M NF. destruct c as [|c sdf|o]; [|cbn [Lifecycle.step]|now destruct (NF o)].
  - intros _. cbn. now right; left.
  - unfold with_api. destruct (true && _); [now intros []|].
    unfold mode_from in M. destruct (p_api P) as [|a|] eqn:A; [now intros []| |intros _; cbn [fst]; unfold mode_from; now rewrite A].
    pose proof (call_no_scene true c a) as NS. pose proof (call_clk c a) as CL.
    destruct (run_call true c a) as [a' e] eqn:RC. simpl in NS.
    destruct (clk a) eqn:CK.
    + rewrite (running_fails c a CK) in RC. injection RC as <- <-. intros _. cbn. now left.
    + assert (G : forall u, e = u -> u <> Crash -> u <> Fuel ->
        mode_from (past ++ [(Do c sdf, Called u)]) (Proc (Present a') (p_clock P) (if is_scene c && negb (true && false) then sdf else p_sdf P))).
      { intros u -> NC NFu. unfold mode_from. cbn [p_api p_sdf].
        destruct u as [[]|msg| |]; try easy; [|left; exact CL].
        destruct (is_scene c) eqn:SC; cbn [andb negb].
        - right. right. destruct c; try discriminate. do 4 eexists. apply in_or_app. right. left. reflexivity.
        - right. destruct M as [M|[M|(i & sa & ca & m & M)]]; [discriminate| |].
          + left. apply NS; auto. now apply not_scene.
          + right. exists i, sa, ca, m. apply in_or_app. now left. }
      destruct e as [u|msg| |]; cbn [snd fst]; intros NB; try (now destruct NB); apply G; first [reflexivity | discriminate].
Qed.

(** ** Geometry numbers *)
Lemma embree_lists l : forall e, fold_left add_shape l e = Embree (e_meshes e ++ l) (e_attached e ++ filter is_tri l).
Proof.
  induction l as [|s l IH]; intros [m a]; simpl; [now rewrite !app_nil_r|].
  rewrite IH. unfold add_shape. simpl. destruct (is_tri s); simpl; now rewrite <- !app_assoc.
Qed.
Lemma embree_of_lists l : embree_of l = Embree l (filter is_tri l).
Proof. unfold embree_of. now rewrite embree_lists. Qed.

Lemma filter_nth_le {A} (f : A -> bool) l : length (filter f l) <= length l.
Proof. induction l as [|a l IH]; simpl; auto. destruct (f a); simpl; lia. Qed.

Lemma numbers_agree (l : list shape) :
  (forall g s, nth_error (filter is_tri l) g = Some s -> nth_error l g = Some s) <->
  (forall g s, g < length (filter is_tri l) -> nth_error l g = Some s -> is_tri s = true).
Proof.
  split.
  - intros H g s G E. destruct (nth_error (filter is_tri l) g) as [s'|] eqn:F.
    + rewrite (H g s' F) in E. injection E as <-. apply nth_error_In, filter_In in F. tauto.
    + apply nth_error_None in F. lia.
  - induction l as [|a l IH]; intros H g s E; [now destruct g|]. simpl in *.
    destruct (is_tri a) eqn:T.
    + destruct g as [|g]; [exact E|]. simpl in *. apply IH; auto.
      intros g' s' G. apply (H (S g') s'). simpl. lia.
    + assert (L : g < length (filter is_tri l)) by (apply nth_error_Some; congruence).
      specialize (H 0 a ltac:(lia) eq_refl). congruence.
Qed.

Lemma sd_fold_index l : forall i p acc d j, sd_fold l i p acc = Some (d, j) ->
  (exists d', acc = Some (d', j)) \/ i <= j < i + length l.
Proof.
  induction l as [|f l IH]; intros i p acc d j; cbn [sd_fold length].
  - intros ->. left. eauto.
  - intros H. apply IH in H as [(d' & E)|H]; [|right; lia].
    destruct acc as [[m k]|].
    + destruct (Rgt_dec m (sdf_eval f p)); injection E as <- <-; [right; lia|left; eauto].
    + injection E as <- <-. right. lia.
Qed.
Lemma sd_march_index l r far n : forall d h, sd_march l r far n d = Some h -> h_shape h < length l.
Proof.
  induction n as [|n IH]; intros d h; cbn [sd_march]; [discriminate|].
  destruct (Rbar_le_dec (Finite d) far); [|discriminate].
  destruct (sd_evaluate l (ray_at r d)) as [[v i]|] eqn:E; [|discriminate].
  destruct (Rle_dec v _); [|apply IH]. intros [= <-]. simpl.
  apply sd_fold_index in E as [(d' & E)|E]; [discriminate|lia].
Qed.
Lemma sdf_hit_index l r h : sdf_intersect l r = Some h -> h_shape h < length l.
Proof.
  unfold sdf_intersect. destruct (finite_box _); [|discriminate]. destruct (bb_range _ _). apply sd_march_index.
Qed.

Lemma as_sdfs_spec l : match as_sdfs l with
  | Ok fs => l = map Distance fs
  | UB => exists m, In (Triangles m) l
  | _ => False
  end.
Proof.
  induction l as [|[m|f] l IH]; simpl; auto.
  - exists m. auto.
  - destruct (as_sdfs l) as [fs| | |]; simpl; auto; [now f_equal|]. destruct IH as (m & H). eauto.
Qed.

Lemma mesh_mode_ok dist rtc l r : embree_ok dist rtc ->
  (forall g s, nth_error (filter is_tri l) g = Some s -> nth_error l g = Some s) ->
  exists a, scene_hit rtc false l r = Ok a /\ nearest dist (filter is_tri l) r a.
Proof.
  intros E H. unfold scene_hit, embree_hit. rewrite embree_of_lists. simpl.
  specialize (E (filter is_tri l) r). destruct (rtc (filter is_tri l) r) as [[g t]|].
  - destruct E as (s & N & M). unfold at_. rewrite (H g s N). simpl. eexists. split; [reflexivity|exact M].
  - eexists. split; [reflexivity|exact E].
Qed.

(** an Embree that names geometry g whenever it can: every triangle mesh is at distance 1 *)
Definition flat (s : shape) (r : ray) : option R := if is_tri s then Some 1%R else None.
Fixpoint first_tri (l : list shape) (i : nat) : option nat :=
  match l with [] => None | s :: l' => if is_tri s then Some i else first_tri l' (S i) end.
Definition naming (g : nat) (l : list shape) (r : ray) : option (nat * R) :=
  match nth_error l g with
  | Some (Triangles _) => Some (g, 1%R)
  | _ => match first_tri l 0 with Some i => Some (i, 1%R) | None => None end
  end.
Lemma first_tri_spec l : forall i, match first_tri l i with
  | Some j => exists k m, j = i + k /\ nth_error l k = Some (Triangles m)
  | None => forall s, In s l -> is_tri s = false end.
Proof.
  induction l as [|[m|f] l IH]; intros i; simpl.
  - intros s [].
  - exists 0, m. split; [lia|reflexivity].
  - specialize (IH (S i)). destruct (first_tri l (S i)) as [j|].
    + destruct IH as (k & m & -> & E). exists (S k), m. split; [lia|exact E].
    + intros s [<-|H]; auto.
Qed.
Lemma naming_ok g : embree_ok flat (naming g).
Proof.
  intros l r. unfold naming.
  assert (HIT : forall j m, nth_error l j = Some (Triangles m) ->
    exists s, nth_error l j = Some s /\ nearest flat l r (Some (s, 1%R))).
  { intros j m E. exists (Triangles m). split; [exact E|]. simpl. repeat split.
    - eapply nth_error_In; eauto.
    - intros s' t' _. unfold flat. destruct (is_tri s'); [|discriminate]. intros [= <-]. apply Rle_refl. }
  assert (FIRST : match match first_tri l 0 with Some i => Some (i, 1%R) | None => None end with
    | Some (g0, t) => exists s, nth_error l g0 = Some s /\ nearest flat l r (Some (s, t))
    | None => nearest flat l r None end).
  { pose proof (first_tri_spec l 0) as F. destruct (first_tri l 0) as [j|].
    - destruct F as (k & m & -> & E). simpl. eauto.
    - intros s S. unfold flat. now rewrite (F s S). }
  destruct (nth_error l g) as [[m|f]|] eqn:G; eauto.
Qed.
