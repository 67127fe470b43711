(** Well-formed API states and the elementary state changes. *)
From Coq Require Import String List Bool Arith Lia Relations.
From Verif.Model Require Import Vec Matrix ApiTransform Api.
Import ListNotations.
Open Scope list_scope.

Definition key (nd : node) : kind * string := (nkind nd, nname nd).

Fixpoint reg_from (i : nat) (h : list node) : list (kind * string * ptr) :=
  match h with
  | [] => []
  | nd :: h' => (nkind nd, nname nd, i) :: reg_from (S i) h'
  end.
Definition reg_of := reg_from 0.

Lemma reg_from_app i h g : reg_from i (h ++ g) = reg_from i h ++ reg_from (i + length h) g.
Proof.
  revert i; induction h as [|a h IH]; intros i; simpl; [now rewrite Nat.add_0_r|].
  rewrite IH. now replace (S i + length h) with (i + S (length h)) by lia.
Qed.

Lemma reg_from_length i h : length (reg_from i h) = length h.
Proof. revert i; induction h; intros; simpl; auto. Qed.

Lemma nth_upd {A} (l : list A) i f j :
  nth_error (upd l i f) j = if Nat.eqb i j then option_map f (nth_error l j) else nth_error l j.
Proof.
  revert i j; induction l as [|a l IH]; intros [|i] [|j]; simpl; auto.
  - now destruct (Nat.eqb i j).
Qed.

Lemma upd_length {A} (l : list A) i f : length (upd l i f) = length l.
Proof. revert i; induction l; intros [|i]; simpl; auto. Qed.

Lemma upd_app {A} (l m : list A) f i : i < length l -> upd (l ++ m) i f = upd l i f ++ m.
Proof.
  revert i; induction l as [|a l IH]; intros [|i] H; simpl in *; try lia; auto.
  now rewrite IH by lia.
Qed.

Lemma upd_last {A} (l : list A) a m f : upd (l ++ a :: m) (length l) f = l ++ f a :: m.
Proof. induction l; simpl; congruence. Qed.

Lemma upd_same {A} (l : list A) i f a :
  nth_error l i = Some a -> f a = a -> upd l i f = l.
Proof.
  revert i; induction l as [|b l IH]; intros [|i] H E; simpl in *; try discriminate; auto.
  - injection H as ->. congruence.
  - f_equal. now apply IH.
Qed.

Lemma upd_nth {A} (l : list A) i f a :
  nth_error l i = Some a -> upd l i f = upd l i (fun _ => f a).
Proof.
  revert i; induction l as [|b l IH]; intros [|i] H; simpl in *; try discriminate; auto.
  - injection H as ->. reflexivity.
  - f_equal. now apply IH.
Qed.

Lemma upd_upd {A} (l : list A) i f g : upd (upd l i f) i g = upd l i (fun a => g (f a)).
Proof. revert i; induction l; intros [|i]; simpl; auto. now rewrite IHl. Qed.

Lemma reg_from_upd i h p f :
  (forall nd, nkind (f nd) = nkind nd /\ nname (f nd) = nname nd) ->
  reg_from i (upd h p f) = reg_from i h.
Proof.
  intros H. revert i p; induction h as [|a h IH]; intros i [|p]; simpl; auto.
  - destruct (H a) as [-> ->]. reflexivity.
  - now rewrite IH.
Qed.

Lemma map_key_upd h p f :
  (forall nd, key (f nd) = key nd) -> map key (upd h p f) = map key h.
Proof.
  intros H. revert p; induction h as [|a h IH]; intros [|p]; simpl; auto.
  - now rewrite H.
  - now rewrite IH.
Qed.

(** a node of this kind and name lives at address p *)
Definition hasn (s : api) k n p :=
  exists nd, nth_error (heap s) p = Some nd /\ nkind nd = k /\ nname nd = n.
Definition hask (s : api) k p := exists n, hasn s k n p.

(** the definition a "default" node is created with *)
Definition builtin (k : kind) : option payload :=
  match k with
  | KBsdf => Some null_bsdf
  | KFilter => Some gauss_filter
  | KPhase => Some hg_zero
  | KMedSamp => Some analytic_samp
  | KTransEst => Some homo_trans
  | KTransFunc => Some exp_trans
  | _ => None
  end.

(** names that a table never holds *)
Definition null_name (k : kind) (n : string) : bool :=
  match k with
  | KEmitter => String.eqb n "null"
  | KMedia => String.eqb n "null" || String.eqb n "default"
  | KTexture => String.eqb n "" || String.eqb n "default"
  | KDensity | KPhase | KMedSamp | KTransEst | KTransFunc => String.eqb n ""
  | _ => false
  end.

Definition opt_has (s : api) k (o : option ptr) :=
  match o with Some p => hask s k p | None => True end.

Record node_ok (s : api) (nd : node) : Prop := {
  ok_null : null_name (nkind nd) (nname nd) = false;
  ok_builtin : forall d, nname nd = "default"%string -> builtin (nkind nd) = Some d ->
    ndef nd = Some d;
  ok_mat : nkind nd = KMat -> nname nd = "default"%string ->
    exists b, hasn s KBsdf "default" b /\ ndef nd = Some (simple_material b);
  ok_obj : nkind nd = KObject -> exists m, omesh nd = Some m;
  ok_mesh : opt_has s KMesh (omesh nd);
  ok_omat : opt_has s KMat (omat nd);
  ok_oemit : opt_has s KEmitter (oemit nd);
  ok_nobj : opt_has s KObject (nobj nd);
  ok_filter : nkind nd = KFilter -> nname nd <> "default"%string -> ndef nd = None
}.

Definition emitter_def (s : api) (p : ptr) (d : payload) : Prop :=
  exists nd, nth_error (heap s) p = Some nd /\ nkind nd = KEmitter /\ ndef nd = Some d.

Definition scene_ok (s : api) : Prop :=
  match scn s with
  | None => forall p d, ~ emitter_def s p d
  | Some x =>
      NoDup (s_emit x) /\ NoDup (s_env x) /\
      (forall p, In p (s_emit x) <-> exists d, emitter_def s p d /\ pty d <> "environment"%string) /\
      (forall p, In p (s_env x) <-> exists d, emitter_def s p d /\ pty d = "environment"%string) /\
      hask s KIntegrator (s_integ x) /\ hask s KSampler (s_samp x) /\
      hask s KCamera (s_cam x) /\ opt_has s KMedia (s_media x)
  end.

Record wf (s : api) : Prop := {
  wf_lock : reg s = reg_of (heap s);
  wf_keys : NoDup (map key (heap s));
  wf_nodes : forall p nd, nth_error (heap s) p = Some nd -> node_ok s nd;
  wf_scene : scene_ok s
}.

Lemma wf_init : wf api_init.
Proof.
  split; simpl; auto.
  - constructor.
  - intros [|p]; discriminate.
  - intros p d (nd & H & _). destruct p; discriminate.
Qed.

Lemma find_reg h i k n :
  find (key_eqb k n) (reg_from i h) = None -> ~ In (k, n) (map key h).
Proof.
  revert i; induction h as [|a h IH]; intros i; simpl; [tauto|].
  destruct (kind_eq_dec k (nkind a)) as [->|NE].
  - destruct (String.eqb_spec n (nname a)) as [->|NE]; [discriminate|].
    intros H [E|E]; [unfold key in E; congruence|]. now apply IH in H.
  - intros H [E|E]; [unfold key in E; congruence|]. now apply IH in H.
Qed.

Lemma find_reg_some h i k n e :
  find (key_eqb k n) (reg_from i h) = Some e ->
  exists j nd, e = (k, n, i + j) /\ nth_error h j = Some nd /\ key nd = (k, n).
Proof.
  revert i; induction h as [|a h IH]; intros i; simpl; [discriminate|].
  destruct (kind_eq_dec k (nkind a)) as [->|NE].
  - destruct (String.eqb_spec n (nname a)) as [->|NE].
    + intros [= <-]. exists 0, a. now rewrite Nat.add_0_r.
    + intros H. apply IH in H as (j & nd & -> & H1 & H2).
      exists (S j), nd. split; [f_equal; lia|auto].
  - intros H. apply IH in H as (j & nd & -> & H1 & H2).
    exists (S j), nd. split; [f_equal; lia|auto].
Qed.

Lemma lookup_hasn s k n p : wf s -> lookup s k n = Some p -> hasn s k n p.
Proof.
  intros W. unfold lookup. rewrite (wf_lock s W). unfold reg_of.
  destruct (find _ _) as [e|] eqn:E; [|discriminate].
  apply find_reg_some in E as (j & nd & -> & H & K). simpl. intros [= <-].
  exists nd. unfold key in K. injection K as K1 K2. auto.
Qed.

Lemma keys_inj h p q a b :
  NoDup (map key h) -> nth_error h p = Some a -> nth_error h q = Some b ->
  key a = key b -> p = q.
Proof.
  intros N Ha Hb E.
  apply (proj1 (NoDup_nth_error (map key h)) N).
  - rewrite map_length. apply nth_error_Some. congruence.
  - rewrite !nth_error_map, Ha, Hb. simpl. congruence.
Qed.

Lemma hasn_lookup s k n p : wf s -> hasn s k n p -> lookup s k n = Some p.
Proof.
  intros W (nd & H & K & N). unfold lookup. rewrite (wf_lock s W). unfold reg_of.
  destruct (find _ _) as [e|] eqn:E.
  - apply find_reg_some in E as (j & nd' & -> & H' & K'). simpl. f_equal.
    apply (keys_inj (heap s) j p nd' nd (wf_keys s W) H' H).
    rewrite K'. unfold key. congruence.
  - apply find_reg in E. exfalso. apply E.
    replace (k, n) with (key nd) by (unfold key; congruence).
    apply in_map. eapply nth_error_In; eauto.
Qed.

Lemma lookup_none s k n : wf s -> lookup s k n = None -> ~ In (k, n) (map key (heap s)).
Proof.
  intros W. unfold lookup. rewrite (wf_lock s W). unfold reg_of.
  destruct (find _ _) as [[[a b] c]|] eqn:E; [discriminate|].
  intros _. now apply find_reg in E.
Qed.

Lemma hasn_fun s k n p q : wf s -> hasn s k n p -> hasn s k n q -> p = q.
Proof.
  intros W H1 H2. apply (hasn_lookup _ _ _ _ W) in H1. apply (hasn_lookup _ _ _ _ W) in H2.
  congruence.
Qed.

(** how a node may change: nothing that has been set is ever overwritten *)
Record refine (nd nd' : node) : Prop := {
  rf_kind : nkind nd' = nkind nd;
  rf_name : nname nd' = nname nd;
  rf_def : forall d, ndef nd = Some d -> ndef nd' = Some d;
  rf_mesh : forall m, omesh nd = Some m -> omesh nd' = Some m;
  rf_mat : forall m, omat nd = Some m -> omat nd' = Some m;
  rf_emit : forall m, oemit nd = Some m -> oemit nd' = Some m;
  rf_trans : otrans nd' = otrans nd
}.

Lemma refine_refl nd : refine nd nd.
Proof. split; auto. Qed.
Lemma refine_trans a b c : refine a b -> refine b c -> refine a c.
Proof.
  intros [A1 A2 A3 A4 A5 A6 A7] [B1 B2 B3 B4 B5 B6 B7].
  split; auto; congruence.
Qed.

Definition append (s : api) (l : list node) : api :=
  Api (heap s ++ l) (reg s ++ reg_from (length (heap s)) l) (cur s) (scn s) (clk s).
Definition put (s : api) (p : ptr) (nd : node) : api :=
  Api (upd (heap s) p (fun _ => nd)) (reg s) (cur s) (scn s) (clk s).
Definition with_scn (s : api) (x : scene) : api :=
  Api (heap s) (reg s) (cur s) (Some x) (clk s).

(** elementary state changes; every call is a sequence of these (Proof/ApiCalls.v) *)
Inductive step : api -> api -> Prop :=
| St_misc s t b : step s (Api (heap s) (reg s) t (scn s) b)
| St_scene s x : scn s = None -> s_emit x = [] -> s_env x = [] ->
    hask s KIntegrator (s_integ x) -> hask s KSampler (s_samp x) ->
    hask s KCamera (s_cam x) -> opt_has s KMedia (s_media x) ->
    step s (with_scn s x)
| St_light s x l : scn s = Some x ->
    step s (with_scn s (Scn (s_integ x) (s_samp x) (s_cam x) (s_media x) (s_emit x)
                            (s_env x) l))
| St_alloc s l :
    NoDup (map key (heap s ++ l)) ->
    (forall nd, In nd l -> node_ok (append s l) nd) ->
    (forall nd, In nd l -> nkind nd = KEmitter -> ndef nd = None) ->
    step s (append s l)
| St_put s p nd nd' :
    nth_error (heap s) p = Some nd -> refine nd nd' -> node_ok s nd' ->
    (nkind nd = KEmitter -> ndef nd' = ndef nd) ->
    step s (put s p nd')
| St_emitter s p nd d x :
    nth_error (heap s) p = Some nd -> nkind nd = KEmitter -> ndef nd = None ->
    scn s = Some x ->
    step s (with_scn (put s p (put_def (Some d) nd))
      (if String.eqb (pty d) "environment"
       then Scn (s_integ x) (s_samp x) (s_cam x) (s_media x) (s_emit x)
                (s_env x ++ [p]) (s_light x)
       else Scn (s_integ x) (s_samp x) (s_cam x) (s_media x) (s_emit x ++ [p])
                (s_env x) (s_light x))).

Definition steps := clos_refl_trans api step.

(** what survives any sequence of changes *)
Record ext (s s' : api) : Prop := {
  ext_node : forall p nd, nth_error (heap s) p = Some nd ->
    exists nd', nth_error (heap s') p = Some nd' /\ refine nd nd';
  ext_scn : forall x, scn s = Some x -> exists x', scn s' = Some x' /\
    s_integ x' = s_integ x /\ s_samp x' = s_samp x /\ s_cam x' = s_cam x /\
    s_media x' = s_media x
}.

Lemma ext_refl s : ext s s.
Proof. split; eauto 10 using refine_refl. Qed.
Lemma ext_trans a b c : ext a b -> ext b c -> ext a c.
Proof.
  intros [A1 A2] [B1 B2]. split.
  - intros p nd H. apply A1 in H as (nd1 & H & R1). apply B1 in H as (nd2 & H & R2).
    eauto using refine_trans.
  - intros x H. apply A2 in H as (x1 & H & E1 & E2 & E3 & E4).
    apply B2 in H as (x2 & H & F1 & F2 & F3 & F4). exists x2. repeat split; congruence.
Qed.

Lemma ext_hasn s s' k n p : ext s s' -> hasn s k n p -> hasn s' k n p.
Proof.
  intros E (nd & H & K & N). apply (ext_node _ _ E) in H as (nd' & H & R).
  exists nd'. destruct R. repeat split; congruence.
Qed.
Lemma ext_hask s s' k p : ext s s' -> hask s k p -> hask s' k p.
Proof. intros E (n & H). exists n. eauto using ext_hasn. Qed.
Lemma ext_opt s s' k o : ext s s' -> opt_has s k o -> opt_has s' k o.
Proof. destruct o; simpl; eauto using ext_hask. Qed.
Lemma node_ok_ext s s' nd : ext s s' -> node_ok s nd -> node_ok s' nd.
Proof.
  intros E [H1 H2 H3 H4 H5 H6 H7 H8]. split; eauto using ext_opt.
  intros K N. destruct (H3 K N) as (b & Hb & D). exists b. eauto using ext_hasn.
Qed.

Lemma nth_append (s : api) l p nd :
  nth_error (heap s) p = Some nd -> nth_error (heap (append s l)) p = Some nd.
Proof.
  intros H. simpl. rewrite nth_error_app1; auto. apply nth_error_Some. congruence.
Qed.

Lemma ext_heap s s' :
  (forall p nd, nth_error (heap s) p = Some nd ->
    exists nd', nth_error (heap s') p = Some nd' /\ refine nd nd') ->
  scn s' = scn s -> ext s s'.
Proof. intros H E. split; auto. intros x Hx. exists x. rewrite E. auto. Qed.

Lemma ext_put s p nd nd' :
  nth_error (heap s) p = Some nd -> refine nd nd' -> ext s (put s p nd').
Proof.
  intros H R. apply ext_heap; auto. intros q m Hq. simpl. rewrite nth_upd.
  destruct (Nat.eqb_spec p q) as [<-|NE].
  - rewrite H in *. injection Hq as <-. simpl. eauto.
  - eauto using refine_refl.
Qed.

Lemma step_ext s s' : step s s' -> ext s s'.
Proof.
  intros H. inversion H; subst.
  - apply ext_heap; simpl; eauto using refine_refl.
  - split; simpl; [eauto using refine_refl|]. congruence.
  - split; simpl; [eauto using refine_refl|]. rewrite H0. intros y [= <-].
    eexists; split; [reflexivity|]. auto.
  - apply ext_heap; auto. intros p nd Hn. exists nd. split; [now apply nth_append|].
    apply refine_refl.
  - eauto using ext_put.
  - assert (E : ext s (put s p (put_def (Some d) nd))).
    { eapply ext_put; eauto. split; simpl; auto. congruence. }
    split.
    + intros q m Hq. simpl. now apply (ext_node _ _ E) in Hq.
    + intros y Hy. rewrite H3 in Hy. injection Hy as <-.
      simpl. eexists; split; [reflexivity|]. now destruct (String.eqb _ _).
Qed.

Lemma put_keys s p nd nd' :
  nth_error (heap s) p = Some nd -> refine nd nd' ->
  map key (upd (heap s) p (fun _ => nd')) = map key (heap s) /\
  reg_of (upd (heap s) p (fun _ => nd')) = reg_of (heap s).
Proof.
  intros H R. unfold reg_of. generalize 0.
  revert p H; induction (heap s) as [|a h IH]; intros [|p] H i; simpl in *; try discriminate.
  - injection H as ->. destruct R. unfold key. split; congruence.
  - destruct (IH p H (S i)) as [-> ->]. auto.
Qed.

Lemma emitter_def_put s p nd nd' q d :
  nth_error (heap s) p = Some nd -> refine nd nd' ->
  (nkind nd = KEmitter -> ndef nd' = ndef nd) ->
  emitter_def (put s p nd') q d <-> emitter_def s q d.
Proof.
  intros H R E. unfold emitter_def. simpl. setoid_rewrite nth_upd.
  destruct (Nat.eqb_spec p q) as [<-|NE]; [|reflexivity].
  rewrite H. simpl. split.
  - intros (m & [= <-] & K & D). exists nd. destruct R. rewrite rf_kind0 in K.
    repeat split; auto. rewrite <- E by auto. auto.
  - intros (m & [= <-] & K & D). exists nd'. destruct R. repeat split; auto; congruence.
Qed.

Lemma scene_ok_same s s' :
  scene_ok s -> ext s s' -> scn s' = scn s ->
  (forall q d, emitter_def s' q d <-> emitter_def s q d) -> scene_ok s'.
Proof.
  unfold scene_ok. intros H E -> I. destruct (scn s) as [x|].
  - destruct H as (H1 & H2 & H3 & H4 & H5 & H6 & H7 & H8).
    assert (J3 : forall p, In p (s_emit x) <->
              exists d, emitter_def s' p d /\ pty d <> "environment"%string).
    { intros p. rewrite H3. split; intros (d & Hd & N); exists d; split; auto; now apply I. }
    assert (J4 : forall p, In p (s_env x) <->
              exists d, emitter_def s' p d /\ pty d = "environment"%string).
    { intros p. rewrite H4. split; intros (d & Hd & N); exists d; split; auto; now apply I. }
    refine (conj H1 (conj H2 (conj J3 (conj J4 _)))).
    eauto 10 using ext_hask, ext_opt.
  - intros p d Hd. apply I in Hd. exact (H p d Hd).
Qed.

Lemma NoDup_snoc {A} (l : list A) a : NoDup l -> ~ In a l -> NoDup (l ++ [a]).
Proof.
  intros N H. apply (NoDup_Add (a := a) (l := l)).
  - rewrite <- (app_nil_r l) at 1. apply Add_app.
  - auto.
Qed.

Lemma step_wf s s' : step s s' -> wf s -> wf s'.
Proof.
  intros H W. pose proof (step_ext _ _ H) as E. destruct W as [W1 W2 W3 W4].
  inversion H; subst.
  - split; [exact W1|exact W2| |]; simpl.
    + intros p nd Hn. apply W3 in Hn. eauto using node_ok_ext.
    + eapply scene_ok_same; eauto; simpl; auto. reflexivity.
  - split; [exact W1|exact W2| |]; simpl.
    + intros p nd Hn. apply W3 in Hn. eauto using node_ok_ext.
    + unfold scene_ok in *. simpl. rewrite H0 in W4. rewrite H1, H2.
      repeat split; try (constructor; fail); eauto using ext_hask, ext_opt.
      all: try (intros (d & Hd & _); exfalso; eapply W4; exact Hd).
      all: intros [].
  - split; [exact W1|exact W2| |]; simpl.
    + intros p nd Hn. apply W3 in Hn. eauto using node_ok_ext.
    + unfold scene_ok in *. simpl. rewrite H0 in W4.
      destruct W4 as (A1 & A2 & A3 & A4 & A5 & A6 & A7 & A8).
      repeat split; eauto using ext_hask, ext_opt; try apply A3; try apply A4.
  - split.
    + simpl. rewrite W1. unfold reg_of. now rewrite reg_from_app.
    + exact H0.
    + intros p nd Hn. simpl in Hn.
      destruct (Nat.lt_ge_cases p (length (heap s))) as [L|L].
      * rewrite nth_error_app1 in Hn by auto. apply W3 in Hn. eauto using node_ok_ext.
      * rewrite nth_error_app2 in Hn by auto. apply nth_error_In in Hn. auto.
    + eapply scene_ok_same; eauto. intros q d. unfold emitter_def. split.
      * intros (nd & Hn & K & D). simpl in Hn.
        destruct (Nat.lt_ge_cases q (length (heap s))) as [L|L].
        -- rewrite nth_error_app1 in Hn by auto. eauto.
        -- rewrite nth_error_app2 in Hn by auto. apply nth_error_In in Hn.
           rewrite (H2 _ Hn K) in D. discriminate.
      * intros (nd & Hn & K & D). exists nd. split; [now apply nth_append|auto].
  - destruct (put_keys s p nd nd' H0 H1) as [K1 K2].
    split; simpl.
    + rewrite K2. exact W1.
    + rewrite K1. exact W2.
    + intros q m Hq. rewrite nth_upd in Hq. destruct (Nat.eqb_spec p q) as [<-|NE].
      * rewrite H0 in Hq. injection Hq as <-. eauto using node_ok_ext.
      * apply W3 in Hq. eauto using node_ok_ext.
    + eapply scene_ok_same; eauto. intros q d.
      apply (emitter_def_put s p nd nd' q d); auto.
  - set (nd' := put_def (Some d) nd) in *.
    assert (R : refine nd nd') by (split; simpl; auto; congruence).
    destruct (put_keys s p nd nd' H0 R) as [K1 K2].
    assert (ID : forall q e, emitter_def (put s p nd') q e <->
              (q = p /\ e = d) \/ emitter_def s q e).
    { intros q e. unfold emitter_def. simpl. rewrite nth_upd.
      destruct (Nat.eqb_spec p q) as [<-|NE].
      - rewrite H0. simpl. split.
        + intros (m & [= <-] & K & D). simpl in D. left. split; congruence.
        + intros [[_ ->]|(m & [= <-] & K & D)]; [|congruence].
          exists nd'. simpl. auto.
      - split; [intros (m & Hm); right; eauto|].
        intros [[-> _]|Hm]; [congruence|auto]. }
    assert (NP : forall e, ~ emitter_def s p e).
    { intros e (m & Hm & K & D). congruence. }
    split; simpl.
    + rewrite K2. exact W1.
    + rewrite K1. exact W2.
    + intros q m Hq. rewrite nth_upd in Hq. destruct (Nat.eqb_spec p q) as [<-|NE].
      * rewrite H0 in Hq. injection Hq as <-.
        destruct (W3 _ _ H0) as [O1 O2 O3 O4 O5 O6 O7 O8 O9].
        split; simpl; eauto using ext_opt; rewrite H1; simpl; congruence.
      * apply W3 in Hq. eauto using node_ok_ext.
    + unfold scene_ok in *. rewrite H3 in W4. simpl.
      destruct W4 as (A1 & A2 & A3 & A4 & A5 & A6 & A7 & A8).
      assert (I1 : ~ In p (s_emit x)) by (intros Hp; apply A3 in Hp as (e & He & _); eapply NP; eauto).
      assert (I2 : ~ In p (s_env x)) by (intros Hp; apply A4 in Hp as (e & He & _); eapply NP; eauto).
      destruct (String.eqb_spec (pty d) "environment") as [T|T]; simpl;
        repeat split; eauto using ext_hask, ext_opt, NoDup_snoc.
      * intros Hp. apply A3 in Hp as (e & He & N). exists e. split; [apply ID; auto|auto].
      * intros (e & He & N). apply ID in He as [[-> ->]|He]; [congruence|]. apply A3. eauto.
      * intros Hp. apply in_app_or in Hp as [Hp|[<-|[]]].
        -- apply A4 in Hp as (e & He & N). exists e. split; [apply ID; auto|auto].
        -- exists d. split; [apply ID; auto|auto].
      * intros (e & He & N). apply ID in He as [[-> ->]|He]; apply in_or_app; [right; now left|].
        left. apply A4. eauto.
      * intros Hp. apply in_app_or in Hp as [Hp|[<-|[]]].
        -- apply A3 in Hp as (e & He & N). exists e. split; [apply ID; auto|auto].
        -- exists d. split; [apply ID; auto|auto].
      * intros (e & He & N). apply ID in He as [[-> ->]|He]; apply in_or_app; [right; now left|].
        left. apply A3. eauto.
      * intros Hp. apply A4 in Hp as (e & He & N). exists e. split; [apply ID; auto|auto].
      * intros (e & He & N). apply ID in He as [[-> ->]|He]; [congruence|]. apply A4. eauto.
Qed.

Lemma steps_ext s s' : steps s s' -> ext s s'.
Proof.
  induction 1; eauto using step_ext, ext_refl, ext_trans.
Qed.
Lemma steps_wf s s' : steps s s' -> wf s -> wf s'.
Proof. induction 1; eauto using step_wf. Qed.
