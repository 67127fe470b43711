(** Every call is a sequence of elementary changes; what successful calls establish. *)
From Coq Require Import String List Bool Arith Lia Relations.
From Verif.Model Require Import Vec Matrix ApiTransform Api.
From Verif.Spec Require Import ApiSpec.
From Verif.Proof Require Import ApiBase.
Import ListNotations.
Open Scope list_scope.
Open Scope api_scope.

Definition keep (s s' : api) : Prop :=
  forall p nd, nth_error (heap s) p = Some nd -> nth_error (heap s') p = Some nd.
(** names whose node comes with a definition *)
Definition special (k : kind) (n : string) : bool :=
  String.eqb n "default" &&
  match builtin k, k with Some _, _ => true | None, KMat => true | None, _ => false end.
Definition blank (s s' : api) : Prop :=
  forall p nd, nth_error (heap s) p = None -> nth_error (heap s') p = Some nd ->
  special (nkind nd) (nname nd) = false -> ndef nd = None.
Definition same (s s' : api) : Prop :=
  steps s s' /\ keep s s' /\ cur s' = cur s /\ scn s' = scn s /\ clk s' = clk s /\
  blank s s'.

Lemma same_refl s : same s s.
Proof.
  split; [apply rt_refl|]. split; [intros p nd H; exact H|]. repeat split; auto.
  intros p nd H1 H2. congruence.
Qed.
Lemma same_trans a b c : same a b -> same b c -> same a c.
Proof.
  intros (A1 & A2 & A3 & A4 & A5 & A6) (B1 & B2 & B3 & B4 & B5 & B6).
  split; [eapply rt_trans; eauto|]. split; [intros p nd H; auto|].
  repeat split; try congruence.
  intros p nd H1 H2 H3. destruct (nth_error (heap b) p) as [nb|] eqn:E.
  - pose proof (B2 _ _ E) as E2. apply (A6 p nd); auto. congruence.
  - apply (B6 p nd); auto.
Qed.

(** what a lookup returned *)
Definition fopt (s : api) (k : kind) (n : string) (o : option ptr) : Prop :=
  match o with Some p => hasn s k n p | None => null_name k n = true end.

Definition finds {A} (m : M A) (k : kind) (n : string) (w : A -> option ptr) : Prop :=
  forall s, wf s -> exists s' a, m s = (s', Ret a) /\ same s s' /\ fopt s' k n (w a).

Lemma alloc_keys s k n l : wf s -> lookup s k n = None ->
  Forall (fun nd => key nd = (k, n)) l -> length l <= 1 ->
  NoDup (map key (heap s ++ l)).
Proof.
  intros W L F Hl. apply (lookup_none _ _ _ W) in L. rewrite map_app.
  destruct l as [|a [|b l]]; simpl in *; try lia.
  - rewrite app_nil_r. apply W.
  - apply NoDup_snoc; [apply W|]. inversion F; subst. now rewrite H1.
Qed.

Definition plain (k : kind) (n : string) : Prop :=
  null_name k n = false /\ k <> KObject /\ (k = KMat -> n <> "default"%string) /\
  (builtin k <> None -> n <> "default"%string).

Lemma new_node_ok s k n : plain k n -> node_ok s (new_node k n).
Proof.
  intros (H1 & H2 & H3 & H4). split; simpl; auto.
  - intros d E B. exfalso. apply H4; congruence.
  - intros E N. exfalso. now apply H3.
  - congruence.
Qed.

Lemma same_append s l : wf s ->
  NoDup (map key (heap s ++ l)) ->
  (forall nd, In nd l -> node_ok (append s l) nd) ->
  (forall nd, In nd l -> nkind nd = KEmitter -> ndef nd = None) ->
  (forall nd, In nd l -> special (nkind nd) (nname nd) = false -> ndef nd = None) ->
  same s (append s l).
Proof.
  intros W H1 H2 H3 H4. split; [apply rt_step; now apply St_alloc|].
  split; [intros p nd; apply nth_append|]. repeat split; auto.
  intros p nd N1 N2. apply nth_error_None in N1. simpl in N2.
  rewrite nth_error_app2 in N2 by auto. apply nth_error_In in N2. auto.
Qed.

Lemma hasn_last s k n nd : nkind nd = k -> nname nd = n ->
  hasn (append s [nd]) k n (length (heap s)).
Proof.
  intros K N. exists nd. simpl. rewrite nth_error_app2, Nat.sub_diag by lia. auto.
Qed.

Lemma find_plain_ok k n : plain k n -> finds (find_plain k n) k n Some.
Proof.
  intros P s W. unfold find_plain, find_or. destruct (lookup s k n) as [p|] eqn:L.
  - exists s, p. split; [reflexivity|]. split; [apply same_refl|].
    simpl. now apply lookup_hasn.
  - exists (append s [new_node k n]), (length (heap s)). split; [reflexivity|]. split.
    + apply same_append; auto.
      * eapply alloc_keys; eauto; repeat constructor.
      * intros nd [<-|[]]. now apply new_node_ok.
      * intros nd [<-|[]]. reflexivity.
      * intros nd [<-|[]]. reflexivity.
    + simpl. now apply hasn_last.
Qed.

Lemma find_default_ok k d n : builtin k = Some d -> null_name k n = false ->
  finds (find_default k d n) k n Some.
Proof.
  intros B NN s W. unfold find_default, find_or. destruct (lookup s k n) as [p|] eqn:L.
  - exists s, p. split; [reflexivity|]. split; [apply same_refl|].
    simpl. now apply lookup_hasn.
  - unfold alloc, bindM. simpl.
    destruct (String.eqb_spec n "default") as [->|NE].
    + unfold set_def, modify, ret. simpl.
      set (nd := put_def (Some d) (new_node k "default")).
      exists (append s [nd]), (length (heap s)). split.
      { unfold append. rewrite upd_last. reflexivity. }
      split; [|simpl; now apply hasn_last].
      apply same_append; auto.
      * eapply alloc_keys; eauto; repeat constructor.
      * intros m [<-|[]]. split; simpl; auto; try congruence;
          intros E; subst k; discriminate.
      * intros m [<-|[]]. simpl. intros ->. discriminate.
      * intros m [<-|[]]. unfold special. simpl. rewrite B. discriminate.
    + unfold ret. simpl.
      exists (append s [new_node k n]), (length (heap s)). split; [reflexivity|].
      split; [|simpl; now apply hasn_last].
      apply same_append; auto.
      * eapply alloc_keys; eauto; repeat constructor.
      * intros m [<-|[]]. apply new_node_ok. repeat split; auto.
        -- intros ->. discriminate.
      * intros m [<-|[]]. reflexivity.
      * intros m [<-|[]]. reflexivity.
Qed.

Lemma unless_ok b k n m : b = null_name k n -> (b = false -> finds m k n Some) ->
  finds (unless b m) k n (fun o => o).
Proof.
  intros E F s W. unfold unless. destruct b.
  - exists s, None. split; [reflexivity|]. split; [apply same_refl|]. simpl. auto.
  - destruct (F eq_refl s W) as (s' & p & H & S & O).
    exists s', (Some p). unfold bindM. rewrite H. auto.
Qed.

Lemma find_bsdf_ok n : finds (find_bsdf n) KBsdf n Some.
Proof. now apply find_default_ok. Qed.
Lemma find_filter_ok n : finds (find_filter n) KFilter n Some.
Proof. now apply find_default_ok. Qed.
Lemma find_phase_ok n : finds (find_phase n) KPhase n (fun o => o).
Proof. apply unless_ok; auto. intros. now apply find_default_ok. Qed.
Lemma find_med_samp_ok n : finds (find_med_samp n) KMedSamp n (fun o => o).
Proof. apply unless_ok; auto. intros. now apply find_default_ok. Qed.
Lemma find_trans_est_ok n : finds (find_trans_est n) KTransEst n (fun o => o).
Proof. apply unless_ok; auto. intros. now apply find_default_ok. Qed.
Lemma find_trans_func_ok n : finds (find_trans_func n) KTransFunc n (fun o => o).
Proof. apply unless_ok; auto. intros. now apply find_default_ok. Qed.
Lemma find_emitter_ok n : finds (find_emitter n) KEmitter n (fun o => o).
Proof.
  apply unless_ok; auto. intros H. apply find_plain_ok. repeat split; simpl; congruence.
Qed.
Lemma find_media_ok n : finds (find_media n) KMedia n (fun o => o).
Proof.
  apply unless_ok; auto. intros H. apply find_plain_ok. repeat split; simpl; congruence.
Qed.
Lemma find_texture_ok n : finds (find_texture n) KTexture n (fun o => o).
Proof.
  apply unless_ok; auto. intros H. apply find_plain_ok. repeat split; simpl; congruence.
Qed.
Lemma find_density_ok n : finds (find_density n) KDensity n (fun o => o).
Proof.
  apply unless_ok; auto. intros H. apply find_plain_ok. repeat split; simpl; congruence.
Qed.

Lemma find_snoc {A} (f : A -> bool) l a :
  f a = false -> find f (l ++ [a]) = find f l.
Proof. intros H. induction l as [|b l IH]; simpl; [now rewrite H|]. now destruct (f b). Qed.

Lemma upd_two {A} (h : list A) a b f g :
  upd (upd ((h ++ [a]) ++ [b]) (length (h ++ [a])) f) (length h) g = h ++ [g a; f b].
Proof. rewrite upd_last, <- app_assoc. apply (upd_last h a [f b]). Qed.

Lemma find_mat_ok n : finds (find_mat n) KMat n Some.
Proof.
  intros s W. unfold find_mat, find_or. destruct (lookup s KMat n) as [p|] eqn:L.
  - exists s, p. split; [reflexivity|]. split; [apply same_refl|].
    simpl. now apply lookup_hasn.
  - unfold alloc, bindM. simpl.
    destruct (String.eqb_spec n "default") as [->|NE].
    + unfold find_bsdf, find_default, find_or.
      set (s1 := Api (heap s ++ [new_node KMat "default"]) _ _ _ _).
      assert (L1 : lookup s1 KBsdf "default" = lookup s KBsdf "default").
      { unfold lookup, s1. cbn [reg]. now rewrite find_snoc. }
      rewrite L1. destruct (lookup s KBsdf "default") as [b|] eqn:LB.
      * unfold set_def, modify, ret, s1. simpl. rewrite upd_last.
        set (nd := put_def (Some (simple_material b)) (new_node KMat "default")).
        exists (append s [nd]), (length (heap s)). split; [reflexivity|].
        split; [|simpl; now apply hasn_last].
        assert (HB : hasn (append s [nd]) KBsdf "default" b).
        { apply (lookup_hasn _ _ _ _ W) in LB as (m & Hm & K). exists m.
          split; auto. now apply nth_append. }
        apply same_append; auto.
        -- eapply alloc_keys; eauto; repeat constructor.
        -- intros m [<-|[]]. split; simpl; auto; try congruence.
           intros _ _. exists b. auto.
        -- intros m [<-|[]]. simpl. congruence.
        -- intros m [<-|[]]. discriminate.
      * unfold alloc, bindM, set_def, modify, ret, s1. simpl.
        rewrite upd_two.
        set (bn := put_def (Some null_bsdf) (new_node KBsdf "default")).
        set (nb := length (heap s ++ [new_node KMat "default"])).
        set (nd := put_def (Some (simple_material nb)) (new_node KMat "default")).
        exists (append s [nd; bn]), (length (heap s)). split.
        { unfold append. f_equal. f_equal.
          unfold nb. rewrite <- app_assoc, app_length. simpl. now rewrite Nat.add_1_r. }
        assert (NB : nb = S (length (heap s))) by (unfold nb; rewrite app_length; simpl; lia).
        assert (HB : hasn (append s [nd; bn]) KBsdf "default" nb).
        { exists bn. simpl. rewrite nth_error_app2 by lia. rewrite NB.
          replace (S (length (heap s)) - length (heap s)) with 1 by lia. auto. }
        split.
        -- apply same_append; auto.
           ++ replace [nd; bn] with ([nd] ++ [bn]) by reflexivity.
              rewrite app_assoc, map_app. apply NoDup_snoc.
              ** apply (alloc_keys s KMat "default"); auto; repeat constructor.
              ** rewrite map_app. simpl. intros Hin. apply in_app_or in Hin as [Hin|[Hin|[]]].
                 --- now apply (lookup_none _ _ _ W LB).
                 --- discriminate.
           ++ intros m [<-|[<-|[]]].
              ** split; simpl; auto; try congruence. intros _ _. exists nb. auto.
              ** split; simpl; auto; try congruence.
           ++ intros m [<-|[<-|[]]]; simpl; congruence.
           ++ intros m [<-|[<-|[]]]; discriminate.
        -- simpl. exists nd. simpl. rewrite nth_error_app2, Nat.sub_diag by lia. auto.
    + unfold ret. simpl.
      exists (append s [new_node KMat n]), (length (heap s)). split; [reflexivity|].
      split; [|simpl; now apply hasn_last].
      apply same_append; auto.
      * eapply alloc_keys; eauto; repeat constructor.
      * intros m [<-|[]]. apply new_node_ok. repeat split; auto; simpl; congruence.
      * intros m [<-|[]]. reflexivity.
      * intros m [<-|[]]. reflexivity.
Qed.

(** ---- outcomes ---- *)
Definition good (s0 : api) (Q : api -> Prop) (x : api * exit unit) : Prop :=
  match x with
  | (s', Ret _) => steps s0 s' /\ Q s'
  | (s', Exn _) => steps s0 s'
  | (_, Crash) => True
  | (_, Fuel) => False
  end.

Section Config.
Variable clocking : bool.

Lemma good_find {A} (m : M A) k n w f s s0 Q :
  finds m k n w -> wf s ->
  (forall s' a, same s s' -> wf s' -> fopt s' k n (w a) -> good s0 Q (f a s')) ->
  good s0 Q (bindM m f s).
Proof.
  intros F W H. destruct (F s W) as (s' & a & E & S & O).
  unfold bindM. rewrite E. apply H; auto. eapply steps_wf; [apply S|auto].
Qed.

Lemma good_start f s s0 Q :
  wf s -> steps s0 s ->
  (forall s', wf s' -> steps s0 s' -> heap s' = heap s -> reg s' = reg s ->
     cur s' = cur s -> scn s' = scn s -> (clocking = true -> clk s = false /\ clk s' = true) ->
     good s0 Q (f tt s')) ->
  good s0 Q (bindM (start_api clocking) f s).
Proof.
  intros W S H. unfold start_api. destruct clocking.
  - unfold bindM, get_clk. simpl. destruct (clk s) eqn:C; simpl; auto.
    assert (ST : step s (Api (heap s) (reg s) (cur s) (scn s) true)) by constructor.
    apply H; auto.
    + eapply step_wf; eauto.
    + eapply rt_trans; [exact S|]. now apply rt_step.
  - unfold bindM, ret. apply H; auto. discriminate.
Qed.

Lemma good_stop s s0 (Q : api -> Prop) :
  steps s0 s ->
  (forall s', heap s' = heap s -> reg s' = reg s -> cur s' = cur s -> scn s' = scn s ->
     steps s0 s' -> Q s') ->
  good s0 Q (stop_api clocking s).
Proof.
  intros S H. unfold stop_api. destruct clocking.
  - unfold bindM, get_clk. simpl. destruct (clk s) eqn:C; simpl; auto.
    assert (ST : steps s0 (Api (heap s) (reg s) (cur s) (scn s) false)).
    { eapply rt_trans; [exact S|]. apply rt_step. constructor. }
    split; auto.
  - simpl. split; auto.
Qed.

Lemma good_check p e f s s0 Q :
  steps s0 s ->
  (forall nd, nth_error (heap s) p = Some nd -> ndef nd = None -> good s0 Q (f tt s)) ->
  good s0 Q (bindM (check_undef p e) f s).
Proof.
  intros S H. unfold check_undef, bindM, get.
  destruct (nth_error (heap s) p) as [nd|] eqn:E; simpl; auto.
  destruct (ndef nd) eqn:D; simpl; eauto.
Qed.

Lemma bind_assoc {A B C} (m : M A) (f : A -> M B) (g : B -> M C) s :
  bindM (bindM m f) g s = bindM m (fun a => bindM (f a) g) s.
Proof. unfold bindM. destruct (m s) as [s' [a|e| |]]; auto. Qed.

Lemma good_throw e (f : unit -> M unit) s s0 Q :
  steps s0 s -> good s0 Q (bindM (throw e) f s).
Proof. intros S. simpl. auto. Qed.

Lemma put_def_ok s p nd d : wf s -> nth_error (heap s) p = Some nd -> ndef nd = None ->
  nkind nd <> KFilter -> node_ok s (put_def (Some d) nd).
Proof.
  intros W H D NF. destruct (wf_nodes s W _ _ H) as [O1 O2 O3 O4 O5 O6 O7 O8 O9]. split; simpl; auto.
  - intros d' N B. rewrite (O2 d' N B) in D. discriminate.
  - intros K N. destruct (O3 K N) as (b & _ & E). congruence.
  - congruence.
Qed.

Lemma set_def_step s p nd d : wf s -> nth_error (heap s) p = Some nd -> ndef nd = None ->
  nkind nd <> KFilter -> nkind nd <> KEmitter ->
  exists s', set_def p d s = (s', Ret tt) /\ s' = put s p (put_def (Some d) nd) /\ step s s'.
Proof.
  intros W H D NF NE. eexists. split; [|split; [reflexivity|]].
  - unfold set_def, modify. unfold put. now rewrite (upd_nth _ _ _ _ H).
  - eapply St_put; eauto using put_def_ok.
    + split; simpl; auto. congruence.
    + congruence.
Qed.

(** after a successful definition of (k, n) *)
Definition defd (s : api) (k : kind) (n : string) (d : payload) : Prop :=
  exists p nd, nth_error (heap s) p = Some nd /\ nkind nd = k /\ nname nd = n /\
    ndef nd = Some d.

Lemma good_set k n p d f s s0 Q :
  wf s -> steps s0 s -> fopt s k n (Some p) -> k <> KFilter -> k <> KEmitter ->
  (forall nd, nth_error (heap s) p = Some nd -> ndef nd = None) ->
  (forall s', wf s' -> steps s0 s' -> ext s s' -> defd s' k n d -> good s0 Q (f tt s')) ->
  good s0 Q (bindM (set_def p d) f s).
Proof.
  intros W S (nd & Hn & K & N) F E U H.
  destruct (set_def_step s p nd d) as (s' & E1 & -> & ST); eauto; try congruence.
  unfold bindM. rewrite E1. apply H.
  - eapply step_wf; eauto.
  - eapply rt_trans; [exact S|]. now apply rt_step.
  - now apply step_ext.
  - exists p, (put_def (Some d) nd). simpl. rewrite nth_upd, Nat.eqb_refl, Hn. auto.
Qed.
End Config.

Lemma same_ext s s' : same s s' -> ext s s'.
Proof. intros (S & _). now apply steps_ext. Qed.
Lemma same_steps s0 s s' : steps s0 s -> same s s' -> steps s0 s'.
Proof. intros S (S' & _). eapply rt_trans; eauto. Qed.
Lemma fopt_ext s s' k n o : ext s s' -> fopt s k n o -> fopt s' k n o.
Proof. destruct o; simpl; eauto using ext_hasn. Qed.
Lemma fopt_same s s' k n o : same s s' -> fopt s k n o -> fopt s' k n o.
Proof. eauto using fopt_ext, same_ext. Qed.

Lemma null_means k n : null_name k n = means_none k n.
Proof. now destruct k. Qed.

Lemma denotes_fopt s k n o : wf s -> fopt s k n o -> denotes s (k, n) = o.
Proof.
  intros W. unfold denotes. cbn [fst snd]. rewrite <- null_means.
  destruct o as [p|]; cbn [fopt].
  - intros H. assert (NN : null_name k n = false).
    { destruct H as (nd & Hn & <- & <-). apply (wf_nodes s W _ _ Hn). }
    rewrite NN. now apply hasn_lookup.
  - now intros ->.
Qed.

(** post-condition of a definition *)
Definition defined_as (c : call) (s : api) : Prop :=
  forall k n t d, defines c = Some (k, n, t, d) ->
  exists rs, def_of s k n = Some (Pay t rs d) /\
    Forall2 (fun r x => fopt s (fst r) (snd r) x) (refers c) rs.

Lemma defd_def_of s k n d : wf s -> defd s k n d -> def_of s k n = Some d.
Proof.
  intros W (p & nd & H & K & N & D). unfold def_of.
  rewrite (hasn_lookup s k n p W) by (exists nd; auto). now rewrite H.
Qed.

Lemma def_of_defd s k n d : wf s -> def_of s k n = Some d -> defd s k n d.
Proof.
  intros W. unfold def_of. destruct (lookup s k n) as [p|] eqn:L; [|discriminate].
  apply (lookup_hasn _ _ _ _ W) in L as (nd & H & K & N). rewrite H.
  intros D. exists p, nd. auto.
Qed.

Lemma defd_heap s s' k n d : heap s' = heap s -> defd s k n d -> defd s' k n d.
Proof. intros E (p & nd & H). exists p, nd. now rewrite E. Qed.
Lemma fopt_heap s s' k n o : heap s' = heap s -> fopt s k n o -> fopt s' k n o.
Proof. intros E. destruct o; simpl; auto. intros (nd & H). exists nd. now rewrite E. Qed.
Lemma defd_ext s s' k n d : ext s s' -> defd s k n d -> defd s' k n d.
Proof.
  intros E (p & nd & H & K & N & D). apply (ext_node _ _ E) in H as (nd' & H & R).
  exists p, nd'. destruct R as [R1 R2 R3 R4 R5 R6 R7]. rewrite R1, R2. auto.
Qed.
