(** Calls that are sure to succeed. *)
From Coq Require Import String List Bool Arith Lia Relations.
From Verif.Model Require Import Vec Matrix ApiTransform Api.
From Verif.Spec Require Import ApiSpec.
From Verif.Proof Require Import ApiBase ApiCalls ApiRun ApiObject ApiProof.
Import ListNotations.
Open Scope list_scope.
Open Scope api_scope.

Definition tot (x : api * exit unit) : Prop := exists s', x = (s', Ret tt).
Definition undef (s : api) (k : kind) (n : string) : Prop :=
  forall p nd, nth_error (heap s) p = Some nd -> nkind nd = k -> nname nd = n -> ndef nd = None.

Lemma undef_same s s' k n : same s s' -> special k n = false -> undef s k n -> undef s' k n.
Proof.
  intros (_ & K & _ & _ & _ & B) SP U p nd H E1 E2.
  destruct (nth_error (heap s) p) as [nd0|] eqn:E.
  - pose proof (K _ _ E) as E'. apply (U p nd); congruence.
  - apply (B p nd); auto. now rewrite E1, E2.
Qed.

Lemma reserved_special k n : reserved k n = special k n.
Proof. unfold reserved, special. destruct (String.eqb n "default"); [|reflexivity]. now destruct k. Qed.

Section Config.
Variable clocking : bool.

Definition stopped (s : api) : Prop := clocking = true -> clk s = false.
Definition running (s : api) : Prop := clocking = true -> clk s = true.

Lemma tot_start f s : wf s -> stopped s ->
  (forall s', wf s' -> heap s' = heap s -> scn s' = scn s -> running s' -> tot (f tt s')) ->
  tot (bindM (start_api clocking) f s).
Proof.
  intros W C H. unfold start_api, stopped, running in *. destruct clocking.
  - unfold bindM, get_clk. rewrite C by reflexivity. simpl. apply H; auto.
    eapply step_wf; [apply St_misc|auto].
  - unfold bindM, ret. apply H; auto. discriminate.
Qed.

Lemma tot_stop s : running s -> tot (stop_api clocking s).
Proof.
  intros C. unfold stop_api, running, tot in *. destruct clocking.
  - unfold bindM, get_clk. rewrite C by reflexivity. eexists. reflexivity.
  - eexists. reflexivity.
Qed.

Lemma tot_find {A} (m : M A) k n w f s :
  finds m k n w -> wf s ->
  (forall s' a, same s s' -> wf s' -> fopt s' k n (w a) -> tot (f a s')) ->
  tot (bindM m f s).
Proof.
  intros F W H. destruct (F s W) as (s' & a & E & S & O).
  unfold bindM. rewrite E. apply H; auto. eapply steps_wf; [apply S|auto].
Qed.

Lemma tot_check p e f s k n :
  fopt s k n (Some p) -> undef s k n -> tot (f tt s) -> tot (bindM (check_undef p e) f s).
Proof.
  intros (nd & H & K & N) U T. unfold check_undef, get, bindM. rewrite H.
  rewrite (U p nd H K N). exact T.
Qed.

Lemma tot_set p d f s :
  (forall s', scn s' = scn s -> clk s' = clk s -> tot (f tt s')) ->
  tot (bindM (set_def p d) f s).
Proof. intros H. unfold bindM, set_def, modify. now apply H. Qed.

Lemma tot_nonnull (o : option ptr) f s k n :
  fopt s k n o -> means_none k n = false ->
  (forall p, o = Some p -> tot (f p s)) -> tot (bindM (nonnull o) f s).
Proof.
  intros F N H. destruct o as [p|]; [now apply H|]. simpl in F.
  rewrite null_means in F. congruence.
Qed.

Lemma tot_bind (m : M unit) f s : (exists s', m s = (s', Ret tt) /\ tot (f tt s')) -> tot (bindM m f s).
Proof. intros (s' & E & T). unfold bindM. now rewrite E. Qed.

Lemma running_same s s' : same s s' -> running s -> running s'.
Proof. intros (_ & _ & _ & _ & E & _) R C. rewrite E. auto. Qed.
Lemma scn_same s s' : same s s' -> scn s <> None -> scn s' <> None.
Proof. intros (_ & _ & _ & E & _) R. now rewrite E. Qed.

Lemma undef_heap s s' k n : heap s' = heap s -> undef s k n -> undef s' k n.
Proof. intros E U p nd. rewrite E. apply U. Qed.

Ltac tcarry SM :=
  repeat match type of SM with same ?a ?b =>
    match goal with
    | F : fopt a _ _ _ |- _ => apply (fopt_same _ _ _ _ _ SM) in F
    | F : running a |- _ => apply (running_same _ _ SM) in F
    | F : scn a <> None |- _ => apply (scn_same _ _ SM) in F
    | F : undef a ?k ?n, P : special ?k ?n = false |- _ =>
        apply (undef_same _ _ _ _ SM P) in F
    end end.
Ltac tfind p := repeat rewrite bind_assoc; eapply tot_find; [find_tac|eassumption|];
  let SM := fresh "SM" in intros ? p SM ? ?; tcarry SM.
Ltac tstart := apply tot_start; [assumption|assumption|];
  let Hh := fresh "Hh" in let Hs := fresh "Hs" in intros ? ? Hh Hs ?;
  match goal with U : undef _ _ _ |- _ => apply (undef_heap _ _ _ _ Hh) in U end;
  try match goal with N : scn _ <> None |- _ => rewrite <- Hs in N end.
Ltac tcheck := repeat rewrite bind_assoc; eapply tot_check; [eassumption|eassumption|].
Ltac tset := repeat rewrite bind_assoc; apply tot_set;
  let Ec := fresh "Ec" in let Es := fresh "Es" in intros ? Es Ec.
Ltac tstop := apply tot_stop; unfold running in *; intuition congruence.
Ltac tnon := repeat rewrite bind_assoc;
  eapply tot_nonnull; [eassumption|assumption|]; intros ? ->.

Lemma tot_simple fnd k n dup bad types t d s :
  finds fnd k n (fun o => o) -> wf s -> stopped s -> undef s k n -> special k n = false ->
  means_none k n = false -> one_of t types = true ->
  tot (fr_simple clocking fnd dup bad types t d s).
Proof.
  intros F W C U SP N T. unfold fr_simple. tstart.
  eapply tot_find; [exact F|assumption|]. intros s2 p SM W2 F2. tcarry SM.
  tnon. tcheck. rewrite T. tset. tstop.
Qed.

Lemma tot_boundary i o (f : list (option ptr) -> M unit) s :
  wf s -> running s -> (forall s' l, wf s' -> running s' -> tot (f l s')) ->
  tot (bindM (boundary i o) f s).
Proof.
  intros W R H. unfold boundary.
  destruct (negb (String.eqb i "null") || negb (String.eqb o "null")).
  - tfind a. tfind b. now apply H.
  - unfold ret, bindM. now apply H.
Qed.

Lemma tot_boundary_set i o p (g : list (option ptr) -> payload) s :
  wf s -> running s ->
  tot (bindM (bindM (boundary i o) (fun b => set_def p (g b))) (fun _ => stop_api clocking) s).
Proof.
  intros W R. rewrite bind_assoc. apply tot_boundary; auto. intros s' l W' R'. tset. tstop.
Qed.

Lemma tot_emit p d (t : string) s : scn s <> None -> running s ->
  tot (bindM (bindM (set_def p d) (fun _ => add_emitter p t)) (fun _ => stop_api clocking) s).
Proof.
  intros N R. tset. rewrite <- Es in N. apply tot_bind.
  unfold add_emitter, get_scn, bindM, set_scn, set_def, modify. 
  destruct (scn _) as [x|] eqn:E; [|congruence]. cbv zeta. eexists. split; [reflexivity|].
  apply tot_stop. unfold running in *. simpl. intuition congruence.
Qed.

Lemma definition_succeeds c s k n t d : wf s -> stopped s ->
  defines c = Some (k, n, t, d) -> supported c = true ->
  means_none k n = false -> reserved k n = false -> def_of s k n = None ->
  (k = KEmitter -> scn s <> None) -> tot (run_call clocking c s).
Proof.
  intros W C DC SU MN RS D0 SC. rewrite reserved_special in RS.
  assert (U : undef s k n).
  { intros p nd H E1 E2. unfold def_of in D0.
    rewrite (hasn_lookup s k n p W) in D0 by (exists nd; auto). now rewrite H in D0. }
  destruct c; simpl in DC; try discriminate.
  - injection DC as <- <- <- <-. simpl. unfold fr_integrator. tstart. tfind p. tfind q. tcheck.
    change (one_of ty integrator_types) with (supported (FrIntegrator name ty filter data)).
    rewrite SU. tset. tstop.
  - injection DC as <- <- <- <-. simpl in *. unfold fr_sampler. tstart. tfind p. tcheck.
    rewrite SU. tset. tstop.
  - injection DC as <- <- <- <-. simpl in *. unfold fr_camera. tstart. tfind p. tcheck.
    rewrite SU. tset. tstop.
  - injection DC as <- <- <- <-. cbn [run_call]. unfold fr_mesh. tstart. tfind p. tcheck.
    cbn [supported existsb] in SU.
    destruct (String.eqb ty "triangle_mesh").
    { tfind g. cbv beta. apply tot_boundary_set; auto. }
    destruct (String.eqb ty "grid").
    { tfind g. tfind x. tset. tstop. }
    cbn [orb] in SU. unfold one_of. cbn [existsb]. rewrite SU.
    apply tot_boundary_set; auto.
  - cbn [run_call]. unfold fr_shader. tstart. cbn [supported existsb] in SU.
    destruct (String.eqb_spec ty "interp_verts_to_sphere") as [->|N1].
    + injection DC as <- <- <- <-. tfind p. tcheck. tset. tstop.
    + injection DC as <- <- <- <-.
      destruct (String.eqb ty "simple_material"); [tfind p; tcheck; tfind b; tset; tstop|].
      destruct (String.eqb ty "wireframe"); [|discriminate].
      tfind p; tcheck; tfind b; tfind b'; tset; tstop.
  - injection DC as <- <- <- <-. cbn [run_call]. unfold fr_media. tstart. tfind p. tnon. tcheck.
    tfind q1. tfind q2. tfind q3. tfind q4. tfind q5. tset. tstop.
  - injection DC as <- <- <- <-. eapply tot_simple; eauto. apply find_density_ok.
  - injection DC as <- <- <- <-. eapply tot_simple; eauto. apply find_med_samp_ok.
  - injection DC as <- <- <- <-. eapply tot_simple; eauto. apply find_trans_est_ok.
  - injection DC as <- <- <- <-. eapply tot_simple; eauto. apply find_trans_func_ok.
  - injection DC as <- <- <- <-. specialize (SC eq_refl). cbn [run_call]. unfold fr_emitter.
    tstart. tfind p. tnon. tcheck. unfold one_of. cbn [supported existsb] in *.
    destruct (String.eqb ty "point" || (String.eqb ty "mesh" || (String.eqb ty "directional" ||
      (String.eqb ty "directional_mesh" || (String.eqb ty "spot" || false))))) eqn:E1.
    + apply tot_emit; auto.
    + assert (E2 : String.eqb ty "environment" = true).
      { destruct (String.eqb ty "environment"); auto.
        destruct (String.eqb ty "point"), (String.eqb ty "mesh"), (String.eqb ty "directional"),
          (String.eqb ty "directional_mesh"), (String.eqb ty "spot"); simpl in *; discriminate. }
      rewrite E2. tfind x. cbv beta. apply tot_emit; auto.
  - destruct (String.eqb_spec ty "null") as [->|NE]; [discriminate|].
    injection DC as <- <- <- <-. cbn [run_call]. unfold fr_bsdf. tstart. tfind p. tcheck.
    unfold one_of. cbn [supported] in SU. rewrite SU. tset. tstop.
  - injection DC as <- <- <- <-. eapply tot_simple; eauto. apply find_texture_ok.
Qed.
End Config.

(** ---- adding objects ---- *)
Definition fin (x : api * exit unit) : Prop :=
  match snd x with Ret _ | Fuel => True | _ => False end.

Lemma find_plain_ret k n s : exists s' p, find_plain k n s = (s', Ret p).
Proof.
  unfold find_plain, find_or, alloc, bindM, ret. destruct (lookup s k n); eauto.
Qed.
Lemma find_default_ret k d n s : exists s' p, find_default k d n s = (s', Ret p).
Proof.
  unfold find_default, find_or, alloc, bindM, ret, set_def, modify.
  destruct (lookup s k n); eauto. destruct (String.eqb n "default"); eauto.
Qed.
Lemma find_mat_ret n s : exists s' p, find_mat n s = (s', Ret p).
Proof.
  unfold find_mat, find_or. destruct (lookup s KMat n); eauto. unfold alloc, bindM at 1.
  destruct (String.eqb n "default").
  - unfold bindM at 1. unfold bindM at 1.
    match goal with |- context [find_bsdf "default" ?z] =>
      destruct (find_default_ret KBsdf null_bsdf "default" z) as (z' & b & E) end.
    unfold find_bsdf. rewrite E. unfold set_def, modify, bindM, ret. eauto.
  - unfold bindM, ret. eauto.
Qed.

Lemma fin_bind {A} (m : M A) f s :
  (exists s' a, m s = (s', Ret a) /\ fin (f a s')) -> fin (bindM m f s).
Proof. intros (s' & a & E & H). unfold bindM. now rewrite E. Qed.

Lemma fin_stop b s : (b = true -> clk s = true) -> fin (stop_api b s).
Proof.
  intros C. unfold stop_api. destruct b; [|exact I]. unfold bindM, get_clk.
  rewrite C by reflexivity. exact I.
Qed.

Lemma object_tail b o em s : (b = true -> clk s = true) ->
  fin (((if negb (String.eqb em "null") && negb (String.eqb em "") then
         e0 <- find_emitter em;;
         e <- nonnull e0;;
         modify e (fun n => Node (nkind n) (nname n) (ndef n) (Some o) (omesh n) (omat n)
                                 (oemit n) (otrans n));;
         modify o (fun n => Node (nkind n) (nname n) (ndef n) (nobj n) (omesh n) (omat n)
                                 (Some e) (otrans n))
       else ret tt);;
      stop_api b) s).
Proof.
  intros C.
  assert (R : fin ((ret tt;; stop_api b) s)) by (unfold bindM at 1, ret; now apply fin_stop).
  unfold find_emitter, unless.
  destruct (String.eqb em "null"); cbn [negb andb]; [exact R|].
  destruct (String.eqb em ""); cbn [negb]; [exact R|].
  apply fin_bind.
  destruct (find_plain_ret KEmitter em s) as (s' & p & E).
  unfold bindM at 1. unfold bindM at 1. rewrite E. unfold ret at 1. unfold nonnull.
  unfold bindM at 1. unfold ret. unfold bindM, modify. do 2 eexists. split; [reflexivity|].
  assert (K : clk s' = clk s).
  { revert E. unfold find_plain, find_or, alloc, bindM, ret. destruct (lookup s KEmitter em);
      intros [= <- <-]; reflexivity. }
  apply fin_stop. simpl. rewrite K. exact C.
Qed.

(** the body once the object's node is known to be new *)
Lemma object_body b name mesh mat em g s : wf s -> (b = true -> clk s = true) ->
  (forall z, wf z -> same s z -> lookup s KObject name <> None -> fin (g z)) ->
  fin ((o <- find_plain KObject name;;
    n <- get o;;
    match omesh n with
    | Some _ => g
    | None =>
      t <- get_cur;;
      modify o (fun n => Node (nkind n) (nname n) (ndef n) (nobj n) (omesh n) (omat n)
                              (oemit n) t);;
      m <- find_plain KMesh mesh;;
      modify o (fun n => Node (nkind n) (nname n) (ndef n) (nobj n) (Some m) (omat n)
                              (oemit n) (otrans n));;
      ma <- find_mat mat;;
      modify o (fun n => Node (nkind n) (nname n) (ndef n) (nobj n) (omesh n) (Some ma)
                              (oemit n) (otrans n));;
      (if negb (String.eqb em "null") && negb (String.eqb em "") then
         e0 <- find_emitter em;;
         e <- nonnull e0;;
         modify e (fun n => Node (nkind n) (nname n) (ndef n) (Some o) (omesh n) (omat n)
                                 (oemit n) (otrans n));;
         modify o (fun n => Node (nkind n) (nname n) (ndef n) (nobj n) (omesh n) (omat n)
                                 (Some e) (otrans n))
       else ret tt);;
      stop_api b
    end) s).
Proof.
  intros W C H. destruct (lookup s KObject name) as [o|] eqn:L.
  - unfold find_plain, find_or. unfold bindM at 1. rewrite L.
    pose proof (lookup_hasn _ _ _ _ W L) as (nd & Hn & K & N).
    unfold get. unfold bindM at 1. rewrite Hn.
    destruct (ok_obj _ _ (wf_nodes _ W _ _ Hn) K) as (m & ->).
    apply H; auto using same_refl. congruence.
  - destruct (new_object s name mesh W L) as (s2 & o & nd & E & Eo & SM & _).
    rewrite E. clear E.
    assert (W2 : wf s2) by (eapply steps_wf; [apply SM|auto]).
    destruct (find_mat_ok mat s2 W2) as (s3 & ma & E3 & SM3 & _).
    unfold bindM at 1. rewrite E3. unfold bindM at 1. unfold modify at 1.
    apply object_tail. intros B. simpl.
    destruct SM as (_ & _ & _ & _ & K2 & _), SM3 as (_ & _ & _ & _ & K3 & _). rewrite K3, K2. auto.
Qed.

Lemma object_rec_fin fuel : forall name mesh mat em idx s, wf s ->
  fin (fr_object_rec false fuel name mesh mat em idx s).
Proof.
  induction fuel as [|fuel IH]; intros; [exact I|].
  cbn [fr_object_rec]. unfold start_api. unfold bindM at 1. unfold ret at 1. cbv zeta.
  apply object_body; auto. discriminate.
Qed.

Lemma fin_tot (x : api * exit unit) s0 Q : fin x -> good s0 Q x -> tot x.
Proof.
  destruct x as [z [[]|e| |]]; cbn; try tauto. intros. eexists. reflexivity.
Qed.

(** without the clocking macros an object can always be added *)
Lemma object_unclocked name mesh mat em s : wf s ->
  tot (run_call false (FrObject name mesh mat em) s).
Proof.
  intros W. eapply fin_tot; [|apply call_good; exact W].
  cbn [run_call]. unfold fr_object. now apply object_rec_fin.
Qed.

(** with them it can when its name is free ... *)
Lemma object_clocked_free name mesh mat em s : wf s -> clk s = false ->
  lookup s KObject name = None -> tot (run_call true (FrObject name mesh mat em) s).
Proof.
  intros W C L. eapply fin_tot; [|apply call_good; exact W].
  cbn [run_call]. unfold fr_object. cbn [fr_object_rec].
  unfold start_api at 1. unfold bindM at 1. unfold bindM at 1. unfold get_clk. rewrite C.
  unfold set_clk. cbv zeta.
  assert (W' : wf (Api (heap s) (reg s) (cur s) (scn s) true))
    by (eapply step_wf; [apply St_misc|exact W]).
  apply object_body; auto. intros z _ _ X. exfalso. apply X. exact L.
Qed.

(** ... and fails, leaving the clock running, when it is taken *)
Lemma object_clocked_taken name mesh mat em s o : wf s -> clk s = false ->
  lookup s KObject name = Some o ->
  run_call true (FrObject name mesh mat em) s =
  (Api (heap s) (reg s) (cur s) (scn s) true, Exn "api already active"%string).
Proof.
  intros W C L. cbn [run_call]. unfold fr_object. cbn [fr_object_rec].
  unfold start_api at 1. unfold bindM at 1. unfold bindM at 1. unfold get_clk at 1. rewrite C.
  unfold set_clk at 1. cbv zeta. unfold index_name at 1.
  unfold find_plain at 1, find_or at 1. unfold bindM at 1.
  change (lookup (Api (heap s) (reg s) (cur s) (scn s) true) KObject name)
    with (lookup s KObject name). rewrite L.
  pose proof (lookup_hasn _ _ _ _ W L) as (nd & Hn & K & N).
  unfold get at 1. unfold bindM at 1. cbn [heap]. rewrite Hn.
  destruct (ok_obj _ _ (wf_nodes _ W _ _ Hn) K) as (m & ->).
  destruct (length (reg s)) eqn:EL.
  - exfalso. unfold lookup in L. destruct (reg s); discriminate.
  - reflexivity.
Qed.

(** ---- giving a definition to a name that means "no node" ---- *)
Lemma crash_start b f s : (b = true -> clk s = false) ->
  (forall s', snd (f tt s') = Crash) -> snd (bindM (start_api b) f s) = @Crash unit.
Proof.
  intros C H. unfold start_api. destruct b.
  - unfold bindM, get_clk. rewrite C by reflexivity. apply H.
  - apply H.
Qed.

Lemma none_crashes b c s k n t d : (b = true -> clk s = false) ->
  defines c = Some (k, n, t, d) -> means_none k n = true ->
  snd (run_call b c s) = Crash.
Proof.
  intros C DC MN. destruct c; simpl in DC; try discriminate;
    try (injection DC as <- <- <- <-; simpl in MN; try discriminate).
  - destruct (String.eqb ty "interp_verts_to_sphere"); discriminate.
  - apply crash_start; auto. intros s'. unfold find_media, unless. now rewrite MN.
  - apply crash_start; auto. intros s'. unfold find_density, unless. now rewrite MN.
  - apply crash_start; auto. intros s'. unfold find_med_samp, unless. now rewrite MN.
  - apply crash_start; auto. intros s'. unfold find_trans_est, unless. now rewrite MN.
  - apply crash_start; auto. intros s'. unfold find_trans_func, unless. now rewrite MN.
  - apply crash_start; auto. intros s'. unfold find_emitter, unless. now rewrite MN.
  - destruct (String.eqb ty "null"); [discriminate|].
    injection DC as <- <- <- <-. discriminate.
  - apply crash_start; auto. intros s'. unfold find_texture, unless. now rewrite MN.
Qed.
