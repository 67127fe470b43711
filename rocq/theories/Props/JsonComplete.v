(** When the scene described by a file can be rendered. *)
From Coq Require Import Reals ZArith String List Bool Arith Lia Permutation.
From Verif.Base Require Import Outcome.
From Verif.Model Require Import Vec Matrix ApiTransform Api Json.
From Verif.Spec Require Import ApiSpec JsonSpec.
From Verif.Proof Require Import ApiBase ApiCalls ApiRun ApiObject ApiProof ApiClock ApiTotal ApiNew ApiFlush JsonProof JsonLoad JsonComplete.
From Verif.Props Require Import Api Json.
Import ListNotations.
Local Open Scope string_scope.
Open Scope list_scope.

Section File.
Variables (d : list (string * json)) (l : list (item * list tcall)) (z : api).
Hypotheses (D : doc_says d l) (WF : well_formed l) (L : load true (Some (JObj d)) = (z, Ret tt)).
Let R : run true (numbered 0 (all_calls l)) api_init = Some (z, repeat (Ret tt) (List.length (all_calls l))).
Proof. destruct (load_ok d l D WF) as (z' & E & R). congruence. Qed.
Let W : wf z.
Proof. exact (proj1 (run_wf _ _ _ _ _ wf_init R)). Qed.

Lemma file_undef k n : reserved k n = false -> ~ In (k, n) (keys (map fst l)) -> undef z k n.
Proof.
  intros RS N. refine (run_undef k n _ RS _ _ _ _ wf_init R _); [|intros [|p] nd; discriminate].
  intros c t q I E. apply in_numbered in I as (j & it & I & ->). apply defines_key in E as [E _].
  apply N. apply in_keys. exists it. split; [|exact E]. apply in_all_calls in I as [(c & ->)|(ts & I)]; [discriminate|].
  apply in_map_iff. exists (it, ts). auto.
Qed.
Lemma names_wanted j it k n : In (k, n) (names (to_call j it)) -> means_none k n = false -> block_key it = Some (k, n) \/ In (k, n) (wanted it).
Proof.
  destruct it as [| | | | | | | | | |n0 p|n0 p|n0 p|n0 p| |]; cbn [to_call names block_key wanted]; try (intros [H|[]]; left; congruence); try easy.
  - destruct (String.eqb med ""); [easy|]. intros [[= <- <-]|[]]. cbn [means_none]. unfold medium_wanted. intros ->. right. cbn. tauto.
  - intros [[= <- <-]|H]; [cbn; tauto|]. destruct (String.eqb emitter "null") eqn:E1, (String.eqb emitter "") eqn:E2; cbn [negb andb] in H; try easy.
    destruct H as [[= <- <-]|[]]. cbn. tauto.
  - assert (H : In (k, n) [(KMesh, n0); (KMedia, "null"); (KMedia, "null")] -> means_none k n = false -> Some (KMesh, n0) = Some (k, n)).
    { intros [H|[H|[H|[]]]]; [congruence| |]; injection H as <- <-; discriminate. }
    destruct p as [f g fl i o nu|t g rx ry|c r a i o nu|c v a i o nu|t b i o nu|f s r i o nu|f s r r' i o nu]; cbn [mesh_call names];
      try (intros I M0; left; now apply H); (intros [I|[I|[I|[]]]] M0; [left; congruence| |]; injection I as <- <-; cbn [means_none] in M0; right; apply in_or_app; [left|right]; unfold medium_wanted; rewrite M0; now left).
  - destruct p; cbn [names]; intros [H|[]]; left; congruence.
  - destruct p; easy.
Qed.
Lemma file_names k n p : (k = KMesh \/ k = KEmitter \/ k = KMedia) -> lookup z k n = Some p ->
  In (k, n) (keys (map fst l)) \/ exists b, In b l /\ In (k, n) (wanted (fst b)).
Proof.
  intros K3 Lk. apply (lookup_hasn _ _ _ _ W) in Lk as (nd & H & Hk & Hn).
  assert (dec : forall a b : kind * string, {a = b} + {a <> b}) by (intros [] []; destruct (kind_eq_dec k0 k1), (string_dec s s0); (left; congruence) || (right; congruence)).
  destruct (in_dec dec (k, n) (flat_map names (numbered 0 (all_calls l)))) as [I|I].
  - apply in_flat_map in I as (c & I & J). apply in_numbered in I as (j & it & I & ->).
    apply names_wanted in J.
    + apply in_all_calls in I as [(c & ->)|(ts & I)]; [destruct J as [J|[]]; discriminate|].
      destruct J as [J|J]; [left|right; exists (it, ts); auto]. apply in_keys. exists it. split; [apply in_map_iff; exists (it, ts); auto|exact J].
    + rewrite <- Hk, <- Hn, <- null_means. apply (ok_null _ _ (wf_nodes _ W _ _ H)).
  - exfalso. assert (M0 : missing k n z).
    { refine (run_missing k n _ K3 _ _ _ _ R _); [|intros [|q] x; discriminate]. intros c J Q. apply I. apply in_flat_map. eauto. }
    now apply (M0 _ _ H).
Qed.
Lemma file_def k n : In k [KIntegrator; KSampler; KCamera; KMesh; KEmitter; KMedia] -> In (k, n) (keys (map fst l)) ->
  exists p, lookup z k n = Some p /\ has_def z p.
Proof.
  intros K I. apply in_keys in I as (it & I & B). apply in_map_iff in I as ([it' ts] & E & I). cbn in E. subst it'.
  assert (exists t rs, block_makes it = Some (k, n, t, rs)) as (t & rs & BM).
  { destruct it as [| | | | | | | | | |n0 p|n0 p|n0 p|n0 p| |]; cbn [block_key] in B; try discriminate; try (destruct p); injection B as <- <-; cbn [block_makes];
      first [now (eexists; eexists; reflexivity) | exfalso; cbn in K; repeat (destruct K as [K|K]; [discriminate|]); exact K]. }
  destruct (C138_load d l D WF) as (z' & E & A & _). assert (z' = z) as -> by congruence.
  destruct (In_nth_error _ _ (all_calls_in _ _ _ I)) as (i & Hi). specialize (A _ _ _ _ _ _ Hi BM). unfold def_of in A.
  destruct (lookup z k n) as [p|]; [|discriminate]. exists p. split; [reflexivity|]. destruct (nth_error (heap z) p) as [nd|] eqn:H; [|discriminate].
  exists nd. eauto.
Qed.
Lemma file_has_def k n p : In k [KIntegrator; KSampler; KCamera; KMesh; KEmitter; KMedia] -> lookup z k n = Some p ->
  (has_def z p <-> In (k, n) (keys (map fst l))).
Proof.
  intros K Lk. split.
  - intros (nd & q & H & E).
    assert (dec : forall a b : kind * string, {a = b} + {a <> b}) by (intros [] []; destruct (kind_eq_dec k0 k1), (string_dec s s0); (left; congruence) || (right; congruence)).
    destruct (in_dec dec (k, n) (keys (map fst l))) as [I|I]; [exact I|]. exfalso.
    assert (U : undef z k n). { apply file_undef; [|exact I]. unfold reserved. cbn in K. destruct (String.eqb n "default"); [|reflexivity]. intuition (subst; reflexivity). }
    apply (lookup_hasn _ _ _ _ W) in Lk as (nd' & H' & Hk & Hn). specialize (U _ _ H' Hk Hn). congruence.
  - intros I. destruct (file_def k n K I) as (p' & E & H). congruence.
Qed.
Lemma side_found it ts m : In (it, ts) l -> In (KMedia, m) (wanted it) -> (forall n i s c me k de f, it <> IScene n i s c me k de f) -> exists p, lookup z KMedia m = Some p.
Proof.
  intros I Wn NS. apply all_calls_in in I. apply in_split in I as (a & b & SP). destruct (run_at _ _ _ _ _ SP R) as (s1 & s2 & R1 & W1 & C & W2 & Wz & X).
  pose proof (call_good true (to_call (List.length a) it) s1 W1) as G. rewrite C in G. destruct G as [_ [P _]].
  assert (MW : forall x, In (KMedia, m) (medium_wanted x) -> x = m /\ means_none KMedia m = false).
  { intros x. unfold medium_wanted. cbn [means_none]. destruct (String.eqb x "null" || String.eqb x "default") eqn:E; [easy|]. intros [[= <-]|[]]. auto. }
  destruct it as [| | | | | | | | | |n0 p|n0 p|n0 p|n0 p| |]; cbn [wanted] in Wn; try easy.
  - exfalso. eapply NS. reflexivity.
  - exfalso. destruct Wn as [?|Wn]; [discriminate|]. destruct (String.eqb emitter "" || String.eqb emitter "null"); [easy|]. destruct Wn as [?|[]]; discriminate.
  - assert (RF : In (KMedia, m) (refers (to_call (List.length a) (IMesh n0 p))) /\ means_none KMedia m = false).
    { assert (Q : forall i o, In (KMedia, m) (medium_wanted i ++ medium_wanted o) -> In (KMedia, m) (media_refs i o) /\ means_none KMedia m = false).
      { intros i o H. unfold media_refs. apply in_app_or in H as [H|H]; apply MW in H as [-> M0]; (split; [|exact M0]); cbn [means_none] in M0;
          apply orb_false_elim in M0 as [-> _]; rewrite ?andb_false_r; cbn; auto. }
      destruct p; cbn [to_call mesh_call refers String.eqb Ascii.eqb Bool.eqb] in *; try (now apply Q); try easy.
      destruct (Q _ _ Wn). split; [now right|assumption]. }
    destruct RF as [RF MN]. unfold defined_as in P.
    assert (exists t, defines (to_call (List.length a) (IMesh n0 p)) = Some (KMesh, n0, t, List.length a)) as (t & DF) by (destruct p; cbn; eauto).
    destruct (P _ _ _ _ DF) as (rs & _ & F2). clear -F2 RF MN X Wz.
    induction F2 as [|r x rs' xs F F2 IH]; [easy|]. destruct RF as [-> |RF]; [|now apply IH].
    cbn [fst snd] in F. destruct x as [p'|]; cbn [fopt] in F; [|rewrite null_means in F; congruence].
    exists p'. apply (hasn_lookup _ _ _ _ Wz). exact (ext_hasn _ _ _ _ _ X F).
Qed.
Lemma scene_medium n i sa ca m kw de f ts : In (IScene n i sa ca m kw de f, ts) l -> m <> "" -> (String.eqb m "null" || String.eqb m "default") = false ->
  exists p, lookup z KMedia m = Some p.
Proof.
  intros I NE MN. apply all_calls_in in I. apply in_split in I as (a & b & SP). destruct (run_at _ _ _ _ _ SP R) as (s1 & s2 & R1 & W1 & C & W2 & Wz & X).
  cbn [to_call] in C. apply (scene_made _ _ _ _ _ _ _ W1) in C. apply (scene_is_ext _ _ _ _ _ _ X) in C.
  destruct C as (x & _ & _ & _ & _ & E). apply String.eqb_neq in NE. rewrite NE in E.
  destruct (s_media x) as [p|]; cbn [fopt null_name] in E; [|congruence]. exists p. now apply hasn_lookup.
Qed.
End File.

(** ** C186: a scene file can be rendered exactly when every block that is asked for is there *)
Theorem C186_renders_iff : forall d l n i sa ca m kw de f ts, doc_says d l -> well_formed l -> In (IScene n i sa ca m kw de f, ts) l ->
  exists z, load true (Some (JObj d)) = (z, Ret tt) /\
  forall objs ems meds, Permutation objs (entries z KObject) -> Permutation ems (entries z KEmitter) -> Permutation meds (entries z KMedia) ->
  ((exists w, flush true objs ems meds z = Ret w) <-> all_there l).
Proof.
  intros d l n i sa ca m kw de f ts D WF IS.
  destruct (C138_load d l D WF) as (z & Lz & Defs & Objs & Scns). exists z. split; [exact Lz|].
  destruct (Scns _ _ _ _ _ _ _ _ _ IS) as (x & SC & LI & LS & LC & LM).
  assert (RC : reached true z /\ clk z = false).
  { destruct (load_ok d l D WF) as (z' & E & R). assert (z' = z) as -> by congruence. split; [exists (numbered 0 (all_calls l)), (repeat (Ret tt) (List.length (all_calls l))); exact R|].
    exact (run_clk _ api_init z _ eq_refl R). }
  destruct RC as [RC CK]. pose proof (reached_wf _ _ RC) as W.
  intros objs ems meds PO PE PM.
  rewrite <- (C80_complete_iff_flush true z x objs ems meds RC (fun _ => CK) SC PO PE PM).
  assert (HD : forall k n0 p, In k [KIntegrator; KSampler; KCamera; KMesh; KEmitter; KMedia] -> lookup z k n0 = Some p -> (has_def z p <-> In (k, n0) (keys (map fst l)))).
  { intros k n0 p. exact (file_has_def d l z D WF Lz k n0 p). }
  split.
  - intros [C1 C2 C3 C4 C5 C6 C7] [it ts'] [k0 n0] I Wn. cbn [fst] in Wn.
    destruct it as [| | | | | | | | | |nm p|nm p|nm p|nm p| |]; cbn [wanted] in Wn; try easy.
    + destruct (Scns _ _ _ _ _ _ _ _ _ I) as (x' & SC' & LI' & LS' & LC' & LM'). assert (x' = x) as -> by congruence.
      destruct Wn as [[= <- <-]|[[= <- <-]|[[= <- <-]|Wn]]].
      * apply (HD KIntegrator integ (s_integ x)); [cbn; tauto|exact LI'|exact C1].
      * apply (HD KSampler samp (s_samp x)); [cbn; tauto|exact LS'|exact C2].
      * apply (HD KCamera cam (s_cam x)); [cbn; tauto|exact LC'|exact C3].
      * destruct (String.eqb_spec med "") as [|NE]; [easy|]. unfold medium_wanted in Wn.
        destruct (String.eqb med "null" || String.eqb med "default") eqn:MN; [easy|]. destruct Wn as [[= <- <-]|[]].
        destruct (scene_medium d l z D WF Lz _ _ _ _ _ _ _ _ _ I NE MN) as (q & Lq).
        apply (HD KMedia med q); [cbn; tauto|exact Lq|]. exact (C4 _ _ Lq).
    + destruct (Objs _ _ _ _ _ I) as (o & nd & Lo & Ho & Ko & E1 & E2 & _ & _ & E3 & _).
      destruct Wn as [[= <- <-]|Wn].
      * destruct (omesh nd) as [mm|] eqn:EM; [|easy]. apply (HD KMesh mesh mm); [cbn; tauto|congruence|]. exact (C5 _ _ _ _ Lo Ho EM).
      * destruct (String.eqb_spec emitter ""), (String.eqb_spec emitter "null"); cbn [orb] in Wn; try easy. destruct Wn as [[= <- <-]|[]].
        destruct E3 as [E3 E4]; auto. destruct (oemit nd) as [e|] eqn:EE; [|easy]. apply (HD KEmitter emitter e); [cbn; tauto|congruence|]. exact (C6 _ _ _ _ Lo Ho EE).
    + assert (k0 = KMedia) as ->.
      { assert (Q : forall a b, In (k0, n0) (medium_wanted a ++ medium_wanted b) -> k0 = KMedia).
        { intros a b. unfold medium_wanted. destruct (_ || _), (_ || _); cbn; intuition congruence. }
        destruct p; try (now apply Q in Wn); easy. }
      destruct (side_found d l z D WF Lz (IMesh nm p) ts' n0 I Wn) as (q & Lq); [discriminate|].
      apply (HD KMedia n0 q); [cbn; tauto|exact Lq|]. exact (C4 _ _ Lq).
  - intros A.
    assert (K : forall k0 n0, In (k0, n0) (wanted (IScene n i sa ca m kw de f)) -> In (k0, n0) (keys (map fst l))) by (intros k0 n0 H; exact (A _ _ IS H)).
    assert (ALL : forall k0 n0 p, k0 = KMesh \/ k0 = KEmitter \/ k0 = KMedia -> lookup z k0 n0 = Some p -> has_def z p).
    { intros k0 n0 p K0 Lp. apply (HD k0 n0 p); [cbn; intuition|exact Lp|]. destruct (file_names d l z D WF Lz k0 n0 p K0 Lp) as [H|(b & Ib & H)]; [exact H|exact (A _ _ Ib H)]. }
    assert (OK : forall k0 p, (k0 = KMesh \/ k0 = KEmitter \/ k0 = KMedia) -> hask z k0 p -> has_def z p).
    { intros k0 p K0 (n0 & H). exact (ALL k0 n0 p K0 (hasn_lookup _ _ _ _ W H)). }
    constructor.
    + apply (HD KIntegrator i); [cbn; tauto|exact LI|]. apply K. cbn. tauto.
    + apply (HD KSampler sa); [cbn; tauto|exact LS|]. apply K. cbn. tauto.
    + apply (HD KCamera ca); [cbn; tauto|exact LC|]. apply K. cbn. tauto.
    + intros n0 p Lp. apply (ALL KMedia n0); tauto.
    + intros n0 o nd mm Lo Ho E. apply (OK KMesh mm); [tauto|]. pose proof (ok_mesh _ _ (wf_nodes _ W _ _ Ho)) as Q. rewrite E in Q. exact Q.
    + intros n0 o nd e Lo Ho E. apply (OK KEmitter e); [tauto|]. pose proof (ok_oemit _ _ (wf_nodes _ W _ _ Ho)) as Q. rewrite E in Q. exact Q.
    + intros n0 e nd o Le He E. apply (ALL KEmitter n0); tauto.
Qed.
Print Assumptions C186_renders_iff.
(** the demonstration file has all its blocks; a file without a camera block has not *)
Example C186_case : doc_says demo_doc demo_blocks /\ well_formed demo_blocks /\ all_there demo_blocks /\
  (exists n i sa ca m kw de f ts, In (IScene n i sa ca m kw de f, ts) demo_blocks).
Proof.
  split; [exact demo_says|]. split; [exact demo_well_formed|]. split.
  - intros b kn H. cbn in H. repeat (destruct H as [<- |H]; [cbn; intuition|]). contradiction.
  - do 9 eexists. cbn. right. left. reflexivity.
Qed.
Definition dark_doc : list (string * json) := [("scene", JObj []); ("integrator", JObj [("name", JStr "default")]); ("sampler", JObj [("name", JStr "default")])].
Definition dark_blocks : list (item * list tcall) :=
  [(default_params (IScene "" "" "" "" "" "" "" false), []); (IIntegrator "default" "normal" "default" (-1) (-1) "" 10, []); (ISampler "default" 8 305419896, [])].
Example C186_case_missing : doc_says dark_doc dark_blocks /\ well_formed dark_blocks /\ ~ all_there dark_blocks.
Proof.
  split; [|split].
  - unfold doc_says, dark_doc, dark_blocks. cbn [default_params].
    repeat (apply Forall2_cons; [eexists; split; [reflexivity|]; cbn [fst snd]|]); [..|apply Forall2_nil];
    (split; [reflexivity|]; split; [describe; try shown|]); cbn [placed]; try (split; [exact Logic.I|reflexivity]); split; [discriminate|reflexivity].
  - constructor.
    + cbn. repeat constructor; cbn; intuition discriminate.
    + intros b H. cbn in H. repeat (destruct H as [<-|H]; [split; [intros k n; cbn; try discriminate; intros [= <- <-]; split; reflexivity || discriminate|cbn; tauto]|]). contradiction.
    + cbn. auto.
  - intros A. specialize (A _ (KCamera, "default") (or_introl eq_refl)). cbn in A. intuition discriminate.
Qed.
