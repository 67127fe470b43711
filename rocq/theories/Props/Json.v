(** Scene files: src/parsers/json_parser.cpp. *)
From Coq Require Import Reals ZArith List String Bool Arith Lia Lra Permutation.
From Verif.Base Require Import Outcome.
From Verif.Model Require Import Vec Matrix ApiTransform Api Json.
From Verif.Spec Require Import ApiSpec JsonSpec FrameSpec.
From Verif.Proof Require Import ApiBase ApiCalls ApiRun ApiObject ApiProof ApiTotal ApiNew FrameProof JsonProof JsonLoad.
Import ListNotations.
Local Open Scope string_scope.
Open Scope list_scope.

(** ** C136: scene files are read as written *)
Theorem C136_block_read_as_written : forall k m i ts,
  says k m i ts -> parse_block k (JObj m) = Ok (calls i ts).
Proof. exact read_block. Qed.
Print Assumptions C136_block_read_as_written.
Theorem C136_file_read_as_written : forall d l, doc_says d l -> parse_doc d = (all_calls l, Ok tt).
Proof. exact read_doc. Qed.
Print Assumptions C136_file_read_as_written.

Ltac describe := intros k v H; cbn in H;
  repeat (destruct H as [H|H]; [injection H as <- <-;
    first [ left; eexists; split; [apply find_first; reflexivity|]
          | right; split; [apply find_none; reflexivity|]; cbn; tauto ]|]); [..|contradiction].
Lemma shows_nums l xs : Forall2 is_num l xs -> shows (JArr l) (VNums xs).
Proof. intros F. exists l, []. now rewrite app_nil_r. Qed.
Lemma num_int z : is_num (JInt z) (IZR z). Proof. right. eauto. Qed.
Lemma num_num x : is_num (JNum x) x. Proof. now left. Qed.
Ltac shown := first [reflexivity | apply num_int | apply num_num | split; [reflexivity|lia]
  | unfold vec; cbn [vx vy vz]; apply shows_nums; repeat (apply Forall2_cons; [first [apply num_int|apply num_num]|]); apply Forall2_nil ].

Definition ball_block : list (string * json) :=
  [("radius", JNum (5 / 2)); ("type", JStr "sdf_sphere"); ("comment", JNull); ("name", JStr "ball"); ("center", JArr [JInt 1; JNum (1 / 2); JInt 0])].
Definition ball : item := IMesh "ball" (MSphere (V3 1 (1 / 2) 0) (5 / 2) 0 "null" "null" false).
Lemma ball_says : says "mesh" ball_block ball [].
Proof. split; [reflexivity|]. split; [|split; [exact Logic.I|reflexivity]]. describe; shown. Qed.
Definition thing_block : list (string * json) :=
  [("scale", JArr [JInt 2; JInt 2; JInt 2]); ("name", JStr "thing"); ("mesh", JStr "ball"); ("emitter", JStr "lamp"); ("translate", JArr [JInt 1; JInt 0; JInt 0]); ("material_shader", JStr "paint")].
Definition thing : item := IObject "thing" "ball" "paint" "lamp".
Definition thing_moves : list tcall := [TScale (V3 2 2 2); TTranslate (V3 1 0 0)].
Lemma thing_says : says "object" thing_block thing thing_moves.
Proof.
  split; [reflexivity|]. split; [describe; shown|]. split.
  - unfold once. cbn. repeat constructor; cbn; intuition discriminate.
  - unfold lists_transforms. cbn. repeat (apply Forall2_cons; [split; [reflexivity|shown]|]). apply Forall2_nil.
Qed.
Example C136_case : says "mesh" ball_block ball [] /\ says "object" thing_block thing thing_moves /\
  says "integrator" [] (IIntegrator "integrator" "normal" "default" (-1) (-1) "" 10) [].
Proof.
  split; [exact ball_says|]. split; [exact thing_says|].
  split; [reflexivity|]. split; [describe|]. split; [discriminate|reflexivity].
Qed.

(** ** C137: every parameter can be set from a scene file *)
Theorem C137_texture_scale_refuted : exists m n f s, describes m (ITexture n f s) /\ s <> one3 /\
  parse_block "texture" (JObj m) = Ok [ITexture n f one3].
Proof.
  exists [("name", JStr "t"); ("filename", JStr "a.png"); ("scale", JArr [JInt 2; JInt 2; JInt 2])], "t", "a.png", (V3 2 2 2).
  split; [describe; shown|]. split; [|reflexivity]. intros E. injection E. lra.
Qed.
Print Assumptions C137_texture_scale_refuted.
(** exactly: the scale is looked at when there is a member "proxy", and is then required *)
Theorem C137_texture_behaviour : forall m n f s, describes m (ITexture n f s) ->
  (no_member m "proxy" -> parse_block "texture" (JObj m) = Ok [ITexture n f one3]) /\
  (forall p, first_member m "proxy" p -> no_member m "scale" -> parse_block "texture" (JObj m) = UB) /\
  (forall p j, first_member m "proxy" p -> first_member m "scale" j -> parse_block "texture" (JObj m) = Ok [ITexture n f s]).
Proof.
  intros m n f s D. assert (P : parse_block "texture" (JObj m) = (v <- (if has m "proxy" then j <- member m "scale" ;; get_vec j else Ok one3) ;; Ok [ITexture n f v])%outcome).
  { unfold parse_block. cbn [String.eqb Ascii.eqb Bool.eqb members bind]. unfold parse_texture. rds D. reflexivity. }
  unfold has, member in P. split; [|split].
  - intros N. apply find_none in N. now rewrite P, N.
  - intros p F N. apply find_first in F. apply find_none in N. now rewrite P, F, N.
  - intros p j F N. apply find_first in F. rewrite P, F. pose proof N as N'. apply find_first in N. rewrite N. cbn [bind].
    destruct (D "scale" (vec s) ltac:(cbn; tauto)) as [(j' & F' & S)|(A & _)].
    + apply find_first in F'. rewrite F' in N. injection N as ->. now rewrite (vec_shows _ _ S).
    + apply find_none in A. congruence.
Qed.
Print Assumptions C137_texture_behaviour.
(** a medium of a scene file always absorbs with 1 and never scatters *)
Theorem C137_media_coefficients_refuted : forall m l, parse_block "media" (JObj m) = Ok l ->
  exists n te ph ms de tf, l = [IMedia n te ph ms de tf one3 zero3].
Proof.
  intros m l. unfold parse_block. cbn [String.eqb Ascii.eqb Bool.eqb members bind]. unfold parse_media.
  destruct (opt m "name" get_str "env_medium"); try discriminate. cbn [bind].
  destruct (opt m "density" get_str "default"); try discriminate. cbn [bind].
  destruct (opt m "sampling" get_str "default"); try discriminate. cbn [bind].
  destruct (opt m "phase" get_str "default"); try discriminate. cbn [bind].
  destruct (opt m "trans_est" get_str "default"); try discriminate. cbn [bind].
  destruct (opt m "trans_func" get_str "default"); try discriminate. cbn [bind].
  intros [= <-]. do 6 eexists. reflexivity.
Qed.
Print Assumptions C137_media_coefficients_refuted.
(** a camera given by origin, target or up is refused; it must be given by "lookat" *)
Theorem C137_camera_vectors_refused : forall m n o t u fov ne fa fo ap w h k j,
  describes m (ICamera n o t u fov ne fa fo ap w h) -> In k ["origin"; "target"; "up"] -> first_member m k j ->
  exists e, parse_block "camera" (JObj m) = Throw e.
Proof.
  intros m n o t u fov ne fa fo ap w h k j D K F. unfold parse_block. cbn [String.eqb Ascii.eqb Bool.eqb members bind]. unfold parse_camera. rds D.
  cbn [String.eqb Ascii.eqb Bool.eqb]. unfold has. apply find_first in F.
  destruct K as [<-|[<-|[<-|[]]]]; rewrite F.
  - eauto.
  - destruct (find_member m "origin"); eauto.
  - destruct (find_member m "origin"); eauto. destruct (find_member m "target"); eauto.
Qed.
Print Assumptions C137_camera_vectors_refused.
Example C137_case :
  let m := [("proxy", JInt 1); ("filename", JStr "a.png"); ("scale", JArr [JInt 2; JInt 2; JInt 2])] in
  let c := [("origin", JArr [JInt 0; JInt 1; JInt 0])] in
  describes m (ITexture "texture" "a.png" (V3 2 2 2)) /\ (exists p, first_member m "proxy" p) /\
  (exists l, parse_block "media" (JObj [("abs", JArr [JInt 0; JInt 0; JInt 0])]) = Ok l) /\
  describes c (default_params (ICamera "" zero3 zero3 zero3 0 0 0 0 0 0 0)) /\ exists j, first_member c "origin" j.
Proof.
  cbv zeta. split; [describe; shown|]. split; [eexists; apply find_first; reflexivity|]. split; [eexists; reflexivity|].
  split; [describe|]. eexists. apply find_first. reflexivity.
Qed.

(** ** C138: loading a scene file *)
Lemma call_makes i it k n t rs : block_makes it = Some (k, n, t, rs) ->
  defines (to_call i it) = Some (k, n, t, i) /\ refers (to_call i it) = rs.
Proof. destruct it as [| | | | | | | | | |? []|? []|? []|? []| |]; intros [= <- <- <- <-]; split; reflexivity. Qed.
Theorem C138_load : forall d l, doc_says d l -> well_formed l ->
  exists z, load true (Some (JObj d)) = (z, Ret tt) /\
  (* every definition is in place, with the class and the parameters of its block and the blocks it names *)
  (forall i it k n t rs, nth_error (all_calls l) i = Some it -> block_makes it = Some (k, n, t, rs) ->
     def_of z k n = Some (Pay t (map (denotes z) rs) i)) /\
  (* every object is there under its name, with its mesh, material and emitter, moved by its own transforms in their order *)
  (forall n m a e ts, In (IObject n m a e, ts) l ->
     exists o nd, lookup z KObject n = Some o /\ nth_error (heap z) o = Some nd /\ nkind nd = KObject /\
       omesh nd = lookup z KMesh m /\ omesh nd <> None /\ omat nd = lookup z KMat a /\ omat nd <> None /\
       (e <> "" -> e <> "null" -> oemit nd = lookup z KEmitter e /\ oemit nd <> None) /\
       ((forall c, In c ts -> axis_ok c) -> forall p, tf_point (otrans nd) p = fold_left (fun q c => act c q) ts p)) /\
  (* the scene renders with the named integrator, sampler and camera inside the named medium *)
  (forall n i sa ca m k de f ts, In (IScene n i sa ca m k de f, ts) l ->
     exists x, scn z = Some x /\ lookup z KIntegrator i = Some (s_integ x) /\ lookup z KSampler sa = Some (s_samp x) /\
       lookup z KCamera ca = Some (s_cam x) /\ s_media x = (if String.eqb m "" then None else denotes z (KMedia, m))).
Proof.
  intros d l D W. destruct (load_ok d l D W) as (z & E & R). exists z. split; [exact E|]. split; [|split].
  - intros i it k n t rs H BM. apply call_makes with (i := i) in BM as [DF <-]. apply nth_error_split in H as (a & b & H & <-).
    destruct (run_at _ _ _ _ _ H R) as (s1 & s2 & R1 & W1 & C & W2 & Wz & X).
    pose proof (call_good true (to_call (List.length a) it) s1 W1) as G. rewrite C in G. destruct G as [_ [P _]].
    exact (defined_later _ _ _ _ _ _ _ W2 Wz X P DF).
  - intros n m a e ts I. apply in_split in I as (l1 & l2 & ->).
    assert (TS : forall c, In c ts -> c <> TClear).
    { apply Forall2_app_inv_r in D as (d1 & d2 & _ & D & _). inversion D as [|kj b d3 l3 (mm & _ & _ & _ & _ & P)]; subst.
      cbn in P. unfold lists_transforms in P. clear -P. induction P as [|x c xs cs S P IH]; [easy|].
      intros c' [<-|H]; [intros ->; exact S|now apply IH]. }
    assert (SP : all_calls (l1 ++ (IObject n m a e, ts) :: l2) =
      ((all_calls l1 ++ [ITransform TClear]) ++ map ITransform ts) ++ IObject n m a e :: (ITransform TClear :: all_calls l2)).
    { unfold all_calls. rewrite flat_map_app. cbn [flat_map fst snd]. unfold calls. cbn [placed].
      rewrite <- !app_assoc. cbn [app]. rewrite <- !app_assoc. reflexivity. }
    destruct (run_at _ _ _ _ _ SP R) as (s1 & s2 & R1 & W1 & C & W2 & Wz & X). clear SP.
    cbn [to_call] in C.
    assert (CU : cur s1 = trun ts).
    { rewrite numbered_app in R1. apply run_split in R1 as (s0 & x1 & x2 & R0 & RT & EL).
      rewrite numbered_app in R0. apply run_split in R0 as (s' & x3 & x4 & R' & RC & ->).
      assert (L0 : forall h s y x, run true h s = Some (y, x) -> List.length x = List.length h).
      { clear. induction h as [|c h IH]; intros s y x; cbn [run]; [intros [= _ <-]; reflexivity|].
        destruct (run_call true c s) as [s' [?|?| |]]; try discriminate; destruct (run true h s') as [[y' x']|] eqn:Q; try discriminate; intros [= _ <-]; cbn; f_equal; eauto. }
      assert (AL : forall x, In x (x3 ++ x4 ++ x2) -> x = Ret tt).
      { intros x I. rewrite app_assoc, <- EL in I. now apply repeat_spec in I. }
      assert (RP : forall xs, (forall x, In x xs -> x = Ret tt) -> xs = repeat (@Ret unit tt) (List.length xs)).
      { clear. induction xs as [|x xs IH]; intros H; [reflexivity|]. cbn. f_equal; [apply H; now left|apply IH; intros; apply H; now right]. }
      assert (K' : clk s' = false).
      { eapply (run_clk _ api_init s' (List.length x3)); [reflexivity|]. rewrite <- RP; [exact R'|].
        intros x I. apply AL. apply in_or_app. now left. }
      cbn [numbered to_call run] in RC. destruct (transform_succeeds true TClear s' (fun _ => K')) as (q & Q & Q1 & _).
      pose proof (ApiClock.call_clk (FrTransform TClear) s') as L. rewrite Q in *. injection RC as <- <-.
      unfold trun. change tf_id with (tstep (cur s') TClear). rewrite <- Q1. apply (run_transforms ts (List.length (all_calls l1 ++ [ITransform TClear]) + 0)); [exact L|].
      replace (repeat (Ret tt) (List.length ts)) with x2; [exact RT|].
      rewrite (RP x2); [|intros x I; apply AL; apply in_or_app; right; now right].
      f_equal. apply L0 in RT. now rewrite RT, numbered_length, map_length. }
    pose proof (call_good true (FrObject n m a e) s1 W1) as G. rewrite C in G.
    destruct G as [S2 [_ (o & nd & Lo & Ho & K & (mm & M1 & M2) & (aa & A1 & A2) & T & EM)]].
    apply steps_ext in S2. assert (Lo' : nth_error (heap s1) o = None) by now apply nth_error_None.
    pose proof (object_name _ _ _ _ _ _ _ _ W1 W2 S2 C Lo' Ho K) as NM.
    destruct (ext_node _ _ X _ _ Ho) as (nd' & Ho' & RF).
    pose proof (rf_kind _ _ RF) as F1. pose proof (rf_mesh _ _ RF _ M1) as F2.
    pose proof (rf_mat _ _ RF _ A1) as F3. pose proof (rf_trans _ _ RF) as F4. pose proof (rf_name _ _ RF) as F5.
    apply (ext_hasn _ _ _ _ _ X) in M2. apply (ext_hasn _ _ _ _ _ X) in A2.
    exists o, nd'. split; [apply hasn_lookup; auto; exists nd'; intuition congruence|].
    split; auto. split; [congruence|]. rewrite F2, F3, (hasn_lookup _ _ _ _ Wz M2), (hasn_lookup _ _ _ _ Wz A2).
    split; auto. split; [discriminate|]. split; auto. split; [discriminate|].
    split.
    { intros N1 N2. apply String.eqb_neq in N1, N2. rewrite N1, N2 in EM. cbn [orb] in EM.
      destruct EM as (ee & X1 & X2). rewrite (rf_emit _ _ RF _ X1). apply (ext_hasn _ _ _ _ _ X) in X2.
      rewrite (hasn_lookup _ _ _ _ Wz X2). split; [reflexivity|discriminate]. }
    intros AX p. rewrite F4, T, CU.
    assert (SC : since_clear [] ts = ts).
    { clear -TS. change ts with ([] ++ ts) at 2. generalize (@nil tcall) as acc. induction ts as [|c ts IH]; intros acc; [now rewrite app_nil_r|].
      cbn. destruct c; try (rewrite IH by (intros; apply TS; now right); rewrite <- app_assoc; reflexivity).
      exfalso. apply (TS TClear); [now left|reflexivity]. }
    rewrite run_point; rewrite SC; auto.
  - intros n i sa ca m k de f ts I. apply in_split in I as (l1 & l2 & ->).
    assert (SP : all_calls (l1 ++ (IScene n i sa ca m k de f, ts) :: l2) = all_calls l1 ++ IScene n i sa ca m k de f :: all_calls l2).
    { unfold all_calls. rewrite flat_map_app. reflexivity. }
    destruct (run_at _ _ _ _ _ SP R) as (s1 & s2 & R1 & W1 & C & W2 & Wz & X). cbn [to_call] in C.
    apply (scene_made _ _ _ _ _ _ _ W1) in C. apply (scene_is_ext _ _ _ _ _ _ X) in C.
    destruct C as (x & E1 & E2 & E3 & E4 & E5). exists x. split; [exact E1|].
    rewrite (hasn_lookup _ _ _ _ Wz E2), (hasn_lookup _ _ _ _ Wz E3), (hasn_lookup _ _ _ _ Wz E4). repeat split.
    destruct (String.eqb m ""); [exact E5|]. symmetry. exact (denotes_fopt _ _ _ _ Wz E5).
Qed.
Print Assumptions C138_load.
(** a scene with a lamp on a moved ball *)
Definition demo_doc : list (string * json) :=
  [("mesh", JObj ball_block); ("scene", JObj [("camera", JStr "camera"); ("medium", JStr ""); ("integrator", JStr "integrator"); ("sampler", JStr "sampler")]);
   ("object", JObj thing_block); ("emitter", JObj [("name", JStr "lamp"); ("type", JStr "mesh"); ("rotate", JArr [JInt 90; JInt 0; JInt 1; JInt 0])]);
   ("shader", JObj [("type", JStr "simple_material"); ("name", JStr "paint"); ("bsdf", JStr "white")]); ("bsdf", JObj [("name", JStr "white")]);
   ("integrator", JObj [("type", JStr "path")]); ("sampler", JObj []); ("camera", JObj []); ("accel", JObj [])].
Definition demo_blocks : list (item * list tcall) :=
  [(ball, []); (IScene "default" "integrator" "sampler" "camera" "" "" "" false, []); (thing, thing_moves);
   (IEmitter "lamp" (EMesh one3), [TRotate 90 (V3 0 1 0)]); (IShader "paint" (SSimple "white"), []); (IBsdf "white" (BDiffuse (V3 (8 / 10) (8 / 10) (8 / 10))), []);
   (IIntegrator "integrator" "path" "default" (-1) (-1) "" 10, []); (default_params (ISampler "" 0 0), []);
   (default_params (ICamera "" zero3 zero3 zero3 0 0 0 0 0 0 0), []); (INaive "light_accel", [])].
Lemma demo_says : doc_says demo_doc demo_blocks.
Proof.
  unfold doc_says, demo_doc, demo_blocks.
  repeat (apply Forall2_cons; [eexists; split; [reflexivity|]; cbn [fst snd]|]); [..|apply Forall2_nil];
    try exact ball_says; try exact thing_says;
    (split; [reflexivity|]; split; [describe; try shown|]); cbn [default_params placed]; try (split; [exact Logic.I|reflexivity]).
  - split; [exact Logic.I|]. unfold lists_transforms. cbn. apply Forall2_cons; [split; [reflexivity|shown]|apply Forall2_nil].
  - split; [discriminate|reflexivity].
  - split; [|reflexivity]. repeat split; apply find_none; reflexivity.
Qed.
Lemma demo_well_formed : well_formed demo_blocks.
Proof.
  constructor.
  - cbn. repeat constructor; cbn; intuition discriminate.
  - intros b H. cbn in H. repeat (destruct H as [<-|H]; [split; [intros k n [= <- <-]; split; reflexivity || discriminate|cbn; tauto]|]). contradiction.
  - cbn. auto.
Qed.
Example C138_case : doc_says demo_doc demo_blocks /\ well_formed demo_blocks /\
  (forall c, In c thing_moves -> axis_ok c) /\ fold_left (fun q c => act c q) thing_moves (V3 1 1 1) = V3 3 2 2 /\
  (exists it, nth_error (all_calls demo_blocks) 0 = Some it /\ exists rs, block_makes it = Some (KMesh, "ball", "sdf_sphere", rs)) /\
  (exists i, nth_error (all_calls demo_blocks) i = Some (IShader "paint" (SSimple "white")) /\
     block_makes (IShader "paint" (SSimple "white")) = Some (KMat, "paint", "simple_material", [(KBsdf, "white")])).
Proof.
  split; [exact demo_says|]. split; [exact demo_well_formed|]. split; [intros c [<-|[<-|[]]]; exact Logic.I|]. split.
  - cbn. unfold vadd. cbn. f_equal; lra.
  - split; [eexists; split; [reflexivity|eexists; reflexivity]|].
    assert (H : In (IShader "paint" (SSimple "white")) (all_calls demo_blocks)) by (cbn; tauto).
    apply In_nth_error in H as [i H]. exists i. split; [exact H|reflexivity].
Qed.

(** ** C139: the order of the members of a block *)
Lemma find_perm m m' k : Permutation m m' -> NoDup (map fst m) -> find_member m k = find_member m' k.
Proof.
  induction 1 as [|[a x] m m' P IH|[a x] [b y] m|m1 m2 m3 P1 IH1 P2 IH2]; intros N; cbn in *; auto.
  - inversion N. destruct (String.eqb a k); auto.
  - inversion N as [|? ? N1 N2]. destruct (String.eqb_spec b k) as [->|]; destruct (String.eqb_spec a k) as [->|]; auto. exfalso. apply N1. now left.
  - rewrite IH1, IH2; auto. eapply Permutation_NoDup; [apply Permutation_map, P1|exact N].
Qed.
(** whatever a block of another kind than "object" and "emitter" contains *)
Theorem C139_order_immaterial : forall k m m', k <> "object" -> k <> "emitter" -> NoDup (map fst m) -> Permutation m m' ->
  parse_block k (JObj m) = parse_block k (JObj m').
Proof.
  intros k m m' N1 N2 ND P. assert (F : forall x, find_member m x = find_member m' x) by (intros x; now apply find_perm).
  apply String.eqb_neq in N1, N2. unfold parse_block. rewrite N1, N2. cbn [members bind].
  unfold parse_scene, parse_media, parse_density, parse_accel, parse_integrator, parse_sampler, parse_camera, parse_mesh, parse_bsdf, parse_shader, parse_texture, opt, has, member.
  rewrite !F. reflexivity.
Qed.
Print Assumptions C139_order_immaterial.
(** a meaningful block of any kind keeps its meaning as long as its transforms keep their order *)
Theorem C139_transforms_in_order : forall k m m' i ts, says k m i ts -> NoDup (map fst m) -> Permutation m m' ->
  filter (fun kj => transform_key (fst kj)) m = filter (fun kj => transform_key (fst kj)) m' ->
  says k m' i ts /\ parse_block k (JObj m') = parse_block k (JObj m).
Proof.
  intros k m m' i ts S ND P T. assert (F : forall x, find_member m x = find_member m' x) by (intros x; now apply find_perm).
  assert (FM : forall x j, first_member m' x j <-> first_member m x j) by (intros; rewrite !find_first, F; tauto).
  assert (NM : forall x, no_member m' x <-> no_member m x) by (intros; rewrite !find_none, F; tauto).
  assert (S' : says k m' i ts).
  { destruct S as (-> & D & X & L). split; [reflexivity|]. split.
    - intros x v I. destruct (D x v I) as [(j & A & B)|(A & B)]; [left|right].
      + exists j. now rewrite FM.
      + now rewrite NM.
    - split; [|destruct (placed i); [unfold lists_transforms; now rewrite <- T|exact L]].
      destruct i as [| | | | | | | | | |n p|n p|n p|n p| |]; auto.
      + rewrite !NM. exact X.
      + unfold once in *. eapply Permutation_NoDup; [|exact X]. clear -P. apply (Permutation_map fst) in P.
        induction P as [|x l l' P IH|x y l|l1 l2 l3 P1 IH1 P2 IH2]; cbn; auto.
        * destruct (object_key x); auto.
        * destruct (object_key x), (object_key y); auto. apply perm_swap.
        * eauto using Permutation_trans.
      + destruct p; auto.
        * split; intros; eapply X; try eassumption; now apply FM.
        * intros j A. apply X. now apply FM.
      + now rewrite NM. }
  split; [exact S'|]. now rewrite (read_block _ _ _ _ S'), (read_block _ _ _ _ S).
Qed.
Print Assumptions C139_transforms_in_order.
(** of two members with the same name the first counts, but in an object the last *)
Theorem C139_duplicates_refuted : exists a b, a <> b /\
  parse_block "mesh" (JObj [("type", JStr "sdf_box"); ("name", JStr a); ("name", JStr b)]) = Ok [IMesh a (MBox one3 zero3 "null" "null" false)] /\
  parse_block "object" (JObj [("name", JStr a); ("name", JStr b)]) = Ok (calls (IObject b "default" "null" "null") []).
Proof. exists "a", "b". split; [discriminate|]. split; reflexivity. Qed.
Print Assumptions C139_duplicates_refuted.
Example C139_case : let m' := rev ball_block in
  NoDup (map fst ball_block) /\ Permutation ball_block m' /\ m' <> ball_block /\
  filter (fun kj => transform_key (fst kj)) ball_block = filter (fun kj => transform_key (fst kj)) m' /\
  exists o, Permutation thing_block o /\ o <> thing_block /\ NoDup (map fst thing_block) /\
    filter (fun kj => transform_key (fst kj)) thing_block = filter (fun kj => transform_key (fst kj)) o.
Proof.
  cbv zeta. split; [cbn; repeat constructor; cbn; intuition discriminate|]. split; [apply Permutation_rev|].
  split; [discriminate|]. split; [reflexivity|]. eexists. split; [unfold thing_block; apply perm_swap|].
  split; [discriminate|]. split; [cbn; repeat constructor; cbn; intuition discriminate|]. reflexivity.
Qed.

(** ** C140: the order of the blocks *)
(** among files whose names are in order, exactly those are loaded that contain the scene before the emitters and the
    light accelerator and no second scene *)
Theorem C140_scene_first : forall d l, doc_says d l -> NoDup (keys (map fst l)) -> (forall b, In b l -> usable (fst b)) ->
  (scene_order false (map fst l) <-> exists z, load true (Some (JObj d)) = (z, Ret tt)).
Proof.
  intros d l D N U. split.
  - intros O. destruct (load_ok d l D) as (z & E & _); [now constructor|]. eauto.
  - intros (z & E). unfold load in E. rewrite (read_doc _ _ D) in E.
    destruct (exec true 0 (all_calls l) api_init) as [s [[]|e| |]] eqn:X; try discriminate E.
    apply order_all_inv. eapply exec_order; [now apply usable_all|now rewrite keys_all|apply ready_init|exact X].
Qed.
Print Assumptions C140_scene_first.
Theorem C140_block_order_refuted : exists a b, Permutation a b /\
  (exists z, load true (Some (JObj a)) = (z, Ret tt)) /\ snd (load true (Some (JObj b))) = Crash.
Proof.
  exists [("scene", JObj []); ("emitter", JObj [])], [("emitter", JObj []); ("scene", JObj [])].
  split; [apply perm_swap|]. split; [|now vm_compute].
  match goal with |- exists z, ?x = _ => exists (fst x); transitivity (fst x, snd x); [apply surjective_pairing|f_equal; now vm_compute] end.
Qed.
Print Assumptions C140_block_order_refuted.
Example C140_case : doc_says demo_doc demo_blocks /\ scene_order false (map fst demo_blocks) /\
  ~ scene_order false (map fst (rev demo_blocks)).
Proof. split; [exact demo_says|]. split; [apply demo_well_formed|]. cbn. intuition discriminate. Qed.

(** ** C141: malformed scene files *)
Theorem C141_missing_file_refuted : forall clocking, snd (load clocking None) = Crash.
Proof. reflexivity. Qed.
Print Assumptions C141_missing_file_refuted.
Definition block_names : list string :=
  ["scene"; "media"; "media_density"; "accel"; "integrator"; "sampler"; "camera"; "object"; "mesh"; "emitter"; "bsdf"; "shader"; "texture"].
(** an unknown block is not reported by an exception; it fails an assertion *)
Theorem C141_unknown_block_refuted : forall clocking k j, ~ In k block_names -> snd (load clocking (Some (JObj [(k, j)]))) = Crash.
Proof.
  intros c k j N. unfold load. cbn [parse_doc]. assert (E : parse_block k j = UB); [|rewrite E; reflexivity].
  unfold parse_block. repeat match goal with |- context [String.eqb k ?n] => destruct (String.eqb_spec k n) as [->|]; [exfalso; apply N; cbn; tauto|] end. reflexivity.
Qed.
Print Assumptions C141_unknown_block_refuted.
(** an accelerator of an unknown class is silently dropped *)
Theorem C141_unknown_accel_refuted : forall m t, first_member m "type" (JStr t) -> t <> "light_naive" -> t <> "light_spatial" ->
  (forall j, first_member m "name" j -> exists n, j = JStr n) -> parse_block "accel" (JObj m) = Ok [].
Proof.
  intros m t F N1 N2 NM. apply find_first in F. apply String.eqb_neq in N1, N2.
  unfold parse_block. cbn [String.eqb Ascii.eqb Bool.eqb members bind]. unfold parse_accel, opt. rewrite F. cbn [get_str bind].
  destruct (find_member m "name") as [j|] eqn:E.
  - apply find_first in E. destruct (NM j E) as [n ->]. cbn [get_str bind]. now rewrite N1, N2.
  - cbn [bind]. now rewrite N1, N2.
Qed.
Print Assumptions C141_unknown_accel_refuted.
(** in every other block an unknown class is refused *)
Definition classes (k : string) : list string :=
  if String.eqb k "media_density" then ["sphere"] else if String.eqb k "sampler" then ["independent"]
  else if String.eqb k "camera" then ["perspective"]
  else if String.eqb k "mesh" then ["triangle_mesh"; "grid"; "sdf_sphere"; "sdf_plane"; "sdf_box"; "sdf_cylinder"; "sdf_cone"]
  else if String.eqb k "emitter" then ["point"; "mesh"; "environment"; "directional"; "directional_mesh"; "spot"]
  else if String.eqb k "bsdf" then ["diffuse"; "mirror"; "dielectric"; "phong"; "blinn"]
  else if String.eqb k "shader" then ["interp_verts_to_sphere"; "simple_material"]
  else ["image"].
Theorem C141_unknown_class_refused : forall k m t l,
  In k ["media_density"; "sampler"; "camera"; "mesh"; "emitter"; "bsdf"; "shader"; "texture"] ->
  first_member m "type" (JStr t) -> ~ In t (classes k) -> parse_block k (JObj m) <> Ok l.
Proof.
  intros k m t l K F N. apply find_first in F.
  assert (NE : forall x, In x (classes k) -> String.eqb t x = false) by (intros x I; apply String.eqb_neq; intros ->; now apply N).
  assert (OT : forall d, opt m "type" get_str d = Ok t) by (intros d; unfold opt; now rewrite F).
  repeat (destruct K as [<-|K]; [unfold parse_block; cbn [String.eqb Ascii.eqb Bool.eqb members bind]; unfold parse_density, parse_sampler, parse_camera, parse_mesh, parse_emitter, parse_bsdf, parse_shader, parse_texture;
    rewrite !OT; cbn [bind]; repeat rewrite NE by (cbn; tauto);
    repeat match goal with |- context [bind (opt ?a ?b ?c ?d) _] => destruct (opt a b c d); cbn [bind]; try discriminate end;
    try (destruct (emitter_transforms m); discriminate); try discriminate|]); [..|contradiction].
Qed.
Print Assumptions C141_unknown_class_refused.
Example C141_case : ~ In "mesch" block_names /\
  first_member [("type", JStr "kdtree")] "type" (JStr "kdtree") /\ ~ In "kdtree" (classes "mesh") /\
  (forall j, first_member [("type", JStr "kdtree")] "name" j -> exists n, j = JStr n).
Proof.
  split; [cbn; intuition discriminate|]. split; [now apply find_first|]. split; [cbn; intuition discriminate|].
  intros j H. apply find_first in H. discriminate.
Qed.
