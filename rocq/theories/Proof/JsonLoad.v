(** From the blocks of a scene file to the state of the API. *)
From Coq Require Import String List Bool Arith Lia Relations.
From Verif.Base Require Import Outcome.
From Verif.Model Require Import Vec Matrix ApiTransform Api Json.
From Verif.Spec Require Import ApiSpec JsonSpec.
From Verif.Proof Require Import ApiBase ApiCalls ApiRun ApiObject ApiProof ApiClock ApiTotal ApiNew JsonProof.
Import ListNotations.
Local Open Scope string_scope.
Open Scope list_scope.

Lemma read_doc d l : doc_says d l -> parse_doc d = (all_calls l, Ok tt).
Proof.
  unfold doc_says, all_calls. induction 1 as [|[k j] [i ts] d l (m & E & S) F IH]; [reflexivity|].
  cbn [fst snd] in *. subst j. cbn [parse_doc flat_map fst snd]. rewrite (read_block _ _ _ _ S), IH. reflexivity.
Qed.

(** the calls, numbered *)
Fixpoint numbered (i : nat) (l : list item) : list call :=
  match l with [] => [] | it :: l' => to_call i it :: numbered (S i) l' end.
Lemma numbered_app a : forall b i, numbered i (a ++ b) = numbered i a ++ numbered (List.length a + i) b.
Proof. induction a as [|x a IH]; intros b i; [reflexivity|]. cbn. rewrite IH. do 3 f_equal. lia. Qed.
Lemma numbered_length l : forall i, List.length (numbered i l) = List.length l.
Proof. induction l; intros; cbn; auto. Qed.

Lemma exec_run b l : forall i s z, exec b i l s = (z, Ret tt) ->
  run b (numbered i l) s = Some (z, repeat (Ret tt) (List.length l)).
Proof.
  induction l as [|it l IH]; intros i s z; cbn [exec numbered run List.length repeat].
  - intros [= <-]. reflexivity.
  - destruct (run_call b (to_call i it) s) as [s' [[]|e| |]]; try discriminate.
    intros E. now rewrite (IH _ _ _ E).
Qed.

(** what the state must be like for the remaining blocks *)
Record ready (have : bool) (l : list item) (s : api) : Prop := {
  r_wf : wf s;
  r_clk : clk s = false;
  r_obj : forall n, In (KObject, n) (keys l) -> absent n s;
  r_undef : forall k n, In (k, n) (keys l) -> reserved k n = false -> undef s k n;
  r_scn : if have then scn s <> None else scn s = None
}.

Lemma absent_lookup n s : wf s -> absent n s -> lookup s KObject n = None.
Proof.
  intros W A. destruct (lookup s KObject n) as [p|] eqn:L; [|reflexivity].
  destruct (lookup_hasn _ _ _ _ W L) as (nd & H & K & N). now destruct (A _ _ H K).
Qed.
Lemma undef_def_of s k n : wf s -> undef s k n -> def_of s k n = None.
Proof.
  intros W U. unfold def_of. destruct (lookup s k n) as [p|] eqn:L; [|reflexivity].
  destruct (lookup_hasn _ _ _ _ W L) as (nd & H & K & N). rewrite H. now apply (U p).
Qed.

Definition key_list (i : item) : list (kind * string) := match block_key i with Some k => [k] | None => [] end.
Lemma defines_key i it k n t d : defines (to_call i it) = Some (k, n, t, d) -> block_key it = Some (k, n) /\ d = i.
Proof.
  destruct it as [| | | | | | | | | |n0 p|n0 p|n0 p|n0 p| |]; cbn; try discriminate; try (intros [= <- <- <- <-]; now auto).
  - destruct p; cbn; intros [= <- <- <- <-]; auto.
  - destruct p; cbn; intros [= <- <- <- <-]; auto.
  - destruct p; cbn; intros [= <- <- <- <-]; auto.
  - destruct p; cbn; intros [= <- <- <- <-]; auto.
Qed.
Lemma key_defines i it k n : block_key it = Some (k, n) -> k <> KObject ->
  exists t, defines (to_call i it) = Some (k, n, t, i).
Proof.
  destruct it as [| | | | | | | | | |n0 p|n0 p|n0 p|n0 p| |]; cbn; try discriminate; try (intros [= <- <-] NO; now eauto).
  - destruct p; cbn; intros [= <- <-] NO; eauto.
  - destruct p; cbn; intros [= <- <-] NO; eauto.
  - destruct p; cbn; intros [= <- <-] NO; eauto.
  - destruct p; cbn; intros [= <- <-] NO; eauto.
Qed.
Lemma key_object it n : block_key it = Some (KObject, n) -> exists m a e, it = IObject n m a e.
Proof.
  destruct it as [| | | | | | | | | |n0 p|n0 p|n0 p|n0 p| |]; cbn; try discriminate; try (destruct p; discriminate).
  intros [= <-]. eauto.
Qed.
Lemma usable_supported i it k n t d : usable it -> defines (to_call i it) = Some (k, n, t, d) -> supported (to_call i it) = true.
Proof.
  intros [_ U]. destruct it as [| | | | | | | | | |n0 p|n0 p|n0 p|n0 p| |]; cbn; try discriminate; try reflexivity;
    try (destruct p; reflexivity).
  intros _. cbn in U. repeat (destruct U as [<-|U]; [reflexivity|]). contradiction.
Qed.
Lemma object_call it i n m a e : to_call i it = FrObject n m a e -> it = IObject n m a e.
Proof.
  destruct it as [| | | | | | | | | |n0 p|n0 p|n0 p|n0 p| |]; cbn; try discriminate; try (destruct p; discriminate).
  now intros [= -> -> -> ->].
Qed.
Lemma scene_call it i x1 x2 x3 x4 : to_call i it = FrScene x1 x2 x3 x4 -> exists n k d f, it = IScene n x1 x2 x3 x4 k d f.
Proof.
  destruct it as [| | | | | | | | | |n0 p|n0 p|n0 p|n0 p| |]; cbn; try discriminate; try (destruct p; discriminate).
  intros [= -> -> -> ->]. eauto.
Qed.
Lemma absent_undef_obj s n : absent n s -> undef s KObject n.
Proof. intros A p nd H K N. now destruct (A _ _ H K). Qed.

Definition next (have : bool) (it : item) : bool := match it with IScene _ _ _ _ _ _ _ _ => true | _ => have end.
Lemma order_next have it l : scene_order have (it :: l) -> scene_order (next have it) l.
Proof. destruct it; cbn; tauto. Qed.

Lemma find_inv {A} (m : M A) k n w (f : A -> M unit) s z : finds m k n w -> wf s -> bindM m f s = (z, Ret tt) ->
  exists s' a, f a s' = (z, Ret tt) /\ wf s' /\ ext s s' /\ fopt s' k n (w a).
Proof.
  intros F W E. destruct (F s W) as (s' & a & E' & S & O). unfold bindM in E. rewrite E' in E.
  exists s', a. split; auto. split; [eapply steps_wf; [apply S|auto]|]. split; [now apply same_ext|exact O].
Qed.
Definition scene_is (s : api) (i sa ca m : string) : Prop :=
  exists x, scn s = Some x /\ hasn s KIntegrator i (s_integ x) /\ hasn s KSampler sa (s_samp x) /\ hasn s KCamera ca (s_cam x) /\
    if String.eqb m "" then s_media x = None else fopt s KMedia m (s_media x).
Lemma scene_made b i sa ca m s s' : wf s -> run_call b (FrScene i sa ca m) s = (s', Ret tt) -> scene_is s' i sa ca m.
Proof.
  intros W. cbn [run_call]. unfold fr_scene.
  assert (ST : forall s1 r, start_api b s = (s1, r) -> wf s1).
  { unfold start_api. destruct b; [|intros ? ? [= <- _]; exact W]. unfold bindM, get_clk. destruct (clk s); intros ? ? [= <- _]; [exact W|].
    eapply step_wf; [apply St_misc|exact W]. }
  unfold bindM at 1. destruct (start_api b s) as [s1 [[]|e| |]]; try discriminate. specialize (ST _ _ eq_refl).
  unfold bindM at 1. destruct (scn s1); [discriminate|]. intros E.
  apply (find_inv (find_plain KIntegrator i) KIntegrator i Some) in E as (s2 & p2 & E & W2 & X2 & F2); [|find_tac|assumption].
  apply (find_inv (find_plain KSampler sa) KSampler sa Some) in E as (s3 & p3 & E & W3 & X3 & F3); [|find_tac|assumption].
  apply (find_inv (find_plain KCamera ca) KCamera ca Some) in E as (s4 & p4 & E & W4 & X4 & F4); [|find_tac|assumption].
  assert (MED : exists s5 p5, bindM (set_scn (Scn p2 p3 p4 p5 [] [] None)) (fun _ => stop_api b) s5 = (s', Ret tt) /\ wf s5 /\ ext s4 s5 /\
    if String.eqb m "" then p5 = None else fopt s5 KMedia m p5).
  { destruct (String.eqb m "").
    - exists s4, None. split; [exact E|]. split; auto. split; [apply ext_refl|reflexivity].
    - apply (find_inv (find_media m) KMedia m (fun o => o)) in E as (s5 & p5 & E & W5 & X5 & F5); [|find_tac|assumption]. eauto 10. }
  clear E. destruct MED as (s5 & p5 & E & W5 & X5 & F5). simpl in F2, F3, F4.
  assert (H : heap s' = heap s5 /\ scn s' = Some (Scn p2 p3 p4 p5 [] [] None)).
  { revert E. unfold bindM at 1, set_scn, stop_api. destruct b.
    - unfold bindM, get_clk, set_clk, throw. cbn [clk]. destruct (clk s5); [|discriminate]. intros [= <-]. auto.
    - intros [= <-]. auto. }
  destruct H as [H1 H2].
  assert (HN : forall k n p, hasn s5 k n p -> hasn s' k n p) by (intros k n p (nd & Q); exists nd; rewrite H1; exact Q).
  exists (Scn p2 p3 p4 p5 [] [] None). split; [exact H2|]. cbn [s_integ s_samp s_cam s_media].
  repeat split; try (apply HN; eauto using ext_hasn).
  destruct (String.eqb m ""); auto. destruct p5; simpl in *; auto.
Qed.
Lemma scene_is_ext s z i sa ca m : ext s z -> scene_is s i sa ca m -> scene_is z i sa ca m.
Proof.
  intros X (x & E & A & B & C & D).
  destruct (ext_scn _ _ X _ E) as (x' & E' & E1 & E2 & E3 & E4). exists x'. rewrite E1, E2, E3, E4.
  split; [exact E'|]. repeat split; eauto using ext_hasn.
  destruct (String.eqb m ""); auto. eauto using fopt_ext.
Qed.

Lemma one_call have it l i s : usable it -> scene_order have [it] -> NoDup (keys (it :: l)) ->
  ready have (it :: l) s ->
  exists s', run_call true (to_call i it) s = (s', Ret tt) /\ ready (next have it) l s'.
Proof.
  intros U O N [W C RO RU RS].
  assert (T : tot (run_call true (to_call i it) s)).
  { destruct (defines (to_call i it)) as [[[[k n] t] d]|] eqn:D.
    - destruct (defines_key _ _ _ _ _ _ D) as [K ->].
      assert (IK : In (k, n) (keys (it :: l))) by (unfold keys; cbn [flat_map]; rewrite K; now left).
      destruct (proj1 U _ _ K) as [U1 U2].
      eapply (definition_succeeds true _ s k n t i); auto.
      + now intros _.
      + eapply usable_supported; eauto.
      + apply undef_def_of; auto.
      + intros ->. destruct it as [| | | | | | | | | |n0 p|n0 p|n0 p|n0 p| |]; cbn in K; try discriminate K;
          try (destruct p; discriminate K). cbn in O. destruct O as [-> _]. exact RS.
    - destruct it as [| | | | | | | | | |n0 p|n0 p|n0 p|n0 p| |]; cbn in D; try discriminate D;
        try (destruct p; discriminate D); cbn [to_call].
      + cbn in O. destruct O as [-> _]. now apply scene_succeeds.
      + cbn in O. destruct O as [-> _]. now apply accel_succeeds.
      + cbn in O. destruct O as [-> _]. now apply accel_succeeds.
      + apply object_clocked_free; auto. apply absent_lookup; auto. apply RO. now left.
      + destruct (transform_succeeds true c s (fun _ => C)) as (s' & E & _). exists s'. exact E. }
  destruct T as [s' E]. exists s'. split; [exact E|].
  pose proof (call_good true (to_call i it) s W) as G. rewrite E in G. destruct G as [ST P].
  assert (W' : wf s') by (eapply steps_wf; eauto).
  assert (KS : forall k n, In (k, n) (keys l) -> In (k, n) (keys (it :: l)) /\ block_key it <> Some (k, n)).
  { intros k n I. split; [unfold keys; cbn [flat_map]; apply in_or_app; right; exact I|].
    intros K. unfold keys in N. cbn [flat_map] in N. rewrite K in N. cbn in N. inversion N. contradiction. }
  assert (OB : forall n, In (KObject, n) (keys l) -> absent n s').
  { intros n I. destruct (KS _ _ I) as [I1 I2].
    pose proof (call_absent (to_call i it) s n) as A. rewrite E in A. apply A; [|now apply RO].
    intros m a e Q. apply object_call in Q. subst it. now apply I2. }
  constructor; auto.
  - pose proof (call_clk (to_call i it) s) as L. rewrite E in L. exact L.
  - intros k n I RV. destruct (KS _ _ I) as [I1 I2].
    pose proof (call_undef true (to_call i it) s k n W RV) as A. rewrite E in A. apply A; [|now apply RU].
    intros t d Q. apply defines_key in Q as [Q _]. contradiction.
  - assert (SC : have = true -> scn s' <> None).
    { intros ->. destruct (scn s) as [x|] eqn:SX; [|congruence].
      apply steps_ext in ST. destruct (ext_scn _ _ ST _ SX) as (x' & -> & _). discriminate. }
    assert (NS : (forall n x1 x2 x3 x4 k d f, it <> IScene n x1 x2 x3 x4 k d f) -> have = false -> scn s' = None).
    { intros Q ->. pose proof (call_no_scene true (to_call i it) s) as A. rewrite E in A. apply A; [|exact RS].
      intros x1 x2 x3 x4 B. apply scene_call in B as (n & k & d & f & ->). eapply Q; reflexivity. }
    destruct it; try (cbn [next]; destruct have; [now apply SC|now apply NS]).
    cbn [next to_call] in *. destruct (scene_made _ _ _ _ _ _ _ W E) as (x & -> & _). discriminate.
Qed.

Lemma exec_ok l : forall have i s, (forall it, In it l -> usable it) -> scene_order have l -> NoDup (keys l) -> ready have l s ->
  exists z, exec true i l s = (z, Ret tt).
Proof.
  induction l as [|it l IH]; intros have i s U O N R; cbn [exec]; [eauto|].
  destruct (one_call have it l i s) as (s' & E & R'); auto; [apply U; now left|destruct it; cbn in *; tauto|]. rewrite E.
  apply (IH (next have it)); auto.
  - intros x I. apply U. now right.
  - now apply order_next.
  - unfold keys in N. cbn [flat_map] in N. destruct (block_key it); [|exact N]. now inversion N.
Qed.

Lemma keys_app a b : keys (a ++ b) = keys a ++ keys b.
Proof. unfold keys. apply flat_map_app. Qed.
Lemma keys_transforms ts : keys (map ITransform ts) = [].
Proof. induction ts; auto. Qed.
Lemma keys_calls i ts : keys (calls i ts) = keys [i].
Proof.
  unfold calls. destruct (placed i); [|reflexivity]. change (ITransform TClear :: ?x) with ([ITransform TClear] ++ x).
  rewrite !keys_app, keys_transforms. change [i; ITransform TClear] with ([i] ++ [ITransform TClear]). rewrite keys_app. cbn. now rewrite !app_nil_r.
Qed.
Lemma keys_all l : keys (all_calls l) = keys (map fst l).
Proof.
  induction l as [|[i ts] l IH]; [reflexivity|]. unfold all_calls in *. cbn [flat_map map fst snd].
  rewrite keys_app, keys_calls, IH. symmetry. apply (keys_app [i]).
Qed.
Lemma order_transforms have ts l : scene_order have l -> scene_order have (map ITransform ts ++ l).
Proof. intros H. induction ts; auto. Qed.
Lemma order_all l : forall have, scene_order have (map fst l) -> scene_order have (all_calls l).
Proof.
  induction l as [|[i ts] l IH]; intros have; [auto|]. unfold all_calls in *. cbn [flat_map map fst snd].
  unfold calls. destruct i; cbn [placed app]; cbn [scene_order]; intros O;
    try (apply IH; exact O); try (destruct O; split; auto; fail).
  - rewrite <- app_assoc. apply order_transforms. cbn. now apply IH.
  - rewrite <- app_assoc. apply order_transforms. cbn. destruct O; auto.
Qed.
Lemma usable_transform c : usable (ITransform c).
Proof. split; [discriminate|exact I]. Qed.
Lemma usable_all l : (forall b, In b l -> usable (fst b)) -> forall it, In it (all_calls l) -> usable it.
Proof.
  intros U it I. unfold all_calls in I. apply in_flat_map in I as ([i ts] & I1 & I2). specialize (U _ I1).
  unfold calls in I2. cbn [fst snd] in *. destruct (placed i); cbn in I2.
  - destruct I2 as [<-|I2]; [apply usable_transform|]. apply in_app_or in I2 as [I2|I2].
    + apply in_map_iff in I2 as (c & <- & _). apply usable_transform.
    + destruct I2 as [<-|[<-|[]]]; [exact U|apply usable_transform].
  - destruct I2 as [<-|[]]. exact U.
Qed.
Lemma ready_init l : ready false l api_init.
Proof.
  constructor; try reflexivity; [apply wf_init| |].
  - intros n _ [|p] nd; discriminate.
  - intros k n _ _ [|p] nd; discriminate.
Qed.

Lemma load_ok d l : doc_says d l -> well_formed l ->
  exists z, load true (Some (JObj d)) = (z, Ret tt) /\
    run true (numbered 0 (all_calls l)) api_init = Some (z, repeat (Ret tt) (List.length (all_calls l))).
Proof.
  intros D [W1 W2 W3].
  destruct (exec_ok (all_calls l) false 0 api_init) as (z & E).
  - now apply usable_all.
  - now apply order_all.
  - now rewrite keys_all.
  - apply ready_init.
  - exists z. split; [|now apply exec_run]. unfold load. rewrite (read_doc _ _ D), E. reflexivity.
Qed.

(** a call in the middle *)
Lemma run_at l a it b z : l = a ++ it :: b -> run true (numbered 0 l) api_init = Some (z, repeat (Ret tt) (List.length l)) ->
  exists s1 s2, run true (numbered 0 a) api_init = Some (s1, repeat (Ret tt) (List.length a)) /\ wf s1 /\
    run_call true (to_call (List.length a) it) s1 = (s2, Ret tt) /\ wf s2 /\ wf z /\ ext s2 z.
Proof.
  intros -> H. rewrite numbered_app in H. cbn [numbered] in H. rewrite Nat.add_0_r in H.
  apply run_app in H as (s1 & l1 & s2 & r & l2 & A & B & C & E & L).
  pose proof (run_wf _ _ _ _ _ wf_init A) as [W1 _].
  rewrite numbered_length in L. rewrite app_length, repeat_app in E. cbn [List.length repeat] in E.
  assert (E1 : l1 = repeat (Ret tt) (List.length a)).
  { apply (f_equal (firstn (List.length a))) in E.
    rewrite !firstn_app, repeat_length, <- L, Nat.sub_diag, L in E. rewrite !firstn_O in E. rewrite !app_nil_r in E.
    rewrite !firstn_all2 in E; auto; rewrite ?repeat_length; lia. }
  subst l1. apply app_inv_head in E. injection E as <- _.
  pose proof (call_good true (to_call (List.length a) it) s1 W1) as G. rewrite B in G. destruct G as [S2 _].
  assert (W2 : wf s2) by (eapply steps_wf; eauto).
  pose proof (run_wf _ _ _ _ _ W2 C) as [Wz Ez]. exists s1, s2. auto 10.
Qed.

Lemma run_split h1 : forall h2 s z l, run true (h1 ++ h2) s = Some (z, l) ->
  exists s1 l1 l2, run true h1 s = Some (s1, l1) /\ run true h2 s1 = Some (z, l2) /\ l = l1 ++ l2.
Proof.
  induction h1 as [|c h1 IH]; intros h2 s z l H.
  - exists s, [], l. auto.
  - cbn [app] in H. apply run_cons in H as (s' & r & l' & E & -> & H & N1 & N2).
    apply IH in H as (s1 & l1 & l2 & A & B & ->).
    exists s1, (r :: l1), l2. split; auto. cbn [run]. rewrite E. destruct r; try congruence; now rewrite A.
Qed.
Lemma run_transforms ts : forall i s z, clk s = false ->
  run true (numbered i (map ITransform ts)) s = Some (z, repeat (Ret tt) (List.length ts)) -> cur z = fold_left tstep ts (cur s).
Proof.
  induction ts as [|c ts IH]; intros i s z C; cbn [map numbered run].
  - intros [= <-]. reflexivity.
  - cbn [to_call]. destruct (transform_succeeds true c s (fun _ => C)) as (s' & E & E1 & _).
    pose proof (call_clk (FrTransform c) s) as L. rewrite E in *. cbn [fold_left List.length repeat].
    destruct (run true (numbered (S i) (map ITransform ts)) s') as [[z' l']|] eqn:R; [|discriminate].
    intros [= <- ->]. rewrite <- E1. eapply IH; [exact L|exact R].
Qed.
Lemma run_clk h : forall s z n, clk s = false -> run true h s = Some (z, repeat (Ret tt) n) -> clk z = false.
Proof.
  induction h as [|c h IH]; intros s z n C; cbn [run]; [intros [= <-]; auto|].
  pose proof (call_clk c s) as L. destruct (run_call true c s) as [s' [[]|e| |]]; try discriminate.
  - destruct (run true h s') as [[z' l']|] eqn:R; [|discriminate]. intros [= <- E].
    destruct n; [discriminate|]. injection E as ->. eapply IH; eauto.
  - destruct (run true h s') as [[z' l']|] eqn:R; [|discriminate]. intros [= <- E]. destruct n; discriminate.
Qed.

Lemma object_name n m a e s s' o nd : wf s -> wf s' -> ext s s' -> run_call true (FrObject n m a e) s = (s', Ret tt) ->
  nth_error (heap s) o = None -> nth_error (heap s') o = Some nd -> nkind nd = KObject -> nname nd = n.
Proof.
  intros W W' X E O O' K. destruct (string_dec (nname nd) n) as [?|NE]; [assumption|exfalso].
  assert (A : absent (nname nd) s).
  { intros p x Hp Kp Np. destruct (ext_node _ _ X _ _ Hp) as (x' & Hp' & R).
    assert (p = o).
    { eapply keys_inj; [apply (wf_keys _ W')|exact Hp'|exact O'|]. unfold key. destruct R. congruence. }
    subst p. congruence. }
  pose proof (call_absent (FrObject n m a e) s (nname nd)) as B. rewrite E in B.
  apply (B ltac:(congruence) A o nd O' K). reflexivity.
Qed.

(** the order of the blocks matters *)
Lemma accel_needs_scene b t s s' : scn s = None -> run_call b (FrAccel t) s <> (s', Ret tt).
Proof.
  intros N. cbn [run_call]. unfold fr_accel, start_api. destruct b.
  - unfold bindM at 1. unfold bindM at 1, get_clk. destruct (clk s); [discriminate|]. unfold set_clk, bindM at 1, get_scn. cbn [scn]. rewrite N. discriminate.
  - unfold bindM, ret, get_scn. rewrite N. discriminate.
Qed.
Lemma emitter_needs_scene b n t x d s s' : wf s -> scn s = None -> run_call b (FrEmitter n t x d) s <> (s', Ret tt).
Proof.
  intros W N E. pose proof (call_no_scene b (FrEmitter n t x d) s ltac:(congruence) N) as N'. rewrite E in N'. cbn [fst] in N'.
  pose proof (call_good b (FrEmitter n t x d) s W) as G. rewrite E in G. destruct G as [ST [P _]].
  assert (W' : wf s') by (eapply steps_wf; eauto).
  destruct (P _ _ _ _ eq_refl) as (rs & D & _).
  pose proof (wf_scene _ W') as S. unfold scene_ok in S. rewrite N' in S.
  unfold def_of in D. destruct (lookup s' KEmitter n) as [p|] eqn:L; [|discriminate].
  destruct (lookup_hasn _ _ _ _ W' L) as (nd & H & K & _). rewrite H in D.
  eapply S. exists nd. eauto.
Qed.
Lemma second_scene b i sa ca m s s' : scn s <> None -> run_call b (FrScene i sa ca m) s <> (s', Ret tt).
Proof.
  intros N. cbn [run_call]. unfold fr_scene, start_api. destruct (scn s) as [x|] eqn:E; [|congruence]. destruct b.
  - unfold bindM at 1. unfold bindM at 1, get_clk. destruct (clk s); [discriminate|]. unfold set_clk, bindM at 1. cbn [scn]. rewrite E. discriminate.
  - unfold bindM at 1, ret. unfold bindM at 1. rewrite E. discriminate.
Qed.
Lemma exec_order l : forall have i s z, (forall it, In it l -> usable it) -> NoDup (keys l) -> ready have l s ->
  exec true i l s = (z, Ret tt) -> scene_order have l.
Proof.
  induction l as [|it l IH]; intros have i s z U N R E; cbn [exec] in E; [exact Logic.I|].
  assert (O : scene_order have [it]).
  { pose proof (r_scn _ _ _ R) as RS. pose proof (r_wf _ _ _ R) as RW.
    destruct (run_call true (to_call i it) s) as [s' [[]|e| |]] eqn:C; try discriminate E.
    destruct it as [| | | | | | | | | |n0 p|n0 p|n0 p|n0 p| |]; cbn [scene_order]; auto; split; auto; destruct have; auto; exfalso; cbn [to_call] in C.
    - eapply second_scene; eauto.
    - eapply accel_needs_scene; eauto.
    - eapply accel_needs_scene; eauto.
    - destruct p; eapply emitter_needs_scene; eauto. }
  destruct (one_call have it l i s) as (s' & E' & R'); auto; [apply U; now left|]. rewrite E' in E.
  assert (SO : scene_order (next have it) l).
  { eapply IH; eauto.
    - intros x I. apply U. now right.
    - unfold keys in N. cbn [flat_map] in N. destruct (block_key it); [|exact N]. now inversion N. }
  destruct it; cbn in *; tauto.
Qed.
Lemma order_all_inv l : forall have, scene_order have (all_calls l) -> scene_order have (map fst l).
Proof.
  induction l as [|[i ts] l IH]; intros have; [auto|]. unfold all_calls in *. cbn [flat_map map fst snd].
  assert (OT : forall ts l, scene_order have (map ITransform ts ++ l) -> scene_order have l) by (intros t0; induction t0; auto).
  unfold calls. destruct i; cbn [placed app]; cbn [scene_order]; intros O;
    try (apply IH; exact O); try (destruct O; split; auto; fail).
  - rewrite <- app_assoc in O. apply OT in O. cbn in O. now apply IH.
  - rewrite <- app_assoc in O. apply OT in O. cbn in O. destruct O; auto.
Qed.
