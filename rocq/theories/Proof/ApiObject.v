(** fr_object and whole histories. *)
From Coq Require Import String List Bool Arith Lia Relations.
From Verif.Model Require Import Vec Matrix ApiTransform Api.
From Verif.Spec Require Import ApiSpec.
From Verif.Proof Require Import ApiBase ApiCalls ApiRun.
Import ListNotations.
Open Scope list_scope.
Open Scope api_scope.

(** number of nodes whose name is at least [L] characters long *)
Definition cnt (h : list node) (L : nat) : nat :=
  length (filter (fun nd => Nat.leb L (String.length (nname nd))) h).

Lemma cnt_le h L L' : L <= L' -> cnt h L' <= cnt h L.
Proof.
  intros H. unfold cnt. induction h as [|a h IH]; simpl; auto.
  destruct (Nat.leb_spec L (String.length (nname a))),
    (Nat.leb_spec L' (String.length (nname a))); simpl; lia.
Qed.
Lemma cnt_lt h L L' nd : In nd h -> L <= String.length (nname nd) < L' ->
  cnt h L' < cnt h L.
Proof.
  intros I [H1 H2]. unfold cnt. induction h as [|a h IH]; simpl in *; [tauto|].
  destruct I as [->|I].
  - rewrite (proj2 (Nat.leb_le _ _) H1).
    destruct (Nat.leb_spec L' (String.length (nname nd))); [lia|].
    simpl. pose proof (cnt_le h L L' ltac:(lia)). unfold cnt in *. lia.
  - specialize (IH I).
    destruct (Nat.leb_spec L (String.length (nname a))),
      (Nat.leb_spec L' (String.length (nname a))); simpl; lia.
Qed.
Lemma cnt_len h L : cnt h L <= length h.
Proof. unfold cnt. induction h; simpl; auto. destruct (Nat.leb _ _); simpl; lia. Qed.

Lemma str_app_length a b : String.length (a ++ b)%string = String.length a + String.length b.
Proof. induction a; simpl; auto. Qed.

Lemma index_longer name i :
  String.length name < String.length (index_name name (Some i)).
Proof. simpl. rewrite str_app_length. simpl. lia. Qed.

Definition set_mesh (m : option ptr) (n : node) : node :=
  Node (nkind n) (nname n) (ndef n) (nobj n) m (omat n) (oemit n) (otrans n).

Lemma good_put (f : node -> node) p nd (g : unit -> M unit) s s0 Q :
  wf s -> steps s0 s -> nth_error (heap s) p = Some nd -> refine nd (f nd) ->
  node_ok s (f nd) -> ndef (f nd) = ndef nd ->
  (forall s', wf s' -> steps s0 s' -> ext s s' -> scn s' = scn s ->
     nth_error (heap s') p = Some (f nd) ->
     (forall q m, q <> p -> nth_error (heap s) q = Some m -> nth_error (heap s') q = Some m) ->
     good s0 Q (g tt s')) ->
  good s0 Q (bindM (modify p f) g s).
Proof.
  intros W S Hn R O D H. unfold modify, bindM. rewrite (upd_nth _ _ _ _ Hn).
  assert (ST : step s (put s p (f nd))) by (eapply St_put; eauto).
  apply H; auto.
  - eapply step_wf; eauto.
  - eapply rt_trans; [exact S|now apply rt_step].
  - now apply step_ext.
  - simpl. now rewrite nth_upd, Nat.eqb_refl, Hn.
  - intros q m NE Hq. simpl. rewrite nth_upd.
    destruct (Nat.eqb_spec p q); [congruence|auto].
Qed.

Section Config.
Variable clocking : bool.

Definition obj_post (c0 : nat) (t : transform) (mesh mat em : string) (s' : api) : Prop :=
  exists o nd, c0 <= o /\ nth_error (heap s') o = Some nd /\ nkind nd = KObject /\
    (exists m, omesh nd = Some m /\ hasn s' KMesh mesh m) /\
    (exists m, omat nd = Some m /\ hasn s' KMat mat m) /\ otrans nd = t /\
    (if String.eqb em "null" || String.eqb em "" then oemit nd = None
     else exists e, oemit nd = Some e /\ hasn s' KEmitter em e).

(** the first half of the body: create the object together with its mesh reference *)
Lemma new_object s name mesh : wf s -> lookup s KObject name = None ->
  exists s' o nd,
    (forall (g : M unit) (k : ptr -> M unit), (o <- find_plain KObject name;; n <- get o;;
     match omesh n with
     | Some _ => g
     | None =>
       t <- get_cur;;
       modify o (fun n => Node (nkind n) (nname n) (ndef n) (nobj n) (omesh n) (omat n)
                               (oemit n) t);;
       m <- find_plain KMesh mesh;;
       modify o (fun n => Node (nkind n) (nname n) (ndef n) (nobj n) (Some m) (omat n)
                               (oemit n) (otrans n));;
       k o
     end) s = k o s') /\
    o = length (heap s) /\ same s s' /\ nth_error (heap s') o = Some nd /\
    nkind nd = KObject /\ nname nd = name /\ ndef nd = None /\ nobj nd = None /\
    omat nd = None /\ oemit nd = None /\ otrans nd = cur s /\
    exists m, omesh nd = Some m /\ hasn s' KMesh mesh m.
Proof.
  intros W L. set (o := length (heap s)).
  assert (L2 : forall r, find (key_eqb KMesh mesh) (reg s ++ [(KObject, name, r)]) =
                         find (key_eqb KMesh mesh) (reg s)) by (intros; now apply find_snoc).
  assert (CP : forall (g : M unit) (k : ptr -> M unit),
    (o <- find_plain KObject name;; n <- get o;;
     match omesh n with
     | Some _ => g
     | None =>
       t <- get_cur;;
       modify o (fun n => Node (nkind n) (nname n) (ndef n) (nobj n) (omesh n) (omat n)
                               (oemit n) t);;
       m <- find_plain KMesh mesh;;
       modify o (fun n => Node (nkind n) (nname n) (ndef n) (nobj n) (Some m) (omat n)
                               (oemit n) (otrans n));;
       k o
     end) s =
    (m <- find_plain KMesh mesh;;
     modify o (fun n => Node (nkind n) (nname n) (ndef n) (nobj n) (Some m) (omat n)
                             (oemit n) (otrans n));; k o)
      (append s [Node KObject name None None None None None (cur s)])).
  { intros g k. unfold find_plain at 1, find_or. unfold bindM at 1. rewrite L.
    unfold alloc at 1. unfold bindM at 1. unfold ret at 1. unfold bindM at 1.
    unfold ret at 1. cbv zeta. unfold bindM at 1. unfold get at 1. cbn [heap].
    rewrite nth_error_app2, Nat.sub_diag by lia. cbn [nth_error omesh new_node].
    unfold get_cur at 1. unfold bindM at 1. unfold modify at 1. unfold bindM at 1.
    cbn [heap reg cur scn clk]. rewrite upd_last. reflexivity. }
  assert (LS : lookup (append s [Node KObject name None None None None None (cur s)]) KMesh mesh
               = lookup s KMesh mesh).
  { unfold lookup. simpl. now rewrite L2. }
  destruct (lookup s KMesh mesh) as [m|] eqn:LM.
  - assert (CQ : forall k : ptr -> M unit, (m <- find_plain KMesh mesh;;
      modify o (fun n => Node (nkind n) (nname n) (ndef n) (nobj n) (Some m) (omat n)
                             (oemit n) (otrans n));; k o)
      (append s [Node KObject name None None None None None (cur s)]) =
      k o (append s [Node KObject name None None (Some m) None None (cur s)])).
    { intros k. unfold find_plain, find_or. unfold bindM at 1. rewrite LS.
      unfold modify, bindM, append. cbn [heap reg cur scn clk]. unfold o.
      rewrite upd_last. reflexivity. }
    set (nd := Node KObject name None None (Some m) None None (cur s)).
    assert (HM : hasn (append s [nd]) KMesh mesh m).
    { apply (lookup_hasn _ _ _ _ W) in LM as (z & Hz & K). exists z.
      split; auto. now apply nth_append. }
    exists (append s [nd]), o, nd. split; [intros g k; rewrite CP; apply CQ|]. split; auto. split.
    { apply same_append; auto.
      - eapply alloc_keys; eauto; repeat constructor.
      - intros z [<-|[]]. split; simpl; try discriminate; eauto. exists mesh. exact HM.
      - intros z [<-|[]]. discriminate.
      - intros z [<-|[]]. reflexivity. }
    split; [unfold o; simpl; rewrite nth_error_app2, Nat.sub_diag by lia; reflexivity|].
    do 7 (split; [reflexivity|]). exists m. split; [reflexivity|exact HM].
  - set (m := S o).
    assert (CQ : forall k : ptr -> M unit, (m <- find_plain KMesh mesh;;
      modify o (fun n => Node (nkind n) (nname n) (ndef n) (nobj n) (Some m) (omat n)
                             (oemit n) (otrans n));; k o)
      (append s [Node KObject name None None None None None (cur s)]) =
      k o (append s [Node KObject name None None (Some m) None None (cur s);
                     new_node KMesh mesh])).
    { intros k. unfold find_plain, find_or. unfold bindM at 1. rewrite LS.
      unfold modify, alloc, ret, bindM, append. cbn [heap reg cur scn clk]. unfold o.
      rewrite <- app_assoc. cbn [app]. rewrite upd_last.
      cbn [nkind nname ndef nobj omesh omat oemit otrans reg_from].
      rewrite <- app_assoc. cbn [app].
      replace (length (heap s ++ _)) with m by (unfold m, o; rewrite app_length; simpl; lia).
      reflexivity. }
    assert (NB : m = S o) by reflexivity.
    set (nd := Node KObject name None None (Some m) None None (cur s)).
    set (mn := new_node KMesh mesh).
    assert (HM : hasn (append s [nd; mn]) KMesh mesh m).
    { exists mn. cbn [append heap]. rewrite nth_error_app2 by (unfold m, o; lia).
      rewrite NB. unfold o. replace (S (length (heap s)) - length (heap s)) with 1 by lia.
      auto. }
    exists (append s [nd; mn]), o, nd. split.
    { intros g k. rewrite CP. apply CQ. }
    split; auto. split.
    { apply same_append; auto.
      - replace [nd; mn] with ([nd] ++ [mn]) by reflexivity.
        rewrite app_assoc, map_app. apply NoDup_snoc.
        + apply (alloc_keys s KObject name); auto; repeat constructor.
        + rewrite map_app. simpl. intros Hin. apply in_app_or in Hin as [Hin|[Hin|[]]].
          * now apply (lookup_none _ _ _ W LM).
          * discriminate.
      - intros z [<-|[<-|[]]].
        + split; simpl; try discriminate; eauto. exists mesh. exact HM.
        + apply new_node_ok. apply plain_mesh.
      - intros z [<-|[<-|[]]]; discriminate.
      - intros z [<-|[<-|[]]]; reflexivity. }
    split; [unfold o; simpl; rewrite nth_error_app2, Nat.sub_diag by lia; reflexivity|].
    do 7 (split; [reflexivity|]). exists m. split; [reflexivity|exact HM].
Qed.

Lemma good_object_rec fuel : forall name mesh mat em idx s s0,
  wf s0 -> wf s -> steps s0 s -> cur s = cur s0 -> length (heap s0) <= length (heap s) ->
  cnt (heap s) (String.length (index_name name idx)) < fuel ->
  good s0 (obj_post (length (heap s0)) (cur s0) mesh mat em)
    (fr_object_rec clocking fuel name mesh mat em idx s).
Proof.
  induction fuel as [|fuel IH]; intros name mesh mat em idx s s0 W0 W S C0 LN F; [lia|].
  cbn [fr_object_rec]. apply good_start; auto.
  intros s1 W1 S1 Hh Hr Hc Hs Hk. cbv zeta.
  set (name' := index_name name idx) in *.
  destruct (lookup s1 KObject name') as [o|] eqn:L.
  - unfold find_plain, find_or. unfold bindM at 1. rewrite L.
    pose proof (lookup_hasn _ _ _ _ W1 L) as (nd & Hn & K & N).
    unfold get. unfold bindM at 1. rewrite Hn.
    destruct (ok_obj _ _ (wf_nodes _ W1 _ _ Hn) K) as (m & ->).
    apply IH; auto; try congruence.
    rewrite Hh in *.
    assert (cnt (heap s) (String.length (index_name name' (Some (next_index idx))))
            < cnt (heap s) (String.length name')).
    { apply (cnt_lt _ _ _ nd); [eapply nth_error_In; eauto|]. rewrite N. split; auto.
      apply index_longer. }
    lia.
  - destruct (new_object s1 name' mesh W1 L) as
      (s2 & o & nd & E & Eo & SM & Hn & K & N & D & NO & OM & OE & OT & m & Em & HM).
    rewrite E. clear E.
    assert (W2 : wf s2) by (eapply steps_wf; [apply SM|auto]).
    assert (HM' : fopt s2 KMesh mesh (Some m)) by exact HM.
    carry SM. fnd ma.
    assert (OK : node_ok s3 nd) by (eapply wf_nodes; eauto).
    destruct OK as [O1 O2 O3 O4 O5 O6 O7 O8 O9].
    eapply good_put; [assumption|assumption|eassumption|split; simpl; auto; congruence
      |split; simpl; auto; try congruence|reflexivity|].
    { exists mat. exact F0. }
    intros s4 W4 S4 E4 X4 Hn4 KP4. cbn beta in Hn4.
    set (nd4 := Node _ _ _ _ _ _ _ _) in Hn4.
    apply (fopt_ext _ _ _ _ _ E4) in F0. apply (fopt_ext _ _ _ _ _ E4) in HM'.
    assert (LO : length (heap s0) <= o) by (rewrite Eo, Hh; exact LN).
    destruct (negb (String.eqb em "null") && negb (String.eqb em "")) eqn:B.
    + rewrite bind_assoc. fnd e0. rewrite bind_assoc.
      destruct e0 as [e|]; [|exact I].
      change (bindM (nonnull (Some e)) ?f ?z) with (f e z). cbv beta.
      rewrite bind_assoc.
      pose proof F1 as (en & Hen & Ken & Nen).
      assert (NEo : e <> o).
      { intros ->. rewrite Hn4 in Hen. injection Hen as <-. simpl in Ken. congruence. }
      destruct (wf_nodes _ W5 _ _ Hen) as [P1 P2 P3 P4 P5 P6 P7 P8 P9].
      eapply good_put; [assumption|assumption|exact Hen|split; simpl; auto
        |split; simpl; auto|reflexivity|].
      { exists name', nd4. repeat split; auto. }
      intros s6 W6 S6 E6 X6 Hn6 KP6.
      pose proof (KP6 o _ (not_eq_sym NEo) Hn4) as Ho6.
      apply (fopt_ext _ _ _ _ _ E6) in F0. apply (fopt_ext _ _ _ _ _ E6) in HM'.
      apply (fopt_ext _ _ _ _ _ E6) in F1.
      destruct (wf_nodes _ W6 _ _ Ho6) as [P1' P2' P3' P4' P5' P6' P7' P8' P9'].
      eapply good_put; [assumption|assumption|exact Ho6|split; simpl; auto; congruence
        |split; simpl; auto|reflexivity|].
      { exists em. exact F1. }
      intros s7 W7 S7 E7 X7 Hn7 KP7.
      apply (fopt_ext _ _ _ _ _ E7) in F0. apply (fopt_ext _ _ _ _ _ E7) in HM'.
      apply (fopt_ext _ _ _ _ _ E7) in F1.
      apply good_stop; auto. intros s8 H8 _ _ _ _.
      apply (fopt_heap _ s8 _ _ _ H8) in F0. apply (fopt_heap _ s8 _ _ _ H8) in HM'.
      apply (fopt_heap _ s8 _ _ _ H8) in F1.
      exists o. eexists. rewrite H8. split; [exact LO|]. split; [exact Hn7|].
      simpl. split; [exact K|]. split; [exists m; split; [exact Em|exact HM']|].
      split; [exists ma; split; [reflexivity|exact F0]|].
      split; [congruence|].
      destruct (String.eqb em "null"), (String.eqb em ""); try discriminate.
      simpl. exists e. split; auto.
    + unfold ret. unfold bindM at 1.
      apply good_stop; auto. intros s8 H8 _ _ _ _.
      apply (fopt_heap _ s8 _ _ _ H8) in F0. apply (fopt_heap _ s8 _ _ _ H8) in HM'.
      exists o, nd4. rewrite H8. split; [exact LO|]. split; [exact Hn4|].
      simpl. split; [exact K|]. split; [exists m; split; [exact Em|exact HM']|].
      split; [exists ma; split; [reflexivity|exact F0]|].
      split; [congruence|].
      destruct (String.eqb em "null"), (String.eqb em ""); try discriminate; exact OE.
Qed.
End Config.
