(** Boxes: expansion, slab test, splitting. *)
From Coq Require Import Reals List Bool Lra Lia Psatz Permutation.
From Coquelicot Require Import Rbar.
From Verif.Base Require Import RTac.
From Verif.Model Require Import Vec BBox.
From Verif.Spec Require Import BBoxSpec.
From Verif.Proof Require Import VecLemmas.
Import ListNotations.
Open Scope R_scope.

(** ** minimum and maximum of extended reals *)
Lemma emin1_glb a b c : Rbar_le c (emin1 a b) <-> Rbar_le c a /\ Rbar_le c b.
Proof.
  unfold emin1. destruct (Rbar_lt_dec a b) as [L|L].
  - split; [intros H; split; [assumption|]|tauto]. eapply Rbar_le_trans; [exact H|apply Rbar_lt_le, L].
  - apply Rbar_not_lt_le in L. split; [intros H; split; [|assumption]|tauto]. eapply Rbar_le_trans; eassumption.
Qed.
Lemma emax1_lub a b c : Rbar_le (emax1 a b) c <-> Rbar_le a c /\ Rbar_le b c.
Proof.
  unfold emax1. destruct (Rbar_lt_dec b a) as [L|L].
  - split; [intros H; split; [assumption|]|tauto]. eapply Rbar_le_trans; [apply Rbar_lt_le, L|exact H].
  - apply Rbar_not_lt_le in L. split; [intros H; split; [|assumption]|tauto]. eapply Rbar_le_trans; eassumption.
Qed.
Lemma emin1_l a b : Rbar_le (emin1 a b) a. Proof. apply (emin1_glb a b (emin1 a b)), Rbar_le_refl. Qed.
Lemma emin1_r a b : Rbar_le (emin1 a b) b. Proof. apply (emin1_glb a b (emin1 a b)), Rbar_le_refl. Qed.
Lemma emax1_l a b : Rbar_le a (emax1 a b). Proof. apply (emax1_lub a b (emax1 a b)), Rbar_le_refl. Qed.
Lemma emax1_r a b : Rbar_le b (emax1 a b). Proof. apply (emax1_lub a b (emax1 a b)), Rbar_le_refl. Qed.

(** ** expansion and merging *)
Lemma within_refl b : within b b.
Proof. unfold within; repeat split; apply Rbar_le_refl. Qed.
Lemma within_trans a b c : within a b -> within b c -> within a c.
Proof. unfold within. intros (A1&A2&A3&A4&A5&A6) (B1&B2&B3&B4&B5&B6). repeat split; eapply Rbar_le_trans; eassumption. Qed.
Lemma in_within b c p : in_ebox b p -> within b c -> in_ebox c p.
Proof. unfold within, in_ebox. intros (A1&A2&A3&A4&A5&A6) (B1&B2&B3&B4&B5&B6). repeat split; eapply Rbar_le_trans; eassumption. Qed.
Lemma within_antisym a b : within a b -> within b a -> a = b.
Proof.
  destruct a as [[a1 a2 a3] [a4 a5 a6]], b as [[b1 b2 b3] [b4 b5 b6]]. unfold within; simpl.
  intros (A1&A2&A3&A4&A5&A6) (B1&B2&B3&B4&B5&B6).
  f_equal; f_equal; apply Rbar_le_antisym; assumption.
Qed.
Lemma merge_lub a b c : within (ebox_merge a b) c <-> within a c /\ within b c.
Proof.
  unfold within, ebox_merge, emin, emax; simpl. rewrite !emin1_glb, !emax1_lub. tauto.
Qed.
Lemma expand_lub b p c : within (ebox_expand b p) c <-> within b c /\ in_ebox c p.
Proof.
  unfold within, in_ebox, ebox_expand, emin, emax, ev; simpl. rewrite !emin1_glb, !emax1_lub. tauto.
Qed.
Lemma smallest_reset : smallest (fun _ => False) ebox_reset.
Proof. split; [intros p []|]. intros c _. unfold within, ebox_reset; simpl. repeat split; try (destruct (ex _)); try (destruct (ey _)); try (destruct (ez _)); simpl; auto. Qed.
Lemma smallest_expand S b p : smallest S b -> smallest (fun q => S q \/ q = p) (ebox_expand b p).
Proof.
  intros [H1 H2]. assert (W := proj1 (expand_lub b p (ebox_expand b p)) (within_refl _)). split.
  - intros q [Hq| ->]; [|apply W]. eapply in_within; [apply H1, Hq|apply W].
  - intros c Hc. apply expand_lub. split; [apply H2; intros q Hq; apply Hc; auto|apply Hc; auto].
Qed.
Lemma smallest_merge S T a b : smallest S a -> smallest T b -> smallest (fun q => S q \/ T q) (ebox_merge a b).
Proof.
  intros [A1 A2] [B1 B2]. assert (W := proj1 (merge_lub a b (ebox_merge a b)) (within_refl _)). split.
  - intros q [Hq|Hq]; [eapply in_within; [apply A1, Hq|apply W]|eapply in_within; [apply B1, Hq|apply W]].
  - intros c Hc. apply merge_lub. split; [apply A2|apply B2]; intros q Hq; apply Hc; auto.
Qed.
Lemma smallest_ext S T b : (forall p, S p <-> T p) -> smallest S b -> smallest T b.
Proof. intros E [H1 H2]. split; [intros p Hp; apply H1, E, Hp|intros c Hc; apply H2; intros p Hp; apply Hc, E, Hp]. Qed.
Lemma smallest_fold ps : forall S b, smallest S b ->
  smallest (fun q => S q \/ In q ps) (fold_left ebox_expand ps b).
Proof.
  induction ps as [|p ps IH]; intros S b H; simpl.
  - eapply smallest_ext; [|exact H]. tauto.
  - eapply smallest_ext; [|apply IH, smallest_expand, H]. intros q; simpl. split; intuition.
Qed.
Lemma smallest_unique S a b : smallest S a -> smallest S b -> a = b.
Proof. intros [A1 A2] [B1 B2]. apply within_antisym; [apply A2, B1|apply B2, A1]. Qed.

(** ** slab test *)
Definition in_slab (o d mn mx t : R) : Prop := mn <= o + d * t <= mx.
Lemma slab_step_spec o mn mx d near far : mn <= mx ->
  match slab_step o mn mx d (near, far) with
  | None => forall t : R, Rbar_le near t -> Rbar_le t far -> ~ in_slab o d mn mx t
  | Some (n, f) => (Rbar_le near far -> Rbar_le n f) /\
     forall t : R, (Rbar_le n t /\ Rbar_le t f) <-> ((Rbar_le near t /\ Rbar_le t far) /\ in_slab o d mn mx t)
  end.
Proof.
  intros Hm. unfold slab_step, in_slab. destruct (Req_EM_T d 0) as [->|Nd].
  - destruct (Rlt_dec o mn); [intros t _ _; lra|]. destruct (Rgt_dec o mx); [intros t _ _; lra|]. rnorm.
    split; [auto|]. intros t. split; [|tauto]. intros H. split; [exact H|lra].
  - assert (K : forall t, mn <= o + d * t <= mx <->
       Rmin ((mn - o) * (1 / d)) ((mx - o) * (1 / d)) <= t <= Rmax ((mn - o) * (1 / d)) ((mx - o) * (1 / d))).
    { intros t. assert (E : forall x, (x - o) * (1 / d) = (x - o) / d) by (intros; field; assumption). rewrite !E.
      destruct (Rlt_le_dec 0 d) as [P|P].

      - assert (L : (mn - o) / d <= (mx - o) / d) by (apply Rmult_le_compat_r; [left; apply Rinv_0_lt_compat, P|lra]).
        rewrite Rmin_left, Rmax_right by assumption. rewrite Rdiv_le_iff, Rle_div_iff by assumption. lra.
      - assert (P' : 0 < - d) by (destruct P; [lra|contradiction]).
        assert (F : forall x, (x - o) / d = (o - x) / (- d)) by (intros; field; lra). rewrite !F.
        assert (L : (o - mx) / - d <= (o - mn) / - d) by (apply Rmult_le_compat_r; [left; apply Rinv_0_lt_compat, P'|lra]).
        rewrite Rmin_right, Rmax_left by assumption. rewrite Rdiv_le_iff, Rle_div_iff by assumption. lra. }
    set (a := (mn - o) * (1 / d)) in *. set (b := (mx - o) * (1 / d)) in *.
    assert (Sw : (if Rgt_dec a b then (b, a) else (a, b)) = (Rmin a b, Rmax a b)).
    { destruct (Rgt_dec a b); rnorm; [rewrite Rmin_right, Rmax_left by lra|rewrite Rmin_left, Rmax_right by lra]; reflexivity. }
    rewrite Sw. cbn [fst snd].
    set (n := emax1 (Finite (Rmin a b)) near). set (f := emin1 (Finite (Rmax a b)) far).
    assert (T : forall t : R, (Rbar_le n t /\ Rbar_le t f) <-> ((Rbar_le near t /\ Rbar_le t far) /\ mn <= o + d * t <= mx)).
    { intros t. unfold n, f. rewrite emax1_lub, emin1_glb, K. simpl. tauto. }
    destruct (Rbar_le_dec n f) as [L|L].
    + split; [auto|exact T].
    + intros t H1 H2 H3. apply L. destruct (proj2 (T t)) as [A B]; [auto|]. eapply Rbar_le_trans; eassumption.
Qed.

Lemma ray_at_in b r t : in_box b (ray_at r t) <->
  in_slab (vx (org r)) (vx (dir r)) (vx (bmn b)) (vx (bmx b)) t /\
  in_slab (vy (org r)) (vy (dir r)) (vy (bmn b)) (vy (bmx b)) t /\
  in_slab (vz (org r)) (vz (dir r)) (vz (bmn b)) (vz (bmx b)) t.
Proof. unfold in_box, in_slab, ray_at; simpl. tauto. Qed.

Lemma slab_spec b r : proper_box b ->
  match bb_slab b r with
  | None => forall t, ~ in_box b (ray_at r t)
  | Some (n, f) => Rbar_le n f /\ forall t : R, (Rbar_le n t /\ Rbar_le t f) <-> in_box b (ray_at r t)
  end.
Proof.
  intros (Px&Py&Pz). unfold bb_slab.
  pose proof (slab_step_spec (vx (org r)) _ _ (vx (dir r)) m_infty p_infty Px) as X.
  destruct (slab_step (vx (org r)) (vx (bmn b)) (vx (bmx b)) (vx (dir r)) (m_infty, p_infty)) as [[n1 f1]|].
  2:{ intros t H. apply ray_at_in in H. apply (X t); [exact I|exact I|apply H]. }
  destruct X as [X0 X1].
  pose proof (slab_step_spec (vy (org r)) _ _ (vy (dir r)) n1 f1 Py) as Y.
  destruct (slab_step (vy (org r)) (vy (bmn b)) (vy (bmx b)) (vy (dir r)) (n1, f1)) as [[n2 f2]|].
  2:{ intros t H. apply ray_at_in in H. destruct (proj2 (X1 t)) as [A B]; [split; [split; exact I|apply H]|]. apply (Y t); [exact A|exact B|apply H]. }
  destruct Y as [Y0 Y1].
  pose proof (slab_step_spec (vz (org r)) _ _ (vz (dir r)) n2 f2 Pz) as Z.
  destruct (slab_step (vz (org r)) (vz (bmn b)) (vz (bmx b)) (vz (dir r)) (n2, f2)) as [[n3 f3]|].
  2:{ intros t H. apply ray_at_in in H. destruct (proj2 (Y1 t)) as [A B]; [|apply (Z t); [exact A|exact B|apply H]].
      split; [|apply H]. apply (proj2 (X1 t)). split; [split; exact I|apply H]. }
  destruct Z as [Z0 Z1]. split; [apply Z0, Y0, X0; exact I|].
  intros t. rewrite ray_at_in, Z1, Y1, X1. cbn [Rbar_le]. tauto.
Qed.

(** an extended interval containing more than one infinity contains a real *)
Lemma interval_meet (n f : Rbar) (a : R) (b : Rbar) : Rbar_le n f -> n <> p_infty -> f <> m_infty -> Rbar_le a b ->
  (exists t : R, (Rbar_le n t /\ Rbar_le t f) /\ (Rbar_le a t /\ Rbar_le t b)) <-> (Rbar_le a f /\ Rbar_le n b).
Proof.
  intros L N F B. split.
  - intros [t [[H1 H2] [H3 H4]]]. split; eapply Rbar_le_trans; eassumption.
  - intros [H1 H2]. destruct n as [n| |]; [|contradiction|].
    + exists (Rmax n a). simpl. split; split.
      * apply Rmax_l.
      * destruct f; simpl in *; auto. apply Rmax_lub; assumption.
      * apply Rmax_r.
      * destruct b; simpl in *; auto. apply Rmax_lub; assumption.
    + exists a. simpl. auto using Rle_refl.
Qed.

Lemma slab_step_finite o mn mx d near far n f : near <> p_infty -> far <> m_infty ->
  slab_step o mn mx d (near, far) = Some (n, f) -> n <> p_infty /\ f <> m_infty.
Proof.
  intros N F. unfold slab_step. destruct (Req_EM_T d 0).
  - destruct (Rlt_dec o mn); [discriminate|]. destruct (Rgt_dec o mx); [discriminate|]. intros E; injection E as <- <-. auto.
  - destruct (if Rgt_dec _ _ then _ else _) as [t1 t2]. cbn [fst snd].
    destruct (Rbar_le_dec _ _); [|discriminate]. intros E. injection E as <- <-.
    unfold emax1, emin1. split; [destruct (Rbar_lt_dec near t1)|destruct (Rbar_lt_dec t2 far)]; (assumption || discriminate).
Qed.
Lemma slab_finite b r n f : bb_slab b r = Some (n, f) -> n <> p_infty /\ f <> m_infty.
Proof.
  unfold bb_slab.
  destruct (slab_step (vx (org r)) _ _ _ _) as [[n1 f1]|] eqn:E1; [|discriminate].
  destruct (slab_step (vy (org r)) _ _ _ _) as [[n2 f2]|] eqn:E2; [|discriminate]. intros E3.
  apply slab_step_finite in E1; [|discriminate|discriminate]. apply slab_step_finite in E2; [|tauto|tauto].
  apply slab_step_finite in E3; tauto.
Qed.

Lemma intersect_iff b r (a : R) : proper_box b -> rnear r = a -> Rbar_le a (rfar r) ->
  bb_intersect b r = true <-> exists t : R, (Rbar_le a t /\ Rbar_le t (rfar r)) /\ in_box b (ray_at r t).
Proof.
  intros P E L. pose proof (slab_spec b r P) as S. pose proof (slab_finite b r) as Fi. unfold bb_intersect.
  destruct (bb_slab b r) as [[n f]|].
  - destruct S as [S0 S1]. destruct (Fi n f eq_refl) as [N F]. rewrite E.
    pose proof (interval_meet n f a (rfar r) S0 N F L) as M.
    assert (Q : (exists t : R, (Rbar_le a t /\ Rbar_le t (rfar r)) /\ in_box b (ray_at r t)) <-> Rbar_le a f /\ Rbar_le n (rfar r)).
    { rewrite <- M. split; intros [t Ht]; exists t; [rewrite S1; tauto|rewrite <- S1; tauto]. }
    rewrite Q. destruct (Rbar_le_dec a f), (Rbar_le_dec n (rfar r)); simpl; split; intros; try discriminate; tauto.
  - split; [discriminate|]. intros [t [_ H]]. elim (S t H).
Qed.

(** ** splitting *)
Ltac pick b k := exists (nth k (split_into_eight b) b); split;
  [apply nth_In; simpl; lia|unfold in_box; simpl; lra].
Lemma split_cover b p : in_box b p -> exists c, In c (split_into_eight b) /\ in_box c p.
Proof.
  intros ((X1&X2)&(Y1&Y2)&(Z1&Z2)).
  destruct (Rle_lt_dec (vx p) ((vx (bmx b) - vx (bmn b)) / 2 + vx (bmn b)));
  destruct (Rle_lt_dec (vy p) ((vy (bmx b) - vy (bmn b)) / 2 + vy (bmn b)));
  destruct (Rle_lt_dec (vz p) ((vz (bmx b) - vz (bmn b)) / 2 + vz (bmn b)));
  first [pick b 0%nat|pick b 1%nat|pick b 2%nat|pick b 3%nat|pick b 4%nat|pick b 5%nat|pick b 6%nat|pick b 7%nat].
Qed.
Lemma split_inside b c p : proper_box b -> In c (split_into_eight b) -> in_box c p -> in_box b p.
Proof.
  intros (X&Y&Z) H. unfold split_into_eight, bb_extents in H. simpl in H.
  repeat (destruct H as [<-|H]); [..|destruct H]; unfold in_box; simpl; lra.
Qed.
Lemma split_proper b c : proper_box b -> In c (split_into_eight b) -> proper_box c.
Proof.
  intros (X&Y&Z) H. unfold split_into_eight, bb_extents in H. simpl in H.
  repeat (destruct H as [<-|H]); [..|destruct H]; unfold proper_box; simpl; lra.
Qed.
Lemma split_disjoint b i j p : (i < 8)%nat -> (j < 8)%nat -> i <> j ->
  inside_box (nth i (split_into_eight b) b) p -> ~ inside_box (nth j (split_into_eight b) b) p.
Proof.
  intros Hi Hj N.
  do 8 (destruct i as [|i]; [do 8 (destruct j as [|j]; [first [lia|unfold inside_box; simpl; lra]|]); lia|]). lia.
Qed.
Lemma split_volume b : fold_right Rplus 0 (map box_volume (split_into_eight b)) = box_volume b.
Proof. unfold split_into_eight, box_volume, bb_extents; simpl. field. Qed.
Lemma split_length b : length (split_into_eight b) = 8%nat.
Proof. reflexivity. Qed.

(** ** overlap and sampling helpers *)
Lemma overlaps_is_cover b c : proper_box b -> (bb_overlaps b c <-> forall p, in_box b p -> in_box c p).
Proof.
  intros (X&Y&Z). unfold bb_overlaps, vle, vge. split.
  - intros ((A1&A2&A3)&(B1&B2&B3)) p ((C1&C2)&(D1&D2)&(E1&E2)). unfold in_box. lra.
  - intros H.
    pose proof (H (bmn b)) as H1. pose proof (H (bmx b)) as H2. unfold in_box in H1, H2.
    assert (Q1 := H1 ltac:(lra)). assert (Q2 := H2 ltac:(lra)). lra.
Qed.
Lemma sample_offset b s : vadd (bb_sample b s) (bmn b) = bmn b <-> bb_sample b s = V3 0 0 0.
Proof. destruct b as [[? ? ?] [? ? ?]], s. unfold vadd, bb_sample; simpl. split; intros E; injection E; intros; apply V3_eq; simpl in *; lra. Qed.
Lemma local_sample b p : vx (bmn b) < vx (bmx b) -> vy (bmn b) < vy (bmx b) -> vz (bmn b) < vz (bmx b) ->
  vadd (bb_sample b (bb_local b p)) (bmn b) = p.
Proof. intros. destruct p. apply V3_eq; simpl; field; lra. Qed.
