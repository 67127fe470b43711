(** C31, C32, C77: discrete distributions and mesh lights. *)
From Coq Require Import Reals List ZArith Lia Lra.
From Verif.Base Require Import Outcome RSum RTac.
From Verif.Model Require Import Vec Warp DiscretePdf.
From Verif.Spec Require Import DiscreteSpec CameraSpec WarpSpec.
From Verif.Proof Require WarpProof.
From Verif.Proof Require Import DiscreteProof.
Import ListNotations.
Open Scope R_scope.

(** C31: create for n entries, set the n weights, convert *)
Theorem C31_converted_table w : weights_ok w ->
  exists c, bind (fill w) dpdf_convert = Ok c /\ nth 0 c 0 = 0 /\ last c 0 = 1 /\
    (forall i j, (i <= j < length c)%nat -> nth i c 0 <= nth j c 0) /\
    (forall i, (i < length w)%nat -> dpdf_pmf c i = nth i w 0 / rsum w).
Proof.
  intros W. destruct (convert_fill w W) as (c&E&L&N&Last). exists c. split; [exact E|].
  assert (A : forall i, (i < length c)%nat -> nth i c 0 = cum w i).
  { intros i Hi. destruct (Nat.le_gt_cases i (length w)); [auto|]. replace i with (length w + 1)%nat by lia.
    rewrite Last, cum_all by (auto; lia). reflexivity. }
  split; [rewrite N by lia; apply cum_0, W|]. split.
  - assert (H : last c 0 = nth (length c - 1) c 0).
    { clear. induction c as [|x [|y c] IH]; [reflexivity|reflexivity|]. change (last (x :: y :: c) 0) with (last (y :: c) 0). rewrite IH. simpl. rewrite Nat.sub_0_r. reflexivity. }
    rewrite H, A by lia. apply cum_all; [assumption|lia].
  - split.
    + intros i j Hij. rewrite !A by lia. apply cum_mono; [assumption|lia].
    + intros i Hi. unfold dpdf_pmf. rewrite !N by lia. replace (i + 1)%nat with (S i) by lia. apply cum_step; assumption.
Qed.
Print Assumptions C31_converted_table.
(** the table built from running sums (mesh lights) *)
Theorem C31_normalized_table w : weights_ok w ->
  nth 0 (mesh_cdf w) 0 = 0 /\ nth (length w) (mesh_cdf w) 0 = 1 /\ length (mesh_cdf w) = (length w + 1)%nat /\
  (forall i j, (i <= j <= length w)%nat -> nth i (mesh_cdf w) 0 <= nth j (mesh_cdf w) 0) /\
  (forall i, (i < length w)%nat -> dpdf_pmf (mesh_cdf w) i = nth i w 0 / rsum w).
Proof.
  intros W. rewrite !mesh_cdf_nth by (auto; lia). split; [apply cum_0, W|]. split; [apply cum_all; auto|].
  split; [apply mesh_cdf_length|]. split.
  - intros i j H. rewrite !mesh_cdf_nth by (auto; lia). apply cum_mono; [assumption|lia].
  - intros i H. unfold dpdf_pmf. rewrite !mesh_cdf_nth by (auto; lia). replace (i + 1)%nat with (S i) by lia. apply cum_step; assumption.
Qed.
Print Assumptions C31_normalized_table.
Example C31_case : weights_ok [1; 0; 3].
Proof. split; [intros x [<-|[<-|[<-|[]]]]; lra|]. rewrite !rsum_cons, rsum_nil. lra. Qed.

(** C32: sampling returns the cdf value at the found entry instead of the entry *)
Theorem C32_sample_refuted : exists w c v, weights_ok w /\ bind (fill w) dpdf_convert = Ok c /\ 0 < v <= 1 /\
  selects w v 1 /\ dpdf_sample c v = 0%Z.
Proof.
  assert (W : weights_ok [1; 1]). { split; [intros x [<-|[<-|[]]]; lra|]. rewrite !rsum_cons, rsum_nil. lra. }
  destruct (convert_fill _ W) as (c&E&L&N&Last). exists [1; 1], c, (3/4). split; [exact W|]. split; [exact E|]. split; [lra|].
  split.
  - split; [simpl; lia|]. unfold cum; simpl. rewrite !rsum_cons, !rsum_nil. lra.
  - apply sample_zero; [|intros x Hx|lra].
    + pose proof (N 0%nat ltac:(simpl; lia)) as N0. rewrite cum_0 in N0 by exact W. destruct c; simpl in *; exact N0.
    + apply (In_nth _ _ 0) in Hx. destruct Hx as [i [Hi <-]]. destruct (Nat.le_gt_cases i 2).
      * rewrite N by (simpl; lia). rewrite <- (cum_0 _ W). apply cum_mono; [exact W|lia].
      * simpl in L. simpl in Last. replace i with 3%nat by lia. rewrite Last. lra.
Qed.
Print Assumptions C32_sample_refuted.
(** exact behaviour: every value up to 1 selects entry 0, whatever the weights *)
Theorem C32_sample_is_always_entry_zero c v : hd 0 c = 0 -> (forall x, In x c -> 0 <= x) -> v <= 1 ->
  dpdf_sample c v = 0%Z.
Proof. exact (sample_zero c v). Qed.
Print Assumptions C32_sample_is_always_entry_zero.
(** the loop does find the right entry; returning the loop index minus one would be correct *)
Theorem C32_loop_finds_the_entry w c v : weights_ok w -> bind (fill w) dpdf_convert = Ok c -> 0 < v <= 1 ->
  forall i, selects w v i <-> i = (scan c v - 1)%nat.
Proof.
  intros W E V i. destruct (convert_fill w W) as (c'&E'&L&N&_). rewrite E in E'. injection E' as <-.
  pose proof (scan_selects w c v W (or_introl L) N V) as S. split; [|intros ->; exact S].
  intros H. exact (selects_unique w v i _ W H S).
Qed.
Print Assumptions C32_loop_finds_the_entry.
Example C32_case : selects [1; 0; 3] (1/2) 2 /\ selects [1; 0; 3] (1/4) 0.
Proof. unfold selects, cum; simpl. rewrite !rsum_cons, !rsum_nil. split; (split; [lia|lra]). Qed.

(** C77: mesh lights sample only their first triangle *)
Theorem C77_only_first_triangle w s : weights_ok w -> in_unit_square s ->
  exists uv pdf, mesh_sample w s = Ok (0%Z, uv, pdf).
Proof. intros W [[_ S] _]. rewrite (mesh_sample_zero w s W S). eauto. Qed.
Print Assumptions C77_only_first_triangle.
Theorem C77_area_sampling_refuted : exists w s, weights_ok w /\ in_unit_square s /\
  selects w (x2 s) 1 /\ exists uv pdf, mesh_sample w s = Ok (0%Z, uv, pdf).
Proof.
  assert (W : weights_ok [1; 1]). { split; [intros x [<-|[<-|[]]]; lra|]. rewrite !rsum_cons, rsum_nil. lra. }
  assert (S : in_unit_square (V2 (3/4) (1/2))) by (unfold in_unit_square; simpl; lra).
  exists [1; 1], (V2 (3/4) (1/2)). split; [exact W|]. split; [exact S|]. split; [|exact (C77_only_first_triangle _ _ W S)].
  split; [simpl; lia|]. unfold cum; simpl. rewrite !rsum_cons, !rsum_nil. lra.
Qed.
Print Assumptions C77_area_sampling_refuted.
(** and every sample value beyond the first triangle's share gives a point outside the triangle *)
Theorem C77_point_outside_iff w s uv pdf : weights_ok w -> in_unit_square s -> 0 < nth 0 w 0 ->
  mesh_sample w s = Ok (0%Z, uv, pdf) -> (x2 s > cum w 1 <-> ~ in_triangle uv).
Proof.
  intros W S A E. pose proof S as [[S1 S2] _]. rewrite (mesh_sample_zero w s W S2) in E. injection E as <- _.
  assert (C : 0 < cum w 1).
  { pose proof (weights_nonempty w W) as NE. assert (L : (0 < length w)%nat) by (destruct w; [congruence|simpl; lia]).
    pose proof (cum_step w 0 W L) as K. rewrite cum_0 in K by assumption. destruct W as [_ W].
    assert (0 < nth 0 w 0 / rsum w) by (apply Rdiv_lt_0_compat; lra). lra. }
  split.
  - intros G H. destruct H as [H _]. simpl in H. assert (1 < x2 s / cum w 1) by (apply Rlt_div_iff; lra).
    assert (1 < sqrt (x2 s / cum w 1)) by (rewrite <- sqrt_1; apply sqrt_lt_1_alt; lra). lra.
  - intros H. apply Rnot_le_gt. intros G. apply H. apply WarpProof.tri_domain. split; simpl.
    + split; [apply Rle_div_iff; lra|apply Rdiv_le_iff; lra].
    + apply S.
Qed.
Print Assumptions C77_point_outside_iff.
Example C77_case : weights_ok [2; 1] /\ cum [2; 1] 1 = 2/3.
Proof.
  split; [split; [intros x [<-|[<-|[]]]; lra|rewrite !rsum_cons, rsum_nil; lra]|].
  unfold cum; simpl. rewrite !rsum_cons, !rsum_nil. lra.
Qed.
