(** Discrete distributions. *)
From Coq Require Import Reals List ZArith Lia Lra Psatz.
From Flocq Require Import Core.Raux.
From Verif.Base Require Import Outcome ListLemmas RSum RTac.
From Verif.Model Require Import Vec Warp DiscretePdf.
From Verif.Spec Require Import DiscreteSpec WarpSpec.
Import ListNotations.
Open Scope R_scope.

Lemma fold_left_rsum l a : fold_left Rplus l a = a + rsum l.
Proof. revert a; induction l as [|x l IH]; intros a; simpl; [rewrite rsum_nil; ring|]. rewrite IH, rsum_cons. ring. Qed.
Lemma totals_total pdf : forall t, snd (totals t pdf) = t + rsum pdf.
Proof.
  induction pdf as [|p l IH]; intros t; simpl; [rewrite rsum_nil; ring|]. specialize (IH (t + p)).
  destruct (totals (t + p) l); simpl in *. rewrite IH, rsum_cons. ring.
Qed.
Lemma totals_length pdf : forall t, length (fst (totals t pdf)) = length pdf.
Proof. induction pdf as [|p l IH]; intros t; simpl; [reflexivity|]. specialize (IH (t + p)). destruct (totals (t + p) l); simpl in *. lia. Qed.
Lemma totals_nth pdf : forall t i, (i < length pdf)%nat -> nth i (fst (totals t pdf)) 0 = t + rsum (firstn i pdf).
Proof.
  induction pdf as [|p l IH]; intros t i Hi; simpl in Hi; [lia|]. simpl. specialize (IH (t + p)).
  destruct (totals (t + p) l) as [c tt]; simpl in *. destruct i as [|i]; simpl; [rewrite rsum_nil; ring|].
  rewrite IH by lia. rewrite rsum_cons. ring.
Qed.
Lemma rsum_map_div l s : rsum (map (fun x => x / s) l) = rsum l / s.
Proof. induction l as [|a l IH]; simpl; [rewrite rsum_nil; unfold Rdiv; ring|]. rewrite !rsum_cons, IH. unfold Rdiv. ring. Qed.
Lemma rsum_snoc0 l : rsum (l ++ [0]) = rsum l.
Proof. rewrite rsum_app, rsum_cons, rsum_nil. ring. Qed.

(** filling the entries one after the other *)
Lemma update_fill (w rest : list R) : forall i x, (i < length rest)%nat ->
  update (w ++ rest) (length w + i) x = w ++ update rest i x.
Proof. induction w as [|a w IH]; intros i x H; simpl; [reflexivity|]. rewrite IH by assumption. reflexivity. Qed.
Definition fill (w : list R) : outcome (list R) :=
  foldM (fun c ix => dpdf_set c (fst ix) (snd ix)) (combine (seq 0 (length w)) w) (dpdf_new (length w)).
Lemma fill_from w : forall pre k,
  foldM (fun c ix => dpdf_set c (fst ix) (snd ix)) (combine (seq (length pre) (length w)) w) (pre ++ repeat 0 (length w + k)) =
  Ok (pre ++ w ++ repeat 0 k).
Proof.
  induction w as [|a w IH]; intros pre k; simpl; [reflexivity|].
  unfold dpdf_set at 1, store; simpl. rewrite app_length; simpl. rewrite repeat_length.
  replace (Nat.ltb (length pre) (length pre + S (length w + k))) with true by (symmetry; apply Nat.ltb_lt; lia).
  simpl. replace (length pre) with (length pre + 0)%nat at 2 by lia. rewrite update_fill by (simpl; lia). simpl.
  specialize (IH (pre ++ [a]) k). rewrite app_length in IH; simpl in IH.
  replace (length pre + 1)%nat with (S (length pre)) in IH by lia.
  rewrite <- !app_assoc in IH. simpl in IH. exact IH.
Qed.
Lemma fill_ok w : fill w = Ok (w ++ [0]).
Proof. unfold fill, dpdf_new. exact (fill_from w [] 1). Qed.

(** the converted table: cumulative probabilities, followed by one superfluous entry *)
Lemma convert_fill w : weights_ok w ->
  exists c, bind (fill w) dpdf_convert = Ok c /\ length c = (length w + 2)%nat /\
    (forall i, (i <= length w)%nat -> nth i c 0 = cum w i) /\ nth (length w + 1) c 0 = 1.
Proof.
  intros [P S]. rewrite fill_ok. simpl. unfold dpdf_convert. rewrite fold_left_rsum, rsum_snoc0, Rplus_0_l.
  set (q := map (fun x => x / rsum w) (w ++ [0])). assert (LQ : length q = (length w + 1)%nat) by (unfold q; rewrite map_length, app_length; reflexivity).
  assert (SQ : rsum q = 1) by (unfold q; rewrite rsum_map_div, rsum_snoc0; field; lra).
  pose proof (totals_total q 0) as T. pose proof (totals_length q 0) as L. pose proof (fun i => totals_nth q 0 i) as N.
  destruct (totals 0 q) as [c tt]; simpl in *.
  assert (TT : tt = 1) by lra. rewrite TT. replace (1 - 1) with 0 by ring. rewrite Rabs_R0. destruct (Rlt_dec 0 (1/1000)); [|lra].
  exists (c ++ [1]). split; [reflexivity|]. split; [rewrite app_length; simpl; lia|]. split.
  - intros i Hi. rewrite app_nth1 by lia. rewrite N by lia. unfold q, cum. rewrite firstn_map, rsum_map_div.
    rewrite firstn_app. replace (i - length w)%nat with 0%nat by lia. simpl. rewrite app_nil_r. ring.
  - rewrite app_nth2 by lia. replace (length w + 1 - length c)%nat with 0%nat by lia. reflexivity.
Qed.

Lemma rsum_firstn_S w i : (i < length w)%nat -> rsum (firstn (S i) w) = rsum (firstn i w) + nth i w 0.
Proof.
  revert i; induction w as [|a w IH]; intros i Hi; simpl in Hi; [lia|]. destruct i as [|i].
  - simpl. rewrite rsum_cons, rsum_nil. ring.
  - change (firstn (S (S i)) (a :: w)) with (a :: firstn (S i) w). change (firstn (S i) (a :: w)) with (a :: firstn i w).
    rewrite !rsum_cons, IH by lia. simpl. ring.
Qed.
Lemma cum_step w i : weights_ok w -> (i < length w)%nat -> cum w (S i) - cum w i = nth i w 0 / rsum w.
Proof. intros [_ S] Hi. unfold cum. rewrite rsum_firstn_S by assumption. field. lra. Qed.
Lemma cum_0 w : weights_ok w -> cum w 0 = 0.
Proof. intros _. unfold cum; simpl. rewrite rsum_nil. unfold Rdiv; ring. Qed.
Lemma cum_all w i : weights_ok w -> (length w <= i)%nat -> cum w i = 1.
Proof. intros [_ S] H. unfold cum. rewrite firstn_all2 by assumption. field. lra. Qed.
Lemma cum_mono w i j : weights_ok w -> (i <= j)%nat -> cum w i <= cum w j.
Proof.
  intros W H. induction H as [|j H IH]; [lra|]. destruct (Nat.lt_ge_cases j (length w)) as [L|L].
  - pose proof (cum_step w j W L). destruct W as [P S].
    assert (0 <= nth j w 0) by (apply P, nth_In, L).
    assert (0 <= nth j w 0 / rsum w) by (apply Rle_div_iff; lra). lra.
  - rewrite (cum_all w j) in IH by (auto; lia). rewrite (cum_all w (S j)) by (auto; lia). exact IH.
Qed.

(** the scan stops at the first entry that reaches the value (or the last entry) *)
Lemma scan_cons2 x y l v : scan (x :: y :: l) v = if Rlt_dec x v then S (scan (y :: l) v) else O.
Proof. reflexivity. Qed.
Lemma scan_spec c v : c <> [] ->
  (scan c v < length c)%nat /\ (forall j, (j < scan c v)%nat -> nth j c 0 < v) /\
  ((scan c v < length c - 1)%nat -> v <= nth (scan c v) c 0).
Proof.
  induction c as [|x c IH]; intros H; [congruence|]. destruct c as [|y c].
  - simpl. repeat split; intros; lia.
  - rewrite scan_cons2. destruct (Rlt_dec x v) as [L|L].
    + destruct (IH ltac:(discriminate)) as (A&B&C). split; [simpl in *; lia|]. split.
      * intros [|j] J; [exact L|]. apply B. lia.
      * intros J. apply C. simpl in *; lia.
    + split; [simpl; lia|]. split; [intros; lia|]. intros _. simpl. lra.
Qed.

Lemma trunc_zero x : 0 <= x < 1 -> Ztrunc x = 0%Z.
Proof.
  intros H. rewrite Ztrunc_floor by lra. apply Zfloor_imp. simpl. lra.
Qed.
(** every value in (0,1] gives index 0, for every table that starts at 0 *)
Lemma sample_zero c v : hd 0 c = 0 -> (forall x, In x c -> 0 <= x) -> v <= 1 -> dpdf_sample c v = 0%Z.
Proof.
  intros H0 P V. unfold dpdf_sample. destruct c as [|x c]; [apply trunc_zero; simpl; lra|].
  destruct (scan_spec (x :: c) v ltac:(discriminate)) as (A&B&_). apply trunc_zero.
  destruct (scan (x :: c) v) as [|k] eqn:E.
  - simpl in *. lra.
  - replace (S k - 1)%nat with k by lia. specialize (B k ltac:(lia)). split; [apply P, nth_In; lia|lra].
Qed.
(** the loop itself finds the right entry: the returned index should have been scan - 1 *)
Lemma scan_selects w c v : weights_ok w -> length c = (length w + 2)%nat \/ length c = (length w + 1)%nat ->
  (forall i, (i <= length w)%nat -> nth i c 0 = cum w i) -> 0 < v <= 1 -> selects w v (scan c v - 1).
Proof.
  intros W L N V. assert (C : c <> []) by (intros ->; simpl in L; lia).
  destruct (scan_spec c v C) as (A&B&D).
  assert (S0 : scan c v <> 0%nat).
  { intros E. rewrite E in D. assert (0 < length c - 1)%nat.
    { destruct w as [|a w]; [destruct W as [_ W]; rewrite rsum_nil in W; lra|]. simpl in L. lia. }
    specialize (D H). rewrite N in D by lia. rewrite cum_0 in D by assumption. lra. }
  assert (K : (scan c v <= length w)%nat).
  { apply Nat.nlt_ge. intros G. specialize (B (length w) G). rewrite N in B by lia. rewrite cum_all in B by (auto; lia). lra. }
  split; [lia|]. replace (S (scan c v - 1)) with (scan c v) by lia. split.
  - specialize (B (scan c v - 1)%nat ltac:(lia)). rewrite N in B by lia. exact B.
  - destruct (Nat.lt_ge_cases (scan c v) (length c - 1)) as [G|G].
    + specialize (D G). rewrite N in D by lia. exact D.
    + assert (E : scan c v = length w) by lia. rewrite E, cum_all by (auto; lia). lra.
Qed.
Lemma selects_unique w v i j : weights_ok w -> selects w v i -> selects w v j -> i = j.
Proof.
  intros W [A1 A2] [B1 B2]. destruct (Nat.lt_trichotomy i j) as [H|[H|H]]; [|exact H|].
  - pose proof (cum_mono w (S i) j W ltac:(lia)). lra.
  - pose proof (cum_mono w (S j) i W ltac:(lia)). lra.
Qed.

(** ** mesh lights *)
Lemma area_sums_nth areas : forall p i, (i < length areas)%nat -> nth i (area_sums p areas) 0 = p + rsum (firstn (S i) areas).
Proof.
  induction areas as [|a l IH]; intros p i H; simpl in H; [lia|]. destruct i as [|i].
  - simpl. rewrite rsum_cons, rsum_nil. ring.
  - change (nth (S i) (area_sums p (a :: l)) 0) with (nth i (area_sums (p + a) l) 0). rewrite IH by lia.
    change (firstn (S (S i)) (a :: l)) with (a :: firstn (S i) l). rewrite rsum_cons. ring.
Qed.
Lemma area_sums_length areas : forall p, length (area_sums p areas) = length areas.
Proof. induction areas; intros; simpl; auto. Qed.
Lemma area_sums_last areas : forall p, areas <> [] -> last (area_sums p areas) 0 = p + rsum areas.
Proof.
  induction areas as [|a l IH]; intros p H; [congruence|]. destruct l as [|b l].
  - simpl. rewrite rsum_cons, rsum_nil. ring.
  - change (area_sums p (a :: b :: l)) with ((p + a) :: area_sums (p + a) (b :: l)).
    assert (E : forall z l', l' <> [] -> last (z :: l') 0 = last l' 0) by (intros z [|? ?] Hn; [congruence|reflexivity]).
    rewrite E by (simpl; discriminate). rewrite IH by discriminate. rewrite (rsum_cons a). ring.
Qed.
Lemma weights_nonempty w : weights_ok w -> w <> [].
Proof. intros [_ W] ->. rewrite rsum_nil in W. lra. Qed.
Lemma mesh_cdf_length w : length (mesh_cdf w) = (length w + 1)%nat.
Proof. unfold mesh_cdf, dpdf_normalize. rewrite map_length. simpl. rewrite area_sums_length. lia. Qed.
Lemma mesh_cdf_nth w i : weights_ok w -> (i <= length w)%nat -> nth i (mesh_cdf w) 0 = cum w i.
Proof.
  intros W H. pose proof (weights_nonempty w W) as NE. unfold mesh_cdf, dpdf_normalize.
  assert (L : last (0 :: area_sums 0 w) 0 = rsum w).
  { replace (last (0 :: area_sums 0 w) 0) with (last (area_sums 0 w) 0).
    - rewrite area_sums_last by assumption. ring.
    - destruct w; [congruence|]. reflexivity. }
  rewrite L.
  replace (nth i (map (fun x => x * (1 / rsum w)) (0 :: area_sums 0 w)) 0) with
    ((fun x => x * (1 / rsum w)) (nth i (0 :: area_sums 0 w) 0)).
  2:{ rewrite <- (map_nth (fun x => x * (1 / rsum w))). apply nth_indep. rewrite map_length. simpl. rewrite area_sums_length. lia. }
  destruct i as [|i]; simpl nth.
  - rewrite cum_0 by assumption. ring.
  - rewrite area_sums_nth by lia. unfold cum. rewrite Rplus_0_l. unfold Rdiv. ring.
Qed.
Lemma mesh_cdf_nonneg w x : weights_ok w -> In x (mesh_cdf w) -> 0 <= x.
Proof.
  intros W H. apply (In_nth _ _ 0) in H. destruct H as [i [Hi <-]]. rewrite mesh_cdf_length in Hi.
  rewrite mesh_cdf_nth by (auto; lia). rewrite <- (cum_0 w W). apply cum_mono; [assumption|lia].
Qed.
Lemma mesh_sample_zero w s : weights_ok w -> x2 s <= 1 ->
  mesh_sample w s = Ok (0%Z, sqrToUniTri (V2 (x2 s / cum w 1) (y2 s)), 1 / nth 0 w 0 * cum w 1).
Proof.
  intros W V. pose proof (weights_nonempty w W) as NE. unfold mesh_sample, dpdf_sample_reuse.
  rewrite sample_zero; [|change (nth 0 (mesh_cdf w) 0 = 0); rewrite mesh_cdf_nth by (auto; lia); apply cum_0, W|intros x; apply mesh_cdf_nonneg, W|exact V].
  simpl Z.ltb. cbv iota. simpl Z.to_nat. rewrite mesh_cdf_length.
  assert (L : (0 < length w)%nat) by (destruct w; [congruence|simpl; lia]).
  replace (Nat.ltb (0 + 1) (length w + 1)) with true by (symmetry; apply Nat.ltb_lt; lia).
  cbv zeta. cbn [bind]. unfold dpdf_pmf. rewrite !mesh_cdf_nth by (auto; lia). rewrite cum_0 by assumption.
  destruct w as [|a w]; [congruence|]. simpl nth_error. simpl Nat.add. rewrite !Rminus_0_r. reflexivity.
Qed.
