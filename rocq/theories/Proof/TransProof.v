(** Transmittance functions: derivatives, monotonicity, the bisection. *)
From Coq Require Import Reals List Lra Lia Psatz.
From Coquelicot Require Import Coquelicot.
From Verif.Base Require Import Outcome RTac.
From Verif.Model Require Import Vec Media TransFunc.
From Verif.Spec Require Import MediaSpec TransSpec.
From Verif.Proof Require Import WarpProof.
Open Scope R_scope.

Lemma alpha_pos beta c t : 0 < davis_alpha beta c t.
Proof. unfold davis_alpha, Rpower. apply Rdiv_lt_0_compat; apply exp_pos. Qed.
Lemma alpha_derive beta c t : 0 < t -> is_derive (davis_alpha beta c) t ((1 - beta) * davis_alpha beta c t / t).
Proof.
  intros T. unfold davis_alpha, Rpower. auto_derive; [|].
  - exact T.
  - pose proof (exp_pos ((1 + beta) * ln c)). field. split; lra.
Qed.
Section Davis.
Variables (beta : R) (al : R -> R) (t : R).
Hypothesis T : 0 < t.
Hypothesis A : 0 < al t.
Hypothesis DA : is_derive al t ((1 - beta) * al t / t).
Let ss := fun t => exp (- al t * ln (1 + t / al t)).
Let sm := fun t => ss t * (beta / (1 + t / al t) - (beta - 1) * al t / t * ln (1 + t / al t)).
Let mm := fun t => ss t * (beta * (-1 + beta * (1 + t) + (-1 + 2 * beta) * t / al t) / (t * (1 + t / al t) * (1 + t / al t))
   - ((-1 + beta) * beta * al t / (t * t) * (2 * t + (1 + t / al t)) * ln (1 + t / al t)) / (1 + t / al t)
   + ((beta - 1) * al t / t * ln (1 + t / al t)) * ((beta - 1) * al t / t * ln (1 + t / al t))).
Lemma base_pos : 0 < 1 + t / al t.
Proof. assert (0 < t / al t) by (apply Rdiv_lt_0_compat; assumption). lra. Qed.
Lemma ss_derive : is_derive ss t (- sm t).
Proof.
  pose proof base_pos as B. assert (E : ex_derive al t) by (eexists; exact DA). unfold ss, sm. auto_derive.
  - repeat split; try assumption; lra.
  - change (Derive (fun x : R => al x) t) with (Derive al t). rewrite (is_derive_unique _ _ _ DA). unfold ss. change (t * / al t) with (t / al t).
    set (L := ln _). set (X := exp _). assert (al t + t <> 0) by lra. field. repeat split; lra.
Qed.
Lemma sm_derive : is_derive sm t (- mm t).
Proof.
  pose proof base_pos as B. assert (E : ex_derive al t) by (eexists; exact DA).
  assert (S : is_derive ss t (- sm t)) by apply ss_derive.
  assert (G : is_derive (fun t => beta / (1 + t / al t) - (beta - 1) * al t / t * ln (1 + t / al t)) t
    (- (beta * beta * (t / al t) / (t * (1 + t / al t) * (1 + t / al t))) + (1 - beta) * beta / t * (1 / (1 + t / al t) - al t / t * ln (1 + t / al t)))).
  { auto_derive.
    - repeat split; try assumption; lra.
    - change (Derive (fun x : R => al x) t) with (Derive al t). rewrite (is_derive_unique _ _ _ DA). change (t * / al t) with (t / al t).
      set (L := ln _). assert (al t + t <> 0) by lra. field. repeat split; lra. }
  pose proof (is_derive_mult ss _ t _ _ S G ltac:(intros; apply Rmult_comm)) as M. unfold plus, mult in M; simpl in M.
  unfold sm at 1. eapply (is_derive_ext_loc _ _ t); [|match type of M with is_derive ?f ?x ?l => replace (- mm t) with l; [exact M|] end].
  - apply filter_forall. intros; reflexivity.
  - unfold mm, sm. set (L := ln _). set (X := ss t). assert (al t + t <> 0) by lra. field. repeat split; lra.
Qed.
(** the density is positive *)
Lemma sm_pos : -1 <= beta <= 1 -> 0 < sm t.
Proof.
  intros Bt. pose proof base_pos as B. unfold sm. apply Rmult_lt_0_compat; [apply exp_pos|].
  set (x := t / al t) in *. assert (X : 0 < x) by (apply Rdiv_lt_0_compat; assumption).
  replace ((beta - 1) * al t / t) with (- ((1 - beta) * / x)) by (unfold x; field; lra).
  assert (L : x / (1 + x) <= ln (1 + x)).
  { assert (K : 1 - / (1 + x) <= ln (1 + x)).
    { assert (Ip : 0 < / (1 + x)) by (apply Rinv_0_lt_compat, B). assert (H : ln (/ (1 + x)) <= / (1 + x) - 1).
      { destruct (Req_dec (/ (1 + x)) 1) as [->|N]; [rewrite ln_1; lra|]. apply Rlt_le. assert (Q : / (1 + x) = 1 + (/ (1 + x) - 1)) by ring.
        rewrite <- (ln_exp (/ (1 + x) - 1)). apply ln_increasing; [exact Ip|]. rewrite Q at 1. apply exp_ineq1. lra. }
      rewrite ln_Rinv in H by exact B. lra. }
    replace (x / (1 + x)) with (1 - / (1 + x)) by (field; lra). exact K. }
  assert (W : / (1 + x) <= / x * ln (1 + x)).
  { apply (Rmult_le_reg_l x); [exact X|]. replace (x * (/ x * ln (1 + x))) with (ln (1 + x)) by (field; lra). exact L. }
  assert (Ip : 0 < / (1 + x)) by (apply Rinv_0_lt_compat, B). unfold Rdiv.
  replace (beta * / (1 + x) - - ((1 - beta) * / x) * ln (1 + x)) with (beta * / (1 + x) + (1 - beta) * (/ x * ln (1 + x))) by ring. nra.
Qed.
End Davis.

Definition davis_ss0 beta c t := exp (- davis_alpha beta c t * ln (1 + t / davis_alpha beta c t)).
Lemma davis_ss_far beta c t : 1 / 10000 <= t -> davis_ss beta c t = davis_ss0 beta c t.
Proof. intros H. unfold davis_ss, davis_ss0. destruct (Rlt_dec t (1 / 10000)); [lra|]. reflexivity. Qed.
Lemma davis_ss_derive beta c t : 1 / 10000 < t -> is_derive (davis_ss beta c) t (- davis_sm beta c t).
Proof.
  intros H. assert (T : 0 < t) by lra. pose proof (ss_derive beta (davis_alpha beta c) t T (alpha_pos _ _ _) (alpha_derive beta c t T)) as D.
  eapply is_derive_ext_loc; [|unfold davis_sm; destruct (Rlt_dec t (1 / 10000)); [exfalso; lra|exact D]].
  assert (E : 0 < t - 1 / 10000) by lra. exists (mkposreal _ E). intros y Y. symmetry. apply davis_ss_far.
  assert (K : Rabs (y - t) < t - 1 / 10000) by exact Y. apply Rabs_def2 in K. lra.
Qed.
Lemma davis_sm_derive beta c t : 1 / 10000 < t -> is_derive (davis_sm beta c) t (- davis_mm beta c t).
Proof.
  intros H. assert (T : 0 < t) by lra. pose proof (sm_derive beta (davis_alpha beta c) t T (alpha_pos _ _ _) (alpha_derive beta c t T)) as D.
  eapply is_derive_ext_loc; [|unfold davis_mm; destruct (Rlt_dec t (1 / 10000)); [exfalso; lra|exact D]].
  assert (E : 0 < t - 1 / 10000) by lra. exists (mkposreal _ E). intros y Y.
  assert (K : Rabs (y - t) < t - 1 / 10000) by exact Y. apply Rabs_def2 in K. unfold davis_sm. destruct (Rlt_dec y (1 / 10000)); [lra|reflexivity].
Qed.
Lemma davis_sm_pos beta c t : -1 <= beta <= 1 -> 0 < davis_sm beta c t.
Proof.
  intros B. unfold davis_sm. destruct (Rlt_dec t (1 / 10000)) as [H|H]; [lra|apply Rnot_lt_le in H]. assert (T : 0 < t) by lra.
  exact (sm_pos beta (davis_alpha beta c) t T (alpha_pos _ _ _) B).
Qed.
Lemma davis_ss_range beta c t : 0 < davis_ss beta c t <= 1.
Proof.
  unfold davis_ss. destruct (Rlt_dec t (1 / 10000)) as [H|H]; [lra|apply Rnot_lt_le in H]. cbv zeta. unfold Rpower. split; [apply exp_pos|].
  pose proof (alpha_pos beta c t) as A. assert (0 < t / davis_alpha beta c t) by (apply Rdiv_lt_0_compat; lra).
  assert (0 < ln (1 + t / davis_alpha beta c t)) by (rewrite <- ln_1; apply ln_increasing; lra).
  apply Rlt_le, (Rlt_le_trans _ (exp 0)); [apply exp_increasing; nra|rewrite exp_0; lra].
Qed.
Lemma davis_ss_anti beta c s t : -1 <= beta <= 1 -> s <= t -> davis_ss beta c t <= davis_ss beta c s.
Proof.
  intros B L. destruct (Rlt_dec s (1 / 10000)) as [H|H].
  - unfold davis_ss at 2. destruct (Rlt_dec s (1 / 10000)); [apply davis_ss_range|contradiction].
  - destruct (Req_dec s t) as [->|N]; [right; reflexivity|]. apply Rnot_lt_le in H.
    rewrite !davis_ss_far by lra.
    destruct (MVT_gen (davis_ss0 beta c) s t (fun x => - (davis_ss0 beta c x * (beta / (1 + x / davis_alpha beta c x) - (beta - 1) * davis_alpha beta c x / x * ln (1 + x / davis_alpha beta c x))))) as (x&X&E).
    + rewrite Rmin_left, Rmax_right by lra. intros x X. exact (ss_derive beta (davis_alpha beta c) x ltac:(lra) (alpha_pos _ _ _) (alpha_derive beta c x ltac:(lra))).
    + rewrite Rmin_left, Rmax_right by lra. intros x X. apply derivable_continuous_pt. apply ex_derive_Reals_0.
      eexists. exact (ss_derive beta (davis_alpha beta c) x ltac:(lra) (alpha_pos _ _ _) (alpha_derive beta c x ltac:(lra))).
    + rewrite Rmin_left, Rmax_right in X by lra. pose proof (sm_pos beta (davis_alpha beta c) x ltac:(lra) (alpha_pos _ _ _) B) as P. cbv beta zeta in P. unfold davis_ss0 in *. nra.
Qed.

(** ** the bisection *)
Lemma bisect_bracket cdf xi : forall fuel step x lo hi out, 0 < step -> lo = x - 2 * step -> hi = x + 2 * step -> cdf lo <= xi < cdf hi ->
  bisect fuel cdf xi step x = Ok out -> exists l h, lo <= l /\ h <= hi /\ l <= out <= h /\ h - l <= 4 / 1000000 /\ cdf l <= xi < cdf h.
Proof.
  induction fuel as [|n IH]; intros step x lo hi out S L H B R; simpl in R; [discriminate|].
  destruct (Rgt_dec step (1 / 1000000)) as [G|G].
  - destruct (Rgt_dec (cdf x) xi) as [C|C].
    + destruct (IH (step / 2) (x - step) lo x out ltac:(lra) ltac:(lra) ltac:(lra) ltac:(lra) R) as (l&h&A1&A2&A3). exists l, h. repeat split; try apply A3; lra.
    + apply Rnot_gt_le in C. destruct (IH (step / 2) (x + step) x hi out ltac:(lra) ltac:(lra) ltac:(lra) ltac:(lra) R) as (l&h&A1&A2&A3). exists l, h. repeat split; try apply A3; lra.
  - apply Rnot_gt_le in G. injection R as <-. exists lo, hi. repeat split; lra.
Qed.
Lemma bisect_total cdf xi : forall n step x, step <= (2 ^ n) / 1000000 -> exists out, bisect (S n) cdf xi step x = Ok out.
Proof.
  induction n as [|n IH]; intros step x H.
  - simpl in *. destruct (Rgt_dec step (1 / 1000000)); [lra|]. eexists; reflexivity.
  - cbn [bisect]. destruct (Rgt_dec step (1 / 1000000)); [|eexists; reflexivity]. apply IH. simpl in H. lra.
Qed.
