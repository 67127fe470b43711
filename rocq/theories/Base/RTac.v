(** Small tactics for case analysis on comparisons of reals. *)
From Coq Require Import Reals Lra.
Open Scope R_scope.

Ltac rnorm :=
  repeat match goal with
  | H : ~ (_ < _) |- _ => apply Rnot_lt_le in H
  | H : ~ (_ <= _) |- _ => apply Rnot_le_lt in H
  | H : ~ (_ > _) |- _ => apply Rnot_gt_le in H
  | H : ~ (_ >= _) |- _ => apply Rnot_ge_lt in H
  end.

Ltac no_cmp a :=
  lazymatch a with
  | context [Rlt_dec _ _] => fail
  | context [Rle_dec _ _] => fail
  | context [Rgt_dec _ _] => fail
  | context [Rge_dec _ _] => fail
  | _ => idtac
  end.

Ltac rcase :=
  repeat match goal with
  | |- context [Rlt_dec ?a ?b] => no_cmp a; no_cmp b; destruct (Rlt_dec a b)
  | |- context [Rle_dec ?a ?b] => no_cmp a; no_cmp b; destruct (Rle_dec a b)
  | |- context [Rgt_dec ?a ?b] => no_cmp a; no_cmp b; destruct (Rgt_dec a b)
  | |- context [Rge_dec ?a ?b] => no_cmp a; no_cmp b; destruct (Rge_dec a b)
  end; rnorm.

(** conjunctions and disjunctions of linear facts *)
Ltac rsolve :=
  lazymatch goal with
  | |- _ /\ _ => split; rsolve
  | |- _ \/ _ => first [left; rsolve | right; rsolve]
  | |- _ => lra
  end.

Lemma Rdiv_le_iff x t d : 0 < d -> (x / d <= t <-> x <= t * d).
Proof.
  intros D. split; intros H.
  - replace x with (x / d * d) by (field; lra). apply Rmult_le_compat_r; lra.
  - apply Rmult_le_reg_r with d; [assumption|]. replace (x / d * d) with x by (field; lra). assumption.
Qed.
Lemma Rle_div_iff x t d : 0 < d -> (t <= x / d <-> t * d <= x).
Proof.
  intros D. split; intros H.
  - replace x with (x / d * d) by (field; lra). apply Rmult_le_compat_r; lra.
  - apply Rmult_le_reg_r with d; [assumption|]. replace (x / d * d) with x by (field; lra). assumption.
Qed.
Lemma Rlt_div_iff x t d : 0 < d -> (t < x / d <-> t * d < x).
Proof.
  intros D. split; intros H.
  - replace x with (x / d * d) by (field; lra). apply Rmult_lt_compat_r; lra.
  - apply Rmult_lt_reg_r with d; [assumption|]. replace (x / d * d) with x by (field; lra). assumption.
Qed.
Lemma Rdiv_lt_iff x t d : 0 < d -> (x / d < t <-> x < t * d).
Proof.
  intros D. split; intros H.
  - replace x with (x / d * d) by (field; lra). apply Rmult_lt_compat_r; lra.
  - apply Rmult_lt_reg_r with d; [assumption|]. replace (x / d * d) with x by (field; lra). assumption.
Qed.
