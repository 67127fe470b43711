(** Vector algebra used everywhere. *)
From Coq Require Import Reals List Lra Lia Psatz Nsatz.
From Verif.Base Require Import RTac.
From Verif.Model Require Import Vec Matrix.
From Verif.Spec Require Import LinAlgSpec.
Open Scope R_scope.

Lemma V3_eq a b : vx a = vx b -> vy a = vy b -> vz a = vz b -> a = b.
Proof. destruct a, b; simpl; intros; subst; reflexivity. Qed.
Ltac vec := repeat match goal with v : vec3 |- _ => destruct v end; simpl in *.

Lemma dot_comm a b : dot a b = dot b a.
Proof. unfold dot; ring. Qed.
Lemma dot_self a : dot a a = sqrNorm a.
Proof. unfold dot, sqrNorm; ring. Qed.
Lemma dot_add_l a b c : dot (vadd a b) c = dot a c + dot b c.
Proof. unfold dot, vadd; simpl; ring. Qed.
Lemma dot_add_r a b c : dot a (vadd b c) = dot a b + dot a c.
Proof. unfold dot, vadd; simpl; ring. Qed.
Lemma dot_scale_l a k c : dot (vscale a k) c = k * dot a c.
Proof. unfold dot, vscale; simpl; ring. Qed.
Lemma dot_scale_r a k c : dot a (vscale c k) = k * dot a c.
Proof. unfold dot, vscale; simpl; ring. Qed.
Lemma dot_neg_l a c : dot (vneg a) c = - dot a c.
Proof. unfold dot, vneg; simpl; ring. Qed.
Lemma dot_cross_l a b : dot (cross a b) a = 0.
Proof. unfold dot, cross; simpl; ring. Qed.
Lemma dot_cross_r a b : dot (cross a b) b = 0.
Proof. unfold dot, cross; simpl; ring. Qed.
Lemma lagrange a b : dot (cross a b) (cross a b) = dot a a * dot b b - dot a b * dot a b.
Proof. unfold dot, cross; simpl; ring. Qed.

Lemma sqrNorm_nonneg a : 0 <= sqrNorm a.
Proof. unfold sqrNorm. nra. Qed.
Lemma sqrNorm_zero a : sqrNorm a = 0 -> a = V3 0 0 0.
Proof. vec. unfold sqrNorm; simpl. intros H. apply V3_eq; simpl; nra. Qed.
Lemma sqrNorm_pos a : a <> V3 0 0 0 -> 0 < sqrNorm a.
Proof. intros H. destruct (sqrNorm_nonneg a) as [L|E]; [exact L|]. symmetry in E. apply sqrNorm_zero in E. contradiction. Qed.
Lemma norm_sqr a : norm a * norm a = sqrNorm a.
Proof. unfold norm. rewrite sqrt_sqrt; [reflexivity|apply sqrNorm_nonneg]. Qed.
Lemma norm_nonneg a : 0 <= norm a.
Proof. apply sqrt_pos. Qed.
Lemma norm_pos a : a <> V3 0 0 0 -> 0 < norm a.
Proof. intros H. unfold norm. apply sqrt_lt_R0. apply sqrNorm_pos, H. Qed.
Lemma norm_zero a : norm a = 0 -> a = V3 0 0 0.
Proof. intros H. apply sqrNorm_zero. rewrite <- norm_sqr, H. ring. Qed.
Lemma normalized_vdiv a : normalized a = vdiv a (norm a).
Proof. reflexivity. Qed.
Lemma normalized_unit a : a <> V3 0 0 0 -> unit3 (normalized a).
Proof.
  intros H. pose proof (norm_pos a H) as P. pose proof (norm_sqr a) as Q. unfold unit3, normalized, dot; simpl.
  unfold sqrNorm in Q. field_simplify_eq; [|lra]. nra.
Qed.
Lemma normalized_scale a : a <> V3 0 0 0 -> a = vscale (normalized a) (norm a).
Proof. intros H. pose proof (norm_pos a H). apply V3_eq; simpl; field; lra. Qed.
Lemma unit_norm a : unit3 a -> norm a = 1.
Proof. unfold unit3. rewrite dot_self. intros H. unfold norm. unfold sqrNorm in H. rewrite H. apply sqrt_1. Qed.
Lemma unit_nonzero a : unit3 a -> a <> V3 0 0 0.
Proof. intros H E. rewrite E in H. unfold unit3, dot in H; simpl in H. lra. Qed.
Lemma normalized_of_unit a : unit3 a -> normalized a = a.
Proof. intros H. unfold normalized. rewrite (unit_norm a H). apply V3_eq; simpl; field. Qed.
Lemma cauchy_schwarz a b : dot a b * dot a b <= dot a a * dot b b.
Proof. pose proof (lagrange a b) as L. pose proof (sqrNorm_nonneg (cross a b)) as P. rewrite <- dot_self in P. lra. Qed.
Lemma unit_dot_bound a b : unit3 a -> unit3 b -> -1 <= dot a b <= 1.
Proof. unfold unit3. intros A B. pose proof (cauchy_schwarz a b) as C. rewrite A, B in C. nra. Qed.
