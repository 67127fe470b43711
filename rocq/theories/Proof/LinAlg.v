From Coq Require Import Reals List Lra Lia Psatz.
From Verif.Base Require Import RTac.
From Verif.Model Require Import Vec Matrix.
From Verif.Spec Require Import LinAlgSpec.
Open Scope R_scope.

Lemma M4_eq u0 u1 u2 u3 u4 u5 u6 u7 u8 u9 u10 u11 u12 u13 u14 u15 w0 w1 w2 w3 w4 w5 w6 w7 w8 w9 w10 w11 w12 w13 w14 w15 :
  u0 = w0 -> u1 = w1 -> u2 = w2 -> u3 = w3 -> u4 = w4 -> u5 = w5 -> u6 = w6 -> u7 = w7 -> u8 = w8 -> u9 = w9 -> u10 = w10 -> u11 = w11 -> u12 = w12 -> u13 = w13 -> u14 = w14 -> u15 = w15 ->
  M4 u0 u1 u2 u3 u4 u5 u6 u7 u8 u9 u10 u11 u12 u13 u14 u15 = M4 w0 w1 w2 w3 w4 w5 w6 w7 w8 w9 w10 w11 w12 w13 w14 w15.
Proof. intros; subst; reflexivity. Qed.

Lemma m4_ext a b : (forall i j, (i < 4)%nat -> (j < 4)%nat -> entry a i j = entry b i j) -> a = b.
Proof.
  intros H. destruct a, b.
  pose proof (H 0 0 ltac:(lia) ltac:(lia))%nat. pose proof (H 0 1 ltac:(lia) ltac:(lia))%nat.
  pose proof (H 0 2 ltac:(lia) ltac:(lia))%nat. pose proof (H 0 3 ltac:(lia) ltac:(lia))%nat.
  pose proof (H 1 0 ltac:(lia) ltac:(lia))%nat. pose proof (H 1 1 ltac:(lia) ltac:(lia))%nat.
  pose proof (H 1 2 ltac:(lia) ltac:(lia))%nat. pose proof (H 1 3 ltac:(lia) ltac:(lia))%nat.
  pose proof (H 2 0 ltac:(lia) ltac:(lia))%nat. pose proof (H 2 1 ltac:(lia) ltac:(lia))%nat.
  pose proof (H 2 2 ltac:(lia) ltac:(lia))%nat. pose proof (H 2 3 ltac:(lia) ltac:(lia))%nat.
  pose proof (H 3 0 ltac:(lia) ltac:(lia))%nat. pose proof (H 3 1 ltac:(lia) ltac:(lia))%nat.
  pose proof (H 3 2 ltac:(lia) ltac:(lia))%nat. pose proof (H 3 3 ltac:(lia) ltac:(lia))%nat.
  clear H. unfold entry in *. simpl in *. apply M4_eq; assumption.
Qed.

Ltac idx i := destruct i as [|[|[|[|i]]]]; [| | | |lia].

Lemma mul_is_product a b : is_product a b (m4_mul a b).
Proof. intros i j Hi Hj. idx i; idx j; unfold entry; simpl; ring. Qed.

Lemma product_unique a b c : is_product a b c -> c = m4_mul a b.
Proof. intros H. apply m4_ext. intros i j Hi Hj. rewrite H by assumption. rewrite (mul_is_product a b) by assumption. reflexivity. Qed.

Lemma id_is_identity : is_identity m4_id.
Proof. intros i j Hi Hj. idx i; idx j; reflexivity. Qed.

Lemma identity_unique c : is_identity c -> c = m4_id.
Proof. intros H. apply m4_ext. intros i j Hi Hj. rewrite H by assumption. rewrite id_is_identity by assumption. reflexivity. Qed.

Lemma mutually_inverse_iff a b : mutually_inverse a b <-> m4_mul a b = m4_id /\ m4_mul b a = m4_id.
Proof.
  split.
  - intros [[c [Hc Ic]] [d [Hd Id]]].
    rewrite <- (product_unique _ _ _ Hc), <- (product_unique _ _ _ Hd).
    split; apply identity_unique; assumption.
  - intros [H1 H2]. split; [exists (m4_mul a b)|exists (m4_mul b a)]; (split; [apply mul_is_product|]).
    + rewrite H1. apply id_is_identity.
    + rewrite H2. apply id_is_identity.
Qed.

Lemma det_laplace m : m4_det m = det4 m.
Proof. unfold m4_det, det4, det3. ring. Qed.

Lemma inv_right m : m4_det m <> 0 -> m4_mul m (m4_inv m) = m4_id.
Proof.
  intros H. unfold m4_inv, m4_mul, m4_id. cbv zeta beta. set (d := m4_det m) in *.
  cbv beta iota delta [n0 n1 n2 n3 n4 n5 n6 n7 n8 n9 n10 n11 n12 n13 n14 n15].
  assert (E : forall x y, y * (x / d) = (y * x) * / d) by (intros; unfold Rdiv; ring).
  assert (G : forall x, x = d -> x * / d = 1) by (intros x ->; apply Rinv_r; assumption).
  assert (Z : forall x, x = 0 -> x * / d = 0) by (intros x ->; ring).
  destruct m as [b0 b1 b2 b3 b4 b5 b6 b7 b8 b9 b10 b11 b12 b13 b14 b15].
  apply M4_eq; rewrite !E, <- !Rmult_plus_distr_r; first [apply G; unfold d, m4_det|apply Z]; simpl; ring.
Qed.

Lemma inv_left m : m4_det m <> 0 -> m4_mul (m4_inv m) m = m4_id.
Proof.
  intros H. unfold m4_inv, m4_mul, m4_id. cbv zeta beta. set (d := m4_det m) in *.
  cbv beta iota delta [n0 n1 n2 n3 n4 n5 n6 n7 n8 n9 n10 n11 n12 n13 n14 n15].
  assert (E : forall x y, (x / d) * y = (x * y) * / d) by (intros; unfold Rdiv; ring).
  assert (G : forall x, x = d -> x * / d = 1) by (intros x ->; apply Rinv_r; assumption).
  assert (Z : forall x, x = 0 -> x * / d = 0) by (intros x ->; ring).
  destruct m as [b0 b1 b2 b3 b4 b5 b6 b7 b8 b9 b10 b11 b12 b13 b14 b15].
  apply M4_eq; rewrite !E, <- !Rmult_plus_distr_r; first [apply G; unfold d, m4_det|apply Z]; simpl; ring.
Qed.

Lemma det_mul a b : m4_det (m4_mul a b) = m4_det a * m4_det b.
Proof.
  destruct a as [p0 p1 p2 p3 p4 p5 p6 p7 p8 p9 p10 p11 p12 p13 p14 p15].
  destruct b as [q0 q1 q2 q3 q4 q5 q6 q7 q8 q9 q10 q11 q12 q13 q14 q15].
  unfold m4_det, m4_mul; simpl. ring.
Qed.

Ltac dm m := destruct m as [?m0 ?m1 ?m2 ?m3 ?m4 ?m5 ?m6 ?m7 ?m8 ?m9 ?m10 ?m11 ?m12 ?m13 ?m14 ?m15].


Lemma V4_eq a b : wx a = wx b -> wy a = wy b -> wz a = wz b -> ww a = ww b -> a = b.
Proof. destruct a, b; simpl; intros; subst; reflexivity. Qed.

Lemma m4_mul_assoc a b c : m4_mul a (m4_mul b c) = m4_mul (m4_mul a b) c.
Proof. dm a; dm b; dm c. unfold m4_mul; simpl. apply M4_eq; ring. Qed.
Lemma m4_mul_id_l a : m4_mul m4_id a = a.
Proof. dm a. unfold m4_mul, m4_id; simpl. apply M4_eq; ring. Qed.
Lemma m4_mul_id_r a : m4_mul a m4_id = a.
Proof. dm a. unfold m4_mul, m4_id; simpl. apply M4_eq; ring. Qed.
Lemma m4_vec_mul a b v : m4_vec (m4_mul a b) v = m4_vec a (m4_vec b v).
Proof. dm a; dm b; destruct v. unfold m4_mul, m4_vec; simpl. apply V4_eq; simpl; ring. Qed.
Lemma m4_vec_id v : m4_vec m4_id v = v.
Proof. destruct v. unfold m4_vec, m4_id; simpl. apply V4_eq; simpl; ring. Qed.

Lemma det_id : m4_det m4_id = 1.
Proof. unfold m4_det, m4_id; simpl; ring. Qed.

(** a two-sided inverse exists exactly when the determinant is non-zero, and it is unique *)
Lemma inverse_unique m b : m4_mul m b = m4_id -> b = m4_inv m.
Proof.
  intros H.
  assert (D : m4_det m <> 0).
  { intros E. pose proof (det_mul m b) as P. rewrite H, det_id, E in P. lra. }
  rewrite <- (m4_mul_id_l b), <- (inv_left m D), <- m4_mul_assoc, H, m4_mul_id_r. reflexivity.
Qed.

Lemma det_nonzero_iff m : m4_det m <> 0 <-> exists b, mutually_inverse m b.
Proof.
  split.
  - intros H. exists (m4_inv m). apply mutually_inverse_iff. split; [apply inv_right|apply inv_left]; assumption.
  - intros [b Hb] E. apply mutually_inverse_iff in Hb. destruct Hb as [H _].
    pose proof (det_mul m b) as P. rewrite H, det_id, E in P. lra.
Qed.

Lemma inverse_correct m : det4 m <> 0 -> mutually_inverse m (m4_inv m) /\
  (forall b, mutually_inverse m b -> b = m4_inv m).
Proof.
  rewrite <- det_laplace. intros H. split.
  - apply mutually_inverse_iff. split; [apply inv_right|apply inv_left]; assumption.
  - intros b Hb. apply mutually_inverse_iff in Hb. apply inverse_unique, Hb.
Qed.

