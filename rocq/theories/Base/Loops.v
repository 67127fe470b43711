(** Counting loops over [int]. *)
From Coq Require Import ZArith List Lia FinFun.
Import ListNotations.
Open Scope Z_scope.

(** The values taken by [i] in [for (int i = a; i < b; ++i)]. *)
Definition zrange (a b : Z) : list Z :=
  map (fun n => a + Z.of_nat n) (seq 0 (Z.to_nat (b - a))).

(** The values taken by [i] in [for (int i = a; i <= b; ++i)]. *)
Definition zrange_le (a b : Z) : list Z := zrange a (b + 1).

Lemma in_zrange a b x : In x (zrange a b) <-> a <= x < b.
Proof.
  unfold zrange. rewrite in_map_iff. split.
  - intros [n [H1 H2]]. apply in_seq in H2. lia.
  - intros H. exists (Z.to_nat (x - a)). split; [lia|]. apply in_seq. lia.
Qed.

Lemma in_zrange_le a b x : In x (zrange_le a b) <-> a <= x <= b.
Proof. unfold zrange_le. rewrite in_zrange. lia. Qed.

Lemma NoDup_zrange a b : NoDup (zrange a b).
Proof.
  unfold zrange. apply FinFun.Injective_map_NoDup.
  - intros x y H. lia.
  - apply seq_NoDup.
Qed.

Lemma NoDup_zrange_le a b : NoDup (zrange_le a b).
Proof. apply NoDup_zrange. Qed.

Lemma length_zrange a b : length (zrange a b) = Z.to_nat (b - a).
Proof. unfold zrange. rewrite map_length, seq_length. reflexivity. Qed.

Lemma zrange_empty a b : b <= a -> zrange a b = [].
Proof. intros H. unfold zrange. replace (Z.to_nat (b - a)) with O by lia. reflexivity. Qed.

Lemma zrange_cons a b : a < b -> zrange a b = a :: zrange (a + 1) b.
Proof.
  intros H. unfold zrange.
  replace (Z.to_nat (b - a)) with (S (Z.to_nat (b - (a + 1)))) by lia.
  simpl. f_equal; [lia|]. rewrite <- seq_shift, map_map.
  apply map_ext. intros n. lia.
Qed.
