(** Generic list lemmas. *)
From Coq Require Import List Lia Arith Permutation.
From Verif.Base Require Import Outcome.
Import ListNotations.

Lemma length_update {A} (l : list A) i v : length (update l i v) = length l.
Proof. revert i; induction l; destruct i; simpl; auto. Qed.

Lemma nth_error_update_eq {A} (l : list A) i v :
  (i < length l)%nat -> nth_error (update l i v) i = Some v.
Proof. revert i; induction l; destruct i; simpl; intros; try lia; auto. apply IHl. lia. Qed.

Lemma nth_error_update_neq {A} (l : list A) i j v :
  i <> j -> nth_error (update l i v) j = nth_error l j.
Proof. revert i j; induction l; destruct i, j; simpl; intros; auto; try congruence. Qed.

Lemma nth_error_update {A} (l : list A) i j v :
  nth_error (update l i v) j =
  if Nat.eqb i j then (if Nat.ltb i (length l) then Some v else None) else nth_error l j.
Proof.
  destruct (Nat.eqb_spec i j) as [->|H].
  - destruct (Nat.ltb_spec j (length l)).
    + apply nth_error_update_eq; auto.
    + apply nth_error_None. rewrite length_update. lia.
  - apply nth_error_update_neq; auto.
Qed.

Lemma nth_error_repeat {A} (a : A) n i : (i < n)%nat -> nth_error (repeat a n) i = Some a.
Proof. revert i; induction n; destruct i; simpl; intros; try lia; auto. apply IHn; lia. Qed.

Lemma nth_error_lt {A} (l : list A) i a : nth_error l i = Some a -> (i < length l)%nat.
Proof. intros H. apply nth_error_Some. congruence. Qed.

Lemma foldM_app {A S} (f : S -> A -> outcome S) l1 l2 s :
  foldM f (l1 ++ l2) s = bind (foldM f l1 s) (fun s' => foldM f l2 s').
Proof.
  revert s; induction l1; simpl; intros; auto.
  destruct (f s a); simpl; auto.
Qed.
