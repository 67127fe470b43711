(** Finite sums of reals and of 3-vectors over lists. *)
From Coq Require Import Reals List Lra Permutation Lia.
From Verif.Base Require Import Outcome ListLemmas.
Import ListNotations.
Open Scope R_scope.

Definition rsum (l : list R) : R := fold_right Rplus 0 l.

Lemma rsum_nil : rsum [] = 0.
Proof. reflexivity. Qed.
Lemma rsum_cons a l : rsum (a :: l) = a + rsum l.
Proof. reflexivity. Qed.
Arguments rsum : simpl never.

Lemma rsum_app l1 l2 : rsum (l1 ++ l2) = rsum l1 + rsum l2.
Proof. induction l1; simpl; [rewrite rsum_nil; lra|]. rewrite !rsum_cons, IHl1. lra. Qed.

Lemma rsum_perm l1 l2 : Permutation l1 l2 -> rsum l1 = rsum l2.
Proof. induction 1; rewrite ?rsum_cons; lra. Qed.

Lemma rsum_map_update {A} (f : A -> R) l k a v :
  nth_error l k = Some a -> rsum (map f (update l k v)) = rsum (map f l) - f a + f v.
Proof.
  revert k; induction l as [|b l IH]; intros [|k] H; simpl in H; try discriminate.
  - injection H as ->. simpl. rewrite !rsum_cons. lra.
  - simpl. rewrite !rsum_cons, (IH _ H). lra.
Qed.

Lemma rsum_nonneg l : (forall x, In x l -> 0 <= x) -> 0 <= rsum l.
Proof.
  induction l as [|a l IH]; intros H; [unfold rsum; simpl; lra|]. rewrite rsum_cons.
  assert (0 <= a) by (apply H; left; reflexivity).
  assert (0 <= rsum l) by (apply IH; intros; apply H; right; assumption). lra.
Qed.

Lemma rsum_all_zero l : (forall x, In x l -> x = 0) -> rsum l = 0.
Proof.
  induction l as [|a l IH]; intros H; [reflexivity|]. rewrite rsum_cons, IH.
  - rewrite (H a); [lra|left; reflexivity].
  - intros; apply H; right; assumption.
Qed.

Lemma rsum_map_ext {A} (f g : A -> R) l : (forall x, In x l -> f x = g x) ->
  rsum (map f l) = rsum (map g l).
Proof.
  induction l as [|a l IH]; intros H; [reflexivity|]. simpl. rewrite !rsum_cons, IH, H; auto.
  - left; reflexivity.
  - intros; apply H; right; assumption.
Qed.

Lemma rsum_map_plus {A} (f g : A -> R) l :
  rsum (map (fun x => f x + g x) l) = rsum (map f l) + rsum (map g l).
Proof. induction l as [|a l IH]; simpl; [unfold rsum; simpl; lra|]. rewrite !rsum_cons, IH. lra. Qed.

Lemma rsum_map_scal {A} (f : A -> R) c l :
  rsum (map (fun x => c * f x) l) = c * rsum (map f l).
Proof. induction l as [|a l IH]; simpl; [unfold rsum; simpl; lra|]. rewrite !rsum_cons, IH. lra. Qed.

Lemma rsum_map_le {A} (f g : A -> R) l : (forall x, In x l -> f x <= g x) ->
  rsum (map f l) <= rsum (map g l).
Proof.
  induction l as [|a l IH]; intros H; simpl; [unfold rsum; simpl; lra|]. rewrite !rsum_cons.
  assert (f a <= g a) by (apply H; left; reflexivity).
  assert (rsum (map f l) <= rsum (map g l)) by (apply IH; intros; apply H; right; assumption). lra.
Qed.

Lemma rsum_flat_map {A B} (f : A -> list B) (g : B -> R) l :
  rsum (map g (flat_map f l)) = rsum (map (fun a => rsum (map g (f a))) l).
Proof.
  induction l as [|a l IH]; simpl; [reflexivity|].
  rewrite map_app, rsum_app, rsum_cons, IH. reflexivity.
Qed.

Lemma rsum_nonneg_zero l : (forall x, In x l -> 0 <= x) -> rsum l = 0 -> forall x, In x l -> x = 0.
Proof.
  induction l as [|a l IH]; intros H H0 x Hx; [destruct Hx|]; rewrite rsum_cons in H0; destruct Hx as [Hx|Hx].
  - subst. assert (0 <= x) by (apply H; left; reflexivity).
    assert (0 <= rsum l) by (apply rsum_nonneg; intros; apply H; right; assumption). lra.
  - assert (0 <= a) by (apply H; left; reflexivity).
    assert (0 <= rsum l) by (apply rsum_nonneg; intros; apply H; right; assumption).
    apply IH; auto; [intros; apply H; right; assumption|lra].
Qed.

(** a sum over a duplicate-free list with a single selected element *)
Lemma rsum_indicator {A} (dec : forall x y : A, {x = y} + {x <> y}) (v : R) (l : list A) (a : A) :
  NoDup l ->
  rsum (map (fun x => if dec x a then v else 0) l) = if in_dec dec a l then v else 0.
Proof.
  induction l as [|b l IH]; intros H.
  - reflexivity.
  - inversion H as [|? ? Hni Hnd]; subst. simpl map. rewrite rsum_cons, (IH Hnd).
    destruct (dec b a) as [->|Hne].
    + destruct (in_dec dec a l); [contradiction|].
      destruct (in_dec dec a (a :: l)) as [_|n']; [lra|exfalso; apply n'; left; reflexivity].
    + destruct (in_dec dec a l) as [i|n'];
      destruct (in_dec dec a (b :: l)) as [i'|n'']; try lra.
      * exfalso; apply n''; right; assumption.
      * destruct i' as [->|i']; [congruence|contradiction].
Qed.
