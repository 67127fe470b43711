(** C68: the fractal density. *)
From Coq Require Import Reals ZArith Lra Lia Psatz.
From Coquelicot Require Import Rcomplements.
From Verif.Base Require Import Outcome.
From Verif.Model Require Import Vec ComplexNum Fractal.
From Verif.Spec Require Import FractalSpec.
Open Scope R_scope.

Lemma orbit_next c k : c3_add (c3_mul (orbit c k) (orbit c k)) c = orbit c (S k).
Proof. cbn [orbit]. destruct (orbit c k) as [x y z]. unfold c3_add, c3_mul. cbn. f_equal; ring. Qed.
Lemma norm_size a : c3_norm a = size a.
Proof. destruct a. unfold c3_norm, size. cbn. ring. Qed.
(** the loop from the k-th point of the orbit *)
Lemma loop_spec b c fuel : forall k, exists j, (j <= fuel)%nat /\ escape_loop b c fuel (orbit c k) (Z.of_nat k - 1) = (Z.of_nat (k + j) - 1)%Z /\
  (forall i, (k <= i < k + j)%nat -> size (orbit c i) <= b) /\ ((j < fuel)%nat -> b < size (orbit c (k + j))).
Proof.
  induction fuel as [|fuel IH]; intros k; cbn [escape_loop].
  - exists 0%nat. split; [lia|]. split; [f_equal; lia|]. split; intros; lia.
  - rewrite norm_size. destruct (Rle_dec (size (orbit c k)) b) as [L|L].
    + destruct (IH (S k)) as (j&A&B&C&D). exists (S j). split; [lia|]. replace (Z.of_nat k - 1 + 1)%Z with (Z.of_nat (S k) - 1)%Z by lia.
      rewrite orbit_next, B. split; [lia|]. split.
      * intros i I. destruct (Nat.eq_dec i k) as [->|N]; [exact L|]. apply C. lia.
      * intros I. replace (k + S j)%nat with (S k + j)%nat by lia. apply D. lia.
    + exists 0%nat. split; [lia|]. rewrite Nat.add_0_r. split; [reflexivity|]. split; [intros; lia|]. intros _. lra.
Qed.
Lemma zero_norm : size (C3 0 0 0) = 0.
Proof. unfold size. ring. Qed.
(** the count is the number of the last point such that all up to it stay within the bound, at most n *)
Theorem C68_count b n c : 0 <= b -> exists m : nat, escape b n c = Z.of_nat m /\ (m <= n)%nat /\ stays b c m /\ ((m < n)%nat -> b < size (orbit c (S m))).
Proof.
  intros B. unfold escape. destruct (loop_spec b c (n + 1) 0) as (j&J&E&S&F). cbn [orbit Z.of_nat Nat.add] in E. change (0 - 1)%Z with (-1)%Z in E. rewrite E. cbn [Nat.add] in *.
  destruct j as [|j].
  - exfalso. specialize (F ltac:(lia)). cbn [orbit] in F. rewrite zero_norm in F. lra.
  - exists j. split; [lia|]. split; [lia|]. split; [intros i I; apply S; lia|]. intros L. apply F. lia.
Qed.
Print Assumptions C68_count.
(** counts are determined by the orbit: so a larger bound on the iterations never lowers the count, and
    only cuts it off *)
Theorem C68_monotone b n n' c : 0 <= b -> (n <= n')%nat -> escape b n c = Z.min (Z.of_nat n) (escape b n' c).
Proof.
  intros B N. destruct (C68_count b n c B) as (m&->&M&S&F), (C68_count b n' c B) as (m'&->&M'&S'&F').
  destruct (Nat.lt_trichotomy m m') as [L|[->|L]].
  - destruct (Nat.eq_dec m n) as [->|NE]; [lia|]. specialize (F ltac:(lia)). specialize (S' (Datatypes.S m) ltac:(lia)). lra.
  - lia.
  - specialize (F' ltac:(lia)). specialize (S (Datatypes.S m') ltac:(lia)). lra.
Qed.
Print Assumptions C68_monotone.
(** a larger escape bound never lowers the count *)
Theorem C68_bounds b b' n c : 0 <= b <= b' -> (escape b n c <= escape b' n c)%Z.
Proof.
  intros B. destruct (C68_count b n c ltac:(lra)) as (m&->&M&S&F), (C68_count b' n c ltac:(lra)) as (m'&->&M'&S'&F').
  destruct (Nat.le_gt_cases m m') as [L|L]; [lia|]. specialize (F' ltac:(lia)). specialize (S (Datatypes.S m') ltac:(lia)). lra.
Qed.
Print Assumptions C68_bounds.
(** the density lies in [0,1], and grows from red to blue *)
Theorem C68_density n p : (0 < n)%nat -> let d := fractal_density n p in 0 <= vx d <= vy d /\ vy d <= vz d <= 1.
Proof.
  intros N. cbn zeta. unfold fractal_density. cbn [vx vy vz]. set (c := C3 _ _ _). apply lt_INR in N. cbn [INR] in N.
  assert (M : forall a b : Z, (a <= b)%Z -> IZR a / INR n <= IZR b / INR n). { intros a b L. apply Rmult_le_compat_r; [left; apply Rinv_0_lt_compat, N|apply IZR_le, L]. }
  destruct (C68_count (1 / 10) n c ltac:(lra)) as (m&E&_&_&_), (C68_count 2 n c ltac:(lra)) as (m3&E3&M3&_&_).
  split; split.
  - rewrite E. apply Rdiv_le_0_compat; [apply IZR_le; lia|exact N].
  - apply M, C68_bounds. lra.
  - apply M, C68_bounds. lra.
  - rewrite E3. apply Rle_div_l; [exact N|]. rewrite Rmult_1_l, <- INR_IZR_INZ. apply le_INR, M3.
Qed.
Print Assumptions C68_density.
(** a channel is one exactly where the orbit has not left its ball after n steps *)
Theorem C68_inside b n c : 0 <= b -> (escape b n c = Z.of_nat n <-> stays b c n).
Proof.
  intros B. destruct (C68_count b n c B) as (m&E&M&S&F). rewrite E. split.
  - intros Q. apply Nat2Z.inj in Q. subst m. exact S.
  - intros Q. f_equal. destruct (Nat.eq_dec m n) as [X|X]; [exact X|]. specialize (F ltac:(lia)). specialize (Q (Datatypes.S m) ltac:(lia)). lra.
Qed.
Print Assumptions C68_inside.
(** at the origin all three are one *)
Example C68_case : fractal_density 1000 (V3 0 0 0) = V3 1 1 1 /\ stays (1 / 10) (C3 0 0 0) 1000.
Proof.
  assert (O : forall k, orbit (C3 0 0 0) k = C3 0 0 0). { induction k as [|k IH]; [reflexivity|]. cbn [orbit]. rewrite IH. cbn. f_equal; ring. }
  assert (S : forall b, 0 <= b -> stays b (C3 0 0 0) 1000). { intros b B i _. rewrite O, zero_norm. exact B. }
  split; [|apply S; lra]. unfold fractal_density. cbn [vx vy vz]. rewrite Rmult_0_l.
  assert (E : forall b, 0 <= b -> IZR (escape b 1000 (C3 0 0 0)) / INR 1000 = 1).
  { intros b B. rewrite (proj2 (C68_inside b 1000 (C3 0 0 0) B) (S b B)), <- INR_IZR_INZ. field. apply not_0_INR. discriminate. }
  rewrite !E by lra. reflexivity.
Qed.
(** a point far away leaves at once *)
Example C68_outside_case : escape 2 1000 (C3 2 0 0) = 0%Z.
Proof.
  destruct (C68_count 2 1000 (C3 2 0 0) ltac:(lra)) as (m&->&_&S&_). destruct m as [|m]; [reflexivity|]. exfalso. specialize (S 1%nat ltac:(lia)). cbn in S. lra.
Qed.
