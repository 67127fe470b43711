(** Throughput and radiance in single precision stay finite. *)
From Coq Require Import ZArith Reals Lra Lia Bool List Psatz.
From Flocq Require Import Core BinarySingleNaN.
From Verif.Base Require Import F32.
From Verif.Model Require Import FloatDirs FloatPath.
From Verif.Spec Require Import FloatDirsSpec FloatPathSpec.
From Verif.Proof Require Import FloatDirsProof.
Import ListNotations.
Open Scope R_scope.

Lemma flt_spec x y : is_finite x = true -> is_finite y = true -> (flt x y = true <-> B2R x < B2R y).
Proof.
  intros X Y. unfold flt. rewrite (Bcompare_correct 24 128 x y X Y). destruct (Rcompare_spec (B2R x) (B2R y)); split; intros; try discriminate; try lra; reflexivity.
Qed.
Lemma flt_false x y : is_finite x = true -> is_finite y = true -> (flt x y = false <-> B2R y <= B2R x).
Proof.
  intros X Y. pose proof (flt_spec x y X Y) as H. destruct (flt x y); split; intros A; try discriminate; try reflexivity.
  - assert (B2R x < B2R y) by tauto. lra.
  - destruct (Rle_dec (B2R y) (B2R x)) as [L|L]; [exact L|]. assert (false = true) by (apply H; lra). discriminate.
Qed.
Lemma f1_val : B2R f1 = 1 /\ is_finite f1 = true.
Proof. apply (fZ_small 1). lia. Qed.
Lemma f0_val : B2R f0 = 0 /\ is_finite f0 = true.
Proof. split; reflexivity. Qed.
Lemma fis0_spec x : is_finite x = true -> (fis0 x = true <-> B2R x = 0).
Proof.
  intros X. unfold fis0. rewrite (Bcompare_correct 24 128 x f0 X eq_refl). change (B2R f0) with 0.
  destruct (Rcompare_spec (B2R x) 0); split; intros; try discriminate; try lra; reflexivity.
Qed.

Lemma max_ok v : is_finite (fvx v) = true -> is_finite (fvy v) = true -> is_finite (fvz v) = true ->
  is_finite (fv_maxValue v) = true /\ B2R (fvx v) <= B2R (fv_maxValue v) /\ B2R (fvy v) <= B2R (fv_maxValue v) /\ B2R (fvz v) <= B2R (fv_maxValue v) /\
  (fv_maxValue v = fvx v \/ fv_maxValue v = fvy v \/ fv_maxValue v = fvz v).
Proof.
  intros X Y Z. unfold fv_maxValue. cbv zeta.
  assert (M : exists m, (if flt (fvx v) (fvy v) then fvy v else fvx v) = m /\ is_finite m = true /\ B2R (fvx v) <= B2R m /\ B2R (fvy v) <= B2R m /\ (m = fvx v \/ m = fvy v)).
  { destruct (flt (fvx v) (fvy v)) eqn:E; eexists; (split; [reflexivity|]).
    - apply flt_spec in E; auto. repeat split; auto; lra.
    - apply flt_false in E; auto. repeat split; auto; lra. }
  destruct M as (m & -> & F & M1 & M2 & C). destruct (flt m (fvz v)) eqn:E.
  - apply flt_spec in E; auto. repeat split; auto; lra.
  - apply flt_false in E; auto. repeat split; auto; try lra. tauto.
Qed.

(** the roulette *)
Lemma rr_ok a v : col_in a v -> let m := B2R (fv_maxValue v) in
  is_finite (f_rr v) = true /\ B2R (f_rr v) = Rmin m 1 /\ 0 <= m <= a /\ B2R (fvx v) <= m /\ B2R (fvy v) <= m /\ B2R (fvz v) <= m.
Proof.
  intros ((X & BX) & (Y & BY) & (Z & BZ)). cbv zeta. destruct (max_ok v X Y Z) as (F & A & B & C & D). destruct f1_val as (V1 & F1).
  assert (0 <= B2R (fv_maxValue v) <= a) by (destruct D as [-> | [-> | ->]]; assumption).
  unfold f_rr, fmin. destruct (flt f1 (fv_maxValue v)) eqn:E.
  - apply flt_spec in E; auto. rewrite V1 in *. rewrite Rmin_right by lra. auto 8.
  - apply flt_false in E; auto. rewrite V1 in *. rewrite Rmin_left by lra. auto 8.
Qed.
Lemma ftol_val : p2 (-14) <= B2R ftol /\ is_finite ftol = true.
Proof.
  destruct (f_of_small 13743896 (-37) ltac:(lia) ltac:(lia)) as (A & B). split; [|exact B]. unfold ftol. rewrite A.
  replace (-14)%Z with (23 + -37)%Z by lia. rewrite bpow_plus. apply Rmult_le_compat_r; [apply bpow_ge_0|]. simpl. lra.
Qed.
Lemma guard a v : col_in a v -> fv_isZero v = false -> p2 (-14) <= B2R (fv_maxValue v).
Proof.
  intros ((X & BX) & (Y & BY) & (Z & BZ)) G. destruct (max_ok v X Y Z) as (F & A & B & C & D). destruct ftol_val as (T & FT).
  assert (K : forall x, is_finite x = true -> 0 <= B2R x -> flt (Babs x) ftol = false -> p2 (-14) <= B2R x).
  { intros x Fx Px E. apply flt_false in E; [|now rewrite is_finite_Babs|exact FT]. rewrite B2R_Babs, Rabs_pos_eq in E by exact Px. lra. }
  unfold fv_isZero in G. apply andb_false_iff in G as [G|G]; [apply andb_false_iff in G as [G|G]|]; apply K in G; tauto || lra.
Qed.

(** products of numbers that are not negative *)
Lemma fmul_in a b x y k : num_in a x -> num_in b y -> a * b <= p2 k -> (-149 <= k < 128)%Z ->
  B2R (fmul x y) = rnd (B2R x * B2R y) /\ num_in (p2 k) (fmul x y).
Proof.
  intros (X & BX) (Y & BY) H K. assert (P : 0 <= B2R x * B2R y <= p2 k) by nra.
  assert (Q : 0 <= rnd (B2R x * B2R y) <= p2 k) by (split; [apply rnd_pos; lra|apply rnd_le_fmt; [apply p2_fmt; lia|lra]]).
  destruct (fmul_ok x y X Y) as (A & B). { rewrite Rabs_pos_eq by lra. eapply Rle_lt_trans; [apply Q|]. apply p2_big. lia. }
  split; [exact A|]. split; [exact B|]. now rewrite A.
Qed.
(** multiplying by a weight in [0,1] does not make a number larger *)
Lemma fmul_shrink a x y : a <= p2 100 -> num_in a x -> num_in 1 y -> num_in a (fmul x y) /\ B2R (fmul x y) <= B2R x.
Proof.
  intros A X Y. pose proof X as (FX & BX). pose proof Y as (FY & BY).
  destruct (fmul_in a 1 x y 100 X Y ltac:(lra) ltac:(lia)) as (E & (F & B)).
  assert (B2R (fmul x y) <= B2R x). { rewrite E. apply rnd_le_fmt; [apply fmt_of|]. nra. }
  split; [|assumption]. split; [exact F|]. lra.
Qed.
Lemma weigh_in a beta w : a <= p2 100 -> col_in a beta -> (forall x, w = Some x -> col_in 1 x) -> col_in a (f_weigh beta w).
Proof.
  intros A (X & Y & Z) W. destruct w as [w|]; [|split; [|split]; assumption]. destruct (W w eq_refl) as (WX & WY & WZ).
  split; [|split]; now apply fmul_shrink.
Qed.

(** adding light *)
Lemma fadd_in L D x y : num_in L x -> num_in D y -> (1 + u32) * (L + D) <= p2 120 -> num_in ((1 + u32) * (L + D)) (fadd x y).
Proof.
  intros (X & BX) (Y & BY) H. assert (U : 0 < u32) by (unfold u32; lra).
  pose proof (rnd_add_err (B2R x) (B2R y) (fmt_of x) (fmt_of y)) as E. rewrite (Rabs_pos_eq (B2R x + B2R y)) in E by lra. apply Rabs_le_inv in E.
  assert (0 <= rnd (B2R x + B2R y)) by (apply rnd_pos; lra).
  assert (rnd (B2R x + B2R y) <= (1 + u32) * (L + D)) by nra.
  destruct (fadd_ok x y X Y) as (A & B). { rewrite Rabs_pos_eq by lra. assert (p2 120 < big) by (apply p2_big; lia). lra. }
  split; [exact B|]. rewrite A. lra.
Qed.
Lemma add_in L D x y : col_in L x -> col_in D y -> (1 + u32) * (L + D) <= p2 120 -> col_in ((1 + u32) * (L + D)) (fv_add x y).
Proof. intros (A & B & C) (E & F & G) H. split; [|split]; now apply fadd_in. Qed.
Lemma light_in a beta l k : a <= 2 -> col_in a beta -> col_in (p2 k) l -> (-140 <= k <= 80)%Z -> col_in (p2 (k + 1)) (fv_mul beta l).
Proof.
  intros A (X & Y & Z) (LX & LY & LZ) K. assert (a * p2 k <= p2 (k + 1)). { rewrite bpow_plus. simpl (p2 1). pose proof (bpow_gt_0 radix2 k). nra. }
  split; [|split]; (eapply fmul_in; [eassumption|eassumption|assumption|lia]).
Qed.

(** one bounce *)
Lemma bounce_full b m x al c p rr : 1 <= b <= 2 -> 0 <= m <= b -> num_in m x -> is_finite rr = true -> B2R rr = Rmin m 1 -> p2 (-24) <= B2R rr ->
  (exists a, num_in a al) -> (exists a, num_in a c) -> is_finite p = true -> p2 (-40) <= B2R p <= p2 40 -> B2R al * B2R c <= B2R p * (1 + 2 * u32) ->
  num_in (b * (1 + 9 * u32)) (fmul x (fdiv (fmul al c) (fmul p rr))) /\
  B2R (fmul x (fdiv (fmul al c) (fmul p rr))) = rnd (B2R x * rnd (rnd (B2R al * B2R c) / rnd (B2R p * B2R rr))).
Proof.
  intros Bb Bm (FX & BX) FR ER LR (a1 & FA & BA) (a2 & FC & BC) FP BP E.
  assert (T40 : 0 < p2 (-40)) by apply bpow_gt_0. assert (T24 : 0 < p2 (-24)) by apply bpow_gt_0. assert (U : 0 < u32 <= / 10000000) by (unfold u32; lra).
  assert (R1 : B2R rr <= 1) by (rewrite ER; apply Rmin_r).
  (* numerator *)
  assert (A0 : 0 <= B2R al * B2R c) by nra.
  assert (Tp0 : 0 < tiny <= u32 * p2 (-40)).
  { unfold tiny, u32. split; [apply Rinv_0_lt_compat, pow_lt; lra|]. replace (p2 (-40)) with (/ 2 ^ 40) by (rewrite (pow_IZR 2 40); reflexivity).
    rewrite <- Rinv_mult, <- pow_add. apply Rinv_le_contravar; [apply pow_lt; lra|]. apply Rle_pow; [lra|lia]. }
  assert (QA : 0 <= rnd (B2R al * B2R c) <= B2R p * (1 + 9 / 2 * u32)).
  { split; [apply rnd_pos; lra|]. pose proof (rnd_err (B2R al * B2R c)) as Er. rewrite (Rabs_pos_eq (B2R al * B2R c)) in Er by lra. apply Rabs_le_inv in Er.
    assert (u32 * (B2R al * B2R c) <= u32 * (B2R p * (1 + / 2))). { apply Rmult_le_compat_l; [lra|]. eapply Rle_trans; [exact E|]. apply Rmult_le_compat_l; lra. }
    assert (u32 * p2 (-40) <= u32 * B2R p) by (apply Rmult_le_compat_l; lra). lra. }
  assert (P41 : p2 40 < big) by (apply p2_big; lia).
  destruct (fmul_ok al c FA FC) as (EA & FAC).
  { rewrite Rabs_pos_eq by lra. apply Rle_lt_trans with (p2 40 * (1 + 1)); [eapply Rle_trans; [apply QA|]; apply Rmult_le_compat; lra|].
    assert (p2 41 < big) by (apply p2_big; lia). change 41%Z with (40 + 1)%Z in *. rewrite bpow_plus in *. simpl (p2 1) in *. lra. }
  (* denominator *)
  assert (D0 : p2 (-64) <= B2R p * B2R rr <= p2 40). { change (-64)%Z with (-40 + -24)%Z. rewrite bpow_plus. split; nra. }
  assert (QD : p2 (-64) <= rnd (B2R p * B2R rr) <= p2 40) by (split; [apply rnd_ge_fmt|apply rnd_le_fmt]; try apply p2_fmt; lia || lra).
  assert (T64 : 0 < p2 (-64)) by apply bpow_gt_0.
  destruct (fmul_ok p rr FP FR) as (ED & FD); [rewrite Rabs_pos_eq by lra; lra|].
  assert (Tt : tiny <= u32 * u32 * p2 (-64) /\ 0 < tiny).
  { unfold tiny, u32. split; [|apply Rinv_0_lt_compat, pow_lt; lra]. replace (p2 (-64)) with (/ 2 ^ 64) by (rewrite (pow_IZR 2 64); reflexivity).
    rewrite <- !Rinv_mult, <- !pow_add. apply Rinv_le_contravar; [apply pow_lt; lra|]. apply Rle_pow; [lra|lia]. }
  destruct Tt as (Tt & Tp). set (d := B2R p * B2R rr) in *.
  assert (Dl : d * (1 - u32 - / 1000 * u32) <= rnd d).
  { pose proof (rnd_err d) as Er. rewrite (Rabs_pos_eq d) in Er by lra. apply Rabs_le_inv in Er.
    assert (u32 * u32 * p2 (-64) <= / 1000 * u32 * d). { rewrite Rmult_assoc, (Rmult_comm (/ 1000)), Rmult_assoc. apply Rmult_le_compat_l; [lra|]. nra. } lra. }
  (* quotient *)
  set (D := rnd d) in *. set (A := rnd (B2R al * B2R c)) in *. assert (D00 : 0 < D) by lra. assert (RR : 0 < B2R rr) by lra.
  assert (Iv : 0 < / B2R rr) by (apply Rinv_0_lt_compat; lra).
  assert (I1 : 1 <= / B2R rr) by (rewrite <- Rinv_1; apply Rinv_le_contravar; lra).
  assert (Q1 : 0 <= A / D <= / B2R rr * (1 + 6 * u32)).
  { split; [apply Rmult_le_pos; [lra|left; now apply Rinv_0_lt_compat]|]. apply Rmult_le_reg_r with D; [exact D00|]. unfold Rdiv. rewrite Rmult_assoc, Rinv_l, Rmult_1_r by lra.
    apply Rle_trans with (B2R p * (1 + 9 / 2 * u32)); [lra|]. apply Rle_trans with (/ B2R rr * (1 + 6 * u32) * (d * (1 - u32 - / 1000 * u32))).
    - unfold d. replace (/ B2R rr * (1 + 6 * u32) * (B2R p * B2R rr * (1 - u32 - / 1000 * u32))) with (B2R p * ((1 + 6 * u32) * (1 - u32 - / 1000 * u32))) by (field; lra).
      apply Rmult_le_compat_l; [lra|]. nra.
    - apply Rmult_le_compat_l; [|exact Dl]. apply Rmult_le_pos; lra. }
  set (w := A / D) in *. pose proof (rnd_err w) as Ew. rewrite (Rabs_pos_eq w) in Ew by lra. apply Rabs_le_inv in Ew.
  assert (Tu : tiny <= / 1000 * u32). { assert (p2 (-64) <= 1) by (change 1 with (p2 0); apply bpow_le; lia). nra. }
  assert (W1 : 0 <= rnd w <= / B2R rr * (1 + 7 * u32 + / 10 * u32)).
  { split; [apply rnd_pos; lra|]. assert (u32 * w <= u32 * (/ B2R rr * (1 + 6 * u32))) by (apply Rmult_le_compat_l; lra).
    assert (u32 * (/ B2R rr * (1 + 6 * u32)) <= / B2R rr * (u32 + / 100 * u32)). { replace (u32 * (/ B2R rr * (1 + 6 * u32))) with (/ B2R rr * (u32 * (1 + 6 * u32))) by ring. apply Rmult_le_compat_l; [lra|]. nra. }
    assert (/ 1000 * u32 <= / B2R rr * (/ 1000 * u32)) by nra. rewrite !Rmult_plus_distr_l in *. lra. }
  assert (IU : / B2R rr <= p2 24). { replace (p2 24) with (/ p2 (-24)) by (rewrite <- bpow_opp; reflexivity). apply Rinv_le_contravar; lra. }
  assert (W2 : rnd w <= p2 25). { change 25%Z with (24 + 1)%Z. rewrite bpow_plus. simpl (p2 1). nra. }
  destruct (fdiv_ok (fmul al c) (fmul p rr) FAC) as (EQ & FQ).
  { rewrite ED. fold D. lra. }
  { rewrite EA, ED. fold A D w. rewrite Rabs_pos_eq by lra. assert (p2 25 < big) by (apply p2_big; lia). lra. }
  rewrite EA, ED in EQ. fold A D w in EQ.
  (* product *)
  assert (MX : B2R x * / B2R rr <= b).
  { apply Rle_trans with (m * / B2R rr); [apply Rmult_le_compat_r; lra|]. rewrite ER. unfold Rmin. destruct (Rle_dec m 1) as [C|C].
    - rewrite ER, Rmin_left in RR by lra. rewrite Rinv_r by lra. lra.
    - rewrite Rinv_1. lra. }
  assert (MX0 : 0 <= B2R x * / B2R rr) by (apply Rmult_le_pos; lra).
  assert (X1 : 0 <= B2R x * rnd w <= b * (1 + 7 * u32 + / 10 * u32)).
  { split; [apply Rmult_le_pos; lra|]. apply Rle_trans with (B2R x * (/ B2R rr * (1 + 7 * u32 + / 10 * u32))); [apply Rmult_le_compat_l; lra|].
    rewrite <- Rmult_assoc. apply Rmult_le_compat_r; lra. }
  set (y := B2R x * rnd w) in *. pose proof (rnd_err y) as Ex. rewrite (Rabs_pos_eq y) in Ex by lra. apply Rabs_le_inv in Ex.
  assert (X2 : 0 <= rnd y <= b * (1 + 9 * u32)).
  { split; [apply rnd_pos; lra|]. assert (Yb : y <= b * (1 + / 10)). { eapply Rle_trans; [apply X1|]. apply Rmult_le_compat_l; lra. }
    assert (Yu : u32 * y <= u32 * (b * (1 + / 10))) by (apply Rmult_le_compat_l; lra).
    assert (Ub : 1 * u32 <= b * u32) by (apply Rmult_le_compat_r; lra). rewrite !Rmult_plus_distr_l in *. lra. }
  destruct (fmul_ok x _ FX FQ) as (EF & FF).
  { rewrite EQ. fold y. rewrite Rabs_pos_eq by lra. assert (P2 : p2 2 < big) by (apply p2_big; lia). simpl (p2 2) in P2.
    assert (b * (1 + 9 * u32) <= 2 * (1 + / 10)) by (apply Rmult_le_compat; lra). lra. }
  split; [split; [exact FF|]|]; rewrite EF, EQ; [exact X2|reflexivity].
Qed.
Lemma bounce_in b m x al c p rr : 1 <= b <= 2 -> 0 <= m <= b -> num_in m x -> is_finite rr = true -> B2R rr = Rmin m 1 -> p2 (-24) <= B2R rr ->
  (exists a, num_in a al) -> (exists a, num_in a c) -> is_finite p = true -> p2 (-40) <= B2R p <= p2 40 -> B2R al * B2R c <= B2R p * (1 + 2 * u32) ->
  num_in (b * (1 + 9 * u32)) (fmul x (fdiv (fmul al c) (fmul p rr))).
Proof. intros. now apply (bounce_full b m). Qed.

Lemma scatter_in b m x rr : 1 <= b <= 2 -> 0 <= m <= b -> fmt m -> num_in m x -> is_finite rr = true -> B2R rr = Rmin m 1 -> 0 < B2R rr ->
  num_in b (fdiv x rr).
Proof.
  intros Bb Bm Fm (FX & BX) FR ER R0.
  assert (I0 : 0 < / B2R rr) by now apply Rinv_0_lt_compat.
  assert (Q : 0 <= B2R x / B2R rr <= Rmax m 1).
  { split; [apply Rmult_le_pos; lra|]. apply Rle_trans with (m * / B2R rr); [apply Rmult_le_compat_r; lra|]. rewrite ER in *. unfold Rmin, Rmax in *. destruct (Rle_dec m 1).
    - rewrite Rinv_r by lra. lra.
    - rewrite Rinv_1. lra. }
  assert (Mb : Rmax m 1 <= b) by (apply Rmax_lub; lra). assert (FM : fmt (Rmax m 1)). { unfold Rmax. destruct (Rle_dec m 1); [apply (p2_fmt 0); lia|exact Fm]. }
  assert (R : 0 <= rnd (B2R x / B2R rr) <= b). { split; [apply rnd_pos; lra|]. apply Rle_trans with (Rmax m 1); [|exact Mb]. apply rnd_le_fmt; [exact FM|lra]. }
  destruct (fdiv_ok x rr FX ltac:(lra)) as (E & F). { rewrite Rabs_pos_eq by lra. assert (P2 : p2 2 < big) by (apply p2_big; lia). simpl (p2 2) in P2. lra. }
  split; [exact F|]. now rewrite E.
Qed.

Lemma pow_bound x n : 0 <= x -> INR n * x <= / 2 -> (1 + x) ^ n <= 1 + 2 * (INR n * x).
Proof.
  intros X. induction n as [|n IH]; intros H; [simpl; lra|]. rewrite S_INR in H. assert (Hn : INR n * x <= / 2) by lra. specialize (IH Hn).
  simpl pow. rewrite S_INR. assert (0 <= INR n) by apply pos_INR. assert (N0 : 0 <= INR n * x) by nra.
  apply Rle_trans with ((1 + x) * (1 + 2 * (INR n * x))); [apply Rmult_le_compat_l; lra|]. nra.
Qed.

Section Bound.
Variables (k : Z) (sky : option fvec).
Hypothesis K : (-140 <= k <= 80)%Z.
Hypothesis Sky : forall s, sky = Some s -> col_in (p2 k) s.
(** the radiance after [n] turns that start with radiance [L] *)
Definition grown (n : nat) (L : R) : R := (L + INR n * p2 (k + 1)) * (1 + u32) ^ n.

Lemma grown_S n L : grown n ((1 + u32) * (L + p2 (k + 1))) <= grown (S n) L.
Proof.
  unfold grown. rewrite S_INR. simpl pow. assert (U : 0 < u32) by (unfold u32; lra). assert (P : 0 < p2 (k + 1)) by apply bpow_gt_0.
  assert (Q : 0 < (1 + u32) ^ n) by (apply pow_lt; lra). rewrite <- Rmult_assoc. apply Rmult_le_compat_r; [lra|].
  assert (0 <= INR n) by apply pos_INR. assert (0 <= INR n * p2 (k + 1)) by nra. nra.
Qed.
Lemma grown_ge n L : 0 <= L -> L <= grown n L.
Proof.
  intros H. unfold grown. assert (U : 0 < u32) by (unfold u32; lra). assert (Q : 1 <= (1 + u32) ^ n) by (apply pow_R1_Rle; lra).
  assert (P : 0 < p2 (k + 1)) by apply bpow_gt_0. assert (0 <= INR n) by apply pos_INR. assert (0 <= INR n * p2 (k + 1)) by nra. nra.
Qed.
Lemma col_mono a b v : a <= b -> col_in a v -> col_in b v.
Proof. intros H ((X & BX) & (Y & BY) & (Z & BZ)). repeat split; try assumption; lra. Qed.

Lemma f_path_in l : forall L b Li beta, 0 <= L -> 1 <= b -> b * (1 + 9 * u32) ^ length l <= 2 -> grown (S (length l)) L <= p2 120 ->
  List.Forall (turn_ok (p2 k)) l -> col_in L Li -> col_in b beta -> col_in (grown (S (length l)) L) (f_path l sky Li beta).
Proof.
  assert (U : 0 < u32 <= / 10000000) by (unfold u32; lra). assert (PK : 0 < p2 (k + 1)) by apply bpow_gt_0.
  induction l as [|e l IH]; intros L b Li beta L0 B1 BB GB Ok HLi Hb.
  - cbn [f_path length] in *. assert (HL : col_in (grown 1 L) Li) by (eapply col_mono; [apply grown_ge, L0|exact HLi]).
    destruct sky as [sk|] eqn:Es; [|exact HL]. destruct (fv_isZero beta); [exact HL|].
    assert (E : grown 1 L = (1 + u32) * (L + p2 (k + 1))) by (unfold grown; simpl; ring). rewrite E in *.
    apply add_in; [exact HLi| |exact GB]. apply light_in with (a := b); auto. simpl in BB. lra.
  - inversion Ok as [|? ? Oe Ol]; subst. cbn [length] in *. set (n := length l) in *.
    assert (Pn : 1 <= (1 + 9 * u32) ^ n) by (apply pow_R1_Rle; lra). simpl pow in BB.
    assert (b2 : b * (1 + 9 * u32) * (1 + 9 * u32) ^ n <= 2) by (rewrite Rmult_assoc; exact BB).
    assert (bq : b * (1 + 9 * u32) ^ n <= 2). { eapply Rle_trans; [|exact b2]. apply Rmult_le_compat_r; [lra|]. nra. }
    assert (bb : b <= 2) by nra.
    assert (GM : forall L', 0 <= L' -> L' <= (1 + u32) * (L + p2 (k + 1)) -> grown (S n) L' <= grown (S (S n)) L).
    { intros L' A B. eapply Rle_trans; [|apply grown_S]. unfold grown. apply Rmult_le_compat_r; [apply pow_le; lra|lra]. }
    assert (G1 : (1 + u32) * (L + p2 (k + 1)) <= grown (S (S n)) L). { eapply Rle_trans; [apply (grown_ge (S n))|apply grown_S]. nra. }
    assert (LL : 0 <= L <= (1 + u32) * (L + p2 (k + 1))) by nra.
    assert (HL : col_in (grown (S (S n)) L) Li) by (eapply col_mono; [apply grown_ge, L0|exact HLi]).
    assert (Next : forall L' b' Li' beta', 0 <= L' -> L' <= (1 + u32) * (L + p2 (k + 1)) -> 1 <= b' -> b' <= b * (1 + 9 * u32) -> col_in L' Li' -> col_in b' beta' ->
              col_in (grown (S (S n)) L) (f_path l sky Li' beta')).
    { intros L' b' Li' beta' A B C D E F. eapply col_mono; [apply (GM L' A B)|]. apply (IH L' b'); auto.
      - eapply Rle_trans; [|exact b2]. apply Rmult_le_compat_r; lra.
      - eapply Rle_trans; [apply (GM L' A B)|exact GB]. }
    cbn [f_path]. destruct (fv_isZero beta) eqn:Z0; [exact HL|]. assert (b100 : b <= p2 100) by (apply Rle_trans with (p2 1); [simpl; lra|apply bpow_le; lia]).
    pose proof (guard b beta Hb Z0) as Gd. assert (T14 : p2 (-24) <= p2 (-14)) by (apply bpow_le; lia). assert (T23 : p2 (-24) <= p2 (-23)) by (apply bpow_le; lia).
    assert (T24 : 0 < p2 (-24)) by apply bpow_gt_0. assert (T1 : p2 (-14) <= 1) by (change 1 with (p2 0); apply bpow_le; lia).
    destruct e as [w phase thr draw|w|w v].
    + destruct Oe as (Ow & Oph & Oth & Fd & Dd). pose proof (weigh_in b beta (Some w) b100 Hb ltac:(intros ? [= <-]; exact Ow)) as Hb'. cbn [f_weigh] in Hb'.
      destruct (rr_ok b _ Hb') as (FR & ER & Bm & Mx & My & Mz). set (bw := fv_mul beta w) in *. set (m := B2R (fv_maxValue bw)) in *.
      assert (Hs : col_in b (fv_scale bw phase)). { destruct Hb' as (X & Y & Z). split; [|split]; now apply fmul_shrink. }
      assert (Hl : col_in (p2 (k + 1)) (fv_add (FV f0 f0 f0) (fv_mul (fv_scale bw phase) thr))).
      { pose proof (light_in b _ thr k bb Hs Oth K) as (X & Y & Z).
        assert (Z' : forall x, num_in (p2 (k + 1)) x -> num_in (p2 (k + 1)) (fadd f0 x)).
        { intros x (Fx & Bx). destruct (fadd_exact f0 x eq_refl Fx) as (A & B).
          - change (B2R f0) with 0. rewrite Rplus_0_l. apply fmt_of.
          - change (B2R f0) with 0. rewrite Rplus_0_l. apply small.
          - split; [exact B|]. rewrite A. change (B2R f0) with 0. rewrite Rplus_0_l. exact Bx. }
        split; [|split]; apply Z'; assumption. }
      assert (HL1 : col_in ((1 + u32) * (L + p2 (k + 1))) (fv_add Li (fv_add (FV f0 f0 f0) (fv_mul (fv_scale bw phase) thr)))) by (apply add_in; auto; lra).
      destruct (flt (f_rr bw) draw) eqn:Ed; [eapply col_mono; [exact G1|exact HL1]|]. apply flt_false in Ed; auto.
      apply (Next ((1 + u32) * (L + p2 (k + 1))) b); auto; try lra; try nra.
      destruct Hb' as ((X & BX) & (Y & BY) & (Z & BZ)). assert (Fm : fmt m) by apply fmt_of.
      split; [|split]; apply (scatter_in b m); try assumption; try lra; split; try assumption; lra.
    + apply (Next L b); auto; try lra; try nra. apply weigh_in; auto.
    + destruct Oe as (((al & Oal) & (cc & Oc) & Fd & Fp & Op & Oe) & Ol' & Ow).
      pose proof (weigh_in b beta w b100 Hb ltac:(intros x E; apply Ow, E)) as Hb'. destruct (rr_ok b _ Hb') as (FR & ER & Bm & Mx & My & Mz).
      set (bw := f_weigh beta w) in *. set (m := B2R (fv_maxValue bw)) in *.
      assert (HL1 : col_in ((1 + u32) * (L + p2 (k + 1))) (fv_add Li (fv_mul bw (v_light v)))) by (apply add_in; auto; [now apply (light_in b)|lra]).
      destruct (flt (f_rr bw) (v_draw v)) eqn:Ed; [eapply col_mono; [exact G1|exact HL1]|]. apply flt_false in Ed; auto.
      destruct (fis0 (v_pdf v)) eqn:Ep; [eapply col_mono; [exact G1|exact HL1]|].
      assert (Np : B2R (v_pdf v) <> 0). { intros E. apply (fis0_spec _ Fp) in E. congruence. }
      assert (Rr : p2 (-24) <= B2R (f_rr bw)).
      { destruct w as [w|]; [destruct (Ow w eq_refl); lra|]. rewrite ER. apply Rmin_glb; [|lra]. unfold m, bw. cbn [f_weigh]. lra. }
      apply (Next ((1 + u32) * (L + p2 (k + 1))) (b * (1 + 9 * u32))); auto; try lra; try nra.
      destruct (Oe Np) as (Ex & Ey & Ez). destruct Hb' as ((X & BX) & (Y & BY) & (Z & BZ)). destruct Oal as (A1 & A2 & A3).
      destruct Op as [Op|Op]; [contradiction|].
      split; [|split]; cbn [fv_mul fv_div fv_scale fvx fvy fvz]; apply (bounce_in b m); eauto; try lra; split; auto; lra.
Qed.
End Bound.

(** what is not a number stays so *)
Lemma nan_eq (x : f32) : is_nan x = true -> x = B754_nan.
Proof. destruct x; try discriminate; reflexivity. Qed.
Lemma fadd_nan_r x : fadd x B754_nan = B754_nan. Proof. destruct x; reflexivity. Qed.
Lemma fmul_nan_l x : fmul B754_nan x = B754_nan. Proof. reflexivity. Qed.
Lemma fdiv_nan_l x : fdiv B754_nan x = B754_nan. Proof. reflexivity. Qed.
Lemma flt_nan_l x : flt B754_nan x = false. Proof. reflexivity. Qed.
Definition nanv : fvec := FV B754_nan B754_nan B754_nan.
Lemma add_nan v : fv_add v nanv = nanv.
Proof. unfold fv_add, nanv. cbn [fvx fvy fvz]. now rewrite !fadd_nan_r. Qed.
Lemma nan_path sk l : forall Li, f_path l (Some sk) Li nanv = nanv.
Proof.
  induction l as [|e l IH]; intros Li.
  - cbn [f_path]. change (fv_isZero nanv) with false. cbv iota. change (fv_mul nanv sk) with nanv. apply add_nan.
  - cbn [f_path]. change (fv_isZero nanv) with false. cbv iota. destruct e as [w ph thr d|w|w v].
    + change (fv_mul nanv w) with nanv. change (f_rr nanv) with (@B754_nan 24 128). change (flt B754_nan d) with false. cbv iota. apply IH.
    + assert (f_weigh nanv w = nanv) as -> by (destruct w; reflexivity). apply IH.
    + assert (f_weigh nanv w = nanv) as -> by (destruct w; reflexivity). change (f_rr nanv) with (@B754_nan 24 128). change (flt B754_nan (v_draw v)) with false. cbv iota.
      change (fv_mul nanv (v_light v)) with nanv. rewrite add_nan. destruct (fis0 (v_pdf v)); [reflexivity|]. apply IH.
Qed.
Lemma zero_div x s (t : f32) : t = B754_zero s -> forall s', fmul (B754_zero s') (fdiv x t) = B754_nan.
Proof. intros -> s'. destruct x as [a|a| |a m e H]; reflexivity. Qed.
Lemma zero_draw v rest sk : is_finite (v_pdf v) = true -> B2R (v_pdf v) <> 0 -> v_draw v = f0 ->
  f_sample (ESurface (Some (FV f0 f0 f0)) v :: rest) (Some sk) = nanv.
Proof.
  intros FP NP D. unfold f_sample. cbn [f_path].
  assert (Z1 : fv_isZero (FV f1 f1 f1) = false) by (vm_compute; reflexivity). rewrite Z1.
  assert (B0 : f_weigh (FV f1 f1 f1) (Some (FV f0 f0 f0)) = FV f0 f0 f0) by (vm_compute; reflexivity). rewrite B0.
  assert (R0 : f_rr (FV f0 f0 f0) = f0) by (vm_compute; reflexivity). rewrite R0, D. change (flt f0 f0) with false. cbv iota.
  destruct (fis0 (v_pdf v)) eqn:E; [apply fis0_spec in E; [contradiction|exact FP]|].
  assert (P0 : exists s, fmul (v_pdf v) f0 = B754_zero s). { destruct (v_pdf v) as [a|a| |a m e H]; try discriminate; eexists; reflexivity. }
  destruct P0 as (s & P0).
  assert (fv_mul (FV f0 f0 f0) (fv_div (fv_scale (v_albedo v) (v_cos v)) (fmul (v_pdf v) f0)) = nanv) as ->.
  { unfold fv_mul, fv_div, nanv. cbn [fvx fvy fvz]. unfold f0 at 1 3 5. now rewrite !(zero_div _ s _ P0). }
  apply nan_path.
Qed.
