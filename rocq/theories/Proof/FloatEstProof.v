(** The float sample against the exact estimate. *)
From Coq Require Import ZArith Reals List Bool Lia Lra Psatz.
From Flocq Require Import Core BinarySingleNaN.
Require Import Flocq.Prop.Relative.
From Verif.Base Require Import F32.
From Verif.Model Require Import FloatDirs FloatPath.
From Verif.Spec Require Import FloatDirsSpec FloatPathSpec FloatEstSpec.
From Verif.Proof Require Import FloatDirsProof FloatPathProof.
Import ListNotations.
Open Scope R_scope.

Lemma u_val : u32 = / 16777216. Proof. unfold u32. lra. Qed.
Lemma ro_val : 1 < ro <= 1 + 11 / 10 * u32.
Proof.
  unfold ro. rewrite u_val. split; [rewrite <- Rinv_1 at 1; apply Rinv_lt_contravar; lra|].
  apply Rmult_le_reg_r with (1 - / 16777216); [lra|]. rewrite Rinv_l by lra. lra.
Qed.
Lemma ro_pow k : 1 <= ro ^ k. Proof. apply pow_R1_Rle. pose proof ro_val. lra. Qed.
Lemma rel_refl x : rel 0 x x. Proof. unfold rel. simpl. lra. Qed.
Lemma rel_pos k x y : rel k x y -> 0 <= y -> 0 <= x.
Proof. intros (_ & B) H. pose proof (ro_pow k). destruct (Rle_dec 0 x); [assumption|]. exfalso. assert (ro ^ k * x <= 1 * x) by nra. lra. Qed.
Lemma rel_mono j k x y : (j <= k)%nat -> 0 <= x -> 0 <= y -> rel j x y -> rel k x y.
Proof.
  intros H X Y (A & B). pose proof ro_val. assert (P : ro ^ j <= ro ^ k) by (apply Rle_pow; [lra|exact H]). split; (eapply Rle_trans; [eassumption|apply Rmult_le_compat_r; assumption]).
Qed.
Lemma rel_trans j k x y z : rel j x y -> rel k y z -> rel (j + k) x z.
Proof.
  intros (A & B) (C & D). pose proof (ro_pow j). pose proof (ro_pow k). unfold rel. rewrite pow_add. split.
  - eapply Rle_trans; [exact A|]. rewrite Rmult_assoc. apply Rmult_le_compat_l; lra.
  - eapply Rle_trans; [exact D|]. rewrite (Rmult_comm (ro ^ j)), Rmult_assoc. apply Rmult_le_compat_l; lra.
Qed.
Lemma rel_mul j k x y x' y' : 0 <= x -> 0 <= x' -> 0 <= y -> 0 <= y' -> rel j x y -> rel k x' y' -> rel (j + k) (x * x') (y * y').
Proof.
  intros X X' Y Y' (A & B) (C & D). unfold rel. rewrite pow_add. pose proof (ro_pow j). pose proof (ro_pow k). split.
  - replace (ro ^ j * ro ^ k * (y * y')) with (ro ^ j * y * (ro ^ k * y')) by ring. apply Rmult_le_compat; assumption.
  - replace (ro ^ j * ro ^ k * (x * x')) with (ro ^ j * x * (ro ^ k * x')) by ring. apply Rmult_le_compat; assumption.
Qed.
Lemma rel_inv k x y : 0 < x -> 0 < y -> rel k x y -> rel k (/ x) (/ y).
Proof.
  intros X Y (A & B). pose proof (ro_pow k). assert (Z : forall a b, 0 < a -> 0 < b -> b <= ro ^ k * a -> / a <= ro ^ k * / b).
  { intros a b P Q L. apply Rmult_le_reg_r with (a * b); [now apply Rmult_lt_0_compat|]. replace (/ a * (a * b)) with b by (field; lra). replace (ro ^ k * / b * (a * b)) with (ro ^ k * a) by (field; lra). exact L. }
  split; apply Z; assumption.
Qed.
Lemma rel_add k x y x' y' : rel k x y -> rel k x' y' -> rel k (x + x') (y + y').
Proof. intros (A & B) (C & D). unfold rel. rewrite !Rmult_plus_distr_l. lra. Qed.
Lemma rel_max k x y x' y' : rel k x y -> rel k x' y' -> rel k (Rmax x x') (Rmax y y').
Proof.
  intros (A & B) (C & D). pose proof (ro_pow k). unfold rel. split; apply Rmax_lub.
  - eapply Rle_trans; [exact A|]. apply Rmult_le_compat_l; [lra|apply Rmax_l].
  - eapply Rle_trans; [exact C|]. apply Rmult_le_compat_l; [lra|apply Rmax_r].
  - eapply Rle_trans; [exact B|]. apply Rmult_le_compat_l; [lra|apply Rmax_l].
  - eapply Rle_trans; [exact D|]. apply Rmult_le_compat_l; [lra|apply Rmax_r].
Qed.
Lemma rel_min1 k x y : rel k x y -> rel k (Rmin x 1) (Rmin y 1).
Proof.
  intros (A & B). pose proof (ro_pow k). unfold rel, Rmin. destruct (Rle_dec x 1), (Rle_dec y 1); split; lra.
Qed.
(** rounding a number that is 0 or not subnormal *)
Lemma rnd_rel x : 0 <= x -> clear (p2 (-126)) x -> rel 1 (rnd x) x.
Proof.
  intros P [->|H]. { assert (E : rnd 0 = 0) by apply round_0, valid_rnd_N. rewrite E. unfold rel. simpl. lra. }
  assert (E : Rabs (rnd x - x) <= u32 * x).
  { rewrite <- (Rabs_pos_eq x) at 3 by exact P. pose proof (relative_error_N_FLT radix2 (-149) 24 ltac:(lia) (fun z => negb (Z.even z)) x) as Q.
    eapply Rle_trans; [apply Q; rewrite Rabs_pos_eq by exact P; exact H|]. apply Rmult_le_compat_r; [apply Rabs_pos|]. rewrite u_val. simpl. lra. }
  apply Rabs_le_inv in E. unfold rel. simpl. rewrite Rmult_1_r. assert (U := u_val).
  assert (R1 : ro * (1 - u32) = 1) by (unfold ro; rewrite Rinv_l; [ring|rewrite u_val; lra]). pose proof ro_val. split.
  - assert (1 + u32 <= ro). { apply Rmult_le_reg_r with (1 - u32); [lra|]. rewrite R1. rewrite U. lra. } nra.
  - assert (Q : ro * ((1 - u32) * x) <= ro * rnd x) by (apply Rmult_le_compat_l; lra). rewrite <- Rmult_assoc, R1 in Q. lra.
Qed.
Lemma rnd_rel_add (x y : f32) : 0 <= B2R x -> 0 <= B2R y -> rel 1 (rnd (B2R x + B2R y)) (B2R x + B2R y).
Proof.
  intros X Y. pose proof (rnd_add_err (B2R x) (B2R y) (fmt_of x) (fmt_of y)) as E. rewrite (Rabs_pos_eq (B2R x + B2R y)) in E by lra. set (s := B2R x + B2R y) in *.
  apply Rabs_le_inv in E. unfold rel. simpl. rewrite Rmult_1_r. assert (U := u_val). assert (S0 : 0 <= s) by (unfold s; lra).
  assert (R1 : ro * (1 - u32) = 1) by (unfold ro; rewrite Rinv_l; [ring|rewrite u_val; lra]). pose proof ro_val. split.
  - assert (1 + u32 <= ro). { apply Rmult_le_reg_r with (1 - u32); [lra|]. rewrite R1. rewrite U. lra. } nra.
  - assert (Q : ro * ((1 - u32) * s) <= ro * rnd s) by (apply Rmult_le_compat_l; lra). rewrite <- Rmult_assoc, R1 in Q. lra.
Qed.
Lemma ro_two k : INR k <= 3600004 -> ro ^ k <= 1 + 3 * (INR k * u32) /\ ro ^ k <= 2.
Proof.
  intros H. pose proof ro_val as (A & B). rewrite u_val in *. pose proof (pos_INR k).
  assert (P : ro ^ k <= (1 + 11 / 10 * / 16777216) ^ k) by (apply pow_incr; lra).
  pose proof (pow_bound (11 / 10 * / 16777216) k ltac:(lra) ltac:(lra)). lra.
Qed.
Lemma clear_rel a k x y : 0 <= x -> 0 <= y -> rel k x y -> ro ^ k <= 2 -> clear a y -> 0 <= a -> clear (a / 2) x.
Proof.
  intros X Y (A & B) K [->|H] A0; [left|right]; [rewrite Rmult_0_r in A; lra|]. assert (a <= ro ^ k * x) by lra. assert (ro ^ k * x <= 2 * x) by (apply Rmult_le_compat_r; lra). lra.
Qed.
Lemma clear_mul a b x y : 0 <= a -> 0 <= b -> clear a x -> clear b y -> clear (a * b) (x * y).
Proof. intros A B [->|X]; [left; ring|]. intros [->|Y]; [left; ring|]. right. apply Rmult_le_compat; assumption. Qed.
Lemma clear_le a b x : b <= a -> clear a x -> clear b x.
Proof. intros H [X|X]; [now left|right; lra]. Qed.

Lemma col_val a v c : col_in a v -> is_finite (get c v) = true /\ 0 <= val c v <= a.
Proof. intros (X & Y & Z). destruct c; assumption. Qed.
Lemma top_max a v : col_in a v -> B2R (fv_maxValue v) = top (fun c => val c v).
Proof.
  intros ((X & BX) & (Y & BY) & (Z & BZ)). destruct (max_ok v X Y Z) as (F & A & B & C & D). unfold top, val, get.
  apply Rle_antisym; [|repeat apply Rmax_lub; assumption]. destruct D as [E|[E|E]]; rewrite E.
  - apply Rmax_l.
  - eapply Rle_trans; [|apply Rmax_r]. apply Rmax_l.
  - eapply Rle_trans; [|apply Rmax_r]. apply Rmax_r.
Qed.
Lemma tol_val : B2R ftol = tol /\ is_finite ftol = true.
Proof.
  destruct (f_of_small 13743896 (-37) ltac:(lia) ltac:(lia)) as (A & B). split; [|exact B]. unfold ftol. rewrite A. unfold F2R, tol. cbn [Fnum Fexp]. unfold Rdiv.
  f_equal. rewrite (pow_IZR 2 37). reflexivity.
Qed.
Lemma zero_test a v : col_in a v ->
  (fv_isZero v = true -> forall c, val c v <= tol) /\ (fv_isZero v = false -> tol <= top (fun c => val c v)).
Proof.
  intros C. destruct tol_val as (T & FT).
  assert (K : forall c, flt (Babs (get c v)) ftol = true <-> val c v < tol).
  { intros c. destruct (col_val a v c C) as (F & B). rewrite flt_spec; [|now rewrite is_finite_Babs|exact FT]. rewrite B2R_Babs, T. change (B2R (get c v)) with (val c v). rewrite Rabs_pos_eq by lra. tauto. }
  unfold fv_isZero. change (fvx v) with (get Red v). change (fvy v) with (get Green v). change (fvz v) with (get Blue v). split.
  - intros H. apply andb_prop in H as (H & H3). apply andb_prop in H as (H1 & H2). intros c. left. apply K. destruct c; assumption.
  - intros H. assert (Q : forall c, flt (Babs (get c v)) ftol = false -> tol <= val c v). { intros c E. destruct (Rle_dec tol (val c v)) as [G|G]; [assumption|]. apply Rnot_le_lt, K in G. congruence. }
    unfold top. apply andb_false_iff in H as [H|H]; [apply andb_false_iff in H as [H|H]|]; apply Q in H.
    + eapply Rle_trans; [exact H|apply Rmax_l].
    + eapply Rle_trans; [exact H|]. eapply Rle_trans; [|apply Rmax_r]. apply Rmax_l.
    + eapply Rle_trans; [exact H|]. eapply Rle_trans; [|apply Rmax_r]. apply Rmax_r.
Qed.
Lemma rel_top k S T : (forall c, rel k (S c) (T c)) -> rel k (top S) (top T).
Proof. intros H. unfold top. repeat apply rel_max; apply H. Qed.
Lemma get_mul c a b : get c (fv_mul a b) = fmul (get c a) (get c b). Proof. now destruct c. Qed.
Lemma get_add c a b : get c (fv_add a b) = fadd (get c a) (get c b). Proof. now destruct c. Qed.
Lemma get_bounce c a al co p r : get c (fv_mul a (fv_div (fv_scale al co) (fmul p r))) = fmul (get c a) (fdiv (fmul (get c al) co) (fmul p r)).
Proof. now destruct c. Qed.
Lemma p2_half e : p2 e / 2 = p2 (e - 1).
Proof. unfold Z.sub. rewrite bpow_plus. change (p2 (- (1))) with (/ 2). reflexivity. Qed.

Section Estimate.
Variables (k : Z) (sky : option fvec) (om : R) (N : nat).
Hypothesis K : (-60 <= k <= 80)%Z.
Hypothesis Sky : forall s, sky = Some s -> col_in (p2 k) s /\ forall c, clear (p2 (-60)) (val c s).
Hypothesis Om : 0 < om <= 1.
Hypothesis OmN : p2 (-60) <= om ^ N.
Hypothesis NN : INR (4 * (N + 1)) <= 3600004.
Let KK := (4 * (N + 1))%nat.

Lemma om_pow i : (i <= N)%nat -> p2 (-60) <= om ^ i <= 1.
Proof.
  intros H. split; [|rewrite <- (pow1 i); apply pow_incr; lra]. eapply Rle_trans; [exact OmN|]. replace N with (i + (N - i))%nat by lia. rewrite pow_add.
  rewrite <- (Rmult_1_r (om ^ i)) at 2. apply Rmult_le_compat_l; [apply pow_le; lra|]. rewrite <- (pow1 (N - i)). apply pow_incr; lra.
Qed.
Lemma two_i i : (i <= KK)%nat -> ro ^ i <= 2.
Proof. intros H. apply ro_two. apply le_INR in H. unfold KK in H. lra. Qed.

(** adding the light of a surface *)
Lemma light_rel j L (Li be li : f32) LT T b : (4 * j <= KK)%nat -> num_in L Li -> num_in b be -> b <= 2 -> num_in (p2 k) li -> clear (p2 (-60)) (B2R li) ->
  rel (4 * j) (B2R be) T -> 0 <= T -> clear (p2 (-60)) T -> rel (4 * j) (B2R Li) LT -> 0 <= LT -> (1 + u32) * (L + p2 (k + 1)) <= p2 120 ->
  rel (4 * j + 2) (B2R (fadd Li (fmul be li))) (LT + T * B2R li).
Proof.
  intros J HLi Hbe B2 Hli Cl RT T0 CT RL L0 G. pose proof Hbe as (Fb & Bb). pose proof Hli as (Fl & Bl). pose proof HLi as (FL & BL).
  assert (AB : b * p2 k <= p2 (k + 1)). { rewrite bpow_plus. simpl (p2 1). pose proof (bpow_gt_0 radix2 k). nra. }
  destruct (fmul_in b (p2 k) be li (k + 1) Hbe Hli AB ltac:(lia)) as (E & Hm).
  assert (Cb : clear (p2 (-61)) (B2R be)). { change (-61)%Z with (-60 - 1)%Z. rewrite <- p2_half. eapply clear_rel; [apply Bb|exact T0|exact RT|now apply two_i|exact CT|apply bpow_ge_0]. }
  assert (Cp : clear (p2 (-126)) (B2R be * B2R li)).
  { eapply clear_le; [|apply (clear_mul (p2 (-61)) (p2 (-60))); auto; apply bpow_ge_0]. rewrite <- bpow_plus. apply bpow_le. lia. }
  assert (P0 : 0 <= B2R be * B2R li) by (apply Rmult_le_pos; lra).
  assert (Rm : rel (4 * j + 1) (B2R (fmul be li)) (T * B2R li)).
  { rewrite E, Nat.add_comm. eapply rel_trans; [apply rnd_rel; auto|]. rewrite <- (Nat.add_0_r (4 * j)). apply rel_mul; auto; try lra. apply rel_refl. }
  assert (Es : B2R (fadd Li (fmul be li)) = rnd (B2R Li + B2R (fmul be li))).
  { pose proof Hm as (Fm & Bm). apply fadd_ok; auto. pose proof (rnd_add_err (B2R Li) (B2R (fmul be li)) (fmt_of _) (fmt_of _)) as Er.
    rewrite (Rabs_pos_eq (B2R Li + _)) in Er by lra. apply Rabs_le_inv in Er. assert (Up : 0 < u32) by (rewrite u_val; lra). rewrite Rabs_pos_eq by (apply rnd_pos; lra).
    apply Rle_lt_trans with (p2 120); [|apply p2_big; lia]. eapply Rle_trans; [|exact G]. assert ((1 + u32) * (B2R Li + B2R (fmul be li)) <= (1 + u32) * (L + p2 (k + 1))) by (apply Rmult_le_compat_l; lra). lra. }
  rewrite Es. replace (4 * j + 2)%nat with (1 + (4 * j + 1))%nat by lia. destruct Hm as (Fm & Bm). eapply rel_trans; [apply rnd_rel_add; lra|].
  apply rel_add; [|exact Rm]. eapply rel_mono; [|lra|exact L0|exact RL]. lia.
Qed.

Lemma est_in vs : forall i L b Li beta LT T, (i + length vs <= N)%nat ->
  0 <= L -> 1 <= b -> b * (1 + 9 * u32) ^ length vs <= 2 -> grown k (S (length vs)) L <= p2 120 ->
  List.Forall (plain k om) vs -> col_in L Li -> col_in b beta ->
  (forall c, 0 <= T c) -> (forall c, rel (4 * i) (val c beta) (T c)) -> (forall c, clear (om ^ i) (T c)) ->
  (forall c, 0 <= LT c) -> (forall c, rel (4 * i) (val c Li) (LT c)) ->
  exists fs, follows KK T vs fs /\ forall c, rel KK (val c (f_path (map (ESurface None) vs) sky Li beta)) (LT c + T c * estimate c vs sky fs).
Proof.
  assert (U : 0 < u32 <= / 10000000) by (rewrite u_val; lra). assert (PK : 0 < p2 (k + 1)) by apply bpow_gt_0.
  induction vs as [|v vs IH]; intros i L b Li beta LT T I L0 B1 BB GB Ok HLi Hb T0 RT CT LT0 RL.
  - cbn [map f_path length] in *. assert (Ii : (4 * i + 2 <= KK)%nat) by (unfold KK; lia). simpl in BB.
    assert (Em : forall c, rel KK (val c Li) (LT c)). { intros c. apply (rel_mono (4 * i)); [lia| | |apply RL]; [apply (col_val L Li c HLi)|apply LT0]. }
    destruct (zero_test b beta Hb) as (ZT & ZF). destruct (fv_isZero beta) eqn:Z0.
    + exists [Black]. split.
      * cbn [follows]. intros c. destruct (RT c) as (_ & Q). eapply Rle_trans; [exact Q|]. assert (ro ^ (4 * i) <= ro ^ KK) by (apply Rle_pow; [pose proof ro_val; lra|lia]).
        apply Rmult_le_compat; auto; [apply pow_le; pose proof ro_val; lra|apply (col_val b beta c Hb)].
      * intros c. cbn [estimate]. rewrite Rmult_0_r, Rplus_0_r. destruct sky; apply Em.
    + exists []. split.
      * cbn [follows]. split; [|exact Logic.I]. eapply Rle_trans; [apply ZF; reflexivity|]. destruct (rel_top _ _ _ RT) as (Q & _). eapply Rle_trans; [exact Q|].
        apply Rmult_le_compat_r; [|apply Rle_pow; [pose proof ro_val; lra|lia]]. eapply Rle_trans; [apply (T0 Red)|apply Rmax_l].
      * intros c. cbn [estimate]. destruct sky as [s|]; [|rewrite Rmult_0_r, Rplus_0_r; apply Em]. destruct (Sky s eq_refl) as (Cs & Ls).
        unfold val at 1. rewrite get_add, get_mul. assert (G1 : (1 + u32) * (L + p2 (k + 1)) <= p2 120). { eapply Rle_trans; [|exact GB]. unfold grown. simpl. right. ring. }
        assert (R2 : rel (4 * i + 2) (B2R (fadd (get c Li) (fmul (get c beta) (get c s)))) (LT c + T c * B2R (get c s))).
        { apply (light_rel i L _ _ _ _ _ b); auto; try lia; try lra.
          - apply (col_val L Li c HLi).
          - apply (col_val b beta c Hb).
          - apply (col_val _ s c Cs).
          - apply Ls.
          - apply RT.
          - eapply clear_le; [|apply CT]. apply om_pow. lia.
          - apply RL. }
        apply (rel_mono (4 * i + 2)); auto; [|apply Rplus_le_le_0_compat; [apply LT0|apply Rmult_le_pos; [apply T0|apply (col_val _ s c Cs)]]].
        eapply rel_pos; [exact R2|]. apply Rplus_le_le_0_compat; [apply LT0|apply Rmult_le_pos; [apply T0|apply (col_val _ s c Cs)]].
  - inversion Ok as [|? ? Ov Ovs]; subst. cbn [length map] in *. set (n := length vs) in *. assert (Ii : (4 * (i + 1) + 2 <= KK)%nat) by (unfold KK; lia).
    assert (Pn : 1 <= (1 + 9 * u32) ^ n) by (apply pow_R1_Rle; lra). simpl pow in BB.
    assert (b2 : b * (1 + 9 * u32) * (1 + 9 * u32) ^ n <= 2) by (rewrite Rmult_assoc; exact BB).
    assert (bq : b * (1 + 9 * u32) ^ n <= 2). { eapply Rle_trans; [|exact b2]. apply Rmult_le_compat_r; [lra|]. nra. }
    assert (bb : b <= 2) by nra.
    assert (GM : grown k (S n) ((1 + u32) * (L + p2 (k + 1))) <= grown k (S (S n)) L) by apply grown_S.
    assert (LL : 0 <= L <= (1 + u32) * (L + p2 (k + 1))) by nra.
    assert (G1 : (1 + u32) * (L + p2 (k + 1)) <= p2 120). { eapply Rle_trans; [|exact GB]. eapply Rle_trans; [apply (grown_ge k (S n)); nra|apply grown_S]. }
    assert (Em : forall c, rel KK (val c Li) (LT c)). { intros c. apply (rel_mono (4 * i)); [lia| | |apply RL]; [apply (col_val L Li c HLi)|apply LT0]. }
    assert (Kr : ro ^ (4 * i) <= ro ^ KK) by (apply Rle_pow; [pose proof ro_val; lra|lia]). assert (Kp : 1 <= ro ^ (4 * i)) by apply ro_pow.
    cbn [f_path]. destruct (zero_test b beta Hb) as (ZT & ZF). destruct (fv_isZero beta) eqn:Z0.
    + exists [Black]. split.
      * cbn [follows]. intros c. destruct (RT c) as (_ & Q). eapply Rle_trans; [exact Q|].
        apply Rmult_le_compat; auto; [lra|apply (col_val b beta c Hb)].
      * intros c. cbn [estimate]. rewrite Rmult_0_r, Rplus_0_r. apply Em.
    + destruct Ov as (((al & Oal) & (cc & Oc) & Fd & Fp & Op & Oe) & Ol & Cl & Cb). cbn [f_weigh]. specialize (ZF eq_refl).
      assert (Tol : tol <= ro ^ KK * top T). { eapply Rle_trans; [apply ZF|]. destruct (rel_top _ _ _ RT) as (Q & _). eapply Rle_trans; [exact Q|].
        apply Rmult_le_compat_r; [|exact Kr]. eapply Rle_trans; [apply (T0 Red)|apply Rmax_l]. }
      destruct (rr_ok b _ Hb) as (FR & ER & Bm & Mx & My & Mz). pose proof (guard b beta Hb Z0) as Gd. set (m := B2R (fv_maxValue beta)) in *.
      assert (Qr : rel (4 * i) (B2R (f_rr beta)) (Rmin (top T) 1)). { rewrite ER. unfold m. rewrite (top_max b beta Hb). apply rel_min1. now apply rel_top. }
      assert (T14 : p2 (-24) <= p2 (-14)) by (apply bpow_le; lia). assert (T24 : 0 < p2 (-24)) by apply bpow_gt_0. assert (T1 : p2 (-14) <= 1) by (change 1 with (p2 0); apply bpow_le; lia).
      assert (Rr : p2 (-24) <= B2R (f_rr beta) <= 1). { rewrite ER. split; [apply Rmin_glb; lra|apply Rmin_r]. }
      assert (Tm : 0 <= Rmin (top T) 1). { apply Rmin_glb; [|lra]. eapply Rle_trans; [apply (T0 Red)|apply Rmax_l]. }
      assert (QK : rel KK (B2R (f_rr beta)) (Rmin (top T) 1)). { apply (rel_mono (4 * i)); auto; [lia|lra]. }
      set (Li' := fv_add Li (fv_mul beta (v_light v))). set (LT' := fun c => LT c + T c * val c (v_light v)).
      assert (Vl : forall c, 0 <= val c (v_light v)) by (intros c; apply (col_val _ _ c Ol)).
      assert (LT0' : forall c, 0 <= LT' c). { intros c. unfold LT'. apply Rplus_le_le_0_compat; [apply LT0|apply Rmult_le_pos; auto]. }
      assert (R2 : forall c, rel (4 * i + 2) (val c Li') (LT' c)).
      { intros c. unfold val at 1, Li'. rewrite get_add, get_mul. apply (light_rel i L _ _ _ _ _ b); auto; try lia; try lra.
          - apply (col_val L Li c HLi).
          - apply (col_val b beta c Hb).
          - apply (col_val _ _ c Ol).
          - apply Cl.
          - apply RT.
          - eapply clear_le; [|apply CT]. apply om_pow. lia.
          - apply RL. }
      assert (HL1 : col_in ((1 + u32) * (L + p2 (k + 1))) Li') by (apply add_in; auto; apply (light_in b); auto; lia).
      assert (Rs : forall c, rel KK (val c Li') (LT' c)). { intros c. apply (rel_mono (4 * i + 2)); auto; [lia|]. apply (col_val _ _ c HL1). }
      destruct (flt (f_rr beta) (v_draw v)) eqn:Ed; [|destruct (fis0 (v_pdf v)) eqn:Ep].
      * apply flt_spec in Ed; auto. exists [Stop]. split; [cbn [follows]; split; [exact Tol|]; right; exists (B2R (f_rr beta)); split; assumption|].
        intros c. cbn [estimate]. rewrite Rplus_0_r. apply Rs.
      * apply fis0_spec in Ep; auto. exists [Stop]. split; [cbn [follows]; split; [exact Tol|]; left; exact Ep|].
        intros c. cbn [estimate]. rewrite Rplus_0_r. apply Rs.
      * apply flt_false in Ed; auto. assert (Np : B2R (v_pdf v) <> 0). { intros E. apply (fis0_spec _ Fp) in E. congruence. }
        destruct Op as [Op|Op]; [contradiction|]. specialize (Cb Np). destruct (Oe Np) as (Ex & Ey & Ez). set (q := B2R (f_rr beta)) in *.
        assert (P40 : 0 < p2 (-40)) by apply bpow_gt_0. assert (q0 : 0 < q) by lra. set (p := B2R (v_pdf v)) in *. assert (p0 : 0 < p) by lra.
        assert (Oc0 : 0 <= B2R (v_cos v)) by apply Oc. assert (A0 : forall c, 0 <= val c (v_albedo v)) by (intros c; apply (col_val _ _ c Oal)).
        assert (S0 : forall c, 0 <= bsdf c v). { intros c. unfold bsdf. fold p. apply Rmult_le_pos; [apply Rmult_le_pos; auto|left; now apply Rinv_0_lt_compat]. }
        assert (Iq : 1 <= / q) by (rewrite <- Rinv_1; apply Rinv_le_contravar; lra).
        assert (W0 : forall c, 0 <= bsdf c v / q). { intros c. apply Rmult_le_pos; [apply S0|lra]. }
        assert (CW : forall c, clear om (bsdf c v / q)). { intros c. destruct (Cb c) as [E|E]; [left; rewrite E; unfold Rdiv; ring|right]. unfold Rdiv. specialize (S0 c). nra. }
        set (beta' := fv_mul beta (fv_div (fv_scale (v_albedo v) (v_cos v)) (fmul (v_pdf v) (f_rr beta)))).
        assert (Full : forall c, num_in (b * (1 + 9 * u32)) (get c beta') /\ val c beta' = rnd (val c beta * rnd (rnd (val c (v_albedo v) * B2R (v_cos v)) / rnd (p * q)))).
        { intros c. unfold val at 1, beta'. rewrite get_bounce. apply (bounce_full b m); auto; try lra.
          - destruct c; (split; [apply Hb|]); destruct Hb as ((?&?)&(?&?)&(?&?)); cbn [get]; lra.
          - apply Rr.
          - exists al. apply (col_val _ _ c Oal).
          - exists cc. exact Oc.
          - destruct c; assumption. }
        assert (O60 : p2 (-60) <= om). { eapply Rle_trans; [apply (om_pow 1); lia|]. simpl. lra. }
        assert (R3 : forall c, rel (4 * (i + 1)) (val c beta') (T c * (bsdf c v / q))).
        { intros c. destruct (Full c) as (_ & E). rewrite E.
          assert (EA : val c (v_albedo v) * B2R (v_cos v) = bsdf c v * p) by (unfold bsdf; fold p; field; lra). rewrite EA.
          assert (CA : clear (p2 (-126)) (bsdf c v * p)).
          { apply (clear_le (om * p2 (-40))); [|apply clear_mul; auto; try lra; right; lra]. apply Rle_trans with (p2 (-60) * p2 (-40)); [rewrite <- bpow_plus; apply bpow_le; lia|apply Rmult_le_compat_r; lra]. }
          assert (PA : 0 <= bsdf c v * p) by (apply Rmult_le_pos; auto; lra).
          pose proof (rnd_rel _ PA CA) as RA.
          assert (D0 : p2 (-64) <= p * q). { change (-64)%Z with (-40 + -24)%Z. rewrite bpow_plus. apply Rmult_le_compat; lra. }
          assert (PD : 0 < p * q) by (apply Rmult_lt_0_compat; lra).
          assert (RD : rel 1 (rnd (p * q)) (p * q)). { apply rnd_rel; [lra|]. right. eapply Rle_trans; [|exact D0]. apply bpow_le. lia. }
          assert (D1 : 0 < rnd (p * q)). { apply Rlt_le_trans with (p2 (-64)); [apply bpow_gt_0|]. apply rnd_ge_fmt; [apply p2_fmt; lia|exact D0]. }
          assert (RW : rel 2 (rnd (bsdf c v * p) / rnd (p * q)) (bsdf c v / q)).
          { replace (bsdf c v / q) with (bsdf c v * p * / (p * q)) by (field; lra). apply (rel_mul 1 1); auto.
            - apply rnd_pos. exact PA.
            - left. now apply Rinv_0_lt_compat.
            - left. now apply Rinv_0_lt_compat.
            - apply rel_inv; auto. }
          set (w0 := rnd (bsdf c v * p) / rnd (p * q)) in *. assert (w00 : 0 <= w0) by (apply (rel_pos 2 _ (bsdf c v / q)); auto).
          assert (Cw : clear (p2 (-61)) w0). { change (-61)%Z with (-60 - 1)%Z. rewrite <- p2_half. apply (clear_rel _ 2 _ (bsdf c v / q)); auto; [apply two_i; lia| |apply bpow_ge_0]. eapply clear_le; [exact O60|apply CW]. }
          assert (Rw1 : rel 1 (rnd w0) w0). { apply rnd_rel; auto. eapply clear_le; [|exact Cw]. apply bpow_le. lia. }
          assert (R30 : rel 3 (rnd w0) (bsdf c v / q)) by (apply (rel_trans 1 2 _ w0); auto). assert (w10 : 0 <= rnd w0) by (apply rnd_pos; auto).
          assert (Cw1 : clear (p2 (-61)) (rnd w0)). { change (-61)%Z with (-60 - 1)%Z. rewrite <- p2_half. apply (clear_rel _ 3 _ (bsdf c v / q)); auto; [apply two_i; lia| |apply bpow_ge_0]. eapply clear_le; [exact O60|apply CW]. }
          assert (V0 : 0 <= val c beta) by apply (col_val _ _ c Hb).
          assert (Cbt : clear (p2 (-61)) (val c beta)). { change (-61)%Z with (-60 - 1)%Z. rewrite <- p2_half. apply (clear_rel _ (4 * i) _ (T c)); auto; [apply two_i; lia| |apply bpow_ge_0]. eapply clear_le; [|apply CT]. apply om_pow. lia. }
          replace (4 * (i + 1))%nat with (1 + (4 * i + 3))%nat by lia. eapply rel_trans; [apply rnd_rel|].
          - now apply Rmult_le_pos.
          - eapply clear_le; [|apply (clear_mul (p2 (-61)) (p2 (-61))); auto; apply bpow_ge_0]. rewrite <- bpow_plus. apply bpow_le. lia.
          - apply rel_mul; auto. }
        destruct (IH (i + 1)%nat ((1 + u32) * (L + p2 (k + 1))) (b * (1 + 9 * u32)) Li' beta' LT' (fun c => T c * (bsdf c v / q))) as (fs & Fo & Es); auto.
        -- lia.
        -- lra.
        -- nra.
        -- lra.
        -- split; [|split]; [apply (Full Red)|apply (Full Green)|apply (Full Blue)].
        -- intros c. apply Rmult_le_pos; auto.
        -- intros c. rewrite pow_add. simpl (om ^ 1). rewrite Rmult_1_r. apply clear_mul; auto; [apply pow_le; lra|lra].
        -- intros c. apply (rel_mono (4 * i + 2)); auto; [lia|]. apply (col_val _ _ c HL1).
        -- exists (Go q :: fs). split; [cbn [follows]; auto 8|]. intros c. cbn [estimate]. specialize (Es c).
           replace (LT c + T c * (val c (v_light v) + bsdf c v / q * estimate c vs sky fs)) with (LT' c + T c * (bsdf c v / q) * estimate c vs sky fs) by (unfold LT'; ring). exact Es.
Qed.
End Estimate.
