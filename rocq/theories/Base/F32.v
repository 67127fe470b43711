(** binary32, the [Float] of the renderer (include/feign/common.h:25-28), as formalised by Flocq.
    The build (CMakeLists.txt:22, 119: -O3, no -march, no -ffast-math) uses SSE2 on x86-64: every
    operation is rounded to nearest, ties to even, to 24 bits, and there is no fused multiply-add. *)
From Coq Require Import ZArith Reals Lra Lia Bool.
From Flocq Require Import Core BinarySingleNaN Plus_error Relative.
Open Scope R_scope.

Definition f32 := binary_float 24 128.
Global Instance prec24 : Prec_gt_0 24 := eq_refl.
Global Instance emax128 : Prec_lt_emax 24 128 := eq_refl.

Definition fadd : f32 -> f32 -> f32 := Bplus mode_NE.
Definition fsub : f32 -> f32 -> f32 := Bminus mode_NE.
Definition fmul : f32 -> f32 -> f32 := Bmult mode_NE.
Definition fdiv : f32 -> f32 -> f32 := Bdiv mode_NE.
(** conversion of a number m*2^e *)
Definition f_of (m e : Z) : f32 := binary_normalize 24 128 prec24 emax128 mode_NE m e false.
Definition fZ (z : Z) : f32 := f_of z 0.
Definition f0 : f32 := B754_zero false.
Definition f1 : f32 := fZ 1.
Definition fhalf : f32 := f_of 1 (-1).
Definition finf : f32 := B754_infinity false.

Definition fmt : R -> Prop := generic_format radix2 (FLT_exp (-149) 24).
Definition rnd : R -> R := round radix2 (FLT_exp (-149) 24) ZnearestE.
Definition big : R := bpow radix2 128.
(** unit roundoff *)
Definition u32 : R := / 2 ^ 24.
(** half of the smallest positive number *)
Definition tiny : R := / 2 ^ 150.

Lemma fmt_of (x : f32) : fmt (B2R x).
Proof. exact (generic_format_B2R 24 128 x). Qed.
Lemma small (x : f32) : Rabs (B2R x) < big.
Proof. exact (abs_B2R_lt_emax 24 128 x). Qed.
Lemma rnd_id x : fmt x -> rnd x = x.
Proof. intros H. apply round_generic; auto with typeclass_instances. Qed.
Lemma rnd_fmt x : fmt (rnd x).
Proof. apply generic_format_round; auto with typeclass_instances. Qed.
Lemma rnd_le x y : x <= y -> rnd x <= rnd y.
Proof. intros H. apply round_le; auto with typeclass_instances. Qed.
Lemma rnd_ge_fmt x y : fmt x -> x <= y -> x <= rnd y.
Proof. intros F H. apply round_ge_generic; auto with typeclass_instances. Qed.
Lemma rnd_le_fmt x y : fmt y -> x <= y -> rnd x <= y.
Proof. intros F H. apply round_le_generic; auto with typeclass_instances. Qed.
Lemma fmt_0 : fmt 0.
Proof. apply generic_format_0. Qed.
Lemma rnd_0 : rnd 0 = 0.
Proof. apply rnd_id, fmt_0. Qed.

(** m*2^e is a binary32 number when m has at most 24 bits *)
Lemma fmt_Ze m e : (Z.abs m <= 2 ^ 24)%Z -> (-149 <= e)%Z -> fmt (IZR m * bpow radix2 e).
Proof.
  intros M E. destruct (Z.eq_dec (Z.abs m) (2 ^ 24)) as [T|T].
  - assert (m = 2 ^ 24 \/ m = - 2 ^ 24)%Z as [-> | ->] by lia.
    + replace (IZR (2 ^ 24) * bpow radix2 e) with (bpow radix2 (24 + e)).
      * apply generic_format_bpow. unfold FLT_exp. lia.
      * rewrite bpow_plus. reflexivity.
    + replace (IZR (- 2 ^ 24) * bpow radix2 e) with (- bpow radix2 (24 + e)).
      * apply generic_format_opp, generic_format_bpow. unfold FLT_exp. lia.
      * rewrite bpow_plus, opp_IZR. change (bpow radix2 24) with (IZR (2 ^ 24)). ring.
  - apply generic_format_FLT. exists (Float radix2 m e).
    + reflexivity.
    + change (radix2 ^ 24)%Z with (2 ^ 24)%Z. cbn [Fnum]. lia.
    + exact E.
Qed.
Lemma fmt_Z m : (Z.abs m <= 2 ^ 24)%Z -> fmt (IZR m).
Proof. intros H. replace (IZR m) with (IZR m * bpow radix2 0) by (simpl; ring). apply fmt_Ze; lia. Qed.

Lemma bigZ z : (Z.abs z <= 2 ^ 100)%Z -> Rabs (IZR z) < big.
Proof.
  intros H. unfold big. rewrite <- abs_IZR. change (bpow radix2 128) with (IZR (2 ^ 128)). apply IZR_lt. lia.
Qed.

Local Ltac rlt H := match goal with |- context [Rlt_bool ?a ?b] => destruct (Rlt_bool_spec a b) as [H|H] end.

Lemma f_of_small m e : (Z.abs m <= 2 ^ 24)%Z -> (-149 <= e <= 100)%Z ->
  B2R (f_of m e) = IZR m * bpow radix2 e /\ is_finite (f_of m e) = true.
Proof.
  intros M E. pose proof (binary_normalize_correct 24 128 prec24 emax128 mode_NE m e false) as H. cbv zeta in H.
  change (round radix2 (SpecFloat.fexp 24 128) (round_mode mode_NE)) with rnd in H.
  change (F2R {| Fnum := m; Fexp := e |}) with (IZR m * bpow radix2 e) in H.
  rewrite rnd_id in H by (apply fmt_Ze; lia).
  rewrite Rlt_bool_true in H.
  - destruct H as (A & B & _). auto.
  - rewrite Rabs_mult, <- abs_IZR, (Rabs_pos_eq (bpow _ _)) by apply bpow_ge_0.
    apply Rle_lt_trans with (IZR (2 ^ 24) * bpow radix2 100).
    + apply Rmult_le_compat; [apply IZR_le; lia|apply bpow_ge_0|apply IZR_le; lia|apply bpow_le; lia].
    + change (IZR (2 ^ 24)) with (bpow radix2 24). rewrite <- bpow_plus. apply bpow_lt. lia.
Qed.
Lemma fZ_small z : (Z.abs z <= 2 ^ 24)%Z -> B2R (fZ z) = IZR z /\ is_finite (fZ z) = true.
Proof.
  intros H. destruct (f_of_small z 0 H) as [A B]; [lia|]. split; [|exact B]. unfold fZ. rewrite A. simpl. ring.
Qed.

(** overflow gives an infinity *)
Lemma overflow_inf (x : f32) s : B2SF x = binary_overflow 24 128 mode_NE s -> is_finite x = false.
Proof. destruct x; simpl; unfold binary_overflow; simpl; intros H; try discriminate; reflexivity. Qed.

Lemma fadd_ok x y : is_finite x = true -> is_finite y = true -> Rabs (rnd (B2R x + B2R y)) < big ->
  B2R (fadd x y) = rnd (B2R x + B2R y) /\ is_finite (fadd x y) = true.
Proof.
  intros X Y B. pose proof (Bplus_correct 24 128 prec24 emax128 mode_NE x y X Y) as H.
  change (round radix2 (SpecFloat.fexp 24 128) (round_mode mode_NE)) with rnd in H.
  rewrite Rlt_bool_true in H by exact B. destruct H as (H1 & H2 & _). auto.
Qed.
Lemma fadd_finite x y : is_finite (fadd x y) = true ->
  is_finite x = true /\ is_finite y = true /\ B2R (fadd x y) = rnd (B2R x + B2R y).
Proof.
  intros F. assert (is_finite x = true /\ is_finite y = true) as [X Y].
  { destruct x as [|[]| |], y as [|[]| |]; simpl in F; try discriminate; auto. }
  split; [exact X|]. split; [exact Y|].
  pose proof (Bplus_correct 24 128 prec24 emax128 mode_NE x y X Y) as H.
  change (round radix2 (SpecFloat.fexp 24 128) (round_mode mode_NE)) with rnd in H.
  revert H. rlt L; [tauto|]. intros [H _]. apply overflow_inf in H. unfold fadd in F. congruence.
Qed.
Lemma fadd_exact x y : is_finite x = true -> is_finite y = true -> fmt (B2R x + B2R y) -> Rabs (B2R x + B2R y) < big ->
  B2R (fadd x y) = B2R x + B2R y /\ is_finite (fadd x y) = true.
Proof. intros X Y F B. rewrite <- (rnd_id _ F) at 1. apply fadd_ok; auto. now rewrite rnd_id. Qed.
Lemma fsub_ok x y : is_finite x = true -> is_finite y = true -> Rabs (rnd (B2R x - B2R y)) < big ->
  B2R (fsub x y) = rnd (B2R x - B2R y) /\ is_finite (fsub x y) = true.
Proof.
  intros X Y B. pose proof (Bminus_correct 24 128 prec24 emax128 mode_NE x y X Y) as H.
  change (round radix2 (SpecFloat.fexp 24 128) (round_mode mode_NE)) with rnd in H.
  rewrite Rlt_bool_true in H by exact B. destruct H as (H1 & H2 & _). auto.
Qed.
Lemma fmul_finite x y : is_finite (fmul x y) = true ->
  is_finite x = true /\ is_finite y = true /\ B2R (fmul x y) = rnd (B2R x * B2R y).
Proof.
  intros F. pose proof (Bmult_correct 24 128 prec24 emax128 mode_NE x y) as H.
  change (round radix2 (SpecFloat.fexp 24 128) (round_mode mode_NE)) with rnd in H.
  revert H. rlt L.
  - intros (A & B & _). unfold fmul in F. rewrite F in B. symmetry in B. apply andb_true_iff in B as [B1 B2]. auto.
  - intros H. apply overflow_inf in H. unfold fmul in F. congruence.
Qed.
Lemma fmul_ok x y : is_finite x = true -> is_finite y = true -> Rabs (rnd (B2R x * B2R y)) < big ->
  B2R (fmul x y) = rnd (B2R x * B2R y) /\ is_finite (fmul x y) = true.
Proof.
  intros X Y B. pose proof (Bmult_correct 24 128 prec24 emax128 mode_NE x y) as H.
  change (round radix2 (SpecFloat.fexp 24 128) (round_mode mode_NE)) with rnd in H.
  rewrite Rlt_bool_true in H by exact B. destruct H as (H1 & H2 & _). rewrite X, Y in H2. auto.
Qed.
Lemma fdiv_finite x y : B2R y <> 0 -> is_finite (fdiv x y) = true -> is_finite y = true ->
  is_finite x = true /\ B2R (fdiv x y) = rnd (B2R x / B2R y).
Proof.
  intros N F Y. pose proof (Bdiv_correct 24 128 prec24 emax128 mode_NE x y N) as H.
  change (round radix2 (SpecFloat.fexp 24 128) (round_mode mode_NE)) with rnd in H.
  revert H. rlt L.
  - intros (A & B & _). unfold fdiv in F. split; [congruence|exact A].
  - intros H. apply overflow_inf in H. unfold fdiv in F. congruence.
Qed.
Lemma fdiv_ok x y : is_finite x = true -> B2R y <> 0 -> Rabs (rnd (B2R x / B2R y)) < big ->
  B2R (fdiv x y) = rnd (B2R x / B2R y) /\ is_finite (fdiv x y) = true.
Proof.
  intros X N B. pose proof (Bdiv_correct 24 128 prec24 emax128 mode_NE x y N) as H.
  change (round radix2 (SpecFloat.fexp 24 128) (round_mode mode_NE)) with rnd in H.
  rewrite Rlt_bool_true in H by exact B. destruct H as (H1 & H2 & _). rewrite X in H2. auto.
Qed.

(** ** Errors *)
Lemma u32_ro : u_ro radix2 24 = u32.
Proof. unfold u_ro, u32. simpl. lra. Qed.
Lemma rnd_add_err x y : fmt x -> fmt y -> Rabs (rnd (x + y) - (x + y)) <= u32 * Rabs (x + y).
Proof.
  intros X Y. destruct (FLT_plus_error_N_ex radix2 (-149) 24 (fun z => negb (Z.even z)) x y X Y) as (e & E & H).
  change (round radix2 (FLT_exp (-149) 24) (Znearest (fun z => negb (Z.even z)))) with rnd in H. rewrite H.
  replace ((x + y) * (1 + e) - (x + y)) with (e * (x + y)) by ring. rewrite Rabs_mult.
  apply Rmult_le_compat_r; [apply Rabs_pos|]. rewrite u32_ro in E. eapply Rle_trans; [exact E|].
  assert (0 < u32) by (unfold u32; lra).
  apply Rmult_le_reg_r with (1 + u32); [lra|]. unfold Rdiv. rewrite Rmult_assoc, Rinv_l by lra. nra.
Qed.
Lemma rnd_err x : Rabs (rnd x - x) <= u32 * Rabs x + tiny.
Proof.
  destruct (error_N_FLT radix2 (-149) 24 ltac:(lia) (fun z => negb (Z.even z)) x) as (e & h & E & H & _ & Q).
  change (round radix2 (FLT_exp (-149) 24) (Znearest (fun z => negb (Z.even z)))) with rnd in Q. rewrite Q.
  replace (x * (1 + e) + h - x) with (e * x + h) by ring. eapply Rle_trans; [apply Rabs_triang|].
  apply Rplus_le_compat.
  - rewrite Rabs_mult. apply Rmult_le_compat_r; [apply Rabs_pos|]. eapply Rle_trans; [exact E|]. unfold u32. simpl. lra.
  - eapply Rle_trans; [exact H|]. unfold tiny. replace (bpow radix2 (-149)) with (/ 2 ^ 149); [|rewrite (pow_IZR 2 149); reflexivity].
    replace (/ 2 ^ 150) with (/ 2 * / 2 ^ 149); [lra|]. rewrite <- Rinv_mult. f_equal.
Qed.
