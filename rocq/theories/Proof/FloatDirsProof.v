(** Normalising in single precision. *)
From Coq Require Import ZArith Reals Lra Lia Bool Psatz.
From Flocq Require Import Core BinarySingleNaN.
From Verif.Base Require Import F32.
From Verif.Model Require Import FloatDirs.
From Verif.Spec Require Import FloatDirsSpec.
Open Scope R_scope.

Notation p2 := (bpow radix2).
Lemma p2_fmt e : (-149 <= e)%Z -> fmt (p2 e).
Proof. intros H. apply generic_format_bpow. unfold FLT_exp. lia. Qed.
Lemma p2_big e : (e < 128)%Z -> p2 e < big.
Proof. intros H. apply bpow_lt. exact H. Qed.

Lemma rnd_pos x : 0 <= x -> 0 <= rnd x.
Proof. apply rnd_ge_fmt, fmt_0. Qed.
Lemma rnd_abs_le x e : (-149 <= e)%Z -> Rabs x <= p2 e -> Rabs (rnd x) <= p2 e.
Proof.
  intros E H. apply Rabs_le_inv in H. apply Rabs_le. split.
  - apply rnd_ge_fmt; [|lra]. apply generic_format_opp, p2_fmt, E.
  - apply rnd_le_fmt; [|lra]. apply p2_fmt, E.
Qed.

Lemma fsqrt_ok x : is_finite x = true -> 0 <= B2R x ->
  B2R (fsqrt x) = rnd (sqrt (B2R x)) /\ is_finite (fsqrt x) = true.
Proof.
  intros X P. destruct (Bsqrt_correct 24 128 prec24 emax128 mode_NE x) as (A & B & _). split; [exact A|].
  unfold fsqrt. rewrite B. destruct x as [s|s| |s m e H]; try discriminate; auto. destruct s; auto. exfalso.
  assert (N : B2R (@B754_finite 24 128 true m e H) < 0) by (apply F2R_lt_0; reflexivity). lra.
Qed.

(** the root of the square is not below the number *)
Lemma sqrt_sqr_ge y : fmt y -> p2 (-50) <= y -> y <= rnd (sqrt (rnd (y * y))).
Proof.
  intros F L. assert (P50 : 0 < p2 (-50)) by apply bpow_gt_0. assert (Y0 : 0 < y) by lra.
  apply (round_N_ge_midp radix2 (FLT_exp (-149) 24) (fun z => negb (Z.even z))); [exact F|].
  set (e := mag_val radix2 y (mag radix2 y)). assert (Be : p2 (e - 1) <= y < p2 e).
  { pose proof (bpow_mag_le radix2 y ltac:(lra)) as A. pose proof (bpow_mag_gt radix2 y) as B.
    rewrite Rabs_pos_eq in A, B by lra. fold e in A, B. split; assumption. }
  assert (Le : (-50 < e)%Z). { apply (lt_bpow radix2). lra. }
  rewrite pred_eq_pos by lra. unfold pred_pos. fold e.
  destruct (Req_bool_spec y (p2 (e - 1))) as [T|T].
  - assert (S2 : y * y = p2 (2 * (e - 1))). { rewrite T, <- bpow_plus. f_equal. lia. }
    rewrite (rnd_id (y * y)). 2:{ rewrite S2. apply p2_fmt. lia. }
    rewrite sqrt_square by lra. pose proof (bpow_gt_0 radix2 (FLT_exp (-149) 24 (e - 1))). lra.
  - rewrite ulp_neq_0 by lra. unfold cexp. fold e. replace (FLT_exp (-149) 24 e) with (e - 24)%Z by (unfold FLT_exp; lia).
    assert (Up : y <= p2 e - p2 (e - 24)).
    { replace (p2 e - p2 (e - 24)) with (pred radix2 (FLT_exp (-149) 24) (p2 e)).
      - apply pred_ge_gt; auto with typeclass_instances; [apply p2_fmt; lia|tauto].
      - rewrite pred_bpow. f_equal. f_equal. unfold FLT_exp. lia. }
    assert (Q : y * y - u32 * (y * y) - tiny <= rnd (y * y)).
    { pose proof (rnd_err (y * y)) as E. rewrite (Rabs_pos_eq (y * y)) in E by nra. apply Rabs_le_inv in E. lra. }
    set (h := p2 (e - 24)) in *. assert (H0 : 0 < h) by apply bpow_gt_0.
    assert (Eh : p2 e = h * 2 ^ 24). { unfold h. replace e with (e - 24 + 24)%Z at 1 by lia. rewrite bpow_plus. f_equal. simpl. lra. }
    assert (El : p2 (e - 1) = h * 2 ^ 23). { unfold h. replace (e - 1)%Z with (e - 24 + 23)%Z at 1 by lia. rewrite bpow_plus. f_equal. simpl. lra. }
    assert (Ht : tiny <= h * h / 2).
    { assert (A : p2 (-73) <= h) by (apply bpow_le; lia). assert (B : p2 (-73) * p2 (-73) <= h * h). { pose proof (bpow_gt_0 radix2 (-73)). nra. }
      rewrite <- bpow_plus in B. change (-73 + -73)%Z with (-146)%Z in B. unfold tiny.
      replace (/ 2 ^ 150) with (p2 (-150)) by (change (p2 (-150)) with (/ IZR (2 ^ 150)); rewrite (pow_IZR 2 150); reflexivity).
      apply Rle_trans with (p2 (-147)); [apply bpow_le; lia|].
      replace (p2 (-147)) with (p2 (-146) / 2); [lra|]. change (p2 (-146)) with (p2 (-147 + 1)). rewrite bpow_plus. simpl (p2 1). lra. }
    rewrite Eh in Up, Be. rewrite El in Be.
    rewrite <- (sqrt_square ((y + (y - h)) / 2)) by nra. apply sqrt_lt_1_alt. split; [nra|].
    apply Rlt_le_trans with (2 := Q).
    assert (C : (y - h * 2 ^ 23) * (h * 2 ^ 24 - h - y) >= 0) by nra.
    assert (D : u32 * (y * y) <= y * h - h * h + h * h * u32).
    { unfold u32 in *. assert (y * y <= 2 ^ 24 * (y * h) - (2 ^ 24 - 1) * (h * h)) by nra. lra. }
    unfold u32 in *. nra.
Qed.

Lemma rnd_opp x : rnd (- x) = - rnd x.
Proof. apply round_NE_opp. Qed.
Lemma rnd_Rabs x : Rabs (rnd x) = rnd (Rabs x).
Proof.
  unfold Rabs at 2. destruct (Rcase_abs x) as [H|H].
  - rewrite rnd_opp. apply Rabs_left1. assert (0 <= - rnd x); [rewrite <- rnd_opp; apply rnd_pos; lra|lra].
  - apply Rabs_pos_eq, rnd_pos. lra.
Qed.

(** a square, and a sum of two numbers that are not negative *)
Lemma fsquare_ok x k : is_finite x = true -> Rabs (B2R x) <= p2 k -> (-70 <= k <= 60)%Z ->
  B2R (fmul x x) = rnd (B2R x * B2R x) /\ is_finite (fmul x x) = true /\ 0 <= B2R (fmul x x) <= p2 (2 * k).
Proof.
  intros F H K. assert (B : Rabs (rnd (B2R x * B2R x)) <= p2 (2 * k)).
  { apply rnd_abs_le; [lia|]. rewrite Rabs_mult. replace (2 * k)%Z with (k + k)%Z by lia. rewrite bpow_plus.
    apply Rmult_le_compat; auto using Rabs_pos. }
  destruct (fmul_ok x x F F) as (A & C). { eapply Rle_lt_trans; [exact B|]. apply p2_big. lia. }
  split; [exact A|]. split; [exact C|]. rewrite A. apply Rabs_le_inv in B. split; [|lra]. apply rnd_pos. nra.
Qed.
Lemma fadd_pos x y k : is_finite x = true -> is_finite y = true -> 0 <= B2R x <= p2 k -> 0 <= B2R y <= p2 k -> (-149 <= k < 126)%Z ->
  B2R (fadd x y) = rnd (B2R x + B2R y) /\ is_finite (fadd x y) = true /\ 0 <= B2R (fadd x y) <= p2 (k + 1) /\
  B2R x <= B2R (fadd x y) /\ B2R y <= B2R (fadd x y).
Proof.
  intros X Y BX BY K. assert (B : Rabs (rnd (B2R x + B2R y)) <= p2 (k + 1)).
  { apply rnd_abs_le; [lia|]. rewrite Rabs_pos_eq by lra. rewrite bpow_plus. simpl (p2 1). lra. }
  destruct (fadd_ok x y X Y) as (A & C). { eapply Rle_lt_trans; [exact B|]. apply p2_big. lia. }
  split; [exact A|]. split; [exact C|]. rewrite A. apply Rabs_le_inv in B.
  assert (B2R x <= rnd (B2R x + B2R y)) by (apply rnd_ge_fmt; [apply fmt_of|lra]).
  assert (B2R y <= rnd (B2R x + B2R y)) by (apply rnd_ge_fmt; [apply fmt_of|lra]). lra.
Qed.

(** the vectors that can be normalised *)

Lemma fv_sqr_ok v : fv_fin v -> fv_max v <= p2 60 ->
  let X := B2R (fvx v) in let Y := B2R (fvy v) in let Z := B2R (fvz v) in
  B2R (fv_sqr v) = rnd (rnd (rnd (X * X) + rnd (Y * Y)) + rnd (Z * Z)) /\ is_finite (fv_sqr v) = true /\
  0 <= B2R (fv_sqr v) <= p2 122 /\
  rnd (X * X) <= B2R (fv_sqr v) /\ rnd (Y * Y) <= B2R (fv_sqr v) /\ rnd (Z * Z) <= B2R (fv_sqr v).
Proof.
  intros (FX & FY & FZ) M. cbv zeta. unfold fv_max in M.
  pose proof (Rmax_l (Rabs (B2R (fvx v))) (Rmax (Rabs (B2R (fvy v))) (Rabs (B2R (fvz v))))).
  pose proof (Rmax_r (Rabs (B2R (fvx v))) (Rmax (Rabs (B2R (fvy v))) (Rabs (B2R (fvz v))))).
  pose proof (Rmax_l (Rabs (B2R (fvy v))) (Rabs (B2R (fvz v)))). pose proof (Rmax_r (Rabs (B2R (fvy v))) (Rabs (B2R (fvz v)))).
  destruct (fsquare_ok (fvx v) 60 FX ltac:(lra) ltac:(lia)) as (AX & BX & CX).
  destruct (fsquare_ok (fvy v) 60 FY ltac:(lra) ltac:(lia)) as (AY & BY & CY).
  destruct (fsquare_ok (fvz v) 60 FZ ltac:(lra) ltac:(lia)) as (AZ & BZ & CZ).
  destruct (fadd_pos _ _ 120 BX BY CX CY ltac:(lia)) as (A1 & B1 & C1 & D1 & E1).
  assert (CZ' : 0 <= B2R (fmul (fvz v) (fvz v)) <= p2 121). { split; [lra|]. assert (p2 (2 * 60) <= p2 121) by (apply bpow_le; lia). lra. }
  destruct (fadd_pos _ _ 121 B1 BZ C1 CZ' ltac:(lia)) as (A2 & B2 & C2 & D2 & E2).
  unfold fv_sqr. rewrite <- AX, <- AY, <- AZ, <- A1, <- A2. change (121 + 1)%Z with 122%Z in C2.
  split; [reflexivity|]. split; [exact B2|]. split; [exact C2|]. lra.
Qed.

Lemma fv_norm_ok v : fv_fin v -> fv_max v <= p2 60 ->
  B2R (fv_norm v) = rnd (sqrt (B2R (fv_sqr v))) /\ is_finite (fv_norm v) = true /\ 0 <= B2R (fv_norm v).
Proof.
  intros F M. destruct (fv_sqr_ok v F M) as (_ & Q & P & _). destruct (fsqrt_ok _ Q ltac:(lra)) as (A & B).
  unfold fv_norm. rewrite A. split; [reflexivity|]. split; [exact B|]. apply rnd_pos, sqrt_pos.
Qed.
Lemma rnd_sqr_abs x : rnd (Rabs x * Rabs x) = rnd (x * x).
Proof. f_equal. rewrite <- Rabs_mult. apply Rabs_pos_eq. nra. Qed.
Lemma fmt_abs x : fmt x -> fmt (Rabs x).
Proof. apply generic_format_abs. Qed.
Lemma fv_max_cases v : fv_max v = Rabs (B2R (fvx v)) \/ fv_max v = Rabs (B2R (fvy v)) \/ fv_max v = Rabs (B2R (fvz v)).
Proof. unfold fv_max, Rmax. repeat destruct (Rle_dec _ _); auto. Qed.
Lemma fv_max_le v : Rabs (B2R (fvx v)) <= fv_max v /\ Rabs (B2R (fvy v)) <= fv_max v /\ Rabs (B2R (fvz v)) <= fv_max v.
Proof. unfold fv_max, Rmax. repeat destruct (Rle_dec _ _); lra. Qed.

Lemma fv_norm_max v : fv_fin v -> p2 (-50) <= fv_max v <= p2 60 -> fv_max v <= B2R (fv_norm v).
Proof.
  intros F (L & U). destruct (fv_sqr_ok v F U) as (_ & _ & _ & QX & QY & QZ). destruct (fv_norm_ok v F U) as (N & _ & _). rewrite N.
  assert (K : forall x, fmt x -> fv_max v = Rabs x -> rnd (x * x) <= B2R (fv_sqr v) -> fv_max v <= rnd (sqrt (B2R (fv_sqr v)))).
  { intros x X E Q. rewrite E. eapply Rle_trans; [apply sqrt_sqr_ge; [apply fmt_abs, X|lra]|]. apply rnd_le, sqrt_le_1_alt. now rewrite rnd_sqr_abs. }
  destruct (fv_max_cases v) as [E|[E|E]]; eapply K; eauto using fmt_of.
Qed.

Lemma fdiv_unit x n : is_finite x = true -> is_finite n = true -> 0 < B2R n -> Rabs (B2R x) <= B2R n ->
  B2R (fdiv x n) = rnd (B2R x / B2R n) /\ is_finite (fdiv x n) = true /\ Rabs (B2R (fdiv x n)) <= 1.
Proof.
  intros X N P L. assert (Q : Rabs (B2R x / B2R n) <= p2 0).
  { unfold Rdiv. rewrite Rabs_mult, Rabs_inv, (Rabs_pos_eq (B2R n)) by lra. simpl. apply Rmult_le_reg_r with (B2R n); [exact P|]. rewrite Rmult_assoc, Rinv_l by lra. lra. }
  apply rnd_abs_le in Q; [|lia]. destruct (fdiv_ok x n X ltac:(lra)) as (A & B). { eapply Rle_lt_trans; [exact Q|]. apply p2_big. lia. }
  split; [exact A|]. split; [exact B|]. rewrite A. exact Q.
Qed.

Lemma fv_normalized_ok v : fv_fin v -> p2 (-50) <= fv_max v <= p2 60 ->
  fv_fin (fv_normalized v) /\ fv_max (fv_normalized v) <= 1 /\ 0 < B2R (fv_norm v) /\
  B2R (fvx (fv_normalized v)) = rnd (B2R (fvx v) / B2R (fv_norm v)) /\
  B2R (fvy (fv_normalized v)) = rnd (B2R (fvy v) / B2R (fv_norm v)) /\
  B2R (fvz (fv_normalized v)) = rnd (B2R (fvz v) / B2R (fv_norm v)).
Proof.
  intros F B. pose proof (fv_norm_max v F B) as N. destruct (fv_norm_ok v F (proj2 B)) as (_ & NF & _).
  pose proof (fv_max_le v) as (X & Y & Z). pose proof (bpow_gt_0 radix2 (-50)). destruct F as (FX & FY & FZ).
  destruct (fdiv_unit _ _ FX NF ltac:(lra) ltac:(lra)) as (AX & BX & CX).
  destruct (fdiv_unit _ _ FY NF ltac:(lra) ltac:(lra)) as (AY & BY & CY).
  destruct (fdiv_unit _ _ FZ NF ltac:(lra) ltac:(lra)) as (AZ & BZ & CZ).
  unfold fv_normalized. split; [split; [exact BX|split; [exact BY|exact BZ]]|]. split; [|split; [lra|split; [exact AX|split; [exact AY|exact AZ]]]].
  unfold fv_max. cbn [fvx fvy fvz]. now repeat apply Rmax_lub.
Qed.

Lemma sum_err u t X Y Z a b c d q : 0 < u <= / 10000000 -> 0 <= X -> 0 <= Y -> 0 <= Z -> 0 <= a -> 0 <= b -> 0 <= c -> 0 <= d ->
  Rabs (a - X) <= u * X + t -> Rabs (b - Y) <= u * Y + t -> Rabs (c - Z) <= u * Z + t ->
  Rabs (d - (a + b)) <= u * (a + b) -> Rabs (q - (d + c)) <= u * (d + c) -> 0 < t <= u * u * (X + Y + Z) ->
  Rabs (q - (X + Y + Z)) <= 4 * u * (X + Y + Z).
Proof.
  intros U X0 Y0 Z0 a0 b0 c0 d0 Ha Hb Hc Hd Hq T. apply Rabs_le_inv in Ha, Hb, Hc, Hd, Hq. set (S := X + Y + Z) in *. set (W := a + b + c).
  assert (S0 : 0 <= S) by (unfold S; lra). assert (M : forall p r, p <= r -> u * p <= u * r) by (intros; apply Rmult_le_compat_l; lra).
  set (P := u * S). assert (P0 : 0 <= P) by (apply Rmult_le_pos; lra).
  assert (uP : u * P <= / 10000000 * P) by (apply Rmult_le_compat_r; lra). rewrite Rmult_assoc in T. fold P in T.
  assert (W1 : Rabs (W - S) <= P + 3 * t).
  { unfold W, S, P, S. apply Rabs_le. rewrite !Rmult_plus_distr_l. lra. }
  apply Rabs_le_inv in W1. assert (W2 : u * W <= u * (S + 2 * P)) by (apply M; lra). rewrite Rmult_plus_distr_l in W2. fold P in W2.
  replace (u * (2 * P)) with (2 * (u * P)) in W2 by ring. assert (W3 : u * W <= 2 * P) by lra.
  assert (W4 : u * (u * W) <= u * (2 * P)) by (apply M; lra). replace (u * (2 * P)) with (2 * (u * P)) in W4 by ring.
  assert (Hab : u * (a + b) <= u * W) by (apply M; unfold W; lra).
  assert (Hdc : d + c <= W + u * W) by (unfold W in *; lra). assert (Hu : u * (d + c) <= u * (W + u * W)) by (apply M; exact Hdc).
  rewrite Rmult_plus_distr_l in Hu. rewrite Rmult_assoc. fold P. apply Rabs_le. unfold W in *. lra.
Qed.

(** the length of the result *)
Lemma fv_normalized_len v : fv_fin v -> p2 (-50) <= fv_max v <= p2 60 ->
  let w := fv_normalized v in
  Rabs (B2R (fvx w) * B2R (fvx w) + B2R (fvy w) * B2R (fvy w) + B2R (fvz w) * B2R (fvz w) - 1) <= / 2 ^ 20.
Proof.
  intros F B w. destruct (fv_normalized_ok v F B) as (_ & _ & NP & EX & EY & EZ). fold w in EX, EY, EZ.
  destruct (fv_sqr_ok v F (proj2 B)) as (Q & _ & QP & _). destruct (fv_norm_ok v F (proj2 B)) as (N & _).
  set (x := B2R (fvx v)) in *. set (y := B2R (fvy v)) in *. set (z := B2R (fvz v)) in *.
  set (q := B2R (fv_sqr v)) in *. set (n := B2R (fv_norm v)) in *. set (S := x * x + y * y + z * z).
  assert (T50 : 0 < p2 (-50)) by apply bpow_gt_0.
  assert (S0 : p2 (-100) <= S).
  { change (-100)%Z with (-50 + -50)%Z. rewrite bpow_plus. unfold S.
    assert (K : forall a, fv_max v = Rabs a -> p2 (-50) * p2 (-50) <= a * a).
    { intros a E. rewrite <- (Rabs_pos_eq (a * a)) by nra. rewrite Rabs_mult. rewrite <- E. nra. }
    destruct (fv_max_cases v) as [E|[E|E]]; apply K in E; fold x y z in E; nra. }
  assert (P100 : 0 < p2 (-100)) by apply bpow_gt_0.
  assert (Tn : 0 < tiny /\ tiny <= u32 * u32 * p2 (-100)).
  { unfold tiny, u32. split; [apply Rinv_0_lt_compat, pow_lt; lra|].
    replace (p2 (-100)) with (/ 2 ^ 100) by (rewrite (pow_IZR 2 100); reflexivity). rewrite <- !Rinv_mult, <- !pow_add. apply Rinv_le_contravar; [apply pow_lt; lra|]. apply Rle_pow; [lra|]. lia. }
  destruct Tn as (T0 & T1). assert (U0 : 0 < u32 <= / 10000000) by (unfold u32; lra).
  assert (T2 : tiny <= u32 * u32 * S) by (eapply Rle_trans; [exact T1|]; apply Rmult_le_compat_l; nra).
  (* the sum of squares *)
  assert (Hq : Rabs (q - S) <= 4 * u32 * S).
  { pose proof (rnd_err (x * x)) as Ex. pose proof (rnd_err (y * y)) as Ey. pose proof (rnd_err (z * z)) as Ez.
    rewrite (Rabs_pos_eq (x * x)) in Ex by nra. rewrite (Rabs_pos_eq (y * y)) in Ey by nra. rewrite (Rabs_pos_eq (z * z)) in Ez by nra.
    set (a := rnd (x * x)) in *. set (b := rnd (y * y)) in *. set (c := rnd (z * z)) in *.
    assert (0 <= a) by (apply rnd_pos; nra). assert (0 <= b) by (apply rnd_pos; nra). assert (0 <= c) by (apply rnd_pos; nra).
    pose proof (rnd_add_err a b (rnd_fmt _) (rnd_fmt _)) as E1. rewrite (Rabs_pos_eq (a + b)) in E1 by lra.
    set (d := rnd (a + b)) in *. assert (0 <= d) by (apply rnd_pos; lra).
    pose proof (rnd_add_err d c (rnd_fmt _) (rnd_fmt _)) as E2. rewrite (Rabs_pos_eq (d + c)) in E2 by lra. rewrite <- Q in E2.
    exact (sum_err u32 tiny (x * x) (y * y) (z * z) a b c d q U0 ltac:(nra) ltac:(nra) ltac:(nra) H H0 H1 H2 Ex Ey Ez E1 E2 (conj T0 T2)). }
  (* the root *)
  assert (S00 : 0 < S) by lra. apply Rabs_le_inv in Hq. assert (q0 : S / 2 <= q) by nra.
  assert (R0 : 0 < sqrt q) by (apply sqrt_lt_R0; lra). assert (Rq : sqrt q * sqrt q = q) by (apply sqrt_sqrt; lra).
  assert (Hn : Rabs (n - sqrt q) <= (u32 + / 1000 * u32) * sqrt q).
  { pose proof (rnd_err (sqrt q)) as E. rewrite <- N, (Rabs_pos_eq (sqrt q)) in E by lra.
    assert (tiny <= / 1000 * u32 * sqrt q); [|lra].
    assert (p2 (-51) <= sqrt q).
    { rewrite <- (sqrt_square (p2 (-51))) by apply bpow_ge_0. apply sqrt_le_1_alt. rewrite <- bpow_plus.
      assert (p2 (-51 + -51) <= p2 (-100) / 2); [|lra]. change (p2 (-100)) with (p2 (-101 + 1)). rewrite (bpow_plus _ (-101)). simpl (p2 1).
      assert (p2 (-51 + -51) <= p2 (-101)) by (apply bpow_le; lia). lra. }
    assert (p2 (-100) <= p2 (-51)) by (apply bpow_le; lia).
    assert (K : u32 * p2 (-100) <= / 1000 * sqrt q) by (apply Rmult_le_compat; lra). apply (Rmult_le_compat_l u32) in K; lra. }
  apply Rabs_le_inv in Hn. assert (Hn2 : Rabs (n * n - q) <= (3 * u32) * q). { rewrite <- Rq. apply Rabs_le. split; nra. }
  apply Rabs_le_inv in Hn2. assert (Hn3 : Rabs (S / (n * n) - 1) <= 8 * u32).
  { assert (0 < n * n) by nra. replace (S / (n * n) - 1) with ((S - n * n) / (n * n)) by (field; lra). apply Rabs_le.
    split; [apply Rmult_le_reg_r with (n * n)|apply Rmult_le_reg_r with (n * n)]; auto; unfold Rdiv; rewrite Rmult_assoc, Rinv_l by lra; nra. }
  (* the quotients *)
  set (X := x / n) in *. set (Y := y / n) in *. set (Z := z / n) in *.
  assert (HS : S / (n * n) = X * X + Y * Y + Z * Z). { unfold S, X, Y, Z. field. lra. }
  rewrite HS in Hn3. apply Rabs_le_inv in Hn3.
  pose proof (rnd_err X) as Ex. pose proof (rnd_err Y) as Ey. pose proof (rnd_err Z) as Ez. rewrite <- EX in Ex. rewrite <- EY in Ey. rewrite <- EZ in Ez.
  assert (Tu : tiny <= / 100 * u32). { assert (p2 (-100) <= 1) by (change 1 with (p2 0); apply bpow_le; lia). nra. }
  assert (G : forall a b, Rabs a <= 1 + / 100 -> Rabs (b - a) <= u32 * Rabs a + tiny -> Rabs (b * b - a * a) <= 2 * u32 * (a * a) + / 10 * u32).
  { intros a b La Lb. pose proof (Rabs_pos a). assert (Ha : Rabs a * Rabs a = a * a) by (rewrite <- Rabs_mult; apply Rabs_pos_eq; nra).
    replace (b * b - a * a) with ((b - a) * (b - a) + 2 * a * (b - a)) by ring. eapply Rle_trans; [apply Rabs_triang|]. rewrite !Rabs_mult, (Rabs_pos_eq 2) by lra.
    set (d := Rabs (b - a)) in *. assert (0 <= d) by apply Rabs_pos. set (A := Rabs a) in *. rewrite <- Ha.
    assert (D1 : A * d <= A * (u32 * A + tiny)) by (apply Rmult_le_compat_l; lra). assert (D2 : A * tiny <= (1 + / 100) * tiny) by (apply Rmult_le_compat_r; lra).
    assert (D3 : u32 * A <= u32 * (1 + / 100)) by (apply Rmult_le_compat_l; lra). assert (D4 : d * d <= / 1000 * d) by (apply Rmult_le_compat_r; lra).
    replace (2 * u32 * (A * A)) with (2 * (A * (u32 * A))) by ring. lra. }
  assert (LX : Rabs X <= 1 + / 100 /\ Rabs Y <= 1 + / 100 /\ Rabs Z <= 1 + / 100).
  { assert (K : forall a, a * a <= 1 + 8 * u32 -> Rabs a <= 1 + / 100). { intros a Ha. apply Rabs_le. split; nra. } repeat split; apply K; nra. }
  destruct LX as (LX & LY & LZ). pose proof (G _ _ LX Ex) as GX. pose proof (G _ _ LY Ey) as GY. pose proof (G _ _ LZ Ez) as GZ.
  apply Rabs_le_inv in GX, GY, GZ. assert (Uq : 16 * u32 = / 2 ^ 20) by (unfold u32; lra). rewrite <- Uq.
  assert (US : u32 * (X * X + Y * Y + Z * Z) <= u32 * (1 + / 10)) by (apply Rmult_le_compat_l; lra).
  rewrite !Rmult_plus_distr_l in US. rewrite (Rmult_assoc 2) in GX, GY, GZ. apply Rabs_le. lra.
Qed.

(** very short vectors *)
Lemma rnd_small x : Rabs x < p2 (-150) -> rnd x = 0.
Proof.
  assert (K : forall a, 0 <= a < p2 (-150) -> rnd a = 0).
  { intros a (A & B). apply Rle_antisym; [|apply rnd_pos, A].
    apply (round_N_le_midp radix2 (FLT_exp (-149) 24) (fun z => negb (Z.even z))); [apply generic_format_0|].
    rewrite succ_0, ulp_FLT_0 by exact eq_refl. change (-149)%Z with (-150 + 1)%Z. rewrite bpow_plus. simpl (p2 1). lra. }
  intros H. destruct (Rle_dec 0 x) as [P|P].
  - apply K. rewrite Rabs_pos_eq in H by exact P. lra.
  - rewrite Rabs_left in H by lra. rewrite <- (Ropp_involutive x), rnd_opp, K by lra. lra.
Qed.
Lemma fsquare_tiny x : is_finite x = true -> Rabs (B2R x) < p2 (-75) -> is_finite (fmul x x) = true /\ B2R (fmul x x) = 0.
Proof.
  intros F H. assert (R : rnd (B2R x * B2R x) = 0).
  { apply rnd_small. rewrite Rabs_mult. change (-150)%Z with (-75 + -75)%Z. rewrite bpow_plus. pose proof (Rabs_pos (B2R x)). nra. }
  destruct (fmul_ok x x F F) as (A & B). { rewrite R, Rabs_R0. apply bpow_gt_0. } split; [exact B|]. congruence.
Qed.
Lemma fzero_value (x : f32) : is_finite x = true -> B2R x = 0 -> exists s, x = B754_zero s.
Proof.
  destruct x as [s|s| |s m e H]; try discriminate; intros _ E; [eauto|]. exfalso. destruct s.
  - assert (B2R (@B754_finite 24 128 true m e H) < 0) by (apply F2R_lt_0; reflexivity). lra.
  - assert (0 < B2R (@B754_finite 24 128 false m e H)) by (apply F2R_gt_0; reflexivity). lra.
Qed.
Lemma fdiv_zero (x : f32) s : is_finite x = true -> is_finite (fdiv x (B754_zero s)) = false.
Proof. destruct x; try discriminate; reflexivity. Qed.
Lemma fv_tiny v : fv_fin v -> fv_max v < p2 (-75) ->
  is_finite (fvx (fv_normalized v)) = false /\ is_finite (fvy (fv_normalized v)) = false /\ is_finite (fvz (fv_normalized v)) = false.
Proof.
  intros (FX & FY & FZ) M. pose proof (fv_max_le v) as (X & Y & Z).
  destruct (fsquare_tiny _ FX ltac:(lra)) as (A1 & B1). destruct (fsquare_tiny _ FY ltac:(lra)) as (A2 & B2). destruct (fsquare_tiny _ FZ ltac:(lra)) as (A3 & B3).
  assert (K : forall a b, is_finite a = true -> is_finite b = true -> B2R a = 0 -> B2R b = 0 -> is_finite (fadd a b) = true /\ B2R (fadd a b) = 0).
  { intros a b Fa Fb Ea Eb. assert (R : rnd (B2R a + B2R b) = 0) by (rewrite Ea, Eb, Rplus_0_r; apply rnd_0).
    destruct (fadd_ok a b Fa Fb) as (P & Q); [rewrite R, Rabs_R0; apply bpow_gt_0|]. split; [exact Q|congruence]. }
  destruct (K _ _ A1 A2 B1 B2) as (A4 & B4). destruct (K _ _ A4 A3 B4 B3) as (A5 & B5). fold (fv_sqr v) in A5, B5.
  destruct (fsqrt_ok _ A5 ltac:(lra)) as (R & F). rewrite B5, sqrt_0, rnd_0 in R. fold (fv_norm v) in R, F.
  destruct (fzero_value _ F R) as (s & E). unfold fv_normalized. rewrite E. cbn [fvx fvy fvz]. auto using fdiv_zero.
Qed.

(** very long vectors *)
Definition fpos (x : f32) : Prop := is_finite x = true /\ 0 <= B2R x \/ x = finf.
Lemma sf_inf (x : f32) : B2SF x = SpecFloat.S754_infinity false -> x = finf.
Proof. destruct x as [s|s| |s m e H]; simpl; try discriminate. intros E. injection E as ->. reflexivity. Qed.
Lemma rnd_big x : big <= Rabs x -> big <= Rabs (rnd x).
Proof. intros H. rewrite rnd_Rabs. apply rnd_ge_fmt; [apply p2_fmt; lia|exact H]. Qed.
Lemma fsquare_pos x : is_finite x = true -> fpos (fmul x x) /\ (p2 64 <= Rabs (B2R x) -> fmul x x = finf).
Proof.
  intros F. pose proof (Bmult_correct 24 128 prec24 emax128 mode_NE x x) as H.
  change (round radix2 (SpecFloat.fexp 24 128) (round_mode mode_NE)) with rnd in H.
  destruct (Rlt_bool_spec (Rabs (rnd (B2R x * B2R x))) (p2 128)) as [L|L].
  - destruct H as (A & B & _). split.
    + left. unfold fmul. rewrite A, B, F. split; [reflexivity|]. apply rnd_pos. nra.
    + intros G. exfalso. assert (big <= Rabs (rnd (B2R x * B2R x))); [|unfold big in *; lra].
      apply rnd_big. rewrite Rabs_mult. unfold big. change 128%Z with (64 + 64)%Z. rewrite bpow_plus. apply Rmult_le_compat; auto using bpow_ge_0.
  - rewrite xorb_nilpotent in H. assert (fmul x x = finf) by (apply sf_inf; exact H). split; [right|intros _]; assumption.
Qed.
Lemma fadd_inf x y : fpos x -> fpos y -> fpos (fadd x y) /\ (x = finf \/ y = finf -> fadd x y = finf).
Proof.
  intros [(X & PX)| ->] [(Y & PY)| ->].
  - pose proof (Bplus_correct 24 128 prec24 emax128 mode_NE x y X Y) as H.
    change (round radix2 (SpecFloat.fexp 24 128) (round_mode mode_NE)) with rnd in H.
    split; [|intros [-> | ->]; discriminate].
    destruct (Rlt_bool_spec (Rabs (rnd (B2R x + B2R y))) (p2 128)) as [L|L].
    + destruct H as (A & B & _). left. split; [exact B|]. unfold fadd. rewrite A. apply rnd_pos. lra.
    + destruct H as (A & B). right. apply sf_inf. unfold fadd. rewrite A. destruct (Bsign x) eqn:S; [|reflexivity]. exfalso.
      assert (N : forall a : f32, Bsign a = true -> B2R a <= 0).
      { intros [s|s| |s m e M] E; simpl in E |- *; try lra. rewrite E. assert (B2R (@B754_finite 24 128 true m e M) < 0) by (apply F2R_lt_0; reflexivity). simpl in *. lra. }
      pose proof (N x S). rewrite B in S || idtac. assert (Bsign y = true) by congruence. pose proof (N y H0).
      assert (E : B2R x + B2R y = 0) by lra. rewrite E, rnd_0, Rabs_R0 in L. pose proof (bpow_gt_0 radix2 128). lra.
  - assert (fadd x finf = finf) as -> by (destruct x as [s|s| |s m e H]; try discriminate; reflexivity). split; [right|intros _]; reflexivity.
  - assert (fadd finf y = finf) as -> by (destruct y as [s|s| |s m e H]; try discriminate; reflexivity). split; [right|intros _]; reflexivity.
  - split; [right|intros _]; reflexivity.
Qed.
Lemma fv_huge v : fv_fin v -> p2 64 <= fv_max v ->
  let w := fv_normalized v in fv_fin w /\ B2R (fvx w) = 0 /\ B2R (fvy w) = 0 /\ B2R (fvz w) = 0.
Proof.
  intros (FX & FY & FZ) M. destruct (fsquare_pos _ FX) as (P1 & I1), (fsquare_pos _ FY) as (P2 & I2), (fsquare_pos _ FZ) as (P3 & I3).
  destruct (fadd_inf _ _ P1 P2) as (P4 & I4). destruct (fadd_inf _ _ P4 P3) as (P5 & I5).
  assert (E : fv_sqr v = finf).
  { apply I5. destruct (fv_max_cases v) as [T|[T|T]]; rewrite T in M; [left|left|right]; auto. }
  unfold fv_normalized, fv_norm. rewrite E. change (fsqrt finf) with finf. cbv zeta. unfold fv_fin. cbn [fvx fvy fvz].
  assert (K : forall x, is_finite x = true -> is_finite (fdiv x finf) = true /\ B2R (fdiv x finf) = 0).
  { intros x F; destruct x as [s|s| |s m e H]; try discriminate; split; reflexivity. }
  destruct (K _ FX), (K _ FY), (K _ FZ). auto 8.
Qed.
