(** Proofs about normals of mesh hits in single precision. *)
From Coq Require Import ZArith Reals Lra Lia Bool Psatz.
From Flocq Require Import Core BinarySingleNaN.
From Verif.Base Require Import F32.
From Verif.Model Require Import Vec FloatDirs FloatHit.
From Verif.Spec Require Import FloatDirsSpec MeshSpec FloatHitSpec FloatNormalSpec.
From Verif.Proof Require Import FloatDirsProof FloatHitProof.
Open Scope R_scope.

Lemma fits z : Rabs z <= p2 60 -> Rabs (rnd z) < big.
Proof. intros H. eapply Rle_lt_trans; [apply (rnd_abs_le z 60); [lia|exact H]|]. apply p2_big. lia. Qed.
Lemma sub_err x y : is_finite x = true -> is_finite y = true -> Rabs (B2R x - B2R y) <= p2 60 ->
  is_finite (fsub x y) = true /\ Rabs (B2R (fsub x y) - (B2R x - B2R y)) <= u32 * Rabs (B2R x - B2R y).
Proof.
  intros X Y H. destruct (fsub_ok x y X Y (fits _ H)) as (E & F). split; [exact F|]. rewrite E.
  exact (rnd_add_err (B2R x) (- B2R y) (fmt_of x) (generic_format_opp _ _ _ (fmt_of y))).
Qed.
(** a product of two edges *)
Lemma mul_err M N x y X Y : p2 (-80) <= M * N <= p2 50 -> 0 <= M -> 0 <= N ->
  is_finite x = true -> is_finite y = true -> Rabs X <= M -> Rabs Y <= N ->
  Rabs (B2R x - X) <= u32 * Rabs X -> Rabs (B2R y - Y) <= u32 * Rabs Y ->
  is_finite (fmul x y) = true /\ Rabs (B2R (fmul x y) - X * Y) <= 301 / 100 * (u32 * (M * N)).
Proof.
  intros HM PM PN FX FY BX BY EX EY. set (m := M * N) in *. set (x' := B2R x) in *. set (y' := B2R y) in *.
  assert (U : 0 < u32 <= / 10000000) by (unfold u32; simpl; lra).
  assert (m0 : 0 < m) by (pose proof (bpow_gt_0 radix2 (-80)); lra).
  assert (AX : Rabs x' <= (1 + u32) * M).
  { replace x' with ((x' - X) + X) by ring. eapply Rle_trans; [apply Rabs_triang|]. nra. }
  assert (D : Rabs (x' * y' - X * Y) <= (2 + u32) * (u32 * m)).
  { replace (x' * y' - X * Y) with (x' * (y' - Y) + (x' - X) * Y) by ring. eapply Rle_trans; [apply Rabs_triang|]. rewrite !Rabs_mult.
    assert (Rabs x' * Rabs (y' - Y) <= ((1 + u32) * M) * (u32 * N)). { apply Rmult_le_compat; try apply Rabs_pos; [exact AX|]. nra. }
    assert (Rabs (x' - X) * Rabs Y <= (u32 * M) * N). { apply Rmult_le_compat; try apply Rabs_pos; [nra|exact BY]. }
    unfold m. nra. }
  assert (XY : Rabs (X * Y) <= m). { rewrite Rabs_mult. apply Rmult_le_compat; try apply Rabs_pos; assumption. }
  assert (D' : Rabs (x' * y' - X * Y) <= 2001 / 1000 * (u32 * m)). { eapply Rle_trans; [exact D|]. apply Rmult_le_compat_r; [apply Rmult_le_pos; lra|lra]. }
  assert (um : 0 < u32 * m <= / 10000000 * m) by (split; [apply Rmult_lt_0_compat; lra|apply Rmult_le_compat_r; lra]).
  assert (T : Rabs (x' * y') <= 1001 / 1000 * m).
  { replace (x' * y') with ((x' * y' - X * Y) + X * Y) by ring. eapply Rle_trans; [apply Rabs_triang|]. lra. }
  destruct (fmul_ok x y FX FY) as (E & F).
  { fold x' y'. apply fits. assert (bpow radix2 60 = 1024 * bpow radix2 50) by (change 60%Z with (10 + 50)%Z; rewrite bpow_plus; reflexivity). lra. }
  split; [exact F|]. rewrite E. fold x' y'. pose proof (rnd_err (x' * y')) as R.
  assert (TT : tiny <= / 1000 * (u32 * m)).
  { assert (E1 : tiny = bpow radix2 (-150)). { unfold tiny. rewrite (pow_IZR 2 150). reflexivity. }
    assert (E2 : u32 = bpow radix2 (-24)). { unfold u32. rewrite (pow_IZR 2 24). reflexivity. }
    assert (bpow radix2 (-150) <= / 1000 * (bpow radix2 (-24) * bpow radix2 (-80))).
    { rewrite <- bpow_plus. replace (-150)%Z with (-46 + (-24 + -80))%Z by lia. rewrite (bpow_plus radix2 (-46)). apply Rmult_le_compat_r; [apply bpow_ge_0|]. simpl. lra. }
    assert (bpow radix2 (-24) * bpow radix2 (-80) <= u32 * m). { rewrite E2. apply Rmult_le_compat_l; [apply bpow_ge_0|lra]. } lra. }
  assert (u32 * Rabs (x' * y') <= 1001 / 1000 * (u32 * m)). { eapply Rle_trans; [apply Rmult_le_compat_l; [lra|exact T]|]. lra. }
  replace (rnd (x' * y') - X * Y) with ((rnd (x' * y') - x' * y') + (x' * y' - X * Y)) by ring. eapply Rle_trans; [apply Rabs_triang|]. lra.
Qed.
(** a component of the cross product *)
Lemma cross_err M N a b c d A B C D : p2 (-80) <= M * N <= p2 50 -> 0 <= M -> 0 <= N ->
  is_finite a = true -> is_finite b = true -> is_finite c = true -> is_finite d = true ->
  Rabs A <= M -> Rabs B <= N -> Rabs C <= M -> Rabs D <= N ->
  Rabs (B2R a - A) <= u32 * Rabs A -> Rabs (B2R b - B) <= u32 * Rabs B -> Rabs (B2R c - C) <= u32 * Rabs C -> Rabs (B2R d - D) <= u32 * Rabs D ->
  is_finite (fsub (fmul a b) (fmul c d)) = true /\ Rabs (B2R (fsub (fmul a b) (fmul c d)) - (A * B - C * D)) <= 9 * u32 * (M * N) /\ Rabs (A * B - C * D) <= 2 * (M * N).
Proof.
  intros HM PM PN Fa Fb Fc Fd BA BB BC BD EA EB EC ED.
  destruct (mul_err M N a b A B HM PM PN Fa Fb BA BB EA EB) as (F1 & E1). destruct (mul_err M N c d C D HM PM PN Fc Fd BC BD EC ED) as (F2 & E2).
  assert (K1 : Rabs (A * B) <= M * N) by (rewrite Rabs_mult; apply Rmult_le_compat; try apply Rabs_pos; assumption).
  assert (K2 : Rabs (C * D) <= M * N) by (rewrite Rabs_mult; apply Rmult_le_compat; try apply Rabs_pos; assumption).
  set (m := M * N) in *. assert (U : 0 < u32 <= / 10000000) by (unfold u32; simpl; lra).
  assert (m0 : 0 < m) by (pose proof (bpow_gt_0 radix2 (-80)); lra).
  assert (um : 0 < u32 * m <= / 10000000 * m) by (split; [apply Rmult_lt_0_compat; lra|apply Rmult_le_compat_r; lra]).
  apply Rabs_le_inv in E1. apply Rabs_le_inv in E2. apply Rabs_le_inv in K1. apply Rabs_le_inv in K2.
  assert (T : Rabs (B2R (fmul a b) - B2R (fmul c d)) <= 2001 / 1000 * m) by (apply Rabs_le; lra).
  destruct (sub_err (fmul a b) (fmul c d) F1 F2) as (F & E).
  { assert (bpow radix2 60 = 1024 * bpow radix2 50) by (change 60%Z with (10 + 50)%Z; rewrite bpow_plus; reflexivity). lra. }
  assert (u32 * Rabs (B2R (fmul a b) - B2R (fmul c d)) <= 2001 / 1000 * (u32 * m)). { eapply Rle_trans; [apply Rmult_le_compat_l; [lra|exact T]|]. lra. }
  split; [exact F|]. split; [|apply Rabs_le; lra]. assert (E' : Rabs (B2R (fsub (fmul a b) (fmul c d)) - (B2R (fmul a b) - B2R (fmul c d))) <= 2001 / 1000 * (u32 * m)) by lra.
  apply Rabs_le_inv in E'. apply Rabs_le. lra.
Qed.

Lemma vmax_le v : Rabs (vx v) <= vmax v /\ Rabs (vy v) <= vmax v /\ Rabs (vz v) <= vmax v.
Proof. unfold vmax. pose proof (Rmax_l (Rabs (vx v)) (Rmax (Rabs (vy v)) (Rabs (vz v)))). pose proof (Rmax_r (Rabs (vx v)) (Rmax (Rabs (vy v)) (Rabs (vz v)))).
  pose proof (Rmax_l (Rabs (vy v)) (Rabs (vz v))). pose proof (Rmax_r (Rabs (vy v)) (Rabs (vz v))). lra. Qed.
Lemma vmax_lub v m : Rabs (vx v) <= m -> Rabs (vy v) <= m -> Rabs (vz v) <= m -> vmax v <= m.
Proof. intros. unfold vmax. repeat apply Rmax_lub; assumption. Qed.
Lemma fv_max_lub v m : Rabs (B2R (fvx v)) <= m -> Rabs (B2R (fvy v)) <= m -> Rabs (B2R (fvz v)) <= m -> fv_max v <= m.
Proof. intros. unfold fv_max. repeat apply Rmax_lub; assumption. Qed.
Lemma vmax_0 v : 0 <= vmax v.
Proof. pose proof (vmax_le v). pose proof (Rabs_pos (vx v)). lra. Qed.

Lemma sub_close a b : fv_fin a -> fv_fin b -> vmax (edge a b) <= p2 25 ->
  let s := fv_sub b a in fv_fin s /\
  Rabs (B2R (fvx s) - vx (edge a b)) <= u32 * Rabs (vx (edge a b)) /\
  Rabs (B2R (fvy s) - vy (edge a b)) <= u32 * Rabs (vy (edge a b)) /\
  Rabs (B2R (fvz s) - vz (edge a b)) <= u32 * Rabs (vz (edge a b)).
Proof.
  intros (X & Y & Z) (X' & Y' & Z') H s. destruct (vmax_le (edge a b)) as (HX & HY & HZ).
  assert (bpow radix2 25 <= bpow radix2 60) by (apply bpow_le; lia).
  destruct (sub_err (fvx b) (fvx a) X' X) as (F1 & E1). { eapply Rle_trans; [exact HX|]. lra. }
  destruct (sub_err (fvy b) (fvy a) Y' Y) as (F2 & E2). { eapply Rle_trans; [exact HY|]. lra. }
  destruct (sub_err (fvz b) (fvz a) Z' Z) as (F3 & E3). { eapply Rle_trans; [exact HZ|]. lra. }
  split; [split; [|split]; assumption|]. split; [|split]; assumption.
Qed.

(** normalising a vector that is close to an exact one *)
Lemma normalized_along v x e : fv_fin v -> fv_max v <= p2 60 ->
  Rabs (B2R (fvx v) - vx x) <= e -> Rabs (B2R (fvy v) - vy x) <= e -> Rabs (B2R (fvz v) - vz x) <= e -> p2 (-50) + e <= vmax x ->
  unit_vector (fv_normalized v) /\ along (e / (vmax x - e) + / 2 ^ 23) (fv_normalized v) x.
Proof.
  intros F B EX EY EZ H. pose proof (bpow_gt_0 radix2 (-50)) as P.
  assert (e0 : 0 <= e) by (pose proof (Rabs_pos (B2R (fvx v) - vx x)); lra).
  destruct (fv_max_le v) as (HX & HY & HZ).
  assert (L : vmax x - e <= fv_max v).
  { assert (vmax x <= fv_max v + e); [|lra].
    assert (K : forall s t, Rabs (s - t) <= e -> Rabs s <= fv_max v -> Rabs t <= fv_max v + e).
    { intros s t E1 E2. replace t with (s - (s - t)) by ring. eapply Rle_trans; [apply Rabs_triang|]. rewrite Rabs_Ropp. lra. }
    apply vmax_lub; eapply K; eassumption. }
  assert (R : p2 (-50) <= fv_max v <= p2 60) by lra.
  destruct (fv_normalized_ok v F R) as (G & M & N & X & Y & Z). pose proof (fv_norm_max v F R) as NM.
  split; [split; [exact G|split; [exact M|exact (fv_normalized_len v F R)]]|].
  set (n := B2R (fv_norm v)) in *. exists (/ n). split; [now apply Rinv_0_lt_compat|].
  assert (K : forall s t, Rabs (s - t) <= e -> Rabs s <= fv_max v -> Rabs (rnd (s / n) - / n * t) <= e / (vmax x - e) + / 2 ^ 23).
  { intros s t E S. replace (rnd (s / n) - / n * t) with ((s - t) / n + (rnd (s / n) - s / n)) by (field; lra).
    eapply Rle_trans; [apply Rabs_triang|]. apply Rplus_le_compat.
    - unfold Rdiv. rewrite Rabs_mult, (Rabs_pos_eq (/ n)) by (apply Rlt_le, Rinv_0_lt_compat; lra).
      apply Rmult_le_compat; [apply Rabs_pos|apply Rlt_le, Rinv_0_lt_compat; lra|exact E|]. apply Rinv_le_contravar; lra.
    - pose proof (rnd_err (s / n)) as Q. assert (Rabs (s / n) <= 1).
      { unfold Rdiv. rewrite Rabs_mult, (Rabs_pos_eq (/ n)) by (apply Rlt_le, Rinv_0_lt_compat; lra).
        apply Rmult_le_reg_r with n; [lra|]. rewrite Rmult_assoc, Rinv_l by lra. lra. }
      pose proof tiny60 as T. set (z := tiny) in *. clearbody z. unfold u32 in Q. simpl in Q, T |- *. lra. }
  rewrite X, Y, Z. split; [|split]; apply K; assumption.
Qed.

Lemma geometric a b c : fv_fin a -> fv_fin b -> fv_fin c ->
  p2 (-40) <= vmax (edge a b) <= p2 25 -> p2 (-40) <= vmax (edge a c) <= p2 25 ->
  let e := 9 * u32 * (vmax (edge a b) * vmax (edge a c)) in
  p2 (-50) + e <= vmax (true_cross a b c) ->
  unit_vector (f_geo_normal a b c) /\ along (e / (vmax (true_cross a b c) - e) + / 2 ^ 23) (f_geo_normal a b c) (true_cross a b c).
Proof.
  intros Fa Fb Fc B1 B2 e H. set (M := vmax (edge a b)) in *. set (N := vmax (edge a c)) in *.
  pose proof (bpow_gt_0 radix2 (-40)) as P40.
  assert (MN : p2 (-80) <= M * N <= p2 50).
  { change (-80)%Z with (-40 + -40)%Z. change 50%Z with (25 + 25)%Z. rewrite !bpow_plus. split; apply Rmult_le_compat; lra. }
  destruct (sub_close a b Fa Fb ltac:(fold M; lra)) as ((X1 & Y1 & Z1) & EX1 & EY1 & EZ1).
  destruct (sub_close a c Fa Fc ltac:(fold N; lra)) as ((X2 & Y2 & Z2) & EX2 & EY2 & EZ2).
  destruct (vmax_le (edge a b)) as (MX & MY & MZ). fold M in MX, MY, MZ. destruct (vmax_le (edge a c)) as (NX & NY & NZ). fold N in NX, NY, NZ.
  assert (PM : 0 <= M) by lra. assert (PN : 0 <= N) by lra.
  destruct (cross_err M N _ _ _ _ _ _ _ _ MN PM PN Y1 Z2 Z1 Y2 MY NZ MZ NY EY1 EZ2 EZ1 EY2) as (FX & CX & SX).
  destruct (cross_err M N _ _ _ _ _ _ _ _ MN PM PN Z1 X2 X1 Z2 MZ NX MX NZ EZ1 EX2 EX1 EZ2) as (FY & CY & SY).
  destruct (cross_err M N _ _ _ _ _ _ _ _ MN PM PN X1 Y2 Y1 X2 MX NY MY NX EX1 EY2 EY1 EX2) as (FZ & CZ & SZ).
  assert (U : 0 < u32 <= / 10000000) by (unfold u32; simpl; lra). pose proof (bpow_gt_0 radix2 (-80)).
  assert (Ee : e <= M * N). { unfold e. replace (9 * u32 * (M * N)) with (M * N * (9 * u32)) by ring. rewrite <- (Rmult_1_r (M * N)) at 2. apply Rmult_le_compat_l; lra. }
  assert (P60 : 3 * (M * N) <= p2 60). { assert (bpow radix2 60 = 1024 * bpow radix2 50) by (change 60%Z with (10 + 50)%Z; rewrite bpow_plus; reflexivity). lra. }
  fold e in CX, CY, CZ.
  assert (K : forall s t, Rabs (s - t) <= e -> Rabs t <= 2 * (M * N) -> Rabs s <= p2 60).
  { intros s t E1 E2. replace s with ((s - t) + t) by ring. eapply Rle_trans; [apply Rabs_triang|]. lra. }
  apply normalized_along; [split; [|split]; assumption| | | | |exact H]; try assumption.
  apply fv_max_lub; eapply K; eassumption.
Qed.

Lemma shading a b c u v : normals_ok a b c -> bary_ok u v ->
  unit_vector (f_shading_normal a b c u v) /\ along (/ 2 ^ 17) (f_shading_normal a b c u v) (true_point a b c u v).
Proof.
  intros (T & La & Lb & Lc & Dab & Dac & Dbc) H. 
  assert (B2' : p2 (-100) <= 2 <= p2 100).
  { split; [change 2 with (bpow radix2 1)|change 2 with (bpow radix2 1)]; apply bpow_le; lia. }
  destruct (hit_point 2 a b c u v B2' T H) as (F & X & Y & Z).
  destruct H as (_ & _ & HU & HV & S). destruct T as ((_ & Ma) & (_ & Mb) & (_ & Mc)).
  set (p := f_hit_point a b c u v) in *. set (q := true_point a b c u v) in *.
  assert (Q : 1 / 8 <= vx q * vx q + vy q * vy q + vz q * vz q).
  { unfold q, true_point, combine3, real_point in *. cbn [vx vy vz] in *. unfold len2 in La, Lb, Lc. unfold dot in Dab, Dac, Dbc. cbn [vx vy vz] in *.
    destruct (fv_max_le a) as (a1 & a2 & a3). destruct (fv_max_le b) as (b1 & b2 & b3). destruct (fv_max_le c) as (c1 & c2 & c3).
    set (w1 := B2R u) in *. set (w2 := B2R v) in *. set (w0 := 1 - w1 - w2).
    set (ax := B2R (fvx a)) in *. set (ay := B2R (fvy a)) in *. set (az := B2R (fvz a)) in *.
    set (bx := B2R (fvx b)) in *. set (by' := B2R (fvy b)) in *. set (bz := B2R (fvz b)) in *.
    set (cx := B2R (fvx c)) in *. set (cy := B2R (fvy c)) in *. set (cz := B2R (fvz c)) in *.
    assert (P : forall s t, Rabs s <= 2 -> Rabs t <= 2 -> s * t <= 4).
    { intros s t A B. assert (Rabs (s * t) <= 2 * 2) by (rewrite Rabs_mult; apply Rmult_le_compat; try apply Rabs_pos; assumption). pose proof (Rle_abs (s * t)). lra. }
    assert (Uab : bx * ax + by' * ay + bz * az <= 12).
    { pose proof (P bx ax ltac:(lra) ltac:(lra)). pose proof (P by' ay ltac:(lra) ltac:(lra)). pose proof (P bz az ltac:(lra) ltac:(lra)). lra. }
    assert (Uac : cx * ax + cy * ay + cz * az <= 12).
    { pose proof (P cx ax ltac:(lra) ltac:(lra)). pose proof (P cy ay ltac:(lra) ltac:(lra)). pose proof (P cz az ltac:(lra) ltac:(lra)). lra. }
    set (dab := bx * ax + by' * ay + bz * az) in *. set (dac := cx * ax + cy * ay + cz * az) in *. set (dbc := cx * bx + cy * by' + cz * bz) in *.
    set (la := ax * ax + ay * ay + az * az) in *. set (lb := bx * bx + by' * by' + bz * bz) in *. set (lc := cx * cx + cy * cy + cz * cz) in *.
    replace ((ax * w0 + bx * w1 + cx * w2) * (ax * w0 + bx * w1 + cx * w2) + (ay * w0 + by' * w1 + cy * w2) * (ay * w0 + by' * w1 + cy * w2) +
             (az * w0 + bz * w1 + cz * w2) * (az * w0 + bz * w1 + cz * w2))
      with ((w0 * w0) * la + (w1 * w1) * lb + (w2 * w2) * lc + 2 * (w0 * (w1 * dab) + w0 * (w2 * dac) + (w1 * w2) * dbc)) by (unfold la, lb, lc, dab, dac, dbc; ring).
    assert (W0 : - / 1000000 <= w0) by (unfold w0; simpl in S; lra).
    assert (G1 : w0 * w0 * la >= w0 * w0 * (1 / 2)) by (apply Rle_ge, Rmult_le_compat_l; [apply Rle_0_sqr|lra]).
    assert (G2 : w1 * w1 * lb >= w1 * w1 * (1 / 2)) by (apply Rle_ge, Rmult_le_compat_l; [apply Rle_0_sqr|lra]).
    assert (G3 : w2 * w2 * lc >= w2 * w2 * (1 / 2)) by (apply Rle_ge, Rmult_le_compat_l; [apply Rle_0_sqr|lra]).
    assert (G4 : 0 <= w1 * w2 * dbc) by (apply Rmult_le_pos; [apply Rmult_le_pos|]; lra).
    assert (T1 : 0 <= w1 * dab <= 12). { split; [apply Rmult_le_pos; lra|]. replace 12 with (1 * 12) by ring. apply Rmult_le_compat; lra. }
    assert (T2 : 0 <= w2 * dac <= 12). { split; [apply Rmult_le_pos; lra|]. replace 12 with (1 * 12) by ring. apply Rmult_le_compat; lra. }
    assert (G5 : - (12 / 1000000) <= w0 * (w1 * dab)). { assert (- / 1000000 * (w1 * dab) <= w0 * (w1 * dab)) by (apply Rmult_le_compat_r; lra). lra. }
    assert (G6 : - (12 / 1000000) <= w0 * (w2 * dac)). { assert (- / 1000000 * (w2 * dac) <= w0 * (w2 * dac)) by (apply Rmult_le_compat_r; lra). lra. }
    assert (G7 : 1 / 3 <= w0 * w0 + w1 * w1 + w2 * w2).
    { unfold w0. pose proof (Rle_0_sqr (w1 - 1 / 3)). pose proof (Rle_0_sqr (w2 - 1 / 3)). pose proof (Rle_0_sqr (w1 + w2 - 2 / 3)). unfold Rsqr in *. lra. }
    lra. }
  assert (V : 1 / 5 <= vmax q).
  { destruct (Rle_lt_dec (1 / 5) (vmax q)) as [L|L]; [exact L|exfalso]. destruct (vmax_le q) as (qx & qy & qz).
    assert (SQ : forall z, Rabs z <= vmax q -> z * z <= 1 / 25). { intros z Hz. assert (Rabs z <= 1 / 5) by lra. apply Rabs_le_inv in H. nra. }
    apply SQ in qx. apply SQ in qy. apply SQ in qz. lra. }
  assert (E : 5 * u32 * 2 <= / 1000000) by (unfold u32; simpl; lra).
  assert (R : / 2 ^ 17 = / 131072) by (simpl; lra).
  assert (Bq : Rabs (vx q) <= 8 /\ Rabs (vy q) <= 8 /\ Rabs (vz q) <= 8).
  { destruct (fv_max_le a) as (a1 & a2 & a3). destruct (fv_max_le b) as (b1 & b2 & b3). destruct (fv_max_le c) as (c1 & c2 & c3).
    assert (W : Rabs (1 - B2R u - B2R v) <= 1) by (apply Rabs_le; simpl in S; lra).
    assert (K : forall s t r, Rabs s <= 2 -> Rabs t <= 2 -> Rabs r <= 2 -> Rabs (s * (1 - B2R u - B2R v) + t * B2R u + r * B2R v) <= 8).
    { intros s t r A B C. eapply Rle_trans; [apply Rabs_triang|]. eapply Rle_trans; [apply Rplus_le_compat_r, Rabs_triang|]. rewrite !Rabs_mult.
      assert (Rabs s * Rabs (1 - B2R u - B2R v) <= 2 * 1) by (apply Rmult_le_compat; try apply Rabs_pos; assumption).
      assert (Rabs t * Rabs (B2R u) <= 2 * 1) by (apply Rmult_le_compat; try apply Rabs_pos; [assumption|apply Rabs_le; lra]).
      assert (Rabs r * Rabs (B2R v) <= 2 * 1) by (apply Rmult_le_compat; try apply Rabs_pos; [assumption|apply Rabs_le; lra]). lra. }
    unfold q, true_point, combine3, real_point. cbn [vx vy vz]. split; [|split]; apply K; lra. }
  assert (P50 : bpow radix2 (-50) <= / 1000000). { simpl. lra. }
  destruct (normalized_along p q (/ 1000000)) as (UV & AL); try lra.
  - exact F.
  - assert (P4 : 16 <= p2 60). { change 16 with (bpow radix2 4). apply bpow_le. lia. }
    destruct Bq as (q1 & q2 & q3).
    assert (K : forall s t, Rabs (s - t) <= 5 * u32 * 2 -> Rabs t <= 8 -> Rabs s <= p2 60).
    { intros s t E1 E2. replace s with ((s - t) + t) by ring. eapply Rle_trans; [apply Rabs_triang|]. lra. }
    apply fv_max_lub; eapply K; eassumption.
  - split; [exact UV|]. destruct AL as (k & k0 & A1 & A2 & A3).
    assert (BND : / 1000000 / (vmax q - / 1000000) + / 2 ^ 23 <= / 2 ^ 17).
    { assert (/ (vmax q - / 1000000) <= / (19 / 100)) by (apply Rinv_le_contravar; lra). unfold Rdiv. simpl. lra. }
    exists k. split; [exact k0|]. fold p in A1, A2, A3. unfold f_shading_normal. fold p. lra.
Qed.
