(** Proofs about the positions of hits in single precision. *)
From Coq Require Import ZArith Reals Lra Lia Bool Psatz.
From Coquelicot Require Import Rbar.
From Flocq Require Import Core BinarySingleNaN Relative.
From Verif.Base Require Import F32.
From Verif.Model Require Import Vec FloatDirs FloatHit BBox Integrators.
From Verif.Spec Require Import FloatDirsSpec MeshSpec FloatHitSpec.
From Verif.Proof Require Import FloatDirsProof.
Open Scope R_scope.

(** * Double precision *)
Definition rnd64 : R -> R := round radix2 (FLT_exp (-1074) 53) ZnearestE.
Lemma rnd64_err x : Rabs (rnd64 x - x) <= / 2 ^ 53 * Rabs x + / 2 ^ 1000.
Proof.
  destruct (error_N_FLT radix2 (-1074) 53 ltac:(lia) (fun z => negb (Z.even z)) x) as (e & h & E & H & _ & Q).
  change (round radix2 (FLT_exp (-1074) 53) (Znearest (fun z => negb (Z.even z)))) with rnd64 in Q. rewrite Q.
  replace (x * (1 + e) + h - x) with (e * x + h) by ring. eapply Rle_trans; [apply Rabs_triang|].
  apply Rplus_le_compat.
  - rewrite Rabs_mult. apply Rmult_le_compat_r; [apply Rabs_pos|]. eapply Rle_trans; [exact E|]. simpl. lra.
  - eapply Rle_trans; [exact H|].
    assert (bpow radix2 (-1074) <= bpow radix2 (-1000)) by (apply bpow_le; lia).
    assert (bpow radix2 (-1000) = / 2 ^ 1000). { rewrite (pow_IZR 2 1000). reflexivity. }
    pose proof (bpow_ge_0 radix2 (-1074)). lra.
Qed.
Lemma fmt_64 x : fmt x -> generic_format radix2 (FLT_exp (-1074) 53) x.
Proof.
  intros F. apply FLT_format_generic in F; [|reflexivity]. destruct F as [f E M L]. apply generic_format_FLT.
  exists f; [exact E| |lia]. change (radix2 ^ 24)%Z with (2 ^ 24)%Z in M. change (radix2 ^ 53)%Z with (2 ^ 53)%Z. lia.
Qed.
Lemma big64 x : Rabs x <= 4 -> Rabs (rnd64 x) < bpow radix2 1024.
Proof.
  intros H. pose proof (rnd64_err x) as E. assert (/ 2 ^ 1000 <= 1).
  { assert (0 < 2 ^ 1000) by (apply pow_lt; lra). assert (1 <= 2 ^ 1000) by (apply pow_R1_Rle; lra). rewrite <- Rinv_1. apply Rinv_le_contravar; lra. }
  assert (bpow radix2 4 <= bpow radix2 1024) by (apply bpow_le; lia). simpl (bpow radix2 4) in H1.
  assert (Rabs (rnd64 x) <= Rabs (rnd64 x - x) + Rabs x).
  { replace (rnd64 x) with ((rnd64 x - x) + x) at 1 by ring. apply Rabs_triang. }
  assert (/ 2 ^ 53 * Rabs x <= 1 * Rabs x). { apply Rmult_le_compat_r; [apply Rabs_pos|]. simpl. lra. } lra.
Qed.
Lemma big32 x : Rabs x <= 4 -> Rabs (rnd x) < big.
Proof.
  intros H. eapply Rle_lt_trans; [apply (rnd_abs_le x 2); [lia|simpl; lra]|]. apply p2_big. lia.
Qed.

Lemma to64_ok x : is_finite x = true -> Rabs (B2R x) <= 4 -> B2R (to64 x) = B2R x /\ is_finite (to64 x) = true.
Proof.
  intros F H. pose proof (fmt_64 _ (fmt_of x)) as G. destruct x as [s|s| |s m e p]; try discriminate F; [split; reflexivity|].
  unfold to64. pose proof (binary_normalize_correct 53 1024 prec53 emax1024 mode_NE (cond_Zopp s (Zpos m)) e s) as N. cbv zeta in N.
  change (F2R (Float radix2 (cond_Zopp s (Zpos m)) e)) with (B2R (B754_finite s m e p)) in N.
  change (round radix2 (SpecFloat.fexp 53 1024) (round_mode mode_NE)) with rnd64 in N.
  rewrite Rlt_bool_true in N by now apply big64. destruct N as (A & B & _). split; [|exact B]. rewrite A.
  unfold rnd64. apply round_generic; auto with typeclass_instances.
Qed.
Lemma to32_ok x : is_finite x = true -> Rabs (B2R x) <= 4 -> B2R (to32 x) = rnd (B2R x) /\ is_finite (to32 x) = true.
Proof.
  intros F H. destruct x as [s|s| |s m e p]; try discriminate F; [split; [symmetry; apply rnd_0|reflexivity]|].
  unfold to32. pose proof (binary_normalize_correct 24 128 prec24 emax128 mode_NE (cond_Zopp s (Zpos m)) e s) as N. cbv zeta in N.
  change (F2R (Float radix2 (cond_Zopp s (Zpos m)) e)) with (B2R (B754_finite s m e p)) in N.
  change (round radix2 (SpecFloat.fexp 24 128) (round_mode mode_NE)) with rnd in N.
  rewrite Rlt_bool_true in N by now apply big32. destruct N as (A & B & _). split; assumption.
Qed.
Lemma dsub_ok x y : is_finite x = true -> is_finite y = true -> Rabs (B2R x - B2R y) <= 4 ->
  B2R (dsub x y) = rnd64 (B2R x - B2R y) /\ is_finite (dsub x y) = true.
Proof.
  intros X Y H. pose proof (Bminus_correct 53 1024 _ _ mode_NE x y X Y) as N.
  change (round radix2 (SpecFloat.fexp 53 1024) (round_mode mode_NE)) with rnd64 in N.
  rewrite Rlt_bool_true in N by now apply big64. destruct N as (A & B & _). split; assumption.
Qed.

Lemma tiny1000 : / 2 ^ 1000 <= / 2 ^ 60.
Proof. apply Rinv_le_contravar; [apply pow_lt; lra|]. apply Rle_pow; [lra|lia]. Qed.
Lemma tiny60 : tiny <= / 2 ^ 60.
Proof. unfold tiny. apply Rinv_le_contravar; [apply pow_lt; lra|]. apply Rle_pow; [lra|lia]. Qed.

Lemma bary0_ok u v : bary_ok u v ->
  is_finite (f_bary0 u v) = true /\ Rabs (B2R (f_bary0 u v) - (1 - B2R u - B2R v)) <= 101 / 100 * u32.
Proof.
  intros (FU & FV & HU & HV & S). unfold f_bary0.
  destruct (fZ_small 1 ltac:(lia)) as (O & FO). fold f1 in O, FO.
  assert (AU : Rabs (B2R u) <= 4) by (apply Rabs_le; lra). assert (AV : Rabs (B2R v) <= 4) by (apply Rabs_le; lra).
  destruct (to64_ok f1 FO) as (E1 & F1'); [rewrite O; apply Rabs_le; lra|].
  destruct (to64_ok u FU AU) as (EU & FU'). destruct (to64_ok v FV AV) as (EV & FV').
  assert (D : Rabs (1 - B2R u) <= 1) by (apply Rabs_le; lra).
  destruct (dsub_ok (to64 f1) (to64 u) F1' FU') as (A & FA). { rewrite E1, EU, O. lra. }
  rewrite E1, EU, O in A. pose proof (rnd64_err (1 - B2R u)) as R1. rewrite <- A in R1. pose proof tiny1000 as T. pose proof tiny60 as T'.
  set (d := B2R (dsub (to64 f1) (to64 u))) in *.
  assert (Q1 : Rabs (d - (1 - B2R u)) <= / 2 ^ 52).
  { clearbody d. clear -R1 T D. eapply Rle_trans; [exact R1|]. set (z := / 2 ^ 1000) in *. clearbody z. simpl in T |- *. lra. }
  clear R1. assert (Q1' : - / 1000000000000 <= d - (1 - B2R u) <= / 1000000000000) by (clearbody d; clear -Q1; apply Rabs_le_inv in Q1; simpl in Q1; lra).
  assert (D2 : Rabs (d - B2R v) <= 2) by (clearbody d; clear -Q1' HU HV; apply Rabs_le; lra).
  destruct (dsub_ok (dsub (to64 f1) (to64 u)) (to64 v) FA FV') as (C & FC). { rewrite EV. fold d. lra. }
  rewrite EV in C. fold d in C. pose proof (rnd64_err (d - B2R v)) as R2. rewrite <- C in R2.
  set (q := B2R (dsub (dsub (to64 f1) (to64 u)) (to64 v))) in *.
  assert (Q2 : Rabs (q - (d - B2R v)) <= / 2 ^ 51).
  { clearbody q d. clear -R2 T D2. eapply Rle_trans; [exact R2|]. set (z := / 2 ^ 1000) in *. clearbody z. simpl in T |- *. lra. }
  clear R2. assert (Q2' : - / 1000000000000 <= q - (d - B2R v) <= / 1000000000000) by (clearbody q d; clear -Q2; apply Rabs_le_inv in Q2; simpl in Q2; lra).
  assert (G : Rabs q <= 1 + / 2 ^ 12) by (clearbody q d; clear -Q1' Q2' HU HV S; simpl in S |- *; apply Rabs_le; lra).
  destruct (to32_ok _ FC) as (Z & FZ). { fold q. clearbody q. clear -G. simpl in G. lra. }
  split; [exact FZ|]. rewrite Z. fold q. pose proof (rnd_err q) as R3.
  assert (Q3 : Rabs (rnd q - q) <= 1005 / 1000 * u32).
  { clearbody q. clear -R3 T' G. eapply Rle_trans; [exact R3|]. set (z := tiny) in *. clearbody z. unfold u32 in *. simpl in T', G |- *. lra. }
  clearbody q d. clear -Q1' Q2' Q3. apply Rabs_le_inv in Q3. apply Rabs_le. unfold u32 in *. simpl in Q3 |- *. lra.
Qed.

(** * One coordinate *)
Lemma coordinate B x0 x1 x2 b0 u v : p2 (-100) <= B <= p2 100 ->
  is_finite x0 = true -> is_finite x1 = true -> is_finite x2 = true -> is_finite b0 = true -> bary_ok u v ->
  Rabs (B2R x0) <= B -> Rabs (B2R x1) <= B -> Rabs (B2R x2) <= B ->
  Rabs (B2R b0 - (1 - B2R u - B2R v)) <= 101 / 100 * u32 ->
  let s := fadd (fadd (fmul x0 b0) (fmul x1 u)) (fmul x2 v) in
  is_finite s = true /\ Rabs (B2R s - (B2R x0 * (1 - B2R u - B2R v) + B2R x1 * B2R u + B2R x2 * B2R v)) <= 5 * u32 * B.
Proof.
  intros HB F0 F1 F2 FB (FU & FV & HU & HV & S) A0 A1 A2 EB s.
  set (w := 1 - B2R u - B2R v) in *. set (a := B2R u) in *. set (b := B2R v) in *. set (c := B2R b0) in *.
  set (y0 := B2R x0) in *. set (y1 := B2R x1) in *. set (y2 := B2R x2) in *.
  assert (BP : 0 < B) by (pose proof (bpow_gt_0 radix2 (-100)); lra).
  assert (LB : B < big / 16).
  { unfold big. assert (bpow radix2 100 * 16 < bpow radix2 128); [|lra].
    replace (bpow radix2 128) with (bpow radix2 100 * bpow radix2 28) by (rewrite <- bpow_plus; reflexivity).
    apply Rmult_lt_compat_l; [apply bpow_gt_0|]. simpl. lra. }
  assert (TB : tiny <= / 2 ^ 48 * B).
  { assert (E1 : tiny = bpow radix2 (-150)). { unfold tiny. rewrite (pow_IZR 2 150). reflexivity. }
    assert (E2 : / 2 ^ 48 = bpow radix2 (-48)). { rewrite (pow_IZR 2 48). reflexivity. }
    rewrite E1, E2. eapply Rle_trans; [|apply Rmult_le_compat_l; [apply bpow_ge_0|apply HB]].
    rewrite <- bpow_plus. apply bpow_le. lia. }
  assert (FIT : forall z, Rabs z <= 3 * B -> Rabs (rnd z) < big).
  { intros z H. pose proof (rnd_err z) as E.
    assert (Rabs (rnd z) <= Rabs (rnd z - z) + Rabs z). { replace (rnd z) with ((rnd z - z) + z) at 1 by ring. apply Rabs_triang. }
    unfold u32 in E. simpl in E, TB. lra. }
  assert (WB : - / 2 ^ 20 <= w <= 1) by (unfold w, a, b in *; simpl in *; lra).
  assert (W : Rabs w + a + b <= 1 + / 2 ^ 19).
  { unfold Rabs. destruct (Rcase_abs w); unfold w in *; simpl in *; lra. }
  assert (PW : 0 <= Rabs w <= 1) by (split; [apply Rabs_pos|apply Rabs_le; simpl in WB; lra]).
  apply Rabs_le_inv in EB.
  (* products *)
  assert (K0 : Rabs (y0 * w) <= B * Rabs w). { rewrite Rabs_mult. apply Rmult_le_compat_r; [apply Rabs_pos|exact A0]. }
  assert (K0' : Rabs (y0 * c - y0 * w) <= B * (101 / 100 * u32)).
  { rewrite <- Rmult_minus_distr_l, Rabs_mult. apply Rmult_le_compat; try apply Rabs_pos; [exact A0|]. apply Rabs_le. exact EB. }
  assert (K1 : Rabs (y1 * a) <= B * a). { rewrite Rabs_mult, (Rabs_pos_eq a) by lra. apply Rmult_le_compat_r; [lra|exact A1]. }
  assert (K2 : Rabs (y2 * b) <= B * b). { rewrite Rabs_mult, (Rabs_pos_eq b) by lra. apply Rmult_le_compat_r; [lra|exact A2]. }
  assert (SB : B * Rabs w + B * a + B * b <= B * (1 + / 2 ^ 19)). { rewrite <- !Rmult_plus_distr_l. apply Rmult_le_compat_l; lra. }
  assert (NW : 0 <= B * Rabs w) by (apply Rmult_le_pos; lra). assert (NA : 0 <= B * a) by (apply Rmult_le_pos; lra). assert (NB : 0 <= B * b) by (apply Rmult_le_pos; lra).
  assert (K : Rabs (y0 * c) <= B * Rabs w + B * (101 / 100 * u32)).
  { replace (y0 * c) with (y0 * w + (y0 * c - y0 * w)) by ring. eapply Rle_trans; [apply Rabs_triang|]. lra. }
  set (pw := B * Rabs w) in *. set (pa := B * a) in *. set (pb := B * b) in *.
  destruct (fmul_ok x0 b0 F0 FB) as (M0 & G0). { fold y0 c. apply FIT. unfold u32 in *. simpl in *. lra. }
  destruct (fmul_ok x1 u F1 FU) as (M1 & G1). { fold y1 a. apply FIT. simpl in *. lra. }
  destruct (fmul_ok x2 v F2 FV) as (M2 & G2). { fold y2 b. apply FIT. simpl in *. lra. }
  fold y0 c in M0. fold y1 a in M1. fold y2 b in M2.
  pose proof (rnd_err (y0 * c)) as R0. rewrite <- M0 in R0. pose proof (rnd_err (y1 * a)) as R1. rewrite <- M1 in R1.
  pose proof (rnd_err (y2 * b)) as R2. rewrite <- M2 in R2.
  pose proof (rnd_add_err _ _ (fmt_of (fmul x0 b0)) (fmt_of (fmul x1 u))) as R3.
  set (m0 := B2R (fmul x0 b0)) in *. set (m1 := B2R (fmul x1 u)) in *. set (m2 := B2R (fmul x2 v)) in *.
  set (t0 := y0 * c) in *. set (t0w := y0 * w) in *. set (t1 := y1 * a) in *. set (t2 := y2 * b) in *.
  assert (Q0 : Rabs (m0 - t0) <= u32 * pw + / 2 ^ 40 * B). { unfold u32 in *. simpl in *. lra. }
  assert (Q1 : Rabs (m1 - t1) <= u32 * pa + / 2 ^ 40 * B). { unfold u32 in *. simpl in *. lra. }
  assert (Q2 : Rabs (m2 - t2) <= u32 * pb + / 2 ^ 40 * B). { unfold u32 in *. simpl in *. lra. }
  apply Rabs_le_inv in Q0. apply Rabs_le_inv in Q1. apply Rabs_le_inv in Q2. apply Rabs_le_inv in K. apply Rabs_le_inv in K1. apply Rabs_le_inv in K2. apply Rabs_le_inv in K0'.
  assert (X3 : Rabs (m0 + m1) <= 1001 / 1000 * B). { apply Rabs_le. unfold u32 in *. simpl in *. lra. }
  destruct (fadd_ok (fmul x0 b0) (fmul x1 u) G0 G1) as (M3 & G3). { fold m0 m1. apply FIT. lra. }
  fold m0 m1 in M3. rewrite <- M3 in R3. set (m3 := B2R (fadd (fmul x0 b0) (fmul x1 u))) in *.
  assert (Q3 : Rabs (m3 - (m0 + m1)) <= 1001 / 1000 * u32 * B). { unfold u32 in *. simpl in *. lra. }
  apply Rabs_le_inv in Q3.
  assert (X4 : Rabs (m3 + m2) <= 1002 / 1000 * B). { apply Rabs_le. unfold u32 in *. simpl in *. lra. }
  pose proof (rnd_add_err _ _ (fmt_of (fadd (fmul x0 b0) (fmul x1 u))) (fmt_of (fmul x2 v))) as R4. fold m3 m2 in R4.
  destruct (fadd_ok (fadd (fmul x0 b0) (fmul x1 u)) (fmul x2 v) G3 G2) as (M4 & G4). { fold m3 m2. apply FIT. lra. }
  fold m3 m2 in M4. rewrite <- M4 in R4. fold s in R4, M4, G4. split; [exact G4|].
  assert (Q4 : Rabs (B2R s - (m3 + m2)) <= 1002 / 1000 * u32 * B). { unfold u32 in *. simpl in *. lra. }
  apply Rabs_le_inv in Q4. apply Rabs_le. unfold u32 in *. simpl in *. lra.
Qed.

Lemma hit_point B a b c u v : p2 (-100) <= B <= p2 100 -> tri_within B a b c -> bary_ok u v ->
  let p := f_hit_point a b c u v in let q := true_point a b c u v in
  fv_fin p /\ Rabs (B2R (fvx p) - vx q) <= 5 * u32 * B /\ Rabs (B2R (fvy p) - vy q) <= 5 * u32 * B /\ Rabs (B2R (fvz p) - vz q) <= 5 * u32 * B.
Proof.
  intros HB ((FA & MA) & (FB & MB) & (FC & MC)) H. destruct (bary0_ok u v H) as (F0 & E0).
  destruct FA as (A1 & A2 & A3), FB as (B1 & B2 & B3), FC as (C1 & C2 & C3).
  destruct (fv_max_le a) as (a1 & a2 & a3). destruct (fv_max_le b) as (b1 & b2 & b3). destruct (fv_max_le c) as (c1 & c2 & c3).
  destruct (coordinate B (fvx a) (fvx b) (fvx c) (f_bary0 u v) u v HB A1 B1 C1 F0 H) as (X & EX); try lra.
  destruct (coordinate B (fvy a) (fvy b) (fvy c) (f_bary0 u v) u v HB A2 B2 C2 F0 H) as (Y & EY); try lra.
  destruct (coordinate B (fvz a) (fvz b) (fvz c) (f_bary0 u v) u v HB A3 B3 C3 F0 H) as (Z & EZ); try lra.
  split; [split; [|split]; assumption|].
  unfold true_point, combine3, real_point, f_hit_point, fv_add, fv_scale. cbn [vx vy vz vadd vscale fvx fvy fvz]. 
  cbv zeta in EX, EY, EZ. split; [|split]; [eapply Rle_trans; [|exact EX]|eapply Rle_trans; [|exact EY]|eapply Rle_trans; [|exact EZ]]; right; apply f_equal; ring.
Qed.
