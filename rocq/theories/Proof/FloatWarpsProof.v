(** The sampling maps in single precision. *)
From Coq Require Import ZArith Reals Lra Lia Bool Psatz.
From Flocq Require Import Core BinarySingleNaN.
From Verif.Base Require Import F32.
From Verif.Model Require Import FloatDirs.
From Verif.Spec Require Import FloatDirsSpec.
From Verif.Proof Require Import FloatDirsProof FloatPathProof.
Open Scope R_scope.

Lemma one_big : 1 < big. Proof. apply (p2_big 0). lia. Qed.
Lemma fmt_1 : fmt 1. Proof. apply (p2_fmt 0). lia. Qed.
Lemma rnd_unit x : Rabs x <= 1 -> Rabs (rnd x) <= 1.
Proof. apply (rnd_abs_le x 0). lia. Qed.
Lemma rnd_01 x : 0 <= x <= 1 -> 0 <= rnd x <= 1.
Proof. intros H. split; [apply rnd_pos; lra|apply rnd_le_fmt; [apply fmt_1|lra]]. Qed.
Lemma in11_of01 x : num_in 1 x -> in11 x.
Proof. intros (F & B). split; [exact F|]. apply Rabs_le. lra. Qed.

Lemma mul11 x y : in11 x -> in11 y -> in11 (fmul x y) /\ B2R (fmul x y) = rnd (B2R x * B2R y).
Proof.
  intros (X & BX) (Y & BY). assert (R : Rabs (rnd (B2R x * B2R y)) <= 1).
  { apply rnd_unit. rewrite Rabs_mult. replace 1 with (1 * 1) by ring. apply Rmult_le_compat; auto using Rabs_pos. }
  destruct (fmul_ok x y X Y) as (A & B); [pose proof one_big; lra|]. split; [split; [exact B|now rewrite A]|exact A].
Qed.
Lemma sqr11 x : in11 x -> num_in 1 (fmul x x) /\ B2R (fmul x x) = rnd (B2R x * B2R x).
Proof.
  intros X. destruct (mul11 x x X X) as ((F & B) & E). split; [|exact E]. split; [exact F|]. apply Rabs_le_inv in B. split; [|lra]. rewrite E. apply rnd_pos. nra.
Qed.
Lemma sub_ok1 x y : is_finite x = true -> is_finite y = true -> Rabs (B2R x - B2R y) <= 1 ->
  in11 (fsub x y) /\ B2R (fsub x y) = rnd (B2R x - B2R y).
Proof.
  intros X Y H. apply rnd_unit in H. destruct (fsub_ok x y X Y) as (A & B); [pose proof one_big; lra|].
  split; [split; [exact B|now rewrite A]|exact A].
Qed.
Lemma sub01 x : num_in 1 x -> num_in 1 (fsub f1 x) /\ B2R (fsub f1 x) = rnd (1 - B2R x).
Proof.
  intros (F & B). destruct f1_val as (V & F1). destruct (sub_ok1 f1 x F1 F) as ((G & _) & E); [rewrite V; apply Rabs_le; lra|].
  rewrite V in E. split; [|exact E]. split; [exact G|]. rewrite E. apply rnd_01. lra.
Qed.
Lemma max0 x : in11 x -> num_in 1 (fmax f0 x) /\ B2R (fmax f0 x) = Rmax 0 (B2R x).
Proof.
  intros (F & B). apply Rabs_le_inv in B. unfold fmax. destruct (flt f0 x) eqn:E.
  - apply flt_spec in E; auto. change (B2R f0) with 0 in E. rewrite Rmax_right by lra. split; [|reflexivity]. split; [exact F|lra].
  - apply flt_false in E; auto. change (B2R f0) with 0 in *. rewrite Rmax_left by lra. split; [|reflexivity]. split; [reflexivity|]. change (B2R f0) with 0. lra.
Qed.
Lemma sqrt01 x : num_in 1 x -> num_in 1 (fsqrt x) /\ B2R (fsqrt x) = rnd (sqrt (B2R x)).
Proof.
  intros (F & B). destruct (fsqrt_ok x F (proj1 B)) as (E & G). split; [|exact E]. split; [exact G|]. rewrite E. apply rnd_01.
  split; [apply sqrt_pos|]. rewrite <- sqrt_1. apply sqrt_le_1_alt. lra.
Qed.

(** absolute errors *)
Definition ue := u32 + tiny.
Lemma tiny_pos : 0 < tiny <= / 1000000 * u32.
Proof.
  unfold tiny, u32. split; [apply Rinv_0_lt_compat, pow_lt; lra|].
  apply Rle_trans with (/ 2 ^ 44); [apply Rinv_le_contravar; [apply pow_lt; lra|apply Rle_pow; [lra|lia]]|]. lra.
Qed.
Lemma rnd_abs1 x : Rabs x <= 1 -> Rabs (rnd x - x) <= ue.
Proof. intros H. eapply Rle_trans; [apply rnd_err|]. unfold ue. assert (0 < u32) by (unfold u32; lra). nra. Qed.
(** the square of a rounded number and of a rounded root *)
Lemma sqr_rnd x : Rabs x <= 1 -> Rabs (rnd x * rnd x - x * x) <= 2 * ue.
Proof.
  intros H. pose proof (rnd_abs1 x H) as E. pose proof (rnd_unit x H) as Q. replace (rnd x * rnd x - x * x) with ((rnd x - x) * (rnd x + x)) by ring.
  rewrite Rabs_mult, Rmult_comm. apply Rmult_le_compat; try apply Rabs_pos; [|exact E]. eapply Rle_trans; [apply Rabs_triang|]. lra.
Qed.
Lemma sqr_root x : 0 <= x <= 1 -> Rabs (rnd (sqrt x) * rnd (sqrt x) - x) <= 2 * ue.
Proof.
  intros H. rewrite <- (sqrt_sqrt x) at 3 by lra. apply sqr_rnd. rewrite Rabs_pos_eq by apply sqrt_pos. rewrite <- sqrt_1. apply sqrt_le_1_alt. lra.
Qed.

Section Warps.
Variables sn cs : f32.
Hypothesis Sn : in11 sn. Hypothesis Cs : in11 cs.

Lemma ring_ok r z : num_in 1 r -> in11 z -> dir_ok (FV (fmul r cs) (fmul r sn) z).
Proof. intros R Z. apply in11_of01 in R. split; [|split]; cbn [fvx fvy fvz]; [now apply mul11|now apply mul11|exact Z]. Qed.
(** x and y of a direction: r (cos, sin) *)
Lemma ring_len r e : num_in 1 r -> Rabs (B2R sn * B2R sn + B2R cs * B2R cs - 1) <= e ->
  Rabs (B2R (fmul r cs) * B2R (fmul r cs) + B2R (fmul r sn) * B2R (fmul r sn) - B2R r * B2R r) <= 4 * ue + e.
Proof.
  intros R C. pose proof (in11_of01 r R) as R'. destruct (mul11 r cs R' Cs) as (_ & EC), (mul11 r sn R' Sn) as (_ & ES). rewrite EC, ES.
  destruct R as (_ & BR). destruct Cs as (_ & C1), Sn as (_ & S1).
  assert (A1 : Rabs (B2R r * B2R cs) <= 1). { rewrite Rabs_mult, (Rabs_pos_eq (B2R r)) by lra. pose proof (Rabs_pos (B2R cs)). nra. }
  assert (A2 : Rabs (B2R r * B2R sn) <= 1). { rewrite Rabs_mult, (Rabs_pos_eq (B2R r)) by lra. pose proof (Rabs_pos (B2R sn)). nra. }
  apply sqr_rnd in A1, A2. set (a := rnd (B2R r * B2R cs)) in *. set (b := rnd (B2R r * B2R sn)) in *. set (q := B2R r * B2R r).
  assert (Q : 0 <= q <= 1) by (unfold q; nra).
  replace (B2R r * B2R cs * (B2R r * B2R cs)) with (q * (B2R cs * B2R cs)) in A1 by (unfold q; ring).
  replace (B2R r * B2R sn * (B2R r * B2R sn)) with (q * (B2R sn * B2R sn)) in A2 by (unfold q; ring).
  assert (T : Rabs (q * (B2R sn * B2R sn + B2R cs * B2R cs - 1)) <= e). { rewrite Rabs_mult, (Rabs_pos_eq q) by lra. pose proof (Rabs_pos (B2R sn * B2R sn + B2R cs * B2R cs - 1)). nra. }
  apply Rabs_le_inv in A1, A2, T. apply Rabs_le. lra.
Qed.

(** sphere *)
Lemma two_val : B2R (fZ 2) = 2 /\ is_finite (fZ 2) = true.
Proof. apply fZ_small. lia. Qed.
Lemma sphere_z u : num_in 1 u -> in11 (fsub f1 (fmul (fZ 2) u)).
Proof.
  intros (F & B). destruct two_val as (V & F2). assert (Q : 0 <= rnd (2 * B2R u) <= 2).
  { split; [apply rnd_pos; lra|]. apply rnd_le_fmt; [apply (p2_fmt 1); lia|lra]. }
  destruct (fmul_ok (fZ 2) u F2 F) as (E & G). { rewrite V, Rabs_pos_eq by lra. assert (p2 1 < big) by (apply p2_big; lia). simpl (p2 1) in *. lra. }
  rewrite V in E. destruct f1_val as (V1 & F1). apply (sub_ok1 f1 _ F1 G). rewrite V1, E. apply Rabs_le. lra.
Qed.
Lemma sphere_ok u : num_in 1 u -> dir_ok (f_sphere sn cs u).
Proof.
  intros U. pose proof (sphere_z u U) as Z. unfold f_sphere. cbv zeta. set (z := fsub f1 (fmul (fZ 2) u)) in *.
  apply ring_ok; [|exact Z]. apply sqrt01, max0, in11_of01, sub01, sqr11, Z.
Qed.
Lemma one_minus z : in11 z -> Rabs (B2R (fsub f1 (fmul z z)) - (1 - B2R z * B2R z)) <= 2 * ue /\ num_in 1 (fsub f1 (fmul z z)).
Proof.
  intros Z. destruct (sqr11 z Z) as (S1 & E1). destruct (sub01 _ S1) as (S2 & E2). split; [|exact S2]. rewrite E2, E1. destruct Z as (_ & Bz).
  assert (Q : Rabs (B2R z * B2R z) <= 1). { rewrite Rabs_mult. pose proof (Rabs_pos (B2R z)). nra. }
  pose proof (rnd_abs1 _ Q) as A. destruct S1 as (_ & B1). rewrite E1 in B1.
  assert (Q2 : Rabs (1 - rnd (B2R z * B2R z)) <= 1) by (apply Rabs_le; lra).
  pose proof (rnd_abs1 _ Q2) as A2. apply Rabs_le_inv in A, A2. apply Rabs_le. lra.
Qed.
Lemma sphere_len u e : num_in 1 u -> Rabs (B2R sn * B2R sn + B2R cs * B2R cs - 1) <= e -> Rabs (len2 (f_sphere sn cs u) - 1) <= 8 * ue + e.
Proof.
  intros U C. pose proof (sphere_z u U) as Z. unfold f_sphere, len2. cbv zeta. set (z := fsub f1 (fmul (fZ 2) u)) in *. cbn [fvx fvy fvz].
  destruct (one_minus z Z) as (A & N). destruct (max0 _ (in11_of01 _ N)) as (N2 & E2). destruct N as (_ & N). rewrite Rmax_right in E2 by lra.
  destruct (sqrt01 _ N2) as (N3 & E3). pose proof (ring_len _ e N3 C) as R. pose proof (sqr_root _ (proj2 N2)) as Q. rewrite <- E3, E2 in Q.
  apply Rabs_le_inv in A, R, Q. apply Rabs_le. lra.
Qed.

(** cap *)
Lemma cap_z u c : num_in 1 u -> in11 c -> in11 (fadd u (fmul (fsub f1 u) c)).
Proof.
  intros U C. destruct (sub01 u U) as (W & EW). destruct (mul11 _ c (in11_of01 _ W) C) as (M & EM).
  destruct U as (FU & BU). destruct W as (FW & BW). destruct M as (FM & BM). destruct C as (FC & BC). apply Rabs_le_inv in BC.
  set (w := B2R (fsub f1 u)) in *. set (p := B2R (fmul (fsub f1 u) c)) in *.
  assert (Fw : fmt w) by apply fmt_of. assert (P : - w <= p <= w).
  { rewrite EM. split; [apply rnd_ge_fmt; [apply generic_format_opp, Fw|nra]|apply rnd_le_fmt; [exact Fw|nra]]. }
  assert (Up : rnd (B2R u + p) <= 1).
  { destruct (Req_dec (B2R u) 0) as [Z|Z]; [apply rnd_le_fmt; [apply fmt_1|lra]|].
    apply (round_N_le_midp radix2 (FLT_exp (-149) 24) (fun z => negb (Z.even z))); [apply fmt_1|].
    assert (SU : succ radix2 (FLT_exp (-149) 24) 1 = 1 + p2 (-23)).
    { rewrite succ_eq_pos by lra. change (ulp radix2 (FLT_exp (-149) 24) 1) with (ulp radix2 (FLT_exp (-149) 24) (p2 0)). now rewrite ulp_bpow. }
    rewrite SU.
    pose proof (rnd_add_err 1 (- B2R u) fmt_1 (generic_format_opp _ _ _ (fmt_of u))) as E. change (1 + - B2R u) with (1 - B2R u) in E. rewrite <- EW, (Rabs_pos_eq (1 - B2R u)) in E by lra. apply Rabs_le_inv in E.
    assert (B2R u + p < 1 + u32) by (unfold u32 in *; nra). assert (p2 (-23) = 2 * u32) by (unfold u32; simpl; lra). lra. }
  assert (Lo : - 1 <= rnd (B2R u + p)). { apply rnd_ge_fmt; [apply generic_format_opp, fmt_1|lra]. }
  destruct (fadd_ok u _ FU FM) as (E & F). { fold p. apply Rle_lt_trans with 1; [apply Rabs_le; lra|apply one_big]. }
  split; [exact F|]. rewrite E. fold p. apply Rabs_le. lra.
Qed.
Lemma cap_ok u c : num_in 1 u -> in11 c -> dir_ok (f_cap sn cs u c).
Proof.
  intros U C. pose proof (cap_z u c U C) as Z. unfold f_cap. cbv zeta. set (z := fadd _ _) in *. apply ring_ok; [|exact Z]. apply sqrt01. now apply one_minus.
Qed.
Lemma cap_len u c e : num_in 1 u -> in11 c -> Rabs (B2R sn * B2R sn + B2R cs * B2R cs - 1) <= e -> Rabs (len2 (f_cap sn cs u c) - 1) <= 8 * ue + e.
Proof.
  intros U C T. pose proof (cap_z u c U C) as Z. unfold f_cap, len2. cbv zeta. set (z := fadd u _) in *. cbn [fvx fvy fvz].
  destruct (one_minus z Z) as (A & N). destruct (sqrt01 _ N) as (N3 & E3). pose proof (ring_len _ e N3 T) as R. pose proof (sqr_root _ (proj2 N)) as Q. rewrite <- E3 in Q.
  apply Rabs_le_inv in A, R, Q. apply Rabs_le. lra.
Qed.

(** disk and cosine hemisphere *)
Lemma disk_ok u : num_in 1 u -> in11 (fst (f_disk sn cs u)) /\ in11 (snd (f_disk sn cs u)).
Proof. intros U. apply sqrt01 in U as (U & _). apply in11_of01 in U. split; now apply mul11. Qed.
Lemma hemi_inner px py : in11 px -> in11 py -> in11 (fsub (fsub f1 (fmul px px)) (fmul py py)) /\
  Rabs (B2R (fsub (fsub f1 (fmul px px)) (fmul py py)) - (1 - B2R px * B2R px - B2R py * B2R py)) <= 4 * ue.
Proof.
  intros X Y. destruct (one_minus px X) as (A & (F1 & B1)). destruct (sqr11 py Y) as ((F2 & B2) & E2).
  destruct (sub_ok1 _ _ F1 F2) as (G & E); [apply Rabs_le; lra|]. split; [exact G|]. rewrite E.
  assert (Q : Rabs (B2R (fsub f1 (fmul px px)) - B2R (fmul py py)) <= 1) by (apply Rabs_le; lra). pose proof (rnd_abs1 _ Q) as R.
  assert (Q2 : Rabs (B2R py * B2R py) <= 1). { rewrite Rabs_mult. destruct Y as (_ & Y). pose proof (Rabs_pos (B2R py)). nra. }
  pose proof (rnd_abs1 _ Q2) as R2. rewrite <- E2 in R2. apply Rabs_le_inv in A, R, R2. apply Rabs_le. lra.
Qed.
Lemma hemi_ok u : num_in 1 u -> dir_ok (f_coshemi sn cs u) /\ 0 <= B2R (fvz (f_coshemi sn cs u)).
Proof.
  intros U. pose proof (disk_ok u U) as (X & Y). unfold f_coshemi. destruct (f_disk sn cs u) as [px py]. cbn [fst snd] in X, Y.
  destruct (hemi_inner px py X Y) as (G & _). apply max0 in G as (G & _). apply sqrt01 in G as (G & _). unfold dir_ok. cbn [fvx fvy fvz]. split; [|apply G].
  split; [exact X|]. split; [exact Y|now apply in11_of01].
Qed.
Lemma hemi_len u e : num_in 1 u -> Rabs (B2R sn * B2R sn + B2R cs * B2R cs - 1) <= e -> Rabs (len2 (f_coshemi sn cs u) - 1) <= 12 * ue + e.
Proof.
  intros U C. pose proof (disk_ok u U) as (X & Y). assert (C' : Rabs (B2R sn * B2R sn + B2R cs * B2R cs - 1) <= e) by exact C.
  destruct (sqrt01 u U) as (R1 & ER). pose proof (ring_len _ e R1 C) as R. destruct U as (FU & BU). pose proof (sqr_root _ BU) as Q. rewrite <- ER in Q.
  unfold f_coshemi, len2, f_disk in *. cbv zeta in *. cbn [fst snd] in X, Y.
  set (px := fmul cs (fsqrt u)) in *. set (py := fmul sn (fsqrt u)) in *.
  assert (EX : B2R px = B2R (fmul (fsqrt u) cs)). { unfold px. rewrite (proj2 (mul11 _ _ Cs (in11_of01 _ R1))), (proj2 (mul11 _ _ (in11_of01 _ R1) Cs)). f_equal. ring. }
  assert (EY : B2R py = B2R (fmul (fsqrt u) sn)). { unfold py. rewrite (proj2 (mul11 _ _ Sn (in11_of01 _ R1))), (proj2 (mul11 _ _ (in11_of01 _ R1) Sn)). f_equal. ring. }
  rewrite <- EX, <- EY in R. cbn [fvx fvy fvz].
  destruct (hemi_inner px py X Y) as (G & H). destruct (max0 _ G) as (M & EM). destruct (sqrt01 _ M) as (N & EN). pose proof (sqr_root _ (proj2 M)) as Z. rewrite <- EN, EM in Z.
  set (q := B2R (fsub (fsub f1 (fmul px px)) (fmul py py))) in *. apply Rabs_le_inv in R, Q, H, Z. apply Rabs_le.
  unfold Rmax in Z. assert (0 <= ue) by (pose proof tiny_pos; unfold ue, u32 in *; lra). destruct (Rle_dec 0 q); lra.
Qed.
End Warps.
