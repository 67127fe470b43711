From Coq Require Import ZArith Reals Lra Lia Bool Psatz Machin.
From Flocq Require Import Core BinarySingleNaN.
From Verif.Base Require Import F32.
From Verif.Model Require Import FloatDirs FloatPhase.
From Verif.Spec Require Import FloatPhaseSpec.
From Verif.Proof Require Import FloatDirsProof.
Open Scope R_scope.

Lemma u_small : 0 < u32 <= 59605 / 10 ^ 12.
Proof. unfold u32. split; [apply Rinv_0_lt_compat, pow_lt; lra|]. simpl. lra. Qed.
Lemma tiny_small : 0 < tiny <= / 10 ^ 16.
Proof.
  unfold tiny. split; [apply Rinv_0_lt_compat, pow_lt; lra|]. apply Rinv_le_contravar; [apply pow_lt; lra|].
  apply Rle_trans with (2 ^ 54); [simpl; lra|]. apply Rle_pow; [lra|lia].
Qed.
Lemma rnd_rel x : / 10 ^ 8 <= x -> (1 - / 10 ^ 6) * x <= rnd x <= (1 + / 10 ^ 6) * x.
Proof.
  intros X. pose proof (rnd_err x) as E. pose proof u_small. pose proof tiny_small.
  assert (0 < / 10 ^ 8) by (apply Rinv_0_lt_compat, pow_lt; lra). rewrite (Rabs_pos_eq x) in E by lra. apply Rabs_le_inv in E.
  assert (u32 * x <= 59605 / 10 ^ 12 * x) by (apply Rmult_le_compat_r; lra). simpl in *. lra.
Qed.
Lemma rnd_abs x b : Rabs x <= b -> Rabs (rnd x - x) <= u32 * b + tiny.
Proof. intros X. pose proof (rnd_err x). pose proof u_small. assert (u32 * Rabs x <= u32 * b) by (apply Rmult_le_compat_l; lra). lra. Qed.

Lemma big_ge x : Rabs x <= 10 ^ 9 -> Rabs x < big.
Proof. intros H. eapply Rle_lt_trans; [exact H|]. apply Rle_lt_trans with (IZR (10 ^ 9)); [simpl; lra|]. rewrite <- (Rabs_pos_eq (IZR _)) by (apply IZR_le; lia). apply bigZ. lia. Qed.

Lemma pi_bounds : 3141 / 1000 <= PI <= 3142 / 1000.
Proof.
  pose proof (PI_2_3_7_ineq 2) as H. unfold tg_alt, PI_2_3_7_tg, Ratan_seq in H. cbn -[INR PI] in H.
  unfold INR in H; simpl in H. lra.
Qed.

(** the denominator of the code against the exact one *)
Lemma denom_real G C gg s tg tc : Rabs G <= 991 / 1000 -> Rabs C <= 1 + / 2 ^ 20 ->
  Rabs (gg - G * G) <= u32 * 1 + tiny -> Rabs (s - (1 + gg)) <= u32 * 2 + tiny -> Rabs (tg - 2 * G) <= u32 * 2 + tiny ->
  Rabs (tc - tg * C) <= u32 * 2 + tiny ->
  78 / 10 ^ 6 <= 1 + G * G - 2 * G * C <= 4 /\
  Rabs (s - tc - (1 + G * G - 2 * G * C)) <= 42 / 10 ^ 8.
Proof.
  intros HG HC E1 E2 E3 E4. pose proof u_small. pose proof tiny_small.
  assert (P : Rabs (2 * G * C) <= 2 * Rabs G * (1 + / 2 ^ 20)).
  { rewrite !Rabs_mult, (Rabs_pos_eq 2) by lra. apply Rmult_le_compat_l; [pose proof (Rabs_pos G); lra|exact HC]. }
  assert (S2 : G * G = Rabs G * Rabs G) by (rewrite <- Rabs_mult, Rabs_pos_eq by nra; reflexivity).
  pose proof (Rabs_pos G). apply Rabs_le_inv in P.
  assert (Q : Rabs ((tg - 2 * G) * C) <= (u32 * 2 + tiny) * (1 + / 2 ^ 20)).
  { rewrite Rabs_mult. apply Rmult_le_compat; try apply Rabs_pos; assumption. }
  apply Rabs_le_inv in Q, E1, E2, E3, E4.
  assert (B : 1 + / 2 ^ 20 = 1048577 / 1048576) by (simpl; lra). rewrite B in *.
  simpl in *. split.
  - set (a := Rabs G) in *. clearbody a. split; nra.
  - apply Rabs_le. split; nra.
Qed.

Lemma mul_mono a b c d : 0 <= a -> 0 <= c -> a <= b -> c <= d -> a * c <= b * d.
Proof. intros. apply Rmult_le_compat; assumption. Qed.

(** the quotient of the code against the exact density, given the errors of its parts *)
Lemma quotient_real D N d1 r d2 n1 n2 K q : 78 / 10 ^ 6 <= D <= 4 -> 17 / 1000 <= N <= 1 ->
  991 / 1000 * D <= d1 <= 1009 / 1000 * D -> (1 - / 10 ^ 6) * sqrt d1 <= r <= (1 + / 10 ^ 6) * sqrt d1 ->
  (1 - / 10 ^ 6) * (d1 * r) <= d2 <= (1 + / 10 ^ 6) * (d1 * r) ->
  (1 - / 10 ^ 4) * N <= n1 <= (1 + / 10 ^ 4) * N -> (1 - / 10 ^ 6) * (K * n1) <= n2 <= (1 + / 10 ^ 6) * (K * n1) ->
  (1 - / 10 ^ 3) * / (4 * PI) <= K <= (1 + / 10 ^ 3) * / (4 * PI) ->
  (1 - / 10 ^ 6) * (n2 / d2) <= q <= (1 + / 10 ^ 6) * (n2 / d2) ->
  let h := N / (4 * PI * (D * sqrt D)) in 98 / 100 * h <= q <= 102 / 100 * h.
Proof.
  intros HD HN H1 HR H2 HN1 HN2 HK HQ h. pose proof pi_bounds as HP.
  assert (D0 : 0 < D) by (simpl in HD; lra). pose proof (sqrt_lt_R0 _ D0) as S0.
  assert (SU : sqrt d1 <= 1005 / 1000 * sqrt D).
  { replace (1005 / 1000 * sqrt D) with (sqrt ((1005 / 1000 * (1005 / 1000)) * D)); [apply sqrt_le_1_alt; lra|].
    rewrite sqrt_mult by lra. rewrite sqrt_square by lra. reflexivity. }
  assert (SL : 995 / 1000 * sqrt D <= sqrt d1).
  { replace (995 / 1000 * sqrt D) with (sqrt ((995 / 1000 * (995 / 1000)) * D)); [apply sqrt_le_1_alt; lra|].
    rewrite sqrt_mult by lra. rewrite sqrt_square by lra. reflexivity. }
  set (P := D * sqrt D) in *. assert (P0 : 0 < P) by (apply Rmult_lt_0_compat; assumption).
  assert (RL : 9949 / 10000 * sqrt D <= r) by (simpl in HR; lra).
  assert (RU : r <= 10051 / 10000 * sqrt D) by (simpl in HR; lra).
  assert (ML : (991 / 1000 * D) * (9949 / 10000 * sqrt D) <= d1 * r) by (apply mul_mono; lra).
  assert (MU : d1 * r <= (1009 / 1000 * D) * (10051 / 10000 * sqrt D)) by (apply mul_mono; lra).
  assert (DL : 9857 / 10000 * P <= d2) by (unfold P in *; simpl in H2; lra).
  assert (DU : d2 <= 10143 / 10000 * P) by (unfold P in *; simpl in H2; lra).
  set (k := / (4 * PI)) in *. assert (K0 : 0 < k) by (apply Rinv_0_lt_compat; lra).
  assert (kN : 0 < k * N) by (apply Rmult_lt_0_compat; lra).
  assert (NL : ((1 - / 10 ^ 3) * k) * ((1 - / 10 ^ 4) * N) <= K * n1) by (apply mul_mono; simpl in *; lra).
  assert (NU : K * n1 <= ((1 + / 10 ^ 3) * k) * ((1 + / 10 ^ 4) * N)) by (apply mul_mono; simpl in *; lra).
  assert (N2L : 9988 / 10000 * (k * N) <= n2) by (simpl in *; lra).
  assert (N2U : n2 <= 10012 / 10000 * (k * N)) by (simpl in *; lra).
  assert (d20 : 0 < d2) by lra.
  assert (hE : h = k * N / P). { unfold h, k. clearbody P. field. split; lra. }
  assert (IP : 0 < / P) by (apply Rinv_0_lt_compat; lra).
  assert (h0 : 0 < h) by (rewrite hE; apply Rmult_lt_0_compat; assumption).
  assert (kNh : k * N = h * P) by (rewrite hE; field; lra).
  assert (QL : 982 / 1000 * h <= n2 / d2).
  { apply Rmult_le_reg_r with d2; [exact d20|]. unfold Rdiv. rewrite (Rmult_assoc n2), Rinv_l, Rmult_1_r by lra.
    rewrite kNh in *. assert (h * d2 <= h * (10143 / 10000 * P)) by (apply Rmult_le_compat_l; lra). assert (0 < h * P) by (apply Rmult_lt_0_compat; assumption). lra. }
  assert (QU : n2 / d2 <= 1018 / 1000 * h).
  { apply Rmult_le_reg_r with d2; [exact d20|]. unfold Rdiv. rewrite (Rmult_assoc n2), Rinv_l, Rmult_1_r by lra.
    rewrite kNh in *. assert (h * (9857 / 10000 * P) <= h * d2) by (apply Rmult_le_compat_l; lra). assert (0 < h * P) by (apply Rmult_lt_0_compat; assumption). lra. }
  simpl in HQ. lra.
Qed.

Lemma inv4pi_ok : B2R f_inv4pi = 10680707 / 2 ^ 27 /\ is_finite f_inv4pi = true.
Proof.
  unfold f_inv4pi. destruct (f_of_small 10680707 (-27) ltac:(lia) ltac:(lia)) as (A & B). split; [|exact B].
  rewrite A. simpl. lra.
Qed.
Lemma inv4pi_near : (1 - / 10 ^ 3) * / (4 * PI) <= 10680707 / 2 ^ 27 <= (1 + / 10 ^ 3) * / (4 * PI).
Proof.
  pose proof pi_bounds as HP. assert (E : / (4 * PI) * (4 * PI) = 1) by (apply Rinv_l; lra).
  set (k := / (4 * PI)) in *. simpl. split; nra.
Qed.

Lemma density_form c g : 0 < 1 + g * g - 2 * g * c ->
  hg_density c g = (1 - g * g) / (4 * PI * ((1 + g * g - 2 * g * c) * sqrt (1 + g * g - 2 * g * c))).
Proof.
  intros H. unfold hg_density. replace (1 - g ^ 2) with (1 - g * g) by ring. replace (1 + g ^ 2 - 2 * g * c) with (1 + g * g - 2 * g * c) by ring.
  set (D := 1 + g * g - 2 * g * c) in *. replace (D ^ 3) with ((D * D) * D) by ring. rewrite sqrt_mult by nra. rewrite sqrt_square by lra. reflexivity.
Qed.

Lemma hg_value c g : is_finite c = true -> is_finite g = true -> Rabs (B2R g) <= 991 / 1000 -> Rabs (B2R c) <= 1 + / 2 ^ 20 ->
  within_2_percent (f_hg c g) (hg_density (B2R c) (B2R g)).
Proof.
  intros Fc Fg HG HC. pose proof u_small as HU. pose proof tiny_small as HT.
  destruct (fZ_small 1 ltac:(lia)) as (V1 & F1). destruct (fZ_small 2 ltac:(lia)) as (V2 & F2).
  fold f1 in V1, F1. fold ftwo in V2, F2. destruct inv4pi_ok as (VK & FK). pose proof inv4pi_near as HK.
  unfold f_hg, within_2_percent. set (G := B2R g) in *. set (C := B2R c) in *.
  assert (G2 : 0 <= G * G <= 982081 / 1000000). { apply Rabs_le_inv in HG. split; nra. }
  assert (E1 : Rabs (rnd (G * G) - G * G) <= u32 * 1 + tiny) by (apply rnd_abs; rewrite Rabs_pos_eq; lra).
  assert (B1 : 0 <= rnd (G * G) <= 983 / 1000). { split; [apply rnd_pos; lra|]. apply Rabs_le_inv in E1. simpl in *. lra. }
  destruct (fmul_ok g g Fg Fg) as (Vgg & Fgg). { fold G. apply big_ge. rewrite Rabs_pos_eq by lra. simpl; lra. }
  fold G in Vgg. set (gg := fmul g g) in *. clearbody gg. rewrite <- Vgg in *. set (GG := B2R gg) in *.
  assert (E2 : Rabs (rnd (1 + GG) - (1 + GG)) <= u32 * 2 + tiny) by (apply rnd_abs; rewrite Rabs_pos_eq; lra).
  destruct (fadd_ok f1 gg F1 Fgg) as (Vs & Fs).
  { rewrite V1. fold GG. apply big_ge. apply Rabs_le_inv in E2. apply Rabs_le. simpl in *; lra. }
  rewrite V1 in Vs. fold GG in Vs. set (s := fadd f1 gg) in *. clearbody s. rewrite <- Vs in E2.
  assert (E3 : Rabs (rnd (2 * G) - 2 * G) <= u32 * 2 + tiny). { apply rnd_abs. apply Rabs_le_inv in HG. apply Rabs_le; lra. }
  destruct (fmul_ok ftwo g F2 Fg) as (Vt & Ft).
  { rewrite V2. fold G. apply big_ge. apply Rabs_le_inv in E3, HG. apply Rabs_le. simpl in *; lra. }
  rewrite V2 in Vt. fold G in Vt. set (t := fmul ftwo g) in *. clearbody t. rewrite <- Vt in E3. set (TG := B2R t) in *.
  assert (BT : Rabs (TG * C) <= 2).
  { rewrite Rabs_mult. apply Rle_trans with (19825 / 10000 * (1 + / 2 ^ 20)); [|simpl; lra].
    apply Rmult_le_compat; try apply Rabs_pos; [|exact HC]. apply Rabs_le_inv in E3, HG. apply Rabs_le. simpl in *; lra. }
  assert (E4 : Rabs (rnd (TG * C) - TG * C) <= u32 * 2 + tiny) by (apply rnd_abs; exact BT).
  destruct (fmul_ok t c Ft Fc) as (Vc & Ftc).
  { fold TG C. apply big_ge. apply Rabs_le_inv in E4, BT. apply Rabs_le. simpl in *; lra. }
  fold TG C in Vc. set (tc := fmul t c) in *. clearbody tc. rewrite <- Vc in E4.
  destruct (denom_real G C GG (B2R s) TG (B2R tc) HG HC E1 E2 E3 E4) as (HD & ED).
  set (D := 1 + G * G - 2 * G * C) in *.
  assert (E5 : Rabs (rnd (B2R s - B2R tc) - (B2R s - B2R tc)) <= u32 * (41 / 10) + tiny).
  { apply rnd_abs. apply Rabs_le_inv in ED. apply Rabs_le. simpl in *; lra. }
  destruct (fsub_ok s tc Fs Ftc) as (Vd & Fd).
  { apply big_ge. apply Rabs_le_inv in E5, ED. apply Rabs_le. simpl in *; lra. }
  set (d := fsub s tc) in *. clearbody d. rewrite <- Vd in E5.
  assert (HD1 : 991 / 1000 * D <= B2R d <= 1009 / 1000 * D) by (apply Rabs_le_inv in E5, ED; simpl in *; lra).
  set (d1 := B2R d) in *.
  assert (LS : 8 / 1000 <= sqrt d1).
  { rewrite <- (sqrt_square (8 / 1000)) by lra. apply sqrt_le_1_alt. simpl in *; lra. }
  assert (US : sqrt d1 <= 3).
  { rewrite <- (sqrt_square 3) by lra. apply sqrt_le_1_alt. simpl in *; lra. }
  destruct (fsqrt_ok d Fd) as (Vr & Fr). { fold d1. simpl in *; lra. }
  fold d1 in Vr. pose proof (rnd_rel (sqrt d1) ltac:(simpl; lra)) as HR. set (r := fsqrt d) in *. clearbody r. rewrite <- Vr in HR.
  set (rr := B2R r) in *.
  assert (BR : 79 / 10000 <= rr <= 31 / 10) by (simpl in *; lra).
  assert (LP : (77 / 10 ^ 6) * (79 / 10000) <= d1 * rr) by (apply mul_mono; simpl in *; lra).
  assert (UP : d1 * rr <= 5 * (31 / 10)) by (apply mul_mono; simpl in *; lra).
  pose proof (rnd_rel (d1 * rr) ltac:(simpl in *; lra)) as H2.
  destruct (fmul_ok d r Fd Fr) as (V3 & F3).
  { fold d1 rr. apply big_ge. apply Rabs_le. simpl in *; lra. }
  fold d1 rr in V3. set (d2 := fmul d r) in *. clearbody d2. rewrite <- V3 in H2.
  assert (E6 : Rabs (rnd (1 - GG) - (1 - GG)) <= u32 * 1 + tiny) by (apply rnd_abs; rewrite Rabs_pos_eq; lra).
  destruct (fsub_ok f1 gg F1 Fgg) as (V4 & F4).
  { rewrite V1. fold GG. apply big_ge. apply Rabs_le_inv in E6. apply Rabs_le. simpl in *; lra. }
  rewrite V1 in V4. fold GG in V4. set (n1 := fsub f1 gg) in *. clearbody n1. rewrite <- V4 in E6. set (nn := B2R n1) in *.
  assert (HN1 : (1 - / 10 ^ 4) * (1 - G * G) <= nn <= (1 + / 10 ^ 4) * (1 - G * G)) by (apply Rabs_le_inv in E6, E1; simpl in *; lra).
  set (K := 10680707 / 2 ^ 27) in *.
  assert (KB : 79 / 1000 <= K <= 8 / 100) by (unfold K; simpl; lra).
  assert (LK : 79 / 1000 * (17 / 1000) <= K * nn) by (apply mul_mono; simpl in *; lra).
  assert (UK : K * nn <= 8 / 100 * 2) by (apply mul_mono; simpl in *; lra).
  pose proof (rnd_rel (K * nn) ltac:(simpl in *; lra)) as HN2.
  destruct (fmul_ok f_inv4pi n1 FK F4) as (V5 & F5).
  { rewrite VK. fold nn. apply big_ge. apply Rabs_le. simpl in *; lra. }
  rewrite VK in V5. fold nn in V5. set (n2 := fmul f_inv4pi n1) in *. clearbody n2. rewrite <- V5 in HN2.
  set (x := B2R n2) in *. set (y := B2R d2) in *.
  assert (BY : 6 / 10 ^ 7 <= y <= 16) by (simpl in *; lra).
  assert (BX : 13 / 10 ^ 4 <= x <= 1) by (simpl in *; lra).
  assert (Y0 : 0 < y) by (simpl in *; lra).
  assert (LQ : / 10 ^ 5 <= x / y).
  { apply Rmult_le_reg_r with y; [exact Y0|]. unfold Rdiv. rewrite (Rmult_assoc x), Rinv_l, Rmult_1_r by lra. simpl in *; lra. }
  assert (UQ : x / y <= 10 ^ 7).
  { apply Rmult_le_reg_r with y; [exact Y0|]. unfold Rdiv. rewrite (Rmult_assoc x), Rinv_l, Rmult_1_r by lra. simpl in *; lra. }
  pose proof (rnd_rel (x / y) ltac:(simpl in *; lra)) as HQ.
  destruct (fdiv_ok n2 d2 F5) as (V6 & F6). { fold y. lra. }
  { fold x y. apply big_ge. apply Rabs_le. simpl in *; lra. }
  split; [exact F6|]. rewrite V6. fold x y. rewrite density_form by (fold D; simpl in *; lra). fold D.
  apply (quotient_real D (1 - G * G) d1 rr y nn x K); try assumption. lra.
Qed.
