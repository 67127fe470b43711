(** Film accumulation in binary32. *)
From Coq Require Import ZArith Reals List Bool Lia Lra Psatz.
From Flocq Require Import Core BinarySingleNaN.
From Verif.Base Require Import Outcome Loops RSum F32.
From Verif.Model Require Import Film FloatFilm.
From Verif.Spec Require Import FloatFilmSpec.
Import ListNotations.
Open Scope R_scope.

Lemma f0_0 : B2R f0 = 0. Proof. reflexivity. Qed.
Lemma f1_1 : B2R f1 = 1 /\ is_finite f1 = true. Proof. apply fZ_small. simpl. lia. Qed.
Lemma fhalf_half : B2R fhalf = / 2 /\ is_finite fhalf = true.
Proof. destruct (f_of_small 1 (-1)) as [A B]; [lia|lia|]. split; [|exact B]. unfold fhalf. rewrite A. simpl. lra. Qed.

(** ** one cell *)
Definition contrib : Type := f32 * f32.
Definition cell_of (l : list contrib) (c : fcell) : fcell := fold_left (fun c wr => f_acc c (fst wr) (snd wr)) l c.
Definition boxed (l : list contrib) : Prop := Forall (fun wr => fst wr = f0 \/ fst wr = f1) l.
Definition feqb1 (w : f32) : bool := Beqb w f1.
Definition ones (l : list contrib) : list contrib := filter (fun wr => Beqb (fst wr) f1) l.
Lemma eqb_f1 : Beqb f1 f1 = true. Proof. reflexivity. Qed.
Lemma eqb_f0 : Beqb f0 f1 = false. Proof. reflexivity. Qed.

(** whatever is not finite stays so *)
Lemma cell_finite l : forall c, is_finite (fst (cell_of l c)) = true ->
  is_finite (fst c) = true /\ Forall (fun wr => is_finite (snd wr) = true) l.
Proof.
  induction l as [|[w r] l IH]; intros c; cbn [cell_of fold_left]; [auto|].
  intros H. apply IH in H as [H F]. cbn in H. apply fadd_finite in H as (A & B & _).
  apply fmul_finite in B as (_ & B & _). auto.
Qed.

Lemma mul_f1 r : is_finite r = true -> B2R (fmul f1 r) = B2R r /\ is_finite (fmul f1 r) = true.
Proof.
  intros F. destruct f1_1 as [O P].
  assert (E : rnd (B2R f1 * B2R r) = B2R r) by (rewrite O, Rmult_1_l; apply rnd_id, fmt_of).
  rewrite <- E at 1. apply fmul_ok; auto. rewrite E. apply small.
Qed.
Lemma mul_f0 r : is_finite r = true -> B2R (fmul f0 r) = 0 /\ is_finite (fmul f0 r) = true.
Proof.
  intros F. assert (E : rnd (B2R f0 * B2R r) = 0) by (rewrite f0_0, Rmult_0_l; apply rnd_0).
  rewrite <- E at 1. apply fmul_ok; auto. rewrite E, Rabs_R0. unfold big. apply bpow_gt_0.
Qed.

Definition csum (l : list contrib) : R := rsum (map (fun wr => B2R (snd wr)) l).
Definition cabs (l : list contrib) : R := rsum (map (fun wr => Rabs (B2R (snd wr))) l).
Lemma csum_cons a l : csum (a :: l) = B2R (snd a) + csum l.
Proof. reflexivity. Qed.
Lemma cabs_cons a l : cabs (a :: l) = Rabs (B2R (snd a)) + cabs l.
Proof. reflexivity. Qed.
Lemma cell_cons a l c : cell_of (a :: l) c = cell_of l (f_acc c (fst a) (snd a)).
Proof. reflexivity. Qed.
Lemma cabs_ge0 l : 0 <= cabs l.
Proof. induction l; unfold cabs in *; cbn [map]; [rewrite rsum_nil; lra|rewrite rsum_cons]. apply Rplus_le_le_0_compat; [apply Rabs_pos|exact IHl]. Qed.
Lemma csum_abs l : Rabs (csum l) <= cabs l.
Proof.
  induction l as [|a l IH]; unfold csum, cabs in *; cbn [map]; [rewrite !rsum_nil, Rabs_R0; lra|rewrite !rsum_cons].
  eapply Rle_trans; [apply Rabs_triang|]. lra.
Qed.
Lemma u32_pos : 0 < u32. Proof. unfold u32. lra. Qed.
Lemma pow_u k : 1 <= (1 + u32) ^ k.
Proof. apply pow_R1_Rle. pose proof u32_pos. lra. Qed.

Lemma acc_error l : boxed l -> forall c, is_finite (fst (cell_of l c)) = true ->
  Rabs (B2R (fst (cell_of l c)) - (B2R (fst c) + csum (ones l)))
    <= ((1 + u32) ^ length (ones l) - 1) * (Rabs (B2R (fst c)) + cabs (ones l)).
Proof.
  intros Bx. induction Bx as [|[w r] l W Bx IH]; intros c F.
  - cbn. unfold csum, cabs. cbn [map]. rewrite !rsum_nil. replace (B2R (fst c) - (B2R (fst c) + 0)) with 0 by ring. rewrite Rabs_R0. lra.
  - rewrite cell_cons in *. cbn [fst snd] in *. pose proof F as F'. apply cell_finite in F' as [F1 _]. cbn [f_acc fst] in F1.
    pose proof (fadd_finite _ _ F1) as (A & B & E). pose proof (fmul_finite _ _ B) as (_ & RF & _).
    specialize (IH _ F). cbn [f_acc fst snd] in IH. rewrite E in IH.
    set (X := B2R (fst (cell_of l (f_acc c w r)))) in *.
    change (B2R (fst (cell_of l (fadd (fst c) (fmul w r), fadd (snd c) w)))) with X in IH. clearbody X.
    destruct W as [W|W]; cbn [fst] in W; subst w; cbn [ones filter fst].
    + rewrite eqb_f0. destruct (mul_f0 r RF) as [M _]. rewrite M, Rplus_0_r, (rnd_id _ (fmt_of _)) in IH. exact IH.
    + rewrite eqb_f1. destruct (mul_f1 r RF) as [M _]. rewrite M in IH.
      change (filter (fun wr => Beqb (fst wr) f1) l) with (ones l).
      pose proof (rnd_add_err (B2R (fst c)) (B2R r) (fmt_of _) (fmt_of _)) as Er.
      rewrite csum_cons, cabs_cons. cbn [snd length].
      set (a := B2R (fst c)) in *. set (v := B2R r) in *.
      set (S1 := csum (ones l)) in *. assert (A1p : 0 <= cabs (ones l)) by apply cabs_ge0.
      set (A1 := cabs (ones l)) in *. pose proof u32_pos as U. pose proof (pow_u (length (ones l))) as P.
      set (k := length (ones l)) in *. clearbody k S1 A1 a v.
      assert (T : Rabs (a + v) <= Rabs a + Rabs v) by apply Rabs_triang.
      assert (T1 : Rabs (rnd (a + v)) <= (1 + u32) * (Rabs a + Rabs v)).
      { replace (rnd (a + v)) with ((rnd (a + v) - (a + v)) + (a + v)) by ring. eapply Rle_trans; [apply Rabs_triang|]. nra. }
      replace (X - (a + (v + S1))) with ((X - (rnd (a + v) + S1)) + (rnd (a + v) - (a + v))) by ring.
      eapply Rle_trans; [apply Rabs_triang|]. change ((1 + u32) ^ S k) with ((1 + u32) * (1 + u32) ^ k).
      assert (B1 : Rabs (X - (rnd (a + v) + S1)) <= ((1 + u32) ^ k - 1) * ((1 + u32) * (Rabs a + Rabs v) + A1)).
      { eapply Rle_trans; [exact IH|]. apply Rmult_le_compat_l; lra. }
      pose proof (Rabs_pos a). pose proof (Rabs_pos v).
      assert (B2 : Rabs (rnd (a + v) - (a + v)) <= u32 * (Rabs a + Rabs v)).
      { eapply Rle_trans; [exact Er|]. apply Rmult_le_compat_l; lra. }
      assert (0 <= u32 * (1 + u32) ^ k * A1) by (apply Rmult_le_pos; [apply Rmult_le_pos; lra|lra]).
      eapply Rle_trans; [apply Rplus_le_compat; [exact B1|exact B2]|].
      set (q := (1 + u32) ^ k) in *. clearbody q.
      replace ((q - 1) * ((1 + u32) * (Rabs a + Rabs v) + A1) + u32 * (Rabs a + Rabs v))
        with (((1 + u32) * q - 1) * (Rabs a + (Rabs v + A1)) - u32 * q * A1) by ring. lra.
Qed.

(** ** the weights *)
Lemma value_inj (a b : f32) : is_finite a = true -> is_finite b = true -> B2R a = B2R b -> B2R a <> 0 -> a = b.
Proof.
  intros A B E N. apply B2R_inj; auto.
  - destruct a; simpl in *; auto; lra.
  - destruct b; simpl in *; auto; lra.
Qed.
Lemma add_one (b : f32) (z : Z) : is_finite b = true -> B2R b = IZR z -> (0 <= z <= 2 ^ 24)%Z ->
  B2R (fadd b f1) = IZR (Z.min (z + 1) (2 ^ 24)) /\ is_finite (fadd b f1) = true.
Proof.
  intros F E Z. destruct f1_1 as [O P].
  destruct (Z.eq_dec z (2 ^ 24)) as [-> |N].
  - destruct (fZ_small (2 ^ 24)) as [V G]; [lia|].
    assert (b = fZ (2 ^ 24)) as ->.
    { apply value_inj; auto; [congruence|]. rewrite E. apply IZR_neq. lia. }
    replace (fadd (fZ (2 ^ 24)) f1) with (fZ (2 ^ 24)) by (apply B2SF_inj; vm_compute; reflexivity). auto.
  - replace (Z.min (z + 1) (2 ^ 24)) with (z + 1)%Z by lia.
    assert (S : B2R b + B2R f1 = IZR (z + 1)) by (rewrite E, O, plus_IZR; reflexivity).
    rewrite <- S. apply fadd_exact; auto; rewrite S; [apply fmt_Z; lia|apply bigZ; lia].
Qed.
Lemma add_zero (b : f32) : is_finite b = true -> B2R (fadd b f0) = B2R b /\ is_finite (fadd b f0) = true.
Proof.
  intros F. replace (B2R b) with (B2R b + B2R f0) by (rewrite f0_0; ring).
  apply fadd_exact; auto; rewrite f0_0, Rplus_0_r; [apply fmt_of|apply small].
Qed.
Lemma weights l : boxed l -> forall c z, is_finite (snd c) = true -> B2R (snd c) = IZR z -> (0 <= z <= 2 ^ 24)%Z ->
  B2R (snd (cell_of l c)) = IZR (Z.min (z + Z.of_nat (length (ones l))) (2 ^ 24)) /\ is_finite (snd (cell_of l c)) = true.
Proof.
  intros Bx. induction Bx as [|[w r] l W Bx IH]; intros c z F E Z.
  - cbn. rewrite Z.add_0_r, Z.min_l by lia. auto.
  - cbn [cell_of fold_left fst snd]. destruct W as [W|W]; cbn [fst] in W; subst w; cbn [ones filter fst].
    + rewrite eqb_f0. destruct (add_zero _ F) as [A B]. apply (IH (f_acc c f0 r) z); cbn [f_acc snd]; auto. etransitivity; [exact A|exact E].
    + rewrite eqb_f1. destruct (add_one _ _ F E Z) as [A B].
      destruct (IH (f_acc c f1 r) _ B A) as [H1 H2]; [lia|]. split; [|exact H2].
      unfold cell_of in H1. rewrite H1. f_equal. cbn [length]. change (filter (fun wr => Beqb (fst wr) f1) l) with (ones l). lia.
Qed.

(** ** the finished pixel *)
Definition start : fcell := (f0, f0).
Lemma finish_nonzero l k : boxed l -> length (ones l) = S k -> is_finite (f_finish (cell_of l start)) = true ->
  let n := IZR (Z.min (Z.of_nat (S k)) (2 ^ 24)) in
  is_finite (fst (cell_of l start)) = true /\ 1 <= n /\
  B2R (f_finish (cell_of l start)) = rnd (B2R (fst (cell_of l start)) / n).
Proof.
  intros Bx K F n. destruct (weights l Bx start 0 eq_refl eq_refl ltac:(lia)) as [W G]. rewrite K, Z.add_0_l in W.
  assert (N : 1 <= n) by (apply IZR_le; lia).
  unfold f_finish in *. assert (Q : Beqb (snd (cell_of l start)) f0 = false).
  { rewrite Beqb_correct by auto. rewrite W, f0_0. apply Req_bool_false. fold n. lra. }
  rewrite Q in *.
  assert (NZ : B2R (snd (cell_of l start)) <> 0) by (rewrite W; fold n; lra).
  destruct (fdiv_finite _ _ NZ F G) as [F1 F2]. split; [exact F1|]. split; [exact N|]. etransitivity; [exact F2|].
  now rewrite W.
Qed.
Lemma pixel_error l k : boxed l -> length (ones l) = S k -> (S k <= Z.to_nat (2 ^ 24))%nat ->
  is_finite (f_finish (cell_of l start)) = true ->
  Rabs (B2R (f_finish (cell_of l start)) - csum (ones l) / INR (S k))
    <= ((1 + u32) ^ (S (S k)) - 1) * (cabs (ones l) / INR (S k)) + tiny.
Proof.
  intros Bx K M F. destruct (finish_nonzero l k Bx K F) as (F1 & N & E).
  rewrite Z.min_l in * by lia. rewrite <- INR_IZR_INZ in *.
  pose proof (acc_error l Bx start F1) as A. cbn [start fst] in A. rewrite f0_0, Rplus_0_l, Rabs_R0, Rplus_0_l, K in A.
  rewrite E. set (n := INR (S k)) in *. set (a := B2R (fst (cell_of l start))) in *.
  set (s := csum (ones l)) in *. set (b := cabs (ones l)) in *. pose proof (rnd_err (a / n)) as Er.
  pose proof (csum_abs (ones l)) as Cs. fold s b in Cs. pose proof (pow_u (S k)) as P. pose proof u32_pos as U.
  assert (B0 : 0 <= b) by apply cabs_ge0. set (q := (1 + u32) ^ S k) in *.
  assert (Ia : Rabs a <= q * b).
  { replace a with ((a - s) + s) by ring. eapply Rle_trans; [apply Rabs_triang|]. nra. }
  assert (D : forall v, Rabs (v / n) = Rabs v / n).
  { intros v. unfold Rdiv. rewrite Rabs_mult, (Rabs_pos_eq (/ n)); [reflexivity|]. left. apply Rinv_0_lt_compat. lra. }
  replace (rnd (a / n) - s / n) with ((rnd (a / n) - a / n) + (a - s) / n) by (field; lra).
  eapply Rle_trans; [apply Rabs_triang|]. rewrite (D (a - s)). rewrite D in Er.
  change ((1 + u32) ^ S (S k)) with ((1 + u32) * q).
  assert (I : 0 < / n) by (apply Rinv_0_lt_compat; lra). unfold Rdiv in *.
  assert (E1 : u32 * (Rabs a * / n) <= u32 * (q * b * / n)).
  { apply Rmult_le_compat_l; [lra|]. apply Rmult_le_compat_r; lra. }
  assert (E2 : Rabs (a - s) * / n <= (q - 1) * b * / n) by (apply Rmult_le_compat_r; lra).
  replace (((1 + u32) * q - 1) * (b * / n)) with (u32 * (q * b * / n) + (q - 1) * b * / n) by ring. lra.
Qed.

(** sums without error *)
Lemma acc_exact l (e : Z) : boxed l -> (-149 <= e <= 100)%Z -> forall c z zs,
  is_finite (fst c) = true -> B2R (fst c) = IZR z * bpow radix2 e ->
  Forall (fun wr => is_finite (snd wr) = true) l ->
  Forall2 (fun wr k => B2R (snd wr) = IZR k * bpow radix2 e /\ (0 <= k)%Z) (ones l) zs ->
  (0 <= z)%Z -> (z + fold_right Z.add 0 zs <= 2 ^ 24)%Z ->
  B2R (fst (cell_of l c)) = IZR (z + fold_right Z.add 0%Z zs) * bpow radix2 e /\ is_finite (fst (cell_of l c)) = true.
Proof.
  intros Bx Ee. induction Bx as [|[w r] l W Bx IH]; intros c z zs F E Fi H2 Z0 Zs.
  - cbn in H2. inversion H2; subst. cbn. rewrite Z.add_0_r. auto.
  - inversion Fi as [|? ? Fr Fl]; subst. cbn [cell_of fold_left fst snd] in *.
    destruct W as [W|W]; cbn [fst] in W; subst w; cbn [ones filter fst] in H2.
    + rewrite eqb_f0 in H2. destruct (mul_f0 r Fr) as [M G].
      assert (X : B2R (fadd (fst c) (fmul f0 r)) = B2R (fst c) /\ is_finite (fadd (fst c) (fmul f0 r)) = true).
      { replace (B2R (fst c)) with (B2R (fst c) + B2R (fmul f0 r)) by (rewrite M; ring).
        apply fadd_exact; auto; rewrite M, Rplus_0_r; [apply fmt_of|apply small]. }
      apply (IH (f_acc c f0 r) z zs); cbn [f_acc fst]; auto; try apply X. etransitivity; [apply X|exact E].
    + rewrite eqb_f1 in H2. inversion H2 as [|? k ? zs' [V K] H2' Q]; subst. cbn [fold_right snd] in *.
      destruct (mul_f1 r Fr) as [M G].
      assert (N : (0 <= fold_right Z.add 0 zs')%Z).
      { clear -H2'. induction H2' as [|? ? ? ? [_ ?] _ IH]; simpl; lia. }
      assert (S : B2R (fst c) + B2R (fmul f1 r) = IZR (z + k) * bpow radix2 e) by (rewrite M, V, E, plus_IZR; ring).
      assert (X : B2R (fadd (fst c) (fmul f1 r)) = IZR (z + k) * bpow radix2 e /\ is_finite (fadd (fst c) (fmul f1 r)) = true).
      { rewrite <- S. apply fadd_exact; auto; rewrite S.
        - apply fmt_Ze; lia.
        - destruct (f_of_small (z + k) e) as [P _]; [lia|lia|]. rewrite <- P. apply small. }
      destruct X as [X1 X2]. rewrite (Z.add_assoc z k). apply (IH (f_acc c f1 r) (z + k)%Z zs'); auto; lia.
Qed.

(** ** positions *)
Definition rep (v : R) : Prop := exists m e : Z, v = IZR m * bpow radix2 e /\ (-24 <= e <= -1)%Z /\ (0 <= m <= 2 ^ 24)%Z.
Lemma Z_bpow (m : Z) (a b : Z) : (a <= b)%Z -> IZR m * bpow radix2 b = IZR (m * 2 ^ (b - a)) * bpow radix2 a.
Proof.
  intros H. rewrite mult_IZR. change (2 ^ (b - a))%Z with (radix2 ^ (b - a))%Z. rewrite IZR_Zpower by lia.
  rewrite Rmult_assoc, <- bpow_plus. do 2 f_equal. lia.
Qed.
Lemma scaled_le (m n e : Z) : IZR m * bpow radix2 e <= IZR n * bpow radix2 e -> (m <= n)%Z.
Proof. intros H. apply le_IZR. apply Rmult_le_reg_r with (bpow radix2 e); [apply bpow_gt_0|exact H]. Qed.
Lemma placed_rep p : placed p -> rep (B2R p).
Proof.
  intros (F & [L H] & k & K). destruct (Rlt_or_le (B2R p) 1) as [S|S].
  - exists k, (-24)%Z. split; [exact K|]. split; [lia|]. split; apply (scaled_le _ _ (-24)); rewrite <- K.
    + lra.
    + change (IZR (2 ^ 24)) with (bpow radix2 24). rewrite <- bpow_plus. simpl. lra.
  - destruct (FLT_format_generic radix2 (-149) 24 _ (fmt_of p)) as [[m e] E M X].
    cbn [Fnum Fexp] in *. unfold F2R in E. cbn [Fnum Fexp] in E. change (radix2 ^ 24)%Z with (2 ^ 24)%Z in M.
    assert (M0 : (0 <= m)%Z) by (apply (scaled_le _ _ e); rewrite <- E; lra).
    destruct (Z_lt_le_dec e 0) as [N|N].
    + exists m, e. split; [exact E|]. split; [|lia]. split; [|lia].
      destruct (Z_lt_le_dec e (-24)) as [Q|]; [exfalso|assumption].
      assert (B2R p < 1); [|lra]. rewrite E.
      apply Rle_lt_trans with (IZR (2 ^ 24) * bpow radix2 (-25)).
      * apply Rmult_le_compat; [apply IZR_le; lia|apply bpow_ge_0|apply IZR_le; lia|apply bpow_le; lia].
      * change (IZR (2 ^ 24)) with (bpow radix2 24). rewrite <- bpow_plus. simpl. lra.
    + exists (m * 2 ^ (e - -1))%Z, (-1)%Z. rewrite E, (Z_bpow m (-1) e) by lia. split; [reflexivity|]. split; [lia|].
      split; [nia|]. apply (scaled_le _ _ (-1)). rewrite <- Z_bpow, <- E by lia.
      change (IZR (2 ^ 24)) with (bpow radix2 24). rewrite <- bpow_plus.
      change (bpow radix2 (24 + -1)) with (IZR (2 ^ 23)). eapply Rle_trans; [exact H|]. apply IZR_le. lia.
Qed.
Lemma half_bpow e : (e <= -1)%Z -> / 2 = IZR (2 ^ (-1 - e)) * bpow radix2 e.
Proof. intros H. replace (2 ^ (-1 - e))%Z with (1 * 2 ^ (-1 - e))%Z by lia. rewrite <- Z_bpow by lia. simpl. lra. Qed.
Lemma sub_half v : rep v -> / 2 <= v -> fmt (v - / 2).
Proof.
  intros (m & e & -> & E & M) L. rewrite (half_bpow e) in * by lia. apply scaled_le in L.
  rewrite <- Rmult_minus_distr_r, <- minus_IZR. apply fmt_Ze; lia.
Qed.
Lemma centre_sub v z : rep v -> Rabs (IZR z + / 2 - v) < 1 -> fmt (IZR z + / 2 - v).
Proof.
  intros (m & e & -> & E & M) S.
  assert (Q : IZR z + / 2 - IZR m * bpow radix2 e = IZR ((2 * z + 1) * 2 ^ (-1 - e) - m) * bpow radix2 e).
  { rewrite minus_IZR, Rmult_minus_distr_r. rewrite <- (Z_bpow (2 * z + 1) e (-1)) by lia.
    rewrite plus_IZR, mult_IZR. simpl (bpow radix2 (-1)). lra. }
  rewrite Q in *. apply fmt_Ze; [|lia].
  rewrite Rabs_mult, (Rabs_pos_eq (bpow _ _)) in S by apply bpow_ge_0. rewrite <- abs_IZR in S.
  apply (scaled_le _ _ e). apply Rle_trans with 1; [lra|]. replace 1 with (IZR (2 ^ 24) * bpow radix2 (-24)).
  - apply Rmult_le_compat_l; [apply IZR_le; lia|apply bpow_le; lia].
  - change (IZR (2 ^ 24)) with (bpow radix2 24). rewrite <- bpow_plus. reflexivity.
Qed.
Lemma fmt_half : fmt (/ 2).
Proof. rewrite (half_bpow (-1)) by lia. apply fmt_Ze; simpl; lia. Qed.
Lemma fmt_mhalf : fmt (- / 2).
Proof. apply generic_format_opp, fmt_half. Qed.

Lemma centre_value x : (0 <= x < 2 ^ 22)%Z -> B2R (f_centre x) = IZR x + / 2 /\ is_finite (f_centre x) = true.
Proof.
  intros H. destruct (f_of_small (2 * x + 1) (-1)) as [A B]; [lia|lia|]. split; [|exact B].
  unfold f_centre. rewrite A, plus_IZR, mult_IZR. simpl. lra.
Qed.
Lemma rnd_bound v (n : Z) : (0 <= n <= 2 ^ 24)%Z -> Rabs v <= IZR n -> Rabs (rnd v) < big.
Proof.
  intros N H. apply Rle_lt_trans with (IZR n).
  - apply Rabs_le. apply Rabs_le_inv in H. split.
    + apply rnd_ge_fmt; [|lra]. rewrite <- opp_IZR. apply fmt_Z. lia.
    + apply rnd_le_fmt; [|lra]. apply fmt_Z. lia.
  - rewrite <- (Rabs_pos_eq (IZR n)) by (apply IZR_le; lia). apply bigZ. lia.
Qed.

(** the box test of one axis says whether the position is strictly inside the pixel *)
Lemma box_axis x p : placed p -> (0 <= x < 2 ^ 22)%Z ->
  Bltb (Babs (fsub (f_centre x) p)) fhalf = strictly x (B2R p).
Proof.
  intros P X. pose proof (placed_rep _ P) as Rp. destruct P as (F & [L H] & _).
  destruct (centre_value x X) as [C G]. destruct fhalf_half as [Hv Hf].
  assert (X0 : 0 <= IZR x <= IZR (2 ^ 22)) by (split; apply IZR_le; lia).
  assert (T22 : IZR (2 ^ 22) = 4194304) by (simpl; lra).
  destruct (fsub_ok (f_centre x) p G F) as [V W].
  { rewrite C. apply (rnd_bound _ (2 ^ 23)); [lia|]. change (IZR (2 ^ 23)) with 8388608. apply Rabs_le. lra. }
  rewrite Bltb_correct; [|now rewrite is_finite_Babs|exact Hf].
  rewrite B2R_Babs, Hv. change (B2R (fsub (f_centre x) p)) with (B2R (fsub (f_centre x) p)). rewrite V, C.
  unfold strictly. destruct (Rlt_bool_spec (IZR x) (B2R p)) as [A|A]; cbn [andb].
  - destruct (Rlt_bool_spec (B2R p) (IZR x + 1)) as [B|B].
    + apply Rlt_bool_true. rewrite rnd_id; [apply Rabs_lt; lra|]. apply centre_sub; [exact Rp|apply Rabs_lt; lra].
    + apply Rlt_bool_false. assert (rnd (IZR x + / 2 - B2R p) <= - / 2) by (apply rnd_le_fmt; [apply fmt_mhalf|lra]).
      rewrite Rabs_left1; lra.
  - apply Rlt_bool_false. assert (/ 2 <= rnd (IZR x + / 2 - B2R p)) by (apply rnd_ge_fmt; [apply fmt_half|lra]).
    rewrite Rabs_pos_eq; lra.
Qed.
Lemma box_weight (e : fevent) x y : placed (fst (fst e)) -> placed (snd (fst e)) ->
  (0 <= x < 2 ^ 22)%Z -> (0 <= y < 2 ^ 22)%Z ->
  f_weight (f_box f_box_size) (fst e) x y = if inside x y e then f1 else f0.
Proof.
  intros P Q X Y. unfold f_weight, f_box, f_box_size, inside, px, py. cbn [fst snd]. now rewrite !box_axis.
Qed.

(** ** the footprint *)
Lemma le_floor (z : Z) v : (z <= Zfloor v)%Z <-> IZR z <= v.
Proof.
  split; [|apply Zfloor_lub]. intros H. eapply Rle_trans; [apply IZR_le, H|apply Zfloor_lb].
Qed.
Lemma floor_le (z : Z) v : (Zfloor v <= z)%Z <-> v < IZR z + 1.
Proof.
  split.
  - intros H. eapply Rlt_le_trans; [apply Zfloor_ub|]. apply Rplus_le_compat_r, IZR_le, H.
  - intros H. apply Z.lt_succ_r. apply lt_IZR. rewrite succ_IZR. eapply Rle_lt_trans; [apply Zfloor_lb|exact H].
Qed.
Lemma foot n p : placed p -> (1 <= n <= 2 ^ 22)%Z -> exists l, f_footprint n p fhalf = Ok l /\ NoDup l /\
  forall x, In x l <-> (0 <= x < n)%Z /\ reaches x (B2R p) = true.
Proof.
  intros P N. pose proof (placed_rep _ P) as Rp. destruct P as (F & [L H] & _).
  destruct fhalf_half as [Hv Hf]. assert (T22 : IZR (2 ^ 22) = 4194304) by (simpl; lra).
  destruct (fsub_ok p fhalf F Hf) as [V1 W1].
  { rewrite Hv. apply (rnd_bound _ (2 ^ 23)); [lia|]. change (IZR (2 ^ 23)) with 8388608. apply Rabs_le. lra. }
  destruct (fadd_ok p fhalf F Hf) as [V2 W2].
  { rewrite Hv. apply (rnd_bound _ (2 ^ 23)); [lia|]. change (IZR (2 ^ 23)) with 8388608. apply Rabs_le. lra. }
  rewrite Hv in V1, V2. destruct (fZ_small (n - 1)) as [Vn Wn]; [lia|].
  assert (LO : is_finite (f_clip_lo (fsub p fhalf) f0) = true /\
    forall x, (Zfloor (B2R (f_clip_lo (fsub p fhalf) f0)) <= x)%Z <-> (0 <= x)%Z /\ B2R p < IZR x + 3 / 2).
  { unfold f_clip_lo. rewrite Bltb_correct by auto. rewrite V1, f0_0.
    destruct (Rlt_bool_spec (rnd (B2R p - / 2)) 0) as [A|A].
    - split; [reflexivity|]. intros x. rewrite f0_0, Zfloor_IZR.
      assert (B2R p < / 2).
      { destruct (Rlt_or_le (B2R p) (/ 2)) as [|Q]; [assumption|]. rewrite rnd_id in A by (now apply sub_half). lra. }
      split; [|tauto]. intros X. split; [exact X|]. apply IZR_le in X. lra.
    - split; [exact W1|]. intros x. rewrite floor_le, V1. destruct (Rlt_or_le (B2R p) (/ 2)) as [Q|Q].
      + assert (E : rnd (B2R p - / 2) = 0).
        { apply Rle_antisym; [|exact A]. apply rnd_le_fmt; [apply fmt_0|lra]. }
        rewrite E. split.
        * intros X. assert (0 <= x)%Z. { apply Z.lt_succ_r, lt_IZR. rewrite succ_IZR. exact X. }
          split; [assumption|]. apply IZR_le in H0. lra.
        * intros [X _]. apply IZR_le in X. lra.
      + rewrite rnd_id by (now apply sub_half). split; [|intros [_ ?]; lra].
        intros X. split; [|lra]. apply Z.lt_succ_r, lt_IZR. rewrite succ_IZR. lra. }
  assert (HI : is_finite (f_clip_hi (fadd p fhalf) (fZ (n - 1))) = true /\
    forall x, (x <= Zfloor (B2R (f_clip_hi (fadd p fhalf) (fZ (n - 1)))))%Z <-> (x < n)%Z /\ IZR x <= rnd (B2R p + / 2)).
  { unfold f_clip_hi. rewrite Bltb_correct by auto. rewrite V2, Vn.
    destruct (Rlt_bool_spec (IZR (n - 1)) (rnd (B2R p + / 2))) as [A|A].
    - split; [exact Wn|]. intros x. rewrite le_floor, Vn. split.
      + intros X. split; [apply le_IZR in X; lia|lra].
      + intros [X _]. apply IZR_le. lia.
    - split; [exact W2|]. intros x. rewrite le_floor, V2. split; [|tauto]. intros X. split; [|exact X].
      assert (x <= n - 1)%Z by (apply le_IZR; lra). lia. }
  destruct LO as [F1 C1], HI as [F2 C2]. unfold f_footprint, f_floor. rewrite F1, F2. cbn [bind].
  eexists. split; [reflexivity|]. split; [apply NoDup_zrange_le|]. intros x. rewrite in_zrange_le, C1, C2.
  unfold reaches. rewrite andb_true_iff. split.
  - intros [[A B] [C D]]. split; [lia|]. split; [now apply Rle_bool_true|now apply Rlt_bool_true].
  - intros [A [B C]]. revert B C. destruct (Rle_bool_spec (IZR x) (rnd (B2R p + / 2))); [|discriminate].
    destruct (Rlt_bool_spec (B2R p) (IZR x + 3 / 2)); [|discriminate]. intros _ _. lia || (split; split; auto; lia).
Qed.

(** ** whole renders *)
Section Fold.
Variable feval : f32 -> f32 -> f32.
Lemma fold_add w h p rad l : NoDup l -> Forall (fun q => in_filmb w h (fst q) (snd q) = true) l -> forall f,
  exists f', foldM (f_add feval w h p rad) l f = Ok f' /\
    forall x y, (In (x, y) l -> f' x y = f_acc (f x y) (f_weight feval p x y) rad) /\ (~ In (x, y) l -> f' x y = f x y).
Proof.
  intros ND. induction ND as [|[a b] l NI ND IH]; intros F f.
  - exists f. split; [reflexivity|]. intros x y. split; [intros []|auto].
  - inversion F as [|? ? F1 F2]; subst. cbn [fst snd] in F1. cbn [foldM]. unfold f_add at 1. rewrite F1. cbn [bind].
    destruct (IH F2 (set2 f a b (f_acc (f a b) (f_weight feval p a b) rad))) as (f' & E & C).
    exists f'. split; [exact E|]. intros x y. destruct (C x y) as [C1 C2]. unfold set2 in *.
    destruct (Z.eqb_spec x a) as [Ea|Na]; cbn [andb] in *.
    + subst x. destruct (Z.eqb_spec y b) as [Eb|Nb]; [subst y|].
      * split; [intros _|intros X; exfalso; apply X; left; reflexivity]. apply C2. exact NI.
      * split; [intros [X|X]; [congruence|auto]|intros X; apply C2; intros Y; apply X; now right].
    + split; [intros [X|X]; [congruence|auto]|intros X; apply C2; intros Y; apply X; now right].
Qed.
End Fold.

Lemma in_grid (xs ys : list Z) x y :
  In (x, y) (flat_map (fun y => map (fun x => (x, y)) xs) ys) <-> In x xs /\ In y ys.
Proof.
  rewrite in_flat_map. split.
  - intros (b & B & M). apply in_map_iff in M as (a & E & A). injection E as <- <-. auto.
  - intros [A B]. exists y. split; [exact B|]. apply in_map_iff. eauto.
Qed.
Lemma nodup_grid (xs ys : list Z) : NoDup xs -> NoDup ys -> NoDup (flat_map (fun y => map (fun x => (x, y)) xs) ys).
Proof.
  intros X Y. induction Y as [|b ys NI Y IH]; [constructor|]. cbn [flat_map].
  assert (N1 : NoDup (map (fun x => (x, b)) xs)).
  { clear -X. induction X as [|a xs N X IH]; simpl; constructor; auto. rewrite in_map_iff. intros (c & E & C). congruence. }
  assert (D : forall q, In q (map (fun x => (x, b)) xs) -> ~ In q (flat_map (fun y => map (fun x => (x, y)) xs) ys)).
  { intros [u v] A B. apply in_map_iff in A as (c & E & _). injection E as <- <-.
    apply in_grid in B as [_ B]. contradiction. }
  revert N1 D IH. generalize (map (fun x => (x, b)) xs) as l1. generalize (flat_map (fun y => map (fun x => (x, y)) xs) ys) as l2.
  clear. intros l2 l1 N1 D N2. induction N1 as [|q l1 N N1 IH]; [exact N2|]. simpl. constructor.
  - rewrite in_app_iff. intros [H|H]; [contradiction|]. apply (D q); simpl; auto.
  - apply IH. intros q' Q. apply D. simpl. auto.
Qed.

Lemma splat_cell feval w h f e : film_ok w h -> event_ok e -> exists f', f_splat f_box_size feval w h f e = Ok f' /\
  forall x y, in_filmb w h x y = true ->
    f' x y = if touches x y e then f_acc (f x y) (f_weight feval (fst e) x y) (snd e) else f x y.
Proof.
  intros [W H] [P Q]. destruct e as [[p q] rad]. cbn [fst snd] in P, Q. unfold f_splat. cbn [f_box_size fst snd].
  destruct (foot h q Q H) as (ys & -> & NY & IY). destruct (foot w p P W) as (xs & -> & NX & IX). cbn [bind].
  destruct (fold_add feval w h (p, q) rad (flat_map (fun y => map (fun x => (x, y)) xs) ys) (nodup_grid _ _ NX NY)) with (f := f) as (f' & E & C).
  { apply Forall_forall. intros [x y] I. apply in_grid in I as [A B]. apply IX in A as [A _]. apply IY in B as [B _].
    cbn [fst snd]. unfold in_filmb. rewrite !andb_true_iff, !Z.leb_le, !Z.ltb_lt. lia. }
  exists f'. split; [exact E|]. intros x y I. unfold in_filmb in I. rewrite !andb_true_iff, !Z.leb_le, !Z.ltb_lt in I.
  destruct (C x y) as [C1 C2]. unfold touches, px, py. cbn [fst snd].
  destruct (reaches x (B2R p) && reaches y (B2R q)) eqn:T.
  - apply andb_true_iff in T as [T1 T2]. apply C1, in_grid. rewrite IX, IY. split; split; auto; lia.
  - apply C2. rewrite in_grid, IX, IY. intros [[_ A] [_ B]]. rewrite A, B in T. discriminate.
Qed.

Definition contribs (feval : f32 -> f32 -> f32) (x y : Z) (evs : list fevent) : list contrib :=
  map (fun e => (f_weight feval (fst e) x y, snd e)) (filter (touches x y) evs).
Lemma fold_cell feval w h evs : film_ok w h -> Forall event_ok evs -> forall f,
  exists f', foldM (f_splat f_box_size feval w h) evs f = Ok f' /\
    forall x y, in_filmb w h x y = true -> f' x y = cell_of (contribs feval x y evs) (f x y).
Proof.
  intros FO EO. induction EO as [|e evs O EO IH]; intros f.
  - exists f. split; reflexivity.
  - cbn [foldM]. destruct (splat_cell feval w h f e FO O) as (f1 & E1 & C1). rewrite E1. cbn [bind].
    destruct (IH f1) as (f' & E & C). exists f'. split; [exact E|]. intros x y I. rewrite (C x y I), (C1 x y I).
    unfold contribs. cbn [filter]. destruct (touches x y e); reflexivity.
Qed.
Lemma render_cell feval w h evs : film_ok w h -> Forall event_ok evs ->
  exists img, f_render f_box_size feval w h evs = Ok img /\
    forall x y, in_filmb w h x y = true -> img x y = f_finish (cell_of (contribs feval x y evs) start).
Proof.
  intros FO EO. unfold f_render. destruct (fold_cell feval w h evs FO EO (fun _ _ => (f0, f0))) as (f' & -> & C).
  cbn [bind]. eexists. split; [reflexivity|]. intros x y I. cbv beta. now rewrite (C x y I).
Qed.

Lemma inside_touches x y e : (0 <= x < 2 ^ 22)%Z -> (0 <= y < 2 ^ 22)%Z -> inside x y e = true -> touches x y e = true.
Proof.
  assert (K : forall z p, (0 <= z < 2 ^ 22)%Z -> strictly z p = true -> reaches z p = true).
  { intros z p Z. unfold strictly, reaches. destruct (Rlt_bool_spec (IZR z) p) as [A|]; [|discriminate].
    destruct (Rlt_bool_spec p (IZR z + 1)) as [B|]; [|discriminate]. intros _.
    rewrite Rle_bool_true, Rlt_bool_true; [reflexivity|lra|]. apply rnd_ge_fmt; [apply fmt_Z; lia|lra]. }
  intros X Y. unfold inside, touches. rewrite !andb_true_iff. intros [A B]. split; now apply K.
Qed.
Lemma box_contribs x y evs : Forall event_ok evs -> (0 <= x < 2 ^ 22)%Z -> (0 <= y < 2 ^ 22)%Z ->
  boxed (contribs (f_box f_box_size) x y evs) /\
  map snd (ones (contribs (f_box f_box_size) x y evs)) = map snd (filter (inside x y) evs).
Proof.
  intros EO X Y. induction EO as [|e evs [P Q] EO [IH1 IH2]]; [split; [constructor|reflexivity]|].
  unfold contribs in *. cbn [filter]. destruct (touches x y e) eqn:T.
  - cbn [map]. rewrite (box_weight e x y P Q X Y). split.
    + constructor; [|exact IH1]. cbn [fst]. destruct (inside x y e); auto.
    + unfold ones in *. cbn [filter fst]. destruct (inside x y e).
      * rewrite eqb_f1. cbn [map snd]. now f_equal.
      * rewrite eqb_f0. exact IH2.
  - destruct (inside x y e) eqn:N; [|now split].
    apply inside_touches in N; auto. congruence.
Qed.
Lemma csum_sum l evs : map snd l = map snd evs -> csum l = sum evs /\ cabs l = sum_abs evs /\ length l = length evs.
Proof.
  revert evs. induction l as [|a l IH]; intros [|e evs] H; try discriminate; [repeat split|].
  cbn [map] in H. injection H as H1 H2. destruct (IH _ H2) as (A & B & C).
  rewrite csum_cons, cabs_cons, A, B. unfold sum, sum_abs. cbn [map length]. rewrite !rsum_cons.
  unfold lum at 2 5. rewrite H1, C. auto.
Qed.

(** nothing of weight: black *)
Lemma finish_empty l : boxed l -> ones l = [] -> f_finish (cell_of l start) = f0.
Proof.
  intros Bx O. destruct (weights l Bx start 0 eq_refl eq_refl ltac:(lia)) as [W G]. rewrite O in W. cbn in W.
  unfold f_finish. rewrite Beqb_correct by auto. rewrite W. cbn. now rewrite Req_bool_true.
Qed.
Lemma finish_bad l : boxed l -> ones l <> [] -> is_finite (fst (cell_of l start)) = false ->
  is_finite (f_finish (cell_of l start)) = false.
Proof.
  intros Bx O B. destruct (is_finite (f_finish (cell_of l start))) eqn:F; [|reflexivity].
  destruct (length (ones l)) as [|k] eqn:K; [destruct (ones l); [congruence|discriminate]|].
  destruct (finish_nonzero l k Bx K F) as (A & _). congruence.
Qed.
Lemma bernoulli m : (m <= Z.to_nat (2 ^ 23))%nat -> (1 + u32) ^ m <= 1 + INR m * / 2 ^ 23.
Proof.
  assert (E23 : / 2 ^ 23 = 2 * u32) by (unfold u32; lra). rewrite E23.
  intros M. assert (L : INR m * (2 * u32) <= 1).
  { rewrite INR_IZR_INZ. apply Rle_trans with (IZR (2 ^ 23) * (2 * u32)); [|unfold u32; simpl; lra].
    apply Rmult_le_compat_r; [pose proof u32_pos; lra|]. apply IZR_le. lia. }
  clear M. pose proof u32_pos as U. induction m as [|m IH]; [simpl; lra|].
  rewrite S_INR in *. change ((1 + u32) ^ S m) with ((1 + u32) * (1 + u32) ^ m).
  assert (0 <= INR m) by apply pos_INR.
  assert (I1 : (1 + u32) ^ m <= 1 + INR m * (2 * u32)) by (apply IH; nra).
  assert ((1 + u32) * (1 + u32) ^ m <= (1 + u32) * (1 + INR m * (2 * u32))) by (apply Rmult_le_compat_l; lra).
  nra.
Qed.

(** ** sample positions *)
Lemma sample_where j u : (0 <= j < 2 ^ 22)%Z -> unit_grid u ->
  placed (f_sample j u) /\ IZR j <= B2R (f_sample j u) <= IZR j + 1 /\ B2R (f_sample j u) = rnd (IZR j + B2R u).
Proof.
  intros J (F & k & K & E). destruct (fZ_small j) as [Vj Wj]; [lia|].
  assert (J0 : 0 <= IZR j <= IZR (2 ^ 22 - 1)) by (split; apply IZR_le; lia).
  assert (T : IZR (2 ^ 22 - 1) = 4194303) by (simpl; lra).
  assert (U0 : 0 <= B2R u < 1).
  { rewrite E. split; [apply Rmult_le_pos; [apply IZR_le; lia|apply bpow_ge_0]|].
    replace 1 with (IZR (2 ^ 24) * bpow radix2 (-24)).
    - apply Rmult_lt_compat_r; [apply bpow_gt_0|apply IZR_lt; lia].
    - change (IZR (2 ^ 24)) with (bpow radix2 24). rewrite <- bpow_plus. reflexivity. }
  destruct (fadd_ok (fZ j) u Wj F) as [V W].
  { rewrite Vj. apply (rnd_bound _ (2 ^ 23)); [lia|]. change (IZR (2 ^ 23)) with 8388608. apply Rabs_le. lra. }
  rewrite Vj in V. fold (f_sample j u) in V, W.
  assert (L : IZR j <= B2R (f_sample j u)) by (rewrite V; apply rnd_ge_fmt; [apply fmt_Z; lia|lra]).
  assert (H : B2R (f_sample j u) <= IZR j + 1).
  { rewrite V, <- plus_IZR. apply rnd_le_fmt; [apply fmt_Z; lia|]. rewrite plus_IZR. lra. }
  split; [|split; [split; assumption|exact V]]. split; [exact W|]. split.
  - split; [lra|]. eapply Rle_trans; [exact H|]. simpl. lra.
  - destruct (Z.eq_dec j 0) as [-> |N].
    + exists k. rewrite V, Rplus_0_l. rewrite rnd_id by apply fmt_of. exact E.
    + assert (1 <= IZR j) by (apply IZR_le; lia).
      destruct (FLT_format_generic radix2 (-149) 24 _ (fmt_of (f_sample j u))) as [[m e] E' M X].
      cbn [Fnum Fexp] in *. unfold F2R in E'. cbn [Fnum Fexp] in E'. change (radix2 ^ 24)%Z with (2 ^ 24)%Z in M.
      destruct (Z_lt_le_dec e (-24)) as [Q|Q].
      * exfalso. assert (B2R (f_sample j u) < 1); [|lra]. rewrite E'.
        assert (M0 : (0 <= m)%Z) by (apply (scaled_le _ _ e); rewrite <- E'; lra).
        apply Rle_lt_trans with (IZR (2 ^ 24) * bpow radix2 (-25)).
        -- apply Rmult_le_compat; [apply IZR_le; lia|apply bpow_ge_0|apply IZR_le; lia|apply bpow_le; lia].
        -- change (IZR (2 ^ 24)) with (bpow radix2 24). rewrite <- bpow_plus. simpl. lra.
      * exists (m * 2 ^ (e - -24))%Z. rewrite E'. apply Z_bpow. lia.
Qed.
Lemma sample_safe j u t : (0 <= t <= 21)%Z -> (2 ^ t <= j < 2 ^ (t + 1))%Z -> unit_grid u ->
  bpow radix2 (t - 24) < B2R u < 1 - bpow radix2 (t - 24) -> strictly j (B2R (f_sample j u)) = true.
Proof.
  intros T J G U. assert (J2 : (0 <= j < 2 ^ 22)%Z).
  { split; [pose proof (Z.pow_pos_nonneg 2 t); lia|]. eapply Z.lt_le_trans; [apply J|]. apply Z.pow_le_mono_r; lia. }
  destruct (sample_where j u J2 G) as (_ & [L H] & V).
  assert (B : bpow radix2 t <= IZR j + B2R u < bpow radix2 (t + 1)).
  { rewrite <- !IZR_Zpower by lia. change (radix2 : Z) with 2%Z. destruct J as [J3 J4].
    apply IZR_le in J3. assert (IZR j + 1 <= IZR (2 ^ (t + 1))) by (rewrite <- plus_IZR; apply IZR_le; lia).
    pose proof (bpow_gt_0 radix2 (t - 24)). lra. }
  assert (Err : Rabs (rnd (IZR j + B2R u) - (IZR j + B2R u)) <= bpow radix2 (t - 24)).
  { pose proof (error_le_half_ulp radix2 (FLT_exp (-149) 24) (fun z => negb (Z.even z)) (IZR j + B2R u)) as Er.
    change (round radix2 (FLT_exp (-149) 24) (Znearest (fun z => negb (Z.even z)))) with rnd in Er.
    eapply Rle_trans; [exact Er|]. rewrite ulp_neq_0 by (pose proof (bpow_gt_0 radix2 t); lra).
    unfold cexp. rewrite (mag_unique radix2 _ (t + 1)).
    - unfold FLT_exp. rewrite Z.max_l by lia. replace (t - 24)%Z with (-1 + (t + 1 - 24))%Z by lia. rewrite bpow_plus. simpl. lra.
    - rewrite Rabs_pos_eq by (pose proof (bpow_gt_0 radix2 t); lra). replace (t + 1 - 1)%Z with t by lia. exact B. }
  rewrite <- V in Err. apply Rabs_le_inv in Err. unfold strictly.
  rewrite !Rlt_bool_true; [reflexivity|lra|lra].
Qed.
