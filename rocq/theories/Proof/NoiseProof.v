(** Noise of the mean of independent camera samples. *)
From Coq Require Import Reals List Bool ZArith Lra Lia.
From Coquelicot Require Import Rbar.
From Verif.Base Require Import Outcome.
From Verif.Model Require Import Vec Frame BBox Integrators Scene VolPath.
From Verif.Spec Require Import IntegratorSpec BoundSpec VolPathSpec ExpectSpec NoiseSpec.
From Verif.Proof Require Import VecLemmas IntegratorProof VolPathTheory BoundProof ExpectProof.
Import ListNotations.
Open Scope R_scope.

Section Noise.
Variable d : R.
Variable e1 : (R -> R) -> R.
Variable e2 : (vec2 -> R) -> R.
Hypothesis av : averages d e1 e2.
Variable hit : ray -> option isect.
Notation expect := (expect hit e1 e2).
Lemma expect_lin {A} (q : query A) f g x y : expect q (fun a => x * f a + y * g a) = x * expect q f + y * expect q g.
Proof.
  induction q as [a|r k IH|k IH|k IH]; cbn; [reflexivity|apply IH| |].
  - rewrite (e1_ext d e1 e2 av _ (fun u => x * expect (k u) f + y * expect (k u) g)) by (intros u; apply IH). apply (av_lin1 _ _ _ av).
  - rewrite (e2_ext d e1 e2 av _ (fun u => x * expect (k u) f + y * expect (k u) g)) by (intros u; apply IH). apply (av_lin2 _ _ _ av).
Qed.
Lemma samples_length {A} (q : query A) N l : hleaf hit (samples N q) l -> length l = N /\ List.Forall (hleaf hit q) l.
Proof.
  revert l. induction N as [|N IH]; intros l H; cbn in H; [inversion H; subst; split; [reflexivity|constructor]|].
  apply hleaf_bind in H as (a & Ha & H). apply hleaf_bind in H as (l' & Hl & H). inversion H; subst. destruct (IH _ Hl). split; [cbn; congruence|constructor; assumption].
Qed.

Section One.
Context {A : Type}.
Variable q : query A.
Variable f : A -> R.
Notation mu := (expect q f).
Definition dev (N : nat) (l : list A) : R := sum (map f l) - INR N * mu.
Lemma dev_mean N : expect (samples N q) (dev N) = 0.
Proof.
  induction N as [|N IH]; cbn [samples ExpectSpec.expect]; [unfold dev; cbn; ring|].
  rewrite (expect_bind d e1 e2 av). 
  rewrite (expect_eq d e1 e2 av hit q _ (fun a => - mu + 1 * f a)).
  - rewrite (expect_affine d e1 e2 av). ring.
  - intros a _. rewrite (expect_bind d e1 e2 av). cbn [ExpectSpec.expect].
    rewrite (expect_eq d e1 e2 av hit (samples N q) _ (fun l => (f a - mu) + 1 * dev N l)) by (intros l _; unfold dev; rewrite S_INR; cbn [map sum]; ring).
    rewrite (expect_affine d e1 e2 av), IH. ring.
Qed.
Definition var : R := expect q (fun a => (f a - mu) * (f a - mu)).
Lemma dev_square N : expect (samples N q) (fun l => dev N l * dev N l) = INR N * var.
Proof.
  induction N as [|N IH]; cbn [samples ExpectSpec.expect]; [unfold dev; cbn; ring|].
  rewrite (expect_bind d e1 e2 av). rewrite S_INR.
  rewrite (expect_eq d e1 e2 av hit q _ (fun a => INR N * var + 1 * ((f a - mu) * (f a - mu)))).
  - rewrite (expect_affine d e1 e2 av). unfold var. ring.
  - intros a _. rewrite (expect_bind d e1 e2 av). cbn [ExpectSpec.expect].
    rewrite (expect_eq d e1 e2 av hit (samples N q) _ (fun l => (f a - mu) * (f a - mu) + 1 * (2 * (f a - mu) * dev N l + 1 * (dev N l * dev N l))))
      by (intros l _; unfold dev; rewrite S_INR; cbn [map sum]; ring).
    rewrite (expect_affine d e1 e2 av), expect_lin, dev_mean, IH. ring.
Qed.
Lemma var_bound B : (forall a, hleaf hit q a -> 0 <= f a <= B) -> 0 <= var <= B * B / 4.
Proof.
  intros H. split.
  - unfold var. rewrite <- (expect_const d e1 e2 av hit q 0). apply (expect_le d e1 e2 av). intros a _. apply Rle_0_sqr.
  - unfold var.
    rewrite (expect_eq d e1 e2 av hit q _ (fun a => mu * mu + 1 * (1 * (f a * f a) + (- (2 * mu)) * f a))) by (intros; ring).
    rewrite (expect_affine d e1 e2 av), expect_lin.
    assert (expect q (fun a => f a * f a) <= B * mu).
    { rewrite <- (Rplus_0_l (B * mu)), <- (expect_affine d e1 e2 av). apply (expect_le d e1 e2 av). intros a La. destruct (H a La). nra. }
    pose proof (Rle_0_sqr (mu - B / 2)). unfold Rsqr in *. lra.
Qed.
Lemma mean_square B N m : (0 < N)%nat -> (forall a, hleaf hit q a -> 0 <= f a <= B) ->
  expect (samples N q) (fun l => (mean (map f l) - m) * (mean (map f l) - m)) <= B * B / (4 * INR N) + (mu - m) * (mu - m).
Proof.
  intros N0 H. pose proof (lt_0_INR N N0) as NR.
  rewrite (expect_eq d e1 e2 av hit (samples N q) _ (fun l => (mu - m) * (mu - m) + 1 * (/ (INR N * INR N) * (dev N l * dev N l) + 2 * (mu - m) / INR N * dev N l))).
  - rewrite (expect_affine d e1 e2 av), expect_lin, dev_mean, dev_square. destruct (var_bound B H) as (V0 & V1).
    replace (/ (INR N * INR N) * (INR N * var)) with (/ INR N * var) by (field; lra). replace (B * B / (4 * INR N)) with (/ INR N * (B * B / 4)) by (field; lra).
    assert (/ INR N * var <= / INR N * (B * B / 4)) by (apply Rmult_le_compat_l; [left; apply Rinv_0_lt_compat, NR|exact V1]). lra.
  - intros l Ll. apply samples_length in Ll as (Ll & _). unfold mean, dev. rewrite map_length, Ll. field. lra.
Qed.
Lemma chebyshev N m t : 0 < t ->
  expect (samples N q) (fun l => off_by t m (mean (map f l))) <= expect (samples N q) (fun l => (mean (map f l) - m) * (mean (map f l) - m)) / (t * t).
Proof.
  intros T. replace (expect (samples N q) (fun l => (mean (map f l) - m) * (mean (map f l) - m)) / (t * t))
    with (0 + / (t * t) * expect (samples N q) (fun l => (mean (map f l) - m) * (mean (map f l) - m))) by (unfold Rdiv; ring).
  rewrite <- (expect_affine d e1 e2 av). apply (expect_le d e1 e2 av). intros l _. unfold off_by. set (x := mean (map f l) - m).
  assert (0 < t * t) by nra. destruct (Rle_dec t (Rabs x)) as [G|G].
  - rewrite Rplus_0_l. apply Rmult_le_reg_l with (t * t); [assumption|]. rewrite <- Rmult_assoc, Rinv_r by lra. rewrite Rmult_1_r, Rmult_1_l.
    replace (x * x) with (Rabs x * Rabs x) by (rewrite <- Rabs_mult; apply Rabs_pos_eq, Rle_0_sqr). apply Rmult_le_compat; lra.
  - rewrite Rplus_0_l. apply Rmult_le_pos; [left; apply Rinv_0_lt_compat; assumption|apply Rle_0_sqr].
Qed.
End One.

(** ** the range of a volumetric sample *)
Section Light.
Context {M : Type}.
Variable env : ray -> vec3.
Variable boundary : nat -> option (option M * option M).
Variable ms : M -> option bool -> ray -> R -> query (vec3 * R).
Variable ph : M -> vec3 -> vec2 -> vec3 * R.
Variable nee : bool -> bool -> isect -> option M -> query (list emitter_eval).
Variable ev : isect -> ray -> option M -> closure -> query closure.
Variable mat : isect -> vec3 -> vec3 -> vec3.
Variable sample : isect -> closure -> query closure.
Variable nonexp : bool.
Variable max_bounces : nat.
Variable L : R.
Variable P : closure -> Prop.
Hypothesis ge : gentle hit M env boundary ms ph nee ev mat sample nonexp L P.
Variable get : vec3 -> R.
Hypothesis ch : channel get.
Notation vol_loop := (vol_loop M env boundary ms ph nee ev mat sample nonexp max_bounces).
Definition brighter (n : nat) (Li : vec3) (o : outcome (vec3 * list (vevent M))) : Prop :=
  match o with Ok (v, _) => get Li <= get v <= get Li + INR n * L | _ => True end.
Lemma over_rr b f : channel f -> within 1 b -> 0 <= f b / rr_prob b <= 1.
Proof.
  intros Cf W. assert (Pb : pos b) by (unfold pos, within in *; tauto). destruct (rr_range f Cf b Pb) as ((R0 & R1) & R2). pose proof (get_in f Cf 1 b W) as (B0 & B1).
  destruct (Req_dec (rr_prob b) 0) as [Z|Z]; [rewrite Z; unfold Rdiv; rewrite Rinv_0; lra|]. assert (f b <= rr_prob b) by (destruct (Req_dec (rr_prob b) 1) as [->|]; [lra|apply R2; lra]).
  split; [apply Rmult_le_pos; [lra|left; apply Rinv_0_lt_compat; lra]|]. apply Rmult_le_reg_r with (rr_prob b); [lra|]. unfold Rdiv. rewrite Rmult_assoc, Rinv_l; lra.
Qed.
Lemma mul_range a b B : 0 <= a <= 1 -> 0 <= b <= B -> 0 <= a * b <= B.
Proof. intros. split; [apply Rmult_le_pos; lra|]. apply Rle_trans with (1 * b); [apply Rmult_le_compat_r; lra|lra]. Qed.
Lemma vol_range fuel : forall n Li beta r c md surf h o, P c -> within 1 beta -> hleaf hit (vol_loop fuel n Li beta r c md surf h) o -> brighter n Li o.
Proof.
  assert (L0 : 0 <= L) by apply (ge_light _ _ _ _ _ _ _ _ _ _ _ _ _ ge).
  assert (C3 : channel vx /\ channel vy /\ channel vz) by (unfold channel; tauto). destruct C3 as (Cx & Cy & Cz).
  induction fuel as [|fuel IH]; intros n Li beta r c md surf h o Pc Wb H; cbn [VolPath.vol_loop] in H; [inversion H; exact I|].
  assert (NL : 0 <= INR n * L) by (apply Rmult_le_pos; [apply pos_INR|exact L0]).
  destruct n as [|n]; [inversion H; subst; cbn; lra|]. rewrite S_INR in NL. pose proof (pos_INR n) as N0. assert (NL' : 0 <= INR n * L) by (apply Rmult_le_pos; assumption).
  assert (Here : forall x o, 0 <= get x <= L -> (exists k, o = Ok (vadd Li x, k)) -> brighter (S n) Li o).
  { intros x o' X (k & ->). cbn [brighter]. rewrite (get_add get ch), S_INR. lra. }
  assert (On : forall x o, 0 <= get x <= L -> brighter n (vadd Li x) o -> brighter (S n) Li o).
  { intros x [[v k]|m| |] X B; cbn [brighter] in *; try exact I. rewrite (get_add get ch) in B. rewrite S_INR. lra. }
  destruct (isZero_dec beta); [inversion H; subst; cbn [brighter]; rewrite S_INR; lra|]. inversion H as [|? ? ? H'| |]; subst. clear H. rename H' into H.
  destruct (hit r) as [i|] eqn:Hi.
  2:{ inversion H; subst. apply (Here (vmul beta (env r))); [|eauto]. rewrite (get_mul get ch).
      apply mul_range; [exact (get_in get ch _ _ Wb)|exact (get_in get ch _ _ (ge_sky _ _ _ _ _ _ _ _ _ _ _ _ _ ge r))]. }
  assert (B : forall beta h, within 1 beta -> hleaf hit (arrive M boundary ev mat sample nonexp max_bounces (vol_loop fuel) n Li beta r c md surf i h) o -> brighter (S n) Li o).
  { clear H Wb n0 h beta. intros beta h Wb H. unfold arrive in H. destruct (i_null i).
    - apply (IH (S n)) in H; [exact H|apply (ge_cross _ _ _ _ _ _ _ _ _ _ _ _ _ ge), Pc|exact Wb].
    - unfold at_surface in H. apply hleaf_bind in H as (c1 & L1 & H). destruct (ge_vertex _ _ _ _ _ _ _ _ _ _ _ _ _ ge r i md c c1 Hi Pc L1) as (W & K). cbv zeta in W, K, H.
      set (c2 := accumulate_shadow_rays (mat i) c1) in *.
      assert (X : 0 <= get (vmul beta (vadd (c_emission c2) (c_nee c2))) <= L).
      { rewrite (get_mul get ch). apply mul_range; [exact (get_in get ch _ _ Wb)|exact (get_in get ch _ _ W)]. }
      inversion H as [| |? u ? H'|]; subst. clear H. destruct (Rgt_dec u (rr_prob beta)); [inversion H'; subst; apply (Here _ _ X); eauto|].
      apply hleaf_bind in H' as (c3 & L3 & H). destruct (K c3 L3) as (E1 & E2 & P3 & F). rewrite E1, E2 in H.
      destruct (Req_EM_T (c_pdf c3) 0) as [E|E]; [inversion H; subst; apply (Here _ _ X); eauto|].
      apply IH in H; [|exact P3|].
      + replace (vadd (c_nee c2) (c_emission c2)) with (vadd (c_emission c2) (c_nee c2)) in H by (apply vec3_eq; cbn; ring). exact (On _ _ X H).
      + specialize (F E).
        assert (Q : forall f, channel f -> 0 <= f (vmul beta (vdiv (vscale (c_albedo c3) (cos_term i c3)) (c_pdf c3 * rr_prob beta))) <= 1).
        { intros f Cf. replace (f (vmul beta (vdiv (vscale (c_albedo c3) (cos_term i c3)) (c_pdf c3 * rr_prob beta)))) with (f beta / rr_prob beta * f (vscale (c_albedo c3) (cos_term i c3 / c_pdf c3)))
            by (destruct Cf as [->|[->| ->]]; cbn; unfold Rdiv; rewrite Rinv_mult; ring).
          apply mul_range; [apply over_rr; assumption|exact (get_in f Cf _ _ F)]. }
        exact (conj (Q vx Cx) (conj (Q vy Cy) (Q vz Cz))). }
  unfold traverse in H. destruct md as [m|]; [|exact (B _ _ Wb H)].
  apply hleaf_bind in H as (wt & Lw & H). pose proof (ge_medium _ _ _ _ _ _ _ _ _ _ _ _ _ ge _ _ _ _ _ Lw) as W.
  pose proof (within_mul 1 _ _ Wb W) as Wb'. destruct (Rlt_dec (snd wt) (i_t i)) as [Ins|]; [|exact (B _ _ Wb' H)].
  unfold scatter in H. apply hleaf_bind in H as (l & Ll & H). inversion H as [| | |? s ? H']; subst. clear H.
  set (b := vmul beta (fst wt)) in *.
  destruct (ge_scatter _ _ _ _ _ _ _ _ _ _ _ _ _ ge surf i m _ r c wt l s (media_nee b (snd (ph m (vneg (dir r)) s)) l (V3c 0)) Pc Hi Lw Ins Ll) as (Wn & Ps).
  destruct (ph m (vneg (dir r)) s) as [wi phase]. cbn [snd] in Wn, Ps. inversion H' as [| |? u ? H|]; subst. clear H'. cbv zeta in H.
  assert (X : 0 <= get (media_nee b phase l (V3c 0)) <= L).
  { rewrite (media_nee_at get ch). apply mul_range; [exact (get_in get ch _ _ Wb')|exact (get_in get ch _ _ Wn)]. }
  destruct (Rgt_dec u (rr_prob b)); [inversion H; subst; apply (Here _ _ X); eauto|].
  apply IH in H; [exact (On _ _ X H)|exact Ps|].
  assert (Q : forall f, channel f -> 0 <= f (vdiv b (rr_prob b)) <= 1).
  { intros f Cf. rewrite (get_div f Cf). apply over_rr; assumption. }
  exact (conj (Q vx Cx) (conj (Q vy Cy) (Q vz Cz))).
Qed.
End Light.
End Noise.
