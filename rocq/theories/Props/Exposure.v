(** C207: mean and noise of the samples of the ambient occlusion integrator. *)
From Coq Require Import Reals List Bool ZArith Lra Lia.
From Coquelicot Require Import Rbar.
From Verif.Base Require Import Outcome.
From Verif.Model Require Import Vec Frame BBox Warp Clocker Integrators Bsdf Scene Renderer VolPath.
From Verif.Spec Require Import IntegratorSpec VolPathSpec ExpectSpec NoiseSpec TapeSpec.
From Verif.Proof Require Import VecLemmas IntegratorProof SceneProof VolPathTheory ExpectProof ExpectScene NoiseProof TapeProof WhittedProof.
From Verif.Props Require Import PathMean.
Import ListNotations.
Open Scope R_scope.

Section Exposure.
Context {B : Type}.
Variable now : B -> R * B.
Variable hit : ray -> option isect.
Hypothesis solid : forall r i, hit r = Some i -> i_null i = false.
Variable N : nat.
Hypothesis N_pos : (0 < N)%nat.
Variable nn : nat.
Notation ao r := (amb_occ_Li (tape * B) (own_now now) (own_hit (fun l x => (hit x, l))) (own_rnd two_of) (Datatypes.S nn) r).
Notation run q t := (qrun (fun (l : tape) r => (hit r, l)) one_of two_of q t).

(** the share of the directions above a point that lead away from the scene; directions near the normal count more, by the cosine *)
Definition free (i : isect) (w : vec3) : R := match hit (Ray (i_p i) w (Finite (1 / 1000)) p_infty) with None => 1 | Some _ => 0 end.
Definition exposed (r : ray) : R :=
  match hit r with None => 0 | Some i => grid2 N (fun u => free i (toWorld (i_g i) (sqrToCosHemi u))) end.

(** the channel of a result *)
Definition result (get : vec3 -> R) (o : outcome (vec3 * unit)) : R := match o with Ok (v, _) => get v | _ => 0 end.
Definition look (r : ray) : query (outcome (vec3 * unit)) :=
  QHit r (fun a => match a with None => QRet (Ok (V3c 0, tt)) | Some i => QRand2 (fun u => QHit (ao_ray i u) (fun b => QRet (Ok (match b with None => V3c 1 | Some _ => V3c 0 end, tt)))) end).
Lemma nf_solid r : @nf (tape * B) _ (intersect_non_null (tape * B) (own_now now) (own_hit (fun l x => (hit x, l))) (Datatypes.S nn) r).
Proof. apply nf_nn; [discriminate|]. intros [l b] q i. apply solid. Qed.
Lemma ao_run r s : idle (s_clk _ s) -> exists v s', ao r s = (Ok v, s') /\ idle (s_clk _ s') /\ run (look r) (fst (s_w _ s)) = (Ok (v, tt), fst (s_w _ s')).
Proof.
  intros I. destruct (runs_amb_occ (own_now now) (own_hit (fun l x => (hit x, l))) (own_rnd two_of) (Datatypes.S nn) r _ I s (fun _ => eq_refl)) as (h & _ & O).
  destruct (ao r s) as [o s'] eqn:E. cbn [fst snd] in O.
  assert (NF : @nf (tape * B) _ (ao r)).
  { unfold amb_occ_Li. repeat first
    [ apply nf_ret | apply nf_solid | apply nf_start | apply nf_stop | apply nf_note | apply nf_next2
    | apply nf_bind; [|intros ?] | progress cbv zeta
    | match goal with |- nf (match ?x with _ => _ end) => destruct x end ]. }
  specialize (NF s). rewrite E in NF. cbn [fst] in NF.
  destruct o as [v|m| |]; try contradiction. exists v, s'. split; [reflexivity|]. split; [intros c Hc; rewrite (proj1 O); apply I, Hc|].
  clear O NF. unfold amb_occ_Li in E.
  assert (So : forall (a : tape) q i, fst ((fun l x => (hit x, l)) a q) = Some i -> i_null i = false) by (intros a q i; apply solid).
  Ltac quiet1 E := let x := fresh "x" in let s := fresh "s" in let E1 := fresh "E" in
    apply bind_inv in E as (x&s&E1&E); first [apply start_quiet in E1|apply stop_quiet in E1|apply note_quiet in E1]; rewrite <- E1; clear E1.
  quiet1 E. apply bind_inv in E as (a&z1&E1&E). pose proof (does_nonnull now (fun l x => (hit x, l)) nn So _ _ _ _ E1) as D. cbv beta in D. injection D as D1 D2. clear E1.
  unfold look. cbn [qrun]. rewrite D1, D2. destruct a as [i|].
  2: { quiet1 E. injection E as <- <-. reflexivity. }
  quiet1 E. quiet1 E. apply bind_inv in E as (u&z2&E1&E). apply does_next2 in E1. cbn [qrun]. rewrite E1. clear E1. quiet1 E.
  apply bind_inv in E as (b&z3&E1&E). pose proof (does_nonnull now (fun l x => (hit x, l)) nn So _ _ _ _ E1) as D. cbv beta in D. injection D as D3 D4. clear E1.
  rewrite D3, D4. destruct b as [j|]; quiet1 E; injection E as <- <-; reflexivity.
Qed.
Lemma look_mean get r : channel get -> expect hit (grid1 N) (grid2 N) (look r) (result get) = exposed r.
Proof.
  intros ch. unfold look, exposed. cbn [expect]. destruct (hit r) as [i|].
  - cbn [expect]. unfold grid2. apply (grid_ext N N_pos). intros x. apply (grid_ext N N_pos). intros y. unfold free, ao_ray, Epsilon.
    destruct (hit _); cbn [result]; destruct ch as [-> | [-> | ->]]; reflexivity.
  - cbn. destruct ch as [-> | [-> | ->]]; reflexivity.
Qed.

(** C207: the mean of a sample is the share of the directions that lead away *)
Theorem C207_mean get r b : channel get -> exists K, forall k clk log, (K <= k)%nat -> idle clk ->
  over_tapes N k (fun t => value get (ao r (St _ clk (t, b) log))) = exposed r.
Proof.
  intros ch. destruct (run_tapes N N_pos hit (look r)) as (K & H). exists K. intros k clk log Hk I.
  rewrite (over_ext N k _ (fun t => result get (fst (run (look r) t)))).
  2: { intros t. destruct (ao_run r (St _ clk (t, b) log) I) as (v & s' & E1 & _ & E2). cbn [s_w fst] in E2. rewrite E1, E2. reflexivity. }
  rewrite (H k (result get) Hk). apply look_mean, ch.
Qed.
(** the mean of the samples of a pixel is off the mean share over the pixel by at most 1/(2 sqrt samples) on average *)
Theorem C207_noise get camera samples_ b : channel get -> (0 < samples_)%nat ->
  let pixel := grid2 N (fun u => exposed (camera u)) in
  let shot := bindM (tape * B) (next2 (tape * B) (own_rnd two_of)) (fun u => ao (camera u)) in
  exists K, forall k clk log, (K <= k)%nat -> idle clk ->
    over_tapes N k (fun t => let m := mean (values get (shots samples_ shot (St _ clk (t, b) log))) in (m - pixel) * (m - pixel)) <= 1 / (4 * INR samples_).
Proof.
  intros ch S0 pixel shot. set (one := QRand2 (fun u => look (camera u))).
  destruct (run_tapes N N_pos hit (samples samples_ one)) as (K & H). exists K. intros k clk log Hk I.
  rewrite (over_ext N k _ (fun t => (fun l => (mean (map (result get) l) - pixel) * (mean (map (result get) l) - pixel)) (fst (run (samples samples_ one) t)))).
  2: { intros t. destruct (shots_samples (fun (l : tape) r => (hit r, l)) one_of two_of shot one (fun s => idle (s_clk _ s))) with (n := samples_) (s := St (tape * B) clk (t, b) log) as (l & l' & s' & E1 & _ & E2 & F); [|exact I|].
    { intros s Is. unfold shot, bindM, next2, own_rnd. unfold one. cbn [qrun]. destruct (two_of (fst (s_w _ s))) as [u t'].
      destruct (ao_run (camera u) (St _ (s_clk _ s) (t', snd (s_w _ s)) (s_log _ s)) Is) as (v & s' & P1 & P2 & P3). exists v, tt, s'. split; [exact P1|]. split; [exact P2|exact P3]. }
    cbn [s_w fst] in E2. rewrite E1, E2. cbn [values fst]. replace (map (result get) l') with (map get l); [reflexivity|].
    clear E1 E2. induction F as [|v o l l' (y & ->) F IH]; [reflexivity|]. cbn. rewrite IH. reflexivity. }
  rewrite (H k (fun l => (mean (map (result get) l) - pixel) * (mean (map (result get) l) - pixel)) Hk).
  pose proof (grid_averages N N_pos) as Av.
  assert (Mu : expect hit (grid1 N) (grid2 N) one (result get) = pixel).
  { unfold one, pixel. cbn [expect]. unfold grid2 at 1 3. apply (grid_ext N N_pos). intros x. apply (grid_ext N N_pos). intros y. apply look_mean, ch. }
  eapply Rle_trans; [apply (mean_square _ _ _ Av hit one (result get) 1 samples_ pixel S0)|].
  - intros o L. unfold one in L. inversion L as [| | |? u ? L' E1 E2]; subst. unfold look in L'. inversion L' as [|? ? ? L2 E1 E2| |]; subst. clear L L'.
    destruct (hit (camera u)) as [i|]; [|inversion L2; subst; cbn; destruct ch as [-> | [-> | ->]]; cbn; lra].
    inversion L2 as [| | |? v ? L3 E1 E2]; subst. inversion L3 as [|? ? ? L4 E1 E2| |]; subst. inversion L4; subst.
    destruct (hit (ao_ray i v)); cbn; destruct ch as [-> | [-> | ->]]; cbn; lra.
  - rewrite Mu. replace ((pixel - pixel) * (pixel - pixel)) with 0 by ring. rewrite Rmult_1_r, Rplus_0_r. lra.
Qed.
End Exposure.
Print Assumptions C207_mean.
Print Assumptions C207_noise.

(** the bottom of a crater whose rim covers the directions up to the height h above the ground: 1 - h^2 of the light comes in *)
Definition up_frame : frame := Fr (V3 1 0 0) (V3 0 1 0) (V3 0 0 1).
Definition bottom : isect := Isect (V3c 0) 1 (V3c (1 / 3)) up_frame up_frame 0 false.
Definition crater (h : R) (r : ray) : option isect := if Rlt_dec (vz (dir r)) h then Some bottom else None.
Example C207_case h N : 0 <= h <= 1 -> (0 < N)%nat ->
  (forall r i, crater h r = Some i -> i_null i = false) /\
  forall r, vz (dir r) < h -> 1 - h * h <= exposed (crater h) N r <= 1 - h * h + 1 / INR N.
Proof.
  intros Hh N0. split.
  - intros r i E. unfold crater in E. destruct (Rlt_dec _ _); [injection E as <-; reflexivity|discriminate].
  - intros r Hr. unfold exposed. replace (crater h r) with (Some bottom) by (unfold crater; destruct (Rlt_dec (vz (dir r)) h); [reflexivity|contradiction]).
    pose proof (grid_averages N N0) as Av. pose proof (av_even _ _ _ Av (1 - h * h) ltac:(nra)) as Ev. unfold grid2.
    assert (In : forall x y, 0 <= y < 1 -> free (crater h) bottom (toWorld (i_g bottom) (sqrToCosHemi (V2 x y))) = if Rgt_dec y (1 - h * h) then 0 else 1).
    { intros x y Hy. unfold free, crater. cbn [dir].
      assert (Z : vz (toWorld (i_g bottom) (sqrToCosHemi (V2 x y))) = sqrt (1 - y)).
      { unfold toWorld, sqrToCosHemi, sqrToUniDisk. cbn. match goal with |- ?a * 0 + ?b * 0 + ?c * 1 = _ => transitivity c; [ring|] end || idtac.
        pose proof (sqrt_sqrt y ltac:(lra)) as Sq. pose proof (sin2_cos2 (2 * PI * x)) as SC. unfold Rsqr in SC.
        set (s := sqrt y) in *. set (c := cos _) in *. set (d := sin _) in *.
        replace (1 - c * s * (c * s) - d * s * (d * s)) with (1 - y) by (replace (c * s * (c * s) + d * s * (d * s)) with (s * s * (d * d + c * c)) by ring; rewrite <- Sq; nra).
        rewrite Rmax_right by lra. try ring. }
      rewrite Z. pose proof (sqrt_sqrt (1 - y) ltac:(lra)) as Sq. pose proof (sqrt_pos (1 - y)).
      destruct (Rlt_dec (sqrt (1 - y)) h); destruct (Rgt_dec y (1 - h * h)); try reflexivity; exfalso; nra. }
    rewrite (grid_ext N N0 _ (fun _ => grid1 N (fun u => if Rgt_dec u (1 - h * h) then 0 else 1))).
    + rewrite grid1_same by exact N0. exact Ev.
    + intros x. apply (grid1_ext N). intros k Hk. apply In. pose proof (lt_0_INR N N0). pose proof (pos_INR k). apply lt_INR in Hk.
      split; [apply Rmult_le_pos; [lra|left; apply Rinv_0_lt_compat; lra]|]. apply Rmult_lt_reg_r with (INR N); [lra|]. unfold Rdiv. rewrite Rmult_assoc, Rinv_l; lra.
Qed.
