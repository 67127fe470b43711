(** The average camera sample of the volumetric path integrators. *)
From Coq Require Import Reals List Bool ZArith Lra Lia.
From Coquelicot Require Import Rbar.
From Verif.Base Require Import Outcome.
From Verif.Model Require Import Vec Frame BBox Integrators Scene VolPath.
From Verif.Spec Require Import IntegratorSpec BoundSpec VolPathSpec ExpectSpec.
From Verif.Proof Require Import VecLemmas IntegratorProof VolPathTheory.
Import ListNotations.
Open Scope R_scope.

Lemma hleaf_bind_intro {A B} hit (q : query A) (f : A -> query B) a b : hleaf hit q a -> hleaf hit (f a) b -> hleaf hit (qbind q f) b.
Proof. intros H K. induction H; cbn; [exact K| | |]; econstructor; eauto. Qed.
Lemma ends_bind {A B} hit (q : query A) (f : A -> query (outcome B)) a : ends hit (qbind q f) -> hleaf hit q a -> ends hit (f a).
Proof. intros H K o Ho. apply H. eapply hleaf_bind_intro; eassumption. Qed.

Section Averages.
Variable d : R.
Variable e1 : (R -> R) -> R.
Variable e2 : (vec2 -> R) -> R.
Hypothesis av : averages d e1 e2.
Lemma e1_ext f g : (forall u, f u = g u) -> e1 f = e1 g.
Proof. intros H. apply Rle_antisym; apply (av_mono1 _ _ _ av); intros u; rewrite H; lra. Qed.
Lemma e2_ext f g : (forall u, f u = g u) -> e2 f = e2 g.
Proof. intros H. apply Rle_antisym; apply (av_mono2 _ _ _ av); intros u; rewrite H; lra. Qed.
Lemma e2_affine x y f : e2 (fun u => x + y * f u) = x + y * e2 f.
Proof.
  rewrite (e2_ext _ (fun u => x * (fun _ => 1) u + y * f u)) by (intros; ring). rewrite (av_lin2 _ _ _ av), (av_one2 _ _ _ av). ring.
Qed.
Lemma e2_const c : e2 (fun _ => c) = c.
Proof. rewrite (e2_ext _ (fun u => c + 0 * (fun _ => 0) u)) by (intros; ring). rewrite e2_affine. ring. Qed.
(** the roulette *)
Definition stays (p : R) : R := e1 (fun u => if Rgt_dec u p then 0 else 1).
Lemma stays_range p : 0 <= p <= 1 -> p <= stays p <= p + d /\ stays p <= 1.
Proof.
  intros H. split; [apply (av_even _ _ _ av), H|]. rewrite <- (av_one1 _ _ _ av). apply (av_mono1 _ _ _ av). intros u. destruct (Rgt_dec u p); lra.
Qed.
Lemma roulette p a c : e1 (fun u => if Rgt_dec u p then a else c) = a + stays p * (c - a).
Proof.
  unfold stays. rewrite (e1_ext _ (fun u => a * (fun _ => 1) u + (c - a) * (fun u => if Rgt_dec u p then 0 else 1) u)) by (intros u; destruct (Rgt_dec u p); ring).
  rewrite (av_lin1 _ _ _ av), (av_one1 _ _ _ av). ring.
Qed.

Variable hit : ray -> option isect.
Notation expect := (expect hit e1 e2).
Lemma expect_le {A} (q : query A) f g : (forall a, hleaf hit q a -> f a <= g a) -> expect q f <= expect q g.
Proof.
  revert f g. induction q as [a|r k IH|k IH|k IH]; cbn; intros f g H.
  - apply H. constructor.
  - apply IH. intros a L. apply H. constructor. exact L.
  - apply (av_mono1 _ _ _ av). intros u. apply IH. intros a L. apply H. econstructor. exact L.
  - apply (av_mono2 _ _ _ av). intros u. apply IH. intros a L. apply H. econstructor. exact L.
Qed.
Lemma expect_eq {A} (q : query A) f g : (forall a, hleaf hit q a -> f a = g a) -> expect q f = expect q g.
Proof. intros H. apply Rle_antisym; apply expect_le; intros a L; rewrite (H a L); lra. Qed.
Lemma expect_bind {A B} (q : query A) (g : A -> query B) f : expect (qbind q g) f = expect q (fun a => expect (g a) f).
Proof. induction q as [a|r k IH|k IH|k IH]; cbn; [reflexivity|apply IH|apply e1_ext; auto|apply e2_ext; auto]. Qed.
Lemma expect_affine {A} (q : query A) f x y : expect q (fun a => x + y * f a) = x + y * expect q f.
Proof.
  induction q as [a|r k IH|k IH|k IH]; cbn; [reflexivity|apply IH| |].
  - rewrite (e1_ext _ (fun u => x * (fun _ => 1) u + y * expect (k u) f)) by (intros u; rewrite IH; ring). rewrite (av_lin1 _ _ _ av), (av_one1 _ _ _ av). ring.
  - rewrite (e2_ext _ (fun u => x + y * expect (k u) f)) by (intros u; apply IH). apply e2_affine.
Qed.
Lemma expect_const {A} (q : query A) c : expect q (fun _ => c) = c.
Proof. rewrite (expect_eq q _ (fun a => c + 0 * (fun _ => 0) a)) by (intros; ring). rewrite expect_affine. ring. Qed.
Lemma expect_between {A} (q : query A) f x y : (forall a, hleaf hit q a -> x <= f a <= y) -> x <= expect q f <= y.
Proof.
  intros H. split; [rewrite <- (expect_const q x)|rewrite <- (expect_const q y)]; apply expect_le; intros a L; apply H, L.
Qed.
(** f is within [-x, y] of a + b g *)
Lemma expect_near {A} (q : query A) f g a b x y : (forall c, hleaf hit q c -> a + b * g c - x <= f c <= a + b * g c + y) ->
  a + b * expect q g - x <= expect q f <= a + b * expect q g + y.
Proof.
  intros H. replace (a + b * expect q g - x) with ((a - x) + b * expect q g) by ring. replace (a + b * expect q g + y) with ((a + y) + b * expect q g) by ring.
  rewrite <- !expect_affine. split; apply expect_le; intros c L; destruct (H c L); lra.
Qed.
Lemma e2_near f g a b x y : (forall c, a + b * g c - x <= f c <= a + b * g c + y) -> a + b * e2 g - x <= e2 f <= a + b * e2 g + y.
Proof.
  intros H. replace (a + b * e2 g - x) with ((a - x) + b * e2 g) by ring. replace (a + b * e2 g + y) with ((a + y) + b * e2 g) by ring.
  rewrite <- !e2_affine. split; apply (av_mono2 _ _ _ av); intros c; destruct (H c); lra.
Qed.
Lemma e2_between f x y : (forall a, x <= f a <= y) -> x <= e2 f <= y.
Proof. intros H. split; [rewrite <- (e2_const x)|rewrite <- (e2_const y)]; apply (av_mono2 _ _ _ av); intros a; apply H. Qed.

Section Light.
Context {M : Type}.
Variable env : ray -> vec3.
Variable boundary : nat -> option (option M * option M).
Variable ms : M -> option bool -> ray -> R -> query (vec3 * R).
Variable ph : M -> vec3 -> vec2 -> vec3 * R.
Variable nee : bool -> bool -> isect -> option M -> query (list emitter_eval).
Variable ev : isect -> ray -> option M -> closure -> query closure.
Variable mat : isect -> vec3 -> vec3 -> vec3.
Variable sample : isect -> closure -> query closure.
Variable nonexp : bool.
Variable max_bounces : nat.
Variable L : R.
Variable P : closure -> Prop.
Hypothesis ge : gentle hit M env boundary ms ph nee ev mat sample nonexp L P.
Variable get : vec3 -> R.
Hypothesis ch : channel get.
Notation arrives := (arrives hit e1 e2 M env boundary ms ph nee ev mat sample nonexp max_bounces get).
Notation vol_loop := (vol_loop M env boundary ms ph nee ev mat sample nonexp max_bounces).

Lemma get_add a b : get (vadd a b) = get a + get b. Proof. destruct ch as [->|[->| ->]]; reflexivity. Qed.
Lemma get_mul a b : get (vmul a b) = get a * get b. Proof. destruct ch as [->|[->| ->]]; reflexivity. Qed.
Lemma get_scale a k : get (vscale a k) = get a * k. Proof. destruct ch as [->|[->| ->]]; reflexivity. Qed.
Lemma get_div a k : get (vdiv a k) = get a / k. Proof. destruct ch as [->|[->| ->]]; reflexivity. Qed.
Lemma get_c k : get (V3c k) = k. Proof. destruct ch as [->|[->| ->]]; reflexivity. Qed.
Lemma get_in b v : within b v -> 0 <= get v <= b. Proof. intros (X & Y & Z). destruct ch as [->|[->| ->]]; assumption. Qed.
Definition pos (v : vec3) : Prop := 0 <= vx v /\ 0 <= vy v /\ 0 <= vz v.
Lemma get_pos v : pos v -> 0 <= get v. Proof. intros (X & Y & Z). destruct ch as [->|[->| ->]]; assumption. Qed.
Lemma get_max v : get v <= maxValue v.
Proof. rewrite maxValue_Rmax. pose proof (Rmax_l (vx v) (Rmax (vy v) (vz v))). pose proof (Rmax_r (vx v) (Rmax (vy v) (vz v))).
  pose proof (Rmax_l (vy v) (vz v)). pose proof (Rmax_r (vy v) (vz v)). destruct ch as [->|[->| ->]]; lra. Qed.
Lemma rr_range v : pos v -> 0 <= rr_prob v <= 1 /\ (rr_prob v < 1 -> get v <= rr_prob v).
Proof.
  intros H. pose proof (get_max v). pose proof (get_pos v H). unfold rr_prob. pose proof (Rmin_r (maxValue v) 1). split; [split; [apply Rmin_glb; lra|lra]|].
  intros K. unfold Rmin in *. destruct (Rle_dec (maxValue v) 1); lra.
Qed.
Lemma nL n : 0 <= INR n * L. Proof. apply Rmult_le_pos; [apply pos_INR|apply (ge_light _ _ _ _ _ _ _ _ _ _ _ _ _ ge)]. Qed.
Lemma SnL n : INR (S n) * L = INR n * L + L. Proof. rewrite S_INR. ring. Qed.

(** the light that arrives is at most n L *)
Lemma arrives_range fuel : forall n r c md surf, P c -> 0 <= arrives fuel n r c md surf <= INR n * L.
Proof.
  induction fuel as [|fuel IH]; intros n r c md surf Pc; cbn [ExpectSpec.arrives]; [pose proof (nL n); lra|].
  destruct n as [|n]; [pose proof (nL 0); lra|]. rewrite SnL. pose proof (nL n) as NL.
  destruct (hit r) as [i|] eqn:Hi; [|pose proof (get_in _ _ (ge_sky _ _ _ _ _ _ _ _ _ _ _ _ _ ge r)); lra].
  cbv zeta. match goal with |- context [match md with None => ?x | _ => _ end] => set (behind := x) end.
  assert (B : 0 <= behind <= INR n * L + L).
  { unfold behind. destruct (i_null i).
    - rewrite <- SnL. apply IH. apply (ge_cross _ _ _ _ _ _ _ _ _ _ _ _ _ ge), Pc.
    - apply expect_between. intros c1 L1. destruct (ge_vertex _ _ _ _ _ _ _ _ _ _ _ _ _ ge r i md c c1 Hi Pc L1) as (W & K). apply get_in in W.
      assert (0 <= expect (sample i (set_wi (accumulate_shadow_rays (mat i) c1) (isect_toLocal i (vneg (dir r))))) (fun c3 =>
        if Req_EM_T (c_pdf c3) 0 then 0 else get (vscale (c_albedo c3) (cos_term i c3 / c_pdf c3)) * arrives fuel n (next_ray i c3) c3 md true) <= INR n * L).
      { apply expect_between. intros c3 L3. destruct (K c3 L3) as (_ & _ & P3 & F). destruct (Req_EM_T (c_pdf c3) 0) as [E|E]; [lra|].
        pose proof (get_in _ _ (F E)). pose proof (IH n (next_ray i c3) c3 md true P3). split; [apply Rmult_le_pos; lra|].
        apply Rle_trans with (1 * arrives fuel n (next_ray i c3) c3 md true); [apply Rmult_le_compat_r; lra|lra]. }
      lra. }
  destruct md as [m|]; [|exact B]. apply expect_between. intros wt Lw. pose proof (get_in _ _ (ge_medium _ _ _ _ _ _ _ _ _ _ _ _ _ ge _ _ _ _ _ Lw)) as W.
  assert (G : forall x, 0 <= x <= INR n * L + L -> 0 <= get (fst wt) * x <= INR n * L + L).
  { intros x X. split; [apply Rmult_le_pos; lra|]. apply Rle_trans with (1 * x); [apply Rmult_le_compat_r; lra|lra]. }
  apply G. destruct (Rlt_dec (snd wt) (i_t i)) as [Ins|]; [|exact B]. apply expect_between. intros l Ll. apply e2_between. intros s.
  destruct (ge_scatter _ _ _ _ _ _ _ _ _ _ _ _ _ ge surf i m _ r c wt l s (V3c 0) Pc Hi Lw Ins Ll) as (Wn & Ps). destruct (ph m (vneg (dir r)) s) as [wi phase]. cbn [snd] in Wn. apply get_in in Wn.
  match goal with |- context [arrives fuel n ?a ?b ?c ?e] => pose proof (IH n a b c e Ps) end. lra.
Qed.

(** what was carried over from the direct light is not looked at *)
Definition alike (c c' : closure) : Prop := forall wi, reset_closure c wi = reset_closure c' wi.
Lemma arrives_alike fuel : forall n r c c' md surf, alike c c' -> arrives fuel n r c md surf = arrives fuel n r c' md surf.
Proof.
  induction fuel as [|fuel IH]; intros n r c c' md surf A; cbn [ExpectSpec.arrives]; [reflexivity|].
  destruct n as [|n]; [reflexivity|]. destruct (hit r) as [i|]; [|reflexivity]. cbv zeta.
  assert (Al : c_all c = c_all c') by exact (f_equal c_all (A (V3c 0))).
  match goal with |- match md with None => ?x | _ => _ end = match md with None => ?y | _ => _ end => set (b := x); set (b' := y) end.
  assert (B : b = b').
  { unfold b, b'. destruct (i_null i); [|rewrite A; reflexivity]. apply IH. intros wi. unfold boundary_closure. destruct (boundary (i_mesh i)); [|apply A].
    exact (A wi). }
  destruct md as [m|]; [|exact B]. apply expect_eq. intros wt _. f_equal. destruct (Rlt_dec _ _); [|exact B].
  rewrite Al. apply expect_eq. intros l _. apply e2_ext. intros s. destruct (ph m (vneg (dir r)) s) as [wi phase]. f_equal. apply IH.
  intros w. pose proof (A w) as Q. unfold reset_closure, scatter_closure in *. cbn. injection Q as Q1 Q2 Q3 Q4 Q5 Q6 Q7 Q8. now rewrite Q1, Q3, Q4, Q5, Q7, Q8.
Qed.
Lemma media_nee_scaled beta phase l : forall n, get (media_nee beta phase l (vmul beta n)) = get beta * get (media_nee (V3c 1) phase l n).
Proof.
  induction l as [|e l IH]; intros n; cbn [media_nee]; [apply get_mul|]. rewrite <- IH. f_equal. f_equal.
  destruct (e_valid e); [|reflexivity]. apply vec3_eq; cbn; ring.
Qed.
Lemma media_nee_at beta phase l : get (media_nee beta phase l (V3c 0)) = get beta * get (media_nee (V3c 1) phase l (V3c 0)).
Proof. rewrite <- media_nee_scaled. f_equal. f_equal. apply vec3_eq; cbn; ring. Qed.

(** ** the estimate *)
Definition val (o : outcome (vec3 * list (vevent M))) : R := match o with Ok (v, _) => get v | _ => 0 end.
Definition tau : R := 1 / 10000.
Hypothesis d_pos : 0 <= d.
Definition near (n : nat) (Li beta : vec3) (x e : R) : Prop :=
  get Li + get beta * x - tau * (INR n * L) <= e <= get Li + get beta * x + d * L * (INR n * INR n).
Definition sound (fuel : nat) (next : continuation M) : Prop := forall n Li beta r c md surf h, P c -> pos beta ->
  ends hit (next n Li beta r c md surf h) -> near n Li beta (arrives fuel n r c md surf) (expect (next n Li beta r c md surf h) val).
Lemma L_pos : 0 <= L. Proof. apply (ge_light _ _ _ _ _ _ _ _ _ _ _ _ _ ge). Qed.
Lemma slack n : 0 <= tau * (INR n * L) <= tau * (INR (S n) * L) /\ 0 <= d * L * (INR n * INR n) /\
  d * (INR n * L) + d * L * (INR n * INR n) <= d * L * (INR (S n) * INR (S n)).
Proof.
  pose proof (nL n). pose proof L_pos. pose proof (pos_INR n). rewrite SnL. unfold tau. assert (0 <= d * L) by (apply Rmult_le_pos; assumption).
  split; [split; lra|]. split; [apply Rmult_le_pos; [assumption|apply Rmult_le_pos; assumption]|]. rewrite S_INR.
  replace (d * L * ((INR n + 1) * (INR n + 1))) with (d * L * (INR n * INR n) + 2 * (d * L * INR n) + d * L) by ring.
  assert (0 <= d * L * INR n) by (apply Rmult_le_pos; assumption). lra.
Qed.
(** roulette: the path that goes on carries b/p, the average is near a + b X *)
Lemma survived n beta a X C : pos beta -> 0 <= X <= INR n * L ->
  a + get beta / rr_prob beta * X - tau * (INR n * L) <= C <= a + get beta / rr_prob beta * X + d * L * (INR n * INR n) ->
  a + get beta * X - tau * (INR (S n) * L) <= a + stays (rr_prob beta) * (C - a) <= a + get beta * X + d * L * (INR (S n) * INR (S n)).
Proof.
  intros Pb HX HC. destruct (rr_range beta Pb) as (R0 & R1). pose proof (get_pos beta Pb) as B0. destruct (stays_range _ R0) as ((S1 & S2) & S3).
  destruct (slack n) as ((T1 & T2) & T3 & T4). set (p := rr_prob beta) in *. set (b := get beta) in *. set (q := stays p) in *. set (t := tau * (INR n * L)) in *. set (u := d * L * (INR n * INR n)) in *.
  assert (K : b * X <= q * (b / p * X) <= b * X + d * (INR n * L)).
  { destruct (Req_dec p 0) as [Z|Z].
    - assert (b = 0) by (assert (b <= p) by (apply R1; lra); lra). rewrite H. unfold Rdiv. rewrite !Rmult_0_l, Rmult_0_r. split; [lra|].
      rewrite Rplus_0_l. apply Rmult_le_pos; [exact d_pos|apply nL].
    - assert (0 < p) by lra. assert (E : q * (b / p * X) = (q / p) * (b * X)) by (field; lra).
      assert (1 <= q / p). { apply Rmult_le_reg_r with p; [lra|]. unfold Rdiv. rewrite Rmult_assoc, Rinv_l by lra. lra. }
      assert (0 <= b * X) by (apply Rmult_le_pos; lra). split.
      + rewrite E. rewrite <- (Rmult_1_l (b * X)) at 1. apply Rmult_le_compat_r; assumption.
      + destruct (Req_dec p 1) as [O|O].
        * replace p with 1 by lra. replace (q * (b / 1 * X)) with (q * (b * X)) by (field). pose proof (nL n). assert (q * (b * X) <= 1 * (b * X)) by (apply Rmult_le_compat_r; lra).
          assert (0 <= d * (INR n * L)) by (apply Rmult_le_pos; assumption). lra.
        * assert (b <= p) by (apply R1; lra). assert (b / p <= 1). { apply Rmult_le_reg_r with p; [lra|]. unfold Rdiv. rewrite Rmult_assoc, Rinv_l by lra. lra. }
          assert (0 <= b / p) by (apply Rmult_le_pos; [lra|left; apply Rinv_0_lt_compat; lra]).
          assert (q * (b / p * X) <= (p + d) * (b / p * X)) by (apply Rmult_le_compat_r; [apply Rmult_le_pos; lra|lra]).
          assert ((p + d) * (b / p * X) = b * X + d * (b / p * X)) by (field; lra).
          assert (b / p * X <= 1 * (INR n * L)) by (apply Rmult_le_compat; lra).
          assert (d * (b / p * X) <= d * (INR n * L)) by (apply Rmult_le_compat_l; lra). lra. }
  destruct HC as (C1 & C2). split.
  - assert (q * (b / p * X - t) <= q * (C - a)) by (apply Rmult_le_compat_l; lra). assert (q * t <= 1 * t) by (apply Rmult_le_compat_r; lra). lra.
  - assert (q * (C - a) <= q * (b / p * X + u)) by (apply Rmult_le_compat_l; lra). assert (q * u <= 1 * u) by (apply Rmult_le_compat_r; lra). lra.
Qed.

Lemma near_more n Li beta x e : near n Li beta x e -> near (S n) Li beta x e.
Proof. unfold near. destruct (slack n) as ((T1 & T2) & T3 & T4). pose proof (nL n). assert (0 <= d * (INR n * L)) by (apply Rmult_le_pos; assumption). lra. Qed.

Lemma surface_sound fuel next n Li beta r c md i h : sound fuel next -> P c -> pos beta -> hit r = Some i ->
  ends hit (at_surface M ev mat sample next n Li beta r c md i h) ->
  near (S n) Li beta
    (expect (ev i r md (reset_closure c (isect_toLocal i (vneg (dir r))))) (fun c1 =>
       let c2 := accumulate_shadow_rays (mat i) c1 in
       get (vadd (c_emission c2) (c_nee c2)) +
       expect (sample i (set_wi c2 (isect_toLocal i (vneg (dir r))))) (fun c3 =>
         if Req_EM_T (c_pdf c3) 0 then 0
         else get (vscale (c_albedo c3) (cos_term i c3 / c_pdf c3)) * arrives fuel n (next_ray i c3) c3 md true)))
    (expect (at_surface M ev mat sample next n Li beta r c md i h) val).
Proof.
  intros So Pc Pb Hi En. unfold at_surface in *. rewrite expect_bind. unfold near.
  apply (expect_near _ _ _ (get Li) (get beta) (tau * (INR (S n) * L)) (d * L * (INR (S n) * INR (S n)))). intros c1 L1.
  pose proof (ends_bind _ _ _ _ En L1) as En1. clear En. cbv beta zeta in En1 |- *.
  destruct (ge_vertex _ _ _ _ _ _ _ _ _ _ _ _ _ ge r i md c c1 Hi Pc L1) as (W & K). cbv zeta in W, K.
  set (c2 := accumulate_shadow_rays (mat i) c1) in *. set (s := sample i (set_wi c2 (isect_toLocal i (vneg (dir r))))) in *.
  set (g := fun c3 => if Req_EM_T (c_pdf c3) 0 then 0 else get (vscale (c_albedo c3) (cos_term i c3 / c_pdf c3)) * arrives fuel n (next_ray i c3) c3 md true).
  set (a := get Li + get beta * get (vadd (c_emission c2) (c_nee c2))).
  cbn [ExpectSpec.expect]. rewrite (e1_ext _ (fun u => if Rgt_dec u (rr_prob beta) then a else expect s (fun c3 =>
      expect (if Req_EM_T (c_pdf c3) 0 then QRet (Ok (vadd Li (vmul beta (vadd (c_emission c3) (c_nee c3))), h ++ [VShade r i c2; VRoulette u; VSample i c3]))
              else next n (vadd Li (vmul beta (vadd (c_nee c3) (c_emission c3)))) (vmul beta (vdiv (vscale (c_albedo c3) (cos_term i c3)) (c_pdf c3 * rr_prob beta)))
                     (next_ray i c3) c3 md true (h ++ [VShade r i c2; VRoulette u; VSample i c3])) val))).
  2:{ intros u. destruct (Rgt_dec u (rr_prob beta)); [|apply expect_bind]. cbn [ExpectSpec.expect val]. unfold a. now rewrite get_add, get_mul. }
  (* the events noted down do not matter *)
  assert (X : 0 <= expect s g <= INR n * L).
  { apply expect_between. intros c3 L3. destruct (K c3 L3) as (_ & _ & P3 & F). unfold g. pose proof (nL n). destruct (Req_EM_T (c_pdf c3) 0) as [E|E]; [lra|].
    pose proof (get_in _ _ (F E)). pose proof (arrives_range fuel n (next_ray i c3) c3 md true P3). split; [apply Rmult_le_pos; lra|].
    apply Rle_trans with (1 * arrives fuel n (next_ray i c3) c3 md true); [apply Rmult_le_compat_r; lra|lra]. }
  assert (G : forall u, ~ u > rr_prob beta -> a + get beta / rr_prob beta * expect s g - tau * (INR n * L) <= expect s (fun c3 =>
      expect (if Req_EM_T (c_pdf c3) 0 then QRet (Ok (vadd Li (vmul beta (vadd (c_emission c3) (c_nee c3))), h ++ [VShade r i c2; VRoulette u; VSample i c3]))
              else next n (vadd Li (vmul beta (vadd (c_nee c3) (c_emission c3)))) (vmul beta (vdiv (vscale (c_albedo c3) (cos_term i c3)) (c_pdf c3 * rr_prob beta)))
                     (next_ray i c3) c3 md true (h ++ [VShade r i c2; VRoulette u; VSample i c3])) val) <= a + get beta / rr_prob beta * expect s g + d * L * (INR n * INR n)).
  { intros u Hu. apply expect_near. intros c3 L3. destruct (K c3 L3) as (E1 & E2 & P3 & F). destruct (slack n) as ((T1 & T2) & T3 & _). unfold g.
    assert (En3 : ends hit (if Req_EM_T (c_pdf c3) 0 then QRet (Ok (vadd Li (vmul beta (vadd (c_emission c3) (c_nee c3))), h ++ [VShade r i c2; VRoulette u; VSample i c3]))
              else next n (vadd Li (vmul beta (vadd (c_nee c3) (c_emission c3)))) (vmul beta (vdiv (vscale (c_albedo c3) (cos_term i c3)) (c_pdf c3 * rr_prob beta)))
                     (next_ray i c3) c3 md true (h ++ [VShade r i c2; VRoulette u; VSample i c3]))).
    { intros o Ho. apply En1. apply hleaf_rand1 with u. destruct (Rgt_dec u (rr_prob beta)); [contradiction|]. eapply hleaf_bind_intro; [exact L3|exact Ho]. }
    destruct (Req_EM_T (c_pdf c3) 0) as [E|E].
    - cbn [ExpectSpec.expect val]. rewrite get_add, get_mul, E1, E2. fold a. lra.
    - specialize (F E). destruct (rr_range beta Pb) as (R0 & _).
      assert (Hb : forall f, channel f -> 0 <= f beta -> 0 <= f (vscale (c_albedo c3) (cos_term i c3 / c_pdf c3)) ->
         0 <= f (vmul beta (vdiv (vscale (c_albedo c3) (cos_term i c3)) (c_pdf c3 * rr_prob beta))) /\
         f (vmul beta (vdiv (vscale (c_albedo c3) (cos_term i c3)) (c_pdf c3 * rr_prob beta))) = f beta / rr_prob beta * f (vscale (c_albedo c3) (cos_term i c3 / c_pdf c3))).
      { intros f Cf B0 W0.
        assert (Q : f (vmul beta (vdiv (vscale (c_albedo c3) (cos_term i c3)) (c_pdf c3 * rr_prob beta))) = f beta / rr_prob beta * f (vscale (c_albedo c3) (cos_term i c3 / c_pdf c3))).
        { destruct Cf as [->|[->| ->]]; cbn; unfold Rdiv; rewrite Rinv_mult; ring. }
        split; [|exact Q]. rewrite Q. apply Rmult_le_pos; [|exact W0]. destruct (Req_dec (rr_prob beta) 0) as [Z|Z]; [rewrite Z; unfold Rdiv; rewrite Rinv_0; lra|].
        apply Rmult_le_pos; [exact B0|left; apply Rinv_0_lt_compat; lra]. }
      assert (Pb' : pos (vmul beta (vdiv (vscale (c_albedo c3) (cos_term i c3)) (c_pdf c3 * rr_prob beta)))).
      { destruct Pb as (B1 & B2 & B3), F as (F1 & F2 & F3). unfold channel in Hb. repeat split; apply Hb; tauto. }
      pose proof (So n _ _ (next_ray i c3) c3 md true _ P3 Pb' En3) as Nr. unfold near in Nr.
      rewrite (proj2 (Hb get ch (get_pos _ Pb) (proj1 (get_in _ _ F)))) in Nr.
      replace (get (vadd Li (vmul beta (vadd (c_nee c3) (c_emission c3))))) with a in Nr by (unfold a; rewrite !get_add, get_mul, !get_add, E1, E2; ring).
      rewrite <- Rmult_assoc. exact Nr. }
  replace (get Li + get beta * (get (vadd (c_emission c2) (c_nee c2)) + expect s g)) with (a + get beta * expect s g) by (unfold a; ring).
  destruct (stays_range _ (proj1 (rr_range beta Pb))) as (_ & S3).
  split.
  - eapply Rle_trans; [apply (survived n beta a (expect s g) (a + get beta / rr_prob beta * expect s g - tau * (INR n * L)) Pb X)|].
    + destruct (slack n) as ((T1 & _) & T3 & _). lra.
    + rewrite <- roulette. apply (av_mono1 _ _ _ av). intros u. destruct (Rgt_dec u (rr_prob beta)) as [g0|g0]; [lra|apply G, g0].
  - eapply Rle_trans; [|apply (survived n beta a (expect s g) (a + get beta / rr_prob beta * expect s g + d * L * (INR n * INR n)) Pb X)].
    + rewrite <- roulette. apply (av_mono1 _ _ _ av). intros u. destruct (Rgt_dec u (rr_prob beta)) as [g0|g0]; [lra|apply G, g0].
    + destruct (slack n) as ((T1 & _) & T3 & _). lra.
Qed.
Definition scattered fuel n r (c : closure) (m : M) surf (i : isect) (t : R) : R :=
  expect (nee (c_all c) surf (set_p i (ray_at r t)) (Some m)) (fun l =>
    e2 (fun s =>
      let (wi, phase) := ph m (vneg (dir r)) s in
      get (media_nee (V3c 1) phase l (V3c 0)) +
      arrives fuel n (Ray (ray_at r t) (normalized wi) (Finite Epsilon) p_infty) (scatter_closure c (vneg (dir r)) l (V3c 0)) (Some m) (negb nonexp))).
Lemma scatter_sound fuel next n Li beta r c m f f' surf i w t h : sound fuel next -> P c -> pos beta -> hit r = Some i -> hleaf hit (ms m f' r (i_t i)) (w, t) -> t < i_t i ->
  ends hit (scatter M ph nee nonexp next n Li beta r c m f surf i w t h) ->
  near (S n) Li beta (scattered fuel n r c m surf i t) (expect (scatter M ph nee nonexp next n Li beta r c m f surf i w t h) val).
Proof.
  intros So Pc Pb Hi Lw Ins En. unfold scatter, scattered in *. rewrite expect_bind. unfold near.
  apply expect_near. intros l Ll. pose proof (ends_bind _ _ _ _ En Ll) as En1. clear En. cbv beta in En1. cbn [ExpectSpec.expect].
  apply e2_near. intros s. assert (En2 := fun o H => En1 o (hleaf_rand2 _ _ s _ H)). clear En1. cbv beta in En2.
  destruct (ge_scatter _ _ _ _ _ _ _ _ _ _ _ _ _ ge surf i m f' r c (w, t) l s (media_nee beta (snd (ph m (vneg (dir r)) s)) l (V3c 0)) Pc Hi Lw Ins Ll) as (Wn & Ps).
  destruct (ph m (vneg (dir r)) s) as [wi phase]. cbn [snd] in Wn, Ps. cbn [ExpectSpec.expect]. cbv zeta in *.
  set (r' := Ray (ray_at r t) (normalized wi) (Finite Epsilon) p_infty) in *.
  set (c' := scatter_closure c (vneg (dir r)) l (media_nee beta phase l (V3c 0))) in *.
  rewrite (arrives_alike fuel n r' (scatter_closure c (vneg (dir r)) l (V3c 0)) c') by (intros q; reflexivity).
  set (X := arrives fuel n r' c' (Some m) (negb nonexp)). pose proof (arrives_range fuel n r' c' (Some m) (negb nonexp) Ps) as HX. fold X in HX.
  set (a := get Li + get beta * get (media_nee (V3c 1) phase l (V3c 0))).
  assert (Ea : get (vadd Li (media_nee beta phase l (V3c 0))) = a) by (unfold a; rewrite get_add, media_nee_at; reflexivity).
  replace (get Li + get beta * (get (media_nee (V3c 1) phase l (V3c 0)) + X)) with (a + get beta * X) by (unfold a; ring).
  destruct (rr_range beta Pb) as (R0 & _).
  assert (G : forall u, ~ u > rr_prob beta -> a + get beta / rr_prob beta * X - tau * (INR n * L) <=
     expect (next n (vadd Li (media_nee beta phase l (V3c 0))) (vdiv beta (rr_prob beta)) r' c' (Some m) (negb nonexp) (h ++ [VScatter m f r i t w surf l wi phase u])) val
     <= a + get beta / rr_prob beta * X + d * L * (INR n * INR n)).
  { intros u Hu.
    assert (Pb' : pos (vdiv beta (rr_prob beta))).
    { assert (Z : forall x, 0 <= x -> 0 <= x / rr_prob beta).
      { intros x Hx. destruct (Req_dec (rr_prob beta) 0) as [Z|Z]; [rewrite Z; unfold Rdiv; rewrite Rinv_0; lra|]. apply Rmult_le_pos; [exact Hx|left; apply Rinv_0_lt_compat; lra]. }
      destruct Pb as (B1 & B2 & B3). repeat split; apply Z; assumption. }
    assert (En3 : ends hit (next n (vadd Li (media_nee beta phase l (V3c 0))) (vdiv beta (rr_prob beta)) r' c' (Some m) (negb nonexp) (h ++ [VScatter m f r i t w surf l wi phase u]))).
    { intros o Ho. apply En2. apply hleaf_rand1 with u. destruct (Rgt_dec u (rr_prob beta)); [contradiction|exact Ho]. }
    pose proof (So n _ _ r' c' (Some m) (negb nonexp) _ Ps Pb' En3) as Nr. unfold near in Nr. rewrite Ea, get_div in Nr. exact Nr. }
  rewrite (e1_ext _ (fun u => if Rgt_dec u (rr_prob beta) then a else
     expect (next n (vadd Li (media_nee beta phase l (V3c 0))) (vdiv beta (rr_prob beta)) r' c' (Some m) (negb nonexp) (h ++ [VScatter m f r i t w surf l wi phase u])) val)).
  2:{ intros u. destruct (Rgt_dec u (rr_prob beta)); [exact Ea|reflexivity]. }
  destruct (slack n) as ((T1 & _) & T3 & _).
  split.
  - eapply Rle_trans; [apply (survived n beta a X (a + get beta / rr_prob beta * X - tau * (INR n * L)) Pb HX); lra|].
    rewrite <- roulette. apply (av_mono1 _ _ _ av). intros u. destruct (Rgt_dec u (rr_prob beta)) as [g0|g0]; [lra|apply G, g0].
  - eapply Rle_trans; [|apply (survived n beta a X (a + get beta / rr_prob beta * X + d * L * (INR n * INR n)) Pb HX); lra].
    rewrite <- roulette. apply (av_mono1 _ _ _ av). intros u. destruct (Rgt_dec u (rr_prob beta)) as [g0|g0]; [lra|apply G, g0].
Qed.

Lemma vol_sound fuel : sound fuel (vol_loop fuel).
Proof.
  induction fuel as [|fuel IH]; intros n Li beta r c md surf h Pc Pb En; cbn [VolPath.vol_loop ExpectSpec.arrives] in *.
  { destruct (En OutOfFuel) as (x & X); [constructor|discriminate]. }
  destruct n as [|n].
  { cbn [ExpectSpec.expect val]. unfold near. cbn. lra. }
  destruct (slack (S n)) as ((T1 & _) & T3 & _). pose proof (nL (S n)) as NL.
  destruct (isZero_dec beta) as [Z|Z].
  { cbn [ExpectSpec.expect val]. unfold near.
    pose proof (arrives_range (S fuel) (S n) r c md surf Pc) as HX. cbn [ExpectSpec.arrives] in HX. cbv zeta in *.
    match goal with |- context [get beta * ?x] => set (X := x) in * end.
    assert (0 <= get beta <= tau).
    { split; [apply get_pos, Pb|]. unfold tau. destruct Z as (Z1 & Z2 & Z3). destruct Pb as (B1 & B2 & B3). rewrite Rabs_pos_eq in Z1, Z2, Z3 by assumption.
      destruct ch as [->|[->| ->]]; lra. }
    assert (0 <= get beta * X) by (apply Rmult_le_pos; lra). assert (get beta * X <= tau * (INR (S n) * L)) by (apply Rmult_le_compat; lra). lra. }
  cbn [ExpectSpec.expect]. assert (En' := fun o H => En o (hleaf_hit _ _ _ _ H)). clear En.
  destruct (hit r) as [i|] eqn:Hi.
  2:{ cbn [ExpectSpec.expect val]. unfold near. rewrite get_add, get_mul. lra. }
  cbv zeta. match goal with |- near _ _ _ (match md with None => ?x | _ => _ end) _ => set (behind := x) end.
  assert (B : forall beta h, pos beta -> ends hit (arrive M boundary ev mat sample nonexp max_bounces (vol_loop fuel) n Li beta r c md surf i h) ->
    near (S n) Li beta behind (expect (arrive M boundary ev mat sample nonexp max_bounces (vol_loop fuel) n Li beta r c md surf i h) val)).
  { clear En' Pb Z. intros b k Pb En. unfold arrive, behind in *. destruct (i_null i).
    - apply IH; [apply (ge_cross _ _ _ _ _ _ _ _ _ _ _ _ _ ge), Pc|exact Pb|exact En].
    - apply surface_sound; assumption. }
  destruct md as [m|]; [|exact (B beta h Pb En')].
  unfold traverse in *. rewrite expect_bind. unfold near. apply expect_near. intros wt Lw. pose proof (ends_bind _ _ _ _ En' Lw) as En1. cbv beta in En1 |- *.
  pose proof (ge_medium _ _ _ _ _ _ _ _ _ _ _ _ _ ge _ _ _ _ _ Lw) as W.
  assert (Pb' : pos (vmul beta (fst wt))). { destruct Pb as (B1 & B2 & B3), W as (W1 & W2 & W3). repeat split; cbn; apply Rmult_le_pos; tauto. }
  rewrite <- Rmult_assoc, <- get_mul. destruct (Rlt_dec (snd wt) (i_t i)).
  - destruct wt as [w t]. eapply (scatter_sound fuel (vol_loop fuel)); eassumption.
  - apply B; assumption.
Qed.
End Light.
End Averages.
