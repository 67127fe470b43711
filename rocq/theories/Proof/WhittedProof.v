(** Whitted's integrator as a program, and its average. *)
From Coq Require Import Reals List Bool Lra Lia.
From Coquelicot Require Import Rbar.
From Verif.Base Require Import Outcome.
From Verif.Model Require Import Vec Frame BBox Clocker Integrators Scene VolPath.
From Verif.Spec Require Import IntegratorSpec BoundSpec VolPathSpec ExpectSpec BounceSpec WhittedSpec.
From Verif.Proof Require Import VecLemmas IntegratorProof VolPathTheory ExpectProof BounceProof.
From Verif.Proof Require NoiseProof.
Import ListNotations.
Open Scope R_scope.

Section Program.
Variable env : ray -> vec3.
Variable ev : isect -> ray -> closure -> query closure.
Variable mat : isect -> vec3 -> vec3 -> vec3.
Variable sample : isect -> closure -> query closure.
(** what is left of whitted.cpp:31-128 without clocks, log and null surfaces *)
Fixpoint mirrors (fuel : nat) (r : ray) : query (outcome vec3) :=
  match fuel with
  | O => QRet OutOfFuel
  | S fuel =>
    QHit r (fun a =>
      match a with
      | None => QRet (Ok (env r))
      | Some its =>
          qbind (ev its r (closure_init false true (isect_toLocal its (vneg (dir r))))) (fun c1 =>
            let cl := accumulate_shadow_rays (mat its) c1 in
            if c_spec cl then
              qbind (sample its (set_wi cl (isect_toLocal its (vneg (dir r))))) (fun c3 =>
                QRand1 (fun u =>
                  if Rgt_dec u rr_cont then QRet (Ok (V3c 0))
                  else
                    let beta := vscale (c_albedo c3) (1 / rr_cont) in
                    if isZero_dec beta then QRet (Ok (vadd (c_nee c3) (c_emission c3)))
                    else obind (mirrors fuel (next_ray its c3)) (fun v => QRet (Ok (vadd (vadd (vmul beta v) (c_nee c3)) (c_emission c3))))))
            else QRet (Ok (vadd (vadd (c_emission cl) (c_nee cl)) (c_emission cl))))
      end)
  end.

Context {A B : Type}.
Variable now : B -> R * B.
Variable hit : A -> ray -> option isect * A.
Variable rnd1 : A -> R * A.
Variable rnd2 : A -> vec2 * A.
Variable nn : nat.
Hypothesis solid_only : forall a r i, fst (hit a r) = Some i -> i_null i = false.
Notation W := (A * B)%type.
Notation now' := (own_now now).
Notation hit' := (own_hit hit).
Notation rnd1' := (own_rnd rnd1).
Notation rnd2' := (own_rnd rnd2).
Notation whitted := (whitted_Li W now' hit' rnd1' rnd2' env ev mat sample (S nn)).
Notation run q a := (qrun hit rnd1 rnd2 q a).

Lemma run_bind {X Y} (q : query X) (f : X -> query Y) : forall w, run (qbind q f) w = let (a, w) := run q w in run (f a) w.
Proof.
  induction q as [a|r q IH|q IH|q IH]; intros w; cbn; [reflexivity| | |].
  - destruct (hit w r) as [x w']. apply IH.
  - destruct (rnd1 w) as [x w']. apply IH.
  - destruct (rnd2 w) as [x w']. apply IH.
Qed.
Lemma bind_ended {X Y} (m : Integrators.M W X) (k : X -> Integrators.M W Y) s s'' : nf m -> bindM W m k s = (OutOfFuel, s'') -> exists x s', m s = (Ok x, s') /\ k x s' = (OutOfFuel, s'').
Proof. unfold bindM. intros N. specialize (N s). destruct (m s) as [[x|e| |] s'] eqn:Em; intros E; try discriminate; [eauto|]. now destruct N. Qed.
Definition done (o : outcome vec3) : Prop := match o with Ok _ | OutOfFuel => True | _ => False end.
Lemma bind_done {X} (m : Integrators.M W X) (k : X -> Integrators.M W vec3) s o s'' : nf m -> done o -> bindM W m k s = (o, s'') -> exists x s', m s = (Ok x, s') /\ k x s' = (o, s'').
Proof. intros N D E. destruct o; try contradiction; [eapply bind_inv, E|eapply bind_ended; eassumption]. Qed.
Lemma solid_own (w : W) r i : fst (hit' w r) = Some i -> i_null i = false.
Proof. destruct w as [a b]. unfold own_hit. cbn [fst snd]. pose proof (solid_only a r i) as H. destruct (hit a r) as [x a']. exact H. Qed.

Ltac step E := let x := fresh "x" in let s := fresh "s" in let E1 := fresh "E" in
  apply bind_done in E as (x&s&E1&E); [|first [apply nf_start|apply nf_stop|apply nf_note]|assumption];
  first [apply start_quiet in E1|apply stop_quiet in E1|apply note_quiet in E1]; rewrite <- E1; clear E1.
Ltac steps E := cbv zeta in E; repeat step E.
Lemma mirrors_same n : forall r s o s', done o -> whitted n r s = (o, s') -> exists a, run (mirrors n r) (fst (s_w W s)) = (o, a) /\ (forall v, o = Ok v -> a = fst (s_w W s')).
Proof.
  induction n as [|n IH]; intros r s o s' D E; cbn [whitted_Li] in E; cbn [mirrors].
  { injection E as <- <-. cbn. eexists. split; [reflexivity|discriminate]. }
  steps E. apply bind_done in E as (a&z1&E1&E); [|apply nf_nn; [discriminate|exact solid_own]|exact D].
  pose proof (does_nonnull now hit nn solid_only _ _ _ _ E1) as Dn. cbv beta in Dn. cbn [qrun]. rewrite Dn. clear Dn E1.
  destruct a as [its|]; [|steps E; injection E as <- <-; eexists; split; [reflexivity|intros ? _; reflexivity]]. steps E.
  apply bind_done in E as (c1&z2&E1&E); [|apply nf_query|exact D]. apply does_query in E1. rewrite run_bind, E1. clear E1. steps E. cbv zeta.
  destruct (c_spec (accumulate_shadow_rays (mat its) c1)); [|steps E; injection E as <- <-; eexists; split; [reflexivity|intros ? _; reflexivity]]. steps E.
  apply bind_done in E as (c3&z3&E1&E); [|apply nf_query|exact D]. apply does_query in E1. rewrite run_bind, E1. clear E1. steps E. cbn [qrun].
  apply bind_done in E as (u&z4&E1&E); [|apply nf_next1|exact D]. apply does_next1 in E1. rewrite E1. clear E1. steps E.
  destruct (Rgt_dec u rr_cont); [steps E; injection E as <- <-; eexists; split; [reflexivity|intros ? _; reflexivity]|]. steps E.
  destruct (isZero_dec (vscale (c_albedo c3) (1 / rr_cont))); [injection E as <- <-; eexists; split; [reflexivity|intros ? _; reflexivity]|].
  unfold bindM in E. destruct (whitted n (next_ray its c3) _) as [o' z5] eqn:E5.
  assert (D' : done o') by (destruct o'; cbn in *; try exact Logic.I; injection E as <- _; contradiction).
  destruct (IH _ _ _ _ D' E5) as (a & E6 & E7). unfold obind. rewrite run_bind, E6.
  destruct o'; try contradiction; injection E as <- <-; cbn [qrun]; eexists; (split; [reflexivity|]); [|discriminate]. intros ? _. eapply E7. reflexivity.
Qed.
Lemma whitted_ends n r s : idle (s_clk _ s) -> done (fst (whitted n r s)).
Proof.
  intros I. destruct (runs_whitted now' hit' rnd1' rnd2' env ev mat sample (S nn) n r _ I s (fun _ => eq_refl)) as (h & _ & O).
  destruct (fst (whitted n r s)); try contradiction; exact Logic.I.
Qed.
End Program.

(** ** the average *)
Section Average.
Variable d : R.
Variable e1 : (R -> R) -> R.
Variable e2 : (vec2 -> R) -> R.
Hypothesis av : averages d e1 e2.
Variable hit : ray -> option isect.
Variable env : ray -> vec3.
Variable ev : isect -> ray -> closure -> query closure.
Variable mat : isect -> vec3 -> vec3 -> vec3.
Variable sample : isect -> closure -> query closure.
Variable L rho : R.
Hypothesis po : polite hit env ev mat sample L rho.
Variable get : vec3 -> R.
Hypothesis ch : channel get.
Notation prog := (mirrors env ev mat sample).
Notation light := (seen hit e1 e2 env ev mat sample get).
Notation p := (kept e1).
Definition shown (o : outcome vec3) : R := match o with Ok v => get v | _ => 0 end.
Definition over (o : outcome vec3) : R := match o with Ok _ => 0 | _ => 1 end.
Notation E q f := (expect hit e1 e2 q f).

Lemma get_in b v : within b v -> 0 <= get v <= b.
Proof. intros (X & Y & Z). destruct ch as [-> | [-> | ->]]; assumption. Qed.
Lemma get_add a b : get (vadd a b) = get a + get b.
Proof. destruct ch as [-> | [-> | ->]]; reflexivity. Qed.
Lemma get_mul a b : get (vmul a b) = get a * get b.
Proof. destruct ch as [-> | [-> | ->]]; reflexivity. Qed.
Lemma get_scale a k : get (vscale a k) = get a * k.
Proof. destruct ch as [-> | [-> | ->]]; reflexivity. Qed.
Lemma get_0 : get (V3c 0) = 0.
Proof. destruct ch as [-> | [-> | ->]]; reflexivity. Qed.
Lemma p_in : 95 / 100 <= p <= 95 / 100 + d.
Proof. apply (av_even _ _ _ av). lra. Qed.
Lemma roulette x : e1 (fun u => if Rgt_dec u (95 / 100) then 0 else x) = p * x.
Proof.
  rewrite (e1_ext d e1 e2 av _ (fun u => x * (if Rgt_dec u (95 / 100) then 0 else 1) + 0 * 0)) by (intros u; destruct (Rgt_dec _ _); ring).
  rewrite (av_lin1 _ _ _ av x 0 (fun u => if Rgt_dec u (95 / 100) then 0 else 1) (fun _ => 0)). unfold kept. ring.
Qed.
(** the recursion of an average, whatever is averaged *)
Lemma prog_step n r f : E (prog (S n) r) f =
  match hit r with
  | None => f (Ok (env r))
  | Some i =>
      E (ev i r (closure_init false true (isect_toLocal i (vneg (dir r))))) (fun c1 =>
        let c2 := accumulate_shadow_rays (mat i) c1 in
        if c_spec c2 then E (sample i (set_wi c2 (isect_toLocal i (vneg (dir r))))) (fun c3 =>
          e1 (fun u => if Rgt_dec u (95 / 100) then f (Ok (V3c 0)) else
            let beta := vscale (c_albedo c3) (1 / (95 / 100)) in
            if isZero_dec beta then f (Ok (vadd (c_nee c3) (c_emission c3)))
            else E (prog n (next_ray i c3)) (fun o => f (match o with Ok v => Ok (vadd (vadd (vmul beta v) (c_nee c3)) (c_emission c3)) | x => x end))))
        else f (Ok (vadd (vadd (c_emission c2) (c_nee c2)) (c_emission c2))))
  end.
Proof.
  cbn [mirrors expect]. destruct (hit r) as [i|]; [|reflexivity].
  rewrite (expect_bind d e1 e2 av). apply (expect_eq d e1 e2 av). intros c1 _. cbv zeta. destruct (c_spec _); [|reflexivity].
  rewrite (expect_bind d e1 e2 av). apply (expect_eq d e1 e2 av). intros c3 _. cbn [expect]. apply (e1_ext d e1 e2 av). intros u. unfold rr_cont.
  destruct (Rgt_dec u (95 / 100)); [reflexivity|]. destruct (isZero_dec _); [reflexivity|]. unfold obind. rewrite (expect_bind d e1 e2 av). apply (expect_eq d e1 e2 av).
  intros [v|m| |] _; reflexivity.
Qed.
(** the share of the samples that go deeper than n surfaces *)
Lemma deep n : forall r, 0 <= E (prog n r) over <= p ^ n.
Proof.
  pose proof p_in as Pi. assert (P0 : forall k, 0 <= p ^ k) by (intros k; apply pow_le; lra).
  induction n as [|n IH]; intros r; [cbn; lra|]. rewrite prog_step. pose proof (P0 (S n)). destruct (hit r) as [i|]; [|cbn [over] in *; lra].
  apply (expect_between d e1 e2 av). intros c1 _. cbv zeta. destruct (c_spec _); [|cbn [over]; lra].
  apply (expect_between d e1 e2 av). intros c3 _. set (beta := vscale _ _).
  set (x := if isZero_dec beta then over (Ok (vadd (c_nee c3) (c_emission c3))) else E (prog n (next_ray i c3)) (fun o => over (match o with Ok v => Ok (vadd (vadd (vmul beta v) (c_nee c3)) (c_emission c3)) | y => y end))).
  change (0 <= e1 (fun u => if Rgt_dec u (95 / 100) then 0 else x) <= p ^ S n). rewrite roulette.
  assert (X : 0 <= x <= p ^ n).
  { unfold x. pose proof (P0 n). destruct (isZero_dec beta); [cbn [over]; lra|]. rewrite (expect_eq d e1 e2 av hit _ _ over) by (intros [|m| |] _; reflexivity). apply IH. }
  cbn [pow]. split; [apply Rmult_le_pos; lra|apply Rmult_le_compat_l; lra].
Qed.

Definition q := p * Rmax 1 (rho / (95 / 100)).
Lemma q_in : 0 <= p <= q /\ p * (rho / (95 / 100)) <= q.
Proof.
  pose proof p_in. unfold q. pose proof (Rmax_l 1 (rho / (95 / 100))). pose proof (Rmax_r 1 (rho / (95 / 100))). split; [split; [lra|]|].
  - rewrite <- (Rmult_1_r p) at 1. apply Rmult_le_compat_l; lra.
  - apply Rmult_le_compat_l; lra.
Qed.
Lemma p_q n : p ^ n <= q ^ n.
Proof. pose proof q_in. apply pow_incr. lra. Qed.

Lemma near {A} (qq : query A) f g x : (forall c, hleaf hit qq c -> g c - x <= f c <= g c) -> E qq g - x <= E qq f <= E qq g.
Proof.
  intros H. pose proof (expect_near d e1 e2 av hit qq f g 0 1 x 0) as K. cbv beta in K. lapply K; [lra|]. intros c Lc. specialize (H c Lc). lra.
Qed.
(** the mean of the samples that end within n surfaces *)
Lemma shown_light n : forall r, light n r - INR n * L * q ^ n <= E (prog n r) shown <= light n r.
Proof.
  pose proof p_in as Pi. pose proof q_in as Qi. destruct po as [L0 R0 Sky Ve].
  assert (Q0 : forall k, 0 <= INR k * L * q ^ k). { intros k. repeat apply Rmult_le_pos; [apply pos_INR|exact L0|apply pow_le; lra]. }
  induction n as [|n IH]; intros r; [cbn; lra|]. pose proof (Q0 (S n)) as QS. rewrite prog_step. cbn [seen].
  destruct (hit r) as [i|] eqn:Hi; [|cbn [shown]; lra].
  enough (H : forall c1, hleaf hit (ev i r (closure_init false true (isect_toLocal i (vneg (dir r))))) c1 ->
    let c2 := accumulate_shadow_rays (mat i) c1 in forall f g,
    f = (if c_spec c2 then E (sample i (set_wi c2 (isect_toLocal i (vneg (dir r))))) (fun c3 =>
          e1 (fun u => if Rgt_dec u (95 / 100) then shown (Ok (V3c 0)) else
            let beta := vscale (c_albedo c3) (1 / (95 / 100)) in
            if isZero_dec beta then shown (Ok (vadd (c_nee c3) (c_emission c3)))
            else E (prog n (next_ray i c3)) (fun o => shown (match o with Ok v => Ok (vadd (vadd (vmul beta v) (c_nee c3)) (c_emission c3)) | x => x end))))
        else shown (Ok (vadd (vadd (c_emission c2) (c_nee c2)) (c_emission c2)))) ->
    g = (if c_spec c2 then E (sample i (set_wi c2 (isect_toLocal i (vneg (dir r))))) (fun c3 =>
                p * (get (c_emission c3) + get (c_nee c3) +
                  if isZero_dec (vscale (c_albedo c3) (1 / (95 / 100))) then 0 else get (c_albedo c3) / (95 / 100) * light n (next_ray i c3)))
            else 2 * get (c_emission c2) + get (c_nee c2)) ->
    g - INR (S n) * L * q ^ S n <= f <= g).
  { apply near. intros c1 L1. exact (H c1 L1 _ _ eq_refl eq_refl). }
  intros c1 L1 c2 f g -> ->. destruct (Ve r i c1 Hi L1) as (V1 & V2). fold c2 in V1, V2. destruct (c_spec c2).
  2: { cbn [shown]. rewrite !get_add. lra. }
  specialize (V2 eq_refl).
  apply near. intros c3 L3. destruct (V2 c3 L3) as (W1 & W2).
  apply get_in in W1. apply get_in in W2. rewrite get_add in W1. set (beta := vscale _ _). cbv beta zeta.
  set (x := if isZero_dec beta then shown (Ok (vadd (c_nee c3) (c_emission c3))) else E (prog n (next_ray i c3)) (fun o => shown (match o with Ok v => Ok (vadd (vadd (vmul beta v) (c_nee c3)) (c_emission c3)) | y => y end))).
  set (y := get (c_emission c3) + get (c_nee c3) + _).
  replace (e1 _) with (p * x). 2: { rewrite <- roulette. apply (e1_ext d e1 e2 av). intros u. destruct (Rgt_dec _ _); [cbn [shown]; symmetry; apply get_0|reflexivity]. }
  assert (XY : y - (L * q ^ n + rho / (95 / 100) * (INR n * L * q ^ n)) <= x <= y).
  { unfold x, y. assert (0 <= L * q ^ n) by (apply Rmult_le_pos; [exact L0|apply pow_le; lra]). pose proof (Q0 n) as Qn.
    assert (0 <= rho / (95 / 100)) by (unfold Rdiv; lra). assert (0 <= rho / (95 / 100) * (INR n * L * q ^ n)) by (apply Rmult_le_pos; lra).
    destruct (isZero_dec beta); [cbn [shown]; rewrite get_add; lra|].
    set (l := get (c_emission c3) + get (c_nee c3)) in *. set (b := get (c_albedo c3) / (95 / 100)).
    assert (B : 0 <= b <= rho / (95 / 100)) by (unfold b, Rdiv; lra).
    rewrite (expect_eq d e1 e2 av hit _ _ (fun o => b * shown o + 1 * (l + (-l) * over o))).
    2: { intros [v|m| |] _; cbn [shown over]; try ring. rewrite !get_add, get_mul. unfold beta. rewrite get_scale. unfold l, b. field. }
    rewrite (NoiseProof.expect_lin d e1 e2 av), (expect_affine d e1 e2 av).
    pose proof (deep n (next_ray i c3)) as Dp. pose proof (p_q n) as Pq. destruct (IH (next_ray i c3)) as (I1 & I2).
    set (o := E _ over) in *. set (s := E _ shown) in *. set (t := light n (next_ray i c3)) in *. set (z := INR n * L * q ^ n) in *.
    assert (0 <= l * o <= L * q ^ n). { split; [apply Rmult_le_pos; lra|apply Rmult_le_compat; lra]. }
    assert (b * z <= rho / (95 / 100) * z) by (apply Rmult_le_compat_r; lra).
    assert (b * (t - z) <= b * s <= b * t) by (split; apply Rmult_le_compat_l; lra). lra. }
  rewrite S_INR. cbn [pow]. set (z := q ^ n) in *. assert (Z0 : 0 <= z) by (apply pow_le; lra). pose proof (pos_INR n) as N0.
  assert (A1 : p * (L * z) <= q * (L * z)) by (apply Rmult_le_compat_r; [apply Rmult_le_pos; lra|lra]).
  assert (A2 : p * (rho / (95 / 100)) * (INR n * L * z) <= q * (INR n * L * z)) by (apply Rmult_le_compat_r; [repeat apply Rmult_le_pos; lra|lra]).
  assert (A3 : p * (y - (L * z + rho / (95 / 100) * (INR n * L * z))) <= p * x <= p * y) by (split; apply Rmult_le_compat_l; lra).
  lra.
Qed.
(** deeper recursion *)
Lemma light_step n : forall r, light n r <= light (S n) r <= light n r + L * (p * (rho / (95 / 100))) ^ n.
Proof.
  pose proof p_in as Pi. destruct po as [L0 R0 Sky Ve]. set (k := p * (rho / (95 / 100))). assert (K0 : 0 <= k) by (apply Rmult_le_pos; [lra|unfold Rdiv; lra]).
  induction n as [|n IH]; intros r.
  - cbn [pow]. rewrite Rmult_1_r. change (0 <= light 1 r <= 0 + L). cbn [seen]. destruct (hit r) as [i|] eqn:Hi; [|pose proof (get_in _ _ (Sky r)); lra].
    rewrite Rplus_0_l. apply (expect_between d e1 e2 av). intros c1 L1. destruct (Ve r i c1 Hi L1) as (V1 & V2). cbv zeta in *. destruct (c_spec _).
    + apply (expect_between d e1 e2 av). intros c3 L3. destruct (V2 eq_refl c3 L3) as (W1 & W2). apply get_in in W1. rewrite get_add in W1.
      replace (if isZero_dec _ then 0 else _) with 0 by (destruct (isZero_dec _); [reflexivity|ring]). rewrite Rplus_0_r.
      assert (p <= 1). { apply Rle_trans with (e1 (fun _ => 1)); [apply (av_mono1 _ _ _ av); intros u; destruct (Rgt_dec _ _); lra|rewrite (av_one1 _ _ _ av); lra]. }
      nra.
    + apply get_in in V1. rewrite !get_add in V1. lra.
  - assert (Z0 : 0 <= L * k ^ n) by (apply Rmult_le_pos; [exact L0|apply pow_le, K0]).
    assert (Z1 : 0 <= L * k ^ S n) by (apply Rmult_le_pos; [exact L0|apply pow_le, K0]).
    cbn [seen] in IH |- *. destruct (hit r) as [i|] eqn:Hi; [|lra].
    apply (expect_step d e1 e2 av). intros c1 L1. destruct (Ve r i c1 Hi L1) as (_ & V2). cbv zeta in *. destruct (c_spec _); [|lra]. specialize (V2 eq_refl).
    apply (expect_step d e1 e2 av). intros c3 L3. destruct (V2 c3 L3) as (_ & W2). apply get_in in W2. destruct (isZero_dec _); [lra|].
    specialize (IH (next_ray i c3)). set (a := get (c_albedo c3) / (95 / 100)). assert (B : 0 <= a <= rho / (95 / 100)) by (unfold a, Rdiv; lra).
    change (light (S n) (next_ray i c3)) with (light (S n) (next_ray i c3)) in IH. cbn [seen] in IH.
    match type of IH with ?s <= ?t <= _ => set (u := s) in *; set (v := t) in * end.
    assert (a * u <= a * v <= a * (u + L * k ^ n)) by (split; apply Rmult_le_compat_l; lra).
    assert (a * (L * k ^ n) <= rho / (95 / 100) * (L * k ^ n)) by (apply Rmult_le_compat_r; lra).
    set (l := get (c_emission c3) + get (c_nee c3)). split; [apply Rmult_le_compat_l; lra|].
    assert (H2 : p * (l + a * v) <= p * (l + a * u + rho / (95 / 100) * (L * k ^ n))) by (apply Rmult_le_compat_l; lra).
    cbn [pow]. unfold k at 1. lra.
Qed.
End Average.
