(** Media: tracking estimators, ray marching. *)
From Coq Require Import Reals List Lra Lia Psatz.
From Coquelicot Require Import Coquelicot.
From Flocq Require Import Core.Raux.
From Verif.Base Require Import Outcome RTac.
From Verif.Model Require Import Vec Matrix BBox Media.
From Verif.Spec Require Import LinAlgSpec MediaSpec.
From Verif.Proof Require Import VecLemmas WarpProof TransformProof.
Import ListNotations.
Open Scope R_scope.

(** ** averages *)
Lemma is_mean_const n c : is_mean n (fun _ => c) c.
Proof.
  induction n; simpl; [reflexivity|]. exists (fun _ => c). split; [intros; exact IHn|]. apply const_int. ring.
Qed.
Lemma is_mean_ext n : forall f f' v, (forall us, f us = f' us) -> is_mean n f v -> is_mean n f' v.
Proof.
  induction n; simpl; intros f f' v E H; [rewrite H; apply E|].
  destruct H as (g&G&I). exists g. split; [|exact I]. intros u U. apply (IHn (fun us => f (u :: us))); [intros; apply E|apply G, U].
Qed.
Lemma is_mean_scal n : forall f v c, is_mean n f v -> is_mean n (fun us => c * f us) (c * v).
Proof.
  induction n; simpl; intros f v c H; [rewrite H; reflexivity|].
  destruct H as (g&G&I). exists (fun u => c * g u). split; [intros u U; apply (IHn (fun us => f (u :: us))), G, U|].
  apply (is_RInt_scal g 0 1 c v I).
Qed.
Lemma is_mean_unique n : forall f v w, is_mean n f v -> is_mean n f w -> v = w.
Proof.
  induction n; simpl; intros f v w H K; [congruence|].
  destruct H as (g&G&I), K as (g'&G'&I'). rewrite <- (is_RInt_unique (V := R_CompleteNormedModule) g 0 1 v I).
  apply (is_RInt_unique (V := R_CompleteNormedModule) g 0 1 w). apply (is_RInt_ext g'); [|exact I'].
  rewrite Rmin_left, Rmax_right by lra. intros x X. apply (IHn (fun us => f (x :: us))); [apply G'|apply G]; lra.
Qed.

(** ** partial sums of the exponential series *)
Fixpoint psum (n : nat) (x : R) : R := match n with O => 0 | S m => psum m x + x ^ m / INR (fact m) end.
Lemma psum_zero n : psum (S n) 0 = 1.
Proof.
  induction n as [|n IH]; [simpl; field|]. change (psum (S n) 0 + 0 ^ S n / INR (fact (S n)) = 1). rewrite IH, pow_i by lia. unfold Rdiv. ring.
Qed.
Lemma psum_derive n x : is_derive (psum (S n)) x (psum n x).
Proof.
  induction n as [|n IH].
  - apply (is_derive_ext (fun _ => 1)); [intros t; simpl; field|]. simpl. apply @is_derive_const.
  - apply (is_derive_ext (fun y => psum (S n) y + y ^ S n / INR (fact (S n)))); [reflexivity|].
    change (psum (S n) x) with (psum n x + x ^ n / INR (fact n)).
    apply @is_derive_plus; [exact IH|]. auto_derive; [trivial|].
    change (match n with 0%nat => 1 | S _ => INR n + 1 end) with (INR (S n)). replace (INR (fact n + n * fact n)) with (INR (S n) * INR (fact n)) by (rewrite <- mult_INR; reflexivity). simpl pred.
    pose proof (INR_fact_neq_0 n). assert (INR (S n) <> 0) by (apply not_0_INR; lia). field. split; assumption.
Qed.
Lemma psum_sum n x : psum (S n) x = sum_f_R0 (fun k => / INR (fact k) * x ^ k) n.
Proof.
  induction n as [|n IH]; [simpl; field|]. change (psum (S n) x + x ^ S n / INR (fact (S n)) = sum_f_R0 (fun k => / INR (fact k) * x ^ k) (S n)).
  rewrite tech5, <- IH. unfold Rdiv. ring.
Qed.
Lemma psum_lim x : is_lim_seq (fun n => psum n x) (exp x).
Proof.
  apply is_lim_seq_incr_1. apply (is_lim_seq_ext (fun n => sum_f_R0 (fun k => / INR (fact k) * x ^ k) n)); [intros; symmetry; apply psum_sum|].
  apply is_lim_seq_Reals. unfold exp. destruct (exist_exp x) as [l H]. simpl. exact H.
Qed.

(** ** collision tracking with bounded extinction, one channel *)
Section Tracking.
Variables (m T : R) (w : R -> R).     (* majorant, end, weight of a tentative collision *)
Fixpoint track (us : list R) (t : R) : R :=
  match us with
  | [] => 0
  | u :: us' => let t' := t - ln (1 - u) / m in if Rge_dec t' T then 1 else w t' * track us' t'
  end.
Hypothesis Hm : 0 < m.
Hypothesis Hw : forall t, continuous w t.
Definition Q (t : R) : R := RInt (fun s => m * w s) t T.
Lemma Q_cont t : continuous (fun s => m * w s) t.
Proof. apply (continuous_scal_r m w), Hw. Qed.
Lemma Q_T : Q T = 0.
Proof. exact (RInt_point (V := R_CompleteNormedModule) T (fun s => m * w s)). Qed.
Lemma Q_derive t : is_derive Q t (- (m * w t)).
Proof.
  unfold Q. apply (is_derive_RInt' (V := R_NormedModule) (fun s => m * w s) (fun t => RInt (fun s => m * w s) t T) t T).
  - exists (mkposreal 1 Rlt_0_1). intros y _. apply (RInt_correct (V := R_CompleteNormedModule) (fun s => m * w s)).
    apply (ex_RInt_continuous (V := R_CompleteNormedModule) (fun s => m * w s)). intros; apply Q_cont.
  - apply Q_cont.
Qed.
Lemma jump_ge u t : 0 <= u < 1 -> (T <= t - ln (1 - u) / m <-> 1 - exp (- m * (T - t)) <= u).
Proof.
  intros U. transitivity (ln (1 - u) <= - m * (T - t)).
  - split; intros H.
    + assert (ln (1 - u) / m <= t - T) by lra. apply Rdiv_le_iff in H0; [nra|exact Hm].
    + assert (ln (1 - u) / m <= t - T) by (apply Rdiv_le_iff; [exact Hm|nra]). lra.
  - split; intros H.
    + assert (1 - u <= exp (- m * (T - t))); [|lra]. rewrite <- (exp_ln (1 - u)) by lra. destruct H as [H| ->]; [left; apply exp_increasing, H|lra].
    + rewrite <- (ln_exp (- m * (T - t))). assert (H' : 1 - u <= exp (- m * (T - t))) by lra. destruct H' as [H'|E]; [left; apply ln_increasing; lra|rewrite E; lra].
Qed.
Lemma jump_exp u t : 0 <= u < 1 -> exp (- m * (T - (t - ln (1 - u) / m))) = exp (- m * (T - t)) / (1 - u).
Proof.
  intros U. replace (- m * (T - (t - ln (1 - u) / m))) with (- m * (T - t) + - ln (1 - u)) by (field; lra).
  rewrite exp_plus, exp_Ropp, exp_ln by lra. reflexivity.
Qed.
Lemma track_mean n : forall t, t <= T -> is_mean n (fun us => track us t) (exp (- m * (T - t)) * psum n (Q t)).
Proof.
  induction n as [|n IH]; intros t Ht; [simpl; ring|].
  exists (fun u => if Rge_dec (t - ln (1 - u) / m) T then 1 else w (t - ln (1 - u) / m) * (exp (- m * (T - (t - ln (1 - u) / m))) * psum n (Q (t - ln (1 - u) / m)))).
  split.
  - intros u U. simpl. destruct (Rge_dec _ _) as [G|G]; [apply is_mean_const|]. apply (is_mean_scal n (fun us => track us (t - ln (1 - u) / m))), IH. lra.
  - set (E := exp (- m * (T - t))). set (c := 1 - E).
    assert (E0 : 0 < E) by apply exp_pos. assert (E1 : E <= 1) by (unfold E; rewrite <- exp_0; destruct (Req_dec t T) as [->|]; [right; f_equal; ring|left; apply exp_increasing; nra]).
    apply (is_RInt_val _ _ _ (@plus R_AbelianGroup (E * psum (S n) (Q t) - E * psum (S n) (Q T)) E)).
    { rewrite Q_T, psum_zero. unfold plus; simpl. ring. }
    refine (is_RInt_Chasles (V := R_NormedModule) _ 0 c 1 (E * psum (S n) (Q t) - E * psum (S n) (Q T)) E _ _).
    + apply (is_RInt_ext (fun u => E * (psum n (Q (t - ln (1 - u) / m)) * (m * w (t - ln (1 - u) / m) * (/ (m * (1 - u))))))).
      { rewrite Rmin_left, Rmax_right by (unfold c; lra). intros u U. assert (U1 : 0 <= u < 1) by (unfold c in U; lra).
        destruct (Rge_dec _ _) as [G|G]; [exfalso; apply Rge_le in G; apply (jump_ge u t U1) in G; unfold c, E in U; lra|].
        rewrite jump_exp by exact U1. fold E. match goal with |- ?a = ?b => change (@eq R a b) end. field. lra. }
      apply (is_RInt_val _ _ _ (- E * psum (S n) (Q (t - ln (1 - c) / m)) - - E * psum (S n) (Q (t - ln (1 - 0) / m)))).
      { replace (t - ln (1 - c) / m) with T. 2:{ unfold c. replace (1 - (1 - E)) with E by ring. unfold E. rewrite ln_exp. field. lra. }
        replace (1 - 0) with 1 by ring. rewrite ln_1. replace (t - 0 / m) with t by (field; lra). ring. }
      apply (is_RInt_derive (fun u => - E * psum (S n) (Q (t - ln (1 - u) / m)))); rewrite Rmin_left, Rmax_right by (unfold c; lra); intros x X.
      * assert (X1 : x < 1) by (unfold c in X; lra).
        replace (E * (psum n (Q (t - ln (1 - x) / m)) * (m * w (t - ln (1 - x) / m) * / (m * (1 - x)))))
          with (- E * ((/ (m * (1 - x)) * - (m * w (t - ln (1 - x) / m))) * psum n (Q (t - ln (1 - x) / m)))) by ring.
        apply is_derive_scal. apply (is_derive_comp (psum (S n)) (fun u => Q (t - ln (1 - u) / m))); [apply psum_derive|].
        apply (is_derive_comp Q (fun u => t - ln (1 - u) / m)); [apply Q_derive|]. auto_derive; [lra|]. field. lra.
      * assert (X1 : x < 1) by (unfold c in X; lra).
        assert (J : continuous (fun u => t - ln (1 - u) / m) x) by (apply (ex_derive_continuous (fun u => t - ln (1 - u) / m)); auto_derive; lra).
        apply (continuous_scal_r E (fun u => psum n (Q (t - ln (1 - u) / m)) * (m * w (t - ln (1 - u) / m) * / (m * (1 - u))))).
        apply (continuous_mult (fun u => psum n (Q (t - ln (1 - u) / m))) (fun u => m * w (t - ln (1 - u) / m) * / (m * (1 - u)))).
        { apply (continuous_comp (fun u => Q (t - ln (1 - u) / m)) (psum n)).
          - apply (continuous_comp (fun u => t - ln (1 - u) / m) Q); [exact J|]. apply (ex_derive_continuous Q). eexists. apply Q_derive.
          - destruct n as [|k]; [apply (continuous_const 0)|]. apply (ex_derive_continuous (psum (S k))). eexists. apply psum_derive. }
        apply (continuous_mult (fun u => m * w (t - ln (1 - u) / m)) (fun u => / (m * (1 - u)))).
        { apply (continuous_comp (fun u => t - ln (1 - u) / m) (fun s => m * w s)); [exact J|apply Q_cont]. }
        apply (ex_derive_continuous (fun u => / (m * (1 - u)))). auto_derive. apply Rmult_integral_contrapositive_currified; lra.
    + apply (is_RInt_ext (fun _ => 1)).
      { rewrite Rmin_left, Rmax_right by (unfold c; lra). intros u U. destruct (Rge_dec _ _) as [G|G]; [reflexivity|exfalso; apply G, Rle_ge].
        apply jump_ge; [unfold c in U; lra|]. unfold c, E in U. lra. }
      apply const_int. unfold c. ring.
Qed.
Lemma track_tends t : t <= T -> mean_tends (fun us => track us t) (exp (- m * (T - t) + Q t)).
Proof.
  intros Ht. exists (fun n => exp (- m * (T - t)) * psum n (Q t)). split; [intros n; apply track_mean, Ht|].
  rewrite exp_plus. apply (is_lim_seq_scal_l (fun n => psum n (Q t)) (exp (- m * (T - t))) (exp (Q t))). apply psum_lim.
Qed.
End Tracking.
Lemma track_attenuation m T (e : R -> R) t : 0 < m -> (forall s, continuous e s) -> t <= T ->
  mean_tends (fun us => track m T (fun s => (m - e s) / m) us t) (attenuation e t T).
Proof.
  intros M C L. set (w := fun s => (m - e s) / m).
  assert (W : forall s, continuous w s).
  { intros s. apply (continuous_ext (fun s => / m * minus m (e s))); [intros; unfold w, minus, plus, opp, Rdiv; simpl; ring|].
    apply (continuous_scal_r (/ m) (fun s => minus m (e s))). apply (continuous_minus (fun _ => m) e); [apply continuous_const|apply C]. }
  assert (Z : attenuation e t T = exp (- m * (T - t) + Q m T w t)).
  { unfold attenuation. f_equal. unfold Q.
    assert (I : is_RInt e t T (RInt e t T)) by (apply (RInt_correct (V := R_CompleteNormedModule) e), (ex_RInt_continuous (V := R_CompleteNormedModule) e); intros; apply C).
    assert (K : is_RInt (fun s => m * w s) t T ((T - t) * m - RInt e t T)).
    { apply (is_RInt_ext (fun s => @minus R_AbelianGroup m (e s))); [intros x _; unfold w; match goal with |- ?a = ?b => change (@eq R a b) end; unfold minus, plus, opp; simpl; field; lra|].
      exact (is_RInt_minus (V := R_NormedModule) (fun _ => m) e t T ((T - t) * m) (RInt e t T) (is_RInt_const (V := R_NormedModule) t T m) I). }
    rewrite (is_RInt_unique (V := R_CompleteNormedModule) _ _ _ _ K). ring. }
  rewrite Z. apply track_tends; assumption.
Qed.

(** ** the estimators *)
Lemma pick_lt_id a b : a <= b -> pick_lt a b = a.
Proof. intros H. unfold pick_lt. destruct (Rlt_dec a b); lra. Qed.
Lemma pick_lt_bounds a b : 0 <= a -> 0 < b -> 0 <= pick_lt a b <= b.
Proof. intros A B. unfold pick_lt. destruct (Rlt_dec a b); lra. Qed.
Lemma payoff_ratio D sg maj r T k us : 0 < maj -> (forall t, channel k (vmul (D (ray_at r t)) sg) <= maj) ->
  forall t tr, payoff (channel k) (fun us => ratio_loop D sg maj r T us t tr) us =
    channel k tr * track maj T (fun s => (maj - channel k (vmul (D (ray_at r s)) sg)) / maj) us t.
Proof.
  intros M B. induction us as [|u us IH]; intros t tr; [unfold payoff; simpl; ring|].
  unfold payoff in *. simpl. destruct (Rge_dec _ T); [simpl; ring|]. rewrite IH.
  set (t' := t - ln (1 - u) / maj). specialize (B t').
  replace (channel k (vmul tr (vdiv (vsub (V3c maj) (vminc (vmul (D (ray_at r t')) sg) maj)) maj)))
    with (channel k tr * ((maj - channel k (vmul (D (ray_at r t')) sg)) / maj)); [ring|].
  destruct k as [|[|k]]; simpl in *; rewrite pick_lt_id by exact B; reflexivity.
Qed.
Lemma ratio_range D sg maj r T us : 0 < maj -> (forall t, each (Rle 0) (vmul (D (ray_at r t)) sg)) ->
  forall t tr out us', each (fun x => 0 <= x <= 1) tr -> ratio_loop D sg maj r T us t tr = Ok (out, us') -> each (fun x => 0 <= x <= 1) out.
Proof.
  intros M P. induction us as [|u us IH]; intros t tr out us' (X&Y&Z) H; simpl in H; [discriminate|].
  destruct (Rge_dec _ T); [injection H as <- <-; repeat split; tauto|]. eapply IH; [|exact H].
  set (t' := t - ln (1 - u) / maj). destruct (P t') as (A&B&C).
  assert (F : forall x e, 0 <= x <= 1 -> 0 <= e -> 0 <= x * ((maj - pick_lt e maj) / maj) <= 1).
  { intros x e Hx He. pose proof (pick_lt_bounds e maj He M) as K. set (q := pick_lt e maj) in *.
    assert (0 <= (maj - q) / maj <= 1) by (split; [apply Rle_div_iff; lra|apply Rdiv_le_iff; lra]). split; nra. }
  repeat split; simpl; try (apply F; assumption).
Qed.
Lemma vmax_val_least c : vmax_val c = least c.
Proof.
  unfold vmax_val, least, Rmin. cbv zeta. destruct c as [a b d]; simpl.
  destruct (Rgt_dec a b), (Rle_dec b d); repeat match goal with |- context [Rgt_dec ?x ?y] => destruct (Rgt_dec x y) end;
    repeat match goal with |- context [Rle_dec ?x ?y] => destruct (Rle_dec x y) end; lra.
Qed.
Lemma least_cont (f : R -> vec3) t : continuous (fun s => vx (f s)) t -> continuous (fun s => vy (f s)) t -> continuous (fun s => vz (f s)) t ->
  continuous (fun s => least (f s)) t.
Proof.
  assert (MC : forall g h : R -> R, continuous g t -> continuous h t -> continuous (fun s => Rmin (g s) (h s)) t).
  { intros g h G H. apply (continuous_ext (fun s => / 2 * ((g s + h s) - Rabs (g s - h s)))).
    - intros x. unfold Rmin, Rabs. destruct (Rle_dec (g x) (h x)), (Rcase_abs (g x - h x)); match goal with |- ?a = ?b => change (@eq R a b) end; lra.
    - apply (continuous_scal_r (/ 2) (fun s => (g s + h s) - Rabs (g s - h s))).
      apply (continuous_minus (fun s => g s + h s) (fun s => Rabs (g s - h s))).
      + apply (continuous_plus g h); assumption.
      + apply (continuous_comp (fun s => g s - h s) Rabs); [apply (continuous_minus g h); assumption|apply continuous_Rabs]. }
  intros A B C. unfold least. apply (MC (fun s => vx (f s)) (fun s => Rmin (vy (f s)) (vz (f s)))); [exact A|]. apply MC; assumption.
Qed.
(** delta tracking: number of draws 2n, indicator of leaving the segment *)
Definition escaped (T : R) (t : R) : R := if Rge_dec t T then 1 else 0.
Lemma step_int01 (x : R) : 0 <= x <= 1 -> forall a b : R, is_RInt (fun u => if Rgt_dec x u then a else b) 0 1 (x * a + (1 - x) * b).
Proof.
  intros X a b. refine (is_RInt_Chasles (V := R_NormedModule) _ 0 x 1 (x * a) ((1 - x) * b) _ _).
  - apply (is_RInt_ext (fun _ => a)); [rewrite Rmin_left, Rmax_right by lra; intros u U; destruct (Rgt_dec x u); [reflexivity|lra]|]. apply const_int. ring.
  - apply (is_RInt_ext (fun _ => b)); [rewrite Rmin_left, Rmax_right by lra; intros u U; destruct (Rgt_dec x u); [lra|reflexivity]|]. apply const_int. ring.
Qed.
Lemma delta_ge D sg maj r T : forall us t t' us', delta_loop D sg maj r T us t = Ok (t', us') -> 0 < maj -> List.Forall (fun u => 0 <= u < 1) us -> t <= t'.
Proof.
  assert (J : forall u maj, 0 < maj -> 0 <= u < 1 -> 0 <= - (ln (1 - u) / maj)).
  { intros u m M U. assert (ln (1 - u) <= 0).
    { destruct (Req_dec u 0) as [->|]; [rewrite Rminus_0_r, ln_1; lra|]. left. rewrite <- ln_1. apply ln_increasing; lra. }
    assert (0 < / m) by (apply Rinv_0_lt_compat, M). unfold Rdiv. nra. }
  intros us. remember (length us) as n eqn:Hn. revert us Hn. induction n as [n IH] using (well_founded_induction lt_wf). intros us Hn t t' us' H M F.
  destruct us as [|u us]; [discriminate|]. simpl in H. inversion F as [|? ? U F']; subst.
  specialize (J u maj M U). destruct (Rge_dec _ T); [injection H as <- <-; lra|].
  destruct us as [|u2 us2]; [discriminate|]. destruct (Rgt_dec _ u2); [injection H as <- <-; lra|].
  inversion F' as [|? ? U2 F2]; subst. assert (t - ln (1 - u) / maj <= t'); [|lra].
  eapply (IH (length us2)); [simpl; lia|reflexivity|exact H|exact M|exact F2].
Qed.
Lemma delta_mean D sg maj r T : 0 < maj -> (forall t, 0 <= least (vmul (D (ray_at r t)) sg) <= maj) ->
  forall n t, forall v, is_mean n (fun us => track maj T (fun s => (maj - least (vmul (D (ray_at r s)) sg)) / maj) us t) v ->
    is_mean (2 * n) (payoff (escaped T) (fun us => delta_loop D sg maj r T us t)) v.
Proof.
  intros M B. induction n as [|n IH]; intros t v H; [exact H|].
  destruct H as (g&G&I). replace (2 * S n)%nat with (S (S (2 * n))) by lia. exists g. split; [|exact I].
  intros u U. specialize (G u U). cbn [track] in G. set (t' := t - ln (1 - u) / maj) in *.
  assert (Sh : forall us, payoff (escaped T) (fun us => delta_loop D sg maj r T us t) (u :: us) =
    if Rge_dec t' T then 1 else match us with [] => 0 | u2 :: us2 =>
      if Rgt_dec (least (vmul (D (ray_at r t')) sg) / maj) u2 then 0 else payoff (escaped T) (fun us => delta_loop D sg maj r T us t') us2 end).
  { intros us. unfold payoff. simpl. fold t'. destruct (Rge_dec t' T) as [K|K]; [unfold escaped; destruct (Rge_dec t' T); [reflexivity|contradiction]|].
    destruct us as [|u2 us2]; [reflexivity|]. rewrite vmax_val_least. destruct (Rgt_dec _ u2); [unfold escaped; destruct (Rge_dec t' T); [contradiction|reflexivity]|reflexivity]. }
  apply (is_mean_ext _ (fun us => if Rge_dec t' T then 1 else match us with [] => 0 | u2 :: us2 =>
      if Rgt_dec (least (vmul (D (ray_at r t')) sg) / maj) u2 then 0 else payoff (escaped T) (fun us => delta_loop D sg maj r T us t') us2 end)); [intros; symmetry; apply Sh|].
  destruct (Rge_dec t' T) as [K|K].
  - rewrite (is_mean_unique n _ (g u) 1 G (is_mean_const n 1)). apply is_mean_const.
  - set (x := least (vmul (D (ray_at r t')) sg) / maj) in *.
    assert (X : 0 <= x <= 1) by (destruct (B t'); unfold x; split; [apply Rle_div_iff; lra|apply Rdiv_le_iff; lra]).
    destruct (Req_dec x 1) as [E|E].
    + assert (Z : g u = 0).
      { apply (is_mean_unique n _ _ _ G). apply (is_mean_ext n (fun _ => 0)); [|apply is_mean_const]. intros us.
        replace ((maj - least (vmul (D (ray_at r t')) sg)) / maj) with 0; [ring|]. unfold x in E. apply (Rmult_eq_compat_r maj) in E. unfold Rdiv in E. rewrite Rmult_assoc, Rinv_l in E by lra. replace (least (vmul (D (ray_at r t')) sg)) with maj by lra. unfold Rdiv. ring. }
      exists (fun _ => 0). split; [|rewrite Z; apply const_int; ring]. intros u2 U2. apply (is_mean_ext _ (fun _ => 0)); [|apply is_mean_const].
      intros us. destruct (Rgt_dec x u2); [reflexivity|lra].
    + assert (G' : is_mean n (fun us => track maj T (fun s => (maj - least (vmul (D (ray_at r s)) sg)) / maj) us t') (g u / (1 - x))).
      { replace (g u / (1 - x)) with (/ (1 - x) * g u) by (field; lra).
        apply (is_mean_ext n (fun us => / (1 - x) * ((maj - least (vmul (D (ray_at r t')) sg)) / maj * track maj T (fun s => (maj - least (vmul (D (ray_at r s)) sg)) / maj) us t'))).
        - intros us. replace ((maj - least (vmul (D (ray_at r t')) sg)) / maj) with (1 - x) by (unfold x; field; lra). field. lra.
        - apply (is_mean_scal n (fun us => (maj - least (vmul (D (ray_at r t')) sg)) / maj * track maj T (fun s => (maj - least (vmul (D (ray_at r s)) sg)) / maj) us t')), G. }
      exists (fun u2 => if Rgt_dec x u2 then 0 else g u / (1 - x)). split.
      * intros u2 U2. destruct (Rgt_dec x u2); [apply is_mean_const|]. apply IH, G'.
      * eapply is_RInt_val; [|apply (step_int01 x X)]. field. lra.
Qed.

(** ** ray marching *)
Lemma march_const D sg step r T samp E : 0 < step -> (forall t, vmul (D (ray_at r t)) sg = E) ->
  forall n fuel t od, (n < fuel)%nat -> t + INR n * step >= T -> (forall k, (k < n)%nat -> t + INR k * step < T) ->
    march_loop fuel D sg step r T samp t od = Ok (vadd od (vscale E (INR n))).
Proof.
  intros S HE. induction n as [|n IH]; intros fuel t od L Hi Lo; (destruct fuel as [|fuel]; [lia|]); cbn [march_loop].
  - destruct (Rlt_dec t T); [simpl in Hi; lra|]. f_equal. unfold vadd, vscale. destruct od; simpl. apply V3_eq; simpl; ring.
  - destruct (Rlt_dec t T) as [H|H].
    2:{ specialize (Lo 0%nat ltac:(lia)). simpl in Lo. lra. }
    rewrite (IH fuel (t + step) _ ltac:(lia)).
    + rewrite HE. f_equal. unfold vadd, vscale. rewrite S_INR. apply V3_eq; simpl; ring.
    + rewrite S_INR in Hi. lra.
    + intros k K. specialize (Lo (Datatypes.S k) ltac:(lia)). rewrite S_INR in Lo. lra.
Qed.
Lemma steps_exist T t step : 0 < step -> exists n, t + INR n * step >= T /\ (forall k, (k < n)%nat -> t + INR k * step < T) /\ (t <= T -> INR n = IZR (Zceil ((T - t) / step))).
Proof.
  intros S. destruct (Rle_dec T t) as [L|L].
  - exists 0%nat. split; [simpl; lra|]. split; [intros; lia|]. intros H. assert (T = t) by lra. subst. replace ((t - t) / step) with 0 by (field; lra).
    change (Zceil 0) with (Zceil (IZR 0)). rewrite (Zceil_IZR 0). reflexivity.
  - set (x := (T - t) / step). assert (X : 0 < x) by (apply Rdiv_lt_0_compat; lra). set (z := Zceil x).
    assert (Z0 : (0 < z)%Z) by (apply lt_IZR; eapply Rlt_le_trans; [exact X|apply Zceil_ub]).
    assert (ZI : INR (Z.to_nat z) = IZR z) by (rewrite INR_IZR_INZ, Z2Nat.id by lia; reflexivity).
    exists (Z.to_nat z). split; [|split].
    + rewrite ZI. assert (x <= IZR z) by apply Zceil_ub. assert (x * step = T - t) by (unfold x; field; lra). nra.
    + intros k K. assert (INR k < x).
      { destruct (Rlt_dec (INR k) x); [assumption|exfalso]. assert (z <= Z.of_nat k)%Z by (apply Zceil_glb; rewrite <- INR_IZR_INZ; lra). lia. }
      assert (x * step = T - t) by (unfold x; field; lra). nra.
    + intros _. exact ZI.
Qed.
Lemma march_samp_range D sg step r T samp q : 0 < step ->
  forall fuel t od out, vmax_val od <= q -> march_samp_loop fuel D sg step r T samp q t od = Ok out -> (t <= out < T) \/ out = T + 1.
Proof.
  intros S. induction fuel as [|fuel IH]; intros t od out L H; simpl in H; [discriminate|].
  destruct (Rlt_dec t T) as [LT|]; [|injection H as <-; right; reflexivity].
  set (loc := t + Rmin step (T - t) * samp) in *. set (od' := vadd od (vmul (D (ray_at r loc)) sg)) in *.
  destruct (Rgt_dec (vmax_val od') q) as [G|G].
  - injection H as <-. left. set (p := vmax_val od) in *. set (n := vmax_val od') in *.
    assert (St : 0 < Rmin step (T - t) <= T - t) by (split; [apply Rmin_glb_lt; lra|apply Rmin_r]). set (s := Rmin step (T - t)) in *.
    assert (F : 0 <= (q - p) / (n - p) < 1) by (split; [apply Rle_div_iff; lra|apply Rdiv_lt_iff; lra]).
    replace (s * (q - p) / (n - p)) with (s * ((q - p) / (n - p))) by (field; lra). set (f := (q - p) / (n - p)) in *. split; nra.
  - destruct (IH _ _ _ (Rnot_gt_le _ _ G) H) as [K|K]; [left|right; exact K]. lra.
Qed.

(** ** the ray in medium space *)
Lemma tf_ray_at t r s : affine (tmat t) -> ray_at (tf_ray t r) s = tf_point t (ray_at r s).
Proof.
  intros A. destruct t as [a ai], r as [[o1 o2 o3] [d1 d2 d3] rn rf]. destruct a. unfold affine in A; simpl in A. destruct A as (->&->&->&->).
  unfold ray_at, tf_ray, tf_point, tf_vector, m3_vec, topLeft, m4_vec, V4_of3, head4, vdiv, vadd, vscale; simpl. apply V3_eq; simpl; field.
Qed.

Lemma channel_exp k c : channel k (vexp c) = exp (channel k c).
Proof. destruct k as [|[|k]]; reflexivity. Qed.
Lemma channel_scale k c a : channel k (vscale c a) = channel k c * a.
Proof. destruct k as [|[|k]]; reflexivity. Qed.
Lemma channel_mul k a b : channel k (vmul a b) = channel k a * channel k b.
Proof. destruct k as [|[|k]]; reflexivity. Qed.
Lemma channel_c k a : channel k (V3c a) = a.
Proof. destruct k as [|[|k]]; reflexivity. Qed.
Lemma attenuation_const c a b : attenuation (fun _ => c) a b = exp (- (c * (b - a))).
Proof. unfold attenuation. rewrite (RInt_const (V := R_CompleteNormedModule)). f_equal. unfold scal; simpl; unfold mult; simpl. ring. Qed.
Lemma is_RInt_attenuation_one a b : attenuation (fun _ => 0) a b = 1.
Proof. rewrite attenuation_const. replace (- (0 * (b - a))) with 0 by ring. apply exp_0. Qed.
(** counting finished runs *)
Lemma payoff_done D sg maj r T us : 0 < maj -> forall t tr, payoff (fun _ => 1) (fun us => ratio_loop D sg maj r T us t tr) us =
    track maj T (fun s => (maj - 0) / maj) us t.
Proof.
  intros M. induction us as [|u us IH]; intros t tr; [reflexivity|]. unfold payoff in *. simpl. destruct (Rge_dec _ T); [reflexivity|]. rewrite IH.
  replace ((maj - 0) / maj) with 1 by (field; lra). ring.
Qed.
(** the estimators look at the density only along the ray *)
Lemma transmittance_ext fuel e D D' sg r r' a b us : (forall t, D (ray_at r t) = D' (ray_at r' t)) ->
  transmittance fuel e D sg r a b us = transmittance fuel e D' sg r' a b us.
Proof.
  intros H. destruct e; simpl; try reflexivity.
  - unfold homo_tr. rewrite H. reflexivity.
  - unfold ratio_tr. generalize (V3c 1). revert a. induction us as [|u us IH]; intros a tr; [reflexivity|]. simpl. rewrite H. destruct (Rge_dec _ b); [reflexivity|]. apply IH.
  - unfold march_tr. destruct us as [|u us]; [reflexivity|]. f_equal. generalize (V3c 0). revert a. induction fuel as [|fuel IH]; intros a od; [reflexivity|]. simpl. rewrite H. destruct (Rlt_dec a b); [apply IH|reflexivity].
Qed.
Lemma free_flight_ext fuel s D D' sg r r' a b us : (forall t, D (ray_at r t) = D' (ray_at r' t)) ->
  free_flight fuel s D sg r a b us = free_flight fuel s D' sg r' a b us.
Proof.
  intros H. destruct s; simpl.
  - destruct us; [reflexivity|]. unfold analytic_t. rewrite H. reflexivity.
  - f_equal. remember (length us) as n eqn:Hn. revert us Hn a. induction n as [n IH] using (well_founded_induction lt_wf). intros us Hn a.
    destruct us as [|u us]; [reflexivity|]. simpl. destruct (Rge_dec _ b); [reflexivity|]. destruct us as [|u2 us2]; [reflexivity|]. rewrite H.
    destruct (Rgt_dec _ u2); [reflexivity|]. eapply (IH (length us2)); [subst; simpl; lia|reflexivity].
  - destruct us as [|u [|u2 us2]]; try reflexivity. f_equal. generalize (V3c 0). revert a. induction fuel as [|fuel IH]; intros a od; [reflexivity|]. simpl. rewrite H.
    destruct (Rlt_dec a b); [|reflexivity]. destruct (Rgt_dec _ (- ln (1 - u2))); [reflexivity|]. apply IH.
Qed.
(** ray-march sampling in a constant medium *)
Lemma march_samp_const D sg step r T samp q E : 0 < step -> 0 < vmax_val E -> (forall t, vmul (D (ray_at r t)) sg = E) ->
  forall n fuel t k, (n < fuel)%nat -> t + INR n * step >= T -> (forall j, (j < n)%nat -> t + INR j * step < T) ->
    vmax_val (vscale E (INR k)) <= q ->
    exists out, march_samp_loop fuel D sg step r T samp q t (vscale E (INR k)) = Ok out /\
      (out = T + 1 <-> INR (k + n) * vmax_val E <= q) /\ (out < T \/ out = T + 1).
Proof.
  assert (SC : forall E (k : nat), vmax_val (vscale E (INR k)) = INR k * vmax_val E).
  { intros F k. rewrite !vmax_val_least. unfold least, vscale; simpl. pose proof (pos_INR k) as K.
    destruct (Req_dec (INR k) 0) as [Z|Z]; [rewrite Z, !Rmult_0_r, Rmult_0_l; rewrite !(Rmin_left 0 0) by apply Rle_refl; reflexivity|].
    assert (K' : 0 < INR k) by lra. unfold Rmin. destruct (Rle_dec (vy F) (vz F)), (Rle_dec (vy F * INR k) (vz F * INR k)); try nra;
    repeat match goal with |- context [Rle_dec ?x ?y] => destruct (Rle_dec x y) end; try ring; try nra. }
  intros S Ep HE. induction n as [|n IH]; intros fuel t k L Hi Lo Q; (destruct fuel as [|fuel]; [lia|]); cbn [march_samp_loop].
  - destruct (Rlt_dec t T); [simpl in Hi; lra|]. exists (T + 1). split; [reflexivity|]. split; [|right; reflexivity]. rewrite Nat.add_0_r, <- SC. tauto.
  - destruct (Rlt_dec t T) as [H|H]; [|specialize (Lo 0%nat ltac:(lia)); simpl in Lo; lra].
    rewrite HE. replace (vadd (vscale E (INR k)) E) with (vscale E (INR (Datatypes.S k))).
    2:{ unfold vadd, vscale. rewrite S_INR. apply V3_eq; simpl; ring. }
    destruct (Rgt_dec (vmax_val (vscale E (INR (Datatypes.S k)))) q) as [G|G].
    + eexists. split; [reflexivity|]. rewrite !SC in *. set (e := vmax_val E) in *.
      assert (St : 0 < Rmin step (T - t) <= T - t) by (split; [apply Rmin_glb_lt; lra|apply Rmin_r]). set (s := Rmin step (T - t)) in *.
      rewrite S_INR in *. assert (F : 0 <= (q - INR k * e) / ((INR k + 1) * e - INR k * e) < 1) by (split; [apply Rle_div_iff; lra|apply Rdiv_lt_iff; lra]).
      replace (s * (q - INR k * e) / ((INR k + 1) * e - INR k * e)) with (s * ((q - INR k * e) / ((INR k + 1) * e - INR k * e))) by (field; nra).
      set (f := (q - INR k * e) / ((INR k + 1) * e - INR k * e)) in *. assert (t + s * f < T) by nra. split; [|left; assumption].
      split; intros X; [lra|]. exfalso. rewrite plus_INR, S_INR in X. pose proof (pos_INR n). nra.
    + destruct (IH fuel (t + step) (Datatypes.S k) ltac:(lia)) as (out&O1&O2).
      * rewrite S_INR in Hi. lra.
      * intros j J. specialize (Lo (Datatypes.S j) ltac:(lia)). rewrite S_INR in Lo. lra.
      * apply Rnot_gt_le, G.
      * exists out. split; [exact O1|]. replace (k + Datatypes.S n)%nat with (Datatypes.S k + n)%nat by lia. exact O2.
Qed.
