(** Sign and monotonicity of the estimate; the roulettes. *)
From Coq Require Import Reals List Bool Lia Lra.
From Coquelicot Require Import Coquelicot.
From Verif.Base Require Import Outcome.
From Verif.Model Require Import Vec Frame BBox Integrators.
From Verif.Spec Require Import IntegratorSpec.
From Verif.Proof Require Import IntegratorProof.
Import ListNotations.
Open Scope R_scope.

Definition good_scatter (l : list (isect * closure)) : Prop :=
  forall i c, In (i, c) l -> nonneg (c_albedo c) /\ 0 <= c_pdf c.

Lemma nonneg_mul a b : nonneg a -> nonneg b -> nonneg (vmul a b).
Proof. intros (?&?&?) (?&?&?). repeat split; simpl; apply Rmult_le_pos; assumption. Qed.
Lemma nonneg_add a b : nonneg a -> nonneg b -> nonneg (vadd a b).
Proof. intros (?&?&?) (?&?&?). repeat split; simpl; lra. Qed.
Lemma nonneg_0 : nonneg (V3c 0).
Proof. repeat split; simpl; lra. Qed.
Lemma survival_pos t : nonneg t -> 0 <= survival t.
Proof. intros (?&_&_). unfold survival. apply Rmin_glb; [lra|]. apply Rle_trans with (vx t); [assumption|apply Rmax_l]. Qed.
Lemma inv_nonneg x : 0 <= x -> 0 <= / x.
Proof. intros [H| <-]; [apply Rlt_le, Rinv_0_lt_compat, H|]. rewrite Rinv_0. lra. Qed.
Lemma nonneg_atten t i c : nonneg t -> nonneg (c_albedo c) -> 0 <= c_pdf c -> nonneg (attenuation t (i, c)).
Proof.
  intros T (A1&A2&A3) P. unfold attenuation.
  assert (K : 0 <= (if c_spec c then 1 else Rabs (dot (fn (i_s i)) (toWorld (i_s i) (c_wo c)))) / (c_pdf c * survival t)).
  { apply Rmult_le_pos; [destruct (c_spec c); [lra|apply Rabs_pos]|]. apply inv_nonneg, Rmult_le_pos; [assumption|apply survival_pos, T]. }
  repeat split; simpl; apply Rmult_le_pos; assumption.
Qed.

Lemma carried_nonneg t l : nonneg t -> good_scatter l -> forall x, In x (carried t l) -> nonneg x.
Proof.
  revert t; induction l as [|[i c] l IH]; intros t T G x Hx; cbn [carried] in Hx.
  - destruct Hx as [<-|[]]; assumption.
  - destruct Hx as [<-|Hx]; [assumption|]. destruct (G i c) as [A P]; [left; reflexivity|].
    apply IH in Hx; [assumption|apply nonneg_mul; [assumption|apply nonneg_atten; assumption]|].
    intros j d Hd. apply (G j d). right. exact Hd.
Qed.
Lemma nth_carried_nonneg t l k : nonneg t -> good_scatter l -> nonneg (nth k (carried t l) (V3c 0)).
Proof.
  intros T G. destruct (Nat.lt_ge_cases k (List.length (carried t l))) as [H|H].
  - eapply carried_nonneg; eauto. apply nth_In, H.
  - rewrite nth_overflow by exact H. apply nonneg_0.
Qed.

Definition nonneg_all (l : list vec3) : Prop := forall x, In x l -> nonneg x.
Lemma zip_nonneg a b : nonneg_all a -> nonneg_all b -> nonneg (vsum (zip_mul a b)).
Proof.
  revert b; induction a as [|x a IH]; intros [|y b] A B; try apply nonneg_0. cbn [zip_mul vsum fold_right].
  apply nonneg_add; [apply nonneg_mul; [apply A|apply B]; left; reflexivity|].
  apply IH; intros z Hz; [apply A|apply B]; right; exact Hz.
Qed.
Lemma zip_mono a b b' : nonneg_all a -> Forall2 le3 b b' -> le3 (vsum (zip_mul a b)) (vsum (zip_mul a b')).
Proof.
  intros A F. revert a A. induction F as [|y y' b b' L F IH]; intros [|x a] A; try (repeat split; simpl; lra).
  cbn [zip_mul vsum fold_right]. destruct (A x (or_introl eq_refl)) as (X1&X2&X3). destruct L as (L1&L2&L3).
  destruct (IH a) as (I1&I2&I3); [intros z Hz; apply A; right; exact Hz|]. unfold vsum in *.
  repeat split; simpl; apply Rplus_le_compat; auto; apply Rmult_le_compat_l; auto.
Qed.

Lemma scatterings_in h i c : In (i, c) (scatterings h) -> In (HSample i c) h.
Proof.
  induction h as [|e h IH]; [intros []|]. destruct e; cbn [scatterings]; intros H; try (right; apply IH, H).
  destruct H as [H|H]; [left; congruence|right; apply IH, H].
Qed.
Lemma lights_in h x : In x (lights h) -> exists i c, In (HShade i c) h /\ x = vadd (c_emission c) (c_nee c).
Proof.
  induction h as [|e h IH]; [intros []|]. destruct e; cbn [lights]; intros H;
    try (destruct (IH H) as (i0&c0&A&B); exists i0, c0; split; [right; exact A|exact B]).
  destruct H as [H|H].
  - exists its, c. split; [left; reflexivity|congruence].
  - destruct (IH H) as (i0&c0&A&B); exists i0, c0; split; [right; exact A|exact B].
Qed.

Lemma estimate_nonneg env t h : nonneg t -> physical h -> (forall r, nonneg (env r)) -> nonneg (estimate env t h).
Proof.
  intros T [P1 P2] En. assert (G : good_scatter (scatterings h)) by (intros i c H; apply P2 with i, scatterings_in, H).
  apply nonneg_add.
  - apply zip_nonneg; [intros x; apply carried_nonneg; assumption|].
    intros x Hx. apply lights_in in Hx. destruct Hx as (i&c&Hc&->). apply nonneg_add; apply (P1 i c Hc).
  - destruct (escape h); [apply nonneg_mul; [apply nth_carried_nonneg; assumption|apply En]|apply nonneg_0].
Qed.

Lemma Forall2_len {A B} (P : A -> B -> Prop) l l' : Forall2 P l l' -> length l = length l'.
Proof. induction 1; simpl; congruence. Qed.
Lemma estimate_mono env env' t h h' : nonneg t -> physical h ->
  scatterings h = scatterings h' -> escape h = escape h' -> Forall2 le3 (lights h) (lights h') ->
  (forall r, le3 (env r) (env' r)) -> le3 (estimate env t h) (estimate env' t h').
Proof.
  intros T [P1 P2] S0 E L En. assert (G : good_scatter (scatterings h)) by (intros i c H; apply P2 with i, scatterings_in, H).
  unfold estimate, surfaces. rewrite <- S0, <- E. rewrite <- (Forall2_len _ _ _ L).
  assert (A : le3 (vsum (zip_mul (carried t (scatterings h)) (lights h))) (vsum (zip_mul (carried t (scatterings h)) (lights h')))).
  { apply zip_mono; [intros x; apply carried_nonneg; assumption|exact L]. }
  destruct A as (A1&A2&A3).
  assert (B : le3 (match escape h with Some r => vmul (nth (length (lights h)) (carried t (scatterings h)) (V3c 0)) (env r) | None => V3c 0 end)
                  (match escape h with Some r => vmul (nth (length (lights h)) (carried t (scatterings h)) (V3c 0)) (env' r) | None => V3c 0 end)).
  { destruct (escape h) as [r|]; [|repeat split; simpl; lra].
    destruct (nth_carried_nonneg t _ (length (lights h)) T G) as (N1&N2&N3). destruct (En r) as (E1&E2&E3).
    repeat split; simpl; apply Rmult_le_compat_l; assumption. }
  destruct B as (B1&B2&B3). repeat split; simpl; lra.
Qed.

(** *** roulette *)
Lemma step_integral p a b : 0 <= p <= 1 -> is_RInt (fun u => if Rgt_dec u p then b else a) 0 1 (p * a + (1 - p) * b).
Proof.
  intros P. replace (p * a + (1 - p) * b) with (plus (scal (p - 0) a) (scal (1 - p) b)).
  2:{ unfold plus, scal; simpl; unfold mult; simpl; ring. }
  apply is_RInt_Chasles with p.
  - apply (is_RInt_ext (fun _ => a)); [|apply (is_RInt_const (V := R_NormedModule))].
    intros x Hx. rewrite Rmin_left, Rmax_right in Hx by lra. destruct (Rgt_dec x p); lra.
  - apply (is_RInt_ext (fun _ => b)); [|apply (is_RInt_const (V := R_NormedModule))].
    intros x Hx. rewrite Rmin_left, Rmax_right in Hx by lra. destruct (Rgt_dec x p); lra.
Qed.

Lemma roulette_unbiased beta : 0 < maxValue beta ->
  is_RInt (fun u => if Rgt_dec u (rr_prob beta) then 0 else / rr_prob beta) 0 1 1.
Proof.
  intros H. assert (P : 0 < rr_prob beta <= 1).
  { unfold rr_prob. split; [apply Rmin_pos; lra|apply Rmin_r]. }
  replace 1 with (rr_prob beta * / rr_prob beta + (1 - rr_prob beta) * 0) at 2 by (field; lra).
  apply step_integral. lra.
Qed.

Lemma whitted_value_fun env h v v' : whitted_value env h v -> whitted_value env h v' -> v = v'.
Proof.
  intros H. revert v'. induction H; intros v' H'; inversion H'; subst; try reflexivity; try lra; try congruence; try contradiction;
    repeat match goal with H : exists _ _, [] = _ |- _ => destruct H as (?&?&?); discriminate end.
  f_equal. f_equal. auto.
Qed.
Lemma if_ap {A B} (f : A -> B) {P} (d : {P} + {~ P}) x y : f (if d then x else y) = if d then f x else f y.
Proof. destruct d; reflexivity. Qed.
