(** Solids of revolution: the cone and the cylinder. *)
From Coq Require Import Reals List Lra Lia Psatz.
From Verif.Model Require Import Vec Frame BBox Integrators SDF.
From Verif.Spec Require Import LinAlgSpec SDFSpec.
From Verif.Proof Require Import VecLemmas SDFProof.
Import ListNotations.
Open Scope R_scope.

(** squared distance in the half plane, the axis coordinate being measured in units of sqrt B *)
Definition m2 (B t x t' x' : R) : R := (t - t') * (t - t') * B + (x - x') * (x - x').
Definition signed2 (B : R) (S : R -> R -> Prop) (t x d : R) : Prop :=
  (~ S t x -> 0 < d /\ (forall t' x', 0 <= x' -> S t' x' -> d * d <= m2 B t x t' x') /\ (exists t' x', 0 <= x' /\ S t' x' /\ m2 B t x t' x' = d * d)) /\
  (S t x -> d <= 0 /\ (forall t' x', 0 <= x' -> ~ S t' x' -> d * d <= m2 B t x t' x') /\
     (forall e, 0 < e -> exists t' x', 0 <= x' /\ ~ S t' x' /\ m2 B t x t' x' < (- d + e) * (- d + e))).

Lemma sqr_pos (y : R) : 0 <= y * y.
Proof. exact (Rle_0_sqr y). Qed.
Lemma sqr_pos_B (y B : R) : 0 < B -> 0 <= y * y * B.
Proof. intros H. apply Rmult_le_pos; [apply sqr_pos|lra]. Qed.
Section Axis.
Variables a b : vec3.
Hypothesis AB : a <> b.
Let ba := vsub b a.
Let B := dot ba ba.
Definition axis_t (p : vec3) : R := dot (vsub p a) (vsub b a) / dot (vsub b a) (vsub b a).
Definition axis_w (p : vec3) : vec3 := vsub (vsub p a) (vscale (vsub b a) (axis_t p)).
Definition axis_r (p : vec3) : R := norm (axis_w p).

Lemma B_pos : 0 < B.
Proof.
  unfold B. rewrite dot_self. apply sqrNorm_pos. intros E. apply AB. unfold ba in E.
  injection E as E1 E2 E3. apply V3_eq; lra.
Qed.
Lemma axis_dot p : dot (vsub p a) ba = axis_t p * B.
Proof. pose proof B_pos. unfold axis_t. fold ba B. field. lra. Qed.
Lemma axis_perp p : dot (axis_w p) ba = 0.
Proof.
  unfold axis_w. replace (vsub (vsub p a) (vscale (vsub b a) (axis_t p))) with (vadd (vsub p a) (vscale ba (- axis_t p)))
    by (apply V3_eq; cbn; ring).
  rewrite dot_add_l, dot_scale_l, axis_dot. fold B. ring.
Qed.
Lemma axis_split p : p = vadd (vadd a (vscale (vsub b a) (axis_t p))) (axis_w p).
Proof. unfold axis_w. apply V3_eq; cbn [vx vy vz vadd vsub vscale]; ring. Qed.
Lemma axis_of t w q : dot w ba = 0 -> q = vadd (vadd a (vscale (vsub b a) t)) w -> axis_t q = t /\ axis_w q = w.
Proof.
  intros W E. pose proof B_pos as P. fold ba in E.
  assert (T : axis_t q = t).
  { unfold axis_t. fold ba B. assert (X : vsub q a = vadd (vscale ba t) w) by (subst q; apply V3_eq; cbn; ring).
    rewrite X, dot_add_l, dot_scale_l, W. fold B. field. lra. }
  split; [exact T|]. unfold axis_w. rewrite T. subst q. fold ba. apply V3_eq; cbn; ring.
Qed.
Lemma around_iff t rho q : around a b t rho q <-> t = axis_t q /\ rho = axis_r q.
Proof.
  split.
  - intros (w&W&N&E). destruct (axis_of t w q W E) as [T V]. unfold axis_r. rewrite T, V. auto.
  - intros [-> ->]. exists (axis_w q). split; [apply axis_perp|]. split; [reflexivity|apply axis_split].
Qed.
Lemma axis_r_sq p : axis_r p * axis_r p = dot (vsub p a) (vsub p a) - axis_t p * axis_t p * B.
Proof.
  unfold axis_r. rewrite norm_sqr, <- dot_self. unfold axis_w at 1.
  replace (vsub (vsub p a) (vscale (vsub b a) (axis_t p))) with (vadd (vsub p a) (vscale ba (- axis_t p))) by (apply V3_eq; cbn; ring).
  rewrite dot_add_l, dot_scale_l, (dot_comm ba), axis_perp.
  unfold axis_w. replace (vsub (vsub p a) (vscale (vsub b a) (axis_t p))) with (vadd (vsub p a) (vscale ba (- axis_t p))) by (apply V3_eq; cbn; ring).
  rewrite dot_add_r, dot_scale_r, axis_dot. ring.
Qed.
Lemma sq_axis p q : sq p q = (axis_t p - axis_t q) * (axis_t p - axis_t q) * B + sq (axis_w p) (axis_w q).
Proof.
  pose proof (axis_perp p) as P. pose proof (axis_perp q) as Q.
  assert (E : sq p q = dot (vsub p q) (vsub p q)) by (unfold sq, dot, vsub; cbn; ring).
  assert (F : sq (axis_w p) (axis_w q) = dot (vsub (axis_w p) (axis_w q)) (vsub (axis_w p) (axis_w q))) by (unfold sq, dot, vsub; cbn; ring).
  rewrite E, F. set (v := vsub (axis_w p) (axis_w q)).
  assert (V : dot v ba = 0).
  { unfold v. replace (vsub (axis_w p) (axis_w q)) with (vadd (axis_w p) (vscale (axis_w q) (-1))) by (apply V3_eq; cbn; ring).
    rewrite dot_add_l, dot_scale_l, P, Q. ring. }
  assert (D : vsub p q = vadd (vscale ba (axis_t p - axis_t q)) v).
  { rewrite (axis_split p) at 1. rewrite (axis_split q) at 1. unfold v, ba. apply V3_eq; cbn [vx vy vz vadd vsub vscale]; ring. }
  rewrite D, !dot_add_l, !dot_add_r, !dot_scale_l, !dot_scale_r, (dot_comm ba v), V. fold B. ring.
Qed.
Lemma sq_axis_ge p q : m2 B (axis_t p) (axis_r p) (axis_t q) (axis_r q) <= sq p q.
Proof.
  rewrite sq_axis. unfold m2. apply Rplus_le_compat_l.
  set (u := axis_w p). set (v := axis_w q).
  assert (F : sq u v = sqrNorm u - 2 * dot u v + sqrNorm v) by (unfold sq, sqrNorm, dot; ring).
  rewrite F, <- !norm_sqr. fold (axis_r p) (axis_r q). unfold u, v. fold (axis_r p) (axis_r q).
  pose proof (norm_nonneg (axis_w p)) as NP. pose proof (norm_nonneg (axis_w q)) as NQ.
  pose proof (cauchy_schwarz (axis_w p) (axis_w q)) as C. rewrite !dot_self, <- !norm_sqr in C.
  fold (axis_r p) (axis_r q) in *.
  assert (dot (axis_w p) (axis_w q) <= axis_r p * axis_r q).
  { destruct (Rle_or_lt (dot (axis_w p) (axis_w q)) (axis_r p * axis_r q)) as [|L]; [assumption|].
    assert (0 <= axis_r p * axis_r q) by (apply Rmult_le_pos; assumption). nra. }
  nra.
Qed.
(** a unit vector at right angles to the axis along which the offset of p points *)
Lemma axis_dir p : exists u, norm u = 1 /\ dot u ba = 0 /\ axis_w p = vscale u (axis_r p).
Proof.
  destruct (Req_dec (axis_r p) 0) as [Z|N].
  - pose proof B_pos as P. unfold B, dot in P.
    assert (X : exists w, w <> V3 0 0 0 /\ dot w ba = 0).
    { destruct (Req_dec (vx ba) 0) as [X|X].
      - exists (V3 1 0 0). split; [intros E; injection E; lra|unfold dot; cbn [vx vy vz]; rewrite X; ring].
      - exists (V3 (- vy ba) (vx ba) 0). split; [intros E; injection E; intros; contradiction|unfold dot; cbn [vx vy vz]; ring]. }
    destruct X as (w&W&O). exists (normalized w). split; [apply unit_norm, normalized_unit, W|]. split.
    + pose proof (normalized_scale w W) as E. rewrite E, dot_scale_l in O. pose proof (norm_pos w W).
      apply Rmult_integral in O. destruct O as [O|O]; [lra|exact O].
    + rewrite Z. apply norm_zero in Z. unfold axis_r in Z. rewrite Z. apply V3_eq; cbn; ring.
  - pose proof (norm_nonneg (axis_w p)) as NP. fold (axis_r p) in NP.
    exists (vscale (axis_w p) (/ axis_r p)). rewrite norm_vscale. fold (axis_r p). split.
    + rewrite Rabs_pos_eq by (left; apply Rinv_0_lt_compat; lra). field; exact N.
    + split; [rewrite dot_scale_l, axis_perp; ring|apply V3_eq; cbn; field; exact N].
Qed.
Lemma axis_point p t' x' : 0 <= x' -> exists q, axis_t q = t' /\ axis_r q = x' /\ sq p q = m2 B (axis_t p) (axis_r p) t' x'.
Proof.
  intros X. destruct (axis_dir p) as (u&U&O&E).
  exists (vadd (vadd a (vscale (vsub b a) t')) (vscale u x')).
  destruct (axis_of t' (vscale u x') _ ltac:(rewrite dot_scale_l, O; ring) eq_refl) as [T W].
  split; [exact T|]. split.
  - unfold axis_r. rewrite W, norm_vscale, U, Rabs_pos_eq by exact X. ring.
  - rewrite sq_axis, T, W, E. unfold m2. f_equal.
    assert (S : sqrNorm u = 1) by (rewrite <- norm_sqr, U; ring). unfold sqrNorm in S.
    unfold sq. cbn [vx vy vz vscale].
    transitivity ((axis_r p - x') * (axis_r p - x') * (vx u * vx u + vy u * vy u + vz u * vz u)); [ring|rewrite S; ring].
Qed.
Lemma revolve S S2 p d : (forall q, S q <-> S2 (axis_t q) (axis_r q)) ->
  signed2 B S2 (axis_t p) (axis_r p) d -> signed_distance S p d.
Proof.
  intros H [O I]. split.
  - intros N. rewrite H in N. destruct (O N) as (D&LB&t'&x'&X&T&E). split; [exact D|]. split.
    + intros q Q. apply dist_ge; [lra|]. eapply Rle_trans; [|apply sq_axis_ge]. apply LB; [apply norm_nonneg|apply H, Q].
    + destruct (axis_point p t' x' X) as (q&Qt&Qr&Qs). exists q. split; [rewrite H, Qt, Qr; exact T|].
      apply dist_eq; [lra|]. rewrite Qs. symmetry. exact E.
  - intros Y. rewrite H in Y. destruct (I Y) as (D&LB&NX). split; [exact D|]. split.
    + intros q Q. rewrite H. destruct (Classical_Prop.classic (S2 (axis_t q) (axis_r q))) as [|N]; [assumption|exfalso].
      pose proof (LB _ _ (norm_nonneg _) N) as L. pose proof (sq_axis_ge p q) as G. rewrite <- dist_sq in G. fold (axis_r q) in L.
      pose proof (dist_nonneg p q). nra.
    + intros e E. destruct (NX e E) as (t'&x'&X&T&L). destruct (axis_point p t' x' X) as (q&Qt&Qr&Qs). exists q.
      split; [rewrite H, Qt, Qr; exact T|]. rewrite <- Qs, <- dist_sq in L. pose proof (dist_nonneg p q). nra.
Qed.
End Axis.

(** ** the cone in the half plane *)
Definition cone2 (r1 r2 t x : R) : Prop := 0 <= t <= 1 /\ x <= (1 - t) * r1 + t * r2.

Section Cone2.
Variables (B r1 r2 t x : R).
Hypothesis BP : 0 < B.
Hypothesis Hr1 : 0 <= r1.
Hypothesis Hr2 : 0 <= r2.
Hypothesis X0 : 0 <= x.
Let c := r2 - r1.
Let f := clamp ((c * (x - r1) + t * B) / (c * c + B)) 0 1.
Let cbx := x - r1 - f * c.
Let cby := t - f.
Let cax := Rmax 0 (x - (if Rlt_dec t (1 / 2) then r1 else r2)).
Let cay := Rabs (t - 1 / 2) - 1 / 2.
Let side := cbx * cbx + cby * cby * B.
Let cap := cax * cax + cay * cay * B.

Lemma f_in : 0 <= f <= 1.
Proof.
  assert (H : forall g, 0 <= clamp g 0 1 <= 1) by (intros g; unfold clamp; destruct (Rlt_dec g 0); [lra|]; destruct (Rgt_dec g 1); lra).
  apply H.
Qed.
Lemma f_var g : 0 <= g <= 1 -> (g - f) * (cby * B + cbx * c) <= 0.
Proof.
  intros G. assert (K : 0 < c * c + B) by nra.
  set (f0 := (c * (x - r1) + t * B) / (c * c + B)).
  assert (F0 : f0 * (c * c + B) = c * (x - r1) + t * B) by (unfold f0; field; lra).
  assert (E : cby * B + cbx * c = (f0 - f) * (c * c + B)).
  { rewrite Rmult_minus_distr_r, F0. unfold cby, cbx. ring. }
  rewrite E. assert (S : (g - f) * (f0 - f) <= 0).
  { destruct G as [G0 G1]. unfold f. fold f0. unfold clamp. destruct (Rlt_dec f0 0); [nra|]. destruct (Rgt_dec f0 1); [nra|]. right; ring. }
  rewrite <- Rmult_assoc. nra.
Qed.
Lemma side_near g : 0 <= g <= 1 -> side <= m2 B t x g (r1 + g * c).
Proof.
  intros G. pose proof (f_var g G) as V. unfold side, m2.
  replace ((t - g) * (t - g) * B + (x - (r1 + g * c)) * (x - (r1 + g * c)))
    with (cbx * cbx + cby * cby * B - 2 * ((g - f) * (cby * B + cbx * c)) + (g - f) * (g - f) * (B + c * c)).
  2:{ unfold cbx, cby. ring. }
  assert (0 <= (g - f) * (g - f) * (B + c * c)) by (apply Rmult_le_pos; [apply sqr_pos|pose proof (sqr_pos c); lra]). lra.
Qed.
Lemma side_pt : m2 B t x f (r1 + f * c) = side.
Proof. unfold m2, side, cbx, cby. ring. Qed.
Lemma cay_low : t < 1 / 2 -> cay = - t.
Proof. intros H. unfold cay. rewrite Rabs_left by lra. lra. Qed.
Lemma cay_high : ~ t < 1 / 2 -> cay = t - 1.
Proof. intros H. apply Rnot_lt_le in H. unfold cay. rewrite Rabs_pos_eq by lra. lra. Qed.
Lemma cap_pt : exists t' x', 0 <= x' /\ cone2 r1 r2 t' x' /\ m2 B t x t' x' = cap /\
  forall e, 0 < e -> ~ cone2 r1 r2 (if Rlt_dec t (1 / 2) then t' - e else t' + e) x'.
Proof.
  unfold cap, cax. destruct (Rlt_dec t (1 / 2)) as [L|L].
  - exists 0, (Rmin x r1). assert (M : Rmax 0 (x - r1) = x - Rmin x r1) by (unfold Rmax, Rmin; repeat destruct (Rle_dec _ _); lra).
    rewrite M, (cay_low L). split; [apply Rmin_glb; assumption|]. split; [|split].
    + split; [lra|]. pose proof (Rmin_r x r1). lra.
    + unfold m2. ring.
    + intros e E [H _]. lra.
  - exists 1, (Rmin x r2). assert (M : Rmax 0 (x - r2) = x - Rmin x r2) by (unfold Rmax, Rmin; repeat destruct (Rle_dec _ _); lra).
    rewrite M, (cay_high L). split; [apply Rmin_glb; assumption|]. split; [|split].
    + split; [lra|]. pose proof (Rmin_r x r2). lra.
    + unfold m2. ring.
    + intros e E [H _]. lra.
Qed.
Lemma side_in : 0 <= r1 + f * c /\ cone2 r1 r2 f (r1 + f * c).
Proof. pose proof f_in. unfold c. split; [nra|]. split; [assumption|nra]. Qed.
Lemma off_line : x - ((1 - t) * r1 + t * r2) = cbx - c * cby.
Proof. unfold cbx, cby, c. ring. Qed.
(** seen from the outer side of the slanted line the segment is the nearest part *)
Lemma outer t' x' : 0 <= cbx -> cone2 r1 r2 t' x' -> side <= m2 B t x t' x'.
Proof.
  intros C [T X]. pose proof (f_var t' T) as V. unfold side, m2.
  set (v := x' - (r1 + f * c)). assert (W : v <= (t' - f) * c) by (unfold v, c; unfold c in *; nra).
  assert (E : (t - t') * (t - t') * B + (x - x') * (x - x') =
    (cbx * cbx + cby * cby * B) - 2 * ((t' - f) * cby * B + v * cbx) + ((t' - f) * (t' - f) * B + v * v)) by (unfold cbx, cby, v; ring).
  rewrite E. assert (S : (t' - f) * cby * B + v * cbx <= 0).
  { apply (Rle_trans _ ((t' - f) * cby * B + (t' - f) * c * cbx)); [apply Rplus_le_compat_l, Rmult_le_compat_r; assumption|]. lra. }
  pose proof (sqr_pos_B (t' - f) B BP). pose proof (sqr_pos v). nra.
Qed.
Lemma inner t' x' : cbx <= 0 -> 0 <= t' <= 1 -> (1 - t') * r1 + t' * r2 <= x' -> side <= m2 B t x t' x'.
Proof.
  intros C T X. pose proof (f_var t' T) as V. unfold side, m2.
  set (v := x' - (r1 + f * c)). assert (W : (t' - f) * c <= v) by (unfold v, c; unfold c in *; nra).
  assert (E : (t - t') * (t - t') * B + (x - x') * (x - x') =
    (cbx * cbx + cby * cby * B) - 2 * ((t' - f) * cby * B + v * cbx) + ((t' - f) * (t' - f) * B + v * v)) by (unfold cbx, cby, v; ring).
  rewrite E. assert (S : (t' - f) * cby * B + v * cbx <= 0).
  { apply (Rle_trans _ ((t' - f) * cby * B + (t' - f) * c * cbx)); [|lra]. apply Rplus_le_compat_l. nra. }
  pose proof (sqr_pos_B (t' - f) B BP). pose proof (sqr_pos v). nra.
Qed.
Lemma side_zero : 0 <= t <= 1 -> x = (1 - t) * r1 + t * r2 -> side = 0.
Proof.
  intros T E. pose proof (side_near t T) as N. unfold m2 in N.
  replace ((t - t) * (t - t) * B + (x - (r1 + t * c)) * (x - (r1 + t * c))) with 0 in N by (rewrite E; unfold c; ring).
  assert (0 <= side) by (unfold side; apply Rplus_le_le_0_compat; [apply sqr_pos|apply sqr_pos_B; assumption]). lra.
Qed.
Lemma cbx_in : 0 <= t <= 1 -> cbx < 0 -> x < (1 - t) * r1 + t * r2.
Proof.
  intros T C. pose proof (f_var t T) as V. pose proof off_line as O. fold cby in V.
  assert (0 <= cby * c).
  { destruct (Rle_or_lt 0 (cby * c)) as [|L]; [assumption|]. assert (0 <= cby * cby * B) by (apply sqr_pos_B; assumption). nra. }
  lra.
Qed.
Lemma in_cbx : 0 <= t <= 1 -> x < (1 - t) * r1 + t * r2 -> cbx < 0.
Proof.
  intros T H. destruct (Rlt_or_le cbx 0) as [|C]; [assumption|exfalso].
  pose proof (f_var t T) as V. pose proof off_line as O. fold cby in V.
  assert (P : 0 <= cby * cby * B) by (apply sqr_pos_B; assumption).
  destruct (Rle_or_lt (cby * c) 0) as [L|L]; [lra|].
  destruct (Req_dec cbx 0) as [Z|N].
  - rewrite Z in *. assert (Q : cby * cby * B = 0) by lra. assert (0 < cby * cby) by nra. nra.
  - assert (0 < cby * c * cbx) by (apply Rmult_lt_0_compat; lra). nra.
Qed.
Let val := (if Rlt_dec cbx 0 then (if Rlt_dec cay 0 then -1 else 1) else 1) * sqrt (Rmin cap side).
Lemma cap_pos : 0 <= cap.
Proof. unfold cap. apply Rplus_le_le_0_compat; [apply sqr_pos|apply sqr_pos_B; assumption]. Qed.
Lemma side_pos : 0 <= side.
Proof. unfold side. apply Rplus_le_le_0_compat; [apply sqr_pos|apply sqr_pos_B; assumption]. Qed.
Lemma min_pos : 0 <= Rmin cap side.
Proof. apply Rmin_glb; [apply cap_pos|apply side_pos]. Qed.
Lemma val_sq : val * val = Rmin cap side.
Proof.
  unfold val. pose proof (sqrt_sqrt _ min_pos). destruct (Rlt_dec cbx 0); [destruct (Rlt_dec cay 0)|]; lra.
Qed.
Lemma cay_sign : cay < 0 <-> 0 < t < 1.
Proof. unfold cay, Rabs. destruct (Rcase_abs _); lra. Qed.

(** a point beyond one of the ends is not nearer than the nearest part of the surface *)
Lemma beyond t' x' : cone2 r1 r2 t x -> (t' < 0 \/ 1 < t') -> Rmin cap side <= m2 B t x t' x'.
Proof.
  intros [T X] T'.
  assert (K : exists z, Rmin cap side <= z * z * B /\ 0 <= z /\ z <= t /\ z <= 1 - t).
  { unfold cap, cax. destruct (Rlt_dec t (1 / 2)) as [L|L].
    - exists t. split; [|lra]. rewrite (cay_low L).
      destruct (Rle_or_lt x r1) as [Q|Q].
      + rewrite (Rmax_left 0 (x - r1)) by lra. eapply Rle_trans; [apply Rmin_l|]. lra.
      + assert (C : 0 < c). { destruct (Rlt_or_le 0 c) as [|C]; [assumption|]. unfold c in C. nra. }
        set (g := (x - r1) / c). assert (G : g * c = x - r1) by (unfold g; field; lra).
        assert (g <= t). { apply (Rmult_le_reg_r c); [assumption|]. rewrite G. unfold c; lra. }
        assert (0 <= g). { apply (Rmult_le_reg_r c); [assumption|]. lra. }
        eapply Rle_trans; [apply Rmin_r|]. eapply Rle_trans; [apply (side_near g); lra|]. unfold m2.
        replace (x - (r1 + g * c)) with 0 by lra.
        assert (SQ : (t - g) * (t - g) <= t * t) by (apply Rmult_le_compat; lra).
        pose proof (Rmult_le_compat_r B _ _ (Rlt_le _ _ BP) SQ). lra.
    - pose proof (cay_high L) as CH. apply Rnot_lt_le in L. exists (1 - t). split; [|lra]. rewrite CH.
      destruct (Rle_or_lt x r2) as [Q|Q].
      + rewrite (Rmax_left 0 (x - r2)) by lra. eapply Rle_trans; [apply Rmin_l|]. right. ring.
      + assert (C : c < 0). { destruct (Rlt_or_le c 0) as [|C]; [assumption|]. unfold c in C. nra. }
        set (g := (x - r1) / c). assert (G : g * c = x - r1) by (unfold g; field; lra).
        assert (t <= g). { destruct (Rle_or_lt t g) as [|W]; [assumption|]. assert (t * c < g * c) by nra. unfold c in *. nra. }
        assert (g <= 1). { destruct (Rle_or_lt g 1) as [|W]; [assumption|]. assert (g * c < 1 * c) by nra. unfold c in *. nra. }
        eapply Rle_trans; [apply Rmin_r|]. eapply Rle_trans; [apply (side_near g); lra|]. unfold m2.
        replace (x - (r1 + g * c)) with 0 by lra.
        assert (SQ : (t - g) * (t - g) <= (1 - t) * (1 - t)) by (replace ((t - g) * (t - g)) with ((g - t) * (g - t)) by ring; apply Rmult_le_compat; lra).
        pose proof (Rmult_le_compat_r B _ _ (Rlt_le _ _ BP) SQ). lra. }
  destruct K as (z&K&Z0&Z1&Z2). eapply Rle_trans; [exact K|]. unfold m2.
  assert (SQ : z * z <= (t - t') * (t - t')) by (destruct T'; nra). pose proof (sqr_pos (x - x')).
  pose proof (Rmult_le_compat_r B _ _ (Rlt_le _ _ BP) SQ). lra.
Qed.

Lemma cone2_exact : signed2 B (cone2 r1 r2) t x val.
Proof.
  split.
  - intros N.
    assert (Sg : val = sqrt (Rmin cap side)).
    { unfold val. destruct (Rlt_dec cbx 0) as [C|C]; [|lra]. destruct (Rlt_dec cay 0) as [Y|Y]; [|lra]. exfalso. apply N.
      apply cay_sign in Y. split; [lra|]. left. apply cbx_in; lra. }
    assert (AT : exists t' x', 0 <= x' /\ cone2 r1 r2 t' x' /\ m2 B t x t' x' = Rmin cap side).
    { unfold Rmin. destruct (Rle_dec cap side) as [L|L].
      - destruct cap_pt as (t'&x'&P1&P2&P3&_). exists t', x'. auto.
      - exists f, (r1 + f * c). pose proof side_in. split; [tauto|]. split; [tauto|apply side_pt]. }
    assert (P : 0 < Rmin cap side).
    { destruct AT as (t'&x'&A1&A2&A3). destruct min_pos as [|Z]; [assumption|exfalso]. rewrite <- Z in A3. apply N.
      unfold m2 in A3. assert (0 <= (t - t') * (t - t') * B) by (apply sqr_pos_B; assumption).
      pose proof (sqr_pos (x - x')).
      assert (Zx : (x - x') * (x - x') = 0) by lra. assert (Zt : (t - t') * (t - t') * B = 0) by lra.
      apply Rmult_integral in Zx. apply Rmult_integral in Zt. destruct Zt as [Zt|Zt]; [|lra]. apply Rmult_integral in Zt.
      assert (E1 : x = x') by (destruct Zx; lra). assert (E2 : t = t') by (destruct Zt; lra). rewrite E1, E2. exact A2. }
    split; [rewrite Sg; apply sqrt_lt_R0, P|]. rewrite val_sq. split; [|exact AT].
    intros t' x' X' [T' H']. destruct (Rle_or_lt 0 cbx) as [C|C].
    { eapply Rle_trans; [apply Rmin_r|apply outer; [assumption|split; assumption]]. }
    (* beyond an end, facing the cap *)
    assert (OUT : t < 0 \/ 1 < t).
    { destruct (Rlt_or_le t 0) as [|L0]; [auto|]. destruct (Rlt_or_le 1 t) as [|L1]; [auto|]. exfalso. apply N. split; [lra|]. left. apply cbx_in; lra. }
    eapply Rle_trans; [apply Rmin_l|]. unfold cap, cax. pose proof f_in as F. unfold m2. destruct OUT as [O|O].
    + destruct (Rlt_dec t (1 / 2)) as [L|L]; [|lra]. rewrite (cay_low L).
      assert (Q : x <= r1).
      { destruct (Rle_or_lt x r1) as [|Q]; [assumption|exfalso]. pose proof (f_var 0 ltac:(lra)) as V.
        assert (FC : 0 < f * c) by (unfold cbx in C; lra). assert (0 < f) by (destruct F as [[|Z] _]; [assumption|rewrite <- Z in FC; lra]).
        assert (0 < c) by nra. assert (cby < 0) by (unfold cby; lra). assert (cby * B + cbx * c < 0) by nra. nra. }
      rewrite (Rmax_left 0 (x - r1)) by lra. assert (SQ : t * t <= (t - t') * (t - t')) by nra. pose proof (sqr_pos (x - x')).
      pose proof (Rmult_le_compat_r B _ _ (Rlt_le _ _ BP) SQ). lra.
    + destruct (Rlt_dec t (1 / 2)) as [L|L]; [lra|]. rewrite (cay_high L).
      assert (Q : x <= r2).
      { destruct (Rle_or_lt x r2) as [|Q]; [assumption|exfalso]. pose proof (f_var 1 ltac:(lra)) as V.
        assert (FC : (1 - f) * c < 0) by (unfold cbx, c in *; lra). assert (0 < 1 - f) by (destruct F as [_ [|Z]]; [lra|rewrite Z in FC; lra]).
        assert (c < 0) by nra. assert (0 < cby) by (unfold cby; lra). assert (0 < cby * B + cbx * c) by nra. nra. }
      rewrite (Rmax_left 0 (x - r2)) by lra. assert (SQ : (t - 1) * (t - 1) <= (t - t') * (t - t')) by nra. pose proof (sqr_pos (x - x')).
      pose proof (Rmult_le_compat_r B _ _ (Rlt_le _ _ BP) SQ). lra.
  - intros [T X]. split; [|split].
    + unfold val. pose proof (sqrt_pos (Rmin cap side)). destruct X as [X|X].
      * assert (C := in_cbx T X). destruct (Rlt_dec cbx 0); [|lra]. destruct (Rlt_dec cay 0) as [Y|Y]; [lra|].
        assert (Z : Rmin cap side = 0); [|rewrite Z, sqrt_0; lra].
        assert (TT : t = 0 \/ t = 1).
        { destruct T as [[T1|T1] [T2|T2]]; auto. exfalso. apply Y, cay_sign. lra. }
        apply Rle_antisym; [|apply min_pos]. eapply Rle_trans; [apply Rmin_l|]. unfold cap, cax.
        destruct TT as [TT|TT].
        -- destruct (Rlt_dec t (1 / 2)) as [L|L]; [|lra]. rewrite (cay_low L), Rmax_left by (rewrite TT in X; lra). rewrite TT. lra.
        -- destruct (Rlt_dec t (1 / 2)) as [L|L]; [lra|]. rewrite (cay_high L), Rmax_left by (rewrite TT in X; lra). rewrite TT. lra.
      * assert (Z : Rmin cap side = 0).
        { apply Rle_antisym; [|apply min_pos]. eapply Rle_trans; [apply Rmin_r|]. rewrite (side_zero T X). lra. }
        rewrite Z, sqrt_0. lra.
    + intros t' x' X' N. rewrite val_sq.
      destruct (Rlt_or_le t' 0) as [|T0]; [apply beyond; [split; assumption|auto]|].
      destruct (Rlt_or_le 1 t') as [|T1]; [apply beyond; [split; assumption|auto]|].
      assert (H' : (1 - t') * r1 + t' * r2 < x') by (apply Rnot_le_lt; intros H; apply N; split; lra).
      eapply Rle_trans; [apply Rmin_r|]. apply inner; [|lra|lra].
      destruct X as [X|X]; [left; apply in_cbx; assumption|]. pose proof (side_zero T X) as Z. unfold side in Z.
      assert (0 <= cby * cby * B) by (apply sqr_pos_B; assumption). nra.
    + intros e E.
      assert (VN : - val = sqrt (Rmin cap side)).
      { assert (V0 : val <= 0 \/ 0 < val) by lra. pose proof (sqrt_pos (Rmin cap side)) as SP. pose proof val_sq as VS.
        destruct X as [X|X].
        - assert (C := in_cbx T X). unfold val in *. destruct (Rlt_dec cbx 0); [|lra]. destruct (Rlt_dec cay 0) as [Y|Y]; [lra|].
          assert (Z : Rmin cap side = 0); [|rewrite Z, sqrt_0; lra].
          assert (TT : t = 0 \/ t = 1).
          { destruct T as [[T1|T1] [T2|T2]]; auto. exfalso. apply Y, cay_sign. lra. }
          apply Rle_antisym; [|apply min_pos]. eapply Rle_trans; [apply Rmin_l|]. unfold cap, cax.
          destruct TT as [TT|TT].
          + destruct (Rlt_dec t (1 / 2)) as [L|L]; [|lra]. rewrite (cay_low L), Rmax_left by (rewrite TT in X; lra). rewrite TT. lra.
          + destruct (Rlt_dec t (1 / 2)) as [L|L]; [lra|]. rewrite (cay_high L), Rmax_left by (rewrite TT in X; lra). rewrite TT. lra.
        - assert (Z : Rmin cap side = 0).
          { apply Rle_antisym; [|apply min_pos]. eapply Rle_trans; [apply Rmin_r|]. rewrite (side_zero T X). lra. }
          assert (val * val = 0) by lra. rewrite Z, sqrt_0. nra. }
      rewrite VN. set (s := sqrt (Rmin cap side)). assert (SS : s * s = Rmin cap side) by apply sqrt_sqrt, min_pos.
      assert (S0 : 0 <= s) by apply sqrt_pos.
      (* moving a point of the half plane by less than e changes the distance by less than e *)
      assert (MV : forall u v, u * u * B + v * v = s * s -> forall u' v', u' * u' * B + v' * v' < e * e ->
                   (u + u') * (u + u') * B + (v + v') * (v + v') < (s + e) * (s + e)).
      { intros u v U u' v' U'.
        assert (CS : (u * u' * B + v * v') * (u * u' * B + v * v') <= (u * u * B + v * v) * (u' * u' * B + v' * v')).
        { pose proof (sqr_pos_B (u * v' - u' * v) B BP). nra. }
        rewrite U in CS. assert (L : u * u' * B + v * v' <= s * e).
        { destruct (Rle_or_lt (u * u' * B + v * v') (s * e)) as [|L]; [assumption|exfalso].
          assert (P1 : 0 <= s * e) by (apply Rmult_le_pos; lra).
          assert (P2 : (s * e) * (s * e) < (u * u' * B + v * v') * (u * u' * B + v * v')) by nra.
          assert (P3 : 0 <= s * s) by nra. assert (P4 : s * s * (u' * u' * B + v' * v') <= s * s * (e * e)) by (apply Rmult_le_compat_l; lra). nra. }
        nra. }
      unfold Rmin in SS. destruct (Rle_dec cap side) as [L|L].
      * destruct cap_pt as (t'&x'&P1&P2&P3&P4).
        assert (D : exists g, 0 < g /\ g * g * B < e * e).
        { exists (e / (2 * sqrt B)). assert (SB : 0 < sqrt B) by (apply sqrt_lt_R0, BP). split; [apply Rdiv_lt_0_compat; lra|].
          replace (e / (2 * sqrt B) * (e / (2 * sqrt B)) * B) with (e * e / 4).
          2:{ rewrite <- (sqrt_sqrt B) at 3 by lra. field. lra. }
          nra. }
        destruct D as (g&G&GB). eexists; exists x'. split; [exact P1|]. split; [apply (P4 g G)|].
        unfold m2 in *. destruct (Rlt_dec t (1 / 2)).
        -- pose proof (MV (t - t') (x - x') ltac:(lra) g 0 ltac:(lra)) as M. replace (t - (t' - g)) with (t - t' + g) by ring. rewrite Rplus_0_r in M. exact M.
        -- pose proof (MV (t - t') (x - x') ltac:(lra) (- g) 0 ltac:(lra)) as M. replace (t - (t' + g)) with (t - t' + - g) by ring. rewrite Rplus_0_r in M. exact M.
      * exists f, (r1 + f * c + e / 2). pose proof side_in as (SI&_). split; [lra|]. split.
        -- intros [_ H]. unfold c in H. lra.
        -- pose proof side_pt as SP. unfold m2 in *. pose proof (MV (t - f) (x - (r1 + f * c)) ltac:(lra) 0 (- (e / 2)) ltac:(nra)) as M.
           replace (x - (r1 + f * c + e / 2)) with (x - (r1 + f * c) + - (e / 2)) by ring. rewrite Rplus_0_r in M. exact M.
Qed.
End Cone2.

Lemma cone_exact a b r1 r2 p : sensible (SDFCone a b r1 r2) -> signed_distance (solid (SDFCone a b r1 r2)) p (sdf_eval (SDFCone a b r1 r2) p).
Proof.
  intros (AB&Hr1&Hr2). apply (revolve a b AB _ (cone2 r1 r2)).
  - intros q. cbn [solid]. split.
    + intros (t&rho&T&L&A). apply around_iff in A; [|exact AB]. destruct A as [-> ->]. split; assumption.
    + intros [T L]. exists (axis_t a b q), (axis_r a b q). split; [exact T|]. split; [exact L|]. apply around_iff; auto.
  - cbn [sdf_eval]. unfold cone_eval. fold (axis_t a b p).
    replace (sqrt (dot (vsub p a) (vsub p a) - axis_t a b p * axis_t a b p * dot (vsub b a) (vsub b a))) with (axis_r a b p).
    2:{ rewrite <- (axis_r_sq a b AB p). symmetry. apply sqrt_square, norm_nonneg. }
    apply cone2_exact; [apply (B_pos a b AB)|exact Hr1|exact Hr2|apply norm_nonneg].
Qed.

(** ** the cylinder is the cone with equal radii *)
Lemma cylinder_is_cone a b r p : a <> b -> sdf_eval (SDFCylinder a b r) p = sdf_eval (SDFCone a b r r) p.
Proof.
  intros AB. cbn [sdf_eval]. unfold cylinder_eval, cone_eval. fold (axis_t a b p).
  pose proof (B_pos a b AB) as BP. pose proof (axis_dot a b AB p) as AD. pose proof (axis_r_sq a b AB p) as RS.
  replace (sqrt (dot (vsub p a) (vsub p a) - axis_t a b p * axis_t a b p * dot (vsub b a) (vsub b a))) with (axis_r a b p).
  2:{ rewrite <- RS. symmetry. apply sqrt_square, norm_nonneg. }
  rewrite AD. set (B := dot (vsub b a) (vsub b a)) in *. set (t := axis_t a b p) in *.
  replace (norm (vsub (vscale (vsub p a) B) (vscale (vsub b a) (t * B)))) with (B * axis_r a b p).
  2:{ unfold axis_r. rewrite <- (Rabs_pos_eq B) at 1 by lra. rewrite <- norm_vscale. f_equal. unfold axis_w. fold t.
      apply V3_eq; cbn [vx vy vz vsub vscale]; ring. }
  set (x := axis_r a b p). clearbody x t. clear AD RS. clearbody B. clear AB.
  replace (r - r) with 0 by ring.
  replace ((0 * (x - r) + t * B) / (0 * 0 + B)) with t by (field; lra).
  replace (B * x - r * B) with (B * (x - r)) by ring.
  replace (Rabs (t * B - B * (1 / 2)) - B * (1 / 2)) with (B * (Rabs (t - 1 / 2) - 1 / 2)).
  2:{ replace (t * B - B * (1 / 2)) with (B * (t - 1 / 2)) by ring. rewrite Rabs_mult, (Rabs_pos_eq B) by lra. ring. }
  replace (x - r - clamp t 0 1 * 0) with (x - r) by ring.
  replace (if Rlt_dec t (1 / 2) then r else r) with r by (destruct (Rlt_dec _ _); reflexivity).
  set (X := x - r). set (Y := Rabs (t - 1 / 2) - 1 / 2). set (Z := t - clamp t 0 1).
  assert (ZY : Z * Z = Rmax 0 Y * Rmax 0 Y).
  { unfold Z, Y, clamp. destruct (Rlt_dec t 0).
    - rewrite Rabs_left, Rmax_right by lra. field.
    - destruct (Rgt_dec t 1).
      + rewrite Rabs_pos_eq, Rmax_right by lra. field.
      + rewrite Rmax_left; [ring|]. unfold Rabs; destruct (Rcase_abs _); lra. }
  rewrite ZY. clearbody X Y. clear Z ZY.
  assert (BX : forall q, (B * q > 0 <-> q > 0) /\ (B * q < 0 <-> q < 0)).
  { intros q. split; split; intros H.
    - destruct (Rlt_or_le 0 q) as [L|L]; [exact L|exfalso]. assert (B * q <= B * 0) by (apply Rmult_le_compat_l; lra). lra.
    - apply Rmult_lt_0_compat; lra.
    - destruct (Rlt_or_le q 0) as [L|L]; [exact L|exfalso]. assert (B * 0 <= B * q) by (apply Rmult_le_compat_l; lra). lra.
    - assert (B * q < B * 0) by (apply Rmult_lt_compat_l; lra). lra. }
  pose proof (sqr_pos X) as PX. pose proof (sqr_pos_B Y B BP) as PY. pose proof (sqr_pos B) as PB.
  assert (SB : forall q, 0 <= q -> sqrt (B * B * q) / B = sqrt q).
  { intros q Q. rewrite sqrt_mult, sqrt_square by lra. field. lra. }
  destruct (Rlt_dec (Rmax (B * X) (B * Y)) 0) as [M|M].
  - pose proof (Rmax_l (B * X) (B * Y)). pose proof (Rmax_r (B * X) (B * Y)).
    assert (X1 : X < 0) by (apply BX; lra). assert (Y1 : Y < 0) by (apply BX; lra).
    destruct (Rlt_dec X 0); [|lra]. destruct (Rlt_dec Y 0); [|lra].
    rewrite (Rmax_left 0 X), (Rmax_left 0 Y) by lra.
    replace (0 * 0 + Y * Y * B) with (Y * Y * B) by ring. replace (X * X + 0 * 0 * B) with (X * X) by ring.
    assert (E : Rmin (B * X * (B * X)) (B * Y * (B * Y) * B) = B * B * Rmin (Y * Y * B) (X * X)).
    { rewrite (Rmin_comm (Y * Y * B)). unfold Rmin. destruct (Rle_dec (X * X) (Y * Y * B)) as [L|L].
      - destruct (Rle_dec (B * X * (B * X)) (B * Y * (B * Y) * B)) as [L'|L']; [ring|]. exfalso. apply L'. nra.
      - destruct (Rle_dec (B * X * (B * X)) (B * Y * (B * Y) * B)) as [L'|L']; [|ring]. exfalso.
        assert (0 < B * B) by nra. apply Rnot_le_lt in L. nra. }
    rewrite E. assert (MP : 0 < Rmin (Y * Y * B) (X * X)).
    { apply Rmin_glb_lt; [apply Rmult_lt_0_compat; [nra|lra]|nra]. }
    assert (BB : 0 < B * B * Rmin (Y * Y * B) (X * X)) by (apply Rmult_lt_0_compat; [apply Rmult_lt_0_compat; exact BP|exact MP]).
    unfold sgn. destruct (Rlt_dec _ 0); [|lra]. rewrite Rabs_Ropp, Rabs_pos_eq by lra.
    unfold Rdiv. rewrite Rmult_assoc. fold (Rdiv (sqrt (B * B * Rmin (Y * Y * B) (X * X))) B). rewrite SB by lra. reflexivity.
  - assert (NM : X >= 0 \/ Y >= 0).
    { destruct (Rlt_or_le X 0) as [X1|]; [|lra]. destruct (Rlt_or_le Y 0) as [Y1|]; [|lra]. exfalso. apply M.
      apply Rmax_lub_lt; apply BX; assumption. }
    assert (E : (if Rgt_dec (B * X) 0 then B * X * (B * X) else 0) + (if Rgt_dec (B * Y) 0 then B * Y * (B * Y) * B else 0)
      = B * B * (Rmax 0 X * Rmax 0 X + Rmax 0 Y * Rmax 0 Y * B)).
    { destruct (Rgt_dec (B * X) 0) as [X1|X1]; [apply (proj1 (proj1 (BX X))) in X1; rewrite (Rmax_right 0 X) by lra|
        assert (X <= 0) by (apply Rnot_gt_le; intros Q; apply X1, (proj1 (BX X)), Q); rewrite (Rmax_left 0 X) by lra];
      (destruct (Rgt_dec (B * Y) 0) as [Y1|Y1]; [apply (proj1 (proj1 (BX Y))) in Y1; rewrite (Rmax_right 0 Y) by lra|
        assert (Y <= 0) by (apply Rnot_gt_le; intros Q; apply Y1, (proj1 (BX Y)), Q); rewrite (Rmax_left 0 Y) by lra]); ring. }
    rewrite E. set (q := Rmax 0 X * Rmax 0 X + Rmax 0 Y * Rmax 0 Y * B).
    assert (Q : 0 <= q) by (unfold q; apply Rplus_le_le_0_compat; [apply sqr_pos|apply sqr_pos_B; assumption]).
    assert (BB : 0 <= B * B * q) by (apply Rmult_le_pos; assumption).
    unfold sgn. destruct (Rlt_dec (B * B * q) 0); [lra|]. rewrite Rabs_pos_eq by lra.
    unfold Rdiv. rewrite Rmult_assoc. fold (Rdiv (sqrt (B * B * q)) B). rewrite SB by exact Q.
    assert (S1 : (if Rlt_dec X 0 then if Rlt_dec Y 0 then -1 else 1 else 1) = 1).
    { destruct (Rlt_dec X 0); [|reflexivity]. destruct (Rlt_dec Y 0); [|reflexivity]. lra. }
    rewrite S1. f_equal. f_equal. unfold q.
    destruct (Rle_or_lt 0 X) as [X1|X1].
    + rewrite (Rmax_right 0 X) by lra. destruct (Rle_or_lt 0 Y) as [Y1|Y1].
      * rewrite (Rmax_right 0 Y) by lra. rewrite Rmin_left by lra. reflexivity.
      * rewrite (Rmax_left 0 Y) by lra. rewrite Rmin_right by lra. reflexivity.
    + rewrite (Rmax_left 0 X) by lra. rewrite (Rmax_right 0 Y) by lra. rewrite Rmin_left by lra. reflexivity.
Qed.
Lemma cylinder_exact a b r p : sensible (SDFCylinder a b r) -> signed_distance (solid (SDFCylinder a b r)) p (sdf_eval (SDFCylinder a b r) p).
Proof.
  intros (AB&R0). rewrite (cylinder_is_cone a b r p AB).
  assert (E : forall q, solid (SDFCylinder a b r) q <-> solid (SDFCone a b r r) q).
  { intros q. cbn [solid]. split; intros (t&rho&T&L&A); exists t, rho; (split; [exact T|]); (split; [lra|exact A]). }
  destruct (cone_exact a b r r p (conj AB (conj R0 R0))) as [O I]. split.
  - intros N. rewrite E in N. destruct (O N) as (D&LB&q&Q&QE). split; [exact D|]. split; [intros q' Q'; apply LB, E, Q'|].
    exists q. split; [apply E, Q|exact QE].
  - intros Y. rewrite E in Y. destruct (I Y) as (D&LB&NX). split; [exact D|]. split; [intros q Q; apply E, LB, Q|].
    intros e H. destruct (NX e H) as (q&Q&L). exists q. split; [rewrite E; exact Q|exact L].
Qed.
Lemma shapes_exact s p : sensible s -> signed_distance (solid s) p (sdf_eval s p).
Proof.
  destruct s; intros H; [apply sphere_exact|apply plane_exact|apply box_exact|apply cylinder_exact|apply cone_exact]; exact H.
Qed.
