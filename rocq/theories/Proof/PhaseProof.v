(** Phase functions: normalisation and sampling. *)
From Coq Require Import Reals Lra Lia Psatz.
From Coquelicot Require Import Coquelicot.
From Verif.Base Require Import RTac Outcome.
From Verif.Model Require Import Vec Frame Warp Phase.
From Verif.Spec Require Import CameraSpec WarpSpec LinAlgSpec FrameSpec BsdfSpec PhaseSpec.
From Verif.Proof Require Import VecLemmas FrameProof WarpProof.
Open Scope R_scope.

Lemma dot_comm a b : dot a b = dot b a.
Proof. unfold dot. ring. Qed.
Lemma dot_neg_l a b : dot (vneg a) b = - dot a b.
Proof. unfold dot, vneg; simpl. ring. Qed.
Lemma dot_neg_r a b : dot a (vneg b) = - dot a b.
Proof. unfold dot, vneg; simpl. ring. Qed.
Lemma dot_placed s t n v : orthonormal s t n -> dot (placed s t n v) n = vz v.
Proof.
  intros (A&B&C&D&E&F). transitivity (vx v * dot s n + vy v * dot t n + vz v * dot n n).
  - unfold placed, dot, vadd, vscale; simpl. ring.
  - rewrite C, E, F. ring.
Qed.
Lemma unit_dot a b : unit3 a -> unit3 b -> -1 <= dot a b <= 1.
Proof.
  unfold unit3, dot. destruct a as [a1 a2 a3], b as [b1 b2 b3]; simpl. intros A B.
  assert (H : (a1 * b1 + a2 * b2 + a3 * b3) * (a1 * b1 + a2 * b2 + a3 * b3) <= 1).
  { replace 1 with ((a1 * a1 + a2 * a2 + a3 * a3) * (b1 * b1 + b2 * b2 + b3 * b3)) by (rewrite A, B; ring).
    pose proof (Rle_0_sqr (a1 * b2 - a2 * b1)). pose proof (Rle_0_sqr (a1 * b3 - a3 * b1)). pose proof (Rle_0_sqr (a2 * b3 - a3 * b2)). unfold Rsqr in *. lra. }
  split; nra.
Qed.

(** ** direction about an axis *)
Lemma about_local wo c v : about wo c v =
  placed (fst (coordinateSystem wo)) (snd (coordinateSystem wo)) (vneg wo)
    (V3 (sqrt (Rmax 0 (1 - c * c)) * cos (2 * PI * v)) (sqrt (Rmax 0 (1 - c * c)) * sin (2 * PI * v)) c).
Proof.
  unfold about. destruct (coordinateSystem wo) as [a b]. unfold sphericalDirection, placed, vadd, vscale, vneg; simpl.
  apply V3_eq; simpl; ring.
Qed.
Lemma about_frame wo : unit3 wo -> orthonormal (fst (coordinateSystem wo)) (snd (coordinateSystem wo)) (vneg wo).
Proof.
  intros U. destruct (frame_orthonormal wo U) as (O&_&E).
  assert (Es : fs (frame_of wo) = fst (coordinateSystem wo)) by (unfold frame_of; destruct (coordinateSystem wo); reflexivity).
  assert (Et : ft (frame_of wo) = snd (coordinateSystem wo)) by (unfold frame_of; destruct (coordinateSystem wo); reflexivity).
  rewrite Es, Et, E in O. destruct O as (A&B&C&D&F&G). unfold orthonormal.
  rewrite !dot_neg_r, dot_neg_l, F, G. repeat split; try assumption; lra.
Qed.
Lemma about_dot wo c v : unit3 wo -> dot (about wo c v) (vneg wo) = c.
Proof. intros U. rewrite about_local, dot_placed by (apply about_frame, U). reflexivity. Qed.
Lemma about_dot' wo c v : unit3 wo -> dot wo (about wo c v) = - c.
Proof. intros U. pose proof (about_dot wo c v U) as H. rewrite dot_neg_r, dot_comm in H. lra. Qed.
Lemma placed_unit s t n v : orthonormal s t n -> unit3 v -> unit3 (placed s t n v).
Proof.
  unfold orthonormal, unit3. intros (A&B&C&D&E&F) U.
  replace (dot (placed s t n v) (placed s t n v)) with
    (dot s s * (vx v * vx v) + dot t t * (vy v * vy v) + dot n n * (vz v * vz v)
     + 2 * (dot s t * (vx v * vy v)) + 2 * (dot t n * (vy v * vz v)) + 2 * (dot s n * (vx v * vz v))).
  - rewrite A, B, C, D, E, F. unfold dot in U. lra.
  - unfold dot, placed, vadd, vscale; simpl. ring.
Qed.
Lemma about_unit wo c v : unit3 wo -> -1 <= c <= 1 -> unit3 (about wo c v).
Proof.
  intros U C. rewrite about_local. apply placed_unit; [apply about_frame, U|]. rewrite sqrt_rmax. apply (sph_dir_unit c (2 * PI * v) C).
Qed.

Lemma about_law wo (cf F b : R -> R) : unit3 wo -> (forall u, 0 <= u <= 1 -> -1 <= cf u <= 1) ->
  (forall c, -1 <= c <= 1 -> interval_measure (fun y => c <= cf y) (b c) /\ is_RInt F c 1 (b c / (2 * PI))) ->
  law_around (vneg wo) (fun u => about wo (cf (y2 u)) (x2 u)) (fun w => F (dot w (vneg wo))).
Proof.
  intros U I L.
  exists (fst (coordinateSystem wo)), (snd (coordinateSystem wo)),
    (fun u => V3 (sqrt (Rmax 0 (1 - cf (y2 u) * cf (y2 u))) * cos (2 * PI * x2 u)) (sqrt (Rmax 0 (1 - cf (y2 u) * cf (y2 u))) * sin (2 * PI * x2 u)) (cf (y2 u))),
    (fun v => F (vz v)).
  split; [apply about_frame, U|]. split; [|cbv zeta; split].
  - apply (height_law_of _ _ _ cf F b).
    + intros s S. split; [|apply I, S]. rewrite sqrt_rmax. reflexivity.
    + reflexivity.
    + intros c C _. apply L, C.
  - intros u. apply about_local.
  - intros v. f_equal. apply (dot_placed (fst (coordinateSystem wo)) (snd (coordinateSystem wo)) (vneg wo) v), about_frame, U.
Qed.
Lemma density_around_of wo (pdf : vec3 -> R) (F : R -> R) : unit3 wo ->
  (forall w, pdf w = F (dot w wo)) -> (forall c, -1 <= c <= 1 -> 0 <= F c) -> is_RInt F (-1) 1 (1 / (2 * PI)) ->
  density_around wo pdf.
Proof.
  intros U E P L. split.
  - intros v V. rewrite E. apply P, unit_dot; assumption.
  - intros s t O. unfold sphere_integral. pose proof PI_RGT_0.
    replace 1 with (2 * PI * (1 / (2 * PI))) by (field; lra). apply (cap_integral_of _ F); [|exact L].
    intros z q. rewrite E, dot_placed by exact O. reflexivity.
Qed.

(** ** Henyey-Greenstein *)
Lemma hg_den_pos g c : -1 < g < 1 -> -1 <= c <= 1 -> 0 < 1 + g * g - 2 * g * c.
Proof. intros G C. destruct (Rle_dec 0 g); nra. Qed.
Lemma hg_pos c g : -1 < g < 1 -> -1 <= c <= 1 -> 0 < hg c g.
Proof.
  intros G C. unfold hg. cbv zeta. pose proof PI_RGT_0. pose proof (hg_den_pos g c G C) as D.
  apply Rdiv_lt_0_compat.
  - apply Rmult_lt_0_compat; [apply Rdiv_lt_0_compat; lra|nra].
  - apply Rmult_lt_0_compat; [exact D|apply sqrt_lt_R0, D].
Qed.
Lemma hg_int g c : -1 < g < 1 -> g <> 0 -> -1 <= c <= 1 ->
  is_RInt (fun z => hg z g) c 1
    ((1 - ((1 - g * g) / sqrt (1 + g * g - 2 * g * c) - (1 - g)) / (2 * g)) / (2 * PI)).
Proof.
  intros G N C. pose proof PI_RGT_0 as P.
  apply (is_RInt_val _ _ _ ((1 - g * g) / (4 * PI * g) * / sqrt (1 + g * g - 2 * g * 1) - (1 - g * g) / (4 * PI * g) * / sqrt (1 + g * g - 2 * g * c))).
  { pose proof (hg_den_pos g c G C) as D. apply sqrt_lt_R0 in D.
    replace (1 + g * g - 2 * g * 1) with ((1 - g) * (1 - g)) by ring. rewrite sqrt_square by lra.
    set (S := sqrt _) in *. field. repeat split; lra. }
  apply (is_RInt_derive (fun z => (1 - g * g) / (4 * PI * g) * / sqrt (1 + g * g - 2 * g * z))); rewrite Rmin_left, Rmax_right by lra; intros x X;
    assert (Dx : 0 < 1 + g * g - 2 * g * x) by (apply hg_den_pos; lra); pose proof (sqrt_lt_R0 _ Dx) as S.
  - auto_derive.
    + replace (1 + g * g + - (2 * g * x)) with (1 + g * g - 2 * g * x) by ring. split; [exact Dx|]. split; [|trivial]. lra.
    + replace (1 + g * g + - (2 * g * x)) with (1 + g * g - 2 * g * x) by ring. unfold hg. cbv zeta.
      pose proof (sqrt_sqrt _ (Rlt_le _ _ Dx)) as Q. set (r := sqrt _) in *. rewrite <- Q. field. repeat split; lra.
  - apply (ex_derive_continuous (fun z => hg z g)). unfold hg. auto_derive.
    replace (1 + g * g + - (2 * g * x)) with (1 + g * g - 2 * g * x) by ring. split; [exact Dx|]. split; [|trivial].
    apply Rmult_integral_contrapositive_currified; lra.
Qed.
Lemma hg_zero c : hg c 0 = 1 / (4 * PI).
Proof. pose proof PI_RGT_0. unfold hg. cbv zeta. replace (1 + 0 * 0 - 2 * 0 * c) with 1 by ring. rewrite sqrt_1. field. lra. Qed.
Lemma hg_total g : -1 < g < 1 -> is_RInt (fun z => hg z g) (-1) 1 (1 / (2 * PI)).
Proof.
  intros G. pose proof PI_RGT_0. destruct (Req_dec g 0) as [->|N].
  - apply (is_RInt_ext (fun _ => 1 / (4 * PI))); [intros; symmetry; apply hg_zero|]. apply const_int. field. lra.
  - eapply is_RInt_val; [|apply (hg_int g (-1) G N); lra].
    replace (1 + g * g - 2 * g * -1) with ((1 + g) * (1 + g)) by ring. rewrite sqrt_square by lra. field. repeat split; lra.
Qed.
(** the sampled cosine in closed form *)
Lemma hg_cos_form g u : -1 < g < 1 -> 1 / 1000 <= Rabs g -> 0 <= u <= 1 ->
  0 < 1 - g + 2 * g * u /\
  1 + g * g - 2 * g * hg_cos g u = ((1 - g * g) / (1 - g + 2 * g * u)) * ((1 - g * g) / (1 - g + 2 * g * u)).
Proof.
  intros G A U. assert (K : 0 < 1 - g + 2 * g * u) by (destruct (Rle_dec 0 g); nra). split; [exact K|].
  unfold hg_cos. destruct (Rlt_dec (Rabs g) (1 / 1000)); [lra|]. cbv zeta.
  replace ((2 * u - 1) * g + 1) with (1 - g + 2 * g * u) by ring. field. lra.
Qed.
Lemma sq_le a b : 0 <= a -> 0 <= b -> (a * a <= b * b <-> a <= b).
Proof. intros A B. split; intros H; nra. Qed.
Lemma div_cmp a x y : 0 < a -> 0 < x -> 0 < y -> (a / x <= y <-> a / y <= x).
Proof.
  intros A X Y. rewrite !Rdiv_le_iff by assumption. split; intros; lra.
Qed.
Lemma hg_cos_cmp g u c : -1 < g < 1 -> 1 / 1000 <= Rabs g -> 0 <= u <= 1 -> -1 <= c <= 1 ->
  (c <= hg_cos g u <-> ((1 - g * g) / sqrt (1 + g * g - 2 * g * c) - (1 - g)) / (2 * g) <= u).
Proof.
  intros G A U C. destruct (hg_cos_form g u G A U) as [K E].
  pose proof (hg_den_pos g c G C) as D. pose proof (sqrt_lt_R0 _ D) as S. pose proof (sqrt_sqrt _ (Rlt_le _ _ D)) as Q.
  set (s := sqrt _) in *. set (k := 1 - g + 2 * g * u) in *. assert (B : 0 < 1 - g * g) by nra.
  assert (W : 0 < (1 - g * g) / k) by (apply Rdiv_lt_0_compat; assumption).
  assert (V : 0 < (1 - g * g) / s) by (apply Rdiv_lt_0_compat; assumption).
  assert (N : g <> 0) by (intros ->; rewrite Rabs_R0 in A; lra).
  destruct (Rlt_dec 0 g) as [P|P].
  - rewrite Rdiv_le_iff by lra.
    transitivity ((1 - g * g) / k * ((1 - g * g) / k) <= s * s); [rewrite <- E, Q; split; intros; nra|].
    rewrite sq_le by lra. rewrite div_cmp by lra. unfold k. split; intros; lra.
  - replace (((1 - g * g) / s - (1 - g)) / (2 * g)) with (((1 - g) - (1 - g * g) / s) / (- (2 * g))) by (field; lra).
    rewrite Rdiv_le_iff by lra.
    transitivity (s * s <= (1 - g * g) / k * ((1 - g * g) / k)); [rewrite <- E, Q; split; intros; nra|].
    rewrite sq_le by lra. rewrite Rle_div_iff by lra. transitivity (k <= (1 - g * g) / s); [rewrite Rle_div_iff by lra; lra|].
    unfold k. split; intros; lra.
Qed.
Lemma hg_cos_range g u : -1 < g < 1 -> 0 <= u <= 1 -> -1 <= hg_cos g u <= 1.
Proof.
  intros G U. destruct (Rlt_dec (Rabs g) (1 / 1000)) as [A|A].
  - unfold hg_cos. destruct (Rlt_dec _ _); lra.
  - assert (A' : 1 / 1000 <= Rabs g) by lra. split.
    + apply hg_cos_cmp; try assumption; try lra. replace (1 + g * g - 2 * g * -1) with ((1 + g) * (1 + g)) by ring. rewrite sqrt_square by lra.
      replace (((1 - g * g) / (1 + g) - (1 - g)) / (2 * g)) with 0; [lra|]. field. assert (g <> 0) by (intros ->; rewrite Rabs_R0 in A'; lra). split; lra.
    + destruct (hg_cos_form g u G A' U) as [K E]. unfold hg_cos in *. destruct (Rlt_dec _ _); [lra|]. cbv zeta in *.
      replace ((2 * u - 1) * g + 1) with (1 - g + 2 * g * u) by ring.
      replace ((2 * u - 1) * g + 1) with (1 - g + 2 * g * u) in E by ring. set (k := 1 - g + 2 * g * u) in *.
      apply Rdiv_le_iff; [nra|]. unfold k.
      assert (X : 0 <= 2 * ((1 - g) * (1 - g)) * ((1 - u) * (1 + g * u))).
      { apply Rmult_le_pos; [nra|]. apply Rmult_le_pos; [lra|]. destruct (Rle_dec 0 g); nra. }
      lra.
Qed.
Lemma hg_cos_law wo g : unit3 wo -> -1 < g < 1 -> 1 / 1000 <= Rabs g ->
  law_around (vneg wo) (fun u => about wo (hg_cos g (y2 u)) (x2 u)) (fun w => hg (dot w (vneg wo)) g).
Proof.
  intros U G A. assert (N : g <> 0) by (intros ->; rewrite Rabs_R0 in A; lra).
  apply (about_law wo (hg_cos g) (fun z => hg z g) (fun c => 1 - ((1 - g * g) / sqrt (1 + g * g - 2 * g * c) - (1 - g)) / (2 * g))); [exact U|intros; apply hg_cos_range; assumption|].
  intros c C. split; [|apply hg_int; assumption].
  assert (R0 : forall x, 0 <= x <= 1 -> (c <= hg_cos g x <-> ((1 - g * g) / sqrt (1 + g * g - 2 * g * c) - (1 - g)) / (2 * g) <= x)) by (intros; apply hg_cos_cmp; assumption).
  apply up_measure.
  - pose proof (proj1 (R0 1 ltac:(lra))) as H1. 
    assert (c1 : hg_cos g 1 = 1).
    { unfold hg_cos. destruct (Rlt_dec _ _); [lra|]. cbv zeta. field. lra. }
    rewrite c1 in H1. specialize (H1 (proj2 C)).
    enough (0 <= ((1 - g * g) / sqrt (1 + g * g - 2 * g * c) - (1 - g)) / (2 * g)) by lra.
    pose proof (hg_den_pos g c G C) as D. pose proof (sqrt_lt_R0 _ D) as S. pose proof (sqrt_sqrt _ (Rlt_le _ _ D)) as Q. set (s := sqrt _) in *.
    destruct (Rlt_dec 0 g).
    + apply Rle_div_iff; [lra|]. rewrite Rmult_0_l. enough (1 - g <= (1 - g * g) / s) by lra. apply Rle_div_iff; [exact S|].
      enough (s <= 1 + g) by nra. apply sq_le; try lra. rewrite Q. nra.
    + replace (((1 - g * g) / s - (1 - g)) / (2 * g)) with (((1 - g) - (1 - g * g) / s) / (- (2 * g))) by (field; lra).
      apply Rle_div_iff; [lra|]. rewrite Rmult_0_l. enough ((1 - g * g) / s <= 1 - g) by lra. apply Rdiv_le_iff; [exact S|].
      enough (1 + g <= s) by nra. apply sq_le; try lra. rewrite Q. nra.
  - intros y Y. rewrite R0 by exact Y. lra.
Qed.
(** the uniform fallback: cos = 1 - 2u *)
Lemma uniform_law wo (cf : R -> R) : unit3 wo -> (forall u, cf u = 1 - 2 * u) ->
  law_around (vneg wo) (fun u => about wo (cf (y2 u)) (x2 u)) (fun _ => 1 / (4 * PI)).
Proof.
  intros U E. apply (about_law wo cf (fun _ => 1 / (4 * PI)) (fun c => (1 - c) / 2)); [exact U|intros u L; rewrite E; lra|].
  intros c C. split; [apply down_measure; [lra|intros y Y; rewrite E; lra]|apply uni_sph_int, C].
Qed.
Lemma hg_mono_neq g c : -1 < g < 1 -> g <> 0 -> -1 <= c <= 1 -> c <> 0 -> hg c g <> hg (- c) g.
Proof.
  intros G N C Z. pose proof (hg_den_pos g c G C) as D1. pose proof (hg_den_pos g (- c) G ltac:(lra)) as D2.
  unfold hg. cbv zeta. replace (1 + g * g - 2 * g * - c) with (1 + g * g + 2 * g * c) in * by ring.
  assert (M : forall x y, 0 < x -> 0 < y -> x < y -> 1 / (4 * PI) * (1 - g * g) / (y * sqrt y) < 1 / (4 * PI) * (1 - g * g) / (x * sqrt x)).
  { intros x y X Y L. pose proof PI_RGT_0. unfold Rdiv at 1 3. apply Rmult_lt_compat_l.
    - apply Rmult_lt_0_compat; [apply Rdiv_lt_0_compat; lra|nra].
    - assert (sqrt x < sqrt y) by (apply sqrt_lt_1; lra). pose proof (sqrt_lt_R0 x X). pose proof (sqrt_lt_R0 y Y).
      apply Rinv_lt_contravar; [|nra]. repeat apply Rmult_lt_0_compat; assumption. }
  assert (NZ : g * c <> 0) by (apply Rmult_integral_contrapositive_currified; assumption).
  destruct (Rtotal_order (g * c) 0) as [L|[L|L]]; [|lra|].
  - apply Rlt_not_eq. apply M; try assumption; lra.
  - apply Rgt_not_eq. apply M; try assumption; lra.
Qed.

(** ** Rayleigh *)
Definition rayleigh_pdf (z : R) : R := 3 * (z * z + 1) * (1 / (4 * PI)) / 4.
Lemma rayleigh_int c : is_RInt rayleigh_pdf c 1 ((1 - (c * c * c + 3 * c + 4) / 8) / (2 * PI)).
Proof.
  pose proof PI_RGT_0.
  apply (is_RInt_val _ _ _ ((1 * 1 * 1 + 3 * 1) / (16 * PI) - (c * c * c + 3 * c) / (16 * PI))); [field; lra|].
  apply (is_RInt_derive (fun z => (z * z * z + 3 * z) / (16 * PI))); intros x _.
  - auto_derive; [trivial|]. unfold rayleigh_pdf. field. lra.
  - apply (ex_derive_continuous rayleigh_pdf). unfold rayleigh_pdf. auto_derive. trivial.
Qed.
Lemma cubic_mono a b : (a <= b <-> a * a * a + 3 * a <= b * b * b + 3 * b).
Proof.
  assert (E : b * b * b + 3 * b - (a * a * a + 3 * a) = (b - a) * (a * a + a * b + b * b + 3)) by ring.
  assert (P : 0 < a * a + a * b + b * b + 3) by nra. split; intros H.
  - assert (0 <= (b - a) * (a * a + a * b + b * b + 3)) by (apply Rmult_le_pos; lra). lra.
  - destruct (Rle_dec a b) as [L|L]; [exact L|exfalso].
    assert (0 < (a - b) * (a * a + a * b + b * b + 3)) by (apply Rmult_lt_0_compat; lra). lra.
Qed.
Lemma rayleigh_cubic u : rayleigh_cos u * rayleigh_cos u * rayleigh_cos u + 3 * rayleigh_cos u = 8 * u - 4.
Proof.
  unfold rayleigh_cos. cbv zeta.
  assert (Q0 : 0 < 16 * (u - 1) * u + 5) by (pose proof (Rle_0_sqr (4 * u - 2)) as Y; unfold Rsqr in Y; lra). pose proof (sqrt_sqrt _ (Rlt_le _ _ Q0)) as Q. pose proof (sqrt_lt_R0 _ Q0) as S.
  set (s := sqrt _) in *. set (t := - 4 * u + s + 2).
  assert (T : 0 < t) by (unfold t; destruct (Rlt_dec 0 (- 4 * u + s + 2)); [assumption|exfalso; nra]).
  rewrite !rpow_pos by exact T. set (x := Rpower t (1 / 3)).
  assert (X : 0 < x) by apply exp_pos.
  assert (X2 : Rpower t (2 / 3) = x * x) by (unfold x; rewrite <- Rpower_plus; f_equal; field).
  assert (X3 : x * x * x = t) by (unfold x; rewrite <- !Rpower_plus; replace (1 / 3 + 1 / 3 + 1 / 3) with 1 by field; apply Rpower_1, T).
  rewrite X2. assert (Tq : t * t + 2 * (4 * u - 2) * t = 1) by (unfold t; nra).
  transitivity ((1 - (x * x * x) * (x * x * x)) / (x * x * x)); [field; lra|]. rewrite X3.
  replace (1 - t * t) with (2 * (4 * u - 2) * t) by lra. field. lra.
Qed.
Lemma rayleigh_cos_cmp c u : (c <= rayleigh_cos u <-> (c * c * c + 3 * c + 4) / 8 <= u).
Proof. rewrite cubic_mono, rayleigh_cubic. split; intros; lra. Qed.
Lemma rayleigh_cos_range u : 0 <= u <= 1 -> -1 <= rayleigh_cos u <= 1.
Proof. intros U. split; [apply rayleigh_cos_cmp; lra|]. apply cubic_mono. rewrite rayleigh_cubic. lra. Qed.
Lemma rayleigh_law wo : unit3 wo ->
  law_around (vneg wo) (fun u => about wo (rayleigh_cos (y2 u)) (x2 u)) (fun w => rayleigh_pdf (dot w (vneg wo))).
Proof.
  intros U. apply (about_law wo rayleigh_cos rayleigh_pdf (fun c => 1 - (c * c * c + 3 * c + 4) / 8)); [exact U|intros; apply rayleigh_cos_range; assumption|].
  intros c C. split; [|apply rayleigh_int]. apply up_measure.
  - assert (c * c * c + 3 * c <= 1 * 1 * 1 + 3 * 1) by (apply (proj1 (cubic_mono c 1)); lra).
    assert (-1 * -1 * -1 + 3 * -1 <= c * c * c + 3 * c) by (apply (proj1 (cubic_mono (-1) c)); lra). lra.
  - intros y Y. rewrite rayleigh_cos_cmp. lra.
Qed.

(** ** Ellipsoidal *)
Definition ell_pdf (b z : R) : R := b * (1 / (2 * PI)) / ((1 - b * z) * ln ((b + 1) / (1 - b))).
Lemma ell_log b : -1 < b < 1 -> b <> 0 -> 0 < b * ln ((b + 1) / (1 - b)).
Proof.
  intros B N. destruct (Rlt_dec 0 b).
  - apply Rmult_lt_0_compat; [assumption|]. rewrite <- ln_1. apply ln_increasing; [lra|]. apply Rlt_div_iff; lra.
  - assert (0 < (b + 1) / (1 - b)) by (apply Rdiv_lt_0_compat; lra).
    assert (ln ((b + 1) / (1 - b)) < 0) by (rewrite <- ln_1; apply ln_increasing; [assumption|]; apply Rdiv_lt_iff; lra). nra.
Qed.
Lemma ell_den b c : -1 < b < 1 -> -1 <= c <= 1 -> 0 < 1 - b * c.
Proof. intros B C. destruct (Rle_dec 0 b); nra. Qed.
Lemma ell_pos b c : -1 < b < 1 -> b <> 0 -> -1 <= c <= 1 -> 0 < ell_pdf b c.
Proof.
  intros B N C. pose proof (ell_log b B N) as L. pose proof (ell_den b c B C) as D. pose proof PI_RGT_0 as P. unfold ell_pdf.
  set (l := ln _) in *. assert (l <> 0) by (intros E; rewrite E in L; lra).
  replace (b * (1 / (2 * PI)) / ((1 - b * c) * l)) with ((b * l) / (2 * PI * (1 - b * c) * (l * l))) by (field; repeat split; lra).
  apply Rdiv_lt_0_compat; [exact L|]. apply Rmult_lt_0_compat; [apply Rmult_lt_0_compat; lra|]. apply (Rsqr_pos_lt l). assumption.
Qed.
Lemma ell_int b c : -1 < b < 1 -> b <> 0 -> -1 <= c <= 1 ->
  is_RInt (ell_pdf b) c 1 ((1 - (ln (b + 1) - ln (1 - b * c)) / ln ((b + 1) / (1 - b))) / (2 * PI)).
Proof.
  intros B N C. pose proof PI_RGT_0. pose proof (ell_log b B N) as L. pose proof (ell_den b c B C) as D.
  assert (Ll : ln ((b + 1) / (1 - b)) = ln (b + 1) - ln (1 - b)) by (apply ln_div; lra).
  assert (NL : ln ((b + 1) / (1 - b)) <> 0) by (intros E; rewrite E in L; lra).
  apply (is_RInt_val _ _ _ (- ln (1 - b * 1) / (2 * PI * ln ((b + 1) / (1 - b))) - - ln (1 - b * c) / (2 * PI * ln ((b + 1) / (1 - b))))).
  { rewrite Rmult_1_r. rewrite Ll in *. set (p := ln (b + 1)) in *. set (q := ln (1 - b)) in *. field. split; lra. }
  apply (is_RInt_derive (fun z => - ln (1 - b * z) / (2 * PI * ln ((b + 1) / (1 - b))))); rewrite Rmin_left, Rmax_right by lra; intros x X;
    pose proof (ell_den b x B ltac:(lra)) as Dx.
  - set (l := ln ((b + 1) / (1 - b))) in *. unfold ell_pdf. fold l. auto_derive; [lra|]. field. repeat split; lra.
  - apply (ex_derive_continuous (ell_pdf b)). unfold ell_pdf. set (l := ln ((b + 1) / (1 - b))) in *. auto_derive.
    apply Rmult_integral_contrapositive_currified; lra.
Qed.
Lemma ell_cos_form b u : -1 < b < 1 -> b <> 0 -> 1 - b * ellipsoidal_cos b u = (b + 1) * exp (- u * ln ((b + 1) / (1 - b))).
Proof.
  intros B N. unfold ellipsoidal_cos. rewrite rpow_pos by (apply Rdiv_lt_0_compat; lra). unfold Rpower. field. exact N.
Qed.
Lemma ln_le a b : 0 < a -> 0 < b -> (ln a <= ln b <-> a <= b).
Proof.
  intros A B. split; intros H.
  - destruct (Rle_dec a b); [assumption|]. assert (ln b < ln a) by (apply ln_increasing; lra). lra.
  - destruct H as [H| ->]; [|lra]. left. apply ln_increasing; lra.
Qed.
Lemma ell_cos_cmp b u c : -1 < b < 1 -> b <> 0 -> -1 <= c <= 1 ->
  (c <= ellipsoidal_cos b u <-> (ln (b + 1) - ln (1 - b * c)) / ln ((b + 1) / (1 - b)) <= u).
Proof.
  intros B N C. pose proof (ell_cos_form b u B N) as E. pose proof (ell_log b B N) as L. pose proof (ell_den b c B C) as D.
  set (k := ellipsoidal_cos b u) in *. set (l := ln ((b + 1) / (1 - b))) in *.
  assert (K : 0 < 1 - b * k) by (rewrite E; apply Rmult_lt_0_compat; [lra|apply exp_pos]).
  assert (LK : ln (1 - b * k) = ln (b + 1) - u * l).
  { rewrite E, ln_mult by (try apply exp_pos; lra). rewrite ln_exp. ring. }
  assert (NL : l <> 0) by (intros Z; rewrite Z in L; lra).
  destruct (Rlt_dec 0 b) as [P|P].
  - assert (0 < l) by nra. rewrite Rdiv_le_iff by assumption.
    transitivity (1 - b * k <= 1 - b * c); [split; intros; nra|]. rewrite <- ln_le, LK by assumption. split; intros; lra.
  - assert (l < 0) by nra. replace ((ln (b + 1) - ln (1 - b * c)) / l) with ((ln (1 - b * c) - ln (b + 1)) / (- l)) by (field; lra).
    rewrite Rdiv_le_iff by lra.
    transitivity (1 - b * c <= 1 - b * k); [split; intros; nra|]. rewrite <- ln_le, LK by assumption. split; intros; lra.
Qed.
Lemma ell_ends b : -1 < b < 1 -> b <> 0 -> ellipsoidal_cos b 1 = 1 /\ (ln (b + 1) - ln (1 - b * -1)) / ln ((b + 1) / (1 - b)) = 0.
Proof.
  intros B N. split.
  - unfold ellipsoidal_cos. rewrite rpow_pos by (apply Rdiv_lt_0_compat; lra). rewrite Rpower_Ropp, Rpower_1 by (apply Rdiv_lt_0_compat; lra). field. lra.
  - replace (1 - b * -1) with (b + 1) by ring. unfold Rdiv. ring.
Qed.
Lemma ell_cdf_mono b c c' : -1 < b < 1 -> b <> 0 -> -1 <= c <= 1 -> -1 <= c' <= 1 -> c <= c' ->
  (ln (b + 1) - ln (1 - b * c)) / ln ((b + 1) / (1 - b)) <= (ln (b + 1) - ln (1 - b * c')) / ln ((b + 1) / (1 - b)).
Proof.
  intros B N C C' H. pose proof (ell_log b B N) as L. pose proof (ell_den b c B C) as D. pose proof (ell_den b c' B C') as D'. set (l := ln ((b + 1) / (1 - b))) in *.
  assert (NL : l <> 0) by (intros Z; rewrite Z in L; lra).
  destruct (Rlt_dec 0 b).
  - assert (0 < l) by nra. apply Rmult_le_compat_r; [left; apply Rinv_0_lt_compat; assumption|].
    assert (ln (1 - b * c') <= ln (1 - b * c)) by (apply ln_le; try assumption; nra). lra.
  - assert (l < 0) by nra. assert (ln (1 - b * c) <= ln (1 - b * c')) by (apply ln_le; try assumption; nra).
    assert (/ l < 0) by (apply Rinv_lt_0_compat; assumption). unfold Rdiv. nra.
Qed.
Lemma ell_one b : -1 < b < 1 -> b <> 0 -> (ln (b + 1) - ln (1 - b * 1)) / ln ((b + 1) / (1 - b)) = 1.
Proof.
  intros B N. pose proof (ell_log b B N) as L. rewrite Rmult_1_r. rewrite ln_div in * by lra. field. intros E. rewrite E in L. lra.
Qed.
Lemma ell_cos_range b u : -1 < b < 1 -> b <> 0 -> 0 <= u <= 1 -> -1 <= ellipsoidal_cos b u <= 1.
Proof.
  intros B N U. split.
  - apply ell_cos_cmp; try assumption; [lra|]. rewrite (proj2 (ell_ends b B N)). lra.
  - pose proof (ell_cos_form b u B N) as E. pose proof (ell_log b B N) as L. set (k := ellipsoidal_cos b u) in *. set (l := ln ((b + 1) / (1 - b))) in *.
    assert (E1 : (b + 1) * exp (- (1) * l) = 1 - b * 1).
    { unfold l. rewrite <- (ell_cos_form b 1 B N), (proj1 (ell_ends b B N)). reflexivity. }
    destruct (Rlt_dec 0 b).
    + assert (0 < l) by nra. assert (exp (- (1) * l) <= exp (- u * l)) by (destruct (Req_dec u 1) as [->|]; [lra|left; apply exp_increasing; nra]). nra.
    + assert (l < 0) by nra. assert (exp (- u * l) <= exp (- (1) * l)) by (destruct (Req_dec u 1) as [->|]; [lra|left; apply exp_increasing; nra]). nra.
Qed.
Lemma ell_law wo b : unit3 wo -> -1 < b < 1 -> b <> 0 ->
  law_around (vneg wo) (fun u => about wo (ellipsoidal_cos b (y2 u)) (x2 u)) (fun w => ell_pdf b (dot w (vneg wo))).
Proof.
  intros U B N. apply (about_law wo (ellipsoidal_cos b) (ell_pdf b) (fun c => 1 - (ln (b + 1) - ln (1 - b * c)) / ln ((b + 1) / (1 - b)))); [exact U|intros; apply ell_cos_range; assumption|].
  intros c C. split; [|apply ell_int; assumption]. apply up_measure.
  - pose proof (ell_cdf_mono b (-1) c B N ltac:(lra) C ltac:(lra)) as H1. pose proof (ell_cdf_mono b c 1 B N C ltac:(lra) ltac:(lra)) as H2.
    rewrite (proj2 (ell_ends b B N)) in H1. rewrite ell_one in H2 by assumption. lra.
  - intros y Y. rewrite ell_cos_cmp by assumption. lra.
Qed.
Lemma ell_total b : -1 < b < 1 -> b <> 0 -> is_RInt (ell_pdf b) (-1) 1 (1 / (2 * PI)).
Proof.
  intros B N. eapply is_RInt_val; [|apply (ell_int b (-1) B N); lra]. rewrite (proj2 (ell_ends b B N)). rewrite Rminus_0_r. reflexivity.
Qed.

(** ** Eddington: what the sampler draws *)
Definition edd_pdf (b z : R) : R := 1 / (4 * PI) * (1 + b * z).
Lemma edd_int b c : is_RInt (edd_pdf b) c 1 ((1 - ((c + 1) / 2 + b * (c * c - 1) / 4)) / (2 * PI)).
Proof.
  pose proof PI_RGT_0.
  apply (is_RInt_val _ _ _ ((1 + b * (1 * 1) / 2) / (4 * PI) - (c + b * (c * c) / 2) / (4 * PI))); [field; lra|].
  apply (is_RInt_derive (fun z => (z + b * (z * z) / 2) / (4 * PI))); intros x _.
  - auto_derive; [trivial|]. unfold edd_pdf. field. lra.
  - apply (ex_derive_continuous (edd_pdf b)). unfold edd_pdf. auto_derive. trivial.
Qed.
Lemma edd_cos_form b u : -1 <= b <= 1 -> 1 / 1000 <= Rabs b -> 0 <= u <= 1 ->
  0 <= 1 + b * eddington_cos b u /\ (1 + b * eddington_cos b u) * (1 + b * eddington_cos b u) = b * b + 4 * b * u - 2 * b + 1.
Proof.
  intros B A U. assert (N : b <> 0) by (intros ->; rewrite Rabs_R0 in A; lra).
  unfold eddington_cos. destruct (Rlt_dec _ _); [lra|]. cbv zeta.
  assert (D : 0 <= b * b + 4 * b * u - 2 * b + 1) by (destruct (Rle_dec 0 b); nra).
  pose proof (sqrt_sqrt _ D) as Q. pose proof (sqrt_pos (b * b + 4 * b * u - 2 * b + 1)) as P. set (s := sqrt _) in *.
  replace (1 + b * ((s - 1) / b)) with s by (field; exact N). split; lra.
Qed.
Lemma edd_cos_cmp b u c : -1 <= b <= 1 -> 1 / 1000 <= Rabs b -> 0 <= u <= 1 -> -1 <= c <= 1 ->
  (c <= eddington_cos b u <-> (c + 1) / 2 + b * (c * c - 1) / 4 <= u).
Proof.
  intros B A U C. destruct (edd_cos_form b u B A U) as [P Q]. assert (N : b <> 0) by (intros ->; rewrite Rabs_R0 in A; lra).
  set (k := eddington_cos b u) in *. assert (D : 0 <= 1 + b * c) by (destruct (Rle_dec 0 b); nra).
  destruct (Rlt_dec 0 b) as [L|L].
  - transitivity (1 + b * c <= 1 + b * k); [split; intros; nra|]. rewrite <- sq_le, Q by assumption. split; intros; nra.
  - transitivity (1 + b * k <= 1 + b * c); [split; intros; nra|]. rewrite <- sq_le, Q by assumption. split; intros; nra.
Qed.
Lemma edd_cos_range b u : -1 <= b <= 1 -> 0 <= u <= 1 -> -1 <= eddington_cos b u <= 1.
Proof.
  intros B U. destruct (Rlt_dec (Rabs b) (1 / 1000)) as [A|A].
  - unfold eddington_cos. destruct (Rlt_dec _ _); lra.
  - assert (A' : 1 / 1000 <= Rabs b) by lra. split; [apply edd_cos_cmp; lra|].
    destruct (edd_cos_form b u B A' U) as [P Q]. assert (N : b <> 0) by (intros ->; rewrite Rabs_R0 in A'; lra). set (k := eddington_cos b u) in *.
    destruct (Rlt_dec 0 b) as [L|L].
    + enough (1 + b * k <= 1 + b) by nra. apply sq_le; try lra. rewrite Q. nra.
    + enough (1 + b <= 1 + b * k) by nra. apply sq_le; try lra. rewrite Q. nra.
Qed.
Lemma edd_law wo b : unit3 wo -> -1 <= b <= 1 -> 1 / 1000 <= Rabs b ->
  law_around (vneg wo) (fun u => about wo (eddington_cos b (y2 u)) (x2 u)) (fun w => edd_pdf b (dot w (vneg wo))).
Proof.
  intros U B A. apply (about_law wo (eddington_cos b) (edd_pdf b) (fun c => 1 - ((c + 1) / 2 + b * (c * c - 1) / 4))); [exact U|intros; apply edd_cos_range; assumption|].
  intros c C. split; [|apply edd_int]. apply up_measure.
  - assert (0 <= (c + 1) * (2 + b * (c - 1))) by (apply Rmult_le_pos; [lra|destruct (Rle_or_lt 0 b); [pose proof (Rmult_le_pos (1 - b) (1 - c) ltac:(lra) ltac:(lra)); pose proof (Rmult_le_pos (1 - b) (1 + c) ltac:(lra) ltac:(lra)); nra|pose proof (Rmult_le_pos (- b) (1 - c) ltac:(lra) ltac:(lra)); pose proof (Rmult_le_pos (- b) (1 + c) ltac:(lra) ltac:(lra)); lra]]).
    assert (0 <= (1 - c) * (2 + b * (c + 1))) by (apply Rmult_le_pos; [lra|destruct (Rle_or_lt 0 b); [pose proof (Rmult_le_pos b (1 + c) ltac:(lra) ltac:(lra)); lra|pose proof (Rmult_le_pos (1 + b) (1 + c) ltac:(lra) ltac:(lra)); lra]]). split; lra.
  - intros y Y. rewrite edd_cos_cmp by assumption. lra.
Qed.

(** ** Binomial *)
Definition bin_pdf (n z : R) : R := 1 / PI * Rpower 2 (- n - 2) * (n + 1) * rpow (z + 1) n.
Lemma bin_total n : 0 <= n -> is_RInt (bin_pdf n) (-1) 1 (1 / (2 * PI)).
Proof.
  intros N. pose proof PI_RGT_0.
  set (k := Rpower 2 (- n - 2)).
  assert (K : k * Rpower 2 (n + 1) = 1 / 2).
  { unfold k. rewrite <- Rpower_plus. replace (- n - 2 + (n + 1)) with (- (1)) by ring. rewrite Rpower_Ropp, Rpower_1 by lra. field. }
  destruct N as [N|N].
  - apply (is_RInt_val _ _ _ (1 / PI * k * rpow (1 + 1) (n + 1) - 1 / PI * k * rpow (-1 + 1) (n + 1))).
    { replace (-1 + 1) with 0 by ring. rewrite (rpow_pos (1 + 1)) by lra. unfold rpow at 1. destruct (Rle_dec 0 0); [|lra].
      replace (1 + 1) with 2 by ring. transitivity (1 / PI * (k * Rpower 2 (n + 1))); [ring|]. rewrite K. field. lra. }
    apply (is_RInt_derive (fun z => 1 / PI * k * rpow (z + 1) (n + 1)) (bin_pdf n)); rewrite Rmin_left, Rmax_right by lra; intros x X.
    + replace (bin_pdf n x) with (1 / PI * k * (1 * ((n + 1) * rpow (x + 1) n))) by (unfold bin_pdf; fold k; ring).
      apply is_derive_scal. apply (is_derive_comp (fun y => rpow y (n + 1)) (fun z => z + 1)); [apply rpow_derive; lra|]. auto_derive; [trivial|ring].
    + unfold bin_pdf. fold k. apply (continuous_scal_r (1 / PI * k * (n + 1)) (fun z => rpow (z + 1) n)).
      apply (continuous_comp (fun z => z + 1) (fun y => rpow y n)); [|apply rpow_cont; lra].
      apply (ex_derive_continuous (fun z => z + 1)). auto_derive. trivial.
  - subst n. apply (is_RInt_ext (fun _ => 1 / (4 * PI))).
    + rewrite Rmin_left, Rmax_right by lra. intros x X. unfold bin_pdf. rewrite rpow_pos, Rpower_O by lra. fold k.
      rewrite Rplus_0_l, Rpower_1 in K by lra. replace k with (1 / 4) by lra. match goal with |- ?a = ?b => change (@eq R a b) end. field. lra.
    + apply const_int. field. lra.
Qed.
