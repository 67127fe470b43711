(** Warps: domains, densities and distributions. *)
From Coq Require Import Reals Lra Lia Psatz.
From Coquelicot Require Import Coquelicot.
From Verif.Base Require Import RTac.
From Verif.Model Require Import Vec Warp.
From Verif.Spec Require Import CameraSpec WarpSpec LinAlgSpec.
From Verif.Proof Require Import VecLemmas FrameProof.
Open Scope R_scope.

Lemma sph_dir_unit z q : -1 <= z <= 1 -> unit3 (sph_dir z q).
Proof.
  intros H. unfold unit3, dot, sph_dir; simpl. pose proof (sc_one q) as P.
  assert (Q : sqrt (1 - z * z) * sqrt (1 - z * z) = 1 - z * z) by (apply sqrt_sqrt; nra).
  set (r := sqrt _) in *. set (cc := cos q) in *. set (ss := sin q) in *. nra.
Qed.
Lemma sqrt_rmax x : sqrt (Rmax 0 x) = sqrt x.
Proof.
  unfold Rmax. destruct (Rle_dec 0 x); [reflexivity|]. rewrite (sqrt_neg_0 x) by lra. apply sqrt_0.
Qed.

(** ** the maps in (height, azimuth) form *)
Lemma uni_sph_form s : sqrToUniSph s = sph_dir (1 - 2 * y2 s) (2 * PI * x2 s).
Proof. unfold sqrToUniSph, sph_dir. cbv zeta. rewrite sqrt_rmax. reflexivity. Qed.
Lemma uni_hemi_form s : sqrToUniHemi s = sph_dir (1 - y2 s) (2 * PI * x2 s).
Proof. unfold sqrToUniHemi, sph_dir. cbv zeta. rewrite sqrt_rmax. apply V3_eq; cbn [vx vy vz]; ring. Qed.
Lemma cap_form s m : sqrToUniSphCap s m = sph_dir (y2 s + (1 - y2 s) * m) (2 * PI * x2 s).
Proof. reflexivity. Qed.
Lemma cospow_form s n : sqrToCosPowHemi s n = sph_dir (rpow (y2 s) (1 / (n + 1))) (2 * PI * x2 s).
Proof. unfold sqrToCosPowHemi, sph_dir. cbv zeta. rewrite sqrt_rmax. apply V3_eq; cbn [vx vy vz]; ring. Qed.
Lemma cos_hemi_form s : in_unit_square s -> sqrToCosHemi s = sph_dir (sqrt (1 - y2 s)) (2 * PI * x2 s).
Proof.
  intros [_ [H1 H2]]. unfold sqrToCosHemi, sqrToUniDisk, sph_dir. cbv zeta. cbn [x2 y2]. rewrite sqrt_rmax.
  pose proof (sc_one (2 * PI * x2 s)) as P. pose proof (sqrt_sqrt _ H1) as Q.
  assert (E : sqrt (1 - y2 s) * sqrt (1 - y2 s) = 1 - y2 s) by (apply sqrt_sqrt; lra). rewrite E.
  replace (1 - (1 - y2 s)) with (y2 s) by ring.
  apply V3_eq; cbn [vx vy vz]; [ring|ring|]. f_equal.
  set (r := sqrt (y2 s)) in *. set (cc := cos _) in *. set (ss := sin _) in *. nra.
Qed.
Lemma disk_form s : sqrToUniDisk s = disk_pt (sqrt (y2 s)) (2 * PI * x2 s).
Proof. unfold sqrToUniDisk, disk_pt. f_equal; ring. Qed.

Lemma rpow_pos x y : 0 < x -> rpow x y = Rpower x y.
Proof. intros H. unfold rpow. destruct (Rle_dec x 0); [lra|reflexivity]. Qed.
Lemma rpow_nonneg x y : 0 <= rpow x y.
Proof. unfold rpow. destruct (Rle_dec x 0); [lra|]. left. apply exp_pos. Qed.
Lemma Rpower_base1 y : Rpower 1 y = 1.
Proof. unfold Rpower. rewrite ln_1, Rmult_0_r. apply exp_0. Qed.
Lemma Rpower_le_base a b y : 0 < a <= b -> 0 <= y -> Rpower a y <= Rpower b y.
Proof.
  intros [A B] Y. destruct B as [B|B]; [|subst; lra]. destruct Y as [Y|Y].
  - left. unfold Rpower. apply exp_increasing. apply Rmult_lt_compat_l; [exact Y|]. apply ln_increasing; assumption.
  - subst y. rewrite !Rpower_O by lra. lra.
Qed.
Lemma Rpower_lt_base a b y : 0 < a < b -> 0 < y -> Rpower a y < Rpower b y.
Proof. intros [A B] Y. unfold Rpower. apply exp_increasing. apply Rmult_lt_compat_l; [exact Y|]. apply ln_increasing; assumption. Qed.
Lemma rpow_le_1 x y : x <= 1 -> 0 <= y -> rpow x y <= 1.
Proof.
  intros X Y. unfold rpow. destruct (Rle_dec x 0); [lra|]. rewrite <- (Rpower_base1 y). apply Rpower_le_base; lra.
Qed.
Lemma rpow_root x a : 0 < x -> a <> 0 -> Rpower (Rpower x (1 / a)) a = x.
Proof. intros X A. rewrite Rpower_mult. replace (1 / a * a) with 1 by (field; exact A). apply Rpower_1, X. Qed.

Lemma const_int (v a b w : R) : @eq R w ((b - a) * v) -> is_RInt (fun _ => v) a b w.
Proof. intros ->. exact (is_RInt_const (V := R_NormedModule) a b v). Qed.
Lemma is_RInt_val (g : R -> R) (a b v w : R) : @eq R v w -> is_RInt g a b v -> is_RInt g a b w.
Proof. intros ->. trivial. Qed.
(** ** integrals of functions that vanish below a threshold *)
Lemma step_int (g h H : R -> R) (m c : R) : c <= 1 -> m <= 1 ->
  (forall z, z < m -> g z = 0) -> (forall z, m < z < 1 -> g z = h z) ->
  (forall z, m <= z <= 1 -> is_derive H z (h z)) -> (forall z, m <= z <= 1 -> continuous h z) ->
  is_RInt g c 1 (H 1 - H (Rmax c m)).
Proof.
  intros C M G0 G1 D K.
  assert (Hi : forall a, m <= a <= 1 -> is_RInt g a 1 (H 1 - H a)).
  { intros a A. apply (is_RInt_ext h).
    - rewrite Rmin_left, Rmax_right by lra. intros x X. symmetry. apply G1. lra.
    - apply (is_RInt_derive H h); rewrite Rmin_left, Rmax_right by lra; intros x X; [apply D|apply K]; lra. }
  destruct (Rle_dec m c) as [L|L].
  - rewrite Rmax_left by lra. apply Hi. lra.
  - rewrite Rmax_right by lra.
    replace (H 1 - H m) with (plus 0 (H 1 - H m)) by (unfold plus; simpl; ring).
    apply (is_RInt_Chasles g c m 1); [|apply Hi; lra].
    apply (is_RInt_ext (fun _ => 0)).
    + rewrite Rmin_left, Rmax_right by lra. intros x X. symmetry. apply G0. lra.
    + apply const_int. ring.
Qed.

Lemma cap_integral_of (pdf : vec3 -> R) (g : R -> R) c p v :
  (forall z q, pdf (sph_dir z q) = g z) -> is_RInt g c 1 v -> cap_integral pdf c p (p * v).
Proof.
  intros E I. split.
  - intros q. exists v. apply (is_RInt_ext g); [intros z _; symmetry; apply E|exact I].
  - apply (is_RInt_ext (fun _ => v)).
    + intros q _. symmetry. apply is_RInt_unique. apply (is_RInt_ext g); [intros z _; symmetry; apply E|exact I].
    + apply const_int. ring.
Qed.
Lemma height_law_of (warp : vec2 -> vec3) (pdf : vec3 -> R) (ok : R -> Prop) (zf g b : R -> R) :
  (forall s, in_unit_square s -> warp s = sph_dir (zf (y2 s)) (2 * PI * x2 s) /\ -1 <= zf (y2 s) <= 1) ->
  (forall z q, pdf (sph_dir z q) = g z) ->
  (forall c, -1 <= c <= 1 -> ok c -> interval_measure (fun y => c <= zf y) (b c) /\ is_RInt g c 1 (b c / (2 * PI))) ->
  height_law warp pdf ok.
Proof.
  intros W E I. exists zf. split; [exact W|]. intros c p C O P. destruct (I c C O) as [M R]. exists (b c). split; [exact M|].
  replace (p / (2 * PI) * b c) with (p * (b c / (2 * PI))) by (field; pose proof PI_RGT_0; lra).
  eapply cap_integral_of; [exact E|exact R].
Qed.
Lemma density_of (pdf : vec3 -> R) (g : R -> R) :
  (forall v, 0 <= pdf v) -> (forall z q, pdf (sph_dir z q) = g z) -> is_RInt g (-1) 1 (1 / (2 * PI)) -> sphere_density pdf.
Proof.
  intros P E I. split; [exact P|]. pose proof PI_RGT_0.
  replace 1 with (2 * PI * (1 / (2 * PI))) by (field; lra). eapply cap_integral_of; eassumption.
Qed.
Lemma down_measure (zf : R -> R) c b : 0 <= b <= 1 -> (forall y, 0 <= y <= 1 -> (c <= zf y <-> y <= b)) ->
  interval_measure (fun y => c <= zf y) b.
Proof. intros B H. exists 0, b. repeat split; try lra; intros; [apply H; lra|apply H; lra]. Qed.
Lemma up_measure (zf : R -> R) c b : 0 <= b <= 1 -> (forall y, 0 <= y <= 1 -> (c <= zf y <-> 1 - b <= y)) ->
  interval_measure (fun y => c <= zf y) b.
Proof. intros B H. exists (1 - b), 1. repeat split; try lra; intros; [apply H; lra|apply H; lra]. Qed.

(** uniform sphere *)
Lemma uni_sph_int c : -1 <= c <= 1 -> is_RInt (fun _ => 1 / (4 * PI)) c 1 ((1 - c) / 2 / (2 * PI)).
Proof.
  intros C. pose proof PI_RGT_0. apply const_int. field. lra.
Qed.
Lemma uni_sph_law : sphere_law sqrToUniSph sqrToUniSphPdf.
Proof.
  apply height_law_of with (zf := fun y => 1 - 2 * y) (g := fun _ => 1 / (4 * PI)) (b := fun c => (1 - c) / 2).
  - intros s [_ S]. split; [apply uni_sph_form|lra].
  - reflexivity.
  - intros c C _. split; [apply down_measure; [lra|intros y Y; lra]|apply uni_sph_int, C].
Qed.
Lemma uni_sph_density : sphere_density sqrToUniSphPdf.
Proof.
  pose proof PI_RGT_0. apply density_of with (g := fun _ => 1 / (4 * PI)).
  - intros v. unfold sqrToUniSphPdf. apply Rlt_le, Rdiv_lt_0_compat; lra.
  - reflexivity.
  - replace (1 / (2 * PI)) with ((1 - -1) / 2 / (2 * PI)) by (field; lra). apply uni_sph_int. lra.
Qed.

(** uniform hemisphere *)
Lemma uni_hemi_int c : -1 <= c <= 1 -> is_RInt (fun z => if Rgt_dec z 0 then 1 / (2 * PI) else 0) c 1 ((1 - Rmax c 0) / (2 * PI)).
Proof.
  intros C. pose proof PI_RGT_0.
  replace ((1 - Rmax c 0) / (2 * PI)) with (1 / (2 * PI) * 1 - 1 / (2 * PI) * Rmax c 0) by (field; lra).
  apply (step_int _ (fun _ => 1 / (2 * PI)) (fun z => 1 / (2 * PI) * z) 0 c); try lra.
  - intros z Z. destruct (Rgt_dec z 0); lra.
  - intros z Z. destruct (Rgt_dec z 0); lra.
  - intros z _. auto_derive; [trivial|ring].
  - intros z _. apply continuous_const.
Qed.
Lemma uni_hemi_law : sphere_law sqrToUniHemi sqrToUniHemiPdf.
Proof.
  apply height_law_of with (zf := fun y => 1 - y) (g := fun z => if Rgt_dec z 0 then 1 / (2 * PI) else 0) (b := fun c => 1 - Rmax c 0).
  - intros s [_ S]. split; [apply uni_hemi_form|lra].
  - reflexivity.
  - intros c C _. split; [|apply uni_hemi_int, C]. apply down_measure.
    + unfold Rmax; destruct (Rle_dec c 0); lra.
    + intros y Y. unfold Rmax; destruct (Rle_dec c 0); lra.
Qed.
Lemma uni_hemi_density : sphere_density sqrToUniHemiPdf.
Proof.
  pose proof PI_RGT_0. apply density_of with (g := fun z => if Rgt_dec z 0 then 1 / (2 * PI) else 0).
  - intros v. unfold sqrToUniHemiPdf. destruct (Rgt_dec _ 0); [apply Rlt_le, Rdiv_lt_0_compat; lra|lra].
  - reflexivity.
  - eapply is_RInt_val; [|apply uni_hemi_int; lra]. rewrite Rmax_right by lra; field; lra.
Qed.

(** cosine hemisphere *)
Lemma cos_hemi_int c : -1 <= c <= 1 ->
  is_RInt (fun z => if Rgt_dec z 0 then 1 / PI * z else 0) c 1 ((1 - Rmax c 0 * Rmax c 0) / (2 * PI)).
Proof.
  intros C. pose proof PI_RGT_0.
  replace ((1 - Rmax c 0 * Rmax c 0) / (2 * PI)) with (1 / (2 * PI) * (1 * 1) - 1 / (2 * PI) * (Rmax c 0 * Rmax c 0)) by (field; lra).
  apply (step_int _ (fun z => 1 / PI * z) (fun z => 1 / (2 * PI) * (z * z)) 0 c); try lra.
  - intros z Z. destruct (Rgt_dec z 0); lra.
  - intros z Z. destruct (Rgt_dec z 0); lra.
  - intros z _. auto_derive; [trivial|field; lra].
  - intros z _. apply (ex_derive_continuous (fun z => 1 / PI * z)). auto_derive. trivial.
Qed.
Lemma cos_hemi_law : sphere_law sqrToCosHemi sqrToCosHemiPdf.
Proof.
  apply height_law_of with (zf := fun y => sqrt (1 - y)) (g := fun z => if Rgt_dec z 0 then 1 / PI * z else 0)
    (b := fun c => 1 - Rmax c 0 * Rmax c 0).
  - intros s S. split; [apply cos_hemi_form, S|]. destruct S as [_ S]. pose proof (sqrt_pos (1 - y2 s)).
    split; [lra|]. rewrite <- sqrt_1 at 2. apply sqrt_le_1_alt. lra.
  - reflexivity.
  - intros c C _. split; [|apply cos_hemi_int, C]. apply down_measure.
    + unfold Rmax; destruct (Rle_dec c 0); nra.
    + intros y Y. assert (Q : sqrt (1 - y) * sqrt (1 - y) = 1 - y) by (apply sqrt_sqrt; lra).
      pose proof (sqrt_pos (1 - y)). set (r := sqrt _) in *. unfold Rmax; destruct (Rle_dec c 0); split; intros; nra.
Qed.
Lemma cos_hemi_density : sphere_density sqrToCosHemiPdf.
Proof.
  pose proof PI_RGT_0. apply density_of with (g := fun z => if Rgt_dec z 0 then 1 / PI * z else 0).
  - intros v. unfold sqrToCosHemiPdf. destruct (Rgt_dec _ 0); [|lra].
    apply Rmult_le_pos; [apply Rlt_le, Rdiv_lt_0_compat; lra|lra].
  - reflexivity.
  - replace (1 / (2 * PI)) with ((1 - Rmax (-1) 0 * Rmax (-1) 0) / (2 * PI)) by (rewrite Rmax_right by lra; field; lra).
    apply cos_hemi_int. lra.
Qed.

(** spherical cap *)
Lemma cap_int m c : -1 <= m < 1 -> -1 <= c <= 1 ->
  is_RInt (fun z => if Rlt_dec z m then 0 else 1 / (2 * PI) / (1 - m)) c 1 ((1 - Rmax c m) / (1 - m) / (2 * PI)).
Proof.
  intros M C. pose proof PI_RGT_0.
  replace ((1 - Rmax c m) / (1 - m) / (2 * PI)) with (1 / (2 * PI) / (1 - m) * 1 - 1 / (2 * PI) / (1 - m) * Rmax c m) by (field; lra).
  apply (step_int _ (fun _ => 1 / (2 * PI) / (1 - m)) (fun z => 1 / (2 * PI) / (1 - m) * z) m c); try lra.
  - intros z Z. destruct (Rlt_dec z m); lra.
  - intros z Z. destruct (Rlt_dec z m); lra.
  - intros z _. auto_derive; [trivial|ring].
  - intros z _. apply continuous_const.
Qed.
Lemma cap_law m : -1 <= m < 1 -> sphere_law (fun s => sqrToUniSphCap s m) (fun v => sqrToUniSphCapPdf v m).
Proof.
  intros M. apply height_law_of with (zf := fun y => y + (1 - y) * m) (g := fun z => if Rlt_dec z m then 0 else 1 / (2 * PI) / (1 - m))
    (b := fun c => (1 - Rmax c m) / (1 - m)).
  - intros s [_ S]. split; [apply cap_form|nra].
  - reflexivity.
  - intros c C _. split; [|apply cap_int; assumption].
    assert (X : m <= Rmax c m <= 1) by (split; [apply Rmax_r|apply Rmax_lub; lra]).
    assert (B : 0 <= (1 - Rmax c m) / (1 - m) <= 1) by (split; [apply Rle_div_iff; lra|apply Rdiv_le_iff; lra]).
    apply up_measure; [exact B|]. intros y Y.
    assert (E : (1 - Rmax c m) / (1 - m) * (1 - m) = 1 - Rmax c m) by (field; lra).
    set (b := (1 - Rmax c m) / (1 - m)) in *. unfold Rmax in E. destruct (Rle_dec c m); split; intros; nra.
Qed.
Lemma cap_density m : -1 <= m < 1 -> sphere_density (fun v => sqrToUniSphCapPdf v m).
Proof.
  intros M. pose proof PI_RGT_0. apply density_of with (g := fun z => if Rlt_dec z m then 0 else 1 / (2 * PI) / (1 - m)).
  - intros v. unfold sqrToUniSphCapPdf. destruct (Rlt_dec _ m); [lra|].
    apply Rlt_le, Rdiv_lt_0_compat; [apply Rdiv_lt_0_compat; lra|lra].
  - reflexivity.
  - eapply is_RInt_val; [|apply cap_int; lra]. rewrite Rmax_right by lra; field; lra.
Qed.

(** cosine power *)
Lemma Rpower_derive n z : 0 < z -> is_derive (fun x => Rpower x n) z (n * Rpower z (n - 1)).
Proof. intros Z. apply is_derive_Reals. apply derivable_pt_lim_power, Z. Qed.
Lemma Rpower_cont n z : 0 < z -> continuous (fun x => Rpower x n) z.
Proof. intros Z. apply (ex_derive_continuous (fun x => Rpower x n)). eexists. apply Rpower_derive, Z. Qed.
Definition cospow_g (n z : R) : R := if Rgt_dec z 0 then 1 / 2 * (n + 1) * rpow z n * (1 / PI) else 0.

(** away from the equator *)
Lemma cospow_int_pos n c : -1 < n -> 0 < c <= 1 -> is_RInt (cospow_g n) c 1 ((1 - Rpower c (n + 1)) / (2 * PI)).
Proof.
  intros N C. pose proof PI_RGT_0.
  replace ((1 - Rpower c (n + 1)) / (2 * PI)) with (1 / (2 * PI) * Rpower 1 (n + 1) - 1 / (2 * PI) * Rpower (Rmax c c) (n + 1)).
  2:{ rewrite Rpower_base1, Rmax_left by lra. field; lra. }
  assert (D : forall z, 0 < z -> is_derive (fun z => 1 / (2 * PI) * Rpower z (n + 1)) z (1 / 2 * (n + 1) * Rpower z n * (1 / PI))).
  { intros z Z. replace (1 / 2 * (n + 1) * Rpower z n * (1 / PI)) with (1 / (2 * PI) * ((n + 1) * Rpower z (n + 1 - 1))).
    - apply is_derive_scal, Rpower_derive, Z.
    - replace (n + 1 - 1) with n by ring. field; lra. }
  assert (K : forall z, 0 < z -> continuous (fun z => 1 / 2 * (n + 1) * Rpower z n * (1 / PI)) z).
  { intros z Z. apply (ex_derive_continuous (fun z => 1 / 2 * (n + 1) * Rpower z n * (1 / PI))).
    apply (ex_derive_ext (fun z => (1 / 2 * (n + 1) * (1 / PI)) * Rpower z n)); [intros t; simpl; ring|].
    eexists. apply is_derive_scal, Rpower_derive, Z. }
  apply (is_RInt_ext (fun z => 1 / 2 * (n + 1) * Rpower z n * (1 / PI))).
  { rewrite Rmin_left, Rmax_right by lra. intros x X. unfold cospow_g. destruct (Rgt_dec x 0); [|lra]. rewrite rpow_pos by lra. reflexivity. }
  rewrite Rmax_left by lra.
  apply (is_RInt_derive (fun z => 1 / (2 * PI) * Rpower z (n + 1)) (fun z => 1 / 2 * (n + 1) * Rpower z n * (1 / PI)));
  rewrite Rmin_left, Rmax_right by lra; intros x X; [apply D|apply K]; lra.
Qed.

Lemma rpow_split n z : rpow z (n + 1) = z * rpow z n.
Proof.
  unfold rpow. destruct (Rle_dec z 0); [ring|]. rewrite Rpower_plus, Rpower_1 by lra. ring.
Qed.
Lemma rpow_small n eps : 0 < n -> 0 < eps -> exists d, 0 < d /\ forall z, Rabs z < d -> 0 <= rpow z n < eps.
Proof.
  intros N E. exists (Rpower eps (1 / n)). split; [apply exp_pos|]. intros z Z. split; [apply rpow_nonneg|].
  unfold rpow. destruct (Rle_dec z 0); [exact E|]. rewrite Rabs_pos_eq in Z by lra.
  rewrite <- (rpow_root eps n E) by lra. apply Rpower_lt_base; lra.
Qed.
Lemma rpow_cont n z : 0 < n -> 0 <= z -> continuous (fun x => rpow x n) z.
Proof.
  intros N [Z|Z].
  - apply (ex_derive_continuous (fun x => rpow x n)). exists (n * Rpower z (n - 1)). apply (is_derive_ext_loc (fun x => Rpower x n)).
    + exists (mkposreal z Z). intros y Y. unfold ball in Y; simpl in Y. unfold AbsRing_ball, abs, minus, plus, opp in Y; simpl in Y.
      rewrite rpow_pos; [reflexivity|]. apply Rabs_def2 in Y. lra.
    + apply Rpower_derive, Z.
  - subst z. apply continuity_pt_filterlim. intros eps E. destruct (rpow_small n eps N E) as [d [D H]].
    exists d. split; [exact D|]. intros x [_ X]. simpl in *. unfold R_dist in *. rewrite Rminus_0_r in X.
    assert (R0 : rpow 0 n = 0) by (unfold rpow; destruct (Rle_dec 0 0); lra). rewrite R0, Rminus_0_r.
    specialize (H x X). rewrite Rabs_pos_eq; lra.
Qed.
Lemma rpow_derive n z : 0 < n -> 0 <= z -> is_derive (fun x => rpow x (n + 1)) z ((n + 1) * rpow z n).
Proof.
  intros N [Z|Z].
  - apply (is_derive_ext_loc (fun x => Rpower x (n + 1))).
    + exists (mkposreal z Z). intros y Y. unfold ball in Y; simpl in Y. unfold AbsRing_ball, abs, minus, plus, opp in Y; simpl in Y.
      rewrite rpow_pos; [reflexivity|]. apply Rabs_def2 in Y. lra.
    + rewrite rpow_pos by exact Z. replace n with (n + 1 - 1) at 2 by ring. apply Rpower_derive, Z.
  - subst z. assert (R0 : rpow 0 n = 0) by (unfold rpow; destruct (Rle_dec 0 0); lra). rewrite R0, Rmult_0_r.
    apply is_derive_Reals. intros eps E. destruct (rpow_small n eps N E) as [d [D H]]. exists (mkposreal d D).
    intros h H0 Hd. simpl in Hd. rewrite !rpow_split, R0, Rplus_0_l.
    replace ((h * rpow h n - 0 * 0) / h - 0) with (rpow h n) by (field; exact H0).
    specialize (H h Hd). rewrite Rabs_pos_eq; lra.
Qed.
Lemma cospow_int n c : 0 <= n -> -1 <= c <= 1 -> is_RInt (cospow_g n) c 1 ((1 - rpow (Rmax c 0) (n + 1)) / (2 * PI)).
Proof.
  intros [N|N] C; pose proof PI_RGT_0.
  - replace ((1 - rpow (Rmax c 0) (n + 1)) / (2 * PI)) with (1 / (2 * PI) * rpow 1 (n + 1) - 1 / (2 * PI) * rpow (Rmax c 0) (n + 1)).
    2:{ rewrite (rpow_pos 1), Rpower_base1 by lra. field; lra. }
    apply (step_int _ (fun z => 1 / 2 * (n + 1) * rpow z n * (1 / PI)) (fun z => 1 / (2 * PI) * rpow z (n + 1)) 0 c); try lra.
    + intros z Z. unfold cospow_g. destruct (Rgt_dec z 0); lra.
    + intros z Z. unfold cospow_g. destruct (Rgt_dec z 0); lra.
    + intros z Z. replace (1 / 2 * (n + 1) * rpow z n * (1 / PI)) with (1 / (2 * PI) * ((n + 1) * rpow z n)) by (field; lra).
      apply is_derive_scal, rpow_derive; lra.
    + intros z Z. apply (continuous_ext (fun z => (1 / 2 * (n + 1) * (1 / PI)) * rpow z n)); [intros t; simpl; ring|].
      apply (continuous_scal_r (1 / 2 * (n + 1) * (1 / PI)) (fun z => rpow z n)), rpow_cont; lra.
  - subst n. rewrite Rplus_0_l.
    replace ((1 - rpow (Rmax c 0) 1) / (2 * PI)) with (1 / (2 * PI) * 1 - 1 / (2 * PI) * Rmax c 0).
    2:{ replace (rpow (Rmax c 0) 1) with (Rmax c 0); [field; lra|]. unfold rpow. destruct (Rle_dec (Rmax c 0) 0).
        - pose proof (Rmax_r c 0); lra.
        - rewrite Rpower_1 by lra. reflexivity. }
    apply (step_int _ (fun _ => 1 / (2 * PI)) (fun z => 1 / (2 * PI) * z) 0 c); try lra.
    + intros z Z. unfold cospow_g. destruct (Rgt_dec z 0); lra.
    + intros z Z. unfold cospow_g. destruct (Rgt_dec z 0); [|lra]. rewrite rpow_pos, Rpower_O by lra. field; lra.
    + intros z _. auto_derive; [trivial|ring].
    + intros z _. apply continuous_const.
Qed.
Lemma root_range n y : -1 < n -> 0 <= y <= 1 -> 0 <= rpow y (1 / (n + 1)) <= 1.
Proof.
  intros N Y. split; [apply rpow_nonneg|apply rpow_le_1; [lra|]]. apply Rlt_le, Rdiv_lt_0_compat; lra.
Qed.
Lemma root_ge n c y : -1 < n -> 0 < c -> 0 <= y -> (c <= rpow y (1 / (n + 1)) <-> Rpower c (n + 1) <= y).
Proof.
  intros N C Y. pose proof (exp_pos ((n + 1) * ln c)) as P. fold (Rpower c (n + 1)) in P.
  unfold rpow. destruct (Rle_dec y 0) as [L|L]; [lra|].
  assert (E : 0 < 1 / (n + 1)) by (apply Rdiv_lt_0_compat; lra).
  pose proof (rpow_root y (n + 1) ltac:(lra) ltac:(lra)) as R1. pose proof (exp_pos (1 / (n + 1) * ln y)) as Py. fold (Rpower y (1 / (n + 1))) in Py.
  split; intros H.
  - rewrite <- R1. apply Rpower_le_base; lra.
  - apply Rnot_lt_le. intros G. apply (Rlt_not_le _ _ (Rpower_lt_base _ _ (n + 1) (conj Py G) ltac:(lra))). lra.
Qed.
Lemma cospow_measure n c : -1 < n -> c <= 1 -> interval_measure (fun y => c <= rpow y (1 / (n + 1))) (1 - rpow (Rmax c 0) (n + 1)).
Proof.
  intros N C. assert (X : 0 <= Rmax c 0 <= 1) by (split; [apply Rmax_r|apply Rmax_lub; lra]).
  pose proof (rpow_nonneg (Rmax c 0) (n + 1)). pose proof (rpow_le_1 (Rmax c 0) (n + 1) ltac:(lra) ltac:(lra)).
  apply up_measure; [lra|]. intros y Y. replace (1 - (1 - rpow (Rmax c 0) (n + 1))) with (rpow (Rmax c 0) (n + 1)) by ring.
  unfold Rmax in *. destruct (Rle_dec c 0) as [L|L].
  - assert (R0 : rpow 0 (n + 1) = 0) by (unfold rpow; destruct (Rle_dec 0 0); lra). rewrite R0.
    pose proof (rpow_nonneg y (1 / (n + 1))). lra.
  - rewrite (rpow_pos c) by lra. apply root_ge; lra.
Qed.
Lemma cospow_domain s n : -1 < n -> in_unit_square s ->
  sqrToCosPowHemi s n = sph_dir (rpow (y2 s) (1 / (n + 1))) (2 * PI * x2 s) /\ -1 <= rpow (y2 s) (1 / (n + 1)) <= 1.
Proof. intros N [_ S]. split; [apply cospow_form|]. pose proof (root_range n (y2 s) N S). lra. Qed.
Lemma cospow_law n : 0 <= n -> sphere_law (fun s => sqrToCosPowHemi s n) (fun v => sqrToCosPowHemiPdf v n).
Proof.
  intros N. apply height_law_of with (zf := fun y => rpow y (1 / (n + 1))) (g := cospow_g n) (b := fun c => 1 - rpow (Rmax c 0) (n + 1)).
  - intros s S. apply cospow_domain; [lra|exact S].
  - reflexivity.
  - intros c C _. split; [apply cospow_measure; lra|apply cospow_int; assumption].
Qed.
Lemma cospow_law_pos n : -1 < n -> height_law (fun s => sqrToCosPowHemi s n) (fun v => sqrToCosPowHemiPdf v n) (fun c => 0 < c).
Proof.
  intros N. apply height_law_of with (zf := fun y => rpow y (1 / (n + 1))) (g := cospow_g n) (b := fun c => 1 - rpow (Rmax c 0) (n + 1)).
  - intros s S. apply cospow_domain; assumption.
  - reflexivity.
  - intros c C P. split; [apply cospow_measure; lra|]. rewrite Rmax_left by lra. rewrite rpow_pos by lra. apply cospow_int_pos; lra.
Qed.
Lemma cospow_density n : 0 <= n -> sphere_density (fun v => sqrToCosPowHemiPdf v n).
Proof.
  intros N. pose proof PI_RGT_0. apply density_of with (g := cospow_g n).
  - intros v. unfold sqrToCosPowHemiPdf. destruct (Rgt_dec _ 0); [|lra]. pose proof (rpow_nonneg (vz v) n).
    apply Rmult_le_pos; [|apply Rlt_le, Rdiv_lt_0_compat; lra]. apply Rmult_le_pos; lra.
  - reflexivity.
  - replace (1 / (2 * PI)) with ((1 - rpow (Rmax (-1) 0) (n + 1)) / (2 * PI)).
    + apply cospow_int; lra.
    + rewrite Rmax_right by lra. unfold rpow. destruct (Rle_dec 0 0); [field; lra|lra].
Qed.

(** ** disk *)
Lemma disk_norm r q : sqrNorm2 (disk_pt r q) = r * r.
Proof. unfold sqrNorm2, disk_pt; simpl. pose proof (sc_one q). set (cc := cos q) in *. set (ss := sin q) in *. nra. Qed.
Lemma disk_int r p : 0 <= r <= 1 -> disk_integral sqrToUniDiskPdf r p (p / (2 * PI) * (r * r)).
Proof.
  intros R0. pose proof PI_RGT_0.
  assert (I : forall q, is_RInt (fun t => sqrToUniDiskPdf (disk_pt t q) * t) 0 r (r * r / (2 * PI))).
  { intros q. apply (is_RInt_ext (fun t => 1 / PI * t)).
    - rewrite Rmin_left, Rmax_right by lra. intros t T. unfold sqrToUniDiskPdf. rewrite disk_norm. destruct (Rle_dec (t * t) 1); [reflexivity|nra].
    - replace (r * r / (2 * PI)) with (1 / (2 * PI) * (r * r) - 1 / (2 * PI) * (0 * 0)) by (field; lra).
      apply (is_RInt_derive (fun t => 1 / (2 * PI) * (t * t)) (fun t => 1 / PI * t)).
      + intros t _. auto_derive; [trivial|field; lra].
      + intros t _. apply (ex_derive_continuous (fun z => 1 / PI * z)). auto_derive. trivial. }
  split; [intros q; eexists; apply I|].
  apply (is_RInt_ext (fun _ => r * r / (2 * PI))); [intros q _; symmetry; apply is_RInt_unique, I|].
  apply const_int. field. lra.
Qed.
Lemma disk_law_uni : disk_law sqrToUniDisk sqrToUniDiskPdf.
Proof.
  exists sqrt. split.
  - intros s [_ S]. split; [apply disk_form|]. split; [apply sqrt_pos|]. rewrite <- sqrt_1. apply sqrt_le_1_alt. lra.
  - intros r p R0 P. exists (r * r). split; [|apply disk_int, R0].
    exists 0, (r * r). repeat split; try nra; intros.
    + rewrite <- (sqrt_square r) by lra. apply sqrt_le_1_alt. lra.
    + assert (Q := sqrt_sqrt y ltac:(lra)). pose proof (sqrt_pos y). set (k := sqrt y) in *. nra.
Qed.

(** ** triangle *)
Lemma tri_domain s : in_unit_square s -> in_triangle (sqrToUniTri s).
Proof.
  intros [[X1 X2] [Y1 Y2]]. unfold in_triangle, sqrToUniTri; simpl. pose proof (sqrt_pos (x2 s)).
  assert (sqrt (x2 s) <= 1) by (rewrite <- sqrt_1; apply sqrt_le_1_alt; lra). set (r := sqrt _) in *. nra.
Qed.
Lemma tri_int a b : 0 <= a <= 1 -> 0 <= b <= 1 -> tri_integral sqrToUniTriPdf a b (b * (1 - (1 - a) * (1 - a))).
Proof.
  intros A B.
  assert (X : forall u, ex_RInt (fun w => sqrToUniTriPdf (V2 u w)) 0 (b * (1 - u))).
  { intros u. destruct (Rle_dec 0 (1 - u)) as [U|U].
    - destruct (Rle_dec 0 u) as [V|V].
      + exists (2 * (b * (1 - u))). apply (is_RInt_ext (fun _ => 2)).
        * rewrite Rmin_left, Rmax_right by nra. intros w W. unfold sqrToUniTriPdf; simpl.
          destruct (Rgt_dec (u + w) 1); [nra|]. destruct (Rlt_dec (u + w) 0); [nra|reflexivity].
        * apply const_int. ring.
      + (* u < 0: zero up to -u, then 2 *)
        set (k := Rmin (- u) (b * (1 - u))).
        assert (K : 0 <= k <= b * (1 - u)) by (unfold k, Rmin; destruct (Rle_dec _ _); nra).
        apply ex_RInt_Chasles with k.
        * apply (ex_RInt_ext (fun _ => 0)); [|apply ex_RInt_const]. rewrite Rmin_left, Rmax_right by lra. intros w W. unfold sqrToUniTriPdf; simpl.
          assert (w < - u) by (pose proof (Rmin_l (- u) (b * (1 - u))); fold k in H; lra).
          destruct (Rgt_dec (u + w) 1); [reflexivity|]. destruct (Rlt_dec (u + w) 0); [reflexivity|lra].
        * apply (ex_RInt_ext (fun _ => 2)); [|apply ex_RInt_const]. rewrite Rmin_left, Rmax_right by lra. intros w W. unfold sqrToUniTriPdf; simpl.
          assert (k = - u \/ k = b * (1 - u)) as [E|E] by (unfold k, Rmin; destruct (Rle_dec _ _); auto); [|lra].
          destruct (Rgt_dec (u + w) 1); [nra|]. destruct (Rlt_dec (u + w) 0); [lra|reflexivity].
    - (* u > 1: the integrand is 0 or 2 on [b(1-u), 0] *)
      set (k := Rmax (1 - u) (b * (1 - u))).
      assert (K : k = b * (1 - u)) by (unfold k, Rmax; destruct (Rle_dec _ _); nra).
      apply ex_RInt_swap. apply (ex_RInt_ext (fun w => sqrToUniTriPdf (V2 u w))); [reflexivity|].
      apply (ex_RInt_ext (fun _ => 0)); [|apply ex_RInt_const].
      rewrite Rmin_left, Rmax_right by nra. intros w W. unfold sqrToUniTriPdf; simpl.
      destruct (Rgt_dec (u + w) 1); [reflexivity|]. nra. }
  split; [exact X|].
  apply (is_RInt_ext (fun u => 2 * b * (1 - u))).
  - rewrite Rmin_left, Rmax_right by lra. intros u U. symmetry. apply is_RInt_unique.
    apply (is_RInt_ext (fun _ => 2)).
    + rewrite Rmin_left, Rmax_right by nra. intros w W. unfold sqrToUniTriPdf; simpl.
      destruct (Rgt_dec (u + w) 1); [nra|]. destruct (Rlt_dec (u + w) 0); [nra|reflexivity].
    + apply const_int. ring.
  - replace (b * (1 - (1 - a) * (1 - a))) with (- b * ((1 - a) * (1 - a)) - - b * ((1 - 0) * (1 - 0))) by ring.
    apply (is_RInt_derive (fun u => - b * ((1 - u) * (1 - u))) (fun u => 2 * b * (1 - u))).
    + intros u _. auto_derive; [trivial|ring].
    + intros u _. apply (ex_derive_continuous (fun u => 2 * b * (1 - u))). auto_derive. trivial.
Qed.
Lemma tri_preimage s a b : in_unit_square s -> 0 <= a <= 1 -> 0 <= b <= 1 -> 0 < x2 s ->
  (x2 (sqrToUniTri s) <= a /\ y2 (sqrToUniTri s) <= b * (1 - x2 (sqrToUniTri s)) <-> (1 - a) * (1 - a) <= x2 s /\ y2 s <= b).
Proof.
  intros [[X1 X2] [Y1 Y2]] A B P. unfold sqrToUniTri; simpl. pose proof (sqrt_sqrt (x2 s) X1) as Q. pose proof (sqrt_lt_R0 _ P).
  set (r := sqrt _) in *. split; intros [H1 H2]; split; nra.
Qed.
