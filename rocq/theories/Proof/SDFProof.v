From Coq Require Import Reals List Lra Lia Psatz Permutation.
From Coquelicot Require Import Rbar.
From Verif.Model Require Import Vec Frame BBox Integrators SDF.
From Verif.Spec Require Import LinAlgSpec BBoxSpec SDFSpec.
From Verif.Proof Require Import VecLemmas BBoxProof.
Import ListNotations.
Open Scope R_scope.

(** ** distances *)
Definition sq (p q : vec3) : R := (vx p - vx q) ^ 2 + (vy p - vy q) ^ 2 + (vz p - vz q) ^ 2.
Lemma sq_pos p q : 0 <= sq p q.
Proof. unfold sq. repeat apply Rplus_le_le_0_compat; apply pow2_ge_0. Qed.
Lemma dist_sq p q : dist p q * dist p q = sq p q.
Proof. apply sqrt_sqrt, sq_pos. Qed.
Lemma dist_nonneg p q : 0 <= dist p q. Proof. apply sqrt_pos. Qed.
Lemma dist_norm p q : dist p q = norm (vsub p q).
Proof. unfold dist, norm, vsub; cbn [vx vy vz]. f_equal. ring. Qed.
Lemma dist_sym p q : dist p q = dist q p.
Proof. unfold dist. f_equal. ring. Qed.
(** comparison with squares *)
Lemma dist_ge p q d : 0 <= d -> d * d <= sq p q -> d <= dist p q.
Proof. intros D H. rewrite <- (sqrt_square d D). apply sqrt_le_1_alt. exact H. Qed.
Lemma dist_eq p q d : 0 <= d -> d * d = sq p q -> dist p q = d.
Proof. intros D H. unfold dist. fold (sq p q). rewrite <- H. apply sqrt_square, D. Qed.
Lemma dist_le p q d : 0 <= d -> sq p q <= d * d -> dist p q <= d.
Proof. intros D H. rewrite <- (sqrt_square d D). apply sqrt_le_1_alt. exact H. Qed.
Lemma dist_zero p q : dist p q = 0 -> p = q.
Proof.
  intros H. assert (Z : sq p q = 0) by (rewrite <- dist_sq, H; ring). unfold sq in Z.
  pose proof (pow2_ge_0 (vx p - vx q)). pose proof (pow2_ge_0 (vy p - vy q)). pose proof (pow2_ge_0 (vz p - vz q)).
  apply V3_eq; nra.
Qed.
Lemma dist_self p : dist p p = 0.
Proof. apply dist_eq; [lra|]. unfold sq. ring. Qed.
Lemma norm_triangle a b : norm (vadd a b) <= norm a + norm b.
Proof.
  pose proof (norm_nonneg a) as A. pose proof (norm_nonneg b) as Bb.
  apply Rsqr_incr_0; [|apply norm_nonneg|lra]. unfold Rsqr. rewrite norm_sqr.
  assert (E : sqrNorm (vadd a b) = sqrNorm a + 2 * dot a b + sqrNorm b) by (unfold sqrNorm, dot, vadd; cbn; ring).
  pose proof (norm_sqr a) as NA. pose proof (norm_sqr b) as NB.
  assert (C : dot a b <= norm a * norm b).
  { pose proof (cauchy_schwarz a b) as C. rewrite !dot_self, <- NA, <- NB in C.
    destruct (Rle_or_lt (dot a b) (norm a * norm b)) as [|L]; [assumption|].
    assert (0 <= norm a * norm b) by (apply Rmult_le_pos; assumption). nra. }
  rewrite E. nra.
Qed.
Lemma dist_triangle p q r : dist p r <= dist p q + dist q r.
Proof.
  rewrite !dist_norm. replace (vsub p r) with (vadd (vsub p q) (vsub q r)) by (apply V3_eq; simpl; ring). apply norm_triangle.
Qed.
Lemma norm_vscale a k : norm (vscale a k) = Rabs k * norm a.
Proof.
  unfold norm. replace (vx (vscale a k) * vx (vscale a k) + vy (vscale a k) * vy (vscale a k) + vz (vscale a k) * vz (vscale a k))
    with (k² * (vx a * vx a + vy a * vy a + vz a * vz a)) by (unfold Rsqr, vscale; cbn; ring).
  rewrite sqrt_mult; [|apply Rle_0_sqr|nra]. rewrite sqrt_Rsqr_abs. reflexivity.
Qed.

(** ** sphere *)
Lemma away c p : exists u, norm u = 1 /\ vsub p c = vscale u (dist p c).
Proof.
  destruct (Req_dec (dist p c) 0) as [Z|N].
  - exists (V3 1 0 0). split; [unfold norm; cbn; replace (1 * 1 + 0 * 0 + 0 * 0) with 1 by ring; apply sqrt_1|].
    apply dist_zero in Z. subst. rewrite dist_self. apply V3_eq; cbn; ring.
  - exists (vscale (vsub p c) (/ dist p c)). rewrite norm_vscale, <- dist_norm. pose proof (dist_nonneg p c).
    split; [rewrite Rabs_pos_eq by (left; apply Rinv_0_lt_compat; lra); field; exact N|apply V3_eq; cbn; field; exact N].
Qed.
Lemma dist_along c u s t : norm u = 1 -> dist (vadd c (vscale u s)) (vadd c (vscale u t)) = Rabs (s - t).
Proof.
  intros U. rewrite dist_norm. replace (vsub (vadd c (vscale u s)) (vadd c (vscale u t))) with (vscale u (s - t)) by (apply V3_eq; cbn; ring).
  rewrite norm_vscale, U. ring.
Qed.
Lemma dist_base c u s : norm u = 1 -> dist (vadd c (vscale u s)) c = Rabs s.
Proof.
  intros U. rewrite <- (Rminus_0_r s) at 2. rewrite <- (dist_along c u s 0 U). f_equal. apply V3_eq; cbn; ring.
Qed.
Lemma sphere_exact c r p : 0 <= r -> signed_distance (solid (SDFSphere c r)) p (sdf_eval (SDFSphere c r) p).
Proof.
  intros R0. unfold signed_distance; cbn [sdf_eval solid]. unfold sphere_eval. rewrite <- dist_norm.
  destruct (away c p) as (u&U&E). set (d := dist p c) in *. assert (D : 0 <= d) by apply dist_nonneg.
  assert (P : p = vadd c (vscale u d)) by (apply (f_equal (vadd c)) in E; rewrite <- E; apply V3_eq; cbn; ring).
  split.
  - intros N. apply Rnot_le_lt in N. split; [fold d in N; lra|]. split.
    + intros q Q. pose proof (dist_triangle p q c). fold d in H. lra.
    + exists (vadd c (vscale u r)). rewrite (dist_base c u r U), P, (dist_along c u d r U), !Rabs_pos_eq by (fold d in N; lra). lra.
  - intros N. fold d in N. split; [lra|]. split.
    + intros q Q. pose proof (dist_triangle q p c) as T. rewrite (dist_sym q p) in T. fold d in T. lra.
    + intros e E0. exists (vadd c (vscale u (r + e / 2))).
      rewrite (dist_base c u (r + e / 2) U), P, (dist_along c u d (r + e / 2) U).
      rewrite (Rabs_pos_eq (r + e / 2)) by lra. rewrite (Rabs_left1 (d - (r + e / 2))) by lra. split; lra.
Qed.

(** ** plane *)
Lemma plane_exact c n p : unit3 n -> signed_distance (solid (SDFPlane c n)) p (sdf_eval (SDFPlane c n) p).
Proof.
  intros U. unfold signed_distance; cbn [sdf_eval solid]. unfold plane_eval. pose proof (unit_norm n U) as N1.
  set (h := dot (vsub p c) n).
  assert (LB : forall q, dot (vsub q c) n = 0 -> Rabs h <= dist p q).
  { intros q Q. rewrite dist_norm. assert (E : h = dot (vsub p q) n).
    { unfold h. replace (vsub p q) with (vadd (vsub p c) (vscale (vsub q c) (-1))) by (apply V3_eq; cbn; ring).
      rewrite dot_add_l, dot_scale_l, Q. ring. }
    pose proof (cauchy_schwarz (vsub p q) n) as C. rewrite <- E, !dot_self, <- norm_sqr in C. unfold unit3 in U. rewrite dot_self in U. rewrite U in C.
    apply Rsqr_incr_0; [|apply Rabs_pos|apply norm_nonneg]. rewrite <- Rsqr_abs. unfold Rsqr. lra. }
  assert (AT : dot (vsub (vadd p (vscale n (- h))) c) n = 0).
  { replace (vsub (vadd p (vscale n (- h))) c) with (vadd (vsub p c) (vscale n (- h))) by (apply V3_eq; cbn; ring).
    rewrite dot_add_l, dot_scale_l. fold h. unfold unit3 in U. rewrite U. ring. }
  assert (MV : forall k, dist p (vadd p (vscale n k)) = Rabs k).
  { intros k. rewrite dist_sym. rewrite (dist_base p n k N1). reflexivity. }
  split.
  - intros N. split; [apply Rabs_pos_lt, N|]. split; [exact LB|]. exists (vadd p (vscale n (- h))). split; [exact AT|].
    rewrite MV. apply Rabs_Ropp.
  - intros Z. fold h in Z. rewrite Z, Rabs_R0. split; [lra|]. split; [intros q Q; pose proof (dist_nonneg p q); lra|].
    intros e E. exists (vadd p (vscale n (e / 2))). split.
    + replace (vsub (vadd p (vscale n (e / 2))) c) with (vadd (vsub p c) (vscale n (e / 2))) by (apply V3_eq; cbn; ring).
      rewrite dot_add_l, dot_scale_l. fold h. unfold unit3 in U. rewrite U, Z. lra.
    + rewrite MV, Rabs_pos_eq by lra. lra.
Qed.

(** ** box *)
Definition clamp1 (lo hi x : R) : R := Rmin (Rmax x lo) hi.
Lemma max_sq lo hi x : lo <= hi -> Rmax (Rabs (x - (hi + lo) / 2) - (hi - lo) / 2) 0 ^ 2 = (x - clamp1 lo hi x) ^ 2.
Proof.
  intros L. destruct (Rlt_or_le x lo) as [A|A]; [|destruct (Rlt_or_le hi x) as [B|B]]; unfold clamp1.
  - rewrite (Rmax_right x lo), (Rmin_left lo hi) by lra. rewrite Rabs_left1, Rmax_left by lra. field.
  - rewrite (Rmax_left x lo), (Rmin_right x hi) by lra. rewrite Rabs_pos_eq, Rmax_left by lra. field.
  - rewrite (Rmax_left x lo), (Rmin_left x hi) by lra. rewrite Rmax_right; [field|]. unfold Rabs. destruct (Rcase_abs _); lra.
Qed.
Lemma clamp1_in lo hi x : lo <= hi -> lo <= clamp1 lo hi x <= hi.
Proof. intros L. unfold clamp1, Rmin, Rmax. repeat destruct (Rle_dec _ _); lra. Qed.
Lemma clamp1_near lo hi x y : lo <= y <= hi -> (x - clamp1 lo hi x) ^ 2 <= (x - y) ^ 2.
Proof.
  intros [L1 L2]. destruct (Rlt_or_le x lo) as [A|A]; [|destruct (Rlt_or_le hi x) as [B|B]]; unfold clamp1.
  - rewrite (Rmax_right x lo), (Rmin_left lo hi) by lra. simpl. nra.
  - rewrite (Rmax_left x lo), (Rmin_right x hi) by lra. simpl. nra.
  - rewrite (Rmax_left x lo), (Rmin_left x hi) by lra. pose proof (pow2_ge_0 (x - y)). replace ((x - x) ^ 2) with 0 by ring. assumption.
Qed.
Lemma excess_le lo hi x : lo <= hi -> (Rabs (x - (hi + lo) / 2) - (hi - lo) / 2 <= 0 <-> lo <= x <= hi).
Proof. intros L. unfold Rabs. destruct (Rcase_abs _); lra. Qed.
(** the nearer end *)
Lemma excess_end lo hi x : lo <= hi -> lo <= x <= hi -> exists s, (s = -1 \/ s = 1) /\
  forall e, 0 < e -> ~ lo <= x + s * (- (Rabs (x - (hi + lo) / 2) - (hi - lo) / 2) + e) <= hi.
Proof.
  intros L X. unfold Rabs. destruct (Rcase_abs _).
  - exists (-1). split; [auto|]. intros e E. lra.
  - exists 1. split; [auto|]. intros e E. lra.
Qed.
Lemma pick_gt_max a : pick_gt a 0 = Rmax a 0.
Proof. unfold pick_gt. destruct (Rgt_dec a 0); [rewrite Rmax_left by lra|rewrite Rmax_right by lra]; reflexivity. Qed.
Lemma box_exact a b p : sensible (SDFBox a b) -> signed_distance (solid (SDFBox a b)) p (sdf_eval (SDFBox a b) p).
Proof.
  intros (Lx&Ly&Lz). unfold signed_distance; cbn [sdf_eval solid]. unfold box_eval. cbn [vx vy vz vsub vabs vdiv vadd vmaxc].
  set (qx := Rabs (vx p - (vx a + vx b) / 2) - (vx a - vx b) / 2).
  set (qy := Rabs (vy p - (vy a + vy b) / 2) - (vy a - vy b) / 2).
  set (qz := Rabs (vz p - (vz a + vz b) / 2) - (vz a - vz b) / 2).
  pose proof (excess_le _ _ (vx p) Lx) as Ex. pose proof (excess_le _ _ (vy p) Ly) as Ey. pose proof (excess_le _ _ (vz p) Lz) as Ez.
  fold qx in Ex. fold qy in Ey. fold qz in Ez.
  set (m := Rmax qx (Rmax qy qz)).
  assert (Mx : qx <= m) by apply Rmax_l.
  assert (My : qy <= m) by (eapply Rle_trans; [apply Rmax_l|apply Rmax_r]).
  assert (Mz : qz <= m) by (eapply Rle_trans; [apply Rmax_r|apply Rmax_r]).
  assert (Mone : m = qx \/ m = qy \/ m = qz) by (unfold m, Rmax; repeat destruct (Rle_dec _ _); auto).
  set (c := V3 (clamp1 (vx b) (vx a) (vx p)) (clamp1 (vy b) (vy a) (vy p)) (clamp1 (vz b) (vz a) (vz p))).
  assert (NQ : norm (V3 (pick_gt qx 0) (pick_gt qy 0) (pick_gt qz 0)) = dist p c).
  { unfold norm, dist. cbn [vx vy vz c]. rewrite !pick_gt_max. f_equal.
    rewrite <- (max_sq _ _ (vx p) Lx), <- (max_sq _ _ (vy p) Ly), <- (max_sq _ _ (vz p) Lz). fold qx qy qz. ring. }
  change (norm (vmaxc (vsub (vabs (vsub p (vdiv (vadd a b) 2))) (vdiv (vsub a b) 2)) 0)) with (norm (V3 (pick_gt qx 0) (pick_gt qy 0) (pick_gt qz 0))). rewrite NQ.
  split.
  - intros N. assert (m > 0).
    { destruct (Rlt_or_le 0 m) as [|Lm]; [assumption|]. exfalso. apply N. repeat split; try apply Ex; try apply Ey; try apply Ez; lra. }
    rewrite Rmin_right by lra. rewrite Rplus_0_r.
    assert (IC : vx b <= vx c <= vx a /\ vy b <= vy c <= vy a /\ vz b <= vz c <= vz a).
    { unfold c; cbn. repeat split; apply clamp1_in; assumption. }
    split; [|split].
    + destruct (dist_nonneg p c) as [|Z]; [assumption|]. exfalso. apply N. symmetry in Z. apply dist_zero in Z. rewrite Z. exact IC.
    + intros q (Qx&Qy&Qz). apply dist_ge; [apply dist_nonneg|]. rewrite dist_sq. unfold sq, c. cbn [vx vy vz].
      pose proof (clamp1_near _ _ (vx p) _ Qx). pose proof (clamp1_near _ _ (vy p) _ Qy). pose proof (clamp1_near _ _ (vz p) _ Qz). lra.
    + exists c. split; [exact IC|reflexivity].
  - intros (Ix&Iy&Iz). assert (m <= 0).
    { apply Ex in Ix. apply Ey in Iy. apply Ez in Iz. destruct Mone as [E|[E|E]]; lra. }
    assert (PC : dist p c = 0).
    { apply dist_eq; [lra|]. unfold sq. cbn [vx vy vz c].
      rewrite <- (max_sq _ _ (vx p) Lx), <- (max_sq _ _ (vy p) Ly), <- (max_sq _ _ (vz p) Lz). fold qx qy qz.
      rewrite !Rmax_right by lra. ring. }
    rewrite PC, Rmin_left by lra. rewrite Rplus_0_l. split; [lra|]. split.
    + intros q Q. assert (S : sq p q < m * m).
      { rewrite <- dist_sq. pose proof (dist_nonneg p q). nra. }
      unfold sq in S. pose proof (pow2_ge_0 (vx p - vx q)). pose proof (pow2_ge_0 (vy p - vy q)). pose proof (pow2_ge_0 (vz p - vz q)).
      assert (K : forall lo hi x y, lo <= hi -> Rabs (x - (hi + lo) / 2) - (hi - lo) / 2 <= m -> (x - y) ^ 2 < m * m -> lo <= y <= hi).
      { intros lo hi x y Lo Hm Hy. assert (- - m < x - y \/ x - y <= - m) by lra.
        assert (B1 : x - y < - m) by nra. assert (B2 : m < x - y) by nra.
        unfold Rabs in Hm. destruct (Rcase_abs _); lra. }
      repeat split; try (apply (K _ _ (vx p) (vx q) Lx); [exact Mx|lra]); try (apply (K _ _ (vy p) (vy q) Ly); [exact My|lra]);
        try (apply (K _ _ (vz p) (vz q) Lz); [exact Mz|lra]).
    + intros e E0. assert (E2 : 0 < e / 2) by lra.
      destruct Mone as [M|[M|M]].
      * destruct (excess_end _ _ (vx p) Lx Ix) as (s&S&O). fold qx in O. rewrite <- M in O. specialize (O (e / 2) E2).
        exists (V3 (vx p + s * (- m + e / 2)) (vy p) (vz p)). cbn [vx vy vz]. split; [tauto|].
        apply (Rle_lt_trans _ (- m + e / 2)); [|lra]. apply dist_le; [lra|]. unfold sq; cbn [vx vy vz]. destruct S as [-> | ->]; lra.
      * destruct (excess_end _ _ (vy p) Ly Iy) as (s&S&O). fold qy in O. rewrite <- M in O. specialize (O (e / 2) E2).
        exists (V3 (vx p) (vy p + s * (- m + e / 2)) (vz p)). cbn [vx vy vz]. split; [tauto|].
        apply (Rle_lt_trans _ (- m + e / 2)); [|lra]. apply dist_le; [lra|]. unfold sq; cbn [vx vy vz]. destruct S as [-> | ->]; lra.
      * destruct (excess_end _ _ (vz p) Lz Iz) as (s&S&O). fold qz in O. rewrite <- M in O. specialize (O (e / 2) E2).
        exists (V3 (vx p) (vy p) (vz p + s * (- m + e / 2))). cbn [vx vy vz]. split; [tauto|].
        apply (Rle_lt_trans _ (- m + e / 2)); [|lra]. apply dist_le; [lra|]. unfold sq; cbn [vx vy vz]. destruct S as [-> | ->]; lra.
Qed.
