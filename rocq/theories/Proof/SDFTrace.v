(** The sphere tracer. *)
From Coq Require Import Reals List Lra Lia Psatz Permutation.
From Coquelicot Require Import Rbar Rcomplements.
From Verif.Model Require Import Vec Frame BBox Integrators SDF.
From Verif.Spec Require Import LinAlgSpec BBoxSpec FrameSpec SDFSpec.
From Verif.Proof Require Import VecLemmas BBoxProof SDFProof SDFCone.
Import ListNotations.
Open Scope R_scope.

(** ** the nearest shape *)
Definition best (pre : list sdf) (p : vec3) (acc : option (R * nat)) : Prop :=
  match acc with None => pre = [] | Some (m, i) => nearest_shape pre p m i end.
Lemma best_snoc pre p s acc : best pre p acc ->
  best (pre ++ [s]) p (match acc with
    | None => Some (sdf_eval s p, length pre)
    | Some (m, j) => if Rgt_dec m (sdf_eval s p) then Some (sdf_eval s p, length pre) else Some (m, j) end).
Proof.
  destruct acc as [[m j]|]; cbn [best].
  - intros [(s0&N0&E0) Mn].
    assert (J : (j < length pre)%nat) by (apply nth_error_Some; congruence).
    destruct (Rgt_dec m (sdf_eval s p)) as [G|G]; split.
    + exists s. rewrite nth_error_app2, Nat.sub_diag by lia. auto.
    + intros k s' N. destruct (Nat.lt_ge_cases k (length pre)) as [K|K].
      * rewrite nth_error_app1 in N by exact K. destruct (Mn k s' N) as [A _]. split; [lra|intros _; lra].
      * rewrite nth_error_app2 in N by exact K. destruct (k - length pre)%nat as [|x] eqn:E.
        -- injection N as <-. split; [lra|lia].
        -- destruct x; discriminate.
    + exists s0. rewrite nth_error_app1 by exact J. auto.
    + apply Rnot_gt_le in G. intros k s' N. destruct (Nat.lt_ge_cases k (length pre)) as [K|K].
      * rewrite nth_error_app1 in N by exact K. exact (Mn k s' N).
      * rewrite nth_error_app2 in N by exact K. destruct (k - length pre)%nat as [|x] eqn:E.
        -- injection N as <-. split; [exact G|lia].
        -- destruct x; discriminate.
  - intros ->. cbn. split.
    + exists s. auto.
    + intros [|k] s' N; [injection N as <-; split; [lra|lia]|destruct k; discriminate].
Qed.
Lemma sd_fold_spec p l : forall pre acc, best pre p acc -> best (pre ++ l) p (sd_fold l (length pre) p acc).
Proof.
  induction l as [|s l IH]; intros pre acc H; cbn [sd_fold].
  - rewrite app_nil_r. exact H.
  - replace (pre ++ s :: l) with ((pre ++ [s]) ++ l) by (rewrite <- app_assoc; reflexivity).
    replace (S (length pre)) with (length (pre ++ [s])) by (rewrite app_length; cbn; lia).
    apply IH, best_snoc, H.
Qed.
Lemma sd_evaluate_spec l p : best l p (sd_evaluate l p).
Proof. apply (sd_fold_spec p l [] None). reflexivity. Qed.
Lemma sd_evaluate_some l p : l <> [] -> exists m i, sd_evaluate l p = Some (m, i) /\ nearest_shape l p m i.
Proof.
  intros N. pose proof (sd_evaluate_spec l p) as H. destruct (sd_evaluate l p) as [[m i]|]; [|contradiction].
  exists m, i. auto.
Qed.
Lemma nearest_in l p m i s : nearest_shape l p m i -> In s l -> m <= sdf_eval s p.
Proof. intros [_ H] I. apply In_nth_error in I. destruct I as [j N]. apply (H j s N). Qed.
Lemma nearest_unique l p m i m' i' : nearest_shape l p m i -> nearest_shape l p m' i' -> m = m' /\ i = i'.
Proof.
  intros [(s&N&E) H] [(s'&N'&E') H'].
  destruct (H i' s' N') as [A1 A2]. destruct (H' i s N) as [B1 B2]. assert (m = m') by lra. split; [assumption|].
  destruct (Nat.lt_trichotomy i i') as [L|[L|L]]; [|exact L|].
  - specialize (B2 L). lra.
  - specialize (A2 L). lra.
Qed.
Lemma nearest_perm l l' p m i m' i' : Permutation l l' -> nearest_shape l p m i -> nearest_shape l' p m' i' -> m = m'.
Proof.
  intros P H H'. apply Rle_antisym.
  - destruct (proj1 H') as (s&N&<-). apply (nearest_in l p m i s H). apply (Permutation_in s (Permutation_sym P)). eapply nth_error_In, N.
  - destruct (proj1 H) as (s&N&<-). apply (nearest_in l' p m' i' s H'). apply (Permutation_in s P). eapply nth_error_In, N.
Qed.

(** ** consequences of exact distances *)
Lemma eval_le s p q : sensible s -> solid s q -> sdf_eval s p <= dist p q.
Proof.
  intros S Q. destruct (shapes_exact s p S) as [O I]. pose proof (dist_nonneg p q).
  destruct (Classical_Prop.classic (solid s p)) as [Y|N]; [destruct (I Y) as (D&_); lra|].
  destruct (O N) as (_&LB&_). apply LB, Q.
Qed.
Lemma eval_near s p e : sensible s -> 0 <= e -> sdf_eval s p <= e -> exists q, solid s q /\ dist p q <= e.
Proof.
  intros S E L. destruct (shapes_exact s p S) as [O _].
  destruct (Classical_Prop.classic (solid s p)) as [Y|N]; [exists p; rewrite dist_self; auto|].
  destruct (O N) as (_&_&q&Q&D). exists q. split; [exact Q|lra].
Qed.
Lemma ray_dist r s t : norm (dir r) = 1 -> dist (ray_at r s) (ray_at r t) = Rabs (s - t).
Proof. intros U. apply (dist_along (org r) (dir r) s t U). Qed.
Lemma Eps_pos : 0 < Epsilon. Proof. unfold Epsilon. lra. Qed.

(** ** marching *)
Definition near_hit (l : list sdf) (r : ray) (h : sdf_hit) : Prop :=
  exists s q, nth_error l (h_shape h) = Some s /\ solid s q /\ dist (ray_at r (h_t h)) q <= Epsilon.
Lemma march_safe l r far : Forall sensible l -> norm (dir r) = 1 -> forall n d h, sd_march l r far n d = Some h ->
  d <= h_t h /\ Rbar_le (Finite (h_t h)) far /\ (forall t, d <= t < h_t h -> ~ in_scene l (ray_at r t)) /\ near_hit l r h.
Proof.
  intros SN U. rewrite Forall_forall in SN. induction n as [|n IH]; intros d h H; [discriminate|].
  cbn [sd_march] in H. destruct (Rbar_le_dec (Finite d) far) as [F|F]; [|discriminate].
  destruct (sd_evaluate l (ray_at r d)) as [[sd i]|] eqn:E; [|discriminate].
  pose proof (sd_evaluate_spec l (ray_at r d)) as B. rewrite E in B. cbn [best] in B.
  destruct (Rle_dec sd Epsilon) as [L|L].
  - injection H as <-. cbn [h_t h_shape]. split; [lra|]. split; [exact F|]. split; [intros t T; lra|].
    destruct (proj1 B) as (s&N&Es). pose proof Eps_pos.
    destruct (eval_near s (ray_at r d) Epsilon (SN s (nth_error_In _ _ N)) ltac:(lra) ltac:(lra)) as (q&Q&D).
    exists s, q. auto.
  - apply Rnot_le_lt in L. pose proof Eps_pos. destruct (IH _ _ H) as (A&A2&A3&A4). split; [lra|]. split; [exact A2|]. split; [|exact A4].
    intros t [T1 T2] (s&I&Q). destruct (Rlt_or_le t (d + sd)) as [Lt|Lt]; [|apply (A3 t); [lra|exists s; auto]].
    pose proof (nearest_in l _ sd i s B I). pose proof (eval_le s (ray_at r d) _ (SN s I) Q) as D. rewrite (ray_dist r d t U) in D.
    rewrite Rabs_left1 in D by lra. lra.
Qed.
Lemma march_found l r far t0 : Forall sensible l -> norm (dir r) = 1 -> in_scene l (ray_at r t0) -> Rbar_le (Finite t0) far ->
  forall n d, (0 < n)%nat -> d <= t0 <= d + INR n * Epsilon -> exists h, sd_march l r far n d = Some h.
Proof.
  intros SN U (s&I&Q) F. rewrite Forall_forall in SN. induction n as [|n IH]; intros d N0 D; [lia|].
  cbn [sd_march]. destruct (Rbar_le_dec (Finite d) far) as [L|L].
  2:{ exfalso. apply L. eapply Rbar_le_trans; [|exact F]. cbn. lra. }
  destruct (sd_evaluate_some l (ray_at r d)) as (m&i&E&B); [intros ->; contradiction|]. rewrite E.
  destruct (Rle_dec m Epsilon) as [Le|Le]; [eexists; reflexivity|]. apply Rnot_le_lt in Le.
  pose proof (nearest_in l _ m i s B I). pose proof (eval_le s (ray_at r d) _ (SN s I) Q) as Ds. rewrite (ray_dist r d t0 U) in Ds.
  rewrite Rabs_left1 in Ds by lra. rewrite S_INR in D.
  destruct n as [|n]; [cbn in D; lra|]. apply IH; [lia|]. lra.
Qed.

(** ** the scene box *)
Definition box_e (b : bbox) : ebox := EB (ev (bmn b)) (ev (bmx b)).
Lemma build_within l : forall b0, within b0 (fold_left (fun b s => ebox_expand_box b (box_e (sdf_bbox s))) l b0) /\
  forall s, In s l -> within (box_e (sdf_bbox s)) (fold_left (fun b s => ebox_expand_box b (box_e (sdf_bbox s))) l b0).
Proof.
  induction l as [|s l IH]; intros b0; cbn [fold_left].
  - split; [apply within_refl|intros s []].
  - destruct (IH (ebox_expand_box b0 (box_e (sdf_bbox s)))) as [A B].
    assert (M : within b0 (ebox_expand_box b0 (box_e (sdf_bbox s))) /\ within (box_e (sdf_bbox s)) (ebox_expand_box b0 (box_e (sdf_bbox s)))).
    { apply (merge_lub b0 (box_e (sdf_bbox s))). apply within_refl. }
    split; [eapply within_trans; [apply M|exact A]|]. intros s' [<-|I]; [eapply within_trans; [apply M|exact A]|apply B, I].
Qed.
Lemma expand_fin b c : exists d, ebox_expand_box (box_e b) (box_e c) = box_e d.
Proof.
  exists (BB (V3 (pick_lt (vx (bmn b)) (vx (bmn c))) (pick_lt (vy (bmn b)) (vy (bmn c))) (pick_lt (vz (bmn b)) (vz (bmn c))))
             (V3 (pick_gt (vx (bmx b)) (vx (bmx c))) (pick_gt (vy (bmx b)) (vy (bmx c))) (pick_gt (vz (bmx b)) (vz (bmx c))))).
  unfold ebox_expand_box, box_e, emin, emax, ev, emin1, emax1, pick_lt, pick_gt. cbn [emn emx ex ey ez bmn bmx vx vy vz].
  repeat match goal with |- context [Rbar_lt_dec ?a ?b] => destruct (Rbar_lt_dec a b) end;
  repeat match goal with |- context [Rlt_dec ?a ?b] => destruct (Rlt_dec a b) end;
  repeat match goal with |- context [Rgt_dec ?a ?b] => destruct (Rgt_dec a b) end; cbn [Rbar_lt] in *; try contradiction; reflexivity.
Qed.
Lemma expand_reset c : ebox_expand_box ebox_reset (box_e c) = box_e c.
Proof.
  unfold ebox_expand_box, box_e, emin, emax, ev, emin1, emax1, ebox_reset. cbn [emn emx ex ey ez].
  repeat match goal with |- context [Rbar_lt_dec ?a ?b] => destruct (Rbar_lt_dec a b) as [L|L]; cbn [Rbar_lt] in L; [contradiction|clear L] end.
  reflexivity.
Qed.
Lemma build_fin l : forall b, exists d, fold_left (fun b s => ebox_expand_box b (box_e (sdf_bbox s))) l (box_e b) = box_e d.
Proof.
  induction l as [|s l IH]; intros b; cbn [fold_left]; [exists b; reflexivity|].
  destruct (expand_fin b (sdf_bbox s)) as [d ->]. apply IH.
Qed.
Lemma build_some l : l <> [] -> exists b, sdf_build l = box_e b /\ finite_box (sdf_build l) = Some b /\
  forall s, In s l -> boxed s -> forall q, solid s q -> in_box b q.
Proof.
  destruct l as [|s0 l]; [contradiction|]. intros _.
  assert (X : exists b, sdf_build (s0 :: l) = box_e b).
  { unfold sdf_build. cbn [fold_left]. fold (box_e (sdf_bbox s0)). rewrite expand_reset. apply build_fin. }
  destruct X as [b E]. exists b. split; [exact E|]. split; [rewrite E; destruct b as [[] []]; reflexivity|].
  intros s I BX q Q. destruct (BX q Q) as (X&Y&Z).
  destruct (proj2 (build_within (s0 :: l) ebox_reset) s I) as (W1&W2&W3&W4&W5&W6).
  change (fold_left (fun b s => ebox_expand_box b (box_e (sdf_bbox s))) (s0 :: l) ebox_reset) with (sdf_build (s0 :: l)) in *.
  rewrite E in *. unfold box_e, ev in *. cbn [emn emx ex ey ez Rbar_le] in *. unfold in_box. lra.
Qed.

Definition in_range (a : Rbar * Rbar) (t : R) : Prop := Rbar_le (fst a) (Finite t) /\ Rbar_le (Finite t) (snd a).
Lemma range_step_in o mn mx d acc t : in_range (snd acc) t -> Rmin mn mx <= o + d * t <= Rmax mn mx -> in_range (snd (range_step o mn mx d acc)) t.
Proof.
  intros H S. unfold range_step. destruct (fst acc); [|exact H]. destruct acc as [c [near far]]. cbn [fst snd] in *.
  destruct (Req_EM_T d 0) as [D|D].
  { destruct (Rlt_dec o mn); [exact H|]. destruct (Rgt_dec o mx); exact H. }
  set (a := (mn - o) * (1 / d)). set (b := (mx - o) * (1 / d)).
  assert (T : Rmin a b <= t <= Rmax a b).
  { assert (Ea : a * d = mn - o) by (unfold a; field; exact D). assert (Eb : b * d = mx - o) by (unfold b; field; exact D).
    assert (P : 0 < d * d) by (destruct (Rlt_or_le 0 d) as [P|P]; nra).
    assert (M : (t - a) * (t - b) <= 0).
    { apply (Rmult_le_reg_r (d * d)); [exact P|]. rewrite Rmult_0_l.
      replace ((t - a) * (t - b) * (d * d)) with ((o + d * t - (o + a * d)) * (o + d * t - (o + b * d))) by ring. rewrite Ea, Eb.
      unfold Rmin, Rmax in S. destruct (Rle_dec mn mx); nra. }
    unfold Rmin, Rmax. destruct (Rle_dec a b); nra. }
  assert (Sw : (if Rgt_dec a b then (b, a) else (a, b)) = (Rmin a b, Rmax a b)).
  { destruct (Rgt_dec a b); [rewrite Rmin_right, Rmax_left by lra|apply Rnot_gt_le in n; rewrite Rmin_left, Rmax_right by lra]; reflexivity. }
  rewrite Sw.
  assert (R : in_range (emax1 (Finite (Rmin a b)) near, emin1 (Finite (Rmax a b)) far) t).
  { split; cbn [fst snd]; [apply emax1_lub; split; [apply T|apply H]|apply emin1_glb; split; [apply T|apply H]]. }
  destruct (Rbar_le_dec _ _); exact R.
Qed.
Lemma bb_range_in b r t : between b (ray_at r t) -> in_range (bb_range b r) t.
Proof.
  intros (X&Y&Z). unfold ray_at in *. cbn [vx vy vz vadd vscale] in *. unfold bb_range.
  apply range_step_in; [|exact Z]. apply range_step_in; [|exact Y]. apply range_step_in; [|exact X]. split; exact I.
Qed.
Lemma in_box_between b q : in_box b q -> between b q.
Proof. unfold in_box, between, Rmin, Rmax. intros (X&Y&Z). repeat destruct (Rle_dec _ _); lra. Qed.
Lemma start_ge near : Epsilon <= sd_start near.
Proof. pose proof Eps_pos. unfold sd_start. destruct near; try lra. destruct (Rlt_dec r Epsilon); lra. Qed.
Lemma start_le near t : Epsilon <= t -> Rbar_le near (Finite t) -> sd_start near <= t.
Proof. intros E L. unfold sd_start. destruct near; cbn in L; try lra. destruct (Rlt_dec r Epsilon); lra. Qed.

Lemma intersect_safe l r h : Forall sensible l -> norm (dir r) = 1 -> sdf_intersect l r = Some h ->
  exists b, finite_box (sdf_build l) = Some b /\
  Epsilon <= h_t h /\ (forall t, Epsilon <= t < h_t h -> between b (ray_at r t) -> ~ in_scene l (ray_at r t)) /\ near_hit l r h.
Proof.
  intros SN U H. unfold sdf_intersect in H.
  destruct l as [|s0 l0]; [discriminate|]. set (l := s0 :: l0) in *.
  destruct (build_some l ltac:(discriminate)) as (b&E1&E2&IN). rewrite E2 in H. exists b. split; [exact E2|].
  destruct (bb_range b r) as [near far] eqn:R.
  destruct (march_safe l r far SN U _ _ _ H) as (A&_&C&D). pose proof (start_ge near).
  split; [lra|]. split; [|exact D]. intros t T BT Q.
  apply (C t); [|exact Q]. split; [|apply T].
  pose proof (bb_range_in b r t BT) as (G&_).
  rewrite R in G. apply start_le; [apply T|exact G].
Qed.
Lemma intersect_found l r t0 b : Forall sensible l -> norm (dir r) = 1 -> finite_box (sdf_build l) = Some b ->
  in_scene l (ray_at r t0) -> between b (ray_at r t0) ->
  Epsilon <= t0 <= INR SDF_STEPS * Epsilon -> exists h, sdf_intersect l r = Some h /\ h_t h <= t0.
Proof.
  intros SN U E2 Q BT T.
  assert (N : l <> []) by (intros ->; destruct Q as (s&[]&_)).
  assert (X : exists h, sdf_intersect l r = Some h).
  { unfold sdf_intersect. rewrite E2. destruct (bb_range b r) as [near far] eqn:R.
    pose proof (bb_range_in b r t0 BT) as (G1&G2).
    rewrite R in G1, G2. cbn [fst snd] in *. pose proof (start_ge near). pose proof (start_le near t0 (proj1 T) G1). pose proof Eps_pos.
    apply (march_found l r far t0 SN U Q G2); [unfold SDF_STEPS; lia|]. lra. }
  destruct X as [h H]. exists h. split; [exact H|].
  destruct (Rle_or_lt (h_t h) t0) as [|L]; [assumption|exfalso].
  destruct (intersect_safe l r h SN U H) as (b'&E3&_&A&_). rewrite E2 in E3. injection E3 as <-. apply (A t0); [lra|exact BT|exact Q].
Qed.
Lemma boxed_between l b : Forall boxed l -> finite_box (sdf_build l) = Some b -> forall q, in_scene l q -> between b q.
Proof.
  intros BX E q (s&I&Q). rewrite Forall_forall in BX.
  destruct (build_some l) as (b'&_&E'&IN); [intros ->; destruct I|]. rewrite E in E'. injection E' as <-.
  apply in_box_between, (IN s I (BX s I) q Q).
Qed.
Lemma build_one s : finite_box (sdf_build [s]) = Some (sdf_bbox s).
Proof. unfold sdf_build. cbn [fold_left]. fold (box_e (sdf_bbox s)). rewrite expand_reset. destruct (sdf_bbox s) as [[] []]. reflexivity. Qed.

(** ** boxes of the shapes *)
Lemma sphere_boxed c r : boxed (SDFSphere c r).
Proof.
  intros q Q. cbn [solid] in Q. cbn [sdf_bbox bmn bmx vx vy vz vadd vsub V3c].
  pose proof (dist_nonneg q c). assert (S : sq q c <= r * r) by (rewrite <- dist_sq; nra). unfold sq in S.
  pose proof (pow2_ge_0 (vx q - vx c)). pose proof (pow2_ge_0 (vy q - vy c)). pose proof (pow2_ge_0 (vz q - vz c)).
  assert (K : forall u, u ^ 2 <= r * r -> - r <= u <= r) by (intros u Hu; split; nra).
  pose proof (K (vx q - vx c) ltac:(lra)). pose proof (K (vy q - vy c) ltac:(lra)). pose proof (K (vz q - vz c) ltac:(lra)). lra.
Qed.
Lemma box_boxed a b : sensible (SDFBox a b) -> (boxed (SDFBox a b) <-> a = b).
Proof.
  intros (X&Y&Z). unfold boxed. cbn [solid sdf_bbox bmn bmx]. split.
  - intros H. destruct (H b) as (A&B&C); [lra|]. apply V3_eq; lra.
  - intros <- q Q. lra.
Qed.
Lemma box_between a b q : sensible (SDFBox a b) -> solid (SDFBox a b) q -> between (sdf_bbox (SDFBox a b)) q.
Proof.
  intros (X&Y&Z) Q. cbn [solid] in Q. unfold between. cbn [sdf_bbox bmn bmx].
  rewrite !Rmin_right, !Rmax_left by lra. lra.
Qed.
Lemma cone_axis a b r1 r2 t : 0 <= r1 -> 0 <= r2 -> 0 <= t <= 1 -> solid (SDFCone a b r1 r2) (vadd a (vscale (vsub b a) t)).
Proof.
  intros H1 H2 T. exists t, 0. split; [exact T|]. split; [nra|]. exists (V3 0 0 0). split; [unfold dot; cbn [vx vy vz]; ring|]. split.
  - unfold norm. cbn [vx vy vz]. replace (0 * 0 + 0 * 0 + 0 * 0) with 0 by ring. apply sqrt_0.
  - apply V3_eq; cbn; ring.
Qed.
Lemma comp_le w c : norm w <= c -> (- c <= vx w <= c) /\ (- c <= vy w <= c) /\ (- c <= vz w <= c).
Proof.
  intros H. pose proof (norm_nonneg w) as N. pose proof (norm_sqr w) as S. unfold sqrNorm in S.
  assert (Q : vx w * vx w + vy w * vy w + vz w * vz w <= c * c) by (rewrite <- S; nra).
  pose proof (sqr_pos (vx w)). pose proof (sqr_pos (vy w)). pose proof (sqr_pos (vz w)).
  assert (K : forall u, u * u <= c * c -> - c <= u <= c) by (intros u Hu; split; nra).
  split; [|split]; apply K; lra.
Qed.
Lemma cone_boxed a b r1 r2 : sensible (SDFCone a b r1 r2) -> (boxed (SDFCone a b r1 r2) <-> (r1 = 0 /\ r2 = 0 /\ below a b)).
Proof.
  intros (AB&H1&H2). unfold boxed. split.
  - intros H. pose proof (H _ (cone_axis a b r1 r2 0 H1 H2 ltac:(lra))) as P0. pose proof (H _ (cone_axis a b r1 r2 1 H1 H2 ltac:(lra))) as P1.
    cbn [sdf_bbox bmn bmx vx vy vz vadd vsub vscale V3c] in P0, P1.
    pose proof (Rmax_l r1 r2). pose proof (Rmax_r r1 r2). unfold below. lra.
  - intros (-> & -> & A). intros q Q. cbn [solid] in Q. destruct Q as (t&rho&T&L&w&W&N&E).
    assert (NW : norm w <= 0) by lra. destruct (comp_le w 0 NW) as (X&Y&Z). destruct A as (A1&A2&A3).
    cbn [sdf_bbox bmn bmx vx vy vz vadd vsub V3c]. rewrite (Rmax_left 0 0) by lra. rewrite E. cbn [vx vy vz vadd vsub vscale].
    repeat split; nra.
Qed.
Lemma cone_between a b r1 r2 q : sensible (SDFCone a b r1 r2) -> below b a -> solid (SDFCone a b r1 r2) q -> between (sdf_bbox (SDFCone a b r1 r2)) q.
Proof.
  intros (AB&H1&H2) (B1&B2&B3) (t&rho&T&L&w&W&N&E). set (m := Rmax r1 r2). pose proof (Rmax_l r1 r2). pose proof (Rmax_r r1 r2). fold m in H, H0.
  assert (NW : norm w <= m) by nra. destruct (comp_le w m NW) as (X&Y&Z).
  unfold between. cbn [sdf_bbox]. fold m. cbn [bmn bmx vx vy vz vadd vsub V3c]. rewrite !Rmin_right, !Rmax_left by lra. rewrite E. cbn [vx vy vz vadd vsub vscale].
  repeat split; nra.
Qed.
Lemma cyl_solid a b r q : solid (SDFCylinder a b r) q <-> solid (SDFCone a b r r) q.
Proof. cbn [solid]. split; intros (t&rho&T&L&A); exists t, rho; (split; [exact T|]); (split; [lra|exact A]). Qed.
Lemma cyl_bbox a b r : sdf_bbox (SDFCylinder a b r) = sdf_bbox (SDFCone a b r r).
Proof. cbn [sdf_bbox]. rewrite Rmax_left by lra. reflexivity. Qed.
Lemma cylinder_boxed a b r : sensible (SDFCylinder a b r) -> (boxed (SDFCylinder a b r) <-> (r = 0 /\ below a b)).
Proof.
  intros (AB&H). pose proof (cone_boxed a b r r (conj AB (conj H H))) as C.
  assert (E : boxed (SDFCylinder a b r) <-> boxed (SDFCone a b r r)).
  { unfold boxed. rewrite (cyl_bbox a b r). split; intros K q Q; apply K, cyl_solid, Q. }
  rewrite E, C. tauto.
Qed.
Lemma plane_boxed c n : unit3 n -> ~ boxed (SDFPlane c n).
Proof.
  intros U H.
  assert (X : exists v, norm v = 1 /\ dot v n = 0).
  { assert (N : n <> V3 0 0 0) by (apply unit_nonzero, U).
    assert (V : V3 0 0 0 <> n) by (intros E; apply N; symmetry; exact E).
    destruct (axis_dir (V3 0 0 0) n V (V3 0 0 0)) as (u&U1&O&_). exists u. split; [exact U1|].
    rewrite <- O. f_equal. apply V3_eq; cbn; ring. }
  destruct X as (v&V&O). assert (S : sqrNorm v = 1) by (rewrite <- norm_sqr, V; ring). unfold sqrNorm in S.
  pose proof (H (vadd c (vscale v 10000))) as P. cbn [solid] in P.
  assert (Q : dot (vsub (vadd c (vscale v 10000)) c) n = 0).
  { replace (vsub (vadd c (vscale v 10000)) c) with (vscale v 10000) by (apply V3_eq; cbn; ring). rewrite dot_scale_l, O. ring. }
  specialize (P Q). cbn [sdf_bbox bmn bmx vx vy vz vadd vsub vscale V3c] in P. nra.
Qed.
Lemma intersect_range l o d n f n' f' : sdf_intersect l (Ray o d n f) = sdf_intersect l (Ray o d n' f').
Proof.
  unfold sdf_intersect. destruct (finite_box (sdf_build l)) as [b|]; [|reflexivity].
  change (bb_range b (Ray o d n' f')) with (bb_range b (Ray o d n f)). destruct (bb_range b (Ray o d n f)) as [near far].
  generalize (sd_start near). induction SDF_STEPS as [|k IH]; intros t; [reflexivity|]. cbn [sd_march].
  destruct (Rbar_le_dec (Finite t) far); [|reflexivity]. change (ray_at (Ray o d n' f') t) with (ray_at (Ray o d n f) t).
  destruct (sd_evaluate l (ray_at (Ray o d n f) t)) as [[sd i]|]; [|reflexivity]. destruct (Rle_dec sd Epsilon); [reflexivity|apply IH].
Qed.

(** ** normals *)
Lemma sd_normal_unit l p : unit3 (sd_normal l p).
Proof.
  unfold sd_normal. set (dx := _ - _). set (dy := _ - _). set (dz := _ - _).
  assert (U1 : unit3 (normalized (V3 0 1 0))) by (apply normalized_unit; intros E; injection E; lra).
  destruct (Req_EM_T dx dy) as [E1|E1]; [destruct (Req_EM_T dx dz) as [E2|E2]; [destruct (Req_EM_T dx 0) as [E3|E3]|]|]; try exact U1;
    apply normalized_unit; intros E; injection E; intros; lra.
Qed.
Lemma march_normal l r far : forall n d h, sd_march l r far n d = Some h ->
  h_g h = frame_of (sd_normal l (ray_at r (h_t h))) /\ h_s h = h_g h /\
  h_p h = vadd (ray_at r (h_t h)) (vscale (sd_normal l (ray_at r (h_t h))) Epsilon).
Proof.
  induction n as [|n IH]; intros d h H; [discriminate|]. cbn [sd_march] in H.
  destruct (Rbar_le_dec (Finite d) far); [|discriminate]. destruct (sd_evaluate l (ray_at r d)) as [[sd i]|]; [|discriminate].
  destruct (Rle_dec sd Epsilon); [|apply (IH _ _ H)]. injection H as <-. cbn. auto.
Qed.
Lemma intersect_normal l r h : sdf_intersect l r = Some h ->
  h_g h = frame_of (sd_normal l (ray_at r (h_t h))) /\ h_s h = h_g h /\
  h_p h = vadd (ray_at r (h_t h)) (vscale (sd_normal l (ray_at r (h_t h))) Epsilon).
Proof.
  unfold sdf_intersect. destruct (finite_box _) as [b|]; [|discriminate]. destruct (bb_range b r) as [near far]. apply march_normal.
Qed.
Lemma sd_val_one s p : sd_val [s] p = sdf_eval s p. Proof. reflexivity. Qed.
Lemma sphere_diff c r p e : 0 < norm (vsub p c) ->
  exists k, 0 < k /\ sphere_eval c r (vadd p e) - sphere_eval c r (vsub p e) = k * dot (vsub p c) e.
Proof.
  intros N. unfold sphere_eval. set (u := vsub (vadd p e) c). set (v := vsub (vsub p e) c).
  assert (S : 0 < norm u + norm v).
  { pose proof (norm_nonneg u). pose proof (norm_nonneg v). pose proof (norm_triangle u v) as T.
    replace (vadd u v) with (vscale (vsub p c) 2) in T by (unfold u, v; apply V3_eq; cbn; ring).
    rewrite norm_vscale, Rabs_pos_eq in T by lra. lra. }
  exists (4 / (norm u + norm v)). split; [apply Rdiv_lt_0_compat; lra|].
  assert (E : norm u * norm u - norm v * norm v = 4 * dot (vsub p c) e).
  { rewrite !norm_sqr. unfold u, v, sqrNorm, dot. cbn. ring. }
  apply (Rmult_eq_reg_r (norm u + norm v)); [|lra]. transitivity (norm u * norm u - norm v * norm v); [ring|].
  rewrite E. field. lra.
Qed.
Lemma normalized_dot v w : 0 < dot v w -> 0 < dot (normalized v) w.
Proof.
  intros H. assert (N : v <> V3 0 0 0) by (intros ->; unfold dot in H; cbn in H; lra).
  pose proof (norm_pos v N). rewrite (normalized_scale v N), dot_scale_l in H.
  destruct (Rlt_or_le 0 (dot (normalized v) w)) as [|L]; [assumption|exfalso]. nra.
Qed.
Lemma sphere_normal_outward c r p : p <> c -> 0 < dot (sd_normal [SDFSphere c r] p) (vsub p c).
Proof.
  intros NE. assert (N0 : vsub p c <> V3 0 0 0) by (intros E; injection E as E1 E2 E3; apply NE, V3_eq; lra).
  pose proof (norm_pos _ N0) as N. pose proof (sqrNorm_pos _ N0) as SP. pose proof Eps_pos.
  destruct (sphere_diff c r p EPS_VEC_X N) as (kx&Kx&Ex). destruct (sphere_diff c r p EPS_VEC_Y N) as (ky&Ky&Ey).
  destruct (sphere_diff c r p EPS_VEC_Z N) as (kz&Kz&Ez).
  unfold sd_normal. rewrite !sd_val_one. cbn [sdf_eval]. rewrite Ex, Ey, Ez.
  set (v := vsub p c) in *. unfold dot. fold (dot v EPS_VEC_X) (dot v EPS_VEC_Y) (dot v EPS_VEC_Z).
  assert (Dx : dot v EPS_VEC_X = Epsilon * vx v) by (unfold dot, EPS_VEC_X; cbn; ring).
  assert (Dy : dot v EPS_VEC_Y = Epsilon * vy v) by (unfold dot, EPS_VEC_Y; cbn; ring).
  assert (Dz : dot v EPS_VEC_Z = Epsilon * vz v) by (unfold dot, EPS_VEC_Z; cbn; ring).
  rewrite Dx, Dy, Dz.
  assert (P : 0 < dot (V3 (kx * (Epsilon * vx v)) (ky * (Epsilon * vy v)) (kz * (Epsilon * vz v))) v).
  { unfold dot. cbn [vx vy vz]. unfold sqrNorm in SP.
    replace (vx v * (kx * (Epsilon * vx v)) + vy v * (ky * (Epsilon * vy v)) + vz v * (kz * (Epsilon * vz v)))
      with (Epsilon * (kx * (vx v * vx v) + ky * (vy v * vy v) + kz * (vz v * vz v))) by ring.
    apply Rmult_lt_0_compat; [assumption|]. pose proof (sqr_pos (vx v)). pose proof (sqr_pos (vy v)). pose proof (sqr_pos (vz v)).
    set (mk := Rmin kx (Rmin ky kz)). assert (MK : 0 < mk) by (unfold mk; apply Rmin_glb_lt; [|apply Rmin_glb_lt]; assumption).
    assert (mk <= kx) by apply Rmin_l. assert (mk <= ky) by (eapply Rle_trans; [apply Rmin_r|apply Rmin_l]).
    assert (mk <= kz) by (eapply Rle_trans; [apply Rmin_r|apply Rmin_r]).
    assert (A : mk * (vx v * vx v + vy v * vy v + vz v * vz v) <= kx * (vx v * vx v) + ky * (vy v * vy v) + kz * (vz v * vz v)) by nra.
    eapply Rlt_le_trans; [|exact A]. apply Rmult_lt_0_compat; assumption. }
  match goal with |- context [Req_EM_T ?a ?b] => destruct (Req_EM_T a b) as [E1|E1] end.
  2:{ apply (normalized_dot _ v P). }
  match goal with |- context [Req_EM_T ?a ?b] => destruct (Req_EM_T a b) as [E2|E2] end.
  2:{ apply (normalized_dot _ v P). }
  match goal with |- context [Req_EM_T ?a ?b] => destruct (Req_EM_T a b) as [E3|E3] end.
  2:{ apply (normalized_dot _ v P). }
  exfalso. unfold dot in P. cbn [vx vy vz] in P. rewrite <- E1, <- E2, E3 in P. lra.
Qed.

(** ** smooth union *)
Lemma smooth_form d1 d2 k : 0 < k -> let h := clamp (1 / 2 + 1 / 2 * (d2 - d1) / k) 0 1 in
  (d1 - d2 >= k -> sd_smooth_union d1 d2 k = d2) /\ (d2 - d1 >= k -> sd_smooth_union d1 d2 k = d1) /\
  (Rabs (d1 - d2) <= k -> sd_smooth_union d1 d2 k = (d1 + d2) / 2 - k / 4 - (d2 - d1) * (d2 - d1) / (4 * k)).
Proof.
  intros K h. set (g := 1 / 2 + 1 / 2 * (d2 - d1) / k).
  assert (G : g * k = k / 2 + (d2 - d1) / 2) by (unfold g; field; lra).
  assert (U : sd_smooth_union d1 d2 k = d2 * (1 - clamp g 0 1) + clamp g 0 1 * d1 - k * clamp g 0 1 * (1 - clamp g 0 1)) by reflexivity.
  split; [|split].
  - intros H. assert (g <= 0) by (apply (Rmult_le_reg_r k); lra). rewrite U. unfold clamp.
    destruct (Rlt_dec g 0); [ring|]. destruct (Rgt_dec g 1); [lra|]. assert (g = 0) by lra. rewrite H1. ring.
  - intros H. assert (1 <= g) by (apply (Rmult_le_reg_r k); lra). rewrite U. unfold clamp.
    destruct (Rlt_dec g 0); [lra|]. destruct (Rgt_dec g 1); [ring|]. assert (g = 1) by lra. rewrite H1. ring.
  - intros H. assert (- k <= d1 - d2 <= k) by (unfold Rabs in H; destruct (Rcase_abs (d1 - d2)); lra). assert (0 <= g) by (apply (Rmult_le_reg_r k); lra). assert (g <= 1) by (apply (Rmult_le_reg_r k); lra).
    rewrite U. unfold clamp. destruct (Rlt_dec g 0); [lra|]. destruct (Rgt_dec g 1); [lra|]. unfold g. field. lra.
Qed.
Lemma build_covers l b s q : finite_box (sdf_build l) = Some b -> In s l -> in_box (sdf_bbox s) q -> in_box b q.
Proof.
  intros F I (X&Y&Z). destruct (build_some l) as (b'&E&F'&_); [intros ->; destruct I|]. rewrite F in F'. injection F' as <-.
  destruct (proj2 (build_within l ebox_reset) s I) as (W1&W2&W3&W4&W5&W6).
  change (fold_left (fun b s => ebox_expand_box b (box_e (sdf_bbox s))) l ebox_reset) with (sdf_build l) in *.
  rewrite E in *. unfold box_e, ev in *. cbn [emn emx ex ey ez Rbar_le] in *. unfold in_box. lra.
Qed.
Lemma smooth_le d1 d2 k : 0 < k -> Rmin d1 d2 - k / 4 <= sd_smooth_union d1 d2 k <= Rmin d1 d2.
Proof.
  intros K. destruct (smooth_form d1 d2 k K) as (A&B&C).
  destruct (Rle_or_lt k (d1 - d2)) as [L|L]; [rewrite A, Rmin_right by lra; lra|].
  destruct (Rle_or_lt k (d2 - d1)) as [L'|L']; [rewrite B, Rmin_left by lra; lra|].
  rewrite C by (unfold Rabs; destruct (Rcase_abs _); lra).
  assert (S : forall u, - k < u < k -> 0 <= (k - u) * (k - u) / (4 * k) <= k / 4 \/ u < 0).
  { intros u Hu. destruct (Rlt_or_le u 0); [auto|left]. split; [apply Rdiv_le_0_compat; [apply sqr_pos|lra]|].
    apply (Rmult_le_reg_r (4 * k)); [lra|]. replace ((k - u) * (k - u) / (4 * k) * (4 * k)) with ((k - u) * (k - u)) by (field; lra). nra. }
  destruct (Rle_or_lt d1 d2) as [O|O].
  - rewrite Rmin_left by lra. destruct (S (d2 - d1)) as [Q|Q]; [lra| |lra].
    replace ((d1 + d2) / 2 - k / 4 - (d2 - d1) * (d2 - d1) / (4 * k)) with (d1 - (k - (d2 - d1)) * (k - (d2 - d1)) / (4 * k)) by (field; lra). lra.
  - rewrite Rmin_right by lra. destruct (S (d1 - d2)) as [Q|Q]; [lra| |lra].
    replace ((d1 + d2) / 2 - k / 4 - (d2 - d1) * (d2 - d1) / (4 * k)) with (d2 - (k - (d1 - d2)) * (k - (d1 - d2)) / (4 * k)) by (field; lra). lra.
Qed.
