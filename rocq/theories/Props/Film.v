(** C05, C06, C07, C09, C64, C71, C72: film accumulation and reconstruction filters. *)
From Coq Require Import Reals ZArith List Bool Lra Lia Permutation.
From Verif.Base Require Import Outcome.
From Verif.Model Require Import Vec Tiles Locks Film.
From Verif.Spec Require Import TilesSpec FilmSpec PoolSpec.
From Verif.Proof Require Import FilmProof PoolFilmProof PoolExtra.
Import ListNotations.
Open Scope R_scope.

(** C05: for every position and filter size, no pixel outside the film is touched, each
    touched pixel is touched once with the filter's value, and every film pixel whose centre
    lies within the closed filter support is touched. *)
Theorem C05_splat_in_bounds (fsize : vec2) (feval : vec2 -> R) (w h : Z) (ps : vec2) x y wt :
  In (x, y, wt) (splat fsize feval w h ps) ->
  in_film w h x y /\ wt = feval (offset x y (ps, V3 0 0 0)).
Proof. exact (splat_in fsize feval w h ps x y wt). Qed.
Print Assumptions C05_splat_in_bounds.

Theorem C05_splat_complete (fsize : vec2) (feval : vec2 -> R) (w h : Z) (ps : vec2) x y :
  in_film w h x y ->
  Rabs (IZR x + 1 / 2 - x2 ps) <= x2 fsize -> Rabs (IZR y + 1 / 2 - y2 ps) <= y2 fsize ->
  In (x, y, feval (offset x y (ps, V3 0 0 0))) (splat fsize feval w h ps).
Proof.
  intros [Hx Hy] Ax Ay. unfold splat. apply in_flat_map. exists y.
  split; [apply footprint_complete; assumption|]. apply in_map_iff. exists x.
  split; [reflexivity|apply footprint_complete; assumption].
Qed.
Print Assumptions C05_splat_complete.

Theorem C05_splat_once (fsize : vec2) (feval : vec2 -> R) (w h : Z) (ps : vec2) :
  NoDup (map fst (splat fsize feval w h ps)).
Proof.
  unfold splat. generalize (footprint_nodup h (y2 ps) (y2 fsize)).
  induction (footprint h (y2 ps) (y2 fsize)) as [|fi l IH]; intros Hnd; simpl; [constructor|].
  inversion Hnd as [|? ? Hni Hnd']; subst. rewrite map_app.
  assert (Hrow : forall r, map fst (map (fun fj => (fj, r, splat_weight feval ps fj r)) (footprint w (x2 ps) (x2 fsize)))
                = map (fun fj => (fj, r)) (footprint w (x2 ps) (x2 fsize))).
  { intros r. rewrite map_map. reflexivity. }
  rewrite Hrow. clear Hrow.
  assert (Hr : NoDup (map (fun fj : Z => (fj, fi)) (footprint w (x2 ps) (x2 fsize)))).
  { apply FinFun.Injective_map_NoDup; [intros a b E; congruence|apply footprint_nodup]. }
  assert (Hdis : forall p, In p (map (fun fj : Z => (fj, fi)) (footprint w (x2 ps) (x2 fsize))) ->
     ~ In p (map fst (flat_map (fun fi0 => map (fun fj => (fj, fi0, splat_weight feval ps fj fi0)) (footprint w (x2 ps) (x2 fsize))) l))).
  { intros p Hp Hq. apply in_map_iff in Hp. destruct Hp as [j [<- _]].
    apply in_map_iff in Hq. destruct Hq as [[[a b] c] [E Hq]]. simpl in E. injection E as -> ->.
    apply in_flat_map in Hq. destruct Hq as [r [Hr' Hq]]. apply in_map_iff in Hq. destruct Hq as [q [E _]].
    injection E as <- <- <-. contradiction. }
  specialize (IH Hnd'). revert Hr Hdis IH.
  generalize (map (fun fj : Z => (fj, fi)) (footprint w (x2 ps) (x2 fsize))).
  intros l0. induction l0 as [|p l0 IH0]; intros Hr Hdis IH; simpl; [exact IH|].
  inversion Hr; subst. constructor.
  - intros Hin. apply in_app_or in Hin. destruct Hin as [Hin|Hin]; [contradiction|].
    apply (Hdis p (or_introl eq_refl) Hin).
  - apply IH0; auto. intros q Hq. apply Hdis. right; assumption.
Qed.
Print Assumptions C05_splat_once.

Example C05_case : In (0, 0, 1)%Z (map (fun u => (fst u, 1%Z))
  (splat (V2 2 2) (box_eval (V2 2 2)) 4 4 (V2 (1 / 4) (1 / 4)))).
Proof.
  apply in_map_iff. eexists. split; [|apply C05_splat_complete with (x := 0%Z) (y := 0%Z)]; [reflexivity| | |].
  - unfold in_film; lia.
  - simpl. apply Rabs_le. lra.
  - simpl. apply Rabs_le. lra.
Qed.

(** C06: the render succeeds and every pixel is the filtered average of all camera samples,
    whatever the image contained before; zero total weight gives black (see [filtered]). *)
Theorem C06_render_is_filtered_average
    (S : Type) (next2D : S -> vec2 * S) (radiance_of : S -> vec2 -> vec2 -> vec3 * S)
    (fsize : vec2) (feval : vec2 -> R) (spp w h : Z) (img0 : Z -> Z -> vec3) (s : S) :
  supported feval fsize ->
  exists im s', render S next2D radiance_of fsize feval spp w h img0 s = Ok (im, s') /\
    (forall x y, in_film w h x y ->
       im x y = filtered feval (draw S next2D radiance_of (pixel_order spp w h) s) x y) /\
    (forall x y, ~ in_film w h x y -> im x y = img0 x y).
Proof. exact (render_spec S next2D radiance_of fsize feval spp w h img0 s). Qed.
Print Assumptions C06_render_is_filtered_average.

Theorem C06_average_between_samples (feval : vec2 -> R) (ch : vec3 -> R) evs x y lo hi :
  (ch = vx \/ ch = vy \/ ch = vz) -> (forall v, 0 <= feval v) ->
  total_weight feval evs x y <> 0 ->
  (forall e, In e evs -> feval (offset x y e) <> 0 -> lo <= ch (snd e) <= hi) ->
  lo <= ch (filtered feval evs x y) <= hi.
Proof. exact (filtered_convex feval ch evs x y lo hi). Qed.
Print Assumptions C06_average_between_samples.

Definition ex_events : list camera_sample :=
  [(V2 (1 / 4) (1 / 4), V3 1 2 3); (V2 (3 / 4) (3 / 4), V3 3 2 1)].

Lemma ex_box_weight p rad : 0 < x2 p < 1 -> 0 < y2 p < 1 -> box_eval box_default_size (offset 0 0 (p, rad)) = 1.
Proof.
  intros Hx Hy. rewrite (box_default_own p 0 0); [|simpl; lra|simpl; lra].
  destruct (zz_dec (0, 0)%Z (0, 0)%Z); [reflexivity|congruence].
Qed.

Example C06_case : filtered (box_eval box_default_size) ex_events 0 0 = V3 2 2 2.
Proof.
  unfold filtered, total_weight, weighted, ex_events. simpl.
  rewrite !ex_box_weight by (simpl; lra). unfold RSum.rsum; simpl.
  destruct (Req_EM_T (1 + (1 + 0)) 0); [exfalso; lra|]. f_equal; field.
Qed.

(** C07 *)
Theorem C07_constant_radiance
    (S : Type) (next2D : S -> vec2 * S) (radiance_of : S -> vec2 -> vec2 -> vec3 * S)
    (fsize : vec2) (feval : vec2 -> R) (spp w h : Z) (img0 : Z -> Z -> vec3) (s : S) (c : vec3) :
  supported feval fsize ->
  (forall s ps a, fst (radiance_of s ps a) = c) ->
  exists im s', render S next2D radiance_of fsize feval spp w h img0 s = Ok (im, s') /\
    forall x y, in_film w h x y ->
      total_weight feval (draw S next2D radiance_of (pixel_order spp w h) s) x y <> 0 -> im x y = c.
Proof.
  intros Hs Hc. destruct (render_spec S next2D radiance_of fsize feval spp w h img0 s Hs) as [im [s' [E [H _]]]].
  exists im, s'. split; [exact E|]. intros x y Hf Hw. rewrite H by assumption.
  apply filtered_const; [assumption|]. intros e He. eapply draw_const; eauto.
Qed.
Print Assumptions C07_constant_radiance.

Example C07_case : total_weight (box_eval box_default_size) ex_events 0 0 <> 0.
Proof.
  unfold total_weight, ex_events. simpl. rewrite !ex_box_weight by (simpl; lra). unfold RSum.rsum; simpl. lra.
Qed.

(** C09, single-threaded *)
Theorem C09_samples_per_pixel
    (S : Type) (next2D : S -> vec2 * S) (radiance_of : S -> vec2 -> vec2 -> vec3 * S) (spp w h : Z) (s : S) x y :
  (forall s, unit_square (fst (next2D s))) -> (0 <= spp)%Z -> in_film w h x y ->
  Z.of_nat (samples_in (draw S next2D radiance_of (pixel_order spp w h) s) x y) = spp.
Proof. exact (render_samples_in S next2D radiance_of spp w h s x y). Qed.
Print Assumptions C09_samples_per_pixel.

(** ... and no other evaluation happens *)
Theorem C09_total_samples
    (S : Type) (next2D : S -> vec2 * S) (radiance_of : S -> vec2 -> vec2 -> vec3 * S) (spp w h : Z) (s : S) :
  (0 <= spp)%Z -> (0 <= w)%Z -> (0 <= h)%Z ->
  Z.of_nat (length (draw S next2D radiance_of (pixel_order spp w h) s)) = (spp * (w * h))%Z.
Proof. intros. rewrite length_draw. apply length_pixel_order; assumption. Qed.
Print Assumptions C09_total_samples.

Example C09_case : samples_in ex_events 0 0 = 2%nat.
Proof.
  rewrite (samples_in_count [(0, 0); (0, 0)]%Z).
  - unfold count; simpl. destruct (zz_dec (0, 0)%Z (0, 0)%Z); [reflexivity|congruence].
  - repeat constructor; simpl; lra.
Qed.

(** C64 *)
Theorem C64_box_filter (size v : vec2) :
  0 <= box_eval size v /\ supported (box_eval size) size /\
  box_eval size (V2 (- x2 v) (y2 v)) = box_eval size v /\
  box_eval size (V2 (x2 v) (- y2 v)) = box_eval size v.
Proof. repeat split; try apply box_nonneg; try (apply box_supported; assumption); apply box_even. Qed.
Print Assumptions C64_box_filter.

Theorem C64_gauss_filter (sd : R) (size v : vec2) : sd <> 0 -> 0 <= x2 size -> 0 <= y2 size ->
  0 <= gauss_eval sd size v /\
  (0 < gauss_eval sd size v <-> Rabs (x2 v) < x2 size /\ Rabs (y2 v) < y2 size) /\
  gauss_eval sd size (V2 (- x2 v) (y2 v)) = gauss_eval sd size v /\
  gauss_eval sd size (V2 (x2 v) (- y2 v)) = gauss_eval sd size v /\
  (forall v', Rabs (x2 v) <= Rabs (x2 v') -> Rabs (y2 v) <= Rabs (y2 v') ->
     gauss_eval sd size v' <= gauss_eval sd size v).
Proof.
  intros Hsd Hx Hy. split; [apply gauss_nonneg|]. split; [apply gauss_pos_iff; assumption|].
  split; [apply gauss_even|]. split; [apply gauss_even|]. intros v'. apply gauss_mono. assumption.
Qed.
Print Assumptions C64_gauss_filter.

Example C64_case : 0 < gauss_eval 2 (V2 3 3) (V2 1 (-2)).
Proof. apply gauss_pos_iff; simpl; try lra. split; apply Rabs_def1; lra. Qed.

(** C71: with the default box filter every sample strictly inside a pixel counts for exactly
    that pixel, with weight one. *)
Theorem C71_default_box_own_pixel (ps : vec2) (rad : vec3) (x y x' y' : Z) :
  IZR x < x2 ps < IZR x + 1 -> IZR y < y2 ps < IZR y + 1 ->
  box_eval box_default_size (offset x' y' (ps, rad)) = if zz_dec (x', y') (x, y) then 1 else 0.
Proof. intros Hx Hy. exact (box_default_own ps x y Hx Hy rad x' y'). Qed.
Print Assumptions C71_default_box_own_pixel.

Example C71_case : box_eval box_default_size (offset 3 4 (V2 (7 / 2) (17 / 4), V3 1 1 1)) = 1.
Proof.
  rewrite (C71_default_box_own_pixel _ _ 3 4); [|simpl; lra|simpl; lra].
  destruct (zz_dec (3, 4)%Z (3, 4)%Z); [reflexivity|congruence].
Qed.

(** C71: refuted for the whole half-open pixel.  The sampler may return 0, and a sample on a
    pixel boundary contributes to no pixel at all. *)
Theorem C71_every_sample_counts_refuted : exists u : vec2, unit_square u /\
  forall x y x' y' rad, box_eval box_default_size (offset x' y' (V2 (IZR x + x2 u) (IZR y + y2 u), rad)) = 0.
Proof.
  exists (V2 0 0). split; [unfold unit_square; simpl; lra|].
  intros x y x' y' rad. apply (box_default_corner _ x). simpl. lra.
Qed.
Print Assumptions C71_every_sample_counts_refuted.

(** C72: refuted.  A Gaussian filter with its default size weighs nothing, so every render
    with it is black. *)
Theorem C72_default_gauss_weighs_refuted (sd : R) (v : vec2) : sd <> 0 -> gauss_eval sd gauss_default_size v = 0.
Proof. exact (gauss_default_black sd v). Qed.
Print Assumptions C72_default_gauss_weighs_refuted.

Theorem C72_default_gauss_render_black
    (S : Type) (next2D : S -> vec2 * S) (radiance_of : S -> vec2 -> vec2 -> vec3 * S)
    (sd : R) (spp w h : Z) (img0 : Z -> Z -> vec3) (s : S) : sd <> 0 ->
  exists im s', render S next2D radiance_of gauss_default_size (gauss_eval sd gauss_default_size) spp w h img0 s = Ok (im, s') /\
    forall x y, in_film w h x y -> im x y = V3 0 0 0.
Proof.
  intros Hsd.
  destruct (render_spec S next2D radiance_of gauss_default_size (gauss_eval sd gauss_default_size) spp w h img0 s) as [im [s' [E [H _]]]].
  { apply gauss_supported; simpl; lra. }
  exists im, s'. split; [exact E|]. intros x y Hf. rewrite H by assumption. unfold filtered.
  destruct (Req_EM_T _ 0) as [_|n]; [reflexivity|]. exfalso. apply n.
  unfold total_weight. apply RSum.rsum_all_zero. intros v Hv. apply in_map_iff in Hv. destruct Hv as [e [<- _]].
  apply gauss_default_black. assumption.
Qed.
Print Assumptions C72_default_gauss_render_black.
Example C72_case : (2 : R) <> 0. Proof. lra. Qed.
