(** The film in binary32: rounding of pixel values, samples that are not numbers, positions. *)
From Coq Require Import ZArith Reals List Bool Lia Lra Psatz.
From Flocq Require Import Core BinarySingleNaN.
From Verif.Base Require Import Outcome Loops RSum F32.
From Verif.Model Require Import Film FloatFilm.
From Verif.Spec Require Import FloatFilmSpec.
From Verif.Proof Require Import FloatFilmProof.
Import ListNotations.
Open Scope R_scope.

Definition box_render := f_render f_box_size (f_box f_box_size).

Lemma pixel_box w h evs x y : film_ok w h -> Forall event_ok evs -> (0 <= x < w)%Z -> (0 <= y < h)%Z ->
  exists img l, box_render w h evs = Ok img /\ img x y = f_finish (cell_of l start) /\ boxed l /\
    l = contribs (f_box f_box_size) x y evs /\
    csum (ones l) = sum (filter (inside x y) evs) /\ cabs (ones l) = sum_abs (filter (inside x y) evs) /\
    length (ones l) = length (filter (inside x y) evs).
Proof.
  intros FO EO X Y. destruct (render_cell (f_box f_box_size) w h evs FO EO) as (img & E & C).
  destruct FO as [W H]. destruct (box_contribs x y evs EO) as [B S]; [lia|lia|].
  exists img, (contribs (f_box f_box_size) x y evs). split; [exact E|]. split.
  - apply C. unfold in_filmb. rewrite !andb_true_iff, !Z.leb_le, !Z.ltb_lt. lia.
  - split; [exact B|]. split; [reflexivity|]. apply csum_sum, S.
Qed.

(** ** C167: pixels are averages up to rounding *)
(** Whatever the samples: rendering stays inside the film; a pixel without samples strictly inside it
    is black; a finite pixel is the mean of the samples strictly inside it up to a relative error. *)
Theorem C167_average : forall w h evs x y, film_ok w h -> Forall event_ok evs -> (0 <= x < w)%Z -> (0 <= y < h)%Z ->
  let own := filter (inside x y) evs in let n := length own in
  exists img, box_render w h evs = Ok img /\
    (own = [] -> img x y = f0) /\
    (own <> [] -> (n <= Z.to_nat (2 ^ 24))%nat -> is_finite (img x y) = true ->
       Rabs (B2R (img x y) - sum own / INR n) <= ((1 + u32) ^ (n + 1) - 1) * (sum_abs own / INR n) + tiny).
Proof.
  intros w h evs x y FO EO X Y own n.
  destruct (pixel_box w h evs x y FO EO X Y) as (img & l & E & P & B & _ & S1 & S2 & S3).
  exists img. split; [exact E|]. fold own in S1, S2, S3. fold n in S3. rewrite P. split.
  - intros O. apply finish_empty; auto. unfold n in S3. rewrite O in S3. now apply length_zero_iff_nil.
  - intros O N F. destruct n as [|k] eqn:K; [destruct own; [congruence|discriminate]|].
    rewrite <- S1, <- S2. replace (S k + 1)%nat with (S (S k)) by lia. now apply pixel_error.
Qed.
Print Assumptions C167_average.
(** for up to 2^23 - 1 samples: (n + 1) units of 2^-23 *)
Theorem C167_relative : forall w h evs x y, film_ok w h -> Forall event_ok evs -> (0 <= x < w)%Z -> (0 <= y < h)%Z ->
  let own := filter (inside x y) evs in let n := length own in
  own <> [] -> (n < Z.to_nat (2 ^ 23))%nat -> Forall (fun e => 0 <= lum e) own ->
  exists img, box_render w h evs = Ok img /\ (is_finite (img x y) = true ->
    Rabs (B2R (img x y) - sum own / INR n) <= (INR n + 1) / 2 ^ 23 * (sum own / INR n) + tiny).
Proof.
  intros w h evs x y FO EO X Y own n O N P.
  destruct (C167_average w h evs x y FO EO X Y) as (img & E & _ & A). exists img. split; [exact E|]. intros F.
  fold own n in A. specialize (A O ltac:(lia) F). eapply Rle_trans; [exact A|]. apply Rplus_le_compat_r.
  assert (SA : sum_abs own = sum own).
  { clear -P. induction P as [|e l H P IH]; [reflexivity|]. unfold sum_abs, sum in *. cbn [map]. rewrite !rsum_cons, IH, Rabs_pos_eq by exact H. reflexivity. }
  rewrite SA. apply Rmult_le_compat_r.
  - rewrite <- SA. apply Rmult_le_pos.
    + clear. induction own as [|e l IH]; unfold sum_abs in *; cbn [map]; [rewrite rsum_nil; lra|rewrite rsum_cons].
      apply Rplus_le_le_0_compat; [apply Rabs_pos|exact IH].
    + left. apply Rinv_0_lt_compat, lt_0_INR. destruct n eqn:K; [destruct own; [congruence|discriminate]|lia].
  - pose proof (bernoulli (n + 1) ltac:(lia)) as B. rewrite plus_INR in B. unfold Rdiv. simpl (INR 1) in B. lra.
Qed.
Print Assumptions C167_relative.

Definition at_ (x y : Z) (v : f32) : fevent := ((f_centre x, f_centre y), v).
Lemma centre_placed x : (0 <= x < 2 ^ 22)%Z -> placed (f_centre x).
Proof.
  intros H. destruct (centre_value x H) as [A B]. split; [exact B|]. rewrite A.
  assert (0 <= IZR x <= IZR (2 ^ 22 - 1)) by (split; apply IZR_le; lia).
  assert (IZR (2 ^ 22 - 1) = 4194303) by (simpl; lra). assert (IZR (2 ^ 22) = 4194304) by (simpl; lra).
  split; [lra|]. exists ((2 * x + 1) * 2 ^ (-1 - -24))%Z. rewrite <- Z_bpow by lia. rewrite plus_IZR, mult_IZR. simpl. lra.
Qed.
Lemma at_ok x y v : (0 <= x < 2 ^ 22)%Z -> (0 <= y < 2 ^ 22)%Z -> event_ok (at_ x y v).
Proof. split; now apply centre_placed. Qed.
Lemma at_inside x y v : (0 <= x < 2 ^ 22)%Z -> (0 <= y < 2 ^ 22)%Z -> inside x y (at_ x y v) = true.
Proof.
  intros X Y. unfold inside, strictly, px, py, at_. cbn [fst snd].
  rewrite (proj1 (centre_value x X)), (proj1 (centre_value y Y)), !Rlt_bool_true by lra. reflexivity.
Qed.
Example C167_case : let evs := [at_ 3 2 (fZ 1); at_ 3 2 (fZ 2); at_ 5 7 (fZ 9)] in
  film_ok 512 512 /\ Forall event_ok evs /\ filter (inside 3 2) evs = [at_ 3 2 (fZ 1); at_ 3 2 (fZ 2)].
Proof.
  cbv zeta. split; [unfold film_ok; lia|]. split; [repeat (apply Forall_cons; [apply at_ok; lia|]); apply Forall_nil|].
  cbn [filter]. rewrite !at_inside by lia.
  replace (inside 3 2 (at_ 5 7 (fZ 9))) with false; [reflexivity|].
  unfold inside, strictly, px, py, at_. cbn [fst snd]. rewrite (proj1 (centre_value 5 ltac:(lia))).
  rewrite (Rlt_bool_false (5 + / 2)) by lra. now rewrite andb_false_r.
Qed.

(** ** C168: more samples give a better image *)
(** Beyond 2^24 samples the weight of a pixel stops growing: after 2^24 samples of value 0, m samples of
    value 2 give m / 2^23 instead of 2m / (2^24 + m). *)
Lemma repeat_own x y v n : (0 <= x < 2 ^ 22)%Z -> (0 <= y < 2 ^ 22)%Z -> filter (inside x y) (repeat (at_ x y v) n) = repeat (at_ x y v) n.
Proof. intros X Y. induction n; simpl; [reflexivity|]. rewrite at_inside by auto. now f_equal. Qed.
Lemma repeat_sum x y v n : sum (repeat (at_ x y v) n) = INR n * B2R v.
Proof.
  induction n; [unfold sum; simpl; rewrite rsum_nil; ring|]. rewrite S_INR. unfold sum in *. cbn [repeat map].
  rewrite rsum_cons, IHn. unfold lum, at_. cbn [snd]. ring.
Qed.
Lemma repeat_contribs x y v n : (0 <= x < 2 ^ 22)%Z -> (0 <= y < 2 ^ 22)%Z ->
  contribs (f_box f_box_size) x y (repeat (at_ x y v) n) = repeat (f1, v) n.
Proof.
  intros X Y. unfold contribs. induction n; [reflexivity|]. cbn [repeat filter].
  rewrite (inside_touches x y) by (auto; now apply at_inside). cbn [map repeat]. rewrite IHn. f_equal.
  rewrite box_weight by (auto; apply at_ok; auto). now rewrite at_inside.
Qed.
Lemma ones_repeat v n : ones (repeat (f1, v) n) = repeat (f1, v) n.
Proof. induction n; [reflexivity|]. unfold ones in *. cbn [repeat filter fst]. rewrite eqb_f1. now f_equal. Qed.
Lemma forall2_repeat {A B} (P : A -> B -> Prop) a b n : P a b -> Forall2 P (repeat a n) (repeat b n).
Proof. intros H. induction n; simpl; constructor; auto. Qed.
Lemma fold_repeat z n : fold_right Z.add 0%Z (repeat z n) = (Z.of_nat n * z)%Z.
Proof. induction n; [reflexivity|]. cbn [repeat fold_right]. rewrite IHn. lia. Qed.
Lemma ones_app a b : ones (a ++ b) = ones a ++ ones b.
Proof. unfold ones. apply filter_app. Qed.

Lemma late_samples : forall N m : nat, Z.of_nat N = (2 ^ 24)%Z -> (0 < m)%nat -> (Z.of_nat m <= 2 ^ 23)%Z ->
  let evs := repeat (at_ 0 0 f0) N ++ repeat (at_ 0 0 (fZ 2)) m in
  let own := filter (inside 0 0) evs in
  film_ok 1 1 /\ Forall event_ok evs /\ own = evs /\ sum own / INR (length own) = 2 * INR m / (2 ^ 24 + INR m) /\
  exists img, box_render 1 1 evs = Ok img /\ is_finite (img 0 0)%Z = true /\ B2R (img 0 0)%Z = INR m / 2 ^ 23 /\
    sum own / INR (length own) < B2R (img 0 0)%Z.
Proof.
  intros N m NZ M0 M evs own. assert (NR : INR N = 2 ^ 24) by (rewrite INR_IZR_INZ, NZ; simpl; lra).
  assert (FO : film_ok 1 1) by (unfold film_ok; lia).
  assert (EO : Forall event_ok evs).
  { apply Forall_app. split; apply Forall_forall; intros e H; apply repeat_spec in H; subst; apply at_ok; lia. }
  assert (O : own = evs) by (unfold own, evs; rewrite filter_app, !repeat_own by lia; reflexivity).
  destruct (fZ_small 2) as [V2 W2]; [lia|]. assert (MR : 0 < INR m) by (apply lt_0_INR; lia).
  assert (MEAN : sum own / INR (length own) = 2 * INR m / (2 ^ 24 + INR m)).
  { rewrite O. unfold evs. rewrite app_length, !repeat_length, plus_INR, NR. f_equal.
    unfold sum. rewrite map_app, rsum_app. fold (sum (repeat (at_ 0 0 f0) N)) (sum (repeat (at_ 0 0 (fZ 2)) m)).
    rewrite !repeat_sum, V2. cbn [B2R f0]. ring. }
  split; [exact FO|]. split; [exact EO|]. split; [exact O|]. split; [exact MEAN|].
  destruct (pixel_box 1 1 evs 0 0 FO EO ltac:(lia) ltac:(lia)) as (img & l & E & P & B & L & _ & _ & S3).
  exists img. split; [exact E|]. rewrite P.
  assert (LL : l = repeat (f1, f0) N ++ repeat (f1, fZ 2) m).
  { rewrite L. unfold evs, contribs. rewrite filter_app, map_app. f_equal; apply repeat_contribs; lia. }
  assert (LN : length (ones l) = (N + m)%nat) by (rewrite LL, ones_app, !ones_repeat, app_length, !repeat_length; reflexivity).
  destruct (weights l B start 0 eq_refl eq_refl ltac:(lia)) as [W G]. rewrite LN, Z.min_r in W by lia.
  destruct (acc_exact l 0 B ltac:(lia) start 0 (repeat 0%Z N ++ repeat 2%Z m)) as [A FA]; auto.
  { cbn. ring. }
  { rewrite LL. apply Forall_app. split; apply Forall_forall; intros e H; apply repeat_spec in H; subst; [reflexivity|exact W2]. }
  { rewrite LL, ones_app, !ones_repeat. apply Forall2_app; apply forall2_repeat; cbn [snd]; (split; [|lia]); [cbn; ring|rewrite V2; simpl; ring]. }
  { lia. }
  { rewrite fold_right_app, fold_repeat. assert (H : forall k n, fold_right Z.add k (repeat 0%Z n) = k) by (induction n; simpl; auto).
    rewrite H. lia. }
  assert (Q : B2R (fst (cell_of l start)) = 2 * INR m).
  { etransitivity; [exact A|]. rewrite fold_right_app, fold_repeat.
    assert (H : forall k n, fold_right Z.add k (repeat 0%Z n) = k) by (induction n; simpl; auto).
    rewrite H, Z.add_0_l, mult_IZR, <- INR_IZR_INZ. simpl. ring. }
  assert (D : B2R (f_finish (cell_of l start)) = INR m / 2 ^ 23 /\ is_finite (f_finish (cell_of l start)) = true).
  { unfold f_finish. rewrite Beqb_correct by auto. rewrite W. cbn [B2R f0]. rewrite Req_bool_false by (apply IZR_neq; lia).
    assert (V : B2R (fst (cell_of l start)) / B2R (snd (cell_of l start)) = INR m / 2 ^ 23).
    { rewrite W, Q. change (IZR (2 ^ 24)) with 16777216. field. }
    assert (FM : fmt (INR m / 2 ^ 23)).
    { replace (INR m / 2 ^ 23) with (IZR (Z.of_nat m) * bpow radix2 (-23)); [apply fmt_Ze; lia|].
      rewrite <- INR_IZR_INZ. simpl. lra. }
    rewrite <- (rnd_id _ FM), <- V. apply fdiv_ok; [exact FA|rewrite W; apply IZR_neq; lia|].
    rewrite V, rnd_id by exact FM. apply Rle_lt_trans with 1.
    - rewrite Rabs_pos_eq; [|apply Rmult_le_pos; [lra|left; apply Rinv_0_lt_compat; lra]].
      apply Rmult_le_reg_r with (2 ^ 23); [lra|]. unfold Rdiv. rewrite Rmult_assoc, Rinv_l, Rmult_1_r, Rmult_1_l by lra.
      rewrite INR_IZR_INZ. replace (2 ^ 23) with (IZR (2 ^ 23)) by (simpl; lra). apply IZR_le. exact M.
    - rewrite <- (Rabs_pos_eq 1) by lra. apply (bigZ 1). lia. }
  destruct D as [D1 D2]. split; [exact D2|]. split; [exact D1|]. rewrite D1, MEAN.
  assert (I1 : 2 * INR m / (2 ^ 24 + INR m) < 2 * INR m / 2 ^ 24).
  { unfold Rdiv. apply Rmult_lt_compat_l; [lra|]. apply Rinv_lt_contravar; nra. }
  lra.
Qed.
Theorem C168_late_samples_refuted : forall m : nat, (0 < m)%nat -> (Z.of_nat m <= 2 ^ 23)%Z ->
  let evs := repeat (at_ 0 0 f0) (Z.to_nat (2 ^ 24)) ++ repeat (at_ 0 0 (fZ 2)) m in
  let own := filter (inside 0 0) evs in
  film_ok 1 1 /\ Forall event_ok evs /\ own = evs /\ sum own / INR (length own) = 2 * INR m / (2 ^ 24 + INR m) /\
  exists img, box_render 1 1 evs = Ok img /\ is_finite (img 0 0)%Z = true /\ B2R (img 0 0)%Z = INR m / 2 ^ 23 /\
    sum own / INR (length own) < B2R (img 0 0)%Z.
Proof. intros m M0 M. apply late_samples; [rewrite Z2Nat.id; lia|exact M0|exact M]. Qed.
Print Assumptions C168_late_samples_refuted.
Example C168_case : (0 < 5)%nat /\ (Z.of_nat 5 <= 2 ^ 23)%Z. Proof. split; lia. Qed.

(** ** C169: a sample that is not a number stays in its pixel *)
(** What is not touched has no effect. *)
Theorem C169_local : forall w h evs1 e evs2 x y, film_ok w h -> Forall event_ok (evs1 ++ e :: evs2) ->
  (0 <= x < w)%Z -> (0 <= y < h)%Z -> touches x y e = false ->
  exists img img', box_render w h (evs1 ++ e :: evs2) = Ok img /\ box_render w h (evs1 ++ evs2) = Ok img' /\ img x y = img' x y.
Proof.
  intros w h l1 e l2 x y FO EO X Y T.
  assert (EO' : Forall event_ok (l1 ++ l2)).
  { apply Forall_app in EO as [A B]. apply Forall_app. split; [exact A|]. now inversion B. }
  destruct (pixel_box w h _ x y FO EO X Y) as (i1 & k1 & E1 & P1 & _ & L1 & _).
  destruct (pixel_box w h _ x y FO EO' X Y) as (i2 & k2 & E2 & P2 & _ & L2 & _).
  exists i1, i2. split; [exact E1|]. split; [exact E2|]. rewrite P1, P2, L1, L2. unfold contribs.
  rewrite !filter_app. cbn [filter]. now rewrite T.
Qed.
Print Assumptions C169_local.
(** An infinite or undefined sample spoils every pixel whose centre is within one pixel of it, as soon
    as that pixel has a sample of its own, however many good samples there are. *)
Theorem C169_neighbours_spoilt_refuted : forall w h evs e x y, film_ok w h -> Forall event_ok evs ->
  (0 <= x < w)%Z -> (0 <= y < h)%Z -> In e evs -> is_finite (snd e) = false ->
  IZR x - / 2 <= px e < IZR x + 3 / 2 -> IZR y - / 2 <= py e < IZR y + 3 / 2 ->
  filter (inside x y) evs <> [] ->
  exists img, box_render w h evs = Ok img /\ is_finite (img x y) = false.
Proof.
  intros w h evs e x y FO EO X Y I Bad PX PY O.
  destruct (pixel_box w h evs x y FO EO X Y) as (img & l & E & P & B & L & _ & _ & S3).
  exists img. split; [exact E|]. rewrite P. apply finish_bad; auto.
  - intros Q. rewrite Q in S3. symmetry in S3. apply length_zero_iff_nil in S3. contradiction.
  - destruct (is_finite (fst (cell_of l start))) eqn:F; [|reflexivity]. exfalso.
    apply cell_finite in F as [_ F]. rewrite Forall_forall in F.
    assert (T : touches x y e = true).
    { destruct FO as [W H]. unfold touches, reaches.
      rewrite !Rle_bool_true, !Rlt_bool_true by (try (apply rnd_ge_fmt; [apply fmt_Z; lia|lra]); lra). reflexivity. }
    specialize (F (f_weight (f_box f_box_size) (fst e) x y, snd e)). rewrite L in F. cbn [snd] in F.
    rewrite F in Bad; [discriminate|]. unfold contribs. apply in_map_iff. exists e. split; [reflexivity|].
    apply filter_In. auto.
Qed.
Print Assumptions C169_neighbours_spoilt_refuted.
(** the sample of pixel 0 is infinite; pixel 1 has a sample of value 1; pixel 1 is spoilt, pixel 2 not *)
Definition hot : fevent := ((f_of 3 (-2), fhalf), finf).
Lemma hot_px : B2R (f_of 3 (-2)) = 3 / 4 /\ is_finite (f_of 3 (-2)) = true.
Proof. destruct (f_of_small 3 (-2)) as [A B]; [lia|lia|]. split; [|exact B]. rewrite A. simpl. lra. Qed.
Lemma hot_ok : event_ok hot.
Proof.
  destruct hot_px as [A B], fhalf_half as [C D]. assert (IZR (2 ^ 22) = 4194304) by (simpl; lra). split; unfold hot; cbn [fst snd]; (split; [assumption|]); split.
  - rewrite A. lra.
  - exists (3 * 2 ^ (-2 - -24))%Z. rewrite <- Z_bpow by lia. rewrite A. simpl. lra.
  - rewrite C. lra.
  - exists (1 * 2 ^ (-1 - -24))%Z. rewrite <- Z_bpow by lia. rewrite C. simpl. lra.
Qed.
Example C169_case : let evs := [hot; at_ 1 0 (fZ 1); at_ 2 0 (fZ 1)] in
  film_ok 3 1 /\ Forall event_ok evs /\ inside 0 0 hot = true /\ is_finite (snd hot) = false /\
  1 - / 2 <= px hot < 1 + 3 / 2 /\ 0 - / 2 <= py hot < 0 + 3 / 2 /\ filter (inside 1 0) evs <> [] /\ touches 2 0 hot = false.
Proof.
  destruct hot_px as [A _], fhalf_half as [C _]. cbv zeta. split; [unfold film_ok; lia|].
  split; [apply Forall_cons; [exact hot_ok|]; repeat (apply Forall_cons; [apply at_ok; lia|]); apply Forall_nil|].
  unfold px, py, inside, touches, strictly, reaches, px, py, hot. cbn [fst snd]. rewrite A, C.
  split; [rewrite !Rlt_bool_true by lra; reflexivity|]. split; [reflexivity|]. split; [lra|]. split; [lra|]. split.
  - cbn [filter]. fold (inside 1 0 (at_ 1 0 (fZ 1))). 
    match goal with |- (if ?b then _ else _) <> _ => destruct b; [discriminate|] end.
    change ((if inside 1 0 (at_ 1 0 (fZ 1)) then at_ 1 0 (fZ 1) :: (if inside 1 0 (at_ 2 0 (fZ 1)) then [at_ 2 0 (fZ 1)] else []) else (if inside 1 0 (at_ 2 0 (fZ 1)) then [at_ 2 0 (fZ 1)] else [])) <> []).
    rewrite at_inside by lia. discriminate.
  - rewrite (Rle_bool_false 2); [reflexivity|].
    apply Rle_lt_trans with (3 / 2); [|lra]. apply rnd_le_fmt; [|lra].
    replace (3 / 2) with (IZR 3 * bpow radix2 (-1)) by (simpl; lra). apply fmt_Ze; lia.
Qed.

(** ** C170: constant radiance *)
(** A constant of b bits comes out exactly for up to 2^(24-b) samples per pixel. *)
Theorem C170_exact : forall w h evs x y (m e : Z), film_ok w h -> Forall event_ok evs -> (0 <= x < w)%Z -> (0 <= y < h)%Z ->
  (-149 <= e <= 100)%Z -> (0 <= m)%Z ->
  Forall (fun s => is_finite (snd s) = true) evs ->
  let own := filter (inside x y) evs in
  own <> [] -> Forall (fun s => lum s = IZR m * bpow radix2 e) own -> (Z.of_nat (length own) * Z.max m 1 <= 2 ^ 24)%Z ->
  exists img, box_render w h evs = Ok img /\ is_finite (img x y) = true /\ B2R (img x y) = IZR m * bpow radix2 e.
Proof.
  intros w h evs x y m e FO EO X Y Ee M0 Fi own O C N.
  assert (Mb : (m <= 2 ^ 24)%Z).
  { destruct own; [congruence|]. cbn [length] in N. rewrite Nat2Z.inj_succ in N. nia. }
  assert (Nb : (Z.of_nat (length own) <= 2 ^ 24)%Z) by nia.
  destruct (pixel_box w h evs x y FO EO X Y) as (img & l & E & P & B & L & S1 & S2 & S3). fold own in S3.
  exists img. split; [exact E|]. rewrite P.
  destruct (box_contribs x y evs EO) as [_ MS]; [unfold film_ok in FO; lia|unfold film_ok in FO; lia|]. rewrite <- L in MS. fold own in MS.
  assert (LO : (1 <= Z.of_nat (length own))%Z) by (destruct own; [congruence|cbn [length]; lia]).
  destruct (weights l B start 0 eq_refl eq_refl ltac:(lia)) as [W G]. rewrite S3, Z.add_0_l, Z.min_l in W by lia.
  destruct (acc_exact l e B Ee start 0 (repeat m (length own))) as [A FA]; auto.
  { cbn. ring. }
  { rewrite L. unfold contribs. apply Forall_map. cbn [snd]. rewrite Forall_forall in *. intros s H. apply filter_In in H as [H _]. auto. }
  { clear -MS C M0. revert MS C. generalize (ones l) as q. generalize own as o. induction o as [|s o IH]; intros [|a q] MS C; try discriminate; [constructor|].
    inversion C; subst. cbn [map] in MS. injection MS as M1 M2. cbn [length repeat]. constructor; [|apply IH; auto].
    split; [etransitivity; [apply (f_equal (fun v : f32 => B2R v)), M1|assumption]|exact M0]. }
  { lia. }
  { rewrite fold_repeat. nia. }
  rewrite fold_repeat, Z.add_0_l in A.
  assert (FM : fmt (IZR m * bpow radix2 e)) by (apply fmt_Ze; lia).
  unfold f_finish. rewrite Beqb_correct by auto. rewrite W. cbn [B2R f0]. rewrite Req_bool_false by (apply IZR_neq; lia).
  assert (V : B2R (fst (cell_of l start)) / B2R (snd (cell_of l start)) = IZR m * bpow radix2 e).
  { rewrite A, W, mult_IZR. field. apply IZR_neq. lia. }
  destruct (fdiv_ok (fst (cell_of l start)) (snd (cell_of l start)) FA) as [D1 D2].
  - rewrite W. apply IZR_neq. lia.
  - rewrite V, rnd_id by exact FM. destruct (f_of_small m e) as [Q _]; [lia|lia|]. rewrite <- Q. apply small.
  - split; [exact D2|]. etransitivity; [exact D1|]. rewrite V. now apply rnd_id.
Qed.
Print Assumptions C170_exact.
(** Seven samples of value 0.1f do not give 0.1f. *)
Theorem C170_constant_refuted : exists c evs img, is_finite c = true /\ film_ok 1 1 /\ Forall event_ok evs /\
  evs = repeat (at_ 0 0 c) 7 /\ filter (inside 0 0) evs = evs /\ box_render 1 1 evs = Ok img /\ B2R (img 0 0)%Z <> B2R c.
Proof.
  set (c := f_of 13421773 (-27)). set (evs := repeat (at_ 0 0 c) 7).
  assert (FO : film_ok 1 1) by (unfold film_ok; lia).
  assert (EO : Forall event_ok evs) by (apply Forall_forall; intros e H; apply repeat_spec in H; subst; apply at_ok; lia).
  destruct (pixel_box 1 1 evs 0 0 FO EO ltac:(lia) ltac:(lia)) as (img & l & E & P & B & L & _).
  exists c, evs, img. destruct (f_of_small 13421773 (-27)) as [V F]; [lia|lia|].
  split; [exact F|]. split; [exact FO|]. split; [exact EO|]. split; [reflexivity|]. split; [apply repeat_own; lia|].
  split; [exact E|]. rewrite P, L. unfold evs. rewrite repeat_contribs by lia.
  replace (f_finish (cell_of (repeat (f1, c) 7) start)) with (f_of 13421774 (-27)) by (apply B2SF_inj; vm_compute; reflexivity).
  destruct (f_of_small 13421774 (-27)) as [V' _]; [lia|lia|]. unfold c. rewrite V, V'. intros Q.
  apply Rmult_eq_reg_r in Q; [|apply Rgt_not_eq, bpow_gt_0]. apply eq_IZR in Q. discriminate.
Qed.
Print Assumptions C170_constant_refuted.
Example C170_case : let evs := repeat (at_ 4 6 (f_of 3 (-2))) 1024 in
  film_ok 640 480 /\ filter (inside 4 6) evs = evs /\ Forall (fun s => lum s = 3 * bpow radix2 (-2)) evs /\ (Z.of_nat (length evs) * Z.max 3 1 <= 2 ^ 24)%Z.
Proof.
  cbv zeta. split; [unfold film_ok; lia|]. split; [apply repeat_own; lia|]. split.
  - apply Forall_forall. intros s H. apply repeat_spec in H. subst. unfold lum, at_. cbn [snd]. rewrite (proj1 hot_px). simpl. lra.
  - rewrite repeat_length. lia.
Qed.

(** ** C171: every camera sample counts for the pixel it was made for *)
(** the position lies in the closed pixel; it has weight one in that pixel if it is strictly inside, and
    no weight anywhere else *)
Theorem C171_counted_iff : forall j i u v x y, (0 <= j < 2 ^ 22)%Z -> (0 <= i < 2 ^ 22)%Z -> unit_grid u -> unit_grid v ->
  (0 <= x < 2 ^ 22)%Z -> (0 <= y < 2 ^ 22)%Z ->
  let p := f_sample j u in let q := f_sample i v in
  (IZR j <= B2R p <= IZR j + 1) /\ (IZR i <= B2R q <= IZR i + 1) /\
  f_weight (f_box f_box_size) (p, q) x y =
    if (Z.eqb x j && Z.eqb y i && Rlt_bool (IZR j) (B2R p) && Rlt_bool (B2R p) (IZR j + 1)
          && Rlt_bool (IZR i) (B2R q) && Rlt_bool (B2R q) (IZR i + 1))%bool then f1 else f0.
Proof.
  intros j i u v x y J I U V X Y p q.
  destruct (sample_where j u J U) as (P1 & B1 & _). destruct (sample_where i v I V) as (P2 & B2 & _). fold p in P1, B1. fold q in P2, B2.
  split; [exact B1|]. split; [exact B2|].
  etransitivity; [exact (box_weight ((p, q), f0) x y P1 P2 X Y)|]. unfold inside, px, py. cbn [fst snd].
  assert (K : forall x j p, IZR j <= p <= IZR j + 1 -> strictly x p = (Z.eqb x j && (Rlt_bool (IZR j) p && Rlt_bool p (IZR j + 1)))%bool).
  { clear. intros x j p H. unfold strictly. destruct (Z.eqb_spec x j) as [-> |N]; [reflexivity|]. cbn [andb].
    destruct (Rlt_bool_spec (IZR x) p) as [A|A]; [|reflexivity]. destruct (Rlt_bool_spec p (IZR x + 1)) as [B|B]; [|reflexivity].
    exfalso. apply N. assert (IZR x < IZR (j + 1)) by (rewrite plus_IZR; lra). assert (IZR j < IZR (x + 1)) by (rewrite plus_IZR; lra).
    apply lt_IZR in H0, H1. lia. }
  rewrite (K x j _ B1), (K y i _ B2).
  destruct (Z.eqb x j), (Z.eqb y i), (Rlt_bool (IZR j) (B2R p)), (Rlt_bool (B2R p) (IZR j + 1)), (Rlt_bool (IZR i) (B2R q)); reflexivity.
Qed.
Print Assumptions C171_counted_iff.
(** away from the border of the pixel by 2^-24 of its coordinate, rounding keeps it inside *)
Theorem C171_safe : forall j u t, (0 <= t <= 21)%Z -> (2 ^ t <= j < 2 ^ (t + 1))%Z -> unit_grid u ->
  bpow radix2 (t - 24) < B2R u < 1 - bpow radix2 (t - 24) -> IZR j < B2R (f_sample j u) < IZR j + 1.
Proof.
  intros j u t T J U H. pose proof (sample_safe j u t T J U H) as S. unfold strictly in S.
  destruct (Rlt_bool_spec (IZR j) (B2R (f_sample j u))); [|discriminate].
  destruct (Rlt_bool_spec (B2R (f_sample j u)) (IZR j + 1)); [|discriminate]. lra.
Qed.
Print Assumptions C171_safe.
(** a sample well inside pixel 4096 counts nowhere *)
Theorem C171_lost_refuted : exists j u v, (0 <= j < 2 ^ 22)%Z /\ unit_grid u /\ unit_grid v /\ 0 < B2R u < 1 /\ 0 < B2R v < 1 /\
  forall x y, (0 <= x < 2 ^ 22)%Z -> (0 <= y < 2 ^ 22)%Z ->
    f_weight (f_box f_box_size) (f_sample j u, f_sample 0 v) x y = f0.
Proof.
  exists 4096%Z, (f_of 1 (-13)), fhalf. destruct (f_of_small 1 (-13)) as [V F]; [lia|lia|]. destruct fhalf_half as [C D].
  assert (U1 : unit_grid (f_of 1 (-13))).
  { split; [exact F|]. exists (1 * 2 ^ (-13 - -24))%Z. split; [simpl; lia|]. rewrite <- Z_bpow by lia. exact V. }
  assert (U2 : unit_grid fhalf).
  { split; [exact D|]. exists (1 * 2 ^ (-1 - -24))%Z. split; [simpl; lia|]. rewrite <- Z_bpow by lia. rewrite C. simpl. lra. }
  split; [lia|]. split; [exact U1|]. split; [exact U2|]. split; [rewrite V; simpl; lra|]. split; [rewrite C; lra|].
  intros x y X Y. destruct (C171_counted_iff 4096 0 _ _ x y ltac:(lia) ltac:(lia) U1 U2 X Y) as (_ & _ & W). cbv zeta in W. rewrite W.
  replace (f_sample 4096 (f_of 1 (-13))) with (fZ 4096) by (apply B2SF_inj; vm_compute; reflexivity).
  rewrite (proj1 (fZ_small 4096 ltac:(lia))), (Rlt_bool_false 4096) by lra. now rewrite andb_false_r.
Qed.
Print Assumptions C171_lost_refuted.
Example C171_case : (2 ^ 9 <= 639 < 2 ^ (9 + 1))%Z /\ unit_grid fhalf /\ bpow radix2 (9 - 24) < B2R fhalf < 1 - bpow radix2 (9 - 24).
Proof.
  destruct fhalf_half as [C D]. split; [lia|]. split; [|rewrite C; simpl; lra].
  split; [exact D|]. exists (1 * 2 ^ (-1 - -24))%Z. split; [simpl; lia|]. rewrite <- Z_bpow by lia. rewrite C. simpl. lra.
Qed.
