From Coq Require Import Reals ZArith List Bool Lra Lia Permutation.
From Flocq Require Import Core.Raux.
From Verif.Base Require Import Outcome Loops ListLemmas RSum RTac.
From Verif.Model Require Import Vec Tiles Locks Film.
From Verif.Spec Require Import TilesSpec FilmSpec.
From Verif.Proof Require Import LocksProof TilesProof.
Import ListNotations.
Open Scope R_scope.

(** ** Footprints *)

Lemma footprint_in n p s z : In z (footprint n p s) -> (0 <= z < n)%Z.
Proof.
  unfold footprint. rewrite in_zrange_le. intros [H1 H2]. split.
  - apply Z.le_trans with (2 := H1). apply Zfloor_lub. unfold clip_lo.
    rcase; simpl in *; lra.
  - cut (z <= n - 1)%Z; [lia|]. apply Z.le_trans with (1 := H2).
    apply Z.le_trans with (Zfloor (IZR (n - 1))); [|rewrite Zfloor_IZR; lia].
    apply Zfloor_le. unfold clip_hi. rcase; lra.
Qed.

Lemma Zfloor_half z : Zfloor (IZR z + 1 / 2) = z.
Proof. apply Zfloor_imp. rewrite plus_IZR. lra. Qed.

Lemma footprint_complete n p s z : (0 <= z < n)%Z -> Rabs (IZR z + 1 / 2 - p) <= s ->
  In z (footprint n p s).
Proof.
  intros Hz Ha. apply Rabs_le_inv in Ha. unfold footprint. rewrite in_zrange_le. split.
  - rewrite <- (Zfloor_half z). apply Zfloor_le. unfold clip_lo.
    assert (0 <= IZR z) by (apply IZR_le; lia).
    rcase; simpl in *; lra.
  - unfold clip_hi. destruct (Rgt_dec (p + s) (IZR (n - 1))).
    + rewrite Zfloor_IZR. lia.
    + rewrite <- (Zfloor_half z). apply Zfloor_le. lra.
Qed.

Lemma footprint_nodup n p s : NoDup (footprint n p s).
Proof. apply NoDup_zrange_le. Qed.

Lemma in_filmb_iff w h x y : in_filmb w h x y = true <-> in_film w h x y.
Proof. unfold in_filmb, in_film. rewrite !andb_true_iff, !Z.leb_le, !Z.ltb_lt. lia. Qed.

Section A.
Variable fsize : vec2.
Variable feval : vec2 -> R.
Notation splat := (splat fsize feval).

Lemma splat_in w h ps x y wt : In (x, y, wt) (splat w h ps) ->
  in_film w h x y /\ wt = feval (offset x y (ps, V3 0 0 0)).
Proof.
  unfold Film.splat. rewrite in_flat_map. intros [fi [Hi Hj]].
  apply in_map_iff in Hj. destruct Hj as [fj [E Hj]]. injection E as <- <- <-.
  apply footprint_in in Hi. apply footprint_in in Hj. split; [unfold in_film; lia|].
  reflexivity.
Qed.

Definition zz_dec (a b : Z * Z) : {a = b} + {a <> b}.
Proof. decide equality; apply Z.eq_dec. Qed.

(** total weight a list of splats gives to pixel (x, y) *)
Definition hits (us : list (Z * Z * R)) (x y : Z) : R :=
  rsum (map (fun u => if zz_dec (fst u) (x, y) then snd u else 0) us).

Lemma rsum_pick (g : Z -> R) l z : NoDup l ->
  rsum (map (fun a => if Z.eq_dec a z then g a else 0) l) = if in_dec Z.eq_dec z l then g z else 0.
Proof.
  intros H. rewrite <- (rsum_indicator Z.eq_dec (g z) l z H). apply rsum_map_ext.
  intros a _. destruct (Z.eq_dec a z) as [->|]; reflexivity.
Qed.

Lemma hits_splat w h ps x y :
  hits (splat w h ps) x y =
  if in_dec Z.eq_dec y (footprint h (y2 ps) (y2 fsize)) then
    if in_dec Z.eq_dec x (footprint w (x2 ps) (x2 fsize)) then splat_weight feval ps x y else 0
  else 0.
Proof.
  unfold hits, Film.splat. rewrite rsum_flat_map.
  rewrite (rsum_map_ext _ (fun fi => if Z.eq_dec fi y then
     (if in_dec Z.eq_dec x (footprint w (x2 ps) (x2 fsize)) then splat_weight feval ps x fi else 0) else 0)).
  - rewrite (rsum_pick (fun fi => if in_dec Z.eq_dec x (footprint w (x2 ps) (x2 fsize)) then splat_weight feval ps x fi else 0))
      by apply footprint_nodup. reflexivity.
  - intros fi _. rewrite map_map. simpl.
    destruct (Z.eq_dec fi y) as [->|Hne].
    + rewrite <- (rsum_pick (fun a => splat_weight feval ps a y)) by apply footprint_nodup.
      apply rsum_map_ext. intros a _.
      destruct (zz_dec (a, y) (x, y)) as [E|E]; destruct (Z.eq_dec a x) as [E'|E']; try reflexivity; congruence.
    + apply rsum_all_zero. intros v Hv. apply in_map_iff in Hv. destruct Hv as [a [<- _]].
      destruct (zz_dec (a, fi) (x, y)) as [E|E]; [congruence|reflexivity].
Qed.

Lemma hits_supported w h ps rad x y : supported feval fsize -> in_film w h x y ->
  hits (splat w h ps) x y = feval (offset x y (ps, rad)).
Proof.
  intros Hs [Hx Hy]. rewrite hits_splat.
  assert (E : splat_weight feval ps x y = feval (offset x y (ps, rad))) by reflexivity.
  destruct (Req_dec (feval (offset x y (ps, rad))) 0) as [Z0|NZ].
  - rewrite E, Z0. destruct (in_dec _ _ _); [destruct (in_dec _ _ _)|]; reflexivity.
  - destruct (Hs _ NZ) as [Ha Hb]. simpl in Ha, Hb.
    destruct (in_dec Z.eq_dec y (footprint h (y2 ps) (y2 fsize))) as [_|n];
      [|exfalso; apply n; apply footprint_complete; assumption].
    destruct (in_dec Z.eq_dec x (footprint w (x2 ps) (x2 fsize))) as [_|n];
      [|exfalso; apply n; apply footprint_complete; assumption].
    exact E.
Qed.

(** ** Sequential accumulation *)

Lemma set2_same {A} (f : Z -> Z -> A) x y v : set2 f x y v x y = v.
Proof. unfold set2. rewrite !Z.eqb_refl. reflexivity. Qed.
Lemma set2_other {A} (f : Z -> Z -> A) x y v x' y' : (x', y') <> (x, y) -> set2 f x y v x' y' = f x' y'.
Proof.
  intros H. unfold set2. destruct (Z.eqb_spec x' x) as [->|]; [|reflexivity].
  destruct (Z.eqb_spec y' y) as [->|]; [congruence|reflexivity].
Qed.

Lemma add_pixels w h rad us : forall f,
  (forall u, In u us -> in_film w h (fst (fst u)) (snd (fst u))) ->
  exists f', foldM (add_pixel w h rad) us f = Ok f' /\
    (forall x y, img f' x y = vadd (img f x y) (vscale rad (hits us x y))) /\
    (forall x y, wgt f' x y = wgt f x y + hits us x y).
Proof.
  induction us as [|[[x0 y0] wt] us IH]; intros f Hin.
  - exists f. split; [reflexivity|]. unfold hits; simpl. rewrite rsum_nil. split; intros x y.
    + destruct (img f x y); unfold vadd, vscale; simpl. f_equal; lra.
    + lra.
  - simpl foldM. pose proof (Hin _ (or_introl eq_refl)) as H0. simpl in H0.
    apply in_filmb_iff in H0. unfold add_pixel at 1. rewrite H0. simpl bind.
    destruct (IH (Film (set2 (img f) x0 y0 (vadd (img f x0 y0) (vscale rad wt)))
                       (set2 (wgt f) x0 y0 (wgt f x0 y0 + wt)))) as [f' [E [H1 H2]]].
    { intros u Hu. apply Hin. right; assumption. }
    exists f'. split; [exact E|]. simpl in H1, H2. split; intros x y.
    + rewrite H1. unfold hits; simpl. rewrite rsum_cons.
      destruct (zz_dec (x0, y0) (x, y)) as [Eq|Ne].
      * injection Eq as -> ->. rewrite set2_same. unfold vadd, vscale; simpl. f_equal; ring.
      * rewrite set2_other by congruence. unfold vadd, vscale; simpl. f_equal; ring.
    + rewrite H2. unfold hits; simpl. rewrite rsum_cons.
      destruct (zz_dec (x0, y0) (x, y)) as [Eq|Ne].
      * injection Eq as -> ->. rewrite set2_same. ring.
      * rewrite set2_other by congruence. ring.
Qed.

Definition chan_sum (ch : vec3 -> R) (w h : Z) (evs : list (vec2 * vec3)) (x y : Z) : R :=
  rsum (map (fun e => ch (snd e) * hits (splat w h (fst e)) x y) evs).
Definition wgt_sum (w h : Z) (evs : list (vec2 * vec3)) (x y : Z) : R :=
  rsum (map (fun e => hits (splat w h (fst e)) x y) evs).

Lemma wgt_sum_spec w h evs x y : supported feval fsize -> in_film w h x y ->
  wgt_sum w h evs x y = total_weight feval evs x y.
Proof.
  intros Hs Hf. unfold wgt_sum, total_weight. apply rsum_map_ext. intros [ps rad] _.
  apply hits_supported; assumption.
Qed.

Lemma chan_sum_spec ch w h evs x y : supported feval fsize -> in_film w h x y ->
  chan_sum ch w h evs x y = weighted feval ch evs x y.
Proof.
  intros Hs Hf. unfold chan_sum, weighted. apply rsum_map_ext. intros [ps rad] _. simpl.
  rewrite (hits_supported w h ps rad) by assumption. ring.
Qed.

(** ** Averages *)

Lemma filtered_convex ch evs x y lo hi :
  (ch = vx \/ ch = vy \/ ch = vz) ->
  (forall v, 0 <= feval v) ->
  total_weight feval evs x y <> 0 ->
  (forall e, In e evs -> feval (offset x y e) <> 0 -> lo <= ch (snd e) <= hi) ->
  lo <= ch (filtered feval evs x y) <= hi.
Proof.
  intros Hch Hpos Hw Hb.
  assert (Hwp : 0 < total_weight feval evs x y).
  { assert (0 <= total_weight feval evs x y).
    { apply rsum_nonneg. intros v Hv. apply in_map_iff in Hv. destruct Hv as [e [<- _]]. apply Hpos. }
    lra. }
  assert (Hval : ch (filtered feval evs x y) = weighted feval ch evs x y / total_weight feval evs x y).
  { unfold filtered. destruct (Req_EM_T _ 0); [contradiction|].
    destruct Hch as [->|[->| ->]]; reflexivity. }
  rewrite Hval.
  assert (Hlo : lo * total_weight feval evs x y <= weighted feval ch evs x y).
  { unfold total_weight. rewrite <- rsum_map_scal. apply rsum_map_le. intros e He.
    pose proof (Hpos (offset x y e)). destruct (Req_dec (feval (offset x y e)) 0) as [E|E].
    - rewrite E. lra.
    - pose proof (Hb e He E). rewrite Rmult_comm. apply Rmult_le_compat_l; lra. }
  assert (Hhi : weighted feval ch evs x y <= hi * total_weight feval evs x y).
  { unfold total_weight. rewrite <- rsum_map_scal. apply rsum_map_le. intros e He.
    pose proof (Hpos (offset x y e)). destruct (Req_dec (feval (offset x y e)) 0) as [E|E].
    - rewrite E. lra.
    - pose proof (Hb e He E). rewrite (Rmult_comm hi). apply Rmult_le_compat_l; lra. }
  split.
  - apply Rmult_le_reg_r with (1 := Hwp). unfold Rdiv. rewrite Rmult_assoc, Rinv_l by lra. lra.
  - apply Rmult_le_reg_r with (1 := Hwp). unfold Rdiv. rewrite Rmult_assoc, Rinv_l by lra. lra.
Qed.

Lemma filtered_const c evs x y :
  total_weight feval evs x y <> 0 ->
  (forall e, In e evs -> snd e = c) ->
  filtered feval evs x y = c.
Proof.
  intros Hw Hc. unfold filtered. destruct (Req_EM_T _ 0); [contradiction|].
  assert (H : forall ch, weighted feval ch evs x y = ch c * total_weight feval evs x y).
  { intros ch. unfold weighted, total_weight. rewrite <- rsum_map_scal. apply rsum_map_ext.
    intros e He. rewrite (Hc e He). ring. }
  rewrite !H. destruct c as [cx cy cz]; simpl. f_equal; field; assumption.
Qed.

Lemma zero_weight_zero_sum ch evs x y : (forall v, 0 <= feval v) ->
  total_weight feval evs x y = 0 -> weighted feval ch evs x y = 0.
Proof.
  intros Hp H. unfold weighted. apply rsum_all_zero. intros v Hv. apply in_map_iff in Hv.
  destruct Hv as [e [<- He]].
  rewrite (rsum_nonneg_zero (map (fun e => feval (offset x y e)) evs)) with (x := feval (offset x y e)).
  - ring.
  - intros u Hu. apply in_map_iff in Hu. destruct Hu as [e' [<- _]]. apply Hp.
  - exact H.
  - apply in_map_iff. eauto.
Qed.

Lemma chan_sum_app ch w h e1 e2 x y :
  chan_sum ch w h (e1 ++ e2) x y = chan_sum ch w h e1 x y + chan_sum ch w h e2 x y.
Proof. unfold chan_sum. rewrite map_app, rsum_app. reflexivity. Qed.
Lemma wgt_sum_app w h e1 e2 x y :
  wgt_sum w h (e1 ++ e2) x y = wgt_sum w h e1 x y + wgt_sum w h e2 x y.
Proof. unfold wgt_sum. rewrite map_app, rsum_app. reflexivity. Qed.

Definition own_index (w : Z) (c : cell) : Z :=
  match c with CImg x y _ => (y * w + x)%Z | CW i => i end.

Lemma sections_to_app c l1 l2 : sections_to c (l1 ++ l2) = sections_to c l1 + sections_to c l2.
Proof. unfold sections_to. rewrite map_app, rsum_app. reflexivity. Qed.

Lemma sections_splat w h ps rad x y (ch : nat) :
  (ch < 3)%nat ->
  sections_to (CImg x y ch) (map (splat_section w rad) (splat w h ps)) =
  vget rad ch * hits (splat w h ps) x y.
Proof.
  intros Hch. unfold sections_to, hits. rewrite map_map, <- rsum_map_scal. apply rsum_map_ext.
  intros [[x' y'] wt] _. simpl. unfold adds_to. simpl. rewrite !rsum_cons, rsum_nil. simpl.
  assert (Hc : forall a b c d k k' v, (if cell_eq_dec (CImg a b k) (CImg c d k') then v else 0) =
                 if zz_dec (a, b) (c, d) then if Nat.eq_dec k k' then v else 0 else 0).
  { intros a b c d k k' v. destruct (cell_eq_dec _ _) as [E|E]; destruct (zz_dec _ _) as [E'|E'];
      try destruct (Nat.eq_dec k k'); congruence. }
  assert (Hw : forall i v, (if cell_eq_dec (CW i) (CImg x y ch) then v else 0) = 0).
  { intros i v. destruct (cell_eq_dec _ _); congruence. }
  rewrite Hw, !Hc. destruct (zz_dec (x', y') (x, y)); [|ring].
  destruct ch as [|[|[|ch]]]; [| | |lia]; simpl; ring.
Qed.

Lemma index_inj w h x y x' y' : in_film w h x y -> in_film w h x' y' ->
  (y * w + x = y' * w + x')%Z -> x = x' /\ y = y'.
Proof. unfold in_film. intros [Hx Hy] [Hx' Hy'] E. assert (y = y') by nia. subst. lia. Qed.

Lemma sections_weight w h ps rad x y : in_film w h x y ->
  sections_to (CW (y * w + x)%Z) (map (splat_section w rad) (splat w h ps)) = hits (splat w h ps) x y.
Proof.
  intros Hf. unfold sections_to, hits. rewrite map_map. apply rsum_map_ext.
  intros [[x' y'] wt] Hin. apply splat_in in Hin. destruct Hin as [Hf' _]. simpl.
  unfold adds_to. simpl. rewrite !rsum_cons, rsum_nil. simpl.
  assert (Hi : forall a b k i v, (if cell_eq_dec (CImg a b k) (CW i) then v else 0) = 0).
  { intros a b k i v. destruct (cell_eq_dec _ _); congruence. }
  rewrite !Hi.
  destruct (cell_eq_dec (CW (y' * w + x')) (CW (y * w + x))) as [E|E].
  - injection E as E. destruct (index_inj w h x' y' x y Hf' Hf E) as [-> ->].
    destruct (zz_dec (x, y) (x, y)); [lra|congruence].
  - destruct (zz_dec (x', y') (x, y)) as [E'|E']; [injection E' as -> ->; congruence|lra].
Qed.

End A.

(** ** Sample counts *)

Definition count (l : list (Z * Z)) (p : Z * Z) : nat := count_occ zz_dec l p.

Lemma count_flat_map {A} (f : A -> list (Z * Z)) l p :
  count (flat_map f l) p = list_sum (map (fun a => count (f a) p) l).
Proof.
  induction l as [|a l IH]; simpl; [reflexivity|]. unfold count in *. rewrite count_occ_app, IH. reflexivity.
Qed.

Lemma list_sum_const {A} (l : list A) (f : A -> nat) c : (forall a, In a l -> f a = c) ->
  list_sum (map f l) = (length l * c)%nat.
Proof.
  induction l as [|a l IH]; intros H; simpl; [reflexivity|].
  rewrite H by (left; reflexivity). rewrite IH by (intros; apply H; right; assumption). reflexivity.
Qed.

Lemma list_sum_pick (l : list Z) (f : Z -> nat) z : NoDup l -> In z l ->
  (forall a, In a l -> a <> z -> f a = 0%nat) -> list_sum (map f l) = f z.
Proof.
  induction l as [|a l IH]; intros Hn Hin H; [destruct Hin|].
  inversion Hn as [|? ? Hni Hnd]; subst. simpl. destruct Hin as [->|Hin].
  - assert (E : list_sum (map f l) = 0%nat).
    { rewrite (list_sum_const l f 0%nat); [lia|]. intros b Hb. apply H; [right; assumption|congruence]. }
    lia.
  - rewrite (H a); [|left; reflexivity|congruence]. simpl. apply IH; auto.
    intros b Hb Hne. apply H; [right; assumption|assumption].
Qed.

Lemma count_row i x y a b : count (map (fun j => (j, i)) (zrange a b)) (x, y) =
  if (Z.eqb i y && Z.leb a x && Z.ltb x b)%bool then 1%nat else 0%nat.
Proof.
  unfold count.
  assert (Hnd : NoDup (map (fun j => (j, i)) (zrange a b))).
  { apply FinFun.Injective_map_NoDup; [intros u v E; congruence|apply NoDup_zrange]. }
  destruct (Z.eqb i y && Z.leb a x && Z.ltb x b)%bool eqn:E.
  - apply NoDup_count_occ'; [assumption|]. apply in_map_iff. exists x.
    rewrite !andb_true_iff, Z.eqb_eq, Z.leb_le, Z.ltb_lt in E. split; [f_equal; lia|apply in_zrange; lia].
  - apply count_occ_not_In. intros Hin. apply in_map_iff in Hin. destruct Hin as [j [Ej Hj]].
    apply in_zrange in Hj. injection Ej as -> ->.
    assert ((Z.eqb y y && Z.leb a x && Z.ltb x b)%bool = true).
    { rewrite !andb_true_iff, Z.eqb_eq, Z.leb_le, Z.ltb_lt. lia. }
    congruence.
Qed.

Lemma count_pixel_order spp w h x y : (0 <= spp)%Z -> in_film w h x y ->
  Z.of_nat (count (pixel_order spp w h) (x, y)) = spp.
Proof.
  intros Hs [Hx Hy]. unfold pixel_order. rewrite count_flat_map.
  rewrite (list_sum_const _ _ 1%nat).
  - rewrite length_zrange. lia.
  - intros k _. rewrite count_flat_map. rewrite (list_sum_pick _ _ y).
    + rewrite count_row. rewrite Z.eqb_refl.
      replace (0 <=? x)%Z with true by (symmetry; apply Z.leb_le; lia).
      replace (x <? w)%Z with true by (symmetry; apply Z.ltb_lt; lia). reflexivity.
    + apply NoDup_zrange.
    + apply in_zrange; lia.
    + intros i _ Hne. rewrite count_row. destruct (Z.eqb_spec i y); [contradiction|reflexivity].
Qed.

Lemma count_repeat_map {A} (l : list A) (p q : Z * Z) :
  count (map (fun _ => p) l) q = if zz_dec p q then length l else 0%nat.
Proof.
  unfold count. induction l as [|a l IH]; simpl; [destruct (zz_dec p q); reflexivity|].
  rewrite IH. destruct (zz_dec p q); reflexivity.
Qed.

Lemma count_tile_order spp t x y : (0 <= spp)%Z ->
  (covers t x y -> Z.of_nat (count (tile_order spp t) (x, y)) = spp) /\
  (~ covers t x y -> count (tile_order spp t) (x, y) = 0%nat).
Proof.
  intros Hs. unfold tile_order. rewrite count_flat_map. split.
  - intros [Hx Hy]. rewrite (list_sum_pick _ _ y).
    + rewrite count_flat_map. rewrite (list_sum_pick _ _ x).
      * rewrite count_repeat_map. destruct (zz_dec (x, y) (x, y)); [|congruence]. rewrite length_zrange. lia.
      * apply NoDup_zrange.
      * apply in_zrange; lia.
      * intros a _ Hne. rewrite count_repeat_map. destruct (zz_dec (a, y) (x, y)); [congruence|reflexivity].
    + apply NoDup_zrange.
    + apply in_zrange; lia.
    + intros i _ Hne. rewrite count_flat_map. rewrite (list_sum_const _ _ 0%nat); [lia|].
      intros a _. rewrite count_repeat_map. destruct (zz_dec (a, i) (x, y)); [congruence|reflexivity].
  - intros Hnc. rewrite (list_sum_const _ _ 0%nat); [lia|]. intros i Hi. apply in_zrange in Hi.
    rewrite count_flat_map. rewrite (list_sum_const _ _ 0%nat); [lia|]. intros a Ha. apply in_zrange in Ha.
    rewrite count_repeat_map. destruct (zz_dec (a, i) (x, y)) as [E|]; [|reflexivity].
    injection E as -> ->. exfalso. apply Hnc. split; assumption.
Qed.

Lemma count_concat_tiles spp w h ts x y : (0 <= spp)%Z ->
  exact_partition w h ts -> in_film w h x y ->
  Z.of_nat (count (flat_map (tile_order spp) ts) (x, y)) = spp.
Proof.
  intros Hs [Hex _] Hf. destruct (Hex x y Hf) as [k [[t [Hk Hc]] Huniq]].
  rewrite count_flat_map.
  assert (G : forall l k t, nth_error l k = Some t -> covers t x y ->
     (forall k' t', nth_error l k' = Some t' -> covers t' x y -> k' = k) ->
     list_sum (map (fun a => count (tile_order spp a) (x, y)) l) = count (tile_order spp t) (x, y)).
  { induction l as [|a l IH]; intros [|k0] t0 Hk0 Hc0 Hu; simpl in Hk0; try discriminate.
    - injection Hk0 as ->. simpl.
      rewrite (list_sum_const l _ 0%nat); [lia|]. intros b Hb. apply (count_tile_order spp b x y Hs).
      intros Hcb. apply In_nth_error in Hb. destruct Hb as [m Hm]. specialize (Hu (Datatypes.S m) b Hm Hcb). discriminate.
    - simpl. rewrite (proj2 (count_tile_order spp a x y Hs)).
      + simpl. apply (IH k0 t0 Hk0 Hc0). intros k' t' Hk' Hc'.
        specialize (Hu (Datatypes.S k') t' Hk' Hc'). congruence.
      + intros Hca. specialize (Hu 0%nat a eq_refl Hca). discriminate. }
  rewrite (G ts k t Hk Hc).
  - apply (count_tile_order spp t x y Hs). assumption.
  - intros k' t' Hk' Hc'. symmetry. apply Huniq. eauto.
Qed.

Section R.
Variable S : Type.
Variable next2D : S -> vec2 * S.
Variable radiance_of : S -> vec2 -> vec2 -> vec3 * S.
Variable fsize : vec2.
Variable feval : vec2 -> R.

Notation splat := (splat fsize feval).
Notation take_sample := (take_sample S next2D radiance_of).
Notation draw := (draw S next2D radiance_of).
Notation chan_sum := (chan_sum fsize feval).
Notation wgt_sum := (wgt_sum fsize feval).

(** state of the sampler after drawing *)
Fixpoint draw_state (pixels : list (Z * Z)) (s : S) : S :=
  match pixels with
  | [] => s
  | pix :: rest => draw_state rest (snd (take_sample s pix))
  end.

Lemma render_loop w h pixels : forall f s,
  exists f', foldM (render_body S next2D radiance_of fsize feval w h) pixels (f, s)
             = Ok (f', draw_state pixels s) /\
    (forall x y, img f' x y = vadd (img f x y)
       (V3 (chan_sum vx w h (draw pixels s) x y) (chan_sum vy w h (draw pixels s) x y)
           (chan_sum vz w h (draw pixels s) x y))) /\
    (forall x y, wgt f' x y = wgt f x y + wgt_sum w h (draw pixels s) x y).
Proof.
  induction pixels as [|pix rest IH]; intros f s.
  - exists f. split; [reflexivity|]. unfold FilmProof.chan_sum, wgt_sum; simpl. rewrite rsum_nil. split; intros x y.
    + destruct (img f x y); unfold vadd; simpl. f_equal; lra.
    + lra.
  - simpl foldM. unfold render_body at 1. simpl draw. simpl draw_state.
    destruct (take_sample s pix) as [[ps rad] s'] eqn:Et.
    destruct (add_pixels w h rad (splat w h ps) f) as [f1 [E1 [I1 W1]]].
    { intros [[x y] wt] Hu. apply splat_in in Hu. simpl. tauto. }
    rewrite E1. simpl bind. destruct (IH f1 s') as [f2 [E2 [I2 W2]]].
    exists f2. simpl snd. split; [exact E2|]. split; intros x y.
    + rewrite I2, I1. unfold FilmProof.chan_sum. simpl. rewrite !rsum_cons. simpl.
      unfold vadd, vscale; simpl. f_equal; ring.
    + rewrite W2, W1. unfold FilmProof.wgt_sum. simpl. rewrite rsum_cons. simpl. ring.
Qed.

Theorem render_spec spp w h img0 s : supported feval fsize ->
  exists im s', render S next2D radiance_of fsize feval spp w h img0 s = Ok (im, s') /\
    (forall x y, in_film w h x y ->
       im x y = filtered feval (draw (pixel_order spp w h) s) x y) /\
    (forall x y, ~ in_film w h x y -> im x y = img0 x y).
Proof.
  intros Hs. unfold render.
  destruct (render_loop w h (pixel_order spp w h) (Film (fun _ _ => V3 0 0 0) (fun _ _ => 0)) s)
    as [f' [E [I W]]].
  rewrite E. simpl. do 2 eexists. split; [reflexivity|]. simpl. split.
  - intros x y Hf. rewrite (proj2 (in_filmb_iff _ _ _ _) Hf).
    unfold finish_pixel, filtered. rewrite W, I. simpl.
    rewrite wgt_sum_spec by assumption. rewrite !chan_sum_spec by assumption. rewrite Rplus_0_l.
    destruct (Req_EM_T _ 0); [reflexivity|]. unfold vdiv, vadd; simpl. f_equal; f_equal; lra.
  - intros x y Hf. destruct (in_filmb w h x y) eqn:Eb; [|reflexivity].
    apply in_filmb_iff in Eb. contradiction.
Qed.

Lemma draw_const c : (forall s ps a, fst (radiance_of s ps a) = c) ->
  forall pixels s e, In e (draw pixels s) -> snd e = c.
Proof.
  intros H. induction pixels as [|pix rest IH]; intros s e He; [destruct He|].
  simpl in He. unfold Film.take_sample in He. destruct pix as [j i].
  destruct (next2D s) as [u s1]. destruct (next2D s1) as [a s2].
  pose proof (H s2 (V2 (IZR j + x2 u) (IZR i + y2 u)) a) as Hr.
  destruct (radiance_of s2 _ a) as [rad s3]. simpl in Hr. destruct He as [<-|He]; [assumption|].
  eapply IH; eauto.
Qed.

(** positions drawn lie in the pixel they were drawn for *)
Lemma draw_positions : (forall s, unit_square (fst (next2D s))) ->
  forall pixels s,
  Forall2 (fun pix e => IZR (fst pix) <= x2 (fst e) < IZR (fst pix) + 1 /\
                        IZR (snd pix) <= y2 (fst e) < IZR (snd pix) + 1) pixels (draw pixels s).
Proof.
  intros Hu. induction pixels as [|[j i] rest IH]; intros s; [constructor|].
  simpl. unfold Film.take_sample. pose proof (Hu s) as Hus.
  destruct (next2D s) as [u s1]. destruct (next2D s1) as [a s2].
  destruct (radiance_of s2 _ a) as [rad s3]. constructor; [|apply IH].
  simpl. destruct Hus as [H1 H2]. simpl in H1, H2. lra.
Qed.

(** ** The parallel film *)

Lemma tile_program_locked spp w h t s : Forall (well_locked (own_index w))
   (tile_program S next2D radiance_of fsize feval spp w h t s).
Proof.
  apply Forall_forall. intros sec Hin. unfold tile_program in Hin. apply in_flat_map in Hin.
  destruct Hin as [e [_ Hin]]. apply in_map_iff in Hin. destruct Hin as [[[x y] wt] [<- _]].
  intros c d Hc. simpl in Hc. simpl.
  destruct Hc as [E|[E|[E|[E|[]]]]]; injection E as <- <-; reflexivity.
Qed.

Lemma program_chan spp w h t s x y ch : (ch < 3)%nat ->
  sections_to (CImg x y ch) (tile_program S next2D radiance_of fsize feval spp w h t s) =
  chan_sum (fun v => vget v ch) w h (draw (tile_order spp t) s) x y.
Proof.
  intros Hch. unfold tile_program, chan_sum.
  induction (draw (tile_order spp t) s) as [|e evs IH]; [reflexivity|].
  simpl. rewrite sections_to_app, IH, rsum_cons, sections_splat by assumption. reflexivity.
Qed.

Lemma program_wgt spp w h t s x y : in_film w h x y ->
  sections_to (CW (y * w + x)%Z) (tile_program S next2D radiance_of fsize feval spp w h t s) =
  wgt_sum w h (draw (tile_order spp t) s) x y.
Proof.
  intros Hf. unfold tile_program, wgt_sum.
  induction (draw (tile_order spp t) s) as [|e evs IH]; [reflexivity|].
  simpl. rewrite sections_to_app, IH, rsum_cons, sections_weight by assumption. reflexivity.
Qed.

(** all samples drawn by the workers, tile by tile; [seed t] is the private sampler of tile t *)
Definition pool_samples (spp : Z) (ts : list tile) (seed : tile -> S) : list (vec2 * vec3) :=
  flat_map (fun t => draw (tile_order spp t) (seed t)) ts.

Lemma progs_chan spp w h ts seed x y ch : (ch < 3)%nat ->
  rsum (map (sections_to (CImg x y ch))
        (map (fun t => tile_program S next2D radiance_of fsize feval spp w h t (seed t)) ts)) =
  chan_sum (fun v => vget v ch) w h (pool_samples spp ts seed) x y.
Proof.
  intros Hch. induction ts as [|t ts IH]; [reflexivity|]. simpl.
  rewrite rsum_cons, IH, program_chan by assumption. unfold pool_samples; simpl. rewrite chan_sum_app. reflexivity.
Qed.

Lemma progs_wgt spp w h ts seed x y : in_film w h x y ->
  rsum (map (sections_to (CW (y * w + x)%Z))
        (map (fun t => tile_program S next2D radiance_of fsize feval spp w h t (seed t)) ts)) =
  wgt_sum w h (pool_samples spp ts seed) x y.
Proof.
  intros Hf. induction ts as [|t ts IH]; [reflexivity|]. simpl.
  rewrite rsum_cons, IH, program_wgt by assumption. unfold pool_samples; simpl. rewrite wgt_sum_app. reflexivity.
Qed.

Theorem pool_film spp w h ts seed img0 st :
  supported feval fsize ->
  lsteps (linit (pool_mem img0)
     (map (fun t => tile_program S next2D radiance_of fsize feval spp w h t (seed t)) ts)) st ->
  (forall wk, In wk (l_workers st) -> worker_done wk) ->
  forall x y, in_film w h x y ->
  let evs := pool_samples spp ts seed in
  pool_finish w (l_mem st) x y =
    (if Req_EM_T (total_weight feval evs x y) 0
     then V3 (vx (img0 x y) + weighted feval vx evs x y) (vy (img0 x y) + weighted feval vy evs x y)
             (vz (img0 x y) + weighted feval vz evs x y)
     else V3 ((vx (img0 x y) + weighted feval vx evs x y) / total_weight feval evs x y)
             ((vy (img0 x y) + weighted feval vy evs x y) / total_weight feval evs x y)
             ((vz (img0 x y) + weighted feval vz evs x y) / total_weight feval evs x y)).
Proof.
  intros Hs Hst Hdone x y Hf evs.
  assert (Hfin : forall c, l_mem st c = pool_mem img0 c + rsum (map (sections_to c)
      (map (fun t => tile_program S next2D radiance_of fsize feval spp w h t (seed t)) ts))).
  { apply (locks_final (own_index w)) with (s := st); auto.
    intros p Hp. apply in_map_iff in Hp. destruct Hp as [t [<- _]]. apply tile_program_locked. }
  unfold pool_finish. rewrite !Hfin.
  rewrite !progs_chan by lia. rewrite progs_wgt by assumption. fold evs. simpl pool_mem.
  rewrite wgt_sum_spec by assumption.
  change (fun v : vec3 => vget v 0) with vx. 
  rewrite (chan_sum_spec fsize feval (fun v => vget v 1)), (chan_sum_spec fsize feval (fun v => vget v 2)) by assumption.
  rewrite (chan_sum_spec fsize feval (fun v => vget v 0)) by assumption.
  rewrite Rplus_0_l. reflexivity.
Qed.

End R.

(** ** Filters *)

Lemma box_supported size : supported (box_eval size) size.
Proof.
  intros v Hv. unfold box_eval in Hv.
  destruct (Rlt_dec (Rabs (x2 v)) (x2 size)); [|contradiction (Hv eq_refl)].
  destruct (Rlt_dec (Rabs (y2 v)) (y2 size)); [|contradiction (Hv eq_refl)]. lra.
Qed.

Lemma box_nonneg size v : 0 <= box_eval size v.
Proof. unfold box_eval. destruct (Rlt_dec _ _); [destruct (Rlt_dec _ _)|]; lra. Qed.

Lemma gauss_alpha_neg sd : sd <> 0 -> gauss_alpha sd < 0.
Proof.
  intros H. unfold gauss_alpha.
  assert (0 < 2 * sd * sd) by (pose proof (Rsqr_pos_lt sd H); unfold Rsqr in *; lra).
  unfold Rdiv. assert (0 < / (2 * sd * sd)) by (apply Rinv_0_lt_compat; assumption). lra.
Qed.

Lemma gauss_axis sd r p : sd <> 0 -> 0 <= r ->
  (0 < exp (gauss_alpha sd * p * p) - gauss_coeff sd r <-> Rabs p < r).
Proof.
  intros Hsd Hr. pose proof (gauss_alpha_neg sd Hsd) as Ha. unfold gauss_coeff.
  assert (K : gauss_alpha sd * r * r < gauss_alpha sd * p * p <-> Rabs p < r).
  { split; intros H.
    - apply Rnot_le_lt. intros Hle. assert (r * r <= p * p).
      { rewrite <- (Rabs_pos_eq r Hr) in Hle. apply Rsqr_le_abs_1 in Hle. unfold Rsqr in Hle. exact Hle. }
      nra.
    - assert (p * p < r * r).
      { rewrite <- (Rabs_pos_eq r Hr) in H. apply Rsqr_lt_abs_1 in H. unfold Rsqr in H. exact H. }
      nra. }
  rewrite <- K. split; intros H.
  - apply exp_lt_inv. lra.
  - apply exp_increasing in H. lra.
Qed.

Lemma gauss_supported sd size : sd <> 0 -> 0 <= x2 size -> 0 <= y2 size ->
  supported (gauss_eval sd size) size.
Proof.
  intros Hsd Hx Hy v Hv. unfold gauss_eval in Hv.
  split; apply Rlt_le.
  - apply (gauss_axis sd); auto. apply Rnot_le_lt. intros H. apply Hv.
    rewrite (Rmax_left 0 (exp (gauss_alpha sd * x2 v * x2 v) - _)) by assumption. ring.
  - apply (gauss_axis sd); auto. apply Rnot_le_lt. intros H. apply Hv.
    rewrite (Rmax_left 0 (exp (gauss_alpha sd * y2 v * y2 v) - _)) by assumption. ring.
Qed.

Lemma gauss_nonneg sd size v : 0 <= gauss_eval sd size v.
Proof. unfold gauss_eval. apply Rmult_le_pos; apply Rmax_l. Qed.

Lemma gauss_default_black sd v : sd <> 0 -> gauss_eval sd gauss_default_size v = 0.
Proof.
  intros Hsd. unfold gauss_eval. rewrite Rmax_left; [ring|].
  apply Rnot_lt_le. intros H. simpl in H. apply (gauss_axis sd 0 (x2 v) Hsd (Rle_refl _)) in H.
  pose proof (Rabs_pos (x2 v)). lra.
Qed.

Lemma box_even size v : box_eval size (V2 (- x2 v) (y2 v)) = box_eval size v /\
  box_eval size (V2 (x2 v) (- y2 v)) = box_eval size v.
Proof. unfold box_eval; simpl. rewrite !Rabs_Ropp. split; reflexivity. Qed.

Lemma gauss_even sd size v : gauss_eval sd size (V2 (- x2 v) (y2 v)) = gauss_eval sd size v /\
  gauss_eval sd size (V2 (x2 v) (- y2 v)) = gauss_eval sd size v.
Proof.
  unfold gauss_eval; simpl. 
  replace (gauss_alpha sd * - x2 v * - x2 v) with (gauss_alpha sd * x2 v * x2 v) by ring.
  replace (gauss_alpha sd * - y2 v * - y2 v) with (gauss_alpha sd * y2 v * y2 v) by ring.
  split; reflexivity.
Qed.

Lemma gauss_pos_iff sd size v : sd <> 0 -> 0 <= x2 size -> 0 <= y2 size ->
  (0 < gauss_eval sd size v <-> Rabs (x2 v) < x2 size /\ Rabs (y2 v) < y2 size).
Proof.
  intros Hsd Hx Hy. rewrite <- (gauss_axis sd (x2 size)), <- (gauss_axis sd (y2 size)) by assumption.
  unfold gauss_eval.
  set (a := exp (gauss_alpha sd * x2 v * x2 v) - gauss_coeff sd (x2 size)).
  set (b := exp (gauss_alpha sd * y2 v * y2 v) - gauss_coeff sd (y2 size)).
  unfold Rmax. destruct (Rle_dec 0 a), (Rle_dec 0 b); rnorm; split; intros H; try lra; try nra.
Qed.

(** a filter decreases with the distance *)
Lemma gauss_mono sd size v v' : sd <> 0 ->
  Rabs (x2 v) <= Rabs (x2 v') -> Rabs (y2 v) <= Rabs (y2 v') ->
  gauss_eval sd size v' <= gauss_eval sd size v.
Proof.
  intros Hsd Hx Hy. pose proof (gauss_alpha_neg sd Hsd) as Ha. unfold gauss_eval.
  assert (K : forall p q c, Rabs p <= Rabs q ->
     Rmax 0 (exp (gauss_alpha sd * q * q) - c) <= Rmax 0 (exp (gauss_alpha sd * p * p) - c)).
  { intros p q c H. apply Rsqr_le_abs_1 in H. unfold Rsqr in H.
    assert (exp (gauss_alpha sd * q * q) <= exp (gauss_alpha sd * p * p)).
    { destruct (Req_dec (p * p) (q * q)) as [E|E].
      - right. f_equal. rewrite !Rmult_assoc, E. reflexivity.
      - left. apply exp_increasing. nra. }
    unfold Rmax. destruct (Rle_dec 0 (exp (gauss_alpha sd * q * q) - c)), (Rle_dec 0 (exp (gauss_alpha sd * p * p) - c)); rnorm; lra. }
  apply Rmult_le_compat; try apply Rmax_l; apply K; assumption.
Qed.

(** with the default box, a sample strictly inside a pixel contributes to that pixel only *)
Lemma box_default_own ps x y : IZR x < x2 ps < IZR x + 1 -> IZR y < y2 ps < IZR y + 1 ->
  forall rad x' y', box_eval box_default_size (offset x' y' (ps, rad)) =
                if zz_dec (x', y') (x, y) then 1 else 0.
Proof.
  intros Hx Hy rad x' y'. unfold box_eval, offset; simpl.
  assert (D : forall a a' p, IZR a < p < IZR a + 1 -> a' <> a -> ~ Rabs (IZR a' + 1 / 2 - p) < 1 / 2).
  { intros a a' p Hp Hne Hlt. apply Rabs_def2 in Hlt. apply Hne.
    assert (IZR a' < IZR (a + 1)) by (rewrite plus_IZR; lra).
    assert (IZR a < IZR (a' + 1)) by (rewrite plus_IZR; lra).
    apply lt_IZR in H. apply lt_IZR in H0. lia. }
  destruct (zz_dec (x', y') (x, y)) as [E|E].
  - injection E as -> ->.
    destruct (Rlt_dec (Rabs (IZR x + 1 / 2 - x2 ps)) (1 / 2)) as [_|n].
    + destruct (Rlt_dec (Rabs (IZR y + 1 / 2 - y2 ps)) (1 / 2)) as [_|n]; [reflexivity|].
      exfalso. apply n. apply Rabs_def1; lra.
    + exfalso. apply n. apply Rabs_def1; lra.
  - destruct (Z.eq_dec x' x) as [->|Hne].
    + destruct (Z.eq_dec y' y) as [->|Hne]; [congruence|].
      destruct (Rlt_dec _ _); [|reflexivity].
      destruct (Rlt_dec _ _) as [L|L]; [|reflexivity]. exfalso. apply (D y y' (y2 ps) Hy Hne L).
    + destruct (Rlt_dec _ _) as [L|L]; [|reflexivity]. exfalso. apply (D x x' (x2 ps) Hx Hne L).
Qed.

Lemma box_default_corner ps x : x2 ps = IZR x -> 
  forall rad x' y', box_eval box_default_size (offset x' y' (ps, rad)) = 0.
Proof.
  intros Hx rad x' y'. unfold box_eval, offset; simpl. rewrite Hx.
  destruct (Rlt_dec (Rabs (IZR x' + 1 / 2 - IZR x)) (1 / 2)) as [L|L]; [|reflexivity].
  exfalso. apply Rabs_def2 in L.
  assert (IZR x' < IZR x) by lra. assert (IZR x < IZR (x' + 1)) by (rewrite plus_IZR; lra).
  apply lt_IZR in H. apply lt_IZR in H0. lia.
Qed.
