(** Derived facts used by Props/RenderPool.v. *)
From Coq Require Import Reals ZArith List Bool Lra Lia Permutation.
From Flocq Require Import Core.Raux.
From Verif.Base Require Import Outcome Loops ListLemmas RSum RTac.
From Verif.Model Require Import Vec Tiles Locks Film PoolFilm.
From Verif.Spec Require Import TilesSpec FilmSpec PoolSpec.
From Verif.Proof Require Import LocksProof TilesProof PoolProof FilmProof PoolFilmProof PoolLive.
Import ListNotations.
Open Scope R_scope.

Lemma total_weight_pos f evs e x y : (forall v, 0 <= f v) -> In e evs -> 0 < f (offset x y e) ->
  0 < total_weight f evs x y.
Proof.
  intros Hp Hin He. unfold total_weight. induction evs as [|a evs IH]; [destruct Hin|].
  simpl. rewrite rsum_cons. destruct Hin as [->|Hin].
  - assert (0 <= rsum (map (fun e => f (offset x y e)) evs)).
    { apply rsum_nonneg. intros v Hv. apply in_map_iff in Hv. destruct Hv as [b [<- _]]. apply Hp. }
    lra.
  - specialize (IH Hin). pose proof (Hp (offset x y a)). lra.
Qed.

Lemma accumulated_difference f i0 i1 evs x y : total_weight f evs x y <> 0 ->
  vsub (accumulated f i1 evs x y) (accumulated f i0 evs x y) = vdiv (vsub i1 i0) (total_weight f evs x y).
Proof.
  intros Hw. unfold accumulated. destruct (Req_EM_T _ 0); [contradiction|].
  unfold vsub, vdiv; simpl. f_equal; field; assumption.
Qed.

Lemma draw_center (rad : vec3) pixels : forall s : unit,
  draw unit (fun u => (V2 (1 / 2) (1 / 2), u)) (fun u _ _ => (rad, u)) pixels s =
  map (fun p => (V2 (IZR (fst p) + 1 / 2) (IZR (snd p) + 1 / 2), rad)) pixels.
Proof. induction pixels as [|[j i] rest IH]; intros s; simpl; [reflexivity|]. f_equal. apply IH. Qed.

Section PX.
Variables M S : Type.
Variable next1D : M -> R * M.
Variable copy : M -> R -> S.
Variable next2D : S -> vec2 * S.
Variable radiance_of : S -> vec2 -> vec2 -> vec3 * S.

Lemma pool_samples_in spp w h tiles m x y : (forall s, unit_square (fst (next2D s))) ->
  (0 <= spp)%Z -> exact_partition w h tiles -> in_film w h x y ->
  Z.of_nat (samples_in (all_samples M S next1D copy next2D radiance_of spp tiles m) x y) = spp.
Proof.
  intros Hu Hs Hp Hf.
  rewrite <- (pool_samples_count M S next1D copy spp w h tiles m x y Hs Hp Hf) at 2.
  f_equal. apply samples_in_count. apply Forall2_flat_map. intros ts _. apply draw_positions. assumption.
Qed.

Lemma render_samples_in spp w h s x y : (forall s, unit_square (fst (next2D s))) ->
  (0 <= spp)%Z -> in_film w h x y ->
  Z.of_nat (samples_in (draw S next2D radiance_of (pixel_order spp w h) s) x y) = spp.
Proof.
  intros Hu Hs Hf.
  rewrite <- (count_pixel_order spp w h x y Hs Hf) at 2.
  f_equal. apply samples_in_count. apply draw_positions. assumption.
Qed.
End PX.

Lemma length_pixel_order spp w h : (0 <= spp)%Z -> (0 <= w)%Z -> (0 <= h)%Z ->
  Z.of_nat (length (pixel_order spp w h)) = (spp * (w * h))%Z.
Proof.
  intros Hs Hw Hh. unfold pixel_order.
  assert (L : forall {A B} (f : A -> list B) l c, (forall a, In a l -> length (f a) = c) ->
     length (flat_map f l) = (length l * c)%nat).
  { intros A B f l c. induction l as [|a l IH]; intros H; simpl; [reflexivity|].
    rewrite app_length, H by (left; reflexivity). rewrite IH by (intros; apply H; right; assumption). reflexivity. }
  rewrite (L _ _ _ _ (Z.to_nat h * Z.to_nat w)%nat).
  - rewrite length_zrange. rewrite !Nat2Z.inj_mul. rewrite !Z2Nat.id by lia. lia.
  - intros k _. rewrite (L _ _ _ _ (Z.to_nat w)).
    + rewrite length_zrange. f_equal. lia.
    + intros i _. rewrite map_length, length_zrange. lia.
Qed.

Lemma length_draw S next2D radiance_of pixels : forall s,
  length (draw S next2D radiance_of pixels s) = length pixels.
Proof.
  induction pixels as [|pix rest IH]; intros s; simpl; [reflexivity|].
  destruct (take_sample S next2D radiance_of s pix) as [[ps rad] s']. simpl. f_equal. apply IH.
Qed.
