(** Single precision in light selection, tile seeds, shadow rays and the walk through null surfaces. *)
From Coq Require Import ZArith Reals List Bool Lia Lra Psatz.
From Flocq Require Import Core BinarySingleNaN.
From Verif.Base Require Import Outcome F32.
From Verif.Model Require Import FloatRays.
From Verif.Spec Require Import FloatRaysSpec.
From Verif.Proof Require Import FloatFilmProof FloatRaysProof.
Import ListNotations.
Open Scope R_scope.

(** ** C172: choosing a light *)
(** With 23 random bits and up to 2^24 lights the index is valid for every draw. *)
Theorem C172_index_valid : forall n k, (1 <= n <= 2 ^ 24)%Z -> (0 <= k < 2 ^ 23)%Z -> (0 <= f_index n (draw k) < n)%Z.
Proof. intros n k N K. split; [now apply index_ge0|now apply index_lt]. Qed.
Print Assumptions C172_index_valid.
Lemma fair_real (n : Z) (c : nat) : (1 <= n)%Z -> (Z.abs (2 * n * Z.of_nat c - 2 ^ 24) < 3 * n)%Z ->
  Rabs (INR c / 2 ^ 23 - / IZR n) < 3 / 2 ^ 24.
Proof.
  intros N H.
    rewrite INR_IZR_INZ. assert (N0 : 1 <= IZR n) by (apply IZR_le; lia).
    apply Z.abs_lt in H as [H1 H2]. apply IZR_lt in H1, H2.
    rewrite opp_IZR, minus_IZR, !mult_IZR in H1. rewrite minus_IZR, !mult_IZR in H2.
    change (IZR (2 ^ 24)) with 16777216 in *. set (m := IZR (Z.of_nat c)) in *. clearbody m.
    replace (m / 2 ^ 23 - / IZR n) with ((2 * IZR n * m - 16777216) * / (16777216 * IZR n)) by (field; lra).
    assert (Q : 0 < / (16777216 * IZR n)) by (apply Rinv_0_lt_compat; lra).
    replace (3 / 2 ^ 24) with (3 * IZR n * / (16777216 * IZR n)) by (field; lra).
    rewrite Rabs_mult, (Rabs_pos_eq (/ _)) by lra. apply Rmult_lt_compat_r; [exact Q|]. apply Rabs_def1; lra.
Qed.
(** Every light is chosen with probability 1/n up to 3/2^24, and the pmf stored is 1/n up to rounding. *)
Theorem C172_fair : forall n i, (1 <= n <= 2 ^ 24)%Z -> (0 <= i < n)%Z ->
  Rabs (INR (count (fun k => (f_index n (draw k) =? i)%Z)) / 2 ^ 23 - / IZR n) < 3 / 2 ^ 24 /\
  is_finite (f_pmf n) = true /\ Rabs (B2R (f_pmf n) - / IZR n) <= u32 * / IZR n + tiny.
Proof.
  intros n i N I. split.
  - apply fair_real; [lia|]. now apply index_count.
  - destruct (fZ_small n) as [B G]; [lia|]. destruct f1_1 as [A F]. assert (N0 : 1 <= IZR n) by (apply IZR_le; lia).
    assert (V : B2R f1 / B2R (fZ n) = / IZR n) by (rewrite A, B; unfold Rdiv; ring).
    assert (R1 : 0 < / IZR n <= 1) by (split; [apply Rinv_0_lt_compat; lra|rewrite <- Rinv_1; apply Rinv_le_contravar; lra]).
    destruct (fdiv_ok f1 (fZ n) F) as [D E].
    + rewrite B. lra.
    + rewrite V. apply (rnd_bound _ 1); [lia|]. rewrite Rabs_pos_eq; lra.
    + split; [exact E|]. unfold f_pmf. rewrite D, V. rewrite <- (Rabs_pos_eq (/ IZR n)) at 3 by lra. apply rnd_err.
Qed.
Print Assumptions C172_fair.
Lemma some_filter {A} (p : A -> bool) l : (0 < length (filter p l))%nat -> exists a, In a l /\ p a = true.
Proof. induction l as [|a l IH]; simpl; [lia|]. destruct (p a) eqn:E; [eauto|]. intros H. destruct (IH H) as (b & ? & ?). eauto. Qed.
Lemma some_upto n p : (0 < count_upto n p)%nat -> exists k, (0 <= k < Z.of_nat n)%Z /\ p k = true.
Proof.
  intros H. apply some_filter in H as (k & J & Q). exists k. split; [|exact Q].
  apply in_map_iff in J as (m & M & S). apply in_seq in S. lia.
Qed.
Lemma some_draw p : (0 < count p)%nat -> exists k, (0 <= k < 2 ^ 23)%Z /\ p k = true.
Proof. intros H. apply some_upto in H as (k & J & Q). exists k. split; [|exact Q]. rewrite Z2Nat.id in J by lia. exact J. Qed.
Lemma count_pos n (c : nat) : (1 <= n <= 2 ^ 22)%Z -> (Z.abs (2 * n * Z.of_nat c - 2 ^ 24) < 3 * n)%Z -> (0 < c)%nat.
Proof. intros N H. destruct c; [exfalso; rewrite Z.mul_0_r in H; lia|lia]. Qed.
(** so with at most 2^22 lights every one of them can be chosen *)
Theorem C172_reachable : forall n i, (1 <= n <= 2 ^ 22)%Z -> (0 <= i < n)%Z -> exists k, (0 <= k < 2 ^ 23)%Z /\ f_index n (draw k) = i.
Proof.
  intros n i N I. destruct (some_draw (fun k => (f_index n (draw k) =? i)%Z)) as (k & K & Q).
  - apply (count_pos n); [lia|]. apply index_count; lia.
  - exists k. split; [exact K|]. now apply Z.eqb_eq.
Qed.
Print Assumptions C172_reachable.
Example C172_case : (1 <= 3 <= 2 ^ 22)%Z /\ (0 <= 2 < 3)%Z /\ f_index 3 (draw (2 ^ 23 - 1)) = 2%Z.
Proof.
  split; [lia|]. split; [lia|]. pose proof (index_lt 3 (2 ^ 23 - 1) ltac:(lia) ltac:(lia)).
  pose proof (reach_hi 3 (2 ^ 23 - 1) 2 ltac:(lia) ltac:(lia) ltac:(lia) ltac:(lia)). lia.
Qed.

(** ** C173: the seeds of the tiles *)
(** Every draw gives a seed in [0, 10^8), and different draws give different seeds, in order. *)
Theorem C173_seeds : forall k, (0 <= k < 2 ^ 23)%Z ->
  (0 <= f_seed (draw k) < 100000000)%Z /\ forall k', (k < k' < 2 ^ 23)%Z -> (f_seed (draw k) < f_seed (draw k'))%Z.
Proof. intros k K. split; [now apply seed_range|]. intros k' K'. apply seed_step; lia. Qed.
Print Assumptions C173_seeds.
Theorem C173_injective : forall k k', (0 <= k < 2 ^ 23)%Z -> (0 <= k' < 2 ^ 23)%Z -> f_seed (draw k) = f_seed (draw k') -> k = k'.
Proof.
  intros k k' K K' E. destruct (Z.lt_trichotomy k k') as [L|[L|L]]; [|exact L|].
  - pose proof (seed_step k k' ltac:(lia) ltac:(lia)). lia.
  - pose proof (seed_step k' k ltac:(lia) ltac:(lia)). lia.
Qed.
Print Assumptions C173_injective.
Example C173_case : B2R (draw 4194304) = / 2 /\ f_seed (draw 4194304) = 50000000%Z.
Proof.
  destruct (draw_value 4194304 ltac:(lia)) as [A B]. split; [rewrite A; simpl; lra|].
  destruct (seed_prod 4194304 ltac:(lia)) as (P & _). unfold f_seed. rewrite P.
  replace (IZR 4194304 * (100000000 / 8388608)) with (IZR 390625 * bpow radix2 7) by (simpl; lra).
  rewrite rnd_id by (apply fmt_Ze; lia). replace (IZR 390625 * bpow radix2 7) with (IZR 50000000) by (simpl; lra). apply Ztrunc_IZR.
Qed.

(** ** C174: shadow rays stop before the light, secondary rays start after the surface *)
(** exactly up to the distance 2^15 *)
Theorem C174_stops_before : forall d, is_finite d = true -> 0 < B2R d ->
  is_finite (f_before d) = true /\ (B2R (f_before d) < B2R d <-> B2R d <= bpow radix2 15) /\ (bpow radix2 15 < B2R d -> f_before d = d).
Proof.
  intros d F P. split; [|split; [split|]].
  - destruct (Rle_or_lt (B2R d) (bpow radix2 15)) as [L|L]; [apply before_near; auto|now rewrite before_far].
  - intros H. destruct (Rle_or_lt (B2R d) (bpow radix2 15)) as [L|L]; [exact L|]. rewrite before_far in H by auto. lra.
  - intros L. apply before_near; auto.
  - now apply before_far.
Qed.
Print Assumptions C174_stops_before.
Theorem C174_starts_after : forall t, is_finite t = true -> 0 <= B2R t ->
  is_finite (f_past t) = true /\ (B2R t < B2R (f_past t) <-> B2R t < bpow radix2 15) /\ (bpow radix2 15 <= B2R t -> f_past t = t).
Proof.
  intros t F P. split; [|split; [split|]].
  - now apply past_ge.
  - intros H. destruct (Rlt_or_le (B2R t) (bpow radix2 15)) as [L|L]; [exact L|]. rewrite past_far in H by auto. lra.
  - intros L. apply past_near; auto.
  - now apply past_far.
Qed.
Print Assumptions C174_starts_after.
(** a light 40000 away is inside its own shadow ray *)
Theorem C174_far_light_refuted : exists d, is_finite d = true /\ B2R d = 40000 /\ f_before d = d /\ f_past d = d.
Proof.
  exists (fZ 40000). destruct (fZ_small 40000) as [A F]; [lia|]. split; [exact F|]. split; [exact A|].
  split; [apply before_far; auto; rewrite A; simpl; lra|apply past_far; auto; rewrite A; simpl; lra].
Qed.
Print Assumptions C174_far_light_refuted.
Example C174_case : is_finite (fZ 100) = true /\ 0 < B2R (fZ 100) <= bpow radix2 15.
Proof. destruct (fZ_small 100) as [A F]; [lia|]. split; [exact F|]. rewrite A. simpl. lra. Qed.

(** ** C175: looking through null surfaces ends *)
(** always, if surfaces are reported strictly after the start of the ray *)
Theorem C175_open : forall l hit near, on_ray l -> open_hits l hit -> exists r, f_walk hit (S (length l)) near = Ok r.
Proof. intros l hit near O C. apply (walk_open l); auto. pose proof (after_le near l). lia. Qed.
Print Assumptions C175_open.
(** if surfaces at the start are reported too: when all null surfaces are nearer than 2^15 *)
Theorem C175_closed : forall l hit near, on_ray l -> closed_hits l hit -> (forall t, In (t, true) l -> B2R t < bpow radix2 15) ->
  exists r, f_walk hit (S (length l)) near = Ok r.
Proof. intros l hit near O C N. apply (walk_closed l); auto. pose proof (later_le near l). lia. Qed.
Print Assumptions C175_closed.
(** the answer is a solid surface, and the solid surfaces before it are the ones a step past a null surface jumps over *)
Theorem C175_open_found : forall l hit near fuel r, on_ray l -> open_hits l hit -> f_walk hit fuel near = Ok r ->
  (forall t, r = Some t -> In (t, false) l /\ B2R near < B2R t) /\
  (forall s, In (s, false) l -> B2R near < B2R s -> (forall t, r = Some t -> B2R s < B2R t) ->
     exists n, In (n, true) l /\ B2R near < B2R n <= B2R s /\ B2R s <= B2R (f_past n)).
Proof. intros l hit near fuel r O C. now apply walk_open_found. Qed.
Print Assumptions C175_open_found.
Theorem C175_closed_found : forall l hit near fuel r, on_ray l -> closed_hits l hit -> f_walk hit fuel near = Ok r ->
  (forall t, r = Some t -> In (t, false) l /\ B2R near <= B2R t) /\
  (forall s, In (s, false) l -> B2R near <= B2R s -> (forall t, r = Some t -> B2R s < B2R t) ->
     exists n, In (n, true) l /\ B2R near <= B2R n <= B2R s /\ B2R s < B2R (f_past n)).
Proof. intros l hit near fuel r O C. now apply walk_closed_found. Qed.
Print Assumptions C175_closed_found.
(** otherwise the first null surface found at or beyond 2^15 is never passed *)
Theorem C175_far_surface_refuted : forall l hit near t, on_ray l -> closed_hits l hit -> hit near = Some (t, true) ->
  bpow radix2 15 <= B2R t -> forall fuel, f_walk hit fuel near = OutOfFuel.
Proof. intros l hit near t O C H L. now apply (walk_stuck l hit t near). Qed.
Print Assumptions C175_far_surface_refuted.
Definition one_hit (t near : f32) : option (f32 * bool) := if Rle_bool (B2R near) (B2R t) then Some (t, true) else None.
Definition one_hit_after (t near : f32) : option (f32 * bool) := if Rlt_bool (B2R near) (B2R t) then Some (t, true) else None.
Example C175_case : on_ray [(fZ 40000, true)] /\ closed_hits [(fZ 40000, true)] (one_hit (fZ 40000)) /\
  open_hits [(fZ 40000, true)] (one_hit_after (fZ 40000)) /\ one_hit (fZ 40000) feps = Some (fZ 40000, true) /\
  bpow radix2 15 <= B2R (fZ 40000).
Proof.
  destruct (fZ_small 40000) as [A F]; [lia|]. split; [|split; [|split; [|split]]].
  - split.
    + intros a [<- |[]]. cbn [fst]. split; [exact F|]. rewrite A. lra.
    + intros a b [<- |[]] [<- |[]] _. reflexivity.
  - intros near. unfold one_hit. destruct (Rle_bool_spec (B2R near) (B2R (fZ 40000))) as [L|L].
    + split; [now left|]. split; [exact L|]. intros b [<- |[]] _. apply Rle_refl.
    + intros b [<- |[]]. exact L.
  - intros near. unfold one_hit_after. destruct (Rlt_bool_spec (B2R near) (B2R (fZ 40000))) as [L|L].
    + split; [now left|]. split; [exact L|]. intros b [<- |[]] _. apply Rle_refl.
    + intros b [<- |[]]. exact L.
  - unfold one_hit. rewrite Rle_bool_true; [reflexivity|]. pose proof feps_hi as H. change (bpow radix2 (-9)) with (/ 512) in H. rewrite A. lra.
  - rewrite A. simpl. lra.
Qed.
Example C175_near_case : on_ray [(fZ 7, true)] /\ closed_hits [(fZ 7, true)] (one_hit (fZ 7)) /\ B2R (fZ 7) < bpow radix2 15.
Proof.
  destruct (fZ_small 7) as [A F]; [lia|]. split; [|split; [|rewrite A; simpl; lra]].
  - split.
    + intros a [<- |[]]. cbn [fst]. split; [exact F|]. rewrite A. lra.
    + intros a b [<- |[]] [<- |[]] _. reflexivity.
  - intros near. unfold one_hit. destruct (Rle_bool_spec (B2R near) (B2R (fZ 7))) as [L|L].
    + split; [now left|]. split; [exact L|]. intros b [<- |[]] _. apply Rle_refl.
    + intros b [<- |[]]. exact L.
Qed.
Definition solid_hit (t near : f32) : option (f32 * bool) := if Rle_bool (B2R near) (B2R t) then Some (t, false) else None.
Example C175_found_case : on_ray [(fZ 7, false)] /\ closed_hits [(fZ 7, false)] (solid_hit (fZ 7)) /\ f_walk (solid_hit (fZ 7)) 1 feps = Ok (Some (fZ 7)).
Proof.
  destruct (fZ_small 7) as [A F]; [lia|]. split; [|split].
  - split.
    + intros a [<- |[]]. cbn [fst]. split; [exact F|]. rewrite A. lra.
    + intros a b [<- |[]] [<- |[]] _. reflexivity.
  - intros near. unfold solid_hit. destruct (Rle_bool_spec (B2R near) (B2R (fZ 7))) as [L|L].
    + split; [now left|]. split; [exact L|]. intros b [<- |[]] _. apply Rle_refl.
    + intros b [<- |[]]. exact L.
  - cbn [f_walk]. unfold solid_hit. rewrite Rle_bool_true; [reflexivity|]. pose proof feps_hi as H. change (bpow radix2 (-9)) with (/ 512) in H. rewrite A. lra.
Qed.
