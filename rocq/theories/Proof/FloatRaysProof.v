From Coq Require Import ZArith Reals List Bool Lia Lra Psatz.
From Flocq Require Import Core BinarySingleNaN.
From Verif.Base Require Import Outcome F32.
From Verif.Model Require Import FloatRays.
From Verif.Spec Require Import FloatRaysSpec.
From Verif.Proof Require Import FloatFilmProof.
Import ListNotations.
Open Scope R_scope.

Notation fexp32 := (FLT_exp (-149) 24).
Local Notation ulp32 := (ulp radix2 fexp32).

(** ** spacing *)
Lemma ulp_upto x e : 0 < x -> x < bpow radix2 e -> (-125 <= e)%Z -> ulp32 x <= bpow radix2 (e - 24).
Proof.
  intros P L E. rewrite ulp_neq_0 by lra. apply bpow_le. unfold cexp, FLT_exp.
  assert (mag radix2 x <= e)%Z by (apply mag_le_bpow; [lra|rewrite Rabs_pos_eq; lra]). lia.
Qed.
Lemma ulp_from x e : bpow radix2 e <= x -> (-126 <= e)%Z -> bpow radix2 (e - 23) <= ulp32 x.
Proof.
  intros L E. pose proof (bpow_gt_0 radix2 e). rewrite ulp_neq_0 by lra. apply bpow_le. unfold cexp, FLT_exp.
  assert (e < mag radix2 x)%Z by (apply mag_gt_bpow; rewrite Rabs_pos_eq; lra). lia.
Qed.
Lemma ulp_0 : ulp32 0 <= bpow radix2 (-149).
Proof. rewrite ulp_FLT_0; [lra|exact prec24]. Qed.

Lemma near_le u v : fmt u -> v < (u + succ radix2 fexp32 u) / 2 -> rnd v <= u.
Proof. intros F H. apply round_N_le_midp; auto with typeclass_instances. Qed.
Lemma near_ge u v : fmt u -> (pred radix2 fexp32 u + u) / 2 < v -> u <= rnd v.
Proof. intros F H. apply round_N_ge_midp; auto with typeclass_instances. now rewrite Rplus_comm. Qed.

(** ** Epsilon *)
Lemma feps_value : B2R feps = 8589935 * bpow radix2 (-33) /\ is_finite feps = true.
Proof. apply f_of_small; lia. Qed.
Lemma feps_lo : bpow radix2 (-10) < B2R feps.
Proof. rewrite (proj1 feps_value). simpl. lra. Qed.
Lemma feps_hi : B2R feps < bpow radix2 (-9).
Proof. rewrite (proj1 feps_value). simpl. lra. Qed.

Lemma past_far t : is_finite t = true -> bpow radix2 15 <= B2R t -> f_past t = t.
Proof.
  intros F L. pose proof feps_hi as H. pose proof feps_lo as H'. pose proof (bpow_gt_0 radix2 (-10)).
  assert (E : rnd (B2R t + B2R feps) = B2R t).
  { apply Rle_antisym; [|apply rnd_ge_fmt; [apply fmt_of|lra]].
    apply near_le; [apply fmt_of|]. rewrite succ_eq_pos by (pose proof (bpow_gt_0 radix2 15); lra).
    pose proof (ulp_from (B2R t) 15 L ltac:(lia)) as U. change (15 - 23)%Z with (-8)%Z in U.
    replace (bpow radix2 (-8)) with (2 * bpow radix2 (-9)) in U by (simpl; lra). lra. }
  destruct (fadd_ok t feps F (proj2 feps_value)) as [A B].
  { rewrite E. apply small. }
  apply value_inj; auto.
  - etransitivity; [exact A|exact E].
  - intros Q. assert (W : B2R (f_past t) = B2R t) by (etransitivity; [exact A|exact E]). rewrite W in Q.
    pose proof (bpow_gt_0 radix2 15). lra.
Qed.

Lemma past_near t : is_finite t = true -> 0 <= B2R t < bpow radix2 15 ->
  is_finite (f_past t) = true /\ B2R t < B2R (f_past t).
Proof.
  intros F [P L]. pose proof feps_lo as H. pose proof feps_hi as H'.
  assert (S : succ radix2 fexp32 (B2R t) <= rnd (B2R t + B2R feps)).
  { apply near_ge; [apply generic_format_succ; auto with typeclass_instances; apply fmt_of|].
    rewrite pred_succ by (auto with typeclass_instances; apply fmt_of). rewrite succ_eq_pos by exact P.
    assert (U : ulp32 (B2R t) <= bpow radix2 (-9)).
    { destruct (Rle_lt_or_eq_dec _ _ P) as [Q|Q].
      - apply (ulp_upto _ 15); auto. lia.
      - rewrite <- Q. eapply Rle_trans; [apply ulp_0|]. apply bpow_le. lia. }
    replace (bpow radix2 (-9)) with (2 * bpow radix2 (-10)) in U by (simpl; lra). lra. }
  assert (T : B2R t < succ radix2 fexp32 (B2R t)).
  { destruct (Rle_lt_or_eq_dec _ _ P) as [Q|Q].
    - apply succ_gt_id. lra.
    - rewrite <- Q, succ_0, ulp_FLT_0 by exact prec24. apply bpow_gt_0. }
  destruct (fadd_ok t feps F (proj2 feps_value)) as [A B].
  { apply (rnd_bound _ (2 ^ 16)); [lia|]. change (bpow radix2 15) with 32768 in L. change (IZR (2 ^ 16)) with 65536.
    change (bpow radix2 (-9)) with (/ 512) in H'. rewrite Rabs_pos_eq; [lra|].
    pose proof (bpow_gt_0 radix2 (-10)). lra. }
  split; [exact B|]. unfold f_past. rewrite A. lra.
Qed.

Lemma past_ge t : is_finite t = true -> 0 <= B2R t -> is_finite (f_past t) = true /\ B2R t <= B2R (f_past t).
Proof.
  intros F P. destruct (Rlt_or_le (B2R t) (bpow radix2 15)) as [L|L].
  - destruct (past_near t F (conj P L)). split; auto. lra.
  - rewrite (past_far t F L). split; [exact F|lra].
Qed.

Lemma before_far d : is_finite d = true -> bpow radix2 15 < B2R d -> f_before d = d.
Proof.
  intros F L. pose proof feps_hi as H. pose proof feps_lo as H'. pose proof (bpow_gt_0 radix2 (-10)).
  pose proof (bpow_gt_0 radix2 15) as B15.
  assert (E : rnd (B2R d - B2R feps) = B2R d).
  { apply Rle_antisym; [apply rnd_le_fmt; [apply fmt_of|lra]|].
    apply near_ge; [apply fmt_of|].
    assert (PG : bpow radix2 15 <= pred radix2 fexp32 (B2R d)).
    { apply pred_ge_gt; auto with typeclass_instances; [apply generic_format_bpow; unfold FLT_exp; lia|apply fmt_of]. }
    pose proof (pred_plus_ulp radix2 fexp32 (B2R d) ltac:(lra) (fmt_of d)) as PU.
    pose proof (ulp_from _ 15 PG ltac:(lia)) as U. change (15 - 23)%Z with (-8)%Z in U.
    replace (bpow radix2 (-8)) with (2 * bpow radix2 (-9)) in U by (simpl; lra). lra. }
  destruct (fsub_ok d feps F (proj2 feps_value)) as [A B].
  { rewrite E. apply small. }
  assert (W : B2R (f_before d) = B2R d) by (etransitivity; [exact A|exact E]).
  apply value_inj; auto. intros Q. rewrite W in Q. lra.
Qed.

Lemma before_near d : is_finite d = true -> 0 < B2R d <= bpow radix2 15 ->
  is_finite (f_before d) = true /\ B2R (f_before d) < B2R d.
Proof.
  intros F [P L]. pose proof feps_lo as H. pose proof feps_hi as H'.
  assert (S : rnd (B2R d - B2R feps) <= pred radix2 fexp32 (B2R d)).
  { apply near_le; [apply generic_format_pred; auto with typeclass_instances; apply fmt_of|].
    rewrite succ_pred by (auto with typeclass_instances; apply fmt_of).
    pose proof (pred_plus_ulp radix2 fexp32 (B2R d) P (fmt_of d)) as PU.
    assert (PL : pred radix2 fexp32 (B2R d) < B2R d) by (apply pred_lt_id; lra).
    assert (PG : 0 <= pred radix2 fexp32 (B2R d)) by (apply pred_ge_0; auto with typeclass_instances; apply fmt_of).
    assert (U : ulp32 (pred radix2 fexp32 (B2R d)) <= bpow radix2 (-9)).
    { destruct (Rle_lt_or_eq_dec _ _ PG) as [Q|Q].
      - apply (ulp_upto _ 15); [exact Q|lra|lia].
      - rewrite <- Q. eapply Rle_trans; [apply ulp_0|]. apply bpow_le. lia. }
    replace (bpow radix2 (-9)) with (2 * bpow radix2 (-10)) in U by (simpl; lra). lra. }
  assert (PL : pred radix2 fexp32 (B2R d) < B2R d) by (apply pred_lt_id; lra).
  destruct (fsub_ok d feps F (proj2 feps_value)) as [A B].
  { apply (rnd_bound _ (2 ^ 16)); [lia|]. change (bpow radix2 15) with 32768 in L. change (IZR (2 ^ 16)) with 65536.
    change (bpow radix2 (-9)) with (/ 512) in H'. pose proof (bpow_gt_0 radix2 (-10)). apply Rabs_le. lra. }
  split; [exact B|]. unfold f_before. rewrite A. lra.
Qed.

(** ** walking through null surfaces *)
Definition later (near : f32) (l : list (f32 * bool)) : nat := length (filter (fun a => Rle_bool (B2R near) (B2R (fst a))) l).
Lemma filter_sub {A} (p q : A -> bool) l : (forall a, In a l -> p a = true -> q a = true) -> (length (filter p l) <= length (filter q l))%nat.
Proof.
  induction l as [|a l IH]; simpl; intros H; [lia|]. specialize (IH (fun b I => H b (or_intror I))).
  destruct (p a) eqn:P; [rewrite (H a (or_introl eq_refl) P); simpl; lia|]. destruct (q a); simpl; lia.
Qed.
Lemma filter_strict {A} (p q : A -> bool) l b : (forall a, In a l -> p a = true -> q a = true) -> In b l -> p b = false -> q b = true ->
  (length (filter p l) < length (filter q l))%nat.
Proof.
  induction l as [|a l IH]; simpl; intros H I P Q; [easy|]. destruct I as [E|I].
  - subst. rewrite P, Q. simpl. assert (length (filter p l) <= length (filter q l))%nat by (apply filter_sub; auto). lia.
  - specialize (IH (fun b I => H b (or_intror I)) I P Q). destruct (p a) eqn:PA.
    + rewrite (H a (or_introl eq_refl) PA). simpl. lia.
    + destruct (q a); simpl; lia.
Qed.
Lemma later_le near l : (later near l <= length l)%nat.
Proof. unfold later. induction l; simpl; [lia|]. destruct (Rle_bool _ _); simpl; lia. Qed.

Lemma walk_closed l hit : on_ray l -> closed_hits l hit -> (forall t, In (t, true) l -> B2R t < bpow radix2 15) ->
  forall fuel near, (later near l < fuel)%nat -> exists r, f_walk hit fuel near = Ok r.
Proof.
  intros [FI _] C N. induction fuel as [|k IH]; intros near L; [lia|]. cbn [f_walk].
  pose proof (C near) as H. destruct (hit near) as [[t []]|]; [|eauto|eauto]. destruct H as (I & G & _). cbn [fst] in G.
  apply IH. apply Nat.lt_le_trans with (later near l); [|lia].
  destruct (FI _ I) as [F P]. cbn [fst] in F, P. destruct (past_near t F) as [_ Q]; [split; [lra|now apply N]|].
  apply (filter_strict _ _ l (t, true)).
  - intros a _ A. apply Rle_bool_true. destruct (Rle_or_lt (B2R (f_past t)) (B2R (fst a))) as [B|B]; [exact (Rle_trans _ _ _ G (Rle_trans _ _ _ (Rlt_le _ _ Q) B))|]. rewrite Rle_bool_false in A by exact B. discriminate.
  - exact I.
  - apply Rle_bool_false. exact Q.
  - apply Rle_bool_true. exact G.
Qed.
Definition after (near : f32) (l : list (f32 * bool)) : nat := length (filter (fun a => Rlt_bool (B2R near) (B2R (fst a))) l).
Lemma after_le near l : (after near l <= length l)%nat.
Proof. unfold after. induction l; simpl; [lia|]. destruct (Rlt_bool _ _); simpl; lia. Qed.
Lemma walk_open l hit : on_ray l -> open_hits l hit ->
  forall fuel near, (after near l < fuel)%nat -> exists r, f_walk hit fuel near = Ok r.
Proof.
  intros [FI _] C. induction fuel as [|k IH]; intros near L; [lia|]. cbn [f_walk].
  pose proof (C near) as H. destruct (hit near) as [[t []]|]; [|eauto|eauto]. destruct H as (I & G & _). cbn [fst] in G.
  apply IH. apply Nat.lt_le_trans with (after near l); [|lia].
  destruct (FI _ I) as [F P]. cbn [fst] in F, P. destruct (past_ge t F) as [_ Q]; [lra|].
  apply (filter_strict _ _ l (t, true)).
  - intros a _ A. apply Rlt_bool_true. destruct (Rle_or_lt (B2R (fst a)) (B2R (f_past t))) as [B|B]; [|exact (Rlt_trans _ _ _ G (Rle_lt_trans _ _ _ Q B))]. rewrite Rlt_bool_false in A by exact B. discriminate.
  - exact I.
  - apply Rlt_bool_false. exact Q.
  - apply Rlt_bool_true. exact G.
Qed.
Lemma walk_stuck l hit t near : on_ray l -> closed_hits l hit -> hit near = Some (t, true) -> bpow radix2 15 <= B2R t ->
  forall fuel, f_walk hit fuel near = OutOfFuel.
Proof.
  intros [FI DI] C H L.
  assert (I : In (t, true) l) by (pose proof (C near) as Q; rewrite H in Q; tauto).
  destruct (FI _ I) as [F P]. cbn [fst] in F, P.
  assert (HT : hit t = Some (t, true)).
  { pose proof (C t) as Q. destruct (hit t) as [a|].
    - destruct Q as (J & G & M). f_equal. apply DI; auto. cbn [fst]. apply Rle_antisym; [|exact G].
      apply (M (t, true) I). cbn [fst]. lra.
    - specialize (Q _ I). cbn [fst] in Q. lra. }
  assert (S : forall fuel, f_walk hit fuel t = OutOfFuel).
  { induction fuel; [reflexivity|]. cbn [f_walk]. rewrite HT, past_far by auto. exact IHfuel. }
  intros [|k]; [reflexivity|]. cbn [f_walk]. rewrite H, past_far by auto. apply S.
Qed.

Lemma walk_closed_found l hit : on_ray l -> closed_hits l hit -> forall fuel near r, f_walk hit fuel near = Ok r ->
  (forall t, r = Some t -> In (t, false) l /\ B2R near <= B2R t) /\
  (forall s, In (s, false) l -> B2R near <= B2R s -> (forall t, r = Some t -> B2R s < B2R t) ->
     exists n, In (n, true) l /\ B2R near <= B2R n <= B2R s /\ B2R s < B2R (f_past n)).
Proof.
  intros [FI _] C. induction fuel as [|k IH]; intros near r; cbn [f_walk]; [discriminate|].
  pose proof (C near) as H. destruct (hit near) as [[n []]|].
  - destruct H as (I & G & M). cbn [fst] in G, M. intros W. apply IH in W as [W1 W2].
    destruct (FI _ I) as [F P]. cbn [fst] in F, P. destruct (past_ge n F) as [_ Q]; [lra|]. split.
    + intros t E. destruct (W1 t E). split; [assumption|lra].
    + intros s S L T. specialize (M _ S L). cbn [fst] in M.
      destruct (Rlt_or_le (B2R s) (B2R (f_past n))) as [A|A]; [exists n; auto|].
      destruct (W2 s S A T) as (n' & I' & B & D). exists n'. split; [exact I'|]. split; [lra|exact D].
  - destruct H as (I & G & M). cbn [fst] in G, M. intros [= <-]. split.
    + intros t [= <-]. auto.
    + intros s S L T. specialize (M _ S L). specialize (T n eq_refl). cbn [fst] in M. lra.
  - intros [= <-]. split; [discriminate|]. intros s S L _. specialize (H _ S). cbn [fst] in H. lra.
Qed.
Lemma walk_open_found l hit : on_ray l -> open_hits l hit -> forall fuel near r, f_walk hit fuel near = Ok r ->
  (forall t, r = Some t -> In (t, false) l /\ B2R near < B2R t) /\
  (forall s, In (s, false) l -> B2R near < B2R s -> (forall t, r = Some t -> B2R s < B2R t) ->
     exists n, In (n, true) l /\ B2R near < B2R n <= B2R s /\ B2R s <= B2R (f_past n)).
Proof.
  intros [FI _] C. induction fuel as [|k IH]; intros near r; cbn [f_walk]; [discriminate|].
  pose proof (C near) as H. destruct (hit near) as [[n []]|].
  - destruct H as (I & G & M). cbn [fst] in G, M. intros W. apply IH in W as [W1 W2].
    destruct (FI _ I) as [F P]. cbn [fst] in F, P. destruct (past_ge n F) as [_ Q]; [lra|]. split.
    + intros t E. destruct (W1 t E). split; [assumption|lra].
    + intros s S L T. specialize (M _ S L). cbn [fst] in M.
      destruct (Rle_or_lt (B2R s) (B2R (f_past n))) as [A|A]; [exists n; auto|].
      destruct (W2 s S A T) as (n' & I' & B & D). exists n'. split; [exact I'|]. split; [lra|exact D].
  - destruct H as (I & G & M). cbn [fst] in G, M. intros [= <-]. split.
    + intros t [= <-]. auto.
    + intros s S L T. specialize (M _ S L). specialize (T n eq_refl). cbn [fst] in M. lra.
  - intros [= <-]. split; [discriminate|]. intros s S L _. specialize (H _ S). cbn [fst] in H. lra.
Qed.

(** ** choosing one of n *)
Lemma draw_value k : (0 <= k < 2 ^ 23)%Z -> B2R (draw k) = IZR k * bpow radix2 (-23) /\ is_finite (draw k) = true.
Proof. intros H. apply f_of_small; lia. Qed.
Lemma prod_value n k : (1 <= n <= 2 ^ 24)%Z -> (0 <= k < 2 ^ 23)%Z ->
  B2R (fmul (draw k) (fZ n)) = rnd (IZR k * IZR n * bpow radix2 (-23)) /\ 0 <= IZR k * IZR n * bpow radix2 (-23).
Proof.
  intros N K. destruct (draw_value k K) as [A F]. destruct (fZ_small n) as [B G]; [lia|].
  assert (0 <= IZR k * IZR n) by (apply Rmult_le_pos; apply IZR_le; lia).
  assert (P : 0 <= IZR k * IZR n * bpow radix2 (-23)) by (apply Rmult_le_pos; [assumption|apply bpow_ge_0]).
  split; [|exact P]. replace (IZR k * IZR n * bpow radix2 (-23)) with (B2R (draw k) * B2R (fZ n)) in P |- * by (rewrite A, B; ring).
  apply fmul_ok; auto. apply (rnd_bound _ (2 ^ 24)); [lia|]. rewrite Rabs_pos_eq by exact P. rewrite A, B.
  assert (IZR k * bpow radix2 (-23) <= 1).
  { assert (IZR k <= IZR (2 ^ 23)) by (apply IZR_le; lia). change (IZR (2 ^ 23)) with 8388608 in H0. simpl. lra. }
  assert (0 <= IZR n <= IZR (2 ^ 24)) by (split; apply IZR_le; lia). nra.
Qed.
(** the product reaches i exactly from about i*2^23/n on *)
Lemma reach_hi n k i : (1 <= n <= 2 ^ 24)%Z -> (0 <= k < 2 ^ 23)%Z -> (0 <= i <= n)%Z ->
  (i * 2 ^ 23 <= k * n)%Z -> (i <= f_index n (draw k))%Z.
Proof.
  intros N K I H. destruct (prod_value n k N K) as [A P]. unfold f_index. rewrite A.
  assert (G : IZR i <= rnd (IZR k * IZR n * bpow radix2 (-23))).
  { apply rnd_ge_fmt; [apply fmt_Z; lia|]. rewrite <- mult_IZR. apply IZR_le in H. rewrite mult_IZR in H.
    change (IZR (2 ^ 23)) with 8388608 in H. simpl. lra. }
  rewrite Ztrunc_floor by (apply Rle_trans with (IZR i); [apply IZR_le; lia|exact G]). now apply le_floor.
Qed.
Lemma reach_lo n k i : (1 <= n <= 2 ^ 24)%Z -> (0 <= k < 2 ^ 23)%Z -> (1 <= i <= n)%Z ->
  (2 * k * n + n < i * 2 ^ 24)%Z -> (f_index n (draw k) < i)%Z.
Proof.
  intros N K I H. destruct (prod_value n k N K) as [A P]. unfold f_index. rewrite A.
  assert (F : fmt (IZR i)) by (apply fmt_Z; lia). assert (I0 : 0 < IZR i) by (apply IZR_lt; lia).
  assert (G : rnd (IZR k * IZR n * bpow radix2 (-23)) <= pred radix2 fexp32 (IZR i)).
  { apply near_le; [apply generic_format_pred; auto with typeclass_instances|].
    rewrite succ_pred by auto with typeclass_instances.
    pose proof (pred_plus_ulp radix2 fexp32 (IZR i) I0 F) as PU.
    assert (PG : 0 <= pred radix2 fexp32 (IZR i)) by (apply pred_ge_0; auto with typeclass_instances).
    assert (PL : pred radix2 fexp32 (IZR i) < IZR i) by (apply pred_lt_id; lra).
    assert (U : ulp32 (pred radix2 fexp32 (IZR i)) <= IZR n * bpow radix2 (-23)).
    { apply Rle_trans with (ulp32 (IZR i)).
      - apply ulp_le_pos; auto with typeclass_instances. lra.
      - apply Rle_trans with (Rabs (IZR i) * bpow radix2 (1 - 24)).
        + apply ulp_FLT_le. rewrite Rabs_pos_eq by lra. apply Rle_trans with 1.
          * change 1 with (bpow radix2 0). apply bpow_le. lia.
          * apply IZR_le. lia.
        + rewrite Rabs_pos_eq by lra. apply Rmult_le_compat_r; [apply bpow_ge_0|]. apply IZR_le. lia. }
    apply IZR_lt in H. rewrite plus_IZR, !mult_IZR in H. change (IZR (2 ^ 24)) with 16777216 in H.
    change (bpow radix2 (-23)) with (/ 8388608) in *. lra. }
  assert (PL : pred radix2 fexp32 (IZR i) < IZR i) by (apply pred_lt_id; lra).
  rewrite Ztrunc_floor by (rewrite <- rnd_0; now apply rnd_le).
  assert (Zfloor (rnd (IZR k * IZR n * bpow radix2 (-23))) <= i - 1)%Z; [|lia].
  apply floor_le. rewrite minus_IZR. lra.
Qed.
Lemma index_ge0 n k : (1 <= n <= 2 ^ 24)%Z -> (0 <= k < 2 ^ 23)%Z -> (0 <= f_index n (draw k))%Z.
Proof. intros N K. apply (reach_hi n k 0); auto; nia. Qed.
Lemma index_lt n k : (1 <= n <= 2 ^ 24)%Z -> (0 <= k < 2 ^ 23)%Z -> (f_index n (draw k) < n)%Z.
Proof. intros N K. apply reach_lo; auto; [lia|]. nia. Qed.

(** ** counting draws *)
Lemma count_seq (p : Z -> bool) (a b : Z) N : (forall k, (0 <= k < Z.of_nat N)%Z -> p k = true <-> (a <= k < b)%Z) ->
  (0 <= a <= b)%Z -> (b <= Z.of_nat N)%Z -> Z.of_nat (length (filter p (map Z.of_nat (seq 0 N)))) = (b - a)%Z.
Proof.
  intros H. revert a b H. induction N as [|N IH]; intros a b H A B; [simpl; lia|].
  rewrite seq_S, map_app, filter_app, app_length, Nat2Z.inj_add. cbn [Nat.add map filter].
  destruct (Z.eq_dec b (Z.of_nat (S N))) as [E|E].
  - destruct (Z.eq_dec a b) as [D|D].
    + rewrite (IH 0%Z 0%Z) by (try (intros k K; rewrite H by lia); lia).
      replace (p (Z.of_nat N)) with false; [simpl; lia|]. symmetry. destruct (p (Z.of_nat N)) eqn:Q; [|reflexivity]. apply H in Q; lia.
    + rewrite (IH a (Z.of_nat N)) by (try (intros k K; rewrite H by lia); lia).
      replace (p (Z.of_nat N)) with true; [simpl; lia|]. symmetry. apply H; lia.
  - rewrite (IH a b) by (try (intros k K; apply H; lia); lia).
    replace (p (Z.of_nat N)) with false; [simpl; lia|]. symmetry. destruct (p (Z.of_nat N)) eqn:Q; [|reflexivity]. apply H in Q; lia.
Qed.
Lemma index_mono n k k' : (1 <= n <= 2 ^ 24)%Z -> (0 <= k <= k')%Z -> (k' < 2 ^ 23)%Z -> (f_index n (draw k) <= f_index n (draw k'))%Z.
Proof.
  intros N K K'. destruct (prod_value n k N ltac:(lia)) as [A P]. destruct (prod_value n k' N ltac:(lia)) as [A' P'].
  unfold f_index. rewrite A, A'. apply Ztrunc_le, rnd_le. apply Rmult_le_compat_r; [apply bpow_ge_0|].
  apply Rmult_le_compat_r; [apply IZR_le; lia|apply IZR_le; lia].
Qed.
Lemma threshold (p : Z -> bool) N : (forall k k', (0 <= k <= k')%Z -> (k' < Z.of_nat N)%Z -> p k = true -> p k' = true) ->
  exists a, (0 <= a <= Z.of_nat N)%Z /\ forall k, (0 <= k < Z.of_nat N)%Z -> p k = true <-> (a <= k)%Z.
Proof.
  induction N as [|N IH]; intros M; [exists 0%Z; split; [simpl; lia|simpl; lia]|].
  destruct IH as (a & A & H); [intros k k' K K'; apply M; lia|].
  destruct (Z.eq_dec a (Z.of_nat N)) as [E|E].
  - destruct (p (Z.of_nat N)) eqn:Q.
    + exists a. split; [lia|]. intros k K. destruct (Z.eq_dec k (Z.of_nat N)) as [D|D]; [subst; split; auto; lia|apply H; lia].
    + exists (Z.of_nat (S N)). split; [lia|]. intros k K. destruct (Z.eq_dec k (Z.of_nat N)) as [D|D].
      * subst. rewrite Q. split; [discriminate|lia].
      * rewrite H by lia. split; lia.
  - exists a. split; [lia|]. intros k K. destruct (Z.eq_dec k (Z.of_nat N)) as [D|D]; [|apply H; lia].
    subst k. split; [lia|]. intros _. apply (M a (Z.of_nat N)); [lia|lia|]. apply H; lia.
Qed.
Lemma index_threshold n i : (1 <= n <= 2 ^ 24)%Z -> (0 <= i <= n)%Z -> exists a, (0 <= a <= 2 ^ 23)%Z /\
  (forall k, (0 <= k < 2 ^ 23)%Z -> (i <= f_index n (draw k))%Z <-> (a <= k)%Z) /\
  (i * 2 ^ 24 <= 2 * a * n + n)%Z /\ ((a - 1) * n < i * 2 ^ 23)%Z.
Proof.
  intros N I. destruct (threshold (fun k => (i <=? f_index n (draw k))%Z) (Z.to_nat (2 ^ 23))) as (a & A & H).
  { intros k k' K K' L. rewrite Z2Nat.id in K' by lia. apply Z.leb_le in L. apply Z.leb_le.
    eapply Z.le_trans; [exact L|]. apply index_mono; lia. }
  rewrite Z2Nat.id in A, H by lia.
  assert (H' : forall k, (0 <= k < 2 ^ 23)%Z -> (i <= f_index n (draw k))%Z <-> (a <= k)%Z) by (intros k K; rewrite <- Z.leb_le; now apply H).
  exists a. split; [exact A|]. split; [exact H'|]. split.
  - destruct (Z.eq_dec i 0) as [E|E]; [nia|]. destruct (Z.eq_dec a (2 ^ 23)) as [D|D]; [nia|].
    destruct (Z_lt_le_dec (2 * a * n + n) (i * 2 ^ 24)) as [L|L]; [|exact L].
    pose proof (reach_lo n a i N ltac:(lia) ltac:(lia) L). assert (i <= f_index n (draw a))%Z by (apply H'; lia). lia.
  - destruct (Z.eq_dec a 0) as [E|E]; [nia|].
    destruct (Z_lt_le_dec ((a - 1) * n) (i * 2 ^ 23)) as [L|L]; [exact L|].
    pose proof (reach_hi n (a - 1) i N ltac:(lia) I L) as G. apply H' in G; lia.
Qed.
Lemma index_count n i : (1 <= n <= 2 ^ 24)%Z -> (0 <= i < n)%Z ->
  (Z.abs (2 * n * Z.of_nat (count (fun k => (f_index n (draw k) =? i)%Z)) - 2 ^ 24) < 3 * n)%Z.
Proof.
  intros N I. destruct (index_threshold n i N ltac:(lia)) as (a & A & HA & A1 & A2).
  destruct (index_threshold n (i + 1) N ltac:(lia)) as (b & B & HB & B1 & B2).
  unfold count_upto. rewrite (count_seq _ a b).
  - nia.
  - intros k K. rewrite Z2Nat.id in K by lia. rewrite Z.eqb_eq. pose proof (HA k K). pose proof (HB k K). lia.
  - split; [lia|]. destruct (Z_le_gt_dec a b) as [L|L]; [exact L|]. exfalso.
    assert (b < 2 ^ 23)%Z by lia. pose proof (proj2 (HB b ltac:(lia)) ltac:(lia)) as Q.
    pose proof (proj1 (HA b ltac:(lia)) ltac:(lia)). lia.
  - rewrite Z2Nat.id; lia.
Qed.

(** ** seeds *)
Lemma seed_factor : B2R (fZ 100000000) = 100000000 /\ is_finite (fZ 100000000) = true.
Proof.
  replace (fZ 100000000) with (f_of 390625 8) by (apply B2SF_inj; vm_compute; reflexivity).
  destruct (f_of_small 390625 8) as [A B]; [lia|lia|]. split; [rewrite A; simpl; lra|exact B].
Qed.
Lemma seed_prod k : (0 <= k < 2 ^ 23)%Z -> let v := IZR k * (100000000 / 8388608) in
  B2R (fmul (draw k) (fZ 100000000)) = rnd v /\ Rabs (rnd v - v) <= 4 /\ 0 <= v /\ v < 100000000 - 11.
Proof.
  intros K v. destruct (draw_value k K) as [A F]. destruct seed_factor as [B G].
  assert (KR : 0 <= IZR k <= 8388607) by (split; apply IZR_le; lia).
  assert (V : B2R (draw k) * B2R (fZ 100000000) = v) by (rewrite A, B; unfold v; simpl; lra).
  assert (P : 0 <= v) by (unfold v; lra). assert (L : v < 100000000 - 11) by (unfold v; lra).
  assert (E : Rabs (rnd v - v) <= 4).
  { destruct (Rle_lt_or_eq_dec _ _ P) as [Q|Q].
    - eapply Rle_trans; [apply error_le_half_ulp; auto with typeclass_instances|].
      pose proof (ulp_upto v 27 Q) as U. assert (ulp32 v <= bpow radix2 3) by (apply U; [simpl; lra|lia]).
      change (bpow radix2 3) with 8 in H. lra.
    - rewrite <- Q, rnd_0, Rminus_0_r, Rabs_R0. lra. }
  split; [|split; [exact E|split; [exact P|exact L]]]. rewrite <- V. apply fmul_ok; auto. rewrite V.
  apply Rle_lt_trans with (Rabs (IZR (2 ^ 27))); [|apply bigZ; lia].
  change (IZR (2 ^ 27)) with 134217728. rewrite (Rabs_pos_eq 134217728) by lra.
  apply Rabs_le. apply Rabs_le_inv in E. lra.
Qed.
Lemma seed_range k : (0 <= k < 2 ^ 23)%Z -> (0 <= f_seed (draw k) < 100000000)%Z.
Proof.
  intros K. destruct (seed_prod k K) as (A & E & P & L). unfold f_seed. rewrite A.
  assert (Q : 0 <= rnd (IZR k * (100000000 / 8388608))) by (rewrite <- rnd_0; now apply rnd_le).
  rewrite Ztrunc_floor by exact Q. split; [now apply le_floor|].
  assert (Zfloor (rnd (IZR k * (100000000 / 8388608))) <= 99999999)%Z; [|lia]. apply floor_le. apply Rabs_le_inv in E. lra.
Qed.
Lemma seed_step k k' : (0 <= k < k')%Z -> (k' < 2 ^ 23)%Z -> (f_seed (draw k) < f_seed (draw k'))%Z.
Proof.
  intros K K'. destruct (seed_prod k ltac:(lia)) as (A & E & P & L). destruct (seed_prod k' ltac:(lia)) as (A' & E' & P' & L').
  unfold f_seed. rewrite A, A'. assert (IZR k + 1 <= IZR k') by (rewrite <- plus_IZR; apply IZR_le; lia).
  rewrite !Ztrunc_floor by (rewrite <- rnd_0; now apply rnd_le).
  apply Rabs_le_inv in E, E'.
  pose proof (Zfloor_lb (rnd (IZR k * (100000000 / 8388608)))). pose proof (Zfloor_ub (rnd (IZR k' * (100000000 / 8388608)))).
  apply lt_IZR. lra.
Qed.
