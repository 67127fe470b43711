From Coq Require Import ZArith List Lia Permutation ZifyBool ZifyNat.
From Verif.Base Require Import Outcome.
From Verif.Model Require Import Tiles.
From Verif.Spec Require Import TilesSpec.
Import ListNotations.
Open Scope Z_scope.
Ltac Zify.zify_post_hook ::= Z.div_mod_to_equations.

(** ** Loop starts *)

Lemma starts_ok step bound : 0 < step -> forall fuel i,
  (Z.to_nat (bound - i) <= fuel)%nat ->
  exists l, starts fuel i bound step = Ok l /\
    (forall k, nth_error l k = if (i + Z.of_nat k * step <? bound) then Some (i + Z.of_nat k * step) else None) /\
    Z.of_nat (length l) = (if i <? bound then ceil_div (bound - i) step else 0).
Proof.
  intros Hs. induction fuel as [|f IH]; intros i Hf; simpl.
  - destruct (i <? bound) eqn:E; [lia|]. exists []. split; [reflexivity|]. split; [|reflexivity].
    intros k. destruct (i + Z.of_nat k * step <? bound) eqn:E2; [nia|]. destruct k; reflexivity.
  - destruct (i <? bound) eqn:E.
    + destruct (IH (i + step) ltac:(lia)) as [l [H1 [H2 H3]]].
      rewrite H1. simpl. exists (i :: l). split; [reflexivity|]. split.
      * intros [|k]; simpl nth_error.
        { replace (i + Z.of_nat 0 * step) with i by lia. rewrite E. reflexivity. }
        { rewrite H2. replace (i + step + Z.of_nat k * step) with (i + Z.of_nat (S k) * step) by lia.
          reflexivity. }
      * cbn [length]. rewrite Nat2Z.inj_succ, H3. unfold ceil_div.
        destruct (i + step <? bound) eqn:E2.
        { replace (bound - i + step - 1) with ((bound - (i + step) + step - 1) + 1 * step) by lia.
          rewrite Z.div_add by lia. lia. }
        { apply Z.div_unique with (r := bound - i - 1); lia. }
    + exists []. split; [reflexivity|]. split; [|reflexivity].
      intros k. destruct (i + Z.of_nat k * step <? bound) eqn:E2; [nia|]. destruct k; reflexivity.
Qed.

(** ** Row and pool lists in closed form *)

Fixpoint mk_row (tw w h i : Z) (cols : list Z) (idx : Z) : list tile :=
  match cols with
  | [] => []
  | j :: c => Tile j i (Z.min (j + tw) w) (Z.min (i + tw) h) idx :: mk_row tw w h i c (idx + 1)
  end.

Fixpoint mk_pool (tw w h : Z) (rows cols : list Z) (idx : Z) : list tile :=
  match rows with
  | [] => []
  | i :: r => mk_row tw w h i cols idx ++ mk_pool tw w h r cols (idx + Z.of_nat (length cols))
  end.

Lemma push_row_mk tw w h i cols : forall ts idx,
  push_row tw w h i cols (ts, idx) =
  (ts ++ mk_row tw w h i cols idx, idx + Z.of_nat (length cols)).
Proof.
  unfold push_row. induction cols as [|j c IH]; intros ts idx.
  - simpl. rewrite app_nil_r. f_equal. lia.
  - simpl fold_left. rewrite IH. rewrite <- app_assoc. simpl mk_row. simpl app. f_equal.
    cbn [length]. lia.
Qed.

Lemma pool_fold tw w h cols rows : forall ts idx,
  starts (Z.to_nat w) 0 w tw = Ok cols ->
  foldM (fun acc i => bind (starts (Z.to_nat w) 0 w tw) (fun cols => Ok (push_row tw w h i cols acc)))
        rows (ts, idx)
  = Ok (ts ++ mk_pool tw w h rows cols idx, idx + Z.of_nat (length rows) * Z.of_nat (length cols)).
Proof.
  intros ts idx Hc. rewrite Hc. revert ts idx.
  induction rows as [|i r IH]; intros ts idx.
  - simpl. rewrite app_nil_r. do 2 f_equal. lia.
  - cbn [foldM bind]. rewrite push_row_mk. cbn [bind] in IH. rewrite IH.
    simpl mk_pool. rewrite <- app_assoc. do 2 f_equal. cbn [length]. lia.
Qed.

Lemma length_mk_row tw w h i cols : forall idx, length (mk_row tw w h i cols idx) = length cols.
Proof. induction cols; intros; simpl; auto. Qed.

Lemma nth_mk_row tw w h i cols : forall idx c,
  nth_error (mk_row tw w h i cols idx) c =
  match nth_error cols c with
  | Some j => Some (Tile j i (Z.min (j + tw) w) (Z.min (i + tw) h) (idx + Z.of_nat c))
  | None => None
  end.
Proof.
  induction cols as [|j cs IH]; intros idx c; destruct c; simpl; auto.
  - do 2 f_equal. lia.
  - rewrite IH. destruct (nth_error cs c); auto. do 2 f_equal. lia.
Qed.

Lemma length_mk_pool tw w h rows cols : forall idx,
  length (mk_pool tw w h rows cols idx) = (length rows * length cols)%nat.
Proof. induction rows; intros; simpl; auto. rewrite app_length, length_mk_row, IHrows. reflexivity. Qed.

Lemma nth_mk_pool tw w h rows cols : forall idx r c, (c < length cols)%nat ->
  nth_error (mk_pool tw w h rows cols idx) (r * length cols + c) =
  match nth_error rows r with
  | Some i => nth_error (mk_row tw w h i cols (idx + Z.of_nat r * Z.of_nat (length cols))) c
  | None => None
  end.
Proof.
  induction rows as [|i rs IH]; intros idx r c Hc.
  - simpl mk_pool. rewrite (proj2 (nth_error_None [] _)) by (simpl; lia).
    destruct r; reflexivity.
  - destruct r as [|r].
    + simpl. rewrite nth_error_app1 by (rewrite length_mk_row; lia).
      replace (idx + 0) with idx by lia. reflexivity.
    + simpl mk_pool. rewrite nth_error_app2 by (rewrite length_mk_row; simpl; lia).
      rewrite length_mk_row. replace (S r * length cols + c - length cols)%nat with (r * length cols + c)%nat by (simpl; lia).
      rewrite IH by assumption. cbn [nth_error].
      destruct (nth_error rs r); auto. f_equal. f_equal. lia.
Qed.

(** every position of the pool is row r, column c *)
Lemma nth_mk_pool_inv tw w h rows cols idx k t :
  nth_error (mk_pool tw w h rows cols idx) k = Some t ->
  exists r c i j, k = (r * length cols + c)%nat /\ (c < length cols)%nat /\
    nth_error rows r = Some i /\ nth_error cols c = Some j /\
    t = Tile j i (Z.min (j + tw) w) (Z.min (i + tw) h) (idx + Z.of_nat k).
Proof.
  intros H.
  assert (Hk : (k < length rows * length cols)%nat).
  { rewrite <- (length_mk_pool tw w h rows cols idx). apply nth_error_Some. congruence. }
  assert (Hl : (0 < length cols)%nat) by (destruct (length cols); lia).
  exists (k / length cols)%nat, (k mod length cols)%nat.
  assert (Hc : (k mod length cols < length cols)%nat) by (apply Nat.mod_upper_bound; lia).
  assert (Hdm : k = (k / length cols * length cols + k mod length cols)%nat).
  { rewrite Nat.mul_comm. apply Nat.div_mod. lia. }
  rewrite Hdm in H. rewrite nth_mk_pool in H by assumption.
  destruct (nth_error rows (k / length cols)) as [i|] eqn:Er; [|discriminate].
  rewrite nth_mk_row in H. destruct (nth_error cols (k mod length cols)) as [j|] eqn:Ec; [|discriminate].
  exists i, j. split; [assumption|]. split; [assumption|]. split; [reflexivity|]. split; [reflexivity|].
  injection H as <-. f_equal.
  rewrite <- Z.add_assoc. f_equal.
  rewrite <- Nat2Z.inj_mul, <- Nat2Z.inj_add. f_equal. symmetry. exact Hdm.
Qed.

Definition lengths_prod (rows cols : list Z) := (length rows * length cols)%nat.

Theorem initialize_pool_spec tw w h : 0 < tw -> 0 <= w -> 0 <= h ->
  exists ts, initialize_pool tw w h = Ok ts /\
    exact_partition w h ts /\
    (forall k t, nth_error ts k = Some t -> t_index t = Z.of_nat k) /\
    (forall t, In t ts -> t_minx t < t_maxx t /\ t_miny t < t_maxy t /\
                          t_maxx t - t_minx t <= tw /\ t_maxy t - t_miny t <= tw) /\
    Z.of_nat (length ts) = ceil_div w tw * ceil_div h tw.
Proof.
  intros Htw Hw Hh.
  destruct (starts_ok tw h Htw (Z.to_nat h) 0 ltac:(lia)) as [rows [R1 [R2 R3]]].
  destruct (starts_ok tw w Htw (Z.to_nat w) 0 ltac:(lia)) as [cols [C1 [C2 C3]]].
  exists (mk_pool tw w h rows cols 0).
  assert (Hr : Z.of_nat (length rows) = ceil_div h tw).
  { rewrite R3. destruct (0 <? h) eqn:E; [f_equal; lia|].
    unfold ceil_div. apply Z.div_unique with (r := h + tw - 1); lia. }
  assert (Hcl : Z.of_nat (length cols) = ceil_div w tw).
  { rewrite C3. destruct (0 <? w) eqn:E; [f_equal; lia|].
    unfold ceil_div. apply Z.div_unique with (r := w + tw - 1); lia. }
  assert (Hin : forall k t, nth_error (mk_pool tw w h rows cols 0) k = Some t ->
     exists r c, k = (r * length cols + c)%nat /\ (c < length cols)%nat /\
       Z.of_nat r * tw < h /\ Z.of_nat c * tw < w /\
       t = Tile (Z.of_nat c * tw) (Z.of_nat r * tw) (Z.min (Z.of_nat c * tw + tw) w)
                (Z.min (Z.of_nat r * tw + tw) h) (Z.of_nat k)).
  { intros k t H. apply nth_mk_pool_inv in H. destruct H as [r [c [i [j [H1 [H2 [H3 [H4 H5]]]]]]]].
    exists r, c. rewrite R2 in H3. rewrite C2 in H4. simpl in H3, H4.
    destruct (Z.of_nat r * tw <? h) eqn:E1; [|discriminate].
    destruct (Z.of_nat c * tw <? w) eqn:E2; [|discriminate].
    injection H3 as <-. injection H4 as <-. repeat split; auto; lia. }
  split; [|split; [|split; [|split]]].
  - unfold initialize_pool. rewrite R1. cbn [bind].
    rewrite (pool_fold tw w h cols rows [] 0 C1). reflexivity.
  - split.
    + intros x y [Hx Hy].
      set (r := Z.to_nat (y / tw)). set (c := Z.to_nat (x / tw)).
      assert (Hry : Z.of_nat r = y / tw) by (unfold r; rewrite Z2Nat.id; [reflexivity|apply Z.div_pos; lia]).
      assert (Hcx : Z.of_nat c = x / tw) by (unfold c; rewrite Z2Nat.id; [reflexivity|apply Z.div_pos; lia]).
      assert (Hym : y = tw * (y / tw) + y mod tw /\ 0 <= y mod tw < tw)
        by (split; [apply Z.div_mod; lia|apply Z.mod_pos_bound; lia]).
      assert (Hxm : x = tw * (x / tw) + x mod tw /\ 0 <= x mod tw < tw)
        by (split; [apply Z.div_mod; lia|apply Z.mod_pos_bound; lia]).
      assert (Ec : nth_error cols c = Some (Z.of_nat c * tw)).
      { rewrite C2. simpl. destruct (Z.of_nat c * tw <? w) eqn:E; [reflexivity|]. nia. }
      assert (Er : nth_error rows r = Some (Z.of_nat r * tw)).
      { rewrite R2. simpl. destruct (Z.of_nat r * tw <? h) eqn:E; [reflexivity|]. nia. }
      assert (Hc : (c < length cols)%nat) by (apply nth_error_Some; congruence).
      exists (r * length cols + c)%nat. split.
      * eexists. split.
        { rewrite nth_mk_pool by assumption. rewrite Er, nth_mk_row, Ec. reflexivity. }
        { unfold covers. simpl. rewrite Hry, Hcx. nia. }
      * intros k' [t' [Hk' [[Hcx1 Hcx2] [Hcy1 Hcy2]]]].
        apply Hin in Hk'. destruct Hk' as [r' [c' [-> [Hc' [Hr1 [Hc1 ->]]]]]].
        simpl in Hcx1, Hcx2, Hcy1, Hcy2.
        assert (Z.of_nat r' = y / tw) by (apply Z.div_unique with (r := y - tw * Z.of_nat r'); lia).
        assert (Z.of_nat c' = x / tw) by (apply Z.div_unique with (r := x - tw * Z.of_nat c'); lia).
        replace r' with r by lia. replace c' with c by lia. reflexivity.
    + intros t x y Ht [Hx Hy]. apply In_nth_error in Ht. destruct Ht as [k Hk].
      apply Hin in Hk. destruct Hk as [r [c [_ [_ [H1 [H2 ->]]]]]]. simpl in *.
      unfold in_film. nia.
  - intros k t H. apply Hin in H. destruct H as [r [c [_ [_ [_ [_ ->]]]]]]. reflexivity.
  - intros t Ht. apply In_nth_error in Ht. destruct Ht as [k Hk]. apply Hin in Hk.
    destruct Hk as [r [c [_ [_ [H1 [H2 ->]]]]]]. simpl. lia.
  - rewrite length_mk_pool. rewrite Nat2Z.inj_mul. rewrite Hr, Hcl. lia.
Qed.
