(** Parsed files, generated grids, recomputed normals. *)
From Coq Require Import Reals List Lra Lia ZArith String Bool.
From Coquelicot Require Import Rbar.
From Verif.Base Require Import Outcome ListLemmas.
From Verif.Model Require Import Vec Matrix Frame BBox Mesh.
From Verif.Spec Require Import LinAlgSpec BBoxSpec FrameSpec MeshSpec.
From Verif.Proof Require Import VecLemmas FrameProof BBoxProof MeshProof MeshData.
Import ListNotations.
Open Scope R_scope.

Definition obj_norm (tf : transform) (flip : bool) (n : vec3) : vec3 := normalized (if flip then vneg (tf_normal tf n) else tf_normal tf n).
Lemma parse_items tf flip f : (forall a b c, In (IF a b c) f -> corner_ok a /\ corner_ok b /\ corner_ok c) -> forall m,
  foldM (parse_line tf flip) (map line_of f) m =
  Ok (Mesh (ms_vs m ++ map (tf_point tf) (verts_of f)) (ms_ns m ++ map (obj_norm tf flip) (norms_of f)) (ms_uvs m ++ uvs_of f) (ms_tris m ++ map zero_based (faces_of f))).
Proof.
  induction f as [|i f IH]; intros C m.
  - cbn. rewrite !app_nil_r. destruct m; reflexivity.
  - cbn [map foldM]. assert (C' : forall a b c, In (IF a b c) f -> corner_ok a /\ corner_ok b /\ corner_ok c) by (intros; apply C; right; assumption).
    destruct i as [p|u v|n|a b c|]; cbn [line_of parse_line bind]; try (rewrite (IH C'); cbn; rewrite <- ?app_assoc; reflexivity).
    destruct (C a b c (or_introl eq_refl)) as (Ha&Hb&Hc).
    destruct a as [[p0 u0] n0], b as [[p1 u1] n1], c as [[p2 u2] n2]. unfold corner_ok, int_index in *. cbn [fst snd] in *.
    cbn [nth]. cbn [String.eqb negb]. unfold word_of. cbn [fst snd]. rewrite !corner_word_ok by tauto. cbn [bind]. rewrite (IH C'). cbn. rewrite <- ?app_assoc. reflexivity.
Qed.

(** ** lists filled row by row *)
Lemma rows_length {A} r0 r1 (f : nat -> nat -> A) : List.length (grid_rows r0 r1 f) = (r0 * r1)%nat.
Proof.
  unfold grid_rows. generalize 0%nat at 2. induction r1 as [|r1 IH]; intros s; [cbn; lia|]. cbn [seq flat_map]. rewrite app_length, map_length, seq_length, IH. lia.
Qed.
Lemma rows_nth {A} r0 (f : nat -> nat -> A) j : (j < r0)%nat -> forall r1 i s, (i < r1)%nat ->
  nth_error (flat_map (fun i => map (fun j => f i j) (seq 0 r0)) (seq s r1)) (i * r0 + j) = Some (f (s + i)%nat j).
Proof.
  intros J. induction r1 as [|r1 IH]; intros i s L; [lia|]. cbn [seq flat_map]. destruct i as [|i].
  - rewrite nth_error_app1 by (rewrite map_length, seq_length; lia). rewrite nth_error_map. cbn [Nat.mul plus].
    rewrite (nth_error_nth' (seq 0 r0) 0%nat) by (rewrite seq_length; lia). rewrite seq_nth by lia. cbn. do 2 f_equal. lia.
  - rewrite nth_error_app2 by (rewrite map_length, seq_length; lia). rewrite map_length, seq_length.
    replace (Datatypes.S i * r0 + j - r0)%nat with (i * r0 + j)%nat by lia. rewrite IH by lia. do 2 f_equal. lia.
Qed.
Lemma grid_rows_nth {A} r0 r1 (f : nat -> nat -> A) i j : (i < r1)%nat -> (j < r0)%nat -> nth_error (grid_rows r0 r1 f) (i * r0 + j) = Some (f i j).
Proof. intros I J. apply (rows_nth r0 f j J r1 i 0 I). Qed.
Lemma rows_map {A B} r0 r1 (f : nat -> nat -> A) (g : A -> B) : map g (grid_rows r0 r1 f) = grid_rows r0 r1 (fun i j => g (f i j)).
Proof.
  unfold grid_rows. generalize (seq 0 r1). induction l as [|i l IH]; [reflexivity|]. cbn [flat_map]. rewrite map_app, map_map, IH. reflexivity.
Qed.
Lemma rows_in {A} r0 r1 (f : nat -> nat -> A) x : In x (grid_rows r0 r1 f) <-> exists i j, (i < r1)%nat /\ (j < r0)%nat /\ x = f i j.
Proof.
  unfold grid_rows. rewrite in_flat_map. split.
  - intros (i&I&H). apply in_map_iff in H. destruct H as (j&<-&J). apply in_seq in I, J. exists i, j. repeat split; lia.
  - intros (i&j&I&J&->). exists i. split; [apply in_seq; lia|]. apply in_map_iff. exists j. split; [reflexivity|apply in_seq; lia].
Qed.
Lemma tris_in r0 r1 t : In t (grid_tris r0 r1) <-> exists i j, (1 <= i < r1)%nat /\ (1 <= j < r0)%nat /\ In t (grid_cell r0 i j).
Proof.
  unfold grid_tris. rewrite in_flat_map. split.
  - intros (i&I&H). apply in_flat_map in H. destruct H as (j&J&H). apply in_seq in I, J. exists i, j. repeat split; try lia. exact H.
  - intros (i&j&I&J&H). exists i. split; [apply in_seq; lia|]. apply in_flat_map. exists j. split; [apply in_seq; lia|exact H].
Qed.
Lemma flat_length {A} (g : nat -> list A) c n : (forall i, List.length (g i) = c) -> forall s, List.length (flat_map g (seq s n)) = (c * n)%nat.
Proof. intros G. induction n as [|n IH]; intros s; [cbn; lia|]. cbn [seq flat_map]. rewrite app_length, IH, G. lia. Qed.
Lemma tris_length r0 r1 : List.length (grid_tris r0 r1) = (2 * (r0 - 1) * (r1 - 1))%nat.
Proof. unfold grid_tris. apply flat_length. intros i. apply flat_length. reflexivity. Qed.
Lemma index_bound r0 r1 i j : (i < r1)%nat -> (j < r0)%nat -> (i * r0 + j < r0 * r1)%nat.
Proof. intros I J. assert (i * r0 + r0 <= r1 * r0)%nat by (replace (i * r0 + r0)%nat with ((Datatypes.S i) * r0)%nat by lia; apply Nat.mul_le_mono_r; lia). lia. Qed.
Lemma cell_idx r0 r1 i j t : (1 <= i < r1)%nat -> (1 <= j < r0)%nat -> In t (grid_cell r0 i j) ->
  idx_ok (r0 * r1) (vsInds t) /\ nsInds t = vsInds t /\ uvsInds t = vsInds t.
Proof.
  intros I J H. pose proof (index_bound r0 r1 (i - 1) j ltac:(lia) ltac:(lia)). pose proof (index_bound r0 r1 i j ltac:(lia) ltac:(lia)).
  pose proof (index_bound r0 r1 i (j - 1) ltac:(lia) ltac:(lia)). pose proof (index_bound r0 r1 (i - 1) (j - 1) ltac:(lia) ltac:(lia)).
  cbn [grid_cell In] in H. destruct H as [<-|[<-|[]]]; unfold idx_ok; cbn [vsInds nsInds uvsInds i_0 i_1 i_2]; (split; [|split; reflexivity]);
    repeat match goal with |- _ /\ _ => split end; first [apply Nat2Z.is_nonneg | apply Nat2Z.inj_lt; assumption].
Qed.

(** ** heights over a grid *)
Section Heights.
Variables r0 r1 : nat.
Variable X Z : nat -> R.
Variable H : nat -> nat -> R.
Hypothesis Xinc : forall j, X j < X (S j).
Hypothesis Zinc : forall i, Z i < Z (S i).
Notation V := (fun i j => V3 (X j) (H i j) (Z i)).
Notation vs := (grid_rows r0 r1 V).
Lemma vs_at i j : (i < r1)%nat -> (j < r0)%nat -> atz vs (Z.of_nat (i * r0 + j)) = Ok (V i j).
Proof. intros I J. apply atz_some; [lia|]. rewrite Nat2Z.id. apply (grid_rows_nth r0 r1 V i j I J). Qed.
(** the corners of the two triangles of a cell, with rows i, i+1 and columns j, j+1 *)
Definition cell_tri (i j : nat) (k : bool) : tri :=
  let ix a b := Z.of_nat (a * r0 + b) in
  let t := if k then I3 (ix i (S j)) (ix i j) (ix (S i) (S j)) else I3 (ix i j) (ix (S i) j) (ix (S i) (S j)) in Tri t t t.
Lemma cell_tris i j : grid_cell r0 (S i) (S j) = [cell_tri i j true; cell_tri i j false].
Proof. unfold grid_cell, cell_tri. cbn [Nat.sub]. rewrite !Nat.sub_0_r. reflexivity. Qed.
Lemma tris_cells t : In t (grid_tris r0 r1) <-> exists i j k, (S i < r1)%nat /\ (S j < r0)%nat /\ t = cell_tri i j k.
Proof.
  rewrite tris_in. split.
  - intros (i&j&I&J&K). destruct i as [|i]; [lia|]. destruct j as [|j]; [lia|]. rewrite cell_tris in K. destruct K as [<-|[<-|[]]]; exists i, j; [exists true|exists false]; repeat split; lia.
  - intros (i&j&k&I&J&->). exists (S i), (S j). rewrite cell_tris. repeat split; try lia. destruct k; cbn; auto.
Qed.
Lemma cell_corners i j k ns uvs ts : (S i < r1)%nat -> (S j < r0)%nat ->
  corners (Mesh vs ns uvs ts) (cell_tri i j k) = Ok (if k then (V i (S j), V i j, V (S i) (S j)) else (V i j, V (S i) j, V (S i) (S j))).
Proof.
  intros I J. unfold corners, cell_tri. destruct k; cbn [ms_vs vsInds i_0 i_1 i_2]; rewrite !vs_at by lia; reflexivity.
Qed.
Lemma cell_normal i j (k : bool) : let '(p0, p1, p2) := if k then (V i (S j), V i j, V (S i) (S j)) else (V i j, V (S i) j, V (S i) (S j)) in
  0 < vy (cross (vsub p1 p0) (vsub p2 p0)).
Proof.
  pose proof (Xinc j). pose proof (Zinc i). destruct k; cbn [vx vy vz vsub cross].
  - replace (_ - _) with ((X (S j) - X j) * (Z (S i) - Z i)) by ring. apply Rmult_lt_0_compat; lra.
  - replace (_ - _) with ((Z (S i) - Z i) * (X (S j) - X j)) by ring. apply Rmult_lt_0_compat; lra.
Qed.
End Heights.
Lemma tri_norm_up p0 p1 p2 : 0 < vy (cross (vsub p1 p0) (vsub p2 p0)) -> 0 < vy (tri_norm p0 p1 p2).
Proof.
  intros P. unfold tri_norm. set (n := cross (vsub p1 p0) (vsub p2 p0)) in *. destruct (Req_EM_T (sqrNorm n) 0) as [E|E].
  - apply sqrNorm_zero in E. rewrite E in P. cbn in P. lra.
  - assert (N : n <> V3 0 0 0) by (intros ->; cbn in P; lra). rewrite normalized_vdiv. cbn [vy vdiv]. apply Rdiv_lt_0_compat; [exact P|apply norm_pos, N].
Qed.

(** ** accumulating normals *)
Lemma update_len {A} (l : list A) i v : List.length (update l i v) = List.length l.
Proof. revert i. induction l as [|a l IH]; intros [|i]; cbn; congruence. Qed.
Lemma nth_update {A} (l : list A) i v k d : (i < List.length l)%nat -> nth k (update l i v) d = if Nat.eqb k i then v else nth k l d.
Proof.
  revert i k. induction l as [|a l IH]; intros [|i] [|k] L; cbn in *; try lia; try reflexivity. apply IH. lia.
Qed.
Lemma add_at_ok l i v : (0 <= i < Z.of_nat (List.length l))%Z -> exists l', add_at l i v = Ok l' /\ List.length l' = List.length l /\
  forall k d, nth k l' d = if Nat.eqb k (Z.to_nat i) then vadd (nth k l d) v else nth k l d.
Proof.
  intros B. unfold add_at. destruct (atz_ok l i B) as (a&E&N). rewrite E. cbn [bind]. unfold storez, store.
  destruct (Z.ltb_spec i (Z.of_nat (List.length l))); [|lia]. destruct (Nat.ltb_spec (Z.to_nat i) (List.length l)); [|lia].
  eexists. split; [reflexivity|]. split; [apply update_len|]. intros k d. rewrite nth_update by lia. destruct (Nat.eqb_spec k (Z.to_nat i)) as [->|]; [|reflexivity].
  f_equal. symmetry. apply nth_error_nth. exact N.
Qed.
Definition occurs (k : nat) (i : idx3) : Prop := Z.to_nat (i_0 i) = k \/ Z.to_nat (i_1 i) = k \/ Z.to_nat (i_2 i) = k.
Lemma acc_norm_ok vs ns t p0 p1 p2 : idx_ok (List.length ns) (nsInds t) ->
  atz vs (i_0 (vsInds t)) = Ok p0 -> atz vs (i_1 (vsInds t)) = Ok p1 -> atz vs (i_2 (vsInds t)) = Ok p2 -> exists ns', acc_norm vs ns t = Ok ns' /\ List.length ns' = List.length ns /\
  forall k d, exists c : nat, nth k ns' d = vadd (nth k ns d) (vscale (tri_norm p0 p1 p2) (INR c)) /\ (occurs k (nsInds t) <-> (0 < c)%nat).
Proof.
  intros (B0&B1&B2) E0 E1 E2. unfold acc_norm. rewrite E0, E1, E2. cbn [bind]. set (n := tri_norm p0 p1 p2).
  destruct (add_at_ok ns _ n B0) as (l1&A1&L1&N1). rewrite A1. cbn [bind]. rewrite <- L1 in B1. destruct (add_at_ok l1 _ n B1) as (l2&A2&L2&N2). rewrite A2. cbn [bind].
  assert (B2' : (0 <= i_2 (nsInds t) < Z.of_nat (List.length l2))%Z) by lia. destruct (add_at_ok l2 _ n B2') as (l3&A3&L3&N3). rewrite A3.
  exists l3. split; [reflexivity|]. split; [lia|]. intros k d. rewrite N3, N2, N1. unfold occurs.
  exists ((if Nat.eqb k (Z.to_nat (i_0 (nsInds t))) then 1 else 0) + (if Nat.eqb k (Z.to_nat (i_1 (nsInds t))) then 1 else 0) + (if Nat.eqb k (Z.to_nat (i_2 (nsInds t))) then 1 else 0))%nat.
  destruct (Nat.eqb_spec k (Z.to_nat (i_0 (nsInds t)))), (Nat.eqb_spec k (Z.to_nat (i_1 (nsInds t)))), (Nat.eqb_spec k (Z.to_nat (i_2 (nsInds t))));
    (split; [apply V3_eq; cbn; ring|split; [intros; lia|intros; lia]]).
Qed.
(** all triangles face up: every accumulated normal has a non-negative height, positive where a triangle touches *)
Lemma vertex_norms_up vs tris : forall ns, (forall t, In t tris -> idx_ok (List.length ns) (nsInds t) /\ exists p0 p1 p2,
    atz vs (i_0 (vsInds t)) = Ok p0 /\ atz vs (i_1 (vsInds t)) = Ok p1 /\ atz vs (i_2 (vsInds t)) = Ok p2 /\ 0 < vy (tri_norm p0 p1 p2)) ->
  exists ns', foldM (acc_norm vs) tris ns = Ok ns' /\ List.length ns' = List.length ns /\
  forall k d, vy (nth k ns d) <= vy (nth k ns' d) /\ ((exists t, In t tris /\ occurs k (nsInds t)) -> vy (nth k ns d) < vy (nth k ns' d)).
Proof.
  induction tris as [|t tris IH]; intros ns C.
  - exists ns. split; [reflexivity|]. split; [reflexivity|]. intros k d. split; [lra|]. intros (t&[]&_).
  - cbn [foldM]. destruct (C t (or_introl eq_refl)) as (B&p0&p1&p2&E0&E1&E2&U).
    destruct (acc_norm_ok vs ns t p0 p1 p2 B E0 E1 E2) as (n1&A&L&N). rewrite A. cbn [bind].
    destruct (IH n1) as (n2&A2&L2&N2). { intros t' I. rewrite L. apply C. right. exact I. }
    exists n2. split; [exact A2|]. split; [lia|]. intros k d. destruct (N k d) as (c&Nc&Oc). destruct (N2 k d) as (M1&M2).
    assert (Y : vy (nth k n1 d) = vy (nth k ns d) + vy (tri_norm p0 p1 p2) * INR c) by (rewrite Nc; reflexivity).
    pose proof (pos_INR c) as PC. pose proof (Rmult_le_pos _ _ (Rlt_le _ _ U) PC). split; [lra|]. intros (t'&[<-|I]&O).
    + apply Oc in O. apply lt_INR in O. cbn in O. pose proof (Rmult_lt_0_compat _ _ U O). lra.
    + specialize (M2 (ex_intro _ t' (conj I O))). lra.
Qed.
(** every grid vertex belongs to a triangle *)
Lemma grid_touched r0 r1 k : (2 <= r0)%nat -> (2 <= r1)%nat -> (k < r0 * r1)%nat -> exists t, In t (grid_tris r0 r1) /\ occurs k (nsInds t).
Proof.
  intros R0' R1' K. pose proof (Nat.div_mod k r0 ltac:(lia)) as D. pose proof (Nat.mod_upper_bound k r0 ltac:(lia)) as M.
  set (i := (k / r0)%nat) in *. set (j := (k mod r0)%nat) in *.
  assert (I : (i < r1)%nat) by (apply Nat.div_lt_upper_bound; lia). assert (E : k = (i * r0 + j)%nat) by lia. rewrite E. clear D E. clearbody i j.
  destruct i as [|i]; destruct j as [|j].
  - exists (cell_tri r0 0 0 true). split; [apply tris_cells; exists 0%nat, 0%nat, true; repeat split; lia|]. right. left. cbn [nsInds cell_tri i_1]. apply Nat2Z.id.
  - exists (cell_tri r0 0 j true). split; [apply tris_cells; exists 0%nat, j, true; repeat split; lia|]. left. cbn [nsInds cell_tri i_0]. apply Nat2Z.id.
  - exists (cell_tri r0 i 0 false). split; [apply tris_cells; exists i, 0%nat, false; repeat split; lia|]. right. left. cbn [nsInds cell_tri i_1]. apply Nat2Z.id.
  - exists (cell_tri r0 i j true). split; [apply tris_cells; exists i, j, true; repeat split; lia|]. right. right. cbn [nsInds cell_tri i_2]. apply Nat2Z.id.
Qed.

(** ** the grid mesh *)
Definition gx (r : nat) (j : nat) : R := (1 - -1) * INR j / INR (r - 1) + -1.
Lemma gx_inc r j : (2 <= r)%nat -> gx r j < gx r (S j).
Proof.
  intros H. unfold gx. rewrite S_INR. assert (P : 0 < INR (r - 1)) by (apply lt_0_INR; lia).
  replace ((1 - -1) * (INR j + 1) / INR (r - 1)) with ((1 - -1) * INR j / INR (r - 1) + 2 / INR (r - 1)) by (field; lra).
  assert (0 < 2 / INR (r - 1)) by (apply Rdiv_lt_0_compat; lra). lra.
Qed.
Definition heights (terrain : option (R -> R -> R)) (r0 r1 i j : nat) : R :=
  match terrain with None => 0 | Some h => 0 + h (1 / 2 * (gx r0 j + 1)) (1 / 2 * (gx r1 i + 1)) end.
Definition gverts terrain r0 r1 : list vec3 := grid_rows r0 r1 (fun i j => V3 (gx r0 j) (heights terrain r0 r1 i j) (gx r1 i)).
Lemma grid_terrain_ok terrain r0 r1 : (2 <= r0)%nat -> (2 <= r1)%nat -> exists ns,
  grid_terrain terrain (grid_flat r0 r1) = Ok (Mesh (gverts terrain r0 r1) ns (grid_rows r0 r1 (grid_uv r0 r1)) (grid_tris r0 r1)) /\
  List.length ns = (r0 * r1)%nat /\ forall n, In n ns -> 0 < vy n.
Proof.
  intros A B. destruct terrain as [h|]; cbn [grid_terrain].
  - unfold grid_flat. cbn [ms_vs ms_ns ms_uvs ms_tris]. rewrite repeat_length, rows_map.
    replace (grid_rows r0 r1 (fun i j => displace h (grid_vert r0 r1 i j))) with (gverts (Some h) r0 r1).
    2:{ reflexivity. }
    destruct (vertex_norms_up (gverts (Some h) r0 r1) (grid_tris r0 r1) (repeat (V3 0 0 0) (r0 * r1))) as (ns&E&L&P).
    { intros t T. rewrite repeat_length. split.
      - apply tris_in in T. destruct T as (i&j&I&J&T). destruct (cell_idx r0 r1 i j t I J T) as (K&->&_). exact K.
      - apply tris_cells in T. destruct T as (i&j&k&I&J&->).
        pose proof (cell_normal (gx r0) (gx r1) (heights (Some h) r0 r1) (fun j => gx_inc r0 j A) (fun i => gx_inc r1 i B) i j k) as U.
        unfold gverts, cell_tri. destruct k; cbn [vsInds i_0 i_1 i_2]; rewrite !vs_at by lia; do 3 eexists; repeat split; apply tri_norm_up; exact U. }
    unfold vertex_norms. rewrite E. cbn [bind]. exists ns. split; [reflexivity|]. rewrite repeat_length in L. split; [exact L|].
    intros n I. apply (In_nth ns n (V3 0 0 0)) in I. destruct I as (k&K&<-). destruct (P k (V3 0 0 0)) as (_&Q). specialize (Q (grid_touched r0 r1 k A B ltac:(lia))).
    rewrite nth_repeat in Q. cbn in Q. exact Q.
  - exists (repeat (V3 0 1 0) (r0 * r1)). split; [|split; [apply repeat_length|intros n I; apply repeat_spec in I; subst n; cbn; lra]].
    unfold grid_flat. f_equal.
Qed.
Lemma grid_wf r0 r1 ns vs uvs : List.length vs = (r0 * r1)%nat -> List.length ns = (r0 * r1)%nat -> List.length uvs = (r0 * r1)%nat ->
  well_formed (Mesh vs ns uvs (grid_tris r0 r1)).
Proof.
  intros A B C t T. cbn [ms_tris ms_vs ms_ns ms_uvs] in *. apply tris_in in T. destruct T as (i&j&I&J&T). destruct (cell_idx r0 r1 i j t I J T) as (K&->&->).
  rewrite A, B, C. auto.
Qed.
Lemma split_cell n s : (0 < n)%nat -> 0 <= s <= INR n -> exists j, (j < n)%nat /\ INR j <= s <= INR j + 1.
Proof.
  induction n as [|n IH]; intros P B; [lia|]. rewrite S_INR in B. destruct (Rle_or_lt s (INR n)) as [L|L].
  - destruct n as [|n]; [exists 0%nat; cbn in *; split; [lia|lra]|]. destruct (IH ltac:(lia) ltac:(lra)) as (j&J&K). exists j. split; [lia|exact K].
  - exists n. split; [lia|lra].
Qed.
Lemma grid_covers terrain r0 r1 ns uvs x z : (2 <= r0)%nat -> (2 <= r1)%nat -> -1 <= x <= 1 -> -1 <= z <= 1 ->
  exists f a b c q, face_of (Mesh (gverts terrain r0 r1) ns uvs (grid_tris r0 r1)) f a b c /\ in_triangle a b c q /\ vx q = x /\ vz q = z.
Proof.
  intros A B HX HZ. assert (P0 : 0 < INR (r0 - 1)) by (apply lt_0_INR; lia). assert (P1 : 0 < INR (r1 - 1)) by (apply lt_0_INR; lia).
  destruct (split_cell (r0 - 1) ((x + 1) / 2 * INR (r0 - 1))) as (j&J&SJ); [lia|nra|]. destruct (split_cell (r1 - 1) ((z + 1) / 2 * INR (r1 - 1))) as (i&I&SI); [lia|nra|].
  set (fx := (x + 1) / 2 * INR (r0 - 1) - INR j). set (fz := (z + 1) / 2 * INR (r1 - 1) - INR i).
  assert (FX : 0 <= fx <= 1) by (unfold fx; lra). assert (FZ : 0 <= fz <= 1) by (unfold fz; lra).
  assert (EX : gx r0 j * (1 - fx) + gx r0 (S j) * fx = x) by (unfold gx, fx; rewrite S_INR; field; lra).
  assert (EZ : gx r1 i * (1 - fz) + gx r1 (S i) * fz = z) by (unfold gx, fz; rewrite S_INR; field; lra).
  clearbody fx fz. set (k := if Rle_dec fz fx then true else false).
  assert (T : In (cell_tri r0 i j k) (grid_tris r0 r1)) by (apply tris_cells; exists i, j, k; repeat split; lia).
  apply In_nth_error in T. destruct T as (f&F). set (V := fun i j => V3 (gx r0 j) (heights terrain r0 r1 i j) (gx r1 i)).
  pose proof (grid_rows_nth r0 r1 V i j ltac:(lia) ltac:(lia)) as N1. pose proof (grid_rows_nth r0 r1 V i (S j) ltac:(lia) ltac:(lia)) as N2.
  pose proof (grid_rows_nth r0 r1 V (S i) j ltac:(lia) ltac:(lia)) as N3. pose proof (grid_rows_nth r0 r1 V (S i) (S j) ltac:(lia) ltac:(lia)) as N4.
  exists f. unfold k in F. destruct (Rle_dec fz fx) as [L|L].
  - exists (V i (S j)), (V i j), (V (S i) (S j)), (combine3 (V i (S j)) (V i j) (V (S i) (S j)) (V3 (fx - fz) (1 - fx) fz)). split.
    + exists (cell_tri r0 i j true). split; [exact F|]. cbn [cell_tri vsInds i_0 i_1 i_2]. rewrite !Nat2Z.id. split; [lia|]. split; [exact N2|]. split; [exact N1|exact N4].
    + split; [eexists; split; [|reflexivity]; unfold weights; cbn; lra|]. unfold combine3, V. cbn [vx vy vz]. split; [rewrite <- EX|rewrite <- EZ]; ring.
  - apply Rnot_le_lt in L.
    exists (V i j), (V (S i) j), (V (S i) (S j)), (combine3 (V i j) (V (S i) j) (V (S i) (S j)) (V3 (1 - fz) (fz - fx) fx)). split.
    + exists (cell_tri r0 i j false). split; [exact F|]. cbn [cell_tri vsInds i_0 i_1 i_2]. rewrite !Nat2Z.id. split; [lia|]. split; [exact N1|]. split; [exact N3|exact N4].
    + split; [eexists; split; [|reflexivity]; unfold weights; cbn; lra|]. unfold combine3, V. cbn [vx vy vz]. split; [rewrite <- EX|rewrite <- EZ]; ring.
Qed.
