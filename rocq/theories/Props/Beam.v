(** C202: lights that shine from a mesh into one direction. *)
From Coq Require Import Reals List Bool ZArith Lra Lia String.
From Coquelicot Require Import Rbar.
From Verif.Base Require Import Outcome.
From Verif.Model Require Import Vec Frame BBox Warp Integrators Bsdf Scene.
From Verif.Spec Require Import LinAlgSpec FrameSpec IntegratorSpec PathSpec SceneSpec BeamSpec.
From Verif.Proof Require Import VecLemmas FrameProof IntegratorProof HistoryProof SceneProof.
From Verif.Props Require VolPath.
From Verif.Props Require Import Lighting.
Import ListNotations.
Open Scope R_scope.

Section Beam.
Variable mesh_point : nat -> vec2 -> outcome (vec3 * vec3 * R).
Context {M : Type}.
Variable inside : nat -> option (option M).
Variable T : M -> Rbar -> Rbar -> vec3.
Variable lines : vec3 -> vec3 -> list isect.
Variable fuel : nat.
Let transmittance (m : M) (r : ray) : query vec3 := QRet (T m (rnear r) (rfar r)).
Notation solid := (fun i : isect => negb (i_null i)).

Lemma filter_shorter {A} f (l : list A) : (List.length (filter f l) <= List.length l)%nat.
Proof. induction l as [|x l IH]; cbn; [lia|]. destruct (f x); cbn; lia. Qed.
Lemma play_non_null l : forall n r us vs, ordered (1 / 1000) (lines (org r) (dir r)) -> on_ray lines r = l -> (List.length l < n)%nat ->
  play (scene_hit lines) (non_null n r) us vs = Some (Ok (find solid l), us, vs).
Proof.
  induction l as [|i l IH]; intros [|n] r us vs O E F; try (cbn in F; lia); cbn [non_null play]; rewrite hit_hd, E; cbn [hd_error]; [reflexivity|].
  destruct (on_ray_next lines r i l O E) as [E1 _]. cbn [find]. destruct (i_null i); cbn [negb]; [|reflexivity].
  apply (IH n (Ray (org r) (dir r) (Finite (i_t i + Epsilon)) (rfar r))); [exact O|exact E1|cbn in F; lia].
Qed.
Lemma before_first l i : ordered (1 / 1000) l -> find solid l = Some i -> forall j, In j l -> i_t j < i_t i -> i_null j = true.
Proof.
  induction l as [|x l IH]; intros O F j J Lt; [destruct J|]. cbn [find] in F. destruct (i_null x) eqn:X; cbn [negb] in F.
  - destruct J as [<-|J]; [exact X|]. exact (IH (ordered_tail _ _ _ O) F j J Lt).
  - injection F as ->. destruct J as [->|J]; [lra|]. apply (ordered_after (1 / 1000) i l ltac:(lra) O) in J. lra.
Qed.
Lemma ordered_filter f l : ordered (1 / 1000) l -> ordered (1 / 1000) (filter f l).
Proof.
  induction l as [|x l IH]; intros O; [exact I|]. cbn [filter]. pose proof (ordered_after (1 / 1000) x l ltac:(lra) O) as A. specialize (IH (ordered_tail _ _ _ O)).
  destruct (f x); [|exact IH]. destruct (filter f l) as [|y l'] eqn:E; [cbn; auto|]. split; [|exact IH].
  assert (In y l) by (apply (proj1 (filter_In f y l)); rewrite E; now left). apply A in H. lra.
Qed.

(** what is computed for a beam of direction [light_dir] from the mesh m: nothing is blocked before the mesh,
    but the ray that is tested ends at the distance d instead of d / |light_dir| *)
Theorem C202_computed its m light_dir L nrm v i us vs : let w := vneg light_dir in let d := norm w * i_t i in
  let r := Ray (i_p its) w (Finite (1 / 1000)) (Finite (d - 1 / 1000)) in
  on_line lines -> seen_from lines (i_p its) w = Some i -> i_mesh i = m -> w <> V3c 0 -> - (1 / 1000) <= dot nrm w ->
  ordered (1 / 1000) (lines (i_p its) w) -> bounded inside (on_ray lines r) -> (List.length (lines (i_p its) w) < fuel)%nat ->
  play (scene_hit lines) (eval_emitter mesh_point M inside transmittance fuel false its None nrm false 1 (new_dir_mesh m light_dir L)) us (v :: vs) =
    Some (Ok (if existsb (fun i => negb (i_null i)) (on_ray lines r) then None
              else Some (w, vmul (vscale L (dot nrm w / (d * d))) (between (medium_of inside) T (on_ray lines r)))), us, vs).
Proof.
  cbv zeta. intros Ol Se Mi Nz C O B F. set (w := vneg light_dir) in *. unfold seen_from in Se.
  assert (In_i : In i (lines (i_p its) w) /\ 1 / 1000 <= i_t i).
  { apply find_some in Se as (S1 & _). apply filter_In in S1 as (S1 & S2). split; [exact S1|]. apply andb_true_iff in S2 as (S2 & _). apply leb_iff in S2. exact S2. }
  destruct In_i as (I1 & I2). pose proof (Ol _ _ _ I1) as Ip.
  assert (Wn : 0 < norm w) by (apply norm_pos; exact Nz).
  assert (Len : forall r, org r = i_p its -> dir r = w -> (List.length (on_ray lines r) < fuel)%nat).
  { intros r R1 R2. unfold on_ray. rewrite R1, R2. eapply Nat.le_lt_trans; [apply filter_shorter|exact F]. }
  assert (D : vsub (i_p i) (i_p its) = vscale w (i_t i)) by (rewrite Ip; apply vec3_eq; cbn; ring).
  assert (D2 : sqrNorm (vsub (i_p i) (i_p its)) = (norm w * i_t i) * (norm w * i_t i)).
  { rewrite D. replace ((norm w * i_t i) * (norm w * i_t i)) with ((norm w * norm w) * (i_t i * i_t i)) by ring. rewrite <- sqrNorm_norm. unfold sqrNorm. cbn. ring. }
  assert (Dp : 0 < norm w * i_t i) by (apply Rmult_lt_0_compat; lra).
  unfold eval_emitter, new_dir_mesh. cbn [play]. erewrite play_obind by reflexivity.
  erewrite play_obind.
  2: { unfold shadow_query. cbn [needs_visibility es_wi es_sqr_dist es_pdf es_color]. fold w.
    erewrite play_obind. 2: { apply (play_non_null (on_ray lines (Ray (i_p its) w (Finite Epsilon) p_infty)) fuel (Ray (i_p its) w (Finite Epsilon) p_infty)); [exact O|reflexivity|apply Len; reflexivity]. }
    unfold Epsilon at 1. rewrite Se. cbn [em_mesh]. rewrite Mi, Nat.eqb_refl. rewrite D2. cbn [play]. rewrite sqrt_square by lra. unfold Epsilon. reflexivity. }
  cbv beta iota. erewrite play_obind.
  2: { apply (C92_computed inside T lines fuel (Ray (i_p its) w (Finite (1 / 1000)) (Finite (norm w * i_t i - 1 / 1000))) None (V3c 1)); [exact O|exact B|apply Len; reflexivity]. }
  destruct (existsb _ _); cbv beta iota; [reflexivity|]. cbn [negb orb play dir]. destruct (Req_EM_T 1 0); [lra|].
  unfold nee_cos. destruct (Rlt_dec _ _); [unfold Epsilon in *; lra|]. match goal with |- Some (Ok (Some (_, ?a)), _, _) = Some (Ok (Some (_, ?b)), _, _) => replace a with b; [reflexivity|] end.
  match goal with |- context [between ?a ?b ?c] => generalize (between a b c) end. intros b. apply vec3_eq; cbn; field; lra.
Qed.
(** with a unit direction a point that sees the mesh is lit *)
Theorem C202_lit its m light_dir L nrm v i us vs : let w := vneg light_dir in let d := i_t i in
  let r := Ray (i_p its) w (Finite (1 / 1000)) (Finite (d - 1 / 1000)) in
  on_line lines -> seen_from lines (i_p its) w = Some i -> i_mesh i = m -> norm light_dir = 1 -> - (1 / 1000) <= dot nrm w ->
  ordered (1 / 1000) (lines (i_p its) w) -> bounded inside (on_ray lines r) -> (List.length (lines (i_p its) w) < fuel)%nat ->
  play (scene_hit lines) (eval_emitter mesh_point M inside transmittance fuel false its None nrm false 1 (new_dir_mesh m light_dir L)) us (v :: vs) =
    Some (Ok (Some (w, vmul (vscale L (dot nrm w / (d * d))) (between (medium_of inside) T (on_ray lines r)))), us, vs).
Proof.
  cbv zeta. intros Ol Se Mi Un C O B F. assert (Nw : norm (vneg light_dir) = 1) by (rewrite <- Un; unfold norm; f_equal; cbn; ring).
  assert (Nz : vneg light_dir <> V3c 0).
  { intros E. rewrite E in Nw. unfold norm in Nw. cbn in Nw. replace (0 * 0 + 0 * 0 + 0 * 0) with 0 in Nw by ring. rewrite sqrt_0 in Nw. lra. }
  pose proof (C202_computed its m light_dir L nrm v i us vs Ol Se Mi Nz C O) as H. cbv zeta in H. rewrite Nw, Rmult_1_l in H. specialize (H B F). rewrite H.
  assert (X : existsb (fun i => negb (i_null i)) (on_ray lines (Ray (i_p its) (vneg light_dir) (Finite (1 / 1000)) (Finite (i_t i - 1 / 1000)))) = false); [|rewrite X; reflexivity].
  destruct (existsb _ _) eqn:E; [|reflexivity]. apply existsb_exists in E as (j & J & Sj). apply filter_In in J as (J & R). cbn [org dir rnear rfar] in J, R.
  apply andb_true_iff in R as (R1 & R2). apply leb_iff in R2. cbn in R2.
  assert (Jn : i_null j = true).
  { apply (before_first _ i (ordered_filter _ _ O) Se j); [|lra]. apply filter_In. split; [exact J|]. cbn [org dir rnear rfar]. rewrite R1. cbn [andb]. apply leb_iff. exact I. }
  rewrite Jn in Sj. discriminate.
Qed.
(** a point that sees something else, or nothing: the distance is read without being set *)
Theorem C202_unlit_refuted its m light_dir L nrm im p v us vs : let w := vneg light_dir in
  (forall i, seen_from lines (i_p its) w = Some i -> i_mesh i <> m) ->
  ordered (1 / 1000) (lines (i_p its) w) -> (List.length (lines (i_p its) w) < fuel)%nat ->
  play (scene_hit lines) (eval_emitter mesh_point M inside transmittance fuel false its None nrm im p (new_dir_mesh m light_dir L)) us (v :: vs) = Some (UB, us, vs).
Proof.
  cbv zeta. intros Se O F. set (w := vneg light_dir) in *. unfold eval_emitter, new_dir_mesh. cbn [play]. erewrite play_obind by reflexivity.
  unfold obind. rewrite play_bind. unfold shadow_query. cbn [needs_visibility es_wi es_sqr_dist es_pdf es_color]. fold w.
  erewrite play_obind. 2: { apply (play_non_null (on_ray lines (Ray (i_p its) w (Finite Epsilon) p_infty)) fuel (Ray (i_p its) w (Finite Epsilon) p_infty)); [exact O|reflexivity|].
    unfold on_ray. eapply Nat.le_lt_trans; [apply filter_shorter|exact F]. }
  unfold seen_from in Se. unfold Epsilon. destruct (find _ _) as [i|] eqn:E; [|reflexivity]. cbn [em_mesh].
  destruct (Nat.eqb_spec m (i_mesh i)) as [X|_]; [exfalso; apply (Se i eq_refl); congruence|reflexivity].
Qed.
(** a direction of length 2 or more: the mesh itself is in the way, and nothing is lit *)
Theorem C202_long_refuted its m light_dir L nrm v i us vs : let w := vneg light_dir in
  on_line lines -> seen_from lines (i_p its) w = Some i -> i_mesh i = m -> 2 <= norm light_dir -> - (1 / 1000) <= dot nrm w ->
  ordered (1 / 1000) (lines (i_p its) w) -> bounded inside (lines (i_p its) w) -> (List.length (lines (i_p its) w) < fuel)%nat ->
  play (scene_hit lines) (eval_emitter mesh_point M inside transmittance fuel false its None nrm false 1 (new_dir_mesh m light_dir L)) us (v :: vs) = Some (Ok None, us, vs).
Proof.
  cbv zeta. intros Ol Se Mi Un C O B F. assert (Nw : norm (vneg light_dir) = norm light_dir) by (unfold norm; f_equal; cbn; ring).
  assert (Nz : vneg light_dir <> V3c 0).
  { intros E. rewrite E in Nw. unfold norm at 1 in Nw. cbn in Nw. replace (0 * 0 + 0 * 0 + 0 * 0) with 0 in Nw by ring. rewrite sqrt_0 in Nw. lra. }
  pose proof (C202_computed its m light_dir L nrm v i us vs Ol Se Mi Nz C O) as H. cbv zeta in H. rewrite H; [|intros j J; apply B; apply filter_In in J; apply J|exact F].
  apply find_some in Se as (S1 & S2). apply filter_In in S1 as (S1 & S3). cbn [org dir rnear rfar] in S1, S3. apply andb_true_iff in S3 as (S3 & _).
  assert (X : existsb (fun i => negb (i_null i)) (on_ray lines (Ray (i_p its) (vneg light_dir) (Finite (1 / 1000)) (Finite (norm (vneg light_dir) * i_t i - 1 / 1000)))) = true); [|rewrite X; reflexivity].
  apply existsb_exists. exists i. split; [|exact S2]. apply filter_In. split; [exact S1|]. cbn [rnear rfar]. rewrite S3. cbn [andb]. apply leb_iff in S3. apply leb_iff. cbn in *. rewrite Nw. nra.
Qed.
End Beam.
Print Assumptions C202_computed.
Print Assumptions C202_lit.
Print Assumptions C202_unlit_refuted.
Print Assumptions C202_long_refuted.

(** a panel at height 2, mesh 7, over the floor of C101 *)
Definition panel : vec3 -> vec3 -> list isect := VolPath.sheets [(7%nat, 2, -1, false)].
Definition panel_up (k : R) : isect := let f := Fr (V3 1 0 0) (V3 0 1 0) (V3 0 0 (-1)) in Isect (vadd (V3c 0) (vscale (vneg (V3 0 0 (- k))) ((2 - 0) / - - k))) ((2 - 0) / - - k) (V3c (1 / 3)) f f 7 false.
Lemma panel_line : on_line panel.
Proof. intros p v i H. unfold panel, VolPath.sheets in H. destruct (Rlt_dec 0 _); [|destruct (Rlt_dec _ 0); [|destruct H]]; destruct H as [<-|[]]; reflexivity. Qed.
Lemma panel_lines k : 0 < k -> panel (i_p floor) (vneg (V3 0 0 (- k))) = [panel_up k].
Proof. intros K. unfold panel, VolPath.sheets. cbn [vneg vz]. destruct (Rlt_dec 0 _); [reflexivity|lra]. Qed.
Lemma panel_seen k : 0 < k <= 2 -> seen_from panel (i_p floor) (vneg (V3 0 0 (- k))) = Some (panel_up k).
Proof.
  intros K. unfold seen_from, on_ray. cbn [org dir rnear rfar]. rewrite panel_lines by lra. cbn [filter].
  assert (T : 1 <= i_t (panel_up k)).
  { cbn. replace ((2 - 0) / - - k) with (2 * / k) by (field; lra). apply Rmult_le_reg_r with k; [lra|]. rewrite Rmult_assoc, Rinv_l; lra. }
  replace (_ && _)%bool with true; [reflexivity|]. symmetry. apply andb_true_iff. split; apply leb_iff; cbn in *; [lra|exact I].
Qed.
Lemma panel_norm k : 0 < k -> norm (V3 0 0 (- k)) = k.
Proof. intros K. transitivity (sqrt (k * k)); [unfold norm; f_equal; cbn; ring|apply sqrt_square; lra]. Qed.
Example C202_case : exists t, play (scene_hit panel) (eval_emitter (fun _ _ => UB) unit fog (fun m r => QRet (absorb m (rnear r) (rfar r))) 10 false floor None (V3 0 0 1) false 1
    (new_dir_mesh 7 (V3 0 0 (-1)) (V3c 8))) [] [V2 0 0] = Some (Ok (Some (vneg (V3 0 0 (-1)), t)), [], []) /\ t = V3c 2.
Proof.
  assert (PL : panel (i_p floor) (vneg (V3 0 0 (-1))) = [panel_up 1]) by (apply panel_lines; lra).
  eexists. split.
  - apply (C202_lit (fun _ _ => UB) fog absorb panel 10 floor 7 (V3 0 0 (-1)) (V3c 8) (V3 0 0 1) (V2 0 0) (panel_up 1) [] []).
    + exact panel_line.
    + apply panel_seen. lra.
    + reflexivity.
    + apply panel_norm. lra.
    + unfold dot; cbn; lra.
    + rewrite PL. cbn; auto.
    + intros i _ _; discriminate.
    + rewrite PL. cbn; lia.
  - assert (E : on_ray panel (Ray (i_p floor) (vneg (V3 0 0 (-1))) (Finite (1 / 1000)) (Finite (i_t (panel_up 1) - 1 / 1000))) = []).
    { unfold on_ray. cbn [org dir rnear rfar]. rewrite PL. cbn [filter]. replace (_ && _)%bool with false; [reflexivity|]. symmetry. apply andb_false_iff. right.
      destruct (Rbar_leb _ _) eqn:X; [|reflexivity]. apply leb_iff in X. cbn in X. lra. }
    rewrite E. apply vec3_eq; unfold dot; cbn; field; lra.
Qed.
(** beside the panel, and with the direction given as (0, 0, -2) *)
Example C202_unlit_case : play (scene_hit panel) (eval_emitter (fun _ _ => UB) unit fog (fun m r => QRet (absorb m (rnear r) (rfar r))) 10 false floor None (V3 0 0 1) false 1
    (new_dir_mesh 7 (V3 0 (-1) 0) (V3c 8))) [] [V2 0 0] = Some (UB, [], []).
Proof.
  assert (E : panel (i_p floor) (vneg (V3 0 (-1) 0)) = []).
  { unfold panel, VolPath.sheets. cbn [vneg vz]. destruct (Rlt_dec 0 _); [lra|]. destruct (Rlt_dec _ 0); [lra|reflexivity]. }
  apply (C202_unlit_refuted (fun _ _ => UB) fog absorb panel 10); rewrite ?E; cbn; auto; [|lia].
  intros i H. unfold seen_from, on_ray in H. cbn [org dir] in H. change (V3c 0) with (i_p floor) in H. rewrite E in H. discriminate.
Qed.
Example C202_long_case : play (scene_hit panel) (eval_emitter (fun _ _ => UB) unit fog (fun m r => QRet (absorb m (rnear r) (rfar r))) 10 false floor None (V3 0 0 1) false 1
    (new_dir_mesh 7 (V3 0 0 (-2)) (V3c 8))) [] [V2 0 0] = Some (Ok None, [], []).
Proof.
  assert (PL : panel (i_p floor) (vneg (V3 0 0 (-2))) = [panel_up 2]) by (apply panel_lines; lra).
  apply (C202_long_refuted (fun _ _ => UB) fog absorb panel 10 floor 7 (V3 0 0 (-2)) (V3c 8) (V3 0 0 1) (V2 0 0) (panel_up 2) [] []).
  - exact panel_line.
  - apply panel_seen. lra.
  - reflexivity.
  - pose proof (panel_norm 2 ltac:(lra)) as X. change (- (2)) with (-2) in X. rewrite X. lra.
  - unfold dot; cbn; lra.
  - rewrite PL. cbn; auto.
  - intros i _ _; discriminate.
  - rewrite PL. cbn; lia.
Qed.
