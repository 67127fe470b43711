(** C59, C115, C116: shadow-ray queries, environment light, the wireframe material. *)
From Coq Require Import Reals List Bool Lra Lia String.
From Coquelicot Require Import Rbar.
From Verif.Base Require Import Outcome.
From Verif.Model Require Import Vec Frame BBox Clocker Integrators Bsdf Scene.
From Verif.Spec Require Import IntegratorSpec PathSpec SceneSpec.
From Verif.Proof Require Import VecLemmas IntegratorProof HistoryProof SceneProof.
Import ListNotations.
Open Scope R_scope.

(** the query used while sampling lights also answers with the nearest solid surface *)
Theorem C59_light_queries lines n r us vs : ordered 0 (lines (org r) (dir r)) -> (List.length (lines (org r) (dir r)) < n)%nat ->
  exists a, play (scene_hit lines) (non_null n r) us vs = Some (Ok a, us, vs) /\ nearest_solid r (lines (org r) (dir r)) a.
Proof.
  intros O N. set (hit := fun (w : unit) (r : ray) => (scene_hit lines r, w)). set (now := fun w : unit => (0, w)).
  destruct (nn_nearest now hit lines (fun w r => eq_refl) (lines (org r) (dir r)) n r (St unit clk_init tt []) [] eq_refl O) as (a&s&E&P); [intros j []|exact N|reflexivity|].
  exists a. split; [|exact P]. clear P N O. revert E. generalize (St unit clk_init tt []). revert r.
  induction n as [|n IH]; intros r s0 E; [discriminate|]. cbn [nn_loop] in E. unfold bindM at 1 in E.
  destruct (accel_intersect unit now hit r s0) as [[x| | |] s1] eqn:X; try discriminate.
  assert (Y : x = scene_hit lines r).
  { unfold accel_intersect, bindM, clk_start, clk_stop, ret, hit, now in X. cbn in X. destruct (start_clock EMBREE 0 (s_clk unit s0)); try discriminate.
    cbn in X. destruct (end_clock EMBREE 0 _) in X; try discriminate. injection X as <- _. reflexivity. }
  cbn [non_null play]. rewrite <- Y. destruct x as [i|]; [|injection E as <- _; reflexivity].
  destruct (i_null i); [apply (IH _ _ E)|injection E as <- _; reflexivity].
Qed.
Print Assumptions C59_light_queries.

(** C115: what a ray that leaves the scene collects is the sum over all environment emitters *)
Theorem C115_environment_sum es d f : (forall e, In e es -> em_evaluate e d = Ok (f e)) ->
  exists v, env_emission es d = Ok v /\
    vx v = fold_right Rplus 0 (map (fun e => vx (f e)) es) /\ vy v = fold_right Rplus 0 (map (fun e => vy (f e)) es) /\ vz v = fold_right Rplus 0 (map (fun e => vz (f e)) es).
Proof.
  intros H. unfold env_emission.
  enough (G : forall a, exists v, foldM (fun Le e => bind (em_evaluate e d) (fun c => Ok (vadd Le c))) es a = Ok v /\
    vx v = vx a + fold_right Rplus 0 (map (fun e => vx (f e)) es) /\ vy v = vy a + fold_right Rplus 0 (map (fun e => vy (f e)) es) /\ vz v = vz a + fold_right Rplus 0 (map (fun e => vz (f e)) es)).
  { destruct (G (V3c 0)) as (v&E&X&Y&Z). exists v. split; [exact E|]. cbn [V3c vx vy vz] in *. rewrite X, Y, Z. repeat split; ring. }
  induction es as [|e es IH]; intros a; cbn [foldM map fold_right].
  - exists a. split; [reflexivity|]. repeat split; ring.
  - rewrite (H e (or_introl eq_refl)). cbn [bind]. destruct (IH (fun e' I => H e' (or_intror I)) (vadd a (f e))) as (v&E&X&Y&Z).
    exists v. split; [exact E|]. rewrite X, Y, Z. unfold vadd; cbn [vx vy vz]. repeat split; ring.
Qed.
Print Assumptions C115_environment_sum.
(** an environment of interpolated textures makes the whole lookup fail *)
Theorem C115_interpolated_refuted : exists es d e, env_emission es d = Throw e.
Proof. exists [EInterpEnv (V3c 0) (V3c 1)], (V3 0 0 1). eexists. reflexivity. Qed.
Print Assumptions C115_interpolated_refuted.
Example C115_case : exists v, env_emission [EEnv None (V3 1 2 3); EEnv None (V3 4 5 6)] (V3 0 0 1) = Ok v /\ vx v = 5.
Proof.
  destruct (C115_environment_sum [EEnv None (V3 1 2 3); EEnv None (V3 4 5 6)] (V3 0 0 1) (fun e => match e with EEnv _ c => c | _ => V3c 0 end)) as (v&E&X&_).
  - intros e [<-|[<-|[]]]; reflexivity.
  - exists v. split; [exact E|]. rewrite X. simpl. ring.
Qed.

(** C116: a point of a triangle is on the wire exactly when one of its barycentric coordinates is below the threshold,
    and is then shaded like the wire material, elsewhere like the mesh material *)
Theorem C116_wire b th : on_wire b th = true <-> (vx b < th \/ vy b < th \/ vz b < th).
Proof.
  unfold on_wire. cbv zeta. destruct (Rlt_dec (vy b) (vx b)) as [A|A]; [|apply Rnot_lt_le in A];
    (destruct (Rlt_dec (vz b) _) as [B|B] in |- *; [|apply Rnot_lt_le in B]; match goal with |- context [Rlt_dec ?x th] => destruct (Rlt_dec x th) as [C|C]; [|apply Rnot_lt_le in C] end;
     split; intros H; try reflexivity; try discriminate; try lra; tauto).
Qed.
Print Assumptions C116_wire.
Theorem C116_material mesh_point {M} inside tr fuel emitters inst ignore object_emitter th wire mesh its r c :
  wireframe_evaluate mesh_point M inside tr fuel emitters inst ignore object_emitter th wire mesh its r c =
  shade mesh_point M inside tr fuel emitters inst ignore object_emitter (if Rlt_dec (Rmin (vx (i_bary its)) (Rmin (vy (i_bary its)) (vz (i_bary its)))) th then wire else mesh) its r c.
Proof.
  unfold wireframe_evaluate. f_equal. destruct (Rlt_dec _ th) as [L|L]; destruct (on_wire (i_bary its) th) eqn:E; try reflexivity; exfalso.
  - assert (N : ~ (vx (i_bary its) < th \/ vy (i_bary its) < th \/ vz (i_bary its) < th)) by (intros K; apply C116_wire in K; congruence).
    apply N. unfold Rmin in L. destruct (Rle_dec (vy (i_bary its)) (vz (i_bary its))); destruct (Rle_dec (vx (i_bary its)) _); tauto.
  - apply C116_wire in E. apply L. pose proof (Rmin_l (vx (i_bary its)) (Rmin (vy (i_bary its)) (vz (i_bary its)))). pose proof (Rmin_r (vx (i_bary its)) (Rmin (vy (i_bary its)) (vz (i_bary its)))).
    pose proof (Rmin_l (vy (i_bary its)) (vz (i_bary its))). pose proof (Rmin_r (vy (i_bary its)) (vz (i_bary its))). lra.
Qed.
Print Assumptions C116_material.
Example C116_case : on_wire (V3 (1 / 2) (9 / 20) (1 / 20)) (1 / 10) = true /\ on_wire (V3 (1 / 3) (1 / 3) (1 / 3)) (1 / 10) = false.
Proof.
  split; [apply C116_wire; simpl; lra|]. destruct (on_wire _ _) eqn:E; [|reflexivity]. apply C116_wire in E. simpl in E. lra.
Qed.
