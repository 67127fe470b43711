(** C57 (occlusion rays), C59, C91: where rays go. *)
From Coq Require Import Reals List Bool Lia Lra.
From Coquelicot Require Import Coquelicot.
From Verif.Base Require Import Outcome.
From Verif.Model Require Import Vec Frame BBox Warp Clocker Integrators.
From Verif.Spec Require Import LinAlgSpec FrameSpec WarpSpec BsdfSpec IntegratorSpec PathSpec.
From Verif.Proof Require Import FrameProof WarpProof BsdfProof IntegratorProof HistoryProof.
From Verif.Props Require Import Integrators.
Import ListNotations.
Open Scope R_scope.

(** C57: the occlusion ray starts at the surface point, and its direction has the cosine law about
    the geometric normal, as a function of the recorded random point *)
Theorem C57_occlusion_ray : exists w : isect -> vec2 -> vec3,
  (forall i, orthonormal (fs (i_g i)) (ft (i_g i)) (fn (i_g i)) ->
     law_around (fn (i_g i)) (w i) (fun v => if Rgt_dec (dot v (fn (i_g i))) 0 then 1 / PI * dot v (fn (i_g i)) else 0)) /\
  forall (W : Type) now hit rnd2 n r s v s', amb_occ_Li W now hit rnd2 n r s = (Ok v, s') ->
    exists h, s_log W s' = s_log W s ++ h /\
      ((h = [HRay r None] /\ v = V3c 0) \/
       exists i u b r', h = [HRay r (Some i); HPoint u; HRay r' b] /\ v = V3c (match b with None => 1 | Some _ => 0 end) /\
         org r' = i_p i /\ dir r' = w i u /\ rnear r' = Finite (1 / 1000) /\ rfar r' = p_infty).
Proof.
  exists (fun i u => toWorld (i_g i) (sqrToCosHemi u)). split.
  - intros i O. exists (fs (i_g i)), (ft (i_g i)), sqrToCosHemi, sqrToCosHemiPdf. split; [exact O|]. split; [exact cos_hemi_law|]. cbv zeta. split; [reflexivity|].
    intros v. pose proof (world_local (i_g i) v O) as E. unfold toLocal in E. unfold toWorld in E at 3. apply (f_equal vz) in E. cbn [vz] in E.
    rewrite E. reflexivity.
  - intros W now hit rnd2 n r s v s' E. exact (hs_ao now hit rnd2 n r s v s' E).
Qed.
Print Assumptions C57_occlusion_ray.
Example C57_occlusion_case : exists w : isect -> vec2 -> vec3,
  law_around (V3 0 0 1) (w demo_isect) (fun v => if Rgt_dec (dot v (V3 0 0 1)) 0 then 1 / PI * dot v (V3 0 0 1) else 0) /\
  exists s' i u r', amb_occ_Li nat demo_now demo_hit demo_rnd2 1 demo_ray demo_st = (Ok (V3c 1), s') /\
    s_log nat s' = [HRay demo_ray (Some i); HPoint u; HRay r' None] /\ dir r' = w i u.
Proof.
  destruct C57_occlusion_ray as (w&L&H). exists w. split; [apply (L demo_isect); unfold orthonormal, dot; simpl; lra|].
  destruct (amb_occ_Li nat demo_now demo_hit demo_rnd2 1 demo_ray demo_st) as [o s'] eqn:E.
  pose proof C57_case as X. rewrite E in X. cbn [fst] in X. subst o.
  destruct (H _ _ _ _ _ _ _ _ _ E) as (h&Lh&[[_ V]|(i&u&b&r'&X&V&_&D&_)]).
  - exfalso. injection V. lra.
  - exists s', i, u, r'. split; [reflexivity|]. rewrite Lh, X. destruct b; [exfalso; injection V; lra|]. split; [reflexivity|exact D].
Qed.

(** C59: whatever the surfaces along the line of a ray, the query answers with the nearest solid one
    in the range of the ray; only surfaces less than 1/1000 behind a null boundary are missed *)
Theorem C59_nearest_solid (W : Type) now hit (lines : vec3 -> vec3 -> list isect)
    (hit_lines : forall w r, hit w r = (first_in (rnear r) (rfar r) (lines (org r) (dir r)), w)) n r (s : st W) :
  ordered 0 (lines (org r) (dir r)) -> (length (lines (org r) (dir r)) < n)%nat -> idle (s_clk W s) ->
  exists a s', intersect_non_null W now hit n r s = (Ok a, s') /\ s_log W s' = s_log W s ++ [HRay r a] /\
    nearest_solid r (lines (org r) (dir r)) a.
Proof.
  intros O N I. destruct (nn_nearest now hit lines hit_lines (lines (org r) (dir r)) n r s [] eq_refl O) as (a&s1&E&P).
  - intros j [].
  - exact N.
  - apply I. simpl. tauto.
  - unfold intersect_non_null, bindM. rewrite E. unfold note, ret. cbn [s_log]. exists a. eexists. split; [reflexivity|]. split; [|exact P].
    destruct (hs_nn now hit n r s a s1 E) as (h&L&->). cbn [s_log]. rewrite L, app_nil_r. reflexivity.
Qed.
Print Assumptions C59_nearest_solid.
(** when surfaces are at least 1/1000 apart, none is missed *)
Theorem C59_exact r l a : ordered (1 / 1000) l -> nearest_solid r l a ->
  forall j, In j l -> i_null j = false -> in_range r j -> exists i, a = Some i /\ i_null i = false /\ in_range r i /\ i_t i <= i_t j.
Proof.
  intros O [P Q] j J J1 J2. destruct (Q j J J1 J2) as [H|(k&K1&K2&K3&K4)].
  - destruct a as [i|]; [|contradiction]. exists i. tauto.
  - exfalso. clear Q P a J2 K3. revert J K1 K4. induction l as [|x l IH]; [intros []|].
    pose proof (ordered_after (1 / 1000) x l ltac:(lra) O) as A.
    intros [<-|J] [<-|K] K4; [congruence|apply A in K; lra|apply A in J; lra|]. apply IH; auto. exact (ordered_tail _ _ _ O).
Qed.
Print Assumptions C59_exact.

(** boundary at 1, boundary at 2, wall at 3 *)
Definition demo_at (t : R) (null : bool) : isect := Isect (V3 0 0 (1 - t)) t (V3c (1 / 3)) demo_frame demo_frame 0 null.
Definition demo_lines (l : list isect) (w : nat) (r : ray) : option isect * nat := (first_in (rnear r) (rfar r) l, w).
Definition demo_wall : list isect := [demo_at 1 true; demo_at 2 true; demo_at 3 false; demo_at 4 false].
Example C59_case : exists s', intersect_non_null nat demo_now (demo_lines demo_wall) 5 demo_ray demo_st = (Ok (Some (demo_at 3 false)), s').
Proof.
  destruct (C59_nearest_solid nat demo_now (demo_lines demo_wall) (fun _ _ => demo_wall) (fun _ _ => eq_refl) 5 demo_ray demo_st) as (a&s'&E&_&P).
  - simpl. lra.
  - simpl. lia.
  - exact idle_init.
  - exists s'. rewrite E. assert (O : ordered (1 / 1000) demo_wall) by (simpl; lra).
    destruct (C59_exact _ _ _ O P (demo_at 3 false)) as (i&->&Ni&_&Ti); [simpl; tauto|reflexivity|split; simpl; lra || exact I|].
    destruct P as [(Ii&_) _]. simpl in Ii. destruct Ii as [<-|[<-|[<-|[<-|[]]]]]; simpl in *; try discriminate; [reflexivity|lra].
Qed.
(** a wall 1/2000 behind a boundary is not seen, although it is solid and in range *)
Theorem C59_close_wall_missed : let wall := [demo_at 1 true; demo_at (2001 / 2000) false] in
  exists s', intersect_non_null nat demo_now (demo_lines wall) 5 demo_ray demo_st = (Ok None, s').
Proof.
  cbv zeta. set (wall := [demo_at 1 true; demo_at (2001 / 2000) false]).
  assert (A : forall near far, Rbar_le near (Finite 1) -> far = p_infty -> first_in near far wall = Some (demo_at 1 true)).
  { intros near far H ->. unfold first_in, wall, find, Rbar_leb, demo_at, i_t. destruct (Rbar_le_dec near 1); [|contradiction].
    destruct (Rbar_le_dec 1 p_infty) as [|X]; [reflexivity|destruct (X I)]. }
  assert (B : first_in (Finite (1 + Epsilon)) p_infty wall = None).
  { unfold first_in, wall, find, Rbar_leb, demo_at, i_t. destruct (Rbar_le_dec (1 + Epsilon) 1) as [X|_]; [simpl in X; unfold Epsilon in X; lra|].
    destruct (Rbar_le_dec (1 + Epsilon) (2001 / 2000)) as [X|_]; [simpl in X; unfold Epsilon in X; lra|]. reflexivity. }
  unfold intersect_non_null. cbn [nn_loop]. unfold bindM at 1 2.
  destruct (accel_ok demo_now (demo_lines wall) (fun _ _ => wall) (fun _ _ => eq_refl) demo_ray demo_st eq_refl) as (s1&E1&A1).
  rewrite E1, A by (simpl; lra || reflexivity). cbn [i_null demo_at i_t]. unfold bindM at 1.
  destruct (accel_ok demo_now (demo_lines wall) (fun _ _ => wall) (fun _ _ => eq_refl) (Ray (org demo_ray) (dir demo_ray) (Finite (1 + Epsilon)) (rfar demo_ray)) s1 A1) as (s2&E2&A2).
  rewrite E2. cbn [rnear rfar demo_ray]. rewrite B. unfold ret. eexists. reflexivity.
Qed.
Print Assumptions C59_close_wall_missed.

(** C91: every path consists of segments that begin where the previous ended, in the sampled direction *)
Theorem C91_path_geometry (W : Type) now hit rnd1 rnd2 env ev mat sample nn n r s v s' :
  path_Li W now hit rnd1 rnd2 env ev mat sample nn n r s = (Ok v, s') ->
  exists h, s_log W s' = s_log W s ++ h /\ path_history ev mat sample (closure_init false true (V3c 0)) r h.
Proof. intros E. exact (hs_path now hit rnd1 rnd2 env ev mat sample nn _ _ _ _ _ s v s' E). Qed.
Print Assumptions C91_path_geometry.
Example C91_case : exists Li s', demo_path 4%nat demo_ray demo_st = (Ok Li, s') /\ path_history demo_sh demo_mat demo_sample (closure_init false true (V3c 0)) demo_ray (s_log nat s').
Proof.
  destruct C55_case as (Li&s'&E). exists Li, s'. split; [exact E|].
  destruct (C91_path_geometry nat demo_now demo_hit demo_rnd1 demo_rnd2 demo_env demo_sh demo_mat demo_sample _ _ _ _ _ _ E) as (h&->&P). exact P.
Qed.
