(** C217: objects that the camera does not see never brighten an ambient occlusion picture. *)
From Coq Require Import Reals List Bool Lra Lia.
From Coquelicot Require Import Rbar.
From Verif.Base Require Import Outcome.
From Verif.Model Require Import Vec Frame BBox Warp Clocker Integrators.
From Verif.Spec Require Import SceneSpec PathSpec TraceSpec ShadeSpec.
From Verif.Proof Require Import VecLemmas SceneProof.
From Verif.Props Require VolPath.
From Verif.Props Require Import Lamps Trace.
Import ListNotations.
Open Scope R_scope.

Section Shade.
Context {W : Type}.
(** reading the clock does not change the random numbers *)
Variable time : W -> R.
Let now (w : W) : R * W := (time w, w).
Variable rnd2 : W -> vec2 * W.
Variable camera : nat -> vec2 -> vec2 -> ray.
Variable nn : nat.
(** the scene without and with the added objects, of any material but none *)
Variable lines lines' : vec3 -> vec3 -> list isect.
Variable added : isect -> Prop.
Hypothesis objects : forall o d, interleaved added (lines o d) (lines' o d).
Hypothesis solid : forall i, added i -> i_null i = false.
Definition unseen (r : ray) : Prop := forall i, sees lines' r (Some i) -> ~ added i.

(** two runs that use the same random numbers, when both give a result *)
Definition together {A B} (m : M W A) (m' : M W B) (Q : A -> B -> Prop) : Prop := forall s s' a b t t',
  s_w _ s = s_w _ s' -> m s = (Ok a, t) -> m' s' = (Ok b, t') -> Q a b /\ s_w _ t = s_w _ t'.
Lemma t_bind {A A' B B'} (m : M W A) (m' : M W A') (f : A -> M W B) (f' : A' -> M W B') Q R0 :
  together m m' Q -> (forall a a', Q a a' -> together (f a) (f' a') R0) -> together (bindM W m f) (bindM W m' f') R0.
Proof.
  intros H F s s' a b t t' E E1 E2. unfold bindM in E1, E2.
  destruct (m s) as [[x|e| |] s1] eqn:M1; try discriminate E1. destruct (m' s') as [[y|e| |] s2] eqn:M2; try discriminate E2.
  destruct (H s s' x y s1 s2 E M1 M2) as (Qxy & E'). exact (F x y Qxy s1 s2 a b t t' E' E1 E2).
Qed.
Lemma t_ret {A B} (a : A) (b : B) (Q : A -> B -> Prop) : Q a b -> together (ret W a) (ret W b) Q.
Proof. intros H s s' x y t t' E [= <- <-] [= <- <-]. split; assumption. Qed.
Lemma t_any {A B} (m : M W A) (m' : M W B) (Q Q' : A -> B -> Prop) : (forall a b, Q a b -> Q' a b) -> together m m' Q -> together m m' Q'.
Proof. intros I H s s' x y t t' E E1 E2. destruct (H s s' x y t t' E E1 E2). split; [now apply I|assumption]. Qed.
Lemma t_start c : together (clk_start W now c) (clk_start W now c) (fun _ _ => True).
Proof. intros s s' a b t t' E E1 E2. unfold clk_start, now in *. destruct (start_clock c (time (s_w W s)) _); try discriminate E1. destruct (start_clock c (time (s_w W s')) _); try discriminate E2. injection E1 as <- <-. injection E2 as <- <-. split; [trivial|exact E]. Qed.
Lemma t_stop c : together (clk_stop W now c) (clk_stop W now c) (fun _ _ => True).
Proof. intros s s' a b t t' E E1 E2. unfold clk_stop, now in *. destruct (end_clock c (time (s_w W s)) _); try discriminate E1. destruct (end_clock c (time (s_w W s')) _); try discriminate E2. injection E1 as <- <-. injection E2 as <- <-. split; [trivial|exact E]. Qed.
Lemma t_note e e' : together (note W e) (note W e') (fun _ _ => True).
Proof. intros s s' a b t t' E [= <- <-] [= <- <-]. split; [trivial|exact E]. Qed.
Lemma t_next2 : together (next2 W rnd2) (next2 W rnd2) (fun u u' => u' = u).
Proof. intros s s' a b t t' E E1 E2. unfold next2 in *. rewrite <- E in E2. destruct (rnd2 (s_w W s)). injection E1 as <- <-. injection E2 as <- <-. split; reflexivity. Qed.
Lemma t_hit r : together (accel_intersect W now (geometry lines) r) (accel_intersect W now (geometry lines') r) (fun a a' => a = scene_hit lines r /\ a' = scene_hit lines' r).
Proof.
  unfold accel_intersect. apply t_bind with (Q := fun _ _ => True); [apply t_start|intros _ _ _].
  apply t_bind with (Q := fun a a' => a = scene_hit lines r /\ a' = scene_hit lines' r).
  - intros s s' a b t t' E E1 E2. unfold geometry in *. injection E1 as <- <-. injection E2 as <- <-. split; [split; reflexivity|exact E].
  - intros a a' H. apply t_bind with (Q := fun _ _ => True); [apply t_stop|intros _ _ _]. now apply t_ret.
Qed.
(** the first surface is the same, or an added one *)
Lemma first_or_added r : scene_hit lines' r = scene_hit lines r \/ exists i, scene_hit lines' r = Some i /\ added i.
Proof.
  unfold scene_hit, first_in. induction (objects (org r) (dir r)) as [|i l l' _ IH|i l l' Ad _ IH]; cbn [find]; [now left| |]; destruct (_ && _)%bool; try exact IH; [now left|].
  right. exists i. split; [reflexivity|exact Ad].
Qed.
(** looking does not use random numbers *)
Definition quiet {A} (m : M W A) : Prop := forall s a t, m s = (Ok a, t) -> s_w _ t = s_w _ s.
Lemma q_bind {A B} (m : M W A) (f : A -> M W B) : quiet m -> (forall a, quiet (f a)) -> quiet (bindM W m f).
Proof. intros H F s a t E. unfold bindM in E. destruct (m s) as [[x|e| |] s1] eqn:M1; try discriminate E. rewrite (F x s1 a t E). exact (H s x s1 M1). Qed.
Lemma q_ret {A} (a : A) : quiet (ret W a).
Proof. now intros s b t [= <- <-]. Qed.
Lemma q_start c : quiet (clk_start W now c).
Proof. intros s a t E. unfold clk_start, now in E. destruct (start_clock _ _ _); try discriminate E. now injection E as <- <-. Qed.
Lemma q_stop c : quiet (clk_stop W now c).
Proof. intros s a t E. unfold clk_stop, now in E. destruct (end_clock _ _ _); try discriminate E. now injection E as <- <-. Qed.
Lemma q_loop ls n : forall r, quiet (nn_loop W now (geometry ls) n r).
Proof.
  induction n as [|n IH]; intros r; cbn [nn_loop]; [intros s a t; discriminate|]. apply q_bind.
  - unfold accel_intersect. apply q_bind; [apply q_start|intros _]. apply q_bind; [|intros a; apply q_bind; [apply q_stop|intros _; apply q_ret]].
    intros s a t E. unfold geometry in E. now injection E as <- <-.
  - intros [i|]; [destruct (i_null i); [apply IH|]|]; apply q_ret.
Qed.
Definition same_or_added (r : ray) (a a' : option isect) : Prop := sees lines' r a' /\ (a' = a \/ exists i, a' = Some i /\ added i).
Lemma t_loop n : forall r, together (nn_loop W now (geometry lines) n r) (nn_loop W now (geometry lines') n r) (same_or_added r).
Proof.
  induction n as [|n IH]; intros r; cbn [nn_loop]; [intros s s' a b t t' _ E1; discriminate E1|].
  apply t_bind with (1 := t_hit r). intros a a' (-> & ->). destruct (first_or_added r) as [E|(i & E & Ad)].
  - rewrite <- E. destruct (scene_hit lines' r) as [i|] eqn:Hi.
    + destruct (i_null i) eqn:N.
      * apply t_any with (2 := IH _). intros x y (Se & Q). split; [|exact Q]. exact (sees_through lines' r i y Hi N Se).
      * apply t_ret. split; [exact (sees_solid lines' r i Hi N)|now left].
    + apply t_ret. split; [exact (sees_sky lines' r Hi)|now left].
  - rewrite E, (solid i Ad). intros s s' a b t t' Ew E1 E2. injection E2 as <- <-. split.
    + split; [exact (sees_solid lines' r i E (solid i Ad))|]. right. exists i. now split.
    + rewrite <- Ew. destruct (scene_hit lines r) as [j|]; [destruct (i_null j); [exact (q_loop lines n _ s a t E1)|]|]; now injection E1 as <- <-.
Qed.
Lemma t_look r : together (intersect_non_null W now (geometry lines) nn r) (intersect_non_null W now (geometry lines') nn r) (same_or_added r).
Proof.
  unfold intersect_non_null. apply t_bind with (1 := t_loop nn r). intros a a' Q. apply t_bind with (Q := fun _ _ => True); [apply t_note|intros _ _ _]. now apply t_ret.
Qed.

Definition darker (x x' : vec3) : Prop := vle x' x.
(** one camera sample *)
Lemma t_amb_occ r : unseen r -> together (amb_occ_Li W now (geometry lines) rnd2 nn r) (amb_occ_Li W now (geometry lines') rnd2 nn r) darker.
Proof.
  intros Un. assert (L01 : darker (V3c 1) (V3c 0)) by (unfold darker, vle, V3c; cbn; lra). assert (L : forall x, darker (V3c x) (V3c x)) by (intros x; unfold darker, vle; lra).
  unfold amb_occ_Li. apply t_bind with (Q := fun _ _ => True); [apply t_start|intros _ _ _].
  apply t_bind with (1 := t_look r). intros a a' (Se & [->|(i & -> & Ad)]); [|destruct (Un i Se Ad)].
  destruct a as [its|]; (apply t_bind with (Q := fun _ _ => True); [apply t_stop|intros _ _ _]); [|now apply t_ret].
  apply t_bind with (Q := fun _ _ => True); [apply t_start|intros _ _ _]. apply t_bind with (1 := t_next2). intros u ? ->.
  apply t_bind with (Q := fun _ _ => True); [apply t_note|intros _ _ _]. apply t_bind with (1 := t_look _). intros b b' (_ & [->|(i & -> & _)]).
  - destruct b as [j|]; (apply t_bind with (Q := fun _ _ => True); [apply t_stop|intros _ _ _]); now apply t_ret.
  - destruct b as [j|]; (apply t_bind with (Q := fun _ _ => True); [apply t_stop|intros _ _ _]); now apply t_ret.
Qed.

(** the samples of a tile: none is brighter, and the same random numbers were used *)
Theorem C217_tile film clk w log xs xs' s s' : (forall px u v, unseen (camera px u v)) ->
  render W now rnd2 (amb_occ_Li W now (geometry lines) rnd2 nn) camera film (St W clk w log) = (Ok xs, s) ->
  render W now rnd2 (amb_occ_Li W now (geometry lines') rnd2 nn) camera film (St W clk w log) = (Ok xs', s') ->
  Forall2 (fun x x' => vle x' x) xs xs' /\ s_w _ s = s_w _ s'.
Proof.
  intros Un. assert (T : together (render W now rnd2 (amb_occ_Li W now (geometry lines) rnd2 nn) camera film) (render W now rnd2 (amb_occ_Li W now (geometry lines') rnd2 nn) camera film) (Forall2 darker)).
  2: { intros E1 E2. exact (T (St W clk w log) (St W clk w log) xs xs' s s' eq_refl E1 E2). }
  unfold render. apply t_bind with (Q := Forall2 darker).
  - induction film as [|px film IH]; cbn [render_samples]; [apply t_ret; constructor|].
    apply t_bind with (Q := fun _ _ => True); [apply t_start|intros _ _ _]. apply t_bind with (1 := t_next2). intros u ? ->. apply t_bind with (1 := t_next2). intros v ? ->.
    apply t_bind with (Q := fun _ _ => True); [apply t_stop|intros _ _ _]. apply t_bind with (Q := fun _ _ => True); [apply t_start|intros _ _ _].
    apply t_bind with (1 := t_amb_occ _ (Un px u v)). intros x x' D.
    apply t_bind with (Q := fun _ _ => True); [apply t_stop|intros _ _ _]. apply t_bind with (Q := fun _ _ => True); [apply t_start|intros _ _ _]. apply t_bind with (Q := fun _ _ => True); [apply t_stop|intros _ _ _].
    apply t_bind with (1 := IH). intros l l' Q. apply t_ret. now constructor.
  - intros l l' Q. apply t_bind with (Q := fun _ _ => True); [apply t_start|intros _ _ _]. apply t_bind with (Q := fun _ _ => True); [apply t_stop|intros _ _ _]. now apply t_ret.
Qed.
End Shade.
Print Assumptions C217_tile.

(** a roof above the camera and the floor: the camera does not see it, but every ambient occlusion ray
    that left the floor for the sky now ends at it *)
Definition roofed : list (nat * R * R * bool) := [(0%nat, 0, 1, false); (1%nat, 1, -1, false)].
Definition is_roof (i : isect) : Prop := i_mesh i = 1%nat /\ i_null i = false.
Lemma roof_added o d : interleaved is_roof (VolPath.sheets floor o d) (VolPath.sheets roofed o d).
Proof.
  unfold VolPath.sheets, floor, roofed. destruct (Rlt_dec 0 _); [|destruct (Rlt_dec _ 0); [|constructor]]; cbn [map rev app].
  - apply il_old, il_new; [split; reflexivity|constructor].
  - apply il_new; [split; reflexivity|]. apply il_old. constructor.
Qed.
Lemma under_roof : scene_hit (VolPath.sheets roofed) floor_ray = Some floor_point.
Proof.
  rewrite <- on_floor. unfold scene_hit, VolPath.sheets, roofed, floor, floor_ray. cbn [org dir rnear rfar vz]. destruct (Rlt_dec 0 (-1)); [lra|]. destruct (Rlt_dec (-1) 0); [|lra]. cbn [rev app map].
  unfold first_in. cbn [find]. match goal with |- (if ?b then _ else _) = _ => replace b with false; [reflexivity|] end.
  symmetry. apply andb_false_iff. left. apply not_true_is_false. intros H. apply leb_iff in H. cbn in H. unfold Epsilon in H. lra.
Qed.
Example C217_case {W} (time : W -> R) (rnd2 : W -> vec2 * W) :
  let picture ls := render W (fun w => (time w, w)) rnd2 (amb_occ_Li W (fun w => (time w, w)) (geometry (VolPath.sheets ls)) rnd2 1) (fun _ _ _ => floor_ray) in
  (forall film clk w log xs xs' s s', picture floor film (St W clk w log) = (Ok xs, s) -> picture roofed film (St W clk w log) = (Ok xs', s') -> Forall2 (fun x x' => vle x' x) xs xs' /\ s_w _ s = s_w _ s') /\
  (forall u, 0 < vz (sqrToCosHemi u) <= 1 -> scene_hit (VolPath.sheets floor) (ao_ray floor_point u) = None /\ exists i, scene_hit (VolPath.sheets roofed) (ao_ray floor_point u) = Some i).
Proof.
  intros picture. split.
  - intros film clk w log xs xs' s s'. apply (C217_tile time rnd2 (fun _ _ _ => floor_ray) 1 (VolPath.sheets floor) (VolPath.sheets roofed) is_roof roof_added); [intros i Hi; exact (proj2 Hi)|].
    intros _ _ _ i Se (Mi & _). inversion Se as [|r0 j Hj Nj|r0 j a Hj Nj Sj]; subst; rewrite under_roof in Hj; injection Hj as <-; discriminate.
  - intros u (P & P1). assert (D : vz (dir (ao_ray floor_point u)) = vz (sqrToCosHemi u)) by (cbn; ring). assert (O : vz (org (ao_ray floor_point u)) = 0) by reflexivity.
    assert (E0 : 0 < Epsilon < 1) by (unfold Epsilon; lra).
    unfold scene_hit, VolPath.sheets, floor, roofed. rewrite D. destruct (Rlt_dec 0 (vz (sqrToCosHemi u))) as [_|N]; [|destruct (N P)]. cbn [map]. unfold first_in. cbn [find].
    assert (F : Rbar_leb (rnear (ao_ray floor_point u)) (Finite (i_t (VolPath.sheet (org (ao_ray floor_point u)) (dir (ao_ray floor_point u)) (0%nat, 0, 1, false)))) = false).
    { apply not_true_is_false. intros H. apply leb_iff in H. cbn [VolPath.sheet i_t] in H. rewrite O, D in H. cbn [rnear ao_ray Rbar_le] in H. unfold Rdiv in H. rewrite Rminus_0_r, Rmult_0_l in H. lra. }
    rewrite F. cbn [andb]. split; [reflexivity|].
    match goal with |- exists i, (if ?b then _ else _) = _ => assert (B : b = true) end.
    { apply andb_true_iff. split; apply leb_iff; [|exact I]. cbn [VolPath.sheet i_t]. rewrite O, D. cbn [rnear ao_ray Rbar_le].
      assert (1 <= / vz (sqrToCosHemi u)) by (rewrite <- Rinv_1; apply Rinv_le_contravar; lra). unfold Rdiv. lra. }
    rewrite B. eexists. reflexivity.
Qed.
