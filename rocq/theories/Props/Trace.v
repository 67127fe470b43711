(** C214: objects that no ray meets do not change the picture. *)
From Coq Require Import Reals List Bool Lra Lia.
From Coquelicot Require Import Rbar.
From Verif.Base Require Import Outcome.
From Verif.Model Require Import Vec Frame BBox Warp Clocker Integrators Bsdf Scene Renderer VolPath.
From Verif.Spec Require Import IntegratorSpec SceneSpec PathSpec TraceSpec.
From Verif.Proof Require Import VecLemmas IntegratorProof SceneProof PaintProof TraceProof.
From Verif.Props Require VolPath.
From Verif.Props Require Import Lamps.
Import ListNotations.
Open Scope R_scope.

(** with objects added a ray meets what it met before, or one of them *)
Lemma met_before added lines lines' r : (forall o d, interleaved added (lines o d) (lines' o d)) ->
  (forall i, scene_hit lines' r = Some i -> ~ added i) -> scene_hit lines' r = scene_hit lines r.
Proof.
  intros H Un. unfold scene_hit, first_in in *. induction (H (org r) (dir r)) as [|i l l' _ IH|i l l' Ad _ IH]; [reflexivity| |]; cbn [find] in *.
  - destruct (_ && _)%bool; [reflexivity|exact (IH Un)].
  - destruct (_ && _)%bool; [destruct (Un i eq_refl Ad)|exact (IH Un)].
Qed.

Section Trace.
Context {Med W : Type}.
Variable S : scene Med.
(** any clock and any random numbers *)
Variable now : W -> R * W.
Variable rnd1 : W -> R * W.
Variable rnd2 : W -> vec2 * W.
Variable camera : nat -> vec2 -> vec2 -> ray.
Variable film : list nat.
Variable nn : nat.
(** the scene without and with the added objects, of any material *)
Variable lines lines' : vec3 -> vec3 -> list isect.
Variable added : isect -> Prop.
Hypothesis objects : forall o d, interleaved added (lines o d) (lines' o d).
Variable clk : clocker.
Variable w : W.
Variable log : list event.
Definition geometry (ls : vec3 -> vec3 -> list isect) : W -> ray -> option isect * W := fun w r => (scene_hit ls r, w).
Notation V := (W * list ray)%type.
Notation wnow := (watched_now now). Notation whit := (watched_hit (geometry lines)). Notation wrnd1 := (watched_rnd1 rnd1). Notation wrnd2 := (watched_rnd2 rnd2).
(** no ray of the render, of the scene without the objects, meets one of them first *)
Definition out_of_sight {A} (x : outcome A * st V) : Prop := forall r i, In r (traced x) -> scene_hit lines' r = Some i -> ~ added i.

Lemma render_same Li Li1 Li2 : (forall r, follows (geometry lines) (geometry lines') (Li r) (Li1 r) (Li2 r)) ->
  let x := render V wnow wrnd2 Li camera film (St V clk (w, []) log) in
  render W now rnd2 Li1 camera film (St W clk w log) = unwatched x /\
  (out_of_sight x -> render W now rnd2 Li2 camera film (St W clk w log) = render W now rnd2 Li1 camera film (St W clk w log)).
Proof.
  intros F x. destruct (f_render now (geometry lines) (geometry lines') rnd2 Li Li1 Li2 camera film F clk w log []) as (new & T & P & Q). cbv zeta in *. fold x in T, P, Q.
  split; [exact P|]. intros Un. rewrite P. apply Q. intros r Ir w0. unfold geometry. f_equal. apply (met_before added); [exact objects|]. intros i. apply Un. rewrite T, app_nil_r. exact Ir.
Qed.

(** C214: the tile of the image, the random numbers used, the clocks and the log are the same *)
Theorem C214_path n :
  let render_it ls := render W now rnd2 (scene_path S W now (geometry ls) rnd1 rnd2 nn n) camera film (St W clk w log) in
  let x := render V wnow wrnd2 (scene_path S V wnow whit wrnd1 wrnd2 nn n) camera film (St V clk (w, []) log) in
  render_it lines = unwatched x /\ (out_of_sight x -> render_it lines' = render_it lines).
Proof. apply render_same. intros r. apply f_path. Qed.
Theorem C214_whitted fuel :
  let render_it ls := render W now rnd2 (scene_whitted S W now (geometry ls) rnd1 rnd2 nn fuel) camera film (St W clk w log) in
  let x := render V wnow wrnd2 (scene_whitted S V wnow whit wrnd1 wrnd2 nn fuel) camera film (St V clk (w, []) log) in
  render_it lines = unwatched x /\ (out_of_sight x -> render_it lines' = render_it lines).
Proof. apply render_same. intros r. apply f_whitted. Qed.
Theorem C214_volpath boundary med_sample phase_sample n fuel md :
  let render_it ls := render W now rnd2 (scene_volpath S W now (geometry ls) rnd1 rnd2 boundary med_sample phase_sample n fuel md) camera film (St W clk w log) in
  let x := render V wnow wrnd2 (scene_volpath S V wnow whit wrnd1 wrnd2 boundary med_sample phase_sample n fuel md) camera film (St V clk (w, []) log) in
  render_it lines = unwatched x /\ (out_of_sight x -> render_it lines' = render_it lines).
Proof. apply render_same. intros r. apply f_as_Li. Qed.
Theorem C214_amb_occ :
  let render_it ls := render W now rnd2 (amb_occ_Li W now (geometry ls) rnd2 nn) camera film (St W clk w log) in
  let x := render V wnow wrnd2 (amb_occ_Li V wnow whit wrnd2 nn) camera film (St V clk (w, []) log) in
  render_it lines = unwatched x /\ (out_of_sight x -> render_it lines' = render_it lines).
Proof. apply render_same. intros r. apply f_amb_occ. Qed.
End Trace.
Print Assumptions C214_path.
Print Assumptions C214_whitted.
Print Assumptions C214_volpath.
Print Assumptions C214_amb_occ.

(** a basement below the floor: ambient occlusion of the floor is the same, whatever the random numbers *)
Section Keeps.
Context {W : Type}.
Variable P : ray -> Prop.
Notation V := (W * list ray)%type.
(** all rays traced are of a kind, and results are *)
Definition keeps {A} (m : M V A) (Q : A -> Prop) : Prop := forall s, List.Forall P (snd (s_w _ s)) -> List.Forall P (traced (m s)) /\ forall a, fst (m s) = Ok a -> Q a.
Lemma k_bind {A B} (m : M V A) (f : A -> M V B) Q R0 : keeps m Q -> (forall a, Q a -> keeps (f a) R0) -> keeps (bindM V m f) R0.
Proof.
  intros H F s Fs. destruct (H s Fs) as (H1 & H2). unfold bindM. destruct (m s) as [[a|e| |] s1]; cbn in *; try (split; [exact H1|discriminate]).
  exact (F a (H2 a eq_refl) s1 H1).
Qed.
Lemma k_any {A} (m : M V A) (Q Q' : A -> Prop) : (forall a, Q a -> Q' a) -> keeps m Q -> keeps m Q'.
Proof. intros I H s Fs. destruct (H s Fs) as (H1 & H2). split; [exact H1|]. intros a Ha. apply I, H2, Ha. Qed.
Lemma k_ret {A} (a : A) (Q : A -> Prop) : Q a -> keeps (ret V a) Q.
Proof. intros H s Fs. split; [exact Fs|]. intros b [= <-]. exact H. Qed.
Lemma k_start now c : keeps (clk_start V (watched_now now) c) (fun _ => True).
Proof. intros s Fs. split; [|trivial]. unfold clk_start, watched_now. destruct (now _). destruct (start_clock _ _ _); exact Fs. Qed.
Lemma k_stop now c : keeps (clk_stop V (watched_now now) c) (fun _ => True).
Proof. intros s Fs. split; [|trivial]. unfold clk_stop, watched_now. destruct (now _). destruct (end_clock _ _ _); exact Fs. Qed.
Lemma k_note e : keeps (note V e) (fun _ => True).
Proof. intros s Fs. split; [exact Fs|trivial]. Qed.
Lemma k_next2 rnd2 : keeps (next2 V (watched_rnd2 rnd2)) (fun _ => True).
Proof. intros s Fs. split; [|trivial]. unfold next2, watched_rnd2. destruct (rnd2 _). exact Fs. Qed.
Lemma k_non_null now ls r a : P r -> scene_hit ls r = a -> (forall i, a = Some i -> i_null i = false) -> keeps (intersect_non_null V (watched_now now) (watched_hit (geometry ls)) 1 r) (fun b => b = a).
Proof.
  intros Pr Ha So. unfold intersect_non_null. apply k_bind with (Q := fun b => b = a).
  - cbn [nn_loop]. apply k_bind with (Q := fun b => b = a).
    + unfold accel_intersect. apply k_bind with (Q := fun _ => True); [apply k_start|intros _ _]. apply k_bind with (Q := fun b => b = a).
      * intros s Fs. unfold watched_hit, geometry. cbn. split; [constructor; assumption|]. intros b [= <-]. exact Ha.
      * intros b ->. apply k_bind with (Q := fun _ => True); [apply k_stop|intros _ _]. apply k_ret. reflexivity.
    + intros b ->. destruct a as [i|]; [rewrite (So i eq_refl)|]; apply k_ret; reflexivity.
  - intros b ->. apply k_bind with (Q := fun _ => True); [apply k_note|intros _ _]. apply k_ret. reflexivity.
Qed.
End Keeps.
Lemma floor_never_null r i : scene_hit (VolPath.sheets floor) r = Some i -> i_null i = false.
Proof.
  intros H. unfold scene_hit, first_in in H. apply find_some in H as (H & _). unfold VolPath.sheets, floor in H.
  destruct (Rlt_dec 0 _); [|destruct (Rlt_dec _ 0); [|destruct H]]; cbn in H; destruct H as [<-|[]]; reflexivity.
Qed.
Definition cellar : list (nat * R * R * bool) := [(1%nat, -1, 1, false); (0%nat, 0, 1, false)].
Example C214_case {W} (rnd2 : W -> vec2 * W) (w : W) :
  let basement i := i_mesh i = 1%nat in
  let render_it ls := render W (fun w => (0, w)) rnd2 (amb_occ_Li W (fun w => (0, w)) (geometry ls) rnd2 1) (fun _ _ _ => floor_ray) [0%nat; 1%nat] (St W clk_init w []) in
  (forall o d, interleaved basement (VolPath.sheets floor o d) (VolPath.sheets cellar o d)) /\ render_it (VolPath.sheets cellar) = render_it (VolPath.sheets floor).
Proof.
  intros basement render_it. assert (Ob : forall o d, interleaved basement (VolPath.sheets floor o d) (VolPath.sheets cellar o d)).
  { intros o d. unfold VolPath.sheets, floor, cellar. destruct (Rlt_dec 0 _); [|destruct (Rlt_dec _ 0); [|constructor]]; cbn [map rev app]; [apply il_new; [reflexivity|]; apply il_old; constructor|].
    apply il_old, il_new; [reflexivity|constructor]. }
  split; [exact Ob|]. unfold render_it.
  apply (proj2 (C214_amb_occ (fun w => (0, w)) rnd2 (fun _ _ _ => floor_ray) [0%nat; 1%nat] 1 (VolPath.sheets floor) (VolPath.sheets cellar) basement Ob clk_init w [])).
  assert (Seen : forall r i, (r = floor_ray \/ exists u, r = ao_ray floor_point u) -> scene_hit (VolPath.sheets cellar) r = Some i -> ~ basement i).
  { assert (E0 : 0 < Epsilon) by (unfold Epsilon; lra).
    assert (Fl : scene_hit (VolPath.sheets cellar) floor_ray = Some floor_point).
    { rewrite <- on_floor. unfold scene_hit, VolPath.sheets, cellar, floor, floor_ray. cbn [org dir rnear rfar vz]. destruct (Rlt_dec 0 (-1)); [lra|]. destruct (Rlt_dec (-1) 0); [|lra]. cbn [rev app map first_in].
      unfold first_in. cbn [find]. set (x := VolPath.sheet _ _ _). replace (_ && _)%bool with true; [reflexivity|]. symmetry. apply andb_true_iff. split; apply leb_iff; cbn; [unfold Epsilon; lra|exact I]. }
    intros r i [->|(u & ->)] Hi B; [rewrite Fl in Hi; injection Hi as <-; discriminate B|].
    unfold scene_hit, first_in in Hi; apply find_some in Hi as (Hi & Ra); apply andb_true_iff in Ra as (Ra & _); apply leb_iff in Ra. cbn in Ra. unfold VolPath.sheets, cellar in Hi.
    pose proof (cos_hemi_up u) as Up. assert (D : vz (dir (ao_ray floor_point u)) = vz (sqrToCosHemi u)) by (cbn; ring). rewrite D in Hi.
    destruct (Rlt_dec 0 _) as [P|]; [|destruct (Rlt_dec _ 0); [lra|destruct Hi]]. cbn [map] in Hi. destruct Hi as [<-|[<-|[]]]; [|discriminate B].
    change (Epsilon <= (-1 - 0) / vz (dir (ao_ray floor_point u))) in Ra. rewrite D in Ra.
    assert (0 < / vz (sqrToCosHemi u)) by (apply Rinv_0_lt_compat, P). unfold Rdiv in Ra. nra. }
  intros r i Ir. apply Seen. clear Seen i. revert Ir.
  set (P := fun r => r = floor_ray \/ exists u, r = ao_ray floor_point u). match goal with |- In r (traced (?m ?s)) -> _ => cut (keeps P m (fun _ => True)); [intros K Ir; exact (proj1 (List.Forall_forall _ _) (proj1 (K s (List.Forall_nil _))) r Ir)|] end.
  clear r Ob render_it.
  assert (Ao : keeps P (amb_occ_Li (W * list ray) (watched_now (fun w0 : W => (0, w0))) (watched_hit (geometry (VolPath.sheets floor))) (watched_rnd2 rnd2) 1 floor_ray) (fun _ => True)).
  { unfold amb_occ_Li. apply k_bind with (Q := fun _ => True); [apply k_start|intros _ _]. apply k_bind with (Q := fun a => a = Some floor_point).
    - apply k_non_null; [now left|exact on_floor|]. intros i [= <-]. reflexivity.
    - intros a ->. apply k_bind with (Q := fun _ => True); [apply k_stop|intros _ _]. apply k_bind with (Q := fun _ => True); [apply k_start|intros _ _]. apply k_bind with (Q := fun _ => True); [apply k_next2|intros u _].
      apply k_bind with (Q := fun _ => True); [apply k_note|intros _ _]. apply k_bind with (Q := fun _ => True).
      + apply k_any with (2 := k_non_null P _ _ _ _ (or_intror (ex_intro _ u eq_refl)) eq_refl (floor_never_null _)). trivial.
      + intros [j|] _; (apply k_bind with (Q := fun _ => True); [apply k_stop|intros _ _; apply k_ret; exact I]). }
  unfold render. apply k_bind with (Q := fun _ => True).
  - generalize [0%nat; 1%nat] as film. induction film as [|px film IH]; cbn [render_samples]; [apply k_ret; exact I|].
    repeat (apply k_bind with (Q := fun _ => True); [first [apply k_start|apply k_stop|apply k_next2|exact Ao|exact IH]|intros ? _]). apply k_ret. exact I.
  - intros xs _. repeat (apply k_bind with (Q := fun _ => True); [first [apply k_start|apply k_stop]|intros ? _]). apply k_ret. exact I.
Qed.
