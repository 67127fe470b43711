(** Images of two scenes that differ by a displacement and by the strength of the lights. *)
From Coq Require Import Reals List Bool ZArith Lra Lia.
From Coquelicot Require Import Rbar.
From Verif.Base Require Import Outcome RSum.
From Verif.Model Require Import Vec Matrix Frame BBox Warp Camera Integrators Tiles Locks Film PoolFilm.
From Verif.Spec Require Import TilesSpec FilmSpec PoolSpec TransportSpec.
From Verif.Proof Require Import VecLemmas FilmProof PoolFilmProof TransportProof.
Import ListNotations.
Open Scope R_scope.

Definition tinted (k : vec3) (e e' : camera_sample) : Prop := fst e' = fst e /\ snd e' = vmul (snd e) k.

Lemma tinted_weight f k evs evs' x y : Forall2 (tinted k) evs evs' -> total_weight f evs' x y = total_weight f evs x y.
Proof.
  intros H. unfold total_weight. f_equal. induction H as [|[p v] [p' v'] l l' [E _] _ IH]; cbn in *; [reflexivity|]. subst p'. now rewrite IH.
Qed.
Lemma tinted_weighted f k evs evs' x y : Forall2 (tinted k) evs evs' ->
  weighted f vx evs' x y = weighted f vx evs x y * vx k /\ weighted f vy evs' x y = weighted f vy evs x y * vy k /\
  weighted f vz evs' x y = weighted f vz evs x y * vz k.
Proof.
  intros H. unfold weighted, rsum. induction H as [|[p v] [p' v'] l l' [E E'] _ IH]; cbn in *; [lra|]. subst p' v'. destruct IH as (A & B & C). rewrite A, B, C.
  unfold offset; cbn. repeat split; ring.
Qed.
Lemma tinted_filtered f k evs evs' x y : Forall2 (tinted k) evs evs' -> filtered f evs' x y = vmul (filtered f evs x y) k.
Proof.
  intros H. unfold filtered. rewrite (tinted_weight f k evs evs' x y H). destruct (tinted_weighted f k evs evs' x y H) as (A & B & C). rewrite A, B, C.
  destruct (Req_EM_T _ _); vring.
Qed.
Lemma tinted_accumulated f k evs evs' i x y : Forall2 (tinted k) evs evs' -> accumulated f (vmul i k) evs' x y = vmul (accumulated f i evs x y) k.
Proof.
  intros H. unfold accumulated. rewrite (tinted_weight f k evs evs' x y H). destruct (tinted_weighted f k evs evs' x y H) as (A & B & C). rewrite A, B, C.
  destruct (Req_EM_T _ _); vring.
Qed.

Section Image.
Context {W : Type}.
Variables t k : vec3.
Variable rnd2 : W -> vec2 * W.
Variables Li Li' : ray -> Integrators.M W vec3.
Variables camera camera' : vec2 -> vec2 -> ray.
Hypothesis Li_moved : same_integrator t k Li Li'.
Hypothesis camera_moved : forall ps a, camera' ps a = moved_ray t (camera ps a).

Lemma draw_moved pixels : forall s s', like s s' ->
  Forall2 (tinted k) (draw (st W) (next_point rnd2) (radiance Li camera) pixels s)
                     (draw (st W) (next_point rnd2) (radiance Li' camera') pixels s').
Proof.
  induction pixels as [|[j i] l IH]; intros [c w h] [c' w' h'] [E1 E2]; cbn [draw]; [constructor|]. cbn in E1, E2. subst.
  unfold take_sample, next_point. cbn [s_w s_clk s_log]. destruct (rnd2 w) as [u w1]. cbn [s_w s_clk s_log]. destruct (rnd2 w1) as [a w2].
  unfold radiance. rewrite camera_moved. set (ps := V2 (IZR j + x2 u) (IZR i + y2 u)).
  destruct (Li_moved (camera ps a) (St W c w2 h) (St W c w2 h') eq_refl eq_refl) as (O & Q).
  destruct (Li (camera ps a) (St W c w2 h)) as [[v|m| |] s1], (Li' (moved_ray t (camera ps a)) (St W c w2 h')) as [[v'|m'| |] s1']; cbn in O; try contradiction; cbn [snd] in Q;
    (constructor; [split; [reflexivity|]|apply IH; exact Q]); [exact O| | |]; cbn; vring.
Qed.

Theorem image_moved fsize feval spp w h img0 img0' s : supported feval fsize ->
  exists im im' s1 s1', render (st W) (next_point rnd2) (radiance Li camera) fsize feval spp w h img0 s = Ok (im, s1) /\
    render (st W) (next_point rnd2) (radiance Li' camera') fsize feval spp w h img0' s = Ok (im', s1') /\
    forall x y, in_film w h x y -> im' x y = vmul (im x y) k.
Proof.
  intros Su. destruct (render_spec (st W) (next_point rnd2) (radiance Li camera) fsize feval spp w h img0 s Su) as (im & s1 & E & H & _).
  destruct (render_spec (st W) (next_point rnd2) (radiance Li' camera') fsize feval spp w h img0' s Su) as (im' & s1' & E' & H' & _).
  exists im, im', s1, s1'. split; [exact E|]. split; [exact E'|]. intros x y F. rewrite H, H' by exact F.
  apply tinted_filtered. apply draw_moved. split; reflexivity.
Qed.

Theorem pool_image_moved {M} (next1D : M -> R * M) (copy : M -> R -> st W) fsize feval n n' spp w h tiles img0 m p l p' l' :
  supported feval fsize -> NoDup tiles -> (n <= length tiles)%nat -> (n' <= length tiles)%nat ->
  csteps (rev tiles) (cinit M (st W) next1D copy (next_point rnd2) (radiance Li camera) fsize feval n spp w h tiles img0 m) (Run p, l) -> p_pc p = PDone ->
  csteps (rev tiles) (cinit M (st W) next1D copy (next_point rnd2) (radiance Li' camera') fsize feval n' spp w h tiles (fun x y => vmul (img0 x y) k) m) (Run p', l') -> p_pc p' = PDone ->
  forall x y, in_film w h x y -> pool_finish w (l_mem l') x y = vmul (pool_finish w (l_mem l) x y) k.
Proof.
  intros Su ND L L' C D C' D' x y F.
  rewrite (pool_render _ _ _ _ _ _ _ _ n spp w h tiles img0 m p l Su ND L C D x y F).
  rewrite (pool_render _ _ _ _ _ _ _ _ n' spp w h tiles _ m p' l' Su ND L' C' D' x y F).
  apply tinted_accumulated. unfold all_samples. generalize (combine (rev tiles) (tile_samplers M (st W) next1D copy (length tiles) m)).
  intros ts. induction ts as [|[ti s] ts IH]; cbn; [constructor|]. apply Forall2_app; [|exact IH]. apply draw_moved. split; reflexivity.
Qed.
End Image.

(** the camera moved with its target *)
Lemma look_moved o g up t : look_at (vadd o t) (vadd g t) up =
  m4_setCol (look_at o g up) 3 (V4_of3 (vadd o t) 1).
Proof.
  assert (Z0 : look_z (vadd o t) (vadd g t) = look_z o g) by (unfold look_z; now rewrite vsub_moved).
  assert (X0 : look_x (vadd o t) (vadd g t) up = look_x o g up) by (unfold look_x; now rewrite Z0).
  assert (Y0 : look_y (vadd o t) (vadd g t) up = look_y o g up) by (unfold look_y; now rewrite Z0, X0).
  unfold look_at. rewrite X0, Y0, Z0. reflexivity.
Qed.
Lemma point_moved o g up t p :
  tf_point (tf_of (m4_setCol (look_at o g up) 3 (V4_of3 (vadd o t) 1))) p = vadd (tf_point (tf_of (look_at o g up)) p) t.
Proof.
  assert (T : forall m, tf_point (tf_of m) p = (let hom := m4_vec m (V4_of3 p 1) in vdiv (head4 hom) (ww hom))) by reflexivity.
  rewrite !T. clear T. unfold look_at. set (X := look_x o g up); set (Y := look_y o g up); set (Z0 := look_z o g). clearbody X Y Z0.
  destruct o, p, t, X, Y, Z0. apply V3_eq; cbn; field.
Qed.
Lemma vector_moved o g up t v :
  tf_vector (tf_of (m4_setCol (look_at o g up) 3 (V4_of3 (vadd o t) 1))) v = tf_vector (tf_of (look_at o g up)) v.
Proof.
  assert (T : forall m, tf_vector (tf_of m) v = m3_vec (topLeft m) v) by reflexivity.
  rewrite !T. f_equal.
Qed.
Lemma camera_moved ap fd fv n f fw fh o g up t film app :
  sampleRay (Persp ap fd fv n f fw fh (tf_of (look_at (vadd o t) (vadd g t) up))) film app =
  moved_ray t (sampleRay (Persp ap fd fv n f fw fh (tf_of (look_at o g up))) film app).
Proof.
  rewrite look_moved. unfold sampleRay, moved_ray, lens_dir, lens_point, cam_dir, sampleToCamera, persp_mat.
  cbn [cnear cfar camToWorld aperture focalDist fov filmW filmH org dir rnear rfar]. rewrite point_moved, vector_moved. reflexivity.
Qed.
