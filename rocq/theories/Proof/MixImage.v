(** Scenes and images in which the lights add up. *)
From Coq Require Import Reals List Bool ZArith Lra Lia.
From Coquelicot Require Import Rbar.
From Verif.Base Require Import Outcome RSum.
From Verif.Model Require Import Vec Matrix Frame BBox Warp Camera Integrators Bsdf Scene VolPath Renderer Tiles Locks Film PoolFilm.
From Verif.Spec Require Import TilesSpec FilmSpec PoolSpec TransportSpec MixSpec.
From Verif.Proof Require Import VecLemmas FilmProof PoolFilmProof MixProof.
Import ListNotations.
Open Scope R_scope.

Section Scenes.
Context {M : Type}.
Variables S1 S2 S3 : scene M.
Hypothesis H : mixture S1 S2 S3.
Lemma chosen_mixed i : chosen_bsdf S2 i = chosen_bsdf S1 i /\ chosen_bsdf S3 i = chosen_bsdf S1 i.
Proof. unfold chosen_bsdf. destruct H as [_ _ _ (-> & _) (-> & _)]. split; reflexivity. Qed.
Lemma sc_mat_mixed : sc_mat S2 = sc_mat S1 /\ sc_mat S3 = sc_mat S1.
Proof. unfold sc_mat, chosen_bsdf. destruct H as [_ _ _ (-> & _) (-> & _)]. split; reflexivity. Qed.
Lemma sc_sample_eq : sc_sample S2 = sc_sample S1 /\ sc_sample S3 = sc_sample S1.
Proof. unfold sc_sample, chosen_bsdf. destruct H as [_ _ _ (-> & _) (-> & _)]. split; reflexivity. Qed.
Lemma sc_env_mixed r : adds (sc_env S1 r) (sc_env S2 r) (sc_env S3 r).
Proof.
  unfold sc_env. pose proof (env_mixed _ _ _ (dir r) (mx_envs _ _ _ H)) as G.
  destruct (env_emission (sc_envs S1) (dir r)), (env_emission (sc_envs S2) (dir r)), (env_emission (sc_envs S3) (dir r)); cbn in G; try contradiction; [exact G| | |]; unfold adds; vring.
Qed.
Lemma unlit_mixed b c1 c2 c3 : clos3 c1 c2 c3 -> clos3 (unlit b c1) (unlit b c2) (unlit b c3).
Proof. unfold clos3, eq3, unlit. cbn. intuition. Qed.
Lemma sc_evaluate_in_mixed i r md c1 c2 c3 : clos3 c1 c2 c3 -> tog clos3 (sc_evaluate_in S1 i r md c1) (sc_evaluate_in S2 i r md c2) (sc_evaluate_in S3 i r md c3).
Proof.
  intros C. unfold sc_evaluate_in. destruct (chosen_mixed i) as (-> & ->). apply tog_total; [apply unlit_mixed, C|].
  unfold sc_try_in. destruct H as [E _ O (-> & -> & -> & -> & -> & -> & ->) (-> & -> & -> & -> & -> & -> & ->)].
  destruct (sc_shader S1 (i_mesh i)); [apply simple_mixed|apply shade_mixed]; assumption.
Qed.
Lemma sc_evaluate_mixed i r c1 c2 c3 : clos3 c1 c2 c3 -> tog clos3 (sc_evaluate S1 i r c1) (sc_evaluate S2 i r c2) (sc_evaluate S3 i r c3).
Proof.
  intros C. unfold sc_evaluate. destruct (chosen_mixed i) as (-> & ->). apply tog_total; [apply unlit_mixed, C|].
  unfold sc_try. destruct H as [E _ O (-> & -> & -> & -> & -> & -> & ->) (-> & -> & -> & -> & -> & -> & ->)].
  destruct (sc_shader S1 (i_mesh i)); [apply simple_mixed|apply shade_mixed]; assumption.
Qed.
Lemma sc_sample_mixed i c1 c2 c3 : clos3 c1 c2 c3 -> tog clos3 (sc_sample S1 i c1) (sc_sample S1 i c2) (sc_sample S1 i c3).
Proof. intros C. apply bsdf_mixed, C. Qed.
Lemma sc_nee_mixed a b i md : tog (all3 eval3) (sc_nee S1 a b i md) (sc_nee S2 a b i md) (sc_nee S3 a b i md).
Proof.
  apply tog_total; [constructor|]. destruct H as [E _ _ (_ & -> & -> & -> & -> & -> & ->) (_ & -> & -> & -> & -> & -> & ->)].
  destruct a; [apply eval_all_mixed|apply eval_one_mixed]; assumption.
Qed.
Context {W : Type}.
Variable now : W -> R * W.
Variable hit : W -> ray -> option isect * W.
Variable rnd1 : W -> R * W.
Variable rnd2 : W -> vec2 * W.
Variable nn : nat.
Theorem scene_path_mixed n r : rm3 adds (scene_path S1 W now hit rnd1 rnd2 nn n r) (scene_path S2 W now hit rnd1 rnd2 nn n r) (scene_path S3 W now hit rnd1 rnd2 nn n r).
Proof.
  unfold scene_path. destruct sc_mat_mixed as (-> & ->), sc_sample_eq as (-> & ->).
  apply path_mixed; [apply sc_env_mixed|intros; apply sc_evaluate_mixed; assumption|intros; apply sc_sample_mixed; assumption].
Qed.
Theorem scene_whitted_mixed n r : rm3 adds (scene_whitted S1 W now hit rnd1 rnd2 nn n r) (scene_whitted S2 W now hit rnd1 rnd2 nn n r) (scene_whitted S3 W now hit rnd1 rnd2 nn n r).
Proof.
  unfold scene_whitted. destruct sc_mat_mixed as (-> & ->), sc_sample_eq as (-> & ->).
  apply whitted_mixed; [apply sc_env_mixed|intros; apply sc_evaluate_mixed; assumption|intros; apply sc_sample_mixed; assumption].
Qed.
Theorem scene_volpath_mixed boundary ms phase n fuel md r : rm3 adds (scene_volpath S1 W now hit rnd1 rnd2 boundary ms phase n fuel md r)
  (scene_volpath S2 W now hit rnd1 rnd2 boundary ms phase n fuel md r) (scene_volpath S3 W now hit rnd1 rnd2 boundary ms phase n fuel md r).
Proof.
  unfold scene_volpath. destruct sc_mat_mixed as (-> & ->), sc_sample_eq as (-> & ->).
  apply vol_mixed; [exact nn|apply sc_env_mixed|intros; apply sc_sample_mixed; assumption|intros; apply sc_nee_mixed|intros; apply sc_evaluate_in_mixed; assumption].
Qed.
End Scenes.

(** ** images *)
Definition blend (a b c : camera_sample) : Prop := eq3 (fst a) (fst b) (fst c) /\ adds (snd a) (snd b) (snd c).
Lemma blend_weight f l1 l2 l3 x y : all3 blend l1 l2 l3 -> total_weight f l2 x y = total_weight f l1 x y /\ total_weight f l3 x y = total_weight f l1 x y.
Proof.
  intros H. unfold total_weight. induction H as [|[p v] [p' v'] [p'' v''] l1 l2 l3 [(E & E') _] _ IH]; cbn in *; [auto|]. subst p' p''. unfold rsum in *; cbn. unfold offset in *; cbn in *. destruct IH as (A & B). now rewrite A, B.
Qed.
Lemma blend_weighted f l1 l2 l3 x y : all3 blend l1 l2 l3 ->
  weighted f vx l3 x y = weighted f vx l1 x y + weighted f vx l2 x y /\ weighted f vy l3 x y = weighted f vy l1 x y + weighted f vy l2 x y /\
  weighted f vz l3 x y = weighted f vz l1 x y + weighted f vz l2 x y.
Proof.
  intros H. unfold weighted, rsum. induction H as [|[p v] [p' v'] [p'' v''] l1 l2 l3 [(E & E') Q] _ IH]; cbn in *; [lra|]. unfold adds in Q. subst p' p'' v''. destruct IH as (A & B & C).
  rewrite A, B, C. unfold offset; cbn. repeat split; ring.
Qed.
Lemma blend_filtered f l1 l2 l3 x y : all3 blend l1 l2 l3 -> adds (filtered f l1 x y) (filtered f l2 x y) (filtered f l3 x y).
Proof.
  intros H. unfold filtered, adds. destruct (blend_weight f _ _ _ x y H) as (-> & ->), (blend_weighted f _ _ _ x y H) as (-> & -> & ->). destruct (Req_EM_T _ _); vring.
Qed.
Lemma blend_accumulated f i1 i2 l1 l2 l3 x y : all3 blend l1 l2 l3 ->
  adds (accumulated f i1 l1 x y) (accumulated f i2 l2 x y) (accumulated f (vadd i1 i2) l3 x y).
Proof.
  intros H. unfold accumulated, adds. destruct (blend_weight f _ _ _ x y H) as (-> & ->), (blend_weighted f _ _ _ x y H) as (-> & -> & ->). destruct (Req_EM_T _ _); vring.
Qed.
Lemma all3_app {A} (R : A -> A -> A -> Prop) l1 l2 l3 m1 m2 m3 : all3 R l1 l2 l3 -> all3 R m1 m2 m3 -> all3 R (l1 ++ m1) (l2 ++ m2) (l3 ++ m3).
Proof. intros H G. induction H; cbn; [exact G|constructor; assumption]. Qed.

Section Image.
Context {W : Type}.
Variable rnd2 : W -> vec2 * W.
Variables Li1 Li2 Li3 : ray -> Integrators.M W vec3.
Variable camera : vec2 -> vec2 -> ray.
Hypothesis Li_mixed : forall r, rm3 adds (Li1 r) (Li2 r) (Li3 r).
Lemma draw_mixed pixels : forall s1 s2 s3, like3 s1 s2 s3 ->
  all3 blend (draw (st W) (next_point rnd2) (radiance Li1 camera) pixels s1) (draw (st W) (next_point rnd2) (radiance Li2 camera) pixels s2)
             (draw (st W) (next_point rnd2) (radiance Li3 camera) pixels s3).
Proof.
  induction pixels as [|[j i] l IH]; intros [c w h] [c' w' h'] [c'' w'' h''] (E1 & E2 & E3 & E4); cbn [draw]; [constructor|]. cbn in E1, E2, E3, E4. subst.
  unfold take_sample, next_point. cbn [s_w s_clk s_log]. destruct (rnd2 w) as [u w1]. cbn [s_w s_clk s_log]. destruct (rnd2 w1) as [a w2].
  unfold radiance. set (ps := V2 (IZR j + x2 u) (IZR i + y2 u)).
  destruct (Li_mixed (camera ps a) (St W c w2 h) (St W c w2 h') (St W c w2 h'')) as (O & Q); [repeat split|].
  destruct (Li1 (camera ps a) (St W c w2 h)) as [[v|m| |] s1], (Li2 (camera ps a) (St W c w2 h')) as [[v'|m'| |] s1'], (Li3 (camera ps a) (St W c w2 h'')) as [[v''|m''| |] s1''];
    cbn in O; try contradiction; cbn [snd] in Q;
    (constructor; [split; [split; reflexivity|]|apply IH; exact Q]); [exact O| | |]; unfold adds; cbn; vring.
Qed.
Theorem image_mixed fsize feval spp w h i1 i2 i3 s : supported feval fsize ->
  exists im1 im2 im3 t1 t2 t3, render (st W) (next_point rnd2) (radiance Li1 camera) fsize feval spp w h i1 s = Ok (im1, t1) /\
    render (st W) (next_point rnd2) (radiance Li2 camera) fsize feval spp w h i2 s = Ok (im2, t2) /\
    render (st W) (next_point rnd2) (radiance Li3 camera) fsize feval spp w h i3 s = Ok (im3, t3) /\
    forall x y, in_film w h x y -> im3 x y = vadd (im1 x y) (im2 x y).
Proof.
  intros Su. destruct (render_spec (st W) (next_point rnd2) (radiance Li1 camera) fsize feval spp w h i1 s Su) as (im1 & t1 & E1 & H1 & _).
  destruct (render_spec (st W) (next_point rnd2) (radiance Li2 camera) fsize feval spp w h i2 s Su) as (im2 & t2 & E2 & H2 & _).
  destruct (render_spec (st W) (next_point rnd2) (radiance Li3 camera) fsize feval spp w h i3 s Su) as (im3 & t3 & E3 & H3 & _).
  exists im1, im2, im3, t1, t2, t3. split; [exact E1|]. split; [exact E2|]. split; [exact E3|]. intros x y F. rewrite H1, H2, H3 by exact F.
  apply blend_filtered. apply draw_mixed. repeat split.
Qed.
Theorem pool_image_mixed {M} (next1D : M -> R * M) (copy : M -> R -> st W) fsize feval n1 n2 n3 spp w h tiles i1 i2 m p1 l1 p2 l2 p3 l3 :
  supported feval fsize -> NoDup tiles -> (n1 <= length tiles)%nat -> (n2 <= length tiles)%nat -> (n3 <= length tiles)%nat ->
  csteps (rev tiles) (cinit M (st W) next1D copy (next_point rnd2) (radiance Li1 camera) fsize feval n1 spp w h tiles i1 m) (Run p1, l1) -> p_pc p1 = PDone ->
  csteps (rev tiles) (cinit M (st W) next1D copy (next_point rnd2) (radiance Li2 camera) fsize feval n2 spp w h tiles i2 m) (Run p2, l2) -> p_pc p2 = PDone ->
  csteps (rev tiles) (cinit M (st W) next1D copy (next_point rnd2) (radiance Li3 camera) fsize feval n3 spp w h tiles (fun x y => vadd (i1 x y) (i2 x y)) m) (Run p3, l3) -> p_pc p3 = PDone ->
  forall x y, in_film w h x y -> pool_finish w (l_mem l3) x y = vadd (pool_finish w (l_mem l1) x y) (pool_finish w (l_mem l2) x y).
Proof.
  intros Su ND L1 L2 L3 C1 D1 C2 D2 C3 D3 x y F.
  rewrite (pool_render _ _ _ _ _ _ _ _ n1 spp w h tiles i1 m p1 l1 Su ND L1 C1 D1 x y F).
  rewrite (pool_render _ _ _ _ _ _ _ _ n2 spp w h tiles i2 m p2 l2 Su ND L2 C2 D2 x y F).
  rewrite (pool_render _ _ _ _ _ _ _ _ n3 spp w h tiles _ m p3 l3 Su ND L3 C3 D3 x y F).
  apply blend_accumulated. unfold all_samples. generalize (combine (rev tiles) (tile_samplers M (st W) next1D copy (length tiles) m)).
  intros ts. induction ts as [|[ti s] ts IH]; cbn; [constructor|]. apply all3_app; [|exact IH]. apply draw_mixed. repeat split.
Qed.
End Image.

(** ** groups of lights *)
Lemma off_mixed e : mixed (off e) e e /\ mixed e (off e) e.
Proof.
  assert (A : forall v, vadd (V3c 0) v = v) by (intros; vring). assert (B : forall v, vadd v (V3c 0) = v) by (intros; vring).
  destruct e; cbn; split.
  all: match goal with |- mixed ?a ?b _ => idtac end.
  - rewrite <- (A power) at 2. constructor.
  - rewrite <- (B power) at 2. constructor.
  - rewrite <- (A radiance) at 2. constructor.
  - rewrite <- (B radiance) at 2. constructor.
  - rewrite <- (A radiance) at 2. constructor.
  - rewrite <- (B radiance) at 2. constructor.
  - rewrite <- (A intensity) at 2. constructor.
  - rewrite <- (B intensity) at 2. constructor.
  - rewrite <- (A intensity) at 2. constructor.
  - rewrite <- (B intensity) at 2. constructor.
  - rewrite <- (A intensity) at 2. constructor.
  - rewrite <- (B intensity) at 2. constructor.
  - rewrite <- (A top) at 2. rewrite <- (A bot) at 2. constructor.
  - rewrite <- (B top) at 2. rewrite <- (B bot) at 2. constructor.
Qed.
Lemma only_mixed g e : mixed (only g e) (only (fun e => negb (g e)) e) e.
Proof. unfold only. destruct (g e); cbn; apply off_mixed. Qed.
Lemma groups_mixed {M} g (S : scene M) : mixture (lit g S) (lit (fun e => negb (g e)) S) S.
Proof.
  assert (L : forall l, all3 mixed (map (only g) l) (map (only (fun e => negb (g e))) l) l) by (induction l; constructor; [apply only_mixed|assumption]).
  constructor; cbn; auto; try (repeat split).
  intros n. destruct (sc_object_emitter S n); cbn; [apply only_mixed|exact I].
Qed.

