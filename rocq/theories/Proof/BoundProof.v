(** Bounds on camera samples of the path integrator. *)
From Coq Require Import Reals List Bool ZArith Lra Lia.
From Coquelicot Require Import Rbar.
From Verif.Base Require Import Outcome.
From Verif.Model Require Import Vec Frame BBox Warp Clocker Integrators Bsdf Scene Renderer.
From Verif.Spec Require Import IntegratorSpec BoundSpec.
From Verif.Proof Require Import VecLemmas IntegratorProof SceneProof.
Import ListNotations.
Open Scope R_scope.

(** what holds of the result of a run that ends normally *)
Definition post {W A} (m : Integrators.M W A) (P : A -> Prop) : Prop := forall s, match fst (m s) with Ok a => P a | _ => True end.

Section Post.
Context {W : Type}.
Variable now : W -> R * W.
Variable hit : W -> ray -> option isect * W.
Variable rnd1 : W -> R * W.
Variable rnd2 : W -> vec2 * W.
Lemma post_ret {A} (a : A) (P : A -> Prop) : P a -> post (ret W a) P.
Proof. intros H s. exact H. Qed.
Lemma post_bind {A B} (m : Integrators.M W A) f (Q : A -> Prop) (P : B -> Prop) : post m Q -> (forall a, Q a -> post (f a) P) -> post (bindM W m f) P.
Proof.
  intros H K s. unfold bindM. specialize (H s). destruct (m s) as [[a| | |] s1]; cbn in *; auto. apply K, H.
Qed.
Lemma post_any {A} (m : Integrators.M W A) : post m (fun _ => True).
Proof. intros s. destruct (fst (m s)); exact I. Qed.
Lemma post_seq {A B} (m : Integrators.M W A) f (P : B -> Prop) : (forall a, post (f a) P) -> post (bindM W m f) P.
Proof. intros H. eapply post_bind; [apply post_any|auto]. Qed.
Lemma post_weaken {A} (m : Integrators.M W A) (P Q : A -> Prop) : post m P -> (forall a, P a -> Q a) -> post m Q.
Proof. intros H K s. specialize (H s). destruct (fst (m s)); auto. Qed.
Definition reported (a : option isect) : Prop := forall i, a = Some i -> exists w r, fst (hit w r) = Some i.
Lemma post_accel r : post (accel_intersect W now hit r) reported.
Proof.
  unfold accel_intersect. apply post_seq. intros _. eapply post_bind with (Q := reported).
  - intros s. destruct (hit (s_w W s) r) as [a w] eqn:E. cbn. intros i ->. exists (s_w W s), r. now rewrite E.
  - intros a H. apply post_seq. intros _. apply post_ret, H.
Qed.
Lemma post_query {A} (q : query A) : post (run_query W now hit rnd1 rnd2 q) (leaf q).
Proof.
  induction q as [a|r k IH|k IH|k IH]; cbn [run_query]; [apply post_ret; constructor| | |];
    (apply post_seq; intros x s; specialize (IH x s); destruct (fst _); auto; econstructor; exact IH).
Qed.
Lemma post_nn n : forall r, post (nn_loop W now hit n r) reported.
Proof.
  induction n as [|n IH]; intros r; cbn [nn_loop]; [intros s; exact I|]. eapply post_bind; [apply post_accel|].
  intros [i|] H; [destruct (i_null i); [apply IH|]|]; apply post_ret, H.
Qed.
Lemma post_ray n r : post (intersect_non_null W now hit n r) reported.
Proof. unfold intersect_non_null. eapply post_bind; [apply post_nn|]. intros a H. apply post_seq. intros _. apply post_ret, H. Qed.

Lemma within_add a b x y : within a x -> within b y -> within (a + b) (vadd x y).
Proof. unfold within; cbn; intros; lra. Qed.
Lemma within_mul b x y : within 1 x -> within b y -> within b (vmul x y).
Proof. unfold within; cbn; intros; repeat split; nra. Qed.
Lemma within_le a b x : a <= b -> within a x -> within b x.
Proof. unfold within; intros; lra. Qed.
Lemma within_0 b : 0 <= b -> within b (V3c 0).
Proof. unfold within; cbn; intros; lra. Qed.

(** a throughput within 1 stays within 1 *)
Lemma roulette_pos beta : within 1 beta -> ~ isZero beta -> 0 < rr_prob beta <= 1 /\ vx beta <= rr_prob beta /\ vy beta <= rr_prob beta /\ vz beta <= rr_prob beta.
Proof.
  intros (X & Y & Z) N. unfold rr_prob. rewrite maxValue_Rmax. unfold isZero in N. rewrite !Rabs_pos_eq in N by lra.
  destruct beta as [x y z]; cbn in *. unfold Rmax, Rmin. repeat destruct (Rle_dec _ _); try lra;
    (split; [|lra]; split; [|lra]; destruct (Rle_dec (1/10000) x), (Rle_dec (1/10000) y), (Rle_dec (1/10000) z); try lra; exfalso; apply N; lra).
Qed.
Definition fair (i : isect) (c : closure) : Prop :=
  c_pdf c <> 0 -> 0 < c_pdf c /\ within (c_pdf c) (vscale (c_albedo c) (cos_term i c)).
Lemma ratio x a p r : 0 <= x <= r -> 0 < r -> 0 < p -> 0 <= a <= p -> 0 <= x * (a / (p * r)) <= 1.
Proof.
  intros X R0 P A. replace (x * (a / (p * r))) with ((x / r) * (a / p)) by (field; lra).
  assert (0 <= x / r <= 1) by (split; [apply Rmult_le_pos; [lra|left; apply Rinv_0_lt_compat; lra]|apply Rmult_le_reg_r with r; [lra|]; unfold Rdiv; rewrite Rmult_assoc, Rinv_l; lra]).
  assert (0 <= a / p <= 1) by (split; [apply Rmult_le_pos; [lra|left; apply Rinv_0_lt_compat; lra]|apply Rmult_le_reg_r with p; [lra|]; unfold Rdiv; rewrite Rmult_assoc, Rinv_l; lra]).
  nra.
Qed.
Lemma throughput_kept i c beta : within 1 beta -> ~ isZero beta -> fair i c -> c_pdf c <> 0 ->
  within 1 (vmul beta (vdiv (vscale (c_albedo c) (cos_term i c)) (c_pdf c * rr_prob beta))).
Proof.
  intros Hb N F P. destruct (roulette_pos beta Hb N) as (R0 & RX & RY & RZ). destruct (F P) as (P0 & X & Y & Z). destruct Hb as (BX & BY & BZ).
  revert X Y Z. generalize (cos_term i c). intros k X Y Z. cbn in X, Y, Z. unfold within; cbn. repeat split; apply ratio; lra.
Qed.

Section Path.
Variable env : ray -> vec3.
Variable ev : isect -> ray -> closure -> query closure.
Variable mat : isect -> vec3 -> vec3 -> vec3.
Variable sample : isect -> closure -> query closure.
Variable nn : nat.
Variable B : R.
Hypothesis B_pos : 0 <= B.
Hypothesis env_bound : forall r, within B (env r).
Hypothesis vertex : forall w r0 i r c c0, fst (hit w r0) = Some i -> c_shadow c = [] -> leaf (ev i r (reset_closure c (isect_toLocal i (vneg (dir r))))) c0 ->
  within B (vadd (c_emission c0) (shadow_sum (mat i) (c_wi c0) (c_shadow c0) (c_nee c0))) /\
  forall c2, leaf (sample i (set_wi (accumulate_shadow_rays (mat i) c0) (isect_toLocal i (vneg (dir r))))) c2 ->
    c_shadow c2 = [] /\ c_emission c2 = c_emission c0 /\ c_nee c2 = shadow_sum (mat i) (c_wi c0) (c_shadow c0) (c_nee c0) /\ fair i c2.

Lemma path_bound n : forall Li beta r cl, within 1 beta -> c_shadow cl = [] ->
  post (path_loop W now hit rnd1 rnd2 env ev mat sample nn n Li beta r cl) (fun v => exists d, v = vadd Li d /\ within (INR n * B) d).
Proof.
  induction n as [|n IH]; intros Li beta r cl Hb Sh; cbn [path_loop].
  { apply post_ret. exists (V3c 0). rewrite vadd_0_r. split; [reflexivity|]. apply within_0. cbn. lra. }
  assert (NB : 0 <= INR n * B) by (apply Rmult_le_pos; [apply pos_INR|exact B_pos]).
  assert (SB : INR (S n) * B = INR n * B + B) by (rewrite S_INR; ring). rewrite SB.
  destruct (isZero_dec beta) as [Z|Z]. { apply post_ret. exists (V3c 0). rewrite vadd_0_r. split; [reflexivity|]. apply within_0. lra. }
  apply post_seq; intros _. eapply post_bind; [apply post_ray|]. intros [i|] Hi.
  2: { apply post_seq; intros _. apply post_ret. exists (vmul beta (env r)). split; [reflexivity|]. apply within_le with B; [lra|]. apply within_mul; auto. }
  destruct (Hi i eq_refl) as (w & r0 & Hw). clear Hi.
  do 4 (apply post_seq; intros _). eapply post_bind; [apply post_query|]. intros c0 L0.
  destruct (vertex w r0 i r cl c0 Hw Sh L0) as (V & K). clear L0.
  do 7 (apply post_seq; intros _). apply post_seq; intros u. apply post_seq; intros _.
  destruct (Rgt_dec u (rr_prob beta)).
  { apply post_seq; intros _. apply post_ret. eexists. split; [reflexivity|]. apply within_le with B; [lra|]. apply within_mul; [exact Hb|]. cbn. exact V. }
  do 4 (apply post_seq; intros _). eapply post_bind; [apply post_query|]. intros c2 L2. destruct (K c2 L2) as (Sh2 & E & Nn & F). clear L2 K.
  apply post_seq; intros _. destruct (Req_EM_T (c_pdf c2) 0) as [P|P].
  { do 3 (apply post_seq; intros _). apply post_ret. eexists. split; [reflexivity|]. apply within_le with B; [lra|]. apply within_mul; [exact Hb|]. rewrite E, Nn. exact V. }
  do 4 (apply post_seq; intros _). apply post_seq; intros _.
  eapply post_weaken; [apply (IH (vadd Li (vmul beta (vadd (c_nee c2) (c_emission c2)))) _ (next_ray i c2) c2 (throughput_kept i c2 beta Hb Z F P) Sh2)|].
  intros v (d & -> & D). eexists. split; [apply vadd_assoc|].
  rewrite Rplus_comm. apply within_add; [|exact D]. apply within_mul; [exact Hb|]. rewrite E, Nn, vadd_comm. exact V.
Qed.
Theorem path_Li_bound n r s v s' : path_Li W now hit rnd1 rnd2 env ev mat sample nn n r s = (Ok v, s') -> within (INR n * B) v.
Proof.
  intros H. pose proof (path_bound n (V3c 0) (V3c 1) r (closure_init false true (V3c 0)) ltac:(unfold within; cbn; lra) eq_refl s) as P.
  unfold path_Li in H. rewrite H in P. destruct P as (d & -> & D). rewrite vadd_comm, vadd_0_r. exact D.
Qed.
End Path.

(** what a run notes down and returns *)
Definition tells {A} (m : Integrators.M W A) (P : list event -> A -> Prop) : Prop :=
  forall s, exists h, s_log W (snd (m s)) = s_log W s ++ h /\ match fst (m s) with Ok a => P h a | _ => True end.
Lemma tells_ret {A} (a : A) (P : list event -> A -> Prop) : P [] a -> tells (ret W a) P.
Proof. intros H s. exists []. split; [symmetry; apply app_nil_r|exact H]. Qed.
Lemma tells_bind {A B} (m : Integrators.M W A) f Q (P : list event -> B -> Prop) : tells m Q ->
  (forall h a, Q h a -> tells (f a) (fun h' b => P (h ++ h') b)) -> tells (bindM W m f) P.
Proof.
  intros H K s. unfold bindM. destruct (H s) as (h & L & O). destruct (m s) as [[a|m0| |] s1]; cbn [fst snd] in *;
    [|exists h; split; [exact L|exact I]..]. destruct (K h a O s1) as (h' & L' & O'). exists (h ++ h'). split; [|exact O']. rewrite L', L. symmetry. apply app_assoc.
Qed.
Lemma tells_seq {A B} (m : Integrators.M W A) f (Q : A -> Prop) (P : list event -> B -> Prop) : tells m (fun h a => h = [] /\ Q a) ->
  (forall a, Q a -> tells (f a) P) -> tells (bindM W m f) P.
Proof. intros H K. eapply tells_bind; [exact H|]. intros h a (-> & Qa). apply (K a Qa). Qed.
Lemma tells_start c : tells (clk_start W now c) (fun h a => h = [] /\ True).
Proof. intros s. exists []. rewrite app_nil_r. unfold clk_start. destruct (now (s_w W s)). destruct (start_clock _ _ _); cbn; auto. Qed.
Lemma tells_stop c : tells (clk_stop W now c) (fun h a => h = [] /\ True).
Proof. intros s. exists []. rewrite app_nil_r. unfold clk_stop. destruct (now (s_w W s)). destruct (end_clock _ _ _); cbn; auto. Qed.
Lemma tells_next1 : tells (next1 W rnd1) (fun h a => h = [] /\ True).
Proof. intros s. exists []. rewrite app_nil_r. unfold next1. destruct (rnd1 (s_w W s)). cbn; auto. Qed.
Lemma tells_next2 : tells (next2 W rnd2) (fun h a => h = [] /\ True).
Proof. intros s. exists []. rewrite app_nil_r. unfold next2. destruct (rnd2 (s_w W s)). cbn; auto. Qed.
Lemma tells_note {B} e f (P : list event -> B -> Prop) : tells (f tt) (fun h b => P (e :: h) b) -> tells (bindM W (note W e) f) P.
Proof.
  intros H. eapply tells_bind with (Q := fun h _ => h = [e]).
  - intros s. exists [e]. split; reflexivity.
  - intros h [] ->. exact H.
Qed.
Lemma tells_accel r : tells (accel_intersect W now hit r) (fun h a => h = [] /\ reported a).
Proof.
  unfold accel_intersect. eapply tells_seq; [apply tells_start|]. intros _ _. eapply tells_seq with (Q := reported).
  - intros s. exists []. rewrite app_nil_r. destruct (hit (s_w W s) r) as [a w] eqn:E. cbn. repeat split. intros i ->. exists (s_w W s), r. now rewrite E.
  - intros a H. eapply tells_seq; [apply tells_stop|]. intros _ _. apply tells_ret. split; [reflexivity|exact H].
Qed.
Lemma tells_query {A} (q : query A) : tells (run_query W now hit rnd1 rnd2 q) (fun h a => h = [] /\ leaf q a).
Proof.
  induction q as [a|r k IH|k IH|k IH]; cbn [run_query].
  - apply tells_ret. split; [reflexivity|constructor].
  - eapply tells_seq; [apply tells_accel|]. intros x _ s. destruct (IH x s) as (h & L & O). exists h. split; [exact L|]. destruct (fst _); auto. destruct O; split; [assumption|econstructor; eassumption].
  - eapply tells_seq; [apply tells_next1|]. intros x _ s. destruct (IH x s) as (h & L & O). exists h. split; [exact L|]. destruct (fst _); auto. destruct O; split; [assumption|econstructor; eassumption].
  - eapply tells_seq; [apply tells_next2|]. intros x _ s. destruct (IH x s) as (h & L & O). exists h. split; [exact L|]. destruct (fst _); auto. destruct O; split; [assumption|econstructor; eassumption].
Qed.
Lemma tells_nn n : forall r, tells (nn_loop W now hit n r) (fun h a => h = [] /\ reported a).
Proof.
  induction n as [|n IH]; intros r; cbn [nn_loop]; [intros s; exists []; rewrite app_nil_r; cbn; auto|]. eapply tells_seq; [apply tells_accel|].
  intros [i|] H; [destruct (i_null i); [apply IH|]|]; apply tells_ret; split; auto.
Qed.
Lemma tells_ray {B} n r f (P : list event -> B -> Prop) : (forall a, reported a -> tells (f a) (fun h b => P (HRay r a :: h) b)) ->
  tells (bindM W (intersect_non_null W now hit n r) f) P.
Proof.
  intros H. eapply tells_bind with (Q := fun h a => h = [HRay r a] /\ reported a).
  - unfold intersect_non_null. eapply tells_seq; [apply tells_nn|]. intros a Ha. apply tells_note. apply tells_ret. split; [reflexivity|exact Ha].
  - intros h a (-> & Ha). apply (H a Ha).
Qed.

Section Furnace.
Variable env : ray -> vec3.
Variable ev : isect -> ray -> closure -> query closure.
Variable mat : isect -> vec3 -> vec3 -> vec3.
Variable sample : isect -> closure -> query closure.
Variable nn : nat.
Hypothesis vertex : forall w r0 i r c c0, fst (hit w r0) = Some i -> c_shadow c = [] -> leaf (ev i r (reset_closure c (isect_toLocal i (vneg (dir r))))) c0 ->
  vadd (c_emission c0) (shadow_sum (mat i) (c_wi c0) (c_shadow c0) (c_nee c0)) = V3c 0 /\
  forall c2, leaf (sample i (set_wi (accumulate_shadow_rays (mat i) c0) (isect_toLocal i (vneg (dir r))))) c2 ->
    c_shadow c2 = [] /\ c_emission c2 = c_emission c0 /\ c_nee c2 = shadow_sum (mat i) (c_wi c0) (c_shadow c0) (c_nee c0) /\
    (c_pdf c2 <> 0 -> vscale (c_albedo c2) (cos_term i c2) = V3c (c_pdf c2)).
Ltac tick := eapply tells_seq; [first [apply tells_start|apply tells_stop]|intros _ _].
Definition sky (h : list event) : vec3 := match escape h with Some r => env r | None => V3c 0 end.
Lemma vadd_0_l v : vadd (V3c 0) v = v. Proof. rewrite vadd_comm. apply vadd_0_r. Qed.
Lemma vmul_1_l v : vmul (V3c 1) v = v. Proof. apply vec3_eq; cbn; ring. Qed.
Lemma rr_1 : rr_prob (V3c 1) = 1.
Proof. unfold rr_prob. rewrite maxValue_Rmax. cbn. unfold Rmax. destruct (Rle_dec 1 1); [|lra]. destruct (Rle_dec 1 1); [|lra]. apply Rmin_left. lra. Qed.
Lemma path_furnace n : forall r cl, c_shadow cl = [] ->
  tells (path_loop W now hit rnd1 rnd2 env ev mat sample nn n (V3c 0) (V3c 1) r cl) (fun h v => v = sky h).
Proof.
  induction n as [|n IH]; intros r cl Sh; cbn [path_loop]; [apply tells_ret; reflexivity|].
  destruct (isZero_dec (V3c 1)) as [Z|_]; [destruct Z as (Z & _); cbn in Z; rewrite Rabs_pos_eq in Z; lra|].
  tick. apply tells_ray. intros [i|] Hi.
  2: { tick. apply tells_ret. rewrite vadd_0_l, vmul_1_l. reflexivity. }
  destruct (Hi i eq_refl) as (w & r0 & Hw). clear Hi.
  do 4 tick. eapply tells_seq; [apply tells_query|]. intros c0 L0.
  destruct (vertex w r0 i r cl c0 Hw Sh L0) as (V & K). clear L0.
  do 2 tick. apply tells_note. do 4 tick. eapply tells_seq; [apply tells_next1|]. intros u _. apply tells_note.
  destruct (Rgt_dec u (rr_prob (V3c 1))).
  { tick. apply tells_ret. rewrite vadd_0_l, vmul_1_l. cbn. exact V. }
  do 4 tick. eapply tells_seq; [apply tells_query|]. intros c2 L2. destruct (K c2 L2) as (Sh2 & E & Nn & F). clear L2 K.
  apply tells_note. destruct (Req_EM_T (c_pdf c2) 0) as [P|P].
  { do 3 tick. apply tells_ret. rewrite vadd_0_l, vmul_1_l, E, Nn. cbn. exact V. }
  do 5 tick.
  replace (vadd (V3c 0) (vmul (V3c 1) (vadd (c_nee c2) (c_emission c2)))) with (V3c 0) by (rewrite vadd_0_l, vmul_1_l, E, Nn, vadd_comm; symmetry; exact V).
  rewrite (F P). replace (vmul (V3c 1) (vdiv (V3c (c_pdf c2)) (c_pdf c2 * rr_prob (V3c 1)))) with (V3c 1) by (rewrite rr_1; apply vec3_eq; cbn; field; exact P).
  apply IH, Sh2.
Qed.
Theorem path_Li_furnace n r s v s' : path_Li W now hit rnd1 rnd2 env ev mat sample nn n r s = (Ok v, s') ->
  exists h, s_log W s' = s_log W s ++ h /\ v = sky h.
Proof.
  intros H. destruct (path_furnace n r (closure_init false true (V3c 0)) eq_refl s) as (h & L & O).
  unfold path_Li in H. rewrite H in L, O. exists h. split; [exact L|exact O].
Qed.
End Furnace.
End Post.

(** ** the scenes of Model/Renderer.v without light sources to sample *)
Section Scenes.
Context {M : Type}.
Variable S : scene M.
Hypothesis dark : sc_emitters S = [].

Definition lit_by (i : isect) (v : vec3) : Prop :=
  v = V3c 0 \/ exists e d, sc_object_emitter S (sc_inst S (i_mesh i)) = Some e /\ em_evaluate e d = Ok v.
Definition shaded (i : isect) (delta : bool) (c c0 : closure) : Prop :=
  c_spec c0 = delta /\ c_nee c0 = V3c 0 /\ lit_by i (c_emission c0) /\ Forall (fun e => e_valid e = false) (c_shadow c0).

Lemma shade_dark delta i r c c0 : c_nee c = V3c 0 -> c_emission c = V3c 0 -> c_shadow c = [] ->
  leaf (shade_in (sc_mesh_point S) M (sc_inside S) (sc_transmittance S) (sc_fuel S) [] (sc_inst S) (sc_ignore S) (sc_object_emitter S) None delta i r c) (Ok c0) ->
  shaded i delta c c0.
Proof.
  intros N E Sh L. unfold shade_in in L. apply leaf_obind in L. destruct L as (c1 & L1 & L). apply leaf_ret_inv in L1.
  assert (H1 : shaded i delta c c1).
  { destruct (c_last_spec (set_spec c delta (c_last_spec c) (c_accepts c))).
    - unfold accumulate_emission in L1. destruct (sc_object_emitter S (sc_inst S (i_mesh i))) as [e|] eqn:O.
      + destruct (em_evaluate e _) eqn:V; try discriminate. injection L1 as ->. unfold shaded; cbn. rewrite Sh. repeat split; auto. right. eauto.
      + injection L1 as ->. unfold shaded; cbn. rewrite Sh. repeat split; auto. now left.
    - injection L1 as ->. unfold shaded; cbn. rewrite Sh. repeat split; auto. left. exact E. }
  clear L1. destruct delta.
  - apply leaf_ret_inv in L. injection L as ->. destruct H1 as (A & B & C & D). unfold shaded; cbn. auto.
  - destruct (c_accepts c1); [|apply leaf_ret_inv in L; injection L as ->; exact H1].
    apply leaf_obind in L. destruct L as (l & L1 & L). apply leaf_ret_inv in L. injection L as ->. destruct H1 as (A & B & C & D). unfold shaded; cbn.
    repeat split; auto. destruct (c_all c1); [apply leaf_ret_inv in L1; injection L1 as ->; constructor|].
    unfold eval_one, choose_emitter in L1. apply leaf_obind in L1. destruct L1 as (o & L1 & L). apply leaf_ret_inv in L1. injection L1 as ->.
    apply leaf_ret_inv in L. injection L as ->. repeat constructor.
Qed.
Lemma evaluate_dark i r c c0 : c_nee c = V3c 0 -> c_emission c = V3c 0 -> c_shadow c = [] -> leaf (sc_evaluate S i r c) c0 ->
  shaded i (isDelta (chosen_bsdf S i)) c c0.
Proof.
  intros N E Sh L. unfold sc_evaluate, no_failure in L. apply leaf_bind in L. destruct L as (o & L & R0). apply leaf_ret_inv in R0.
  destruct o as [c1|m| |]; subst; [|unfold shaded, unlit; cbn; rewrite Sh; repeat split; auto; left; exact E..].
  unfold sc_try in L. unfold chosen_bsdf. rewrite dark in L. destruct (sc_shader S (i_mesh i)) as [b|th wi me].
  - unfold simple_evaluate, simple_evaluate_in in L. apply leaf_obind in L. destruct L as (c2 & L & R0). apply leaf_ret_inv in R0. injection R0 as ->.
    apply shade_dark in L; auto. destruct (isDelta b); [exact L|]. destruct L as (A & B & C & D). unfold shaded; cbn. auto.
  - unfold wireframe_evaluate in L. apply shade_dark in L; auto. destruct (on_wire (i_bary i) th); exact L.
Qed.
Lemma dark_sum mat wi l : Forall (fun e => e_valid e = false) l -> forall n, shadow_sum mat wi l n = n.
Proof. induction 1 as [|e l V _ IH]; intros n; cbn; [reflexivity|]. rewrite V. apply IH. Qed.

(** sampling plain surfaces *)
Definition normal_ok (i : isect) : Prop :=
  dot (fs (i_s i)) (fn (i_s i)) = 0 /\ dot (ft (i_s i)) (fn (i_s i)) = 0 /\ dot (fn (i_s i)) (fn (i_s i)) = 1.
Lemma cos_local i c : normal_ok i -> c_spec c = false -> 0 <= vz (c_wo c) -> cos_term i c = vz (c_wo c).
Proof.
  intros (A & B & C) Sp Z. unfold cos_term, next_ray, isect_toWorld. cbn [dir]. rewrite Sp.
  assert (D : dot (fn (i_s i)) (toWorld (i_s i) (c_wo c)) = vz (c_wo c)).
  { replace (dot (fn (i_s i)) (toWorld (i_s i) (c_wo c)))
      with (dot (fs (i_s i)) (fn (i_s i)) * vx (c_wo c) + dot (ft (i_s i)) (fn (i_s i)) * vy (c_wo c) + dot (fn (i_s i)) (fn (i_s i)) * vz (c_wo c))
      by (unfold toWorld, dot, vadd, vscale; cbn; ring). rewrite A, B, C. ring. }
  rewrite D. destruct (Rlt_dec (vz (c_wo c)) 0); lra.
Qed.
Definition colour (b : bsdf) : vec3 := match b with Diffuse a | Mirror a | Dielectric _ _ a | OneWay _ _ a => a | _ => V3c 1 end.
Definition simple_bsdf (b : bsdf) : Prop := match b with NullBsdf | Phong _ _ _ | Blinn _ _ _ => False | _ => True end.
Lemma sample_weight b i c c2 : simple_bsdf b -> normal_ok i -> c_spec c = isDelta b -> leaf (bsdf_sample b c) c2 ->
  c_shadow c2 = c_shadow c /\ c_emission c2 = c_emission c /\ c_nee c2 = c_nee c /\
  (c_pdf c2 <> 0 -> 0 < c_pdf c2 /\ vscale (c_albedo c2) (cos_term i c2) = vscale (colour b) (c_pdf c2)).
Proof.
  intros Pl No Sp L. destruct b; cbn in Pl; try contradiction; cbn [isDelta colour] in *; unfold bsdf_sample in L.
  - destruct (Rle_dec _ _); [apply leaf_ret_inv in L; subst; cbn; repeat split; auto; lra|].
    apply leaf_rand2_inv in L. destruct L as (u & L). apply leaf_ret_inv in L. subst. cbn [put c_shadow c_emission c_nee c_pdf c_albedo]. repeat split; auto; unfold cosTheta in *.
    + assert (0 <= vz (sqrToCosHemi u)) by (cbn; apply sqrt_pos). assert (0 < 1 / PI) by (apply Rdiv_lt_0_compat; [lra|apply PI_RGT_0]). nra.
    + rewrite cos_local; [|exact No|exact Sp|cbn; apply sqrt_pos]. cbn [put c_wo]. unfold vscale; apply vec3_eq; cbn [vx vy vz]; ring.
  - destruct (Rle_dec _ _); [apply leaf_ret_inv in L; subst; cbn; repeat split; auto; lra|].
    apply leaf_ret_inv in L. subst. cbn. repeat split; auto; [lra|]. unfold cos_term. cbn. now rewrite Sp.
  - apply leaf_rand1_inv in L. destruct L as (u & L). cbv zeta in L. destruct (ltb_nan _ _); apply leaf_ret_inv in L; subst; cbn; (repeat split; auto; [lra|]; unfold cos_term; cbn; now rewrite Sp).
  - apply leaf_rand1_inv in L. destruct L as (u & L). cbv zeta in L. destruct (_ || _)%bool; apply leaf_ret_inv in L; subst; cbn; (repeat split; auto; [lra|]; unfold cos_term; cbn; now rewrite Sp).
Qed.
Lemma chosen_all (P : bsdf -> Prop) i : (forall m, all_bsdfs P (sc_shader S m)) -> P (chosen_bsdf S i).
Proof.
  intros H. specialize (H (i_mesh i)). unfold chosen_bsdf. destruct (sc_shader S (i_mesh i)); cbn in H; [exact H|]. destruct (on_wire _ _); tauto.
Qed.
End Scenes.
