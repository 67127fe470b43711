From Coq Require Import Reals List Bool Lia Lra.
From Coquelicot Require Import Rbar.
From Verif.Base Require Import Outcome.
From Verif.Model Require Import Vec Frame BBox Integrators Scene VolPath.
From Verif.Spec Require Import LinAlgSpec IntegratorSpec PathSpec SceneSpec VolPathSpec.
From Verif.Proof Require Import IntegratorProof HistoryProof EstimateProof SceneProof.
Import ListNotations.
Open Scope R_scope.

Section VolPath.
Context {M : Type}.
Variable env : ray -> vec3.
Variable boundary : nat -> option (option M * option M).
Variable med_sample : M -> option bool -> ray -> R -> query (vec3 * R).
Variable phase_sample : M -> vec3 -> vec2 -> vec3 * R.
Variable nee_media : bool -> bool -> isect -> option M -> query (list emitter_eval).
Variable ev : isect -> ray -> option M -> closure -> query closure.
Variable mat : isect -> vec3 -> vec3 -> vec3.
Variable sample : isect -> closure -> query closure.
Variable nonexp : bool.
Variable max_bounces : nat.
Notation loop := (vol_loop M env boundary med_sample phase_sample nee_media ev mat sample nonexp max_bounces).
Notation history := (vol_history boundary med_sample phase_sample nee_media ev mat sample).
Notation arrival := (vol_arrive boundary med_sample phase_sample nee_media ev mat sample).
Notation leave := (vol_leave boundary med_sample phase_sample nee_media ev mat sample).

Lemma cross_beyond r i md : cross_boundary M boundary r i md = beyond boundary md r i.
Proof.
  unfold cross_boundary, beyond. destruct (boundary (i_mesh i)) as [[o n]|]; [|reflexivity].
  unfold isect_toLocal, toLocal. cbn [vz]. unfold vneg, dot. cbn [vx vy vz].
  destruct (Rle_dec _ 0), (Rle_dec 0 _); try reflexivity; exfalso; lra.
Qed.
Lemma media_nee_sum beta ph l nee : media_nee beta ph l nee = vadd nee (vscale (vmul beta (unblocked l)) ph).
Proof.
  revert nee. unfold unblocked. induction l as [|e l IH]; intros nee; cbn [media_nee filter map vsum fold_right].
  - apply vec3_eq; simpl; ring.
  - rewrite IH. destruct (e_valid e); [|reflexivity]. cbn [map fold_right]. change IntegratorSpec.vsum with vsum. unfold vsum. cbn [fold_right]. apply vec3_eq; simpl; ring.
Qed.
Lemma vadd_0_l a : vadd (V3c 0) a = a.
Proof. apply vec3_eq; simpl; ring. Qed.

Notation step := (traverse M boundary med_sample phase_sample nee_media ev mat sample nonexp max_bounces).
Notation arrives := (arrive M boundary ev mat sample nonexp max_bounces).

(** what a continuation must satisfy *)
Definition good_next (next : continuation M) : Prop := forall n Li beta r cl md surf h v h',
  leaf (next n Li beta r cl md surf h) (Ok (v, h')) ->
  exists k, h' = h ++ k /\ history n beta md cl r k /\ (vertices k <= n)%nat /\
    (keeps_light sample -> v = vadd Li (vol_estimate env beta k)).

Lemma arrive_sound next n Li beta r cl md surf its h v h' : good_next next ->
  leaf (arrives next n Li beta r cl md surf its h) (Ok (v, h')) ->
  exists k, h' = h ++ k /\ arrival n beta md cl r its k /\ (vertices k <= S n)%nat /\
    (keeps_light sample -> v = vadd Li (vol_estimate env beta k)).
Proof.
  intros IH La. unfold arrive in La. destruct (i_null its) eqn:Nu.
  - apply IH in La as (k&->&H&V&E). rewrite cross_beyond in H. exists (VBoundary r its :: k). rewrite <- app_assoc. split; [reflexivity|]. split.
    + econstructor; [exact Nu| |exact H]. unfold boundary_closure, same_past. destruct (boundary (i_mesh its)); repeat split; reflexivity.
    + split; [exact V|]. intros K. rewrite (E K). cbn. rewrite vadd_0_l. reflexivity.
  - unfold at_surface in La. rewrite arriving_eq in La. apply leaf_bind in La as (c1&L1&L2). inversion L2 as [| |? u ? L' E1 E2|]; subst; clear L2. rename L' into L2.
    assert (Av : forall k, (u <= survival beta -> leave n beta md (accumulate_shadow_rays (mat its) c1) r its k) -> (survival beta < u -> k = []) ->
      arrival n beta md cl r its (VShade r its (accumulate_shadow_rays (mat its) c1) :: VRoulette u :: k)).
    { intros k Hk Hk'. apply (va_surface _ _ _ _ _ _ _ n beta md cl r its (reset_closure cl (arriving its r)) c1 u); auto; repeat split; reflexivity. }
    destruct (Rgt_dec u (rr_prob beta)) as [G|G]; rewrite rr_survival in G.
    + apply leaf_ret_inv in L2. injection L2 as -> ->. exists [VShade r its (accumulate_shadow_rays (mat its) c1); VRoulette u].
      split; [reflexivity|]. split; [apply Av; [intros ?; lra|reflexivity]|split; [unfold vertices; simpl; lia|]].
      intros _. cbn [vol_estimate gain after]. rewrite !vadd_0_r. reflexivity.
    + apply leaf_bind in L2 as (c2&L2&L3).
      assert (K2 : keeps_light sample -> c_emission c2 = c_emission (accumulate_shadow_rays (mat its) c1) /\ c_nee c2 = c_nee (accumulate_shadow_rays (mat its) c1)).
      { intros K. apply (K _ _ _ L2). }
      destruct (Req_EM_T (c_pdf c2) 0) as [P|P].
      * apply leaf_ret_inv in L3. injection L3 as -> ->. exists [VShade r its (accumulate_shadow_rays (mat its) c1); VRoulette u; VSample its c2].
        split; [reflexivity|]. split; [|split; [unfold vertices; simpl; lia|]].
        -- apply Av; [|intros ?; lra]. intros _. constructor; [exact L2|exact P].
        -- intros K. destruct (K2 K) as [-> ->]. cbn [vol_estimate gain after]. rewrite !vadd_0_r. reflexivity.
      * apply IH in L3 as (k&->&H&V&E). exists (VShade r its (accumulate_shadow_rays (mat its) c1) :: VRoulette u :: VSample its c2 :: k).
        rewrite <- !app_assoc. split; [reflexivity|]. rewrite atten_eq in *. split; [|split].
        -- apply Av; [|intros ?; lra]. intros _. apply vl_go; [exact L2|exact P|]. rewrite <- leaving_eq. exact H.
        -- unfold vertices in *. simpl. lia.
        -- intros K. rewrite (E K). destruct (K2 K) as [-> ->]. cbn [vol_estimate gain after]. rewrite !vadd_0_l, vadd_assoc. f_equal. f_equal. f_equal. apply vadd_comm.
Qed.

Lemma traverse_sound next n Li beta r cl md surf its h v h' : ~ isZero beta -> good_next next ->
  leaf (step next n Li beta r cl md surf its h) (Ok (v, h')) ->
  exists k, h' = h ++ k /\ history (S n) beta md cl r k /\ (vertices k <= S n)%nat /\
    (keeps_light sample -> v = vadd Li (vol_estimate env beta k)).
Proof.
  intros Z IH L. unfold traverse in L. destruct md as [m|].
  - apply leaf_bind in L as ((w&d)&L1&L2). cbn [fst snd] in L2. destruct (Rlt_dec d (i_t its)) as [D|D].
    + unfold scatter in L2. apply leaf_bind in L2 as (l&L2&L3). inversion L3 as [| | |? s ? L' E1 E2]; subst; clear L3. rename L' into L3.
      destruct (phase_sample m (vneg (dir r)) s) as [wi ph] eqn:Ph.
      inversion L3 as [| |? u ? L' E1 E2|]; subst; clear L3. rename L' into L3.
      cbv zeta in L3. rewrite media_nee_sum, vadd_0_l in L3.
      destruct (Rgt_dec u _) as [G|G]; rewrite rr_survival in *.
      * apply leaf_ret_inv in L3. injection L3 as -> ->. eexists. split; [reflexivity|]. split; [|split; [unfold vertices; simpl; lia|]].
        -- eapply vh_scatter with (c' := cl); eauto; intros ?; lra.
        -- intros _. cbn [vol_estimate gain after]. rewrite vadd_0_r. reflexivity.
      * apply IH in L3 as (k&->&H&V&E). exists (VScatter m (if nonexp then Some surf else None) r its d w surf l wi ph u :: k). rewrite <- app_assoc. split; [reflexivity|]. split; [|split].
        -- eapply vh_scatter with (c' := scatter_closure cl (vneg (dir r)) l (vscale (vmul (vmul beta w) (unblocked l)) ph)); eauto; intros ?; lra.
        -- unfold vertices in *. simpl. lia.
        -- intros K. rewrite (E K). cbn [vol_estimate gain after]. apply vadd_assoc.
    + apply (arrive_sound _ _ _ _ _ _ _ _ _ _ _ _ IH) in L2 as (k&->&H&V&E). exists (VPass m (if nonexp then Some surf else None) r its w :: k). rewrite <- app_assoc. split; [reflexivity|]. split; [|split].
      * eapply vh_pass; eauto. lra.
      * exact V.
      * intros K. rewrite (E K). cbn [vol_estimate gain after]. rewrite vadd_0_l. reflexivity.
  - apply (arrive_sound _ _ _ _ _ _ _ _ _ _ _ _ IH) in L as (k&->&H&V&E). exists k. split; [reflexivity|]. split; [|split; [exact V|exact E]]. eapply vh_empty; eauto.
Qed.

Lemma vol_sound fuel : good_next (loop fuel).
Proof.
  induction fuel as [|fuel IH]; intros n Li beta r cl md surf h v h' L; [apply leaf_ret_inv in L; discriminate|].
  cbn [vol_loop] in L. destruct n as [|n].
  { apply leaf_ret_inv in L. injection L as -> ->. exists []. rewrite app_nil_r. split; [reflexivity|]. split; [apply vh_limit|]. split; [unfold vertices; simpl; lia|]. intros _. cbn. symmetry. apply vadd_0_r. }
  destruct (isZero_dec beta) as [Z|Z].
  { apply leaf_ret_inv in L. injection L as -> ->. exists []. rewrite app_nil_r. split; [reflexivity|]. split; [apply vh_dark; exact Z|]. split; [unfold vertices; simpl; lia|]. intros _. cbn. symmetry. apply vadd_0_r. }
  inversion L as [|? ? a ? L' E1 E2| |]; subst; clear L. rename L' into L.
  destruct a as [its|].
  - exact (traverse_sound _ _ _ _ _ _ _ _ _ _ _ _ Z IH L).
  - apply leaf_ret_inv in L. injection L as -> ->. exists [VEscape r]. split; [reflexivity|]. split; [apply vh_escape; exact Z|]. split; [unfold vertices; simpl; lia|]. intros _. cbn. rewrite vadd_0_r. reflexivity.
Qed.
End VolPath.
