From Coq Require Import Reals List Bool ZArith Lra Lia.
From Coquelicot Require Import Rbar.
From Verif.Base Require Import Outcome.
From Verif.Model Require Import Vec Frame BBox Warp Clocker Integrators.
From Verif.Spec Require Import IntegratorSpec PathSpec.
From Verif.Proof Require Import IntegratorProof.
Import ListNotations.
Open Scope R_scope.

Section Hist.
Context {W : Type}.
Variable now : W -> R * W.
Variable hit : W -> ray -> option isect * W.
Variable rnd1 : W -> R * W.
Variable rnd2 : W -> vec2 * W.
Variable env : ray -> vec3.
Variable ev : isect -> ray -> closure -> query closure.
Variable mat : isect -> vec3 -> vec3 -> vec3.
Variable sample : isect -> closure -> query closure.
Variable n : nat.

(** every successful run adds a history with property P *)
Definition hs {A} (m : M W A) (P : list event -> A -> Prop) : Prop :=
  forall s a s', m s = (Ok a, s') -> exists h, s_log W s' = s_log W s ++ h /\ P h a.
Lemma hs_ret {A} (a : A) (P : list event -> A -> Prop) : P [] a -> hs (ret W a) P.
Proof. intros H s b s' E. injection E as <- <-. exists []. rewrite app_nil_r. auto. Qed.
Lemma hs_bind {A B} (m : M W A) (k : A -> M W B) P P' : hs m P ->
  (forall h a, P h a -> hs (k a) (fun h' b => P' (h ++ h') b)) -> hs (bindM W m k) P'.
Proof.
  intros Hm Hk s b s' E. unfold bindM in E. destruct (m s) as [[a| | |] s1] eqn:Em; try discriminate.
  destruct (Hm s a s1 Em) as (h&L&Ph). destruct (Hk h a Ph s1 b s' E) as (h'&L'&Ph'). exists (h ++ h'). rewrite L', L, app_assoc. auto.
Qed.
Lemma hs_start c : hs (clk_start W now c) (fun h _ => h = []).
Proof.
  intros s a s' E. unfold clk_start in E. destruct (now (s_w W s)). destruct (start_clock _ _ _); try discriminate. injection E as <- <-.
  exists []. rewrite app_nil_r. auto.
Qed.
Lemma hs_stop c : hs (clk_stop W now c) (fun h _ => h = []).
Proof.
  intros s a s' E. unfold clk_stop in E. destruct (now (s_w W s)). destruct (end_clock _ _ _); try discriminate. injection E as <- <-.
  exists []. rewrite app_nil_r. auto.
Qed.
Lemma hs_note e : hs (note W e) (fun h _ => h = [e]).
Proof. intros s a s' E. injection E as <- <-. exists [e]. auto. Qed.
Lemma hs_next1 : hs (next1 W rnd1) (fun h _ => h = []).
Proof. intros s a s' E. unfold next1 in E. destruct (rnd1 _). injection E as <- <-. exists []. rewrite app_nil_r. auto. Qed.
Lemma hs_next2 : hs (next2 W rnd2) (fun h _ => h = []).
Proof. intros s a s' E. unfold next2 in E. destruct (rnd2 _). injection E as <- <-. exists []. rewrite app_nil_r. auto. Qed.
Lemma hs_weaken {A} (m : M W A) (P P' : list event -> A -> Prop) : hs m P -> (forall h a, P h a -> P' h a) -> hs m P'.
Proof. intros H I s a s' E. destruct (H s a s' E) as (h&L&Ph). eauto. Qed.
Lemma hs_quiet {A B} (m : M W A) (k : A -> M W B) (Q : A -> Prop) P : hs m (fun h a => h = [] /\ Q a) ->
  (forall a, Q a -> hs (k a) P) -> hs (bindM W m k) P.
Proof. intros Hm Hk. eapply hs_bind; [exact Hm|]. intros h a [-> q]. exact (Hk a q). Qed.
Lemma hs_tick {A B} (m : M W A) (k : A -> M W B) P : hs m (fun h _ => h = []) -> (forall a, hs (k a) P) -> hs (bindM W m k) P.
Proof. intros Hm Hk. eapply hs_bind; [exact Hm|]. intros h a ->. exact (Hk a). Qed.
Lemma hs_noted {B} e (k : unit -> M W B) P : hs (k tt) (fun h b => P (e :: h) b) -> hs (bindM W (note W e) k) P.
Proof. intros H. eapply hs_bind; [apply hs_note|]. intros h [] ->. exact H. Qed.
Lemma hs_accel r : hs (accel_intersect W now hit r) (fun h _ => h = []).
Proof.
  unfold accel_intersect. apply hs_tick; [apply hs_start|intros _].
  apply hs_tick; [|intros a; apply hs_tick; [apply hs_stop|intros _; apply hs_ret; reflexivity]].
  intros s a s' E. destruct (hit _ r). injection E as <- <-. exists []. rewrite app_nil_r. auto.
Qed.
Lemma hs_query {A} (q : query A) : hs (run_query W now hit rnd1 rnd2 q) (fun h a => h = [] /\ leaf q a).
Proof.
  induction q; cbn [run_query].
  - apply hs_ret. split; [reflexivity|constructor].
  - apply hs_tick; [apply hs_accel|intros x]. eapply hs_weaken; [apply H|]. intros h a [-> L]. split; [reflexivity|econstructor; exact L].
  - apply hs_tick; [apply hs_next1|intros x]. eapply hs_weaken; [apply H|]. intros h a [-> L]. split; [reflexivity|econstructor; exact L].
  - apply hs_tick; [apply hs_next2|intros x]. eapply hs_weaken; [apply H|]. intros h a [-> L]. split; [reflexivity|econstructor; exact L].
Qed.
Lemma hs_nn m r : hs (nn_loop W now hit m r) (fun h _ => h = []).
Proof.
  revert r. induction m as [|m IH]; intros r; cbn [nn_loop]; [intros s a s' E; discriminate|].
  apply hs_tick; [apply hs_accel|]. intros [i|]; [destruct (i_null i)|]; auto; apply hs_ret; reflexivity.
Qed.
Lemma hs_ray {B} r (k : option isect -> M W B) P : (forall a, hs (k a) (fun h b => P (HRay r a :: h) b)) ->
  hs (bindM W (intersect_non_null W now hit n r) k) P.
Proof.
  intros H. eapply (hs_bind _ _ (fun h a => h = [HRay r a])).
  - unfold intersect_non_null. apply hs_tick; [apply hs_nn|intros a]. apply hs_noted. apply hs_ret. reflexivity.
  - intros h a ->. exact (H a).
Qed.

Lemma arriving_eq i r : isect_toLocal i (vneg (dir r)) = arriving i r.
Proof. unfold isect_toLocal, toLocal, arriving. apply vec3_eq; unfold dot, vneg; simpl; ring. Qed.
Lemma leaving_eq i c : next_ray i c = leaving i (c_wo c).
Proof. unfold next_ray, leaving, isect_toWorld, toWorld, Epsilon. reflexivity. Qed.

Ltac tick := apply hs_tick; [first [apply hs_start|apply hs_stop|apply hs_next1]|intros ?].
Lemma hs_path m Li beta r cl :
  hs (path_loop W now hit rnd1 rnd2 env ev mat sample n m Li beta r cl) (fun h _ => path_history ev mat sample cl r h).
Proof.
  revert Li beta r cl. induction m as [|m IH]; intros Li beta r cl; cbn [path_loop]; [apply hs_ret; constructor|].
  destruct (isZero_dec beta); [apply hs_ret; constructor|]. tick. apply hs_ray. intros [i|]; [|tick; apply hs_ret; constructor].
  tick. tick. tick. cbv zeta. tick. eapply hs_quiet; [apply hs_query|]. intros c1 L1. tick. tick. apply hs_noted. tick. tick. tick. tick. tick. apply hs_noted.
  assert (S0 : forall l, path_scatter ev mat sample r i (accumulate_shadow_rays (mat i) c1) l ->
    path_history ev mat sample cl r (HRay r (Some i) :: HShade i (accumulate_shadow_rays (mat i) c1) :: HRoulette a10 :: l)).
  { intros l P. eapply ph_surface; [..|exact L1|exact P]; try reflexivity. cbn [reset_closure c_wi]. apply arriving_eq. }
  destruct (Rgt_dec _ _); [tick; apply hs_ret; apply S0; constructor|].
  tick. tick. tick. tick. eapply hs_quiet; [apply hs_query|]. intros c2 L2. rewrite arriving_eq in L2. apply hs_noted.
  destruct (Req_EM_T (c_pdf c2) 0).
  - tick. tick. tick. apply hs_ret. apply S0. apply ps_absorbed; assumption.
  - tick. tick. tick. tick. tick. eapply hs_weaken; [apply IH|]. intros h v P. apply S0. apply ps_go; [assumption..|]. rewrite <- leaving_eq. exact P.
Qed.

End Hist.

Lemma ordered_tail g i l : ordered g (i :: l) -> ordered g l.
Proof. intros [_ H]. exact H. Qed.
Lemma ordered_after g i l : 0 <= g -> ordered g (i :: l) -> forall j, In j l -> i_t i + g <= i_t j.
Proof.
  intros G. revert i. induction l as [|k l IH]; intros i O j []; destruct O as [O1 O2].
  - subst. exact O1.
  - pose proof (IH k O2 j H). lra.
Qed.


Section Null.
Context {W : Type}.
Variable now : W -> R * W.
Variable hit : W -> ray -> option isect * W.
Variable lines : vec3 -> vec3 -> list isect.
Hypothesis hit_lines : forall w r, hit w r = (first_in (rnear r) (rfar r) (lines (org r) (dir r)), w).

Lemma accel_ok r s : actives (s_clk W s) EMBREE = false ->
  exists s', accel_intersect W now hit r s = (Ok (first_in (rnear r) (rfar r) (lines (org r) (dir r))), s') /\
    actives (s_clk W s') EMBREE = false.
Proof.
  intros H. unfold accel_intersect, bindM, clk_start, clk_stop, ret, start_clock, end_clock.
  destruct (now (s_w W s)) as [t w]. rewrite H. cbn [s_w]. rewrite hit_lines. cbn [s_w s_clk].
  destruct (now w) as [t' w'']. cbn [actives]. rewrite upd_same. eexists. split; [reflexivity|]. cbn [s_clk actives]. apply upd_same.
Qed.

Lemma leb_true a b : Rbar_leb a b = true <-> Rbar_le a b.
Proof. unfold Rbar_leb. destruct (Rbar_le_dec a b); split; intros; congruence || contradiction || auto. Qed.
Lemma range_leb r i : (Rbar_leb (rnear r) (Finite (i_t i)) && Rbar_leb (Finite (i_t i)) (rfar r))%bool = true <-> in_range r i.
Proof. rewrite andb_true_iff, !leb_true. reflexivity. Qed.
Lemma find_skip {A} (f : A -> bool) l1 l2 : (forall x, In x l1 -> f x = false) -> find f (l1 ++ l2) = find f l2.
Proof. induction l1; intros H; [reflexivity|]. simpl. rewrite (H a) by now left. apply IHl1. intros; apply H; now right. Qed.
Lemma find_none_all {A} (f : A -> bool) l : (forall x, In x l -> f x = false) -> find f l = None.
Proof. induction l; intros H; [reflexivity|]. simpl. rewrite (H a) by now left. apply IHl. intros; apply H; now right. Qed.

Lemma nn_nearest l2 : forall m r s l1, lines (org r) (dir r) = l1 ++ l2 -> ordered 0 l2 ->
  (forall j, In j l1 -> Rbar_lt (Finite (i_t j)) (rnear r)) -> (length l2 < m)%nat -> actives (s_clk W s) EMBREE = false ->
  exists a s', nn_loop W now hit m r s = (Ok a, s') /\ nearest_solid r l2 a.
Proof.
  induction l2 as [|i l2 IH]; intros m r s l1 L O F N A.
  - destruct m as [|m]; [inversion N|]. cbn [nn_loop]. destruct (accel_ok r s A) as (s1&E&A1). unfold bindM. rewrite E, L.
    unfold first_in. rewrite app_nil_r. rewrite find_none_all.
    + exists None, s1. split; [reflexivity|]. split; [exact I|]. intros j [].
    + intros x X. apply F in X. apply andb_false_iff. left. destruct (Rbar_leb _ _) eqn:Q; [|reflexivity]. apply leb_true in Q.
      exfalso. exact (Rbar_lt_not_le _ _ X Q).
  - destruct m as [|m]; [inversion N|]. simpl in N.
    destruct (Rbar_le_dec (rnear r) (Finite (i_t i))) as [G|G].
    2:{ assert (G' : Rbar_lt (Finite (i_t i)) (rnear r)) by (destruct (Rbar_le_lt_dec (rnear r) (Finite (i_t i))); tauto).
        destruct (IH (S m) r s (l1 ++ [i])) as (a&s'&E&P1&P2); auto.
        + rewrite L, <- app_assoc. reflexivity.
        + exact (ordered_tail _ _ _ O).
        + intros j J. apply in_app_or in J. destruct J as [J|[<-|[]]]; auto.
        + lia.
        + exists a, s'. split; [exact E|]. split; [destruct a; [|exact I]; destruct P1; split; [now right|assumption]|].
          intros j [<-|J] J1 J2; [exfalso; destruct J2; contradiction|]. destruct (P2 j J J1 J2) as [?|(k&?&?)]; [now left|right; exists k; split; [now right|assumption]]. }
    cbn [nn_loop]. destruct (accel_ok r s A) as (s1&E&A1). unfold bindM at 1. rewrite E, L. unfold first_in.
    rewrite find_skip.
    2:{ intros x X. apply F in X. apply andb_false_iff. left. destruct (Rbar_leb _ _) eqn:Q; [|reflexivity]. apply leb_true in Q.
        exfalso. exact (Rbar_lt_not_le _ _ X Q). }
    pose proof (ordered_after 0 i l2 (Rle_refl 0) O) as Aft.
    destruct (Rbar_le_dec (Finite (i_t i)) (rfar r)) as [H|H].
    + assert (Ri : in_range r i) by (split; assumption). simpl. apply range_leb in Ri. rewrite Ri. apply range_leb in Ri.
      destruct (i_null i) eqn:Nu.
      * destruct (IH m (Ray (org r) (dir r) (Finite (i_t i + Epsilon)) (rfar r)) s1
                    (l1 ++ i :: [])) as (a&s'&E'&P1&P2).
        -- cbn [org dir]. rewrite L, <- app_assoc. reflexivity.
        -- exact (ordered_tail _ _ _ O).
        -- cbn [rnear]. intros j J. apply in_app_or in J. destruct J as [J|[<-|[]]].
           ++ apply F in J. apply (Rbar_lt_le_trans _ _ _ J). apply (Rbar_le_trans _ _ _ G). simpl. unfold Epsilon. lra.
           ++ simpl. unfold Epsilon. lra.
        -- lia.
        -- exact A1.
        -- exists a, s'. split; [exact E'|]. split.
           ++ destruct a as [b|]; [|exact I]. destruct P1 as (I1&I2&I3). split; [now right|]. split; [exact I2|]. destruct I3 as [I3 I4]. cbn [rnear rfar] in *.
              split; [|exact I4]. apply (Rbar_le_trans _ _ _ G). apply Aft in I1. simpl. lra.
           ++ intros j [<-|J] J1 J2; [congruence|]. pose proof (Aft j J) as Tj. destruct J2 as [J2 J3].
              destruct (Rlt_dec (i_t j) (i_t i + 1 / 1000)).
              ** right. exists i. repeat split; auto; try (now left); lra || apply Ri.
              ** destruct (P2 j J J1) as [?|(k&K1&K2&K3&K4)]; [split; cbn [rnear rfar]; [simpl; unfold Epsilon; lra|exact J3]|now left|].
                 right. exists k. split; [now right|]. split; [exact K2|]. split; [|exact K4]. destruct K3. split; [|assumption].
                 apply (Rbar_le_trans _ _ _ G). apply Aft in K1. simpl. lra.
      * exists (Some i), s1. split; [reflexivity|]. split; [split; [now left|]; split; assumption|].
        intros j [<-|J] J1 J2; left; [lra|]. apply Aft in J. lra.
    + rewrite find_none_all.
      * exists None, s1. split; [reflexivity|]. split; [exact I|]. intros j J J1 [_ J2]. exfalso. apply H.
        destruct J as [<-|J]; [exact J2|]. refine (Rbar_le_trans _ _ _ _ J2). apply Aft in J. simpl. lra.
      * intros x X. apply andb_false_iff. right. destruct (Rbar_leb _ _) eqn:Q; [|reflexivity]. apply leb_true in Q. exfalso. apply H.
        destruct X as [<-|X]; [exact Q|]. refine (Rbar_le_trans _ _ _ _ Q). apply Aft in X. simpl. lra.
Qed.
End Null.

(** ** ambient occlusion *)
Definition ao_history (w : isect -> vec2 -> vec3) (r : ray) (h : list event) (v : vec3) : Prop :=
  (h = [HRay r None] /\ v = V3c 0) \/
  exists i u b r', h = [HRay r (Some i); HPoint u; HRay r' b] /\ v = V3c (match b with None => 1 | Some _ => 0 end) /\
    org r' = i_p i /\ dir r' = w i u /\ rnear r' = Finite (1 / 1000) /\ rfar r' = p_infty.
Lemma hs_ao {W} now hit rnd2 n r : hs (amb_occ_Li W now hit rnd2 n r) (ao_history (fun i u => toWorld (i_g i) (sqrToCosHemi u)) r).
Proof.
  unfold amb_occ_Li. apply hs_tick; [apply hs_start|intros _]. apply hs_ray. intros [i|].
  - apply hs_tick; [apply hs_stop|intros _]. apply hs_tick; [apply hs_start|intros _]. apply hs_tick; [apply hs_next2|intros u]. apply hs_noted.
    apply hs_ray. intros b. destruct b as [b|]; (apply hs_tick; [apply hs_stop|intros _]); apply hs_ret; right;
      exists i, u; eexists; exists (ao_ray i u); repeat split; reflexivity.
  - apply hs_tick; [apply hs_stop|intros _]. apply hs_ret. left. auto.
Qed.
