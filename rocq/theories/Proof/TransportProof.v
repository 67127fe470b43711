(** Light transport in two scenes that differ by a displacement and by the strength of the lights. *)
From Coq Require Import Reals List Bool ZArith Lra Lia.
From Coquelicot Require Import Rbar.
From Verif.Base Require Import Outcome.
From Verif.Model Require Import Vec Frame BBox Warp Clocker Integrators Bsdf Scene VolPath Renderer.
From Verif.Spec Require Import TransportSpec.
From Verif.Proof Require Import VecLemmas.
Import ListNotations.
Open Scope R_scope.

Ltac vring := apply V3_eq; cbn; unfold Rdiv; ring.

Lemma vsub_moved a b t : vsub (vadd a t) (vadd b t) = vsub a b.
Proof. vring. Qed.

Section Two.
Variables t k : vec3.
Notation mr := (moved_ray t).
Notation mh := (moved_hit t).
Notation sp R := (same_program t R).

(** ** programs *)
Lemma sp_bind {A B C D} (R : A -> B -> Prop) (Q : C -> D -> Prop) q q' f f' :
  sp R q q' -> (forall a b, R a b -> sp Q (f a) (f' b)) -> sp Q (qbind q f) (qbind q' f').
Proof. intros H F. induction H; cbn; [auto| | |]; constructor; auto. Qed.
Lemma sp_obind {A B C D} (R : A -> B -> Prop) (Q : C -> D -> Prop) q q' f f' :
  sp (same_outcome R) q q' -> (forall a b, R a b -> sp (same_outcome Q) (f a) (f' b)) ->
  sp (same_outcome Q) (obind q f) (obind q' f').
Proof.
  intros H F. eapply sp_bind; [exact H|]. intros [a|m| |] [b|m'| |] E; cbn in E; try contradiction; auto; constructor; cbn; auto.
Qed.
Lemma sp_weaken {A B} (R Q : A -> B -> Prop) q q' : (forall a b, R a b -> Q a b) -> sp R q q' -> sp Q q q'.
Proof. intros W H. induction H; constructor; auto. Qed.
Lemma sp_total {A B} (R : A -> B -> Prop) a b q q' : R a b -> sp (same_outcome R) q q' -> sp R (no_failure a q) (no_failure b q').
Proof.
  intros E H. eapply sp_bind; [exact H|]. intros [x|m| |] [y|m'| |] Q; cbn in Q; try contradiction; constructor; auto.
Qed.

(** ** light sampling *)
Definition sample_rel (s s' : em_sample) : Prop :=
  es_wi s' = es_wi s /\ es_sqr_dist s' = es_sqr_dist s /\ es_pdf s' = es_pdf s /\ es_color s' = vmul (es_color s) k.
Section Lights.
Context {M : Type}.
Variables mp mp' : nat -> vec2 -> outcome (vec3 * vec3 * R).
Hypothesis mp_moved : forall m u, same_outcome (fun a b => b = (vadd (fst (fst a)) t, snd (fst a), snd a)) (mp m u) (mp' m u).
Variable inside : nat -> option (option M).
Variables tr tr' : M -> ray -> query vec3.
Hypothesis tr_moved : forall m r, sp eq (tr m r) (tr' m (mr r)).
Variable fuel : nat.

Lemma sample_nee_moved e p u :
  same_outcome sample_rel (sample_nee mp e p u) (sample_nee mp' (moved_emitter t k e) (vadd p t) u).
Proof.
  destruct e; cbn; rewrite ?vsub_moved; try (repeat split; vring).
  - repeat split; cbn. destruct (Rgt_dec _ _); vring.
  - pose proof (mp_moved mesh u) as H. destruct (mp mesh u) as [[[q n] a]|x| |], (mp' mesh u) as [[[q' n'] a']|x'| |]; cbn in H; try contradiction; cbn; auto.
    injection H as -> -> ->. rewrite vsub_moved. destruct (Rle_dec _ _); repeat split; cbn; vring.
Qed.

Lemma non_null_moved n : forall r, sp (same_outcome (fun a b => b = option_map mh a)) (non_null n r) (non_null n (mr r)).
Proof.
  induction n as [|n IH]; intros r; cbn; [constructor; exact I|]. constructor. intros [i|]; cbn; [|constructor; reflexivity].
  destruct (i_null i); [|constructor; reflexivity]. apply (IH (Ray (org r) (dir r) (Finite (i_t i + Epsilon)) (rfar r))).
Qed.

Definition mseg (s : M * ray) : M * ray := (fst s, mr (snd s)).
Lemma tr_loop_moved n : forall full near segs,
  sp (same_outcome (fun a b => b = option_map (map mseg) a)) (tr_loop M inside n full near segs) (tr_loop M inside n (mr full) near (map mseg segs)).
Proof.
  induction n as [|n IH]; intros full near segs; cbn [tr_loop]; [constructor; exact I|].
  apply (sp_hit t _ (Ray (org full) (dir full) near (rfar full))). intros [i|]; cbn [option_map]; [|constructor; reflexivity].
  change (i_null (mh i)) with (i_null i). change (i_mesh (mh i)) with (i_mesh i). change (i_t (mh i)) with (i_t i).
  destruct (i_null i); [|constructor; reflexivity]. destruct (inside (i_mesh i)) as [[m|]|]; [|apply IH|constructor; exact I].
  apply (sp_hit t _ (Ray (org full) (dir full) (Finite (i_t i + Epsilon)) (rfar full))). intros [j|]; cbn [option_map]; [|apply IH].
  change (i_null (mh j)) with (i_null j). change (i_t (mh j)) with (i_t j). change (rfar (mr full)) with (rfar full).
  destruct (i_null j); [|constructor; reflexivity].
  replace (map mseg segs ++ [(m, Ray (org (mr full)) (dir (mr full)) (Finite (i_t i + Epsilon)) (Finite (i_t j)))])%list
    with (map mseg (segs ++ [(m, Ray (org full) (dir full) (Finite (i_t i + Epsilon)) (Finite (i_t j)))])) by (rewrite map_app; reflexivity).
  destruct (Rbar_geb _ _); [constructor; reflexivity|apply IH].
Qed.
Lemma attenuate_moved segs : forall beta, sp (same_outcome eq) (attenuate M tr segs beta) (attenuate M tr' (map mseg segs) beta).
Proof.
  induction segs as [|[m r] l IH]; intros beta; cbn; [constructor; reflexivity|].
  eapply sp_bind; [apply tr_moved|]. intros a b <-. apply IH.
Qed.
Lemma finish_moved o beta : sp (same_outcome eq) (finish M tr o beta) (finish M tr' (option_map (map mseg) o) beta).
Proof.
  destruct o as [segs|]; cbn; [|constructor; reflexivity]. eapply sp_obind; [apply attenuate_moved|].
  intros a b <-. constructor. reflexivity.
Qed.
Lemma transmittance_moved r md beta :
  sp (same_outcome eq) (intersect_transmittance M inside tr fuel r md beta) (intersect_transmittance M inside tr' fuel (mr r) md beta).
Proof.
  unfold intersect_transmittance. destruct md as [m|].
  - constructor. intros [i|]; cbn [option_map].
    + change (i_null (mh i)) with (i_null i). destruct (i_null i); [|constructor; reflexivity].
      eapply sp_obind; [apply (tr_loop_moved fuel r (Finite (i_t i + Epsilon)) [(m, Ray (org r) (dir r) (rnear r) (Finite (i_t i)))])|].
      intros a b ->. apply finish_moved.
    + eapply sp_obind; [apply (tr_loop_moved fuel r (rnear r) [(m, r)])|]. intros a b ->. apply finish_moved.
  - eapply sp_obind; [apply (tr_loop_moved fuel r (rnear r) [])|]. intros a b ->. apply finish_moved.
Qed.

Definition shadow_rel (a b : ray * vec3 * R) : Prop := b = (mr (fst (fst a)), vmul (snd (fst a)) k, snd a).
Lemma shadow_query_moved its e s s' : sample_rel s s' ->
  sp (same_outcome shadow_rel) (shadow_query fuel its e s) (shadow_query fuel (mh its) (moved_emitter t k e) s').
Proof.
  intros (Ew & Ed & Ep & Ec). unfold shadow_query. rewrite Ew, Ed, Ep, Ec.
  assert (N : needs_visibility (moved_emitter t k e) = needs_visibility e) by (destruct e; reflexivity).
  assert (Me : em_mesh (moved_emitter t k e) = em_mesh e) by (destruct e; reflexivity). rewrite N, Me.
  assert (F : forall d c c', c' = vmul c k ->
    sp (same_outcome shadow_rel)
      match d with None => QRet UB | Some d2 => QRet (Ok (Ray (i_p its) (es_wi s) (Finite Epsilon) (Finite (sqrt d2 - Epsilon)), c, es_pdf s)) end
      match d with None => QRet UB | Some d2 => QRet (Ok (Ray (i_p (mh its)) (es_wi s) (Finite Epsilon) (Finite (sqrt d2 - Epsilon)), c', es_pdf s)) end).
  { intros d c c' ->. destruct d; constructor; [reflexivity|exact I]. }
  destruct (needs_visibility e); [|apply F; reflexivity].
  eapply sp_obind; [apply (non_null_moved fuel (Ray (i_p its) (es_wi s) (Finite Epsilon) p_infty))|].
  intros [j|] b ->; cbn [option_map]; [|apply F; vring].
  change (i_mesh (mh j)) with (i_mesh j).
  destruct (match em_mesh e with Some m => _ | None => _ end); [|apply F; vring].
  change (i_p (mh j)) with (vadd (i_p j) t). change (i_p (mh its)) with (vadd (i_p its) t). rewrite vsub_moved.
  apply (F (Some _)). vring.
Qed.

Variable ignore : bool.
Definition light_rel (a b : option (vec3 * vec3)) : Prop :=
  match a, b with
  | None, None => True
  | Some (d, v), Some (d', v') => d' = d /\ v' = vmul v k
  | _, _ => False
  end.
Lemma eval_emitter_moved its md normal inm p e :
  sp (same_outcome light_rel) (eval_emitter mp M inside tr fuel ignore its md normal inm p e)
                  (eval_emitter mp' M inside tr' fuel ignore (mh its) md normal inm p (moved_emitter t k e)).
Proof.
  unfold eval_emitter. constructor. intros u.
  eapply sp_obind; [constructor; apply sample_nee_moved|]. intros s s' Hs.
  eapply sp_obind; [apply shadow_query_moved, Hs|]. intros [[r c] pdf] b ->. cbn [fst snd].
  eapply sp_obind; [apply transmittance_moved|]. intros [blocked w] b' <-.
  destruct (negb blocked || ignore); [|constructor; exact I]. constructor. cbn. split; [reflexivity|].
  destruct (Req_EM_T pdf 0); [vring|]. destruct inm; vring.
Qed.
Lemma eval_of_moved its a b : light_rel a b -> same_eval k (eval_of its a) (eval_of (mh its) b).
Proof.
  destruct a as [[d v]|], b as [[d' v']|]; cbn; try contradiction; [intros [-> ->]; repeat split|intros _; repeat split; cbn; vring].
Qed.
Lemma eval_all_moved its md inm l :
  sp (same_outcome (Forall2 (same_eval k))) (eval_all mp M inside tr fuel ignore its md inm l)
                  (eval_all mp' M inside tr' fuel ignore (mh its) md inm (map (moved_emitter t k) l)).
Proof.
  induction l as [|e l IH]; cbn [eval_all map]; [constructor; constructor|].
  eapply sp_obind; [apply (eval_emitter_moved its md (fn (i_g its)))|]. intros a b Hab.
  eapply sp_obind; [apply IH|]. intros x y Hxy. constructor. constructor; [apply eval_of_moved; exact Hab|exact Hxy].
Qed.

Variable emitters : list emitter.
Variable inst : nat -> nat.
Lemma choose_moved its : sp (same_outcome (fun a b => b = option_map (fun x => (moved_emitter t k (fst x), snd x)) a))
  (choose_emitter emitters inst its) (choose_emitter (map (moved_emitter t k) emitters) inst (mh its)).
Proof.
  unfold choose_emitter. destruct emitters as [|e0 l] eqn:E; [constructor; reflexivity|]. rewrite <- E.
  replace (map (moved_emitter t k) emitters) with (map (moved_emitter t k) (e0 :: l)) by (now rewrite E). cbn [map].
  constructor. intros u. unfold naive_choice.
  change (moved_emitter t k e0 :: map (moved_emitter t k) l) with (map (moved_emitter t k) (e0 :: l)). rewrite <- E.
  rewrite map_length. destruct (Z.ltb _ 0); [constructor; exact I|]. rewrite nth_error_map.
  destruct (nth_error emitters _) as [e|]; cbn [option_map]; [|constructor; exact I].
  replace (em_mesh (moved_emitter t k e)) with (em_mesh e) by (destruct e; reflexivity).
  change (i_mesh (mh its)) with (i_mesh its). destruct (em_mesh e); [destruct (_ =? _)%nat|]; constructor; reflexivity.
Qed.
Lemma eval_one_moved its md inm :
  sp (same_outcome (Forall2 (same_eval k))) (eval_one mp M inside tr fuel emitters inst ignore its md inm)
     (eval_one mp' M inside tr' fuel (map (moved_emitter t k) emitters) inst ignore (mh its) md inm).
Proof.
  unfold eval_one. eapply sp_obind; [apply choose_moved|]. intros [[e p]|] b ->; cbn [option_map fst snd].
  - eapply sp_obind; [apply (eval_emitter_moved its md (fn (i_s its)))|]. intros x y H. constructor. constructor; [apply eval_of_moved, H|constructor].
  - constructor. repeat constructor; cbn; vring.
Qed.

Lemma em_evaluate_moved e wi : same_outcome (fun v v' => v' = vmul v k) (em_evaluate e wi) (em_evaluate (moved_emitter t k e) wi).
Proof.
  destruct e; cbn; try reflexivity; try (destruct (Rlt_dec _ _); vring); try (destruct (Rgt_dec _ _); vring).
  destruct texture; vring.
Qed.
Lemma env_emission_moved l d : same_outcome (fun v v' => v' = vmul v k) (env_emission l d) (env_emission (map (moved_emitter t k) l) d).
Proof.
  unfold env_emission. assert (G : forall a a', a' = vmul a k ->
    same_outcome (fun v v' => v' = vmul v k) (foldM (fun Le e => bind (em_evaluate e d) (fun c => Ok (vadd Le c))) l a)
      (foldM (fun Le e => bind (em_evaluate e d) (fun c => Ok (vadd Le c))) (map (moved_emitter t k) l) a')).
  { induction l as [|e l IH]; intros a a' ->; cbn; [reflexivity|]. pose proof (em_evaluate_moved e d) as H.
    destruct (em_evaluate e d), (em_evaluate (moved_emitter t k e) d); cbn in H |- *; try contradiction; auto.
    apply IH. subst. vring. }
  apply G. vring.
Qed.

Variable object_emitter : nat -> option emitter.
Lemma emission_moved its r c c' : same_closure k c c' ->
  same_outcome (same_closure k) (accumulate_emission inst object_emitter its r c)
    (accumulate_emission inst (fun i => option_map (moved_emitter t k) (object_emitter i)) (mh its) (mr r) c').
Proof.
  intros C. unfold accumulate_emission. change (i_mesh (mh its)) with (i_mesh its). change (i_s (mh its)) with (i_s its).
  change (dir (mr r)) with (dir r).
  destruct (object_emitter (inst (i_mesh its))) as [e|]; cbn [option_map].
  - pose proof (em_evaluate_moved e (toLocal (i_s its) (dir r))) as H.
    destruct (em_evaluate e _), (em_evaluate (moved_emitter t k e) _); cbn in H |- *; try contradiction; auto.
    subst. unfold same_closure in *. cbn. intuition.
  - cbn. unfold same_closure in *. cbn. intuition. vring.
Qed.
Lemma shade_moved md delta its r c c' : same_closure k c c' ->
  sp (same_outcome (same_closure k)) (shade_in mp M inside tr fuel emitters inst ignore object_emitter md delta its r c)
     (shade_in mp' M inside tr' fuel (map (moved_emitter t k) emitters) inst ignore (fun i => option_map (moved_emitter t k) (object_emitter i)) md delta (mh its) (mr r) c').
Proof.
  intros C. unfold shade_in.
  assert (C1 : same_closure k (set_spec c delta (c_last_spec c) (c_accepts c)) (set_spec c' delta (c_last_spec c') (c_accepts c'))).
  { unfold same_closure in *. cbn. intuition. }
  revert C1. generalize (set_spec c delta (c_last_spec c) (c_accepts c)) (set_spec c' delta (c_last_spec c') (c_accepts c')).
  clear c c' C. intros c c' C. cbv zeta.
  eapply sp_obind with (R := same_closure k).
  { constructor. replace (c_last_spec c') with (c_last_spec c) by (symmetry; apply C). destruct (c_last_spec c); [apply emission_moved, C|exact C]. }
  clear c c' C. intros c c' C. destruct delta; [constructor; unfold same_closure in *; cbn; intuition|].
  replace (c_accepts c') with (c_accepts c) by (symmetry; apply C). destruct (c_accepts c); [|constructor; exact C].
  replace (c_all c') with (c_all c) by (symmetry; apply C).
  eapply sp_obind with (R := Forall2 (same_eval k)); [destruct (c_all c); [apply eval_all_moved|apply eval_one_moved]|].
  intros l l' Hl. constructor. unfold same_closure in *; cbn; intuition.
Qed.
Lemma simple_moved md delta its r c c' : same_closure k c c' ->
  sp (same_outcome (same_closure k)) (simple_evaluate_in mp M inside tr fuel emitters inst ignore object_emitter md delta its r c)
     (simple_evaluate_in mp' M inside tr' fuel (map (moved_emitter t k) emitters) inst ignore (fun i => option_map (moved_emitter t k) (object_emitter i)) md delta (mh its) (mr r) c').
Proof.
  intros C. unfold simple_evaluate_in. eapply sp_obind; [apply shade_moved, C|]. clear c c' C. intros c c' C. constructor.
  destruct delta; [exact C|]. unfold same_closure in *; cbn; intuition.
Qed.
End Lights.

(** ** materials *)
Lemma put_moved c c' wo a p eta s ac : same_closure k c c' -> same_closure k (put c wo a p eta s ac) (put c' wo a p eta s ac).
Proof. unfold same_closure; cbn; intuition. Qed.
Lemma bsdf_moved b c c' : same_closure k c c' -> sp (same_closure k) (bsdf_sample b c) (bsdf_sample b c').
Proof.
  intros C. pose proof C as (Wi & Wo & _ & _ & _ & _ & Pd & Et & Spc & _ & _ & Ac).
  destruct b; cbn [bsdf_sample]; unfold kill; rewrite ?Wi, ?Wo, ?Pd, ?Et, ?Spc, ?Ac;
    repeat first [ match goal with |- same_program _ _ (if ?x then _ else _) _ => destruct x end
                 | apply sp_ret; apply put_moved, C
                 | apply sp_rand1; intros u | apply sp_rand2; intros u | progress cbv zeta ].
Qed.

Lemma shadow_sum_moved mat wi l l' : Forall2 (same_eval k) l l' -> forall n n', n' = vmul n k ->
  shadow_sum mat wi l' n' = vmul (shadow_sum mat wi l n) k.
Proof.
  intros H. induction H as [|e e' l l' (T & D & V) _ IH]; intros n n' ->; cbn; [reflexivity|]. apply IH.
  rewrite V, D, T. destruct (e_valid e); vring.
Qed.
Lemma shadow_rays_moved mat c c' : same_closure k c c' -> same_closure k (accumulate_shadow_rays mat c) (accumulate_shadow_rays mat c').
Proof.
  intros C. unfold accumulate_shadow_rays, same_closure. cbn. destruct C as (Wi & ? & Sh & ? & ? & Ne & ?). repeat split; try tauto.
  - constructor.
  - rewrite Wi. apply shadow_sum_moved; assumption.
Qed.

(** ** integrators with clocks *)
Section Runs.
Context {W : Type}.
Variable now : W -> R * W.
Variables hit hit' : W -> ray -> option isect * W.
Variable rnd1 : W -> R * W.
Variable rnd2 : W -> vec2 * W.
Variables env env' : ray -> vec3.
Variables ev ev' : isect -> ray -> closure -> query closure.
Variables mat mat' : isect -> vec3 -> vec3 -> vec3.
Variables sample sample' : isect -> closure -> query closure.
Variable nn : nat.
Hypothesis hit_moved : moved_world t hit hit'.
Hypothesis env_moved : moved_env t k env env'.
Hypothesis ev_moved : moved_evaluate t k ev ev'.
Hypothesis mat_moved : moved_mat t mat mat'.
Hypothesis sample_moved : moved_sample t k sample sample'.

Definition like (s s' : st W) : Prop := s_clk W s' = s_clk W s /\ s_w W s' = s_w W s.
Definition rm {A B} (R : A -> B -> Prop) (m : Integrators.M W A) (m' : Integrators.M W B) : Prop :=
  forall s s', like s s' -> same_outcome R (fst (m s)) (fst (m' s')) /\ like (snd (m s)) (snd (m' s')).
Lemma rm_ret {A B} (R : A -> B -> Prop) a b : R a b -> rm R (ret W a) (ret W b).
Proof. intros H s s' L. split; [exact H|exact L]. Qed.
Lemma rm_bind {A B C D} (R : A -> B -> Prop) (Q : C -> D -> Prop) m m' f f' :
  rm R m m' -> (forall a b, R a b -> rm Q (f a) (f' b)) -> rm Q (bindM W m f) (bindM W m' f').
Proof.
  intros H F s s' L. unfold bindM. specialize (H s s' L). destruct (m s) as [[a|x| |] s1], (m' s') as [[b|x'| |] s1']; cbn in H; try tauto.
  apply (F a b); tauto.
Qed.
Lemma rm_start c : rm eq (clk_start W now c) (clk_start W now c).
Proof.
  intros [k0 w l] [k0' w' l'] [E1 E2]. cbn in E1, E2. subst. unfold clk_start. cbn. destruct (now w) as [x w1].
  destruct (start_clock c x k0); cbn; repeat split; reflexivity.
Qed.
Lemma rm_stop c : rm eq (clk_stop W now c) (clk_stop W now c).
Proof.
  intros [k0 w l] [k0' w' l'] [E1 E2]. cbn in E1, E2. subst. unfold clk_stop. cbn. destruct (now w) as [x w1].
  destruct (end_clock c x k0); cbn; repeat split; reflexivity.
Qed.
Lemma rm_note e e' : rm eq (note W e) (note W e').
Proof. intros s s' L. split; [reflexivity|exact L]. Qed.
Lemma rm_next1 : rm eq (next1 W rnd1) (next1 W rnd1).
Proof. intros [k0 w l] [k0' w' l'] [E1 E2]. cbn in E1, E2. subst. unfold next1. cbn. destruct (rnd1 w). repeat split. Qed.
Lemma rm_next2 : rm eq (next2 W rnd2) (next2 W rnd2).
Proof. intros [k0 w l] [k0' w' l'] [E1 E2]. cbn in E1, E2. subst. unfold next2. cbn. destruct (rnd2 w). repeat split. Qed.
Definition hr (a b : option isect) : Prop := b = option_map mh a.
Lemma rm_accel r : rm hr (accel_intersect W now hit r) (accel_intersect W now hit' (mr r)).
Proof.
  unfold accel_intersect. eapply rm_bind; [apply rm_start|]. intros ? ? _. eapply rm_bind with (R := hr).
  - intros [k0 w l] [k0' w' l'] [E1 E2]. cbn in E1, E2. subst. cbn. rewrite hit_moved. destruct (hit w r). cbn. repeat split.
  - intros x y H. eapply rm_bind; [apply rm_stop|]. intros ? ? _. apply rm_ret, H.
Qed.
Lemma rm_query {A B} (R : A -> B -> Prop) q q' : sp R q q' -> rm R (run_query W now hit rnd1 rnd2 q) (run_query W now hit' rnd1 rnd2 q').
Proof.
  intros H. induction H; cbn [run_query].
  - apply rm_ret; assumption.
  - eapply rm_bind; [apply rm_accel|]. intros x y ->. auto.
  - eapply rm_bind; [apply rm_next1|]. intros x y <-. auto.
  - eapply rm_bind; [apply rm_next2|]. intros x y <-. auto.
Qed.
Lemma rm_nn_loop n : forall r, rm hr (nn_loop W now hit n r) (nn_loop W now hit' n (mr r)).
Proof.
  induction n as [|n IH]; intros r; cbn [nn_loop]; [intros s s' L; split; [exact I|exact L]|].
  eapply rm_bind; [apply rm_accel|]. intros [i|] b ->; cbn [option_map]; [|apply rm_ret; reflexivity].
  change (i_null (mh i)) with (i_null i). destruct (i_null i); [|apply rm_ret; reflexivity].
  apply (IH (Ray (org r) (dir r) (Finite (i_t i + Epsilon)) (rfar r))).
Qed.
Lemma rm_nonnull r : rm hr (intersect_non_null W now hit nn r) (intersect_non_null W now hit' nn (mr r)).
Proof.
  unfold intersect_non_null. eapply rm_bind; [apply rm_nn_loop|]. intros x y ->. eapply rm_bind; [apply rm_note|].
  intros ? ? _. apply rm_ret. reflexivity.
Qed.
Definition vr (v v' : vec3) : Prop := v' = vmul v k.

Lemma reset_moved c c' wi : same_closure k c c' -> same_closure k (reset_closure c wi) (reset_closure c' wi).
Proof. unfold same_closure. cbn. intuition; vring. Qed.
Lemma set_wi_moved c c' wi : same_closure k c c' -> same_closure k (set_wi c wi) (set_wi c' wi).
Proof. unfold same_closure. cbn. intuition. Qed.
Lemma init_moved a b wi : same_closure k (closure_init a b wi) (closure_init a b wi).
Proof. unfold same_closure. cbn. repeat split; try constructor; vring. Qed.
Lemma next_ray_moved i c c' : same_closure k c c' -> next_ray (mh i) c' = mr (next_ray i c).
Proof. intros C. unfold next_ray, isect_toWorld, moved_ray. cbn. destruct C as (_ & -> & _). reflexivity. Qed.
Lemma cos_moved i c c' : same_closure k c c' -> cos_term (mh i) c' = cos_term i c.
Proof.
  intros C. unfold cos_term. rewrite (next_ray_moved i c c' C). cbn. destruct C as (_ & _ & _ & _ & _ & _ & _ & _ & -> & _). reflexivity.
Qed.

Ltac step := eapply rm_bind; [first [apply rm_start|apply rm_stop|apply rm_note|apply rm_next1|apply rm_next2]|let x := fresh "x" in let y := fresh "y" in intros x y <-].
Lemma rm_path n : forall Li Li' beta r cl cl', vr Li Li' -> same_closure k cl cl' ->
  rm vr (path_loop W now hit rnd1 rnd2 env ev mat sample nn n Li beta r cl)
        (path_loop W now hit' rnd1 rnd2 env' ev' mat' sample' nn n Li' beta (mr r) cl').
Proof.
  induction n as [|n IH]; intros Li Li' beta r cl cl' HL C; cbn [path_loop]; [apply rm_ret, HL|].
  destruct (isZero_dec beta); [apply rm_ret, HL|]. step. eapply rm_bind; [apply rm_nonnull|].
  intros [its|] b ->; cbn [option_map].
  2:{ step. apply rm_ret. unfold vr in *. rewrite HL, env_moved. vring. }
  repeat step. cbv zeta. eapply rm_bind.
  { apply rm_query, ev_moved. change (isect_toLocal (mh its) (vneg (dir (mr r)))) with (isect_toLocal its (vneg (dir r))). apply reset_moved, C. }
  clear cl cl' C. intros cl cl' C.
  assert (C1 : same_closure k (accumulate_shadow_rays (mat its) cl) (accumulate_shadow_rays (mat' (mh its)) cl')).
  { replace (accumulate_shadow_rays (mat' (mh its)) cl') with (accumulate_shadow_rays (mat its) cl').
    - apply shadow_rays_moved, C.
    - unfold accumulate_shadow_rays. f_equal. clear - mat_moved. generalize (c_nee cl'). induction (c_shadow cl') as [|e l IH]; intros x; cbn; [reflexivity|].
      rewrite mat_moved. apply IH. }
  revert C1. generalize (accumulate_shadow_rays (mat its) cl) (accumulate_shadow_rays (mat' (mh its)) cl'). clear cl cl' C. intros cl cl' C.
  repeat step. match goal with |- rm _ (if Rgt_dec ?u ?p then _ else _) _ => destruct (Rgt_dec u p) end.
  { step. apply rm_ret. unfold vr in *. destruct C as (_ & _ & _ & _ & -> & -> & _). rewrite HL. vring. }
  repeat step. eapply rm_bind.
  { apply rm_query, sample_moved. change (isect_toLocal (mh its) (vneg (dir (mr r)))) with (isect_toLocal its (vneg (dir r))). apply set_wi_moved, C. }
  clear cl cl' C. intros cl cl' C. step. replace (c_pdf cl') with (c_pdf cl) by (symmetry; apply C).
  destruct (Req_EM_T (c_pdf cl) 0).
  { repeat step. apply rm_ret. unfold vr in *. destruct C as (_ & _ & _ & _ & -> & -> & _). rewrite HL. vring. }
  repeat step. rewrite (next_ray_moved its cl cl' C), (cos_moved its cl cl' C). replace (c_albedo cl') with (c_albedo cl) by (symmetry; apply C).
  apply IH; [|exact C]. unfold vr in *. destruct C as (_ & _ & _ & _ & -> & -> & _). rewrite HL. vring.
Qed.
Theorem path_moved n : same_integrator t k (path_Li W now hit rnd1 rnd2 env ev mat sample nn n) (path_Li W now hit' rnd1 rnd2 env' ev' mat' sample' nn n).
Proof.
  intros r s s' E1 E2. apply (rm_path n (V3c 0) (V3c 0) (V3c 1) r _ _); [unfold vr; vring|apply init_moved|split; assumption].
Qed.

Lemma rm_whitted n : forall r, rm vr (whitted_Li W now hit rnd1 rnd2 env ev mat sample nn n r) (whitted_Li W now hit' rnd1 rnd2 env' ev' mat' sample' nn n (mr r)).
Proof.
  induction n as [|n IH]; intros r; cbn [whitted_Li]; [intros s s' L; split; [exact I|exact L]|].
  step. eapply rm_bind; [apply rm_nonnull|]. intros [its|] b ->; cbn [option_map]; [|step; apply rm_ret, env_moved].
  repeat step. cbv zeta. eapply rm_bind.
  { apply rm_query, ev_moved. apply init_moved. }
  intros cl cl' C.
  assert (C1 : same_closure k (accumulate_shadow_rays (mat its) cl) (accumulate_shadow_rays (mat' (mh its)) cl')).
  { replace (accumulate_shadow_rays (mat' (mh its)) cl') with (accumulate_shadow_rays (mat its) cl').
    - apply shadow_rays_moved, C.
    - unfold accumulate_shadow_rays. f_equal. clear - mat_moved. generalize (c_nee cl'). induction (c_shadow cl') as [|e l IH]; intros x; cbn; [reflexivity|].
      rewrite mat_moved. apply IH. }
  revert C1. generalize (accumulate_shadow_rays (mat its) cl) (accumulate_shadow_rays (mat' (mh its)) cl'). clear cl cl' C. intros cl cl' C.
  repeat step. replace (c_spec cl') with (c_spec cl) by (symmetry; apply C). destruct (c_spec cl).
  - step. eapply rm_bind.
    { apply rm_query, sample_moved. change (isect_toLocal (mh its) (vneg (dir (mr r)))) with (isect_toLocal its (vneg (dir r))). apply set_wi_moved, C. }
    clear cl cl' C. intros cl cl' C. repeat step. match goal with |- rm _ (if Rgt_dec ?u ?p then _ else _) _ => destruct (Rgt_dec u p) end.
    { step. apply rm_ret. unfold vr. vring. }
    repeat step. rewrite (next_ray_moved its cl cl' C). replace (c_albedo cl') with (c_albedo cl) by (symmetry; apply C).
    destruct C as (_ & _ & _ & _ & Em & Ne & _). rewrite Em, Ne.
    destruct (isZero_dec _); [apply rm_ret; unfold vr; vring|].
    eapply rm_bind; [apply IH|]. intros v v' ->. apply rm_ret. unfold vr. vring.
  - repeat step. apply rm_ret. destruct C as (_ & _ & _ & _ & Em & Ne & _). rewrite Em, Ne. unfold vr. vring.
Qed.
Theorem whitted_moved n : same_integrator t k (whitted_Li W now hit rnd1 rnd2 env ev mat sample nn n) (whitted_Li W now hit' rnd1 rnd2 env' ev' mat' sample' nn n).
Proof. intros r s s' E1 E2. apply (rm_whitted n r). split; assumption. Qed.

(** volumetric integrators: programs *)
Section Vol.
Context {M : Type}.
Variable boundary : nat -> option (option M * option M).
Variables ms ms' : M -> option bool -> ray -> R -> query (vec3 * R).
Variable phase_sample : M -> vec3 -> vec2 -> vec3 * R.
Variables nee nee' : bool -> bool -> isect -> option M -> query (list emitter_eval).
Variables evm evm' : isect -> ray -> option M -> closure -> query closure.
Hypothesis ms_moved : moved_distance t ms ms'.
Hypothesis nee_moved : moved_nee t k nee nee'.
Hypothesis evm_moved : moved_evaluate_in t k evm evm'.
Variable nonexp : bool.
Variable max_bounces : nat.
Definition res (a b : vec3 * list (vevent M)) : Prop := fst b = vmul (fst a) k.
Definition cont_rel (f f' : continuation M) : Prop :=
  forall n Li Li' beta r cl cl' md b h h', vr Li Li' -> same_closure k cl cl' ->
    sp (same_outcome res) (f n Li beta r cl md b h) (f' n Li' beta (mr r) cl' md b h').
Lemma accumulate_moved its cl cl' : same_closure k cl cl' ->
  same_closure k (accumulate_shadow_rays (mat its) cl) (accumulate_shadow_rays (mat' (mh its)) cl').
Proof.
  intros C. replace (accumulate_shadow_rays (mat' (mh its)) cl') with (accumulate_shadow_rays (mat its) cl').
  - apply shadow_rays_moved, C.
  - unfold accumulate_shadow_rays. f_equal. clear - mat_moved. generalize (c_nee cl'). induction (c_shadow cl') as [|e l IH]; intros x; cbn; [reflexivity|].
    rewrite mat_moved. apply IH.
Qed.
Lemma media_nee_moved beta p l l' : Forall2 (same_eval k) l l' -> forall x x', vr x x' ->
  vr (media_nee beta p l x) (media_nee beta p l' x').
Proof.
  intros H. induction H as [|e e' l l' (T & D & V) _ IH]; intros x x' X; cbn; [exact X|]. apply IH.
  rewrite V, T. destruct (e_valid e); [|exact X]. unfold vr in *. rewrite X. vring.
Qed.
Lemma boundary_moved f f' n Li Li' beta r cl cl' md b its h h' : cont_rel f f' -> vr Li Li' -> same_closure k cl cl' ->
  sp (same_outcome res) (at_boundary M boundary nonexp max_bounces f n Li beta r cl md b its h)
     (at_boundary M boundary nonexp max_bounces f' n Li' beta (mr r) cl' md b (mh its) h').
Proof.
  intros F L C. unfold at_boundary.
  change (cross_boundary M boundary (mr r) (mh its) md) with (cross_boundary M boundary r its md).
  change (Ray (i_p (mh its)) (dir (mr r)) (Finite Epsilon) p_infty) with (mr (Ray (i_p its) (dir r) (Finite Epsilon) p_infty)).
  apply F; [exact L|]. unfold boundary_closure. change (i_mesh (mh its)) with (i_mesh its).
  destruct (boundary (i_mesh its)); [|exact C].
  change (isect_toLocal (mh its) (vneg (dir (mr r)))) with (isect_toLocal its (vneg (dir r))). apply set_wi_moved, C.
Qed.
Lemma surface_moved f f' n Li Li' beta r cl cl' md its h h' : cont_rel f f' -> vr Li Li' -> same_closure k cl cl' ->
  sp (same_outcome res) (at_surface M evm mat sample f n Li beta r cl md its h)
     (at_surface M evm' mat' sample' f' n Li' beta (mr r) cl' md (mh its) h').
Proof.
  intros F L C. unfold at_surface. eapply sp_bind.
  { apply evm_moved. change (isect_toLocal (mh its) (vneg (dir (mr r)))) with (isect_toLocal its (vneg (dir r))). apply reset_moved, C. }
  clear cl cl' C. intros cl cl' C. apply accumulate_moved with (its := its) in C. revert C.
  generalize (accumulate_shadow_rays (mat its) cl) (accumulate_shadow_rays (mat' (mh its)) cl'). clear cl cl'. intros cl cl' C.
  constructor. intros u. destruct (Rgt_dec u (rr_prob beta)).
  { constructor. unfold same_outcome, res, vr in *. cbn [fst]. destruct C as (_ & _ & _ & _ & -> & -> & _). rewrite L. vring. }
  eapply sp_bind.
  { apply sample_moved. change (isect_toLocal (mh its) (vneg (dir (mr r)))) with (isect_toLocal its (vneg (dir r))). apply set_wi_moved, C. }
  intros c c' C'. replace (c_pdf c') with (c_pdf c) by (symmetry; apply C').
  destruct (Req_EM_T (c_pdf c) 0).
  { constructor. unfold same_outcome, res, vr in *. cbn [fst]. destruct C' as (_ & _ & _ & _ & -> & -> & _). rewrite L. vring. }
  rewrite (next_ray_moved its c c' C'), (cos_moved its c c' C'). replace (c_albedo c') with (c_albedo c) by (symmetry; apply C').
  apply F; [|exact C']. unfold vr in *. destruct C' as (_ & _ & _ & _ & -> & -> & _). rewrite L. vring.
Qed.
Lemma arrive_moved f f' n Li Li' beta r cl cl' md b its h h' : cont_rel f f' -> vr Li Li' -> same_closure k cl cl' ->
  sp (same_outcome res) (arrive M boundary evm mat sample nonexp max_bounces f n Li beta r cl md b its h)
     (arrive M boundary evm' mat' sample' nonexp max_bounces f' n Li' beta (mr r) cl' md b (mh its) h').
Proof.
  intros F L C. unfold arrive. change (i_null (mh its)) with (i_null its).
  destruct (i_null its); [apply boundary_moved|apply surface_moved]; assumption.
Qed.
Lemma scatter_moved f f' n Li Li' beta r cl cl' m fl b its w d h h' : cont_rel f f' -> vr Li Li' -> same_closure k cl cl' ->
  sp (same_outcome res) (scatter M phase_sample nee nonexp f n Li beta r cl m fl b its w d h)
     (scatter M phase_sample nee' nonexp f' n Li' beta (mr r) cl' m fl b (mh its) w d h').
Proof.
  intros F L C. unfold scatter. replace (c_all cl') with (c_all cl) by (symmetry; apply C).
  assert (P : ray_at (mr r) d = vadd (ray_at r d) t) by (unfold ray_at; vring).
  replace (set_p (mh its) (ray_at (mr r) d)) with (mh (set_p its (ray_at r d))) by (rewrite P; reflexivity).
  eapply sp_bind; [apply nee_moved|]. intros l l' Hl. constructor. intros s. change (dir (mr r)) with (dir r).
  destruct (phase_sample m (vneg (dir r)) s) as [wi phase]. constructor. intros u.
  assert (N : vr (media_nee beta phase l (V3c 0)) (media_nee beta phase l' (V3c 0))) by (apply media_nee_moved; [exact Hl|unfold vr; vring]).
  revert N. generalize (media_nee beta phase l (V3c 0)) (media_nee beta phase l' (V3c 0)). intros x x' N. cbv zeta.
  destruct (Rgt_dec u (rr_prob beta)).
  { constructor. unfold same_outcome, res, vr in *. cbn [fst]. rewrite L, N. vring. }
  rewrite P. apply (F n (vadd Li x) (vadd Li' x') (vdiv beta (rr_prob beta)) (Ray (ray_at r d) (normalized wi) (Finite Epsilon) p_infty)).
  - unfold vr in *. rewrite L, N. vring.
  - unfold scatter_closure, same_closure in *. cbn. destruct C as (? & ? & ? & ? & ? & ? & ? & ? & ? & ? & ? & ?). repeat split; auto; vring.
Qed.
Lemma traverse_moved f f' n Li Li' beta r cl cl' md b its h h' : cont_rel f f' -> vr Li Li' -> same_closure k cl cl' ->
  sp (same_outcome res) (traverse M boundary ms phase_sample nee evm mat sample nonexp max_bounces f n Li beta r cl md b its h)
     (traverse M boundary ms' phase_sample nee' evm' mat' sample' nonexp max_bounces f' n Li' beta (mr r) cl' md b (mh its) h').
Proof.
  intros F L C. unfold traverse. destruct md as [m|]; [|apply arrive_moved; assumption].
  eapply sp_bind; [apply ms_moved|]. intros wt wt' <-. change (i_t (mh its)) with (i_t its).
  destruct (Rlt_dec (snd wt) (i_t its)); [apply scatter_moved|apply arrive_moved]; assumption.
Qed.
Lemma vol_loop_moved fuel : cont_rel (vol_loop M env boundary ms phase_sample nee evm mat sample nonexp max_bounces fuel)
  (vol_loop M env' boundary ms' phase_sample nee' evm' mat' sample' nonexp max_bounces fuel).
Proof.
  induction fuel as [|fuel IH]; intros n Li Li' beta r cl cl' md b h h' L C; cbn [vol_loop]; [constructor; exact I|].
  destruct n as [|n]; [constructor; exact L|]. destruct (isZero_dec beta); [constructor; exact L|].
  constructor. intros [its|]; cbn [option_map]; [apply traverse_moved; assumption|].
  constructor. unfold same_outcome, res, vr in *. cbn [fst]. rewrite L, env_moved. vring.
Qed.
Theorem vol_moved fuel md cam : sp (same_outcome res)
  (vol_Li M env boundary ms phase_sample nee evm mat sample nonexp max_bounces fuel md cam)
  (vol_Li M env' boundary ms' phase_sample nee' evm' mat' sample' nonexp max_bounces fuel md (mr cam)).
Proof. apply vol_loop_moved; [unfold vr; vring|apply init_moved]. Qed.
Theorem vol_integrator_moved fuel md : same_integrator t k
  (fun r => as_Li W now hit rnd1 rnd2 (vol_Li M env boundary ms phase_sample nee evm mat sample nonexp max_bounces fuel md r))
  (fun r => as_Li W now hit' rnd1 rnd2 (vol_Li M env' boundary ms' phase_sample nee' evm' mat' sample' nonexp max_bounces fuel md r)).
Proof.
  intros r s s' E1 E2. assert (G : rm vr (as_Li W now hit rnd1 rnd2 (vol_Li M env boundary ms phase_sample nee evm mat sample nonexp max_bounces fuel md r))
    (as_Li W now hit' rnd1 rnd2 (vol_Li M env' boundary ms' phase_sample nee' evm' mat' sample' nonexp max_bounces fuel md (mr r)))).
  { unfold as_Li. eapply rm_bind; [apply rm_query, vol_moved|]. intros o o' Ho s1 s1' L.
    destruct o as [[v x]|m| |], o' as [[v' x']|m'| |]; cbn in Ho; try contradiction; cbn; auto. }
  apply (G s s'). split; assumption.
Qed.
End Vol.
End Runs.

(** the views that do not look at the light *)
Section Views.
Context {W : Type}.
Variable now : W -> R * W.
Variables hit hit' : W -> ray -> option isect * W.
Variable rnd1 : W -> R * W.
Variable rnd2 : W -> vec2 * W.
Variable nn : nat.
Hypothesis hit_moved : moved_world t hit hit'.
Ltac step := eapply rm_bind; [first [apply rm_start|apply rm_stop|apply rm_note|apply rm_next1|apply rm_next2]|let x := fresh "x" in let y := fresh "y" in intros x y <-].
Lemma rm_ao r : rm eq (amb_occ_Li W now hit rnd2 nn r) (amb_occ_Li W now hit' rnd2 nn (mr r)).
Proof.
  unfold amb_occ_Li. step. eapply rm_bind; [apply rm_nonnull; exact hit_moved|]. intros [its|] b ->; cbn [option_map]; [|step; apply rm_ret; reflexivity].
  repeat step. eapply rm_bind; [apply (rm_nonnull now hit hit' nn hit_moved (ao_ray its _))|]. intros [j|] b ->; cbn [option_map]; step; apply rm_ret; reflexivity.
Qed.
Ltac view := step; eapply rm_bind; [apply rm_nonnull; exact hit_moved|]; intros [its|] b ->; cbn [option_map]; [|step; apply rm_ret; reflexivity].
Lemma rm_normal r : rm eq (normal_Li W now hit nn r) (normal_Li W now hit' nn (mr r)).
Proof.
  unfold normal_Li. view. repeat step. change (i_s (mh its)) with (i_s its). cbv zeta.
  destruct (Rlt_dec _ _); [apply rm_ret; reflexivity|]. destruct (Rlt_dec _ _); [apply rm_ret; reflexivity|]. destruct (Rlt_dec _ _); [apply rm_ret; reflexivity|].
  step. apply rm_ret; reflexivity.
Qed.
Lemma rm_nice r : rm eq (nice_normal_Li W now hit nn r) (nice_normal_Li W now hit' nn (mr r)).
Proof. unfold nice_normal_Li. view. repeat step. apply rm_ret; reflexivity. Qed.
Lemma rm_cosine r : rm eq (cosine_Li W now hit nn r) (cosine_Li W now hit' nn (mr r)).
Proof. unfold cosine_Li. view. repeat step. apply rm_ret; reflexivity. Qed.
Lemma rm_bary r : rm eq (bary_Li W now hit nn r) (bary_Li W now hit' nn (mr r)).
Proof. unfold bary_Li. view. repeat step. change (i_bary (mh its)) with (i_bary its). destruct (Rlt_dec _ _); apply rm_ret; reflexivity. Qed.
End Views.
End Two.
Lemma rm_same {W} t (Li Li' : ray -> Integrators.M W vec3) : (forall r, rm eq (Li r) (Li' (moved_ray t r))) -> same_integrator t (V3c 1) Li Li'.
Proof.
  intros H r s s' E1 E2. destruct (H r s s' (conj E1 E2)) as [O L]. split; [|exact L].
  destruct (fst (Li r s)), (fst (Li' (moved_ray t r) s')); cbn in *; auto. subst. vring.
Qed.
