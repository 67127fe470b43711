From Coq Require Import Reals List Bool Lia Lra.
From Coquelicot Require Import Rbar.
From Verif.Base Require Import Outcome.
From Verif.Model Require Import Vec Frame BBox Clocker Integrators Bsdf Scene VolPath.
From Verif.Spec Require Import LinAlgSpec IntegratorSpec PathSpec SceneSpec VolPathSpec.
From Verif.Proof Require Import IntegratorProof HistoryProof EstimateProof SceneProof VolPathProof.
Import ListNotations.
Open Scope R_scope.

Scheme vol_history_mind := Induction for vol_history Sort Prop
  with vol_arrive_mind := Induction for vol_arrive Sort Prop
  with vol_leave_mind := Induction for vol_leave Sort Prop.

Section Histories.
Context {M : Type}.
Variable env : ray -> vec3.
Variable boundary : nat -> option (option M * option M).
Variable med_sample : M -> option bool -> ray -> R -> query (vec3 * R).
Variable phase_sample : M -> vec3 -> vec2 -> vec3 * R.
Variable nee_media : bool -> bool -> isect -> option M -> query (list emitter_eval).
Variable ev : isect -> ray -> option M -> closure -> query closure.
Variable mat : isect -> vec3 -> vec3 -> vec3.
Variable sample : isect -> closure -> query closure.
Notation history := (vol_history boundary med_sample phase_sample nee_media ev mat sample).

Lemma history_segments n t md c r h : history n t md c r h -> segments boundary md None h.
Proof.
  intros P. refine (vol_history_mind M boundary med_sample phase_sample nee_media ev mat sample
    (fun n t md c r h _ => segments boundary md None h)
    (fun n t md c r i h _ => segments boundary md (match md with Some _ => Some (r, i) | None => None end) h)
    (fun n t md c r i h _ => segments boundary md None h)
    _ _ _ _ _ _ _ _ _ _ n t md c r h P); clear P n t md c r h.
  - reflexivity.
  - reflexivity.
  - intros. repeat split.
  - intros n t m c r i f w d g l s wi ph u c' h Z L1 D L2 Ph Fl Go IH Stop. cbn [segments]. split; [reflexivity|]. split; [reflexivity|].
    destruct (Rle_dec u (survival (vmul t w))) as [U|U].
    + apply (IH U).
    + rewrite (Stop ltac:(lra)). reflexivity.
  - intros. cbn [segments]. auto.
  - auto.
  - intros. cbn [segments crossed]. split; [reflexivity|assumption].
  - intros n t md c r i c0 c1 u h Nu Sp Un L Go IH Stop. cbn [segments]. split; [reflexivity|]. split; [reflexivity|].
    destruct (Rle_dec u (survival t)) as [U|U].
    + apply (IH U).
    + rewrite (Stop ltac:(lra)). reflexivity.
  - intros. cbn [segments]. auto.
  - intros. cbn [segments]. auto.
Qed.

(** every scattering event asked the phase function *)
Lemma history_phase n t md c r h : history n t md c r h -> forall m f r i d w g l wi ph u,
  In (VScatter m f r i d w g l wi ph u) h -> exists s, phase_sample m (vneg (dir r)) s = (wi, ph).
Proof.
  set (Q := fun h => forall m f r i d w g l wi ph u, In (VScatter m f r i d w g l wi ph u) h -> exists s, phase_sample m (vneg (dir r)) s = (wi, ph)).
  intros P. refine (vol_history_mind M boundary med_sample phase_sample nee_media ev mat sample
    (fun n t md c r h _ => Q h) (fun n t md c r i h _ => Q h) (fun n t md c r i h _ => Q h)
    _ _ _ _ _ _ _ _ _ _ n t md c r h P); clear P n t md c r h.
  - intros. intros ? ? ? ? ? ? ? ? ? ? ? [].
  - intros. intros ? ? ? ? ? ? ? ? ? ? ? [].
  - intros. intros ? ? ? ? ? ? ? ? ? ? ? [X|[]]. discriminate.
  - intros n t m c r i f w d g l s wi ph u c' h Z L1 D L2 Ph Fl Go IH Stop m' f' r' i' d' w' g' l' wi' ph' u' [X|X].
    + injection X as <- <- <- <- <- <- <- <- <- <- <-. eauto.
    + destruct (Rle_dec u (survival (vmul t w))) as [U|U]; [exact (IH U _ _ _ _ _ _ _ _ _ _ _ X)|]. rewrite (Stop ltac:(lra)) in X. destruct X.
  - intros n t m c r i f w d h Z L D A IH m' f' r' i' d' w' g' l' wi' ph' u' [X|X]; [discriminate|]. exact (IH _ _ _ _ _ _ _ _ _ _ _ X).
  - auto.
  - intros n t md c r i c' h Nu Sp H IH m' f' r' i' d' w' g' l' wi' ph' u' [X|X]; [discriminate|]. exact (IH _ _ _ _ _ _ _ _ _ _ _ X).
  - intros n t md c r i c0 c1 u h Nu Sp Un L Go IH Stop m' f' r' i' d' w' g' l' wi' ph' u' [X|[X|X]]; [discriminate..|].
    destruct (Rle_dec u (survival t)) as [U|U]; [exact (IH U _ _ _ _ _ _ _ _ _ _ _ X)|]. rewrite (Stop ltac:(lra)) in X. destruct X.
  - intros. intros ? ? ? ? ? ? ? ? ? ? ? [X|[]]. discriminate.
  - intros n t md c r i c' h L D H IH m' f' r' i' d' w' g' l' wi' ph' u' [X|X]; [discriminate|]. exact (IH _ _ _ _ _ _ _ _ _ _ _ X).
Qed.

Lemma estimate_vol_nonneg t h : nonneg t -> (forall r, nonneg (env r)) -> Forall physical_step h -> nonneg (vol_estimate (M := M) env t h).
Proof.
  intros T E F. revert t T. induction F as [|e h P F IH]; intros t T; [apply nonneg_0|]. cbn [vol_estimate].
  assert (U : forall l, Forall (fun x => nonneg (e_throughput x)) l -> nonneg (unblocked l)).
  { intros l. unfold unblocked. induction 1 as [|x l X _ IHl]; [apply nonneg_0|]. cbn [filter]. destruct (e_valid x); [|exact IHl].
    cbn [map IntegratorSpec.vsum fold_right]. apply nonneg_add; [exact X|exact IHl]. }
  apply nonneg_add.
  - destruct e; cbn [gain physical_step] in *; try apply nonneg_0.
    + apply nonneg_mul; auto.
    + destruct P as (P1&P2&P3). apply nonneg_scale; [|exact P2]. apply nonneg_mul; [apply nonneg_mul; auto|auto].
    + destruct P as (P1&P2). apply nonneg_mul; [exact T|apply nonneg_add; assumption].
  - apply IH. destruct e; cbn [after physical_step] in *; try exact T.
    + apply nonneg_mul; assumption.
    + destruct P as (P1&P2&P3). assert (N : nonneg (vmul t w)) by (apply nonneg_mul; assumption). apply nonneg_div; [exact N|apply survival_pos, N].
    + destruct P. apply nonneg_mul; [exact T|apply nonneg_atten; assumption].
Qed.
End Histories.

(** ** flags *)
Section Flags.
Context {M : Type}.
Variable env : ray -> vec3.
Variable boundary : nat -> option (option M * option M).
Variable med_sample : M -> option bool -> ray -> R -> query (vec3 * R).
Variable phase_sample : M -> vec3 -> vec2 -> vec3 * R.
Variable nee_media : bool -> bool -> isect -> option M -> query (list emitter_eval).
Variable ev : isect -> ray -> option M -> closure -> query closure.
Variable mat : isect -> vec3 -> vec3 -> vec3.
Variable sample : isect -> closure -> query closure.
Variable max_bounces : nat.
Notation loop b := (vol_loop M env boundary med_sample phase_sample nee_media ev mat sample b max_bounces).

(** the two integrators in one statement *)
Definition flagged (nonexp : bool) (n : nat) (surf : bool) (k : list (vevent M)) : Prop :=
  if nonexp then flags_given (max_bounces - n) surf k
  else surf = true -> Forall (fun e => match e with VPass _ f _ _ _ => f = None | VScatter _ f _ _ _ _ g _ _ _ _ => f = None /\ g = true | _ => True end) k.
Definition flag_next (nonexp : bool) (next : continuation M) : Prop := forall n Li beta r cl md surf h o,
  (n <= max_bounces)%nat -> leaf (next n Li beta r cl md surf h) o ->
  o = OutOfFuel \/ exists v k, o = Ok (v, h ++ k) /\ flagged nonexp n surf k.

Lemma arrive_flags nonexp next n Li beta r cl md surf its h o : flag_next nonexp next -> (S n <= max_bounces)%nat ->
  leaf (arrive M boundary ev mat sample nonexp max_bounces next n Li beta r cl md surf its h) o ->
  o = OutOfFuel \/ exists v k, o = Ok (v, h ++ k) /\ flagged nonexp (S n) surf k.
Proof.
  intros IH B L. unfold arrive in L. destruct (i_null its).
  - apply IH in L; [|exact B]. destruct L as [->|(v&k&->&F)]; [now left|right]. exists v, (VBoundary r its :: k). rewrite <- app_assoc. split; [reflexivity|].
    unfold flagged in *. destruct nonexp; cbn [andb] in F.
    + cbn [flags_given]. replace (match max_bounces - S n with 1 => true | _ => surf end)%nat with (if (S n =? max_bounces - 1)%nat then true else surf); [exact F|].
      destruct (Nat.eqb_spec (S n) (max_bounces - 1)).
      * replace (max_bounces - S n)%nat with 1%nat by lia. reflexivity.
      * destruct (max_bounces - S n)%nat as [|[|j]] eqn:J; try reflexivity. lia.
    + intros S. constructor; [exact I|]. apply F, S.
  - unfold at_surface in L. apply leaf_bind in L as (c1&_&L). inversion L as [| |? u ? L' E1 E2|]; subst; clear L. rename L' into L.
    assert (Q : forall rest, (nonexp = true -> flags_given (S (max_bounces - S n)) true rest) -> (nonexp = false -> surf = true -> flagged false (S n) surf rest) ->
      flagged nonexp (S n) surf (VShade r its (accumulate_shadow_rays (mat its) c1) :: VRoulette u :: rest)).
    { intros rest H1 H2. unfold flagged. destruct nonexp; [cbn [flags_given]; auto|]. intros S. constructor; [exact I|]. constructor; [exact I|]. apply H2; auto. }
    destruct (Rgt_dec _ _).
    + apply leaf_ret_inv in L. subst o. right. do 2 eexists. split; [reflexivity|]. apply Q; [reflexivity|constructor].
    + apply leaf_bind in L as (c2&_&L). destruct (Req_EM_T _ _).
      * apply leaf_ret_inv in L. subst o. right. do 2 eexists. split; [reflexivity|]. apply Q; [reflexivity|repeat constructor].
      * apply IH in L; [|lia]. destruct L as [->|(v&k&->&F)]; [now left|right]. exists v, (VShade r its (accumulate_shadow_rays (mat its) c1) :: VRoulette u :: VSample its c2 :: k).
        rewrite <- app_assoc. split; [reflexivity|]. apply Q.
        -- intros ->. cbn [flags_given]. replace (S (max_bounces - S n)) with (max_bounces - n)%nat by lia. exact F.
        -- intros -> S. unfold flagged in *. intros _. constructor; [exact I|]. apply F. reflexivity.
Qed.
Lemma loop_flags nonexp fuel : flag_next nonexp (loop nonexp fuel).
Proof.
  induction fuel as [|fuel IH]; intros n Li beta r cl md surf h o B L; [apply leaf_ret_inv in L; now left|].
  assert (Nil : flagged nonexp n surf []) by (unfold flagged; destruct nonexp; [exact I|constructor]).
  cbn [vol_loop] in L. destruct n as [|n].
  { apply leaf_ret_inv in L. subst o. right. exists Li, []. rewrite app_nil_r. auto. }
  destruct (isZero_dec beta). { apply leaf_ret_inv in L. subst o. right. exists Li, []. rewrite app_nil_r. auto. }
  inversion L as [|? ? a ? L' E1 E2| |]; subst; clear L. rename L' into L. destruct a as [its|].
  2:{ apply leaf_ret_inv in L. subst o. right. do 2 eexists. split; [reflexivity|]. unfold flagged. destruct nonexp; [exact I|repeat constructor]. }
  unfold traverse in L. destruct md as [m|]; [|exact (arrive_flags _ _ _ _ _ _ _ _ _ _ _ _ IH B L)].
  apply leaf_bind in L as ((w&d)&_&L). cbn [fst snd] in L. destruct (Rlt_dec d _).
  - unfold scatter in L. apply leaf_bind in L as (l&_&L). inversion L as [| | |? s ? L' E1 E2]; subst; clear L. rename L' into L.
    destruct (phase_sample m (vneg (dir r)) s) as [wi ph].
    inversion L as [| |? u ? L' E1 E2|]; subst; clear L. rename L' into L. cbv zeta in L. destruct (Rgt_dec _ _).
    + apply leaf_ret_inv in L. subst o. right. do 2 eexists. split; [reflexivity|]. unfold flagged. destruct nonexp; [cbn; auto|]. intros ->. repeat constructor.
    + apply IH in L; [|lia]. destruct L as [->|(v&k&->&F)]; [now left|right].
      exists v, (VScatter m (if nonexp then Some surf else None) r its d w surf l wi ph u :: k). rewrite <- app_assoc. split; [reflexivity|].
      unfold flagged in *. destruct nonexp; cbn [negb] in F.
      * cbn [flags_given]. replace (S (max_bounces - S n)) with (max_bounces - n)%nat by lia. auto.
      * intros ->. constructor; [split; reflexivity|]. apply F. reflexivity.
  - apply (arrive_flags _ _ _ _ _ _ _ _ _ _ _ _ IH B) in L. destruct L as [->|(v&k&->&F)]; [now left|right].
    exists v, (VPass m (if nonexp then Some surf else None) r its w :: k). rewrite <- app_assoc. split; [reflexivity|].
    unfold flagged in *. destruct nonexp; [cbn [flags_given]; auto|]. intros S. constructor; [reflexivity|auto].
Qed.
End Flags.

(** ** termination *)
Lemma hleaf_bind {A B} hit (q : query A) (f : A -> query B) b : hleaf hit (qbind q f) b -> exists a, hleaf hit q a /\ hleaf hit (f a) b.
Proof.
  induction q as [a|r k IH|k IH|k IH]; cbn [qbind]; intros L.
  - exists a. split; [constructor|exact L].
  - inversion L as [|? ? ? L'| |]; subst. apply IH in L' as (a&L1&L2). exists a. split; [constructor; exact L1|exact L2].
  - inversion L as [| |? u ? L'|]; subst. apply IH in L' as (a&L1&L2). exists a. split; [econstructor; exact L1|exact L2].
  - inversion L as [| | |? u ? L']; subst. apply IH in L' as (a&L1&L2). exists a. split; [econstructor; exact L1|exact L2].
Qed.
Lemma hleaf_leaf {A} hit (q : query A) a : hleaf hit q a -> leaf q a.
Proof. induction 1; econstructor; eauto. Qed.

Lemma filter_map_len {A B} (f : B -> bool) (g : A -> B) l : List.length (filter f (map g l)) = List.length (filter (fun x => f (g x)) l).
Proof. induction l as [|x l IH]; [reflexivity|]. cbn [map filter]. destruct (f (g x)); cbn; rewrite IH; reflexivity. Qed.
Lemma filter_less {A} (f g : A -> bool) l x : (forall y, f y = true -> g y = true) -> In x l -> f x = false -> g x = true ->
  (List.length (filter f l) < List.length (filter g l))%nat.
Proof.
  intros Sub Hx F G. assert (Le : forall l, (List.length (filter f l) <= List.length (filter g l))%nat).
  { induction l0 as [|y l0 IH]; [cbn; lia|]. cbn [filter]. destruct (f y) eqn:Fy; [rewrite (Sub _ Fy); cbn; lia|]. destruct (g y); cbn; lia. }
  induction l as [|y l IH]; [destruct Hx|]. cbn [filter]. destruct Hx as [->|Hx].
  - rewrite F, G. cbn. specialize (Le l). lia.
  - specialize (IH Hx). destruct (f y) eqn:Fy; [rewrite (Sub _ Fy); cbn; lia|]. destruct (g y); cbn; lia.
Qed.
Lemma ahead_less lines r i : rigid lines -> scene_hit lines r = Some i ->
  (ahead lines (Ray (i_p i) (dir r) (Finite Epsilon) p_infty) < ahead lines r)%nat.
Proof.
  intros Rg H. unfold scene_hit, first_in in H. apply find_some in H as [Hi Hr]. apply andb_prop in Hr as [Hn _].
  unfold ahead. cbn [org dir rnear]. rewrite (Rg _ _ _ Hi), filter_map_len. apply filter_less with (x := i); [|exact Hi| |exact Hn].
  - intros j J. apply leb_iff in J. apply leb_iff. apply leb_iff in Hn. cbn [shift i_t] in J. unfold Epsilon in J. simpl in J.
    apply Rbar_le_trans with (Finite (i_t i)); [exact Hn|]. simpl. lra.
  - destruct (Rbar_leb (Finite Epsilon) _) eqn:J; [|reflexivity]. apply leb_iff in J. cbn [shift i_t] in J. unfold Epsilon in J. simpl in J. lra.
Qed.

Section Ends.
Context {M : Type}.
Variable env : ray -> vec3.
Variable boundary : nat -> option (option M * option M).
Variable med_sample : M -> option bool -> ray -> R -> query (vec3 * R).
Variable phase_sample : M -> vec3 -> vec2 -> vec3 * R.
Variable nee_media : bool -> bool -> isect -> option M -> query (list emitter_eval).
Variable ev : isect -> ray -> option M -> closure -> query closure.
Variable mat : isect -> vec3 -> vec3 -> vec3.
Variable sample : isect -> closure -> query closure.
Variable nonexp : bool.
Variable max_bounces : nat.
Variable lines : vec3 -> vec3 -> list isect.
Variable K : nat.
Hypothesis lines_rigid : rigid lines.
Hypothesis lines_few : forall o d, (List.length (lines o d) <= K)%nat.
Notation loop := (vol_loop M env boundary med_sample phase_sample nee_media ev mat sample nonexp max_bounces).

Lemma ahead_few r : (ahead lines r <= K)%nat.
Proof.
  unfold ahead. specialize (lines_few (org r) (dir r)).
  assert (H : forall l, (List.length (filter (fun i => Rbar_leb (rnear r) (Finite (i_t i))) l) <= List.length l)%nat).
  { induction l as [|x l IH]; [cbn; lia|]. cbn [filter]. destruct (Rbar_leb _ _); cbn; lia. }
  specialize (H (lines (org r) (dir r))). lia.
Qed.

Lemma arrive_ends next n Li beta r cl md surf its h :
  (forall n' Li beta r cl md surf h, (n' <= n)%nat -> ~ hleaf (scene_hit lines) (next n' Li beta r cl md surf h) OutOfFuel) ->
  (i_null its = true -> forall Li beta cl md surf h, ~ hleaf (scene_hit lines) (next (S n) Li beta (Ray (i_p its) (dir r) (Finite Epsilon) p_infty) cl md surf h) OutOfFuel) ->
  ~ hleaf (scene_hit lines) (arrive M boundary ev mat sample nonexp max_bounces next n Li beta r cl md surf its h) OutOfFuel.
Proof.
  intros H1 H2 L. unfold arrive in L. destruct (i_null its) eqn:Nu; [exact (H2 eq_refl _ _ _ _ _ _ L)|].
  unfold at_surface in L. apply hleaf_bind in L as (c1&_&L). inversion L as [| |? u ? L'|]; subst; clear L. rename L' into L.
  destruct (Rgt_dec _ _); [inversion L|]. apply hleaf_bind in L as (c2&_&L). destruct (Req_EM_T _ _); [inversion L|].
  exact (H1 _ _ _ _ _ _ _ _ (le_n _) L).
Qed.
Lemma loop_ends fuel : forall n Li beta r cl md surf h, (n * S K + ahead lines r < fuel)%nat ->
  ~ hleaf (scene_hit lines) (loop fuel n Li beta r cl md surf h) OutOfFuel.
Proof.
  induction fuel as [|fuel IH]; intros n Li beta r cl md surf h F L; [lia|]. cbn [vol_loop] in L. destruct n as [|n]; [inversion L|].
  destruct (isZero_dec beta); [inversion L|]. inversion L as [|? ? ? L'| |]; subst; clear L. rename L' into L.
  destruct (scene_hit lines r) as [its|] eqn:Hit; [|inversion L].
  assert (Sm : forall n' Li beta r cl md surf h, (n' <= n)%nat -> ~ hleaf (scene_hit lines) (loop fuel n' Li beta r cl md surf h) OutOfFuel).
  { intros n' Li' beta' r' cl' md' surf' h' Le. apply IH. pose proof (ahead_few r'). nia. }
  assert (Bo : i_null its = true -> forall Li beta cl md surf h, ~ hleaf (scene_hit lines) (loop fuel (S n) Li beta (Ray (i_p its) (dir r) (Finite Epsilon) p_infty) cl md surf h) OutOfFuel).
  { intros _ Li' beta' cl' md' surf' h'. apply IH. pose proof (ahead_less lines r its lines_rigid Hit). lia. }
  unfold traverse in L. destruct md as [m|]; [|exact (arrive_ends _ _ _ _ _ _ _ _ _ _ Sm Bo L)].
  apply hleaf_bind in L as ((w&d)&_&L). cbn [fst snd] in L. destruct (Rlt_dec d _); [|exact (arrive_ends _ _ _ _ _ _ _ _ _ _ Sm Bo L)].
  unfold scatter in L. apply hleaf_bind in L as (l&_&L). inversion L as [| | |? s ? L']; subst; clear L. rename L' into L.
  destruct (phase_sample m (vneg (dir r)) s) as [wi ph]. inversion L as [| |? u ? L'|]; subst; clear L. rename L' into L. cbv zeta in L.
  destruct (Rgt_dec _ _); [inversion L|]. exact (Sm _ _ _ _ _ _ _ _ (le_n _) L).
Qed.
End Ends.

(** ** without media and boundaries: the path integrator *)
Lemma qrun_bind {W A B} hit rnd1 rnd2 (q : query A) (f : A -> query B) (w : W) :
  qrun hit rnd1 rnd2 (qbind q f) w = let (a, w') := qrun hit rnd1 rnd2 q w in qrun hit rnd1 rnd2 (f a) w'.
Proof.
  revert w. induction q as [a|r k IH|k IH|k IH]; intros w; cbn [qbind qrun]; [reflexivity|..];
    [destruct (hit w r)|destruct (rnd1 w)|destruct (rnd2 w)]; apply IH.
Qed.
Section Same.
Context {M : Type}.
Context {A B : Type}.
Variable now : B -> R * B.
Variable hit : A -> ray -> option isect * A.
Variable rnd1 : A -> R * A.
Variable rnd2 : A -> vec2 * A.
Let W : Type := (A * B)%type.
Notation now' := (own_now now).
Notation hit' := (own_hit hit).
Notation rnd1' := (own_rnd rnd1).
Notation rnd2' := (own_rnd rnd2).

(** what a program does to the world, whatever the clocks say *)
Definition does {X} (m : Integrators.M W X) (g : A -> X * A) : Prop := forall s x s', m s = (Ok x, s') -> g (fst (s_w W s)) = (x, fst (s_w W s')).
Lemma does_ret {X} (x : X) : does (ret W x) (fun a => (x, a)).
Proof. intros s y s' E. injection E as <- <-. reflexivity. Qed.
Lemma does_bind {X Y} (m : Integrators.M W X) (k : X -> Integrators.M W Y) g g' : does m g -> (forall x, does (k x) (g' x)) ->
  does (bindM W m k) (fun a => let (x, a') := g a in g' x a').
Proof.
  intros H H' s y s'' E. unfold bindM in E. destruct (m s) as [[x|e| |] s'] eqn:Em; try discriminate.
  rewrite (H _ _ _ Em). exact (H' x _ _ _ E).
Qed.
Lemma does_quiet {X Y} (m : Integrators.M W X) (k : X -> Integrators.M W Y) g : (forall s x s', m s = (Ok x, s') -> fst (s_w W s') = fst (s_w W s)) -> (forall x, does (k x) g) ->
  does (bindM W m k) g.
Proof.
  intros H H' s y s'' E. unfold bindM in E. destruct (m s) as [[x|e| |] s'] eqn:Em; try discriminate.
  rewrite <- (H _ _ _ Em). exact (H' x _ _ _ E).
Qed.
Lemma start_quiet c s x s' : clk_start W now' c s = (Ok x, s') -> fst (s_w W s') = fst (s_w W s).
Proof. unfold clk_start, own_now. destruct (now _) as [t b]. destruct (start_clock _ _ _); intros E; try discriminate. injection E as <- <-. reflexivity. Qed.
Lemma stop_quiet c s x s' : clk_stop W now' c s = (Ok x, s') -> fst (s_w W s') = fst (s_w W s).
Proof. unfold clk_stop, own_now. destruct (now _) as [t b]. destruct (end_clock _ _ _); intros E; try discriminate. injection E as <- <-. reflexivity. Qed.
Lemma note_quiet e s x s' : note W e s = (Ok x, s') -> fst (s_w W s') = fst (s_w W s).
Proof. intros E. injection E as <- <-. reflexivity. Qed.
Ltac quiet := cbv zeta; repeat (apply does_quiet; [first [apply start_quiet|apply stop_quiet|apply note_quiet]|intros ?]).
Lemma does_ext {X} (m : Integrators.M W X) g g' : does m g -> (forall a, g a = g' a) -> does m g'.
Proof. intros H E s x s' H'. rewrite <- E. exact (H _ _ _ H'). Qed.
Lemma does_accel r : does (accel_intersect W now' hit' r) (fun a => hit a r).
Proof.
  unfold accel_intersect. quiet.
  eapply does_ext; [eapply does_bind with (g := fun a => hit a r) (g' := fun x a => (x, a))|].
  - intros s y s' E. unfold own_hit in E. destruct (hit (fst (s_w W s)) r) as [z a]. injection E as <- <-. reflexivity.
  - intros y. quiet. apply does_ret.
  - intros a. cbv beta. destruct (hit a r); reflexivity.
Qed.
Lemma does_next1 : does (next1 W rnd1') rnd1.
Proof. intros s x s' E. unfold next1, own_rnd in E. destruct (rnd1 _) as [u a]. injection E as <- <-. reflexivity. Qed.
Lemma does_next2 : does (next2 W rnd2') rnd2.
Proof. intros s x s' E. unfold next2, own_rnd in E. destruct (rnd2 _) as [u a]. injection E as <- <-. reflexivity. Qed.
Lemma does_query {X} (q : query X) : does (run_query W now' hit' rnd1' rnd2' q) (qrun hit rnd1 rnd2 q).
Proof.
  induction q as [x|r k IH|k IH|k IH]; cbn [run_query].
  - apply does_ret.
  - exact (does_bind _ _ _ _ (does_accel r) IH).
  - exact (does_bind _ _ _ _ does_next1 IH).
  - exact (does_bind _ _ _ _ does_next2 IH).
Qed.

Variable env : ray -> vec3.
Variable boundary : nat -> option (option M * option M).
Variable med_sample : M -> option bool -> ray -> R -> query (vec3 * R).
Variable phase_sample : M -> vec3 -> vec2 -> vec3 * R.
Variable nee_media : bool -> bool -> isect -> option M -> query (list emitter_eval).
Variable ev : isect -> ray -> option M -> closure -> query closure.
Variable mat : isect -> vec3 -> vec3 -> vec3.
Variable sample : isect -> closure -> query closure.
Variable max_bounces nn_fuel : nat.
Hypothesis solid_only : forall a r i, fst (hit a r) = Some i -> i_null i = false.
Notation loop := (vol_loop M env boundary med_sample phase_sample nee_media ev mat sample false max_bounces).
Notation path := (path_loop W now' hit' rnd1' rnd2' env (fun i r c => ev i r None c) mat sample (S nn_fuel)).

Lemma does_nn r : does (nn_loop W now' hit' (S nn_fuel) r) (fun a => hit a r).
Proof.
  intros s y s' E. cbn [nn_loop] in E. unfold bindM in E. destruct (accel_intersect W now' hit' r s) as [[x|e| |] s1] eqn:Ea; try discriminate.
  pose proof (does_accel r _ _ _ Ea) as D. cbv beta in D. destruct x as [i|].
  - assert (N : i_null i = false) by (apply (solid_only (fst (s_w W s)) r); rewrite D; reflexivity). rewrite N in E. injection E as <- <-. exact D.
  - injection E as <- <-. exact D.
Qed.

Lemma bind_inv {X Y} (m : Integrators.M W X) (k : X -> Integrators.M W Y) s y s'' : bindM W m k s = (Ok y, s'') -> exists x s', m s = (Ok x, s') /\ k x s' = (Ok y, s'').
Proof. unfold bindM. destruct (m s) as [[x|e| |] s'] eqn:Em; intros E; try discriminate. eauto. Qed.
Lemma does_nonnull r : does (intersect_non_null W now' hit' (S nn_fuel) r) (fun a => hit a r).
Proof.
  intros s y s' E. apply bind_inv in E as (x&s1&E1&E). apply bind_inv in E as (u&s2&E2&E). apply does_nn in E1. apply note_quiet in E2. injection E as <- <-.
  rewrite E2. exact E1.
Qed.

Notation run q a := (qrun hit rnd1 rnd2 q a).
Ltac step E := let x := fresh "x" in let s := fresh "s" in let E1 := fresh "E" in
  apply bind_inv in E as (x&s&E1&E);
  first [apply start_quiet in E1|apply stop_quiet in E1|apply note_quiet in E1]; rewrite <- E1; clear E1.
Ltac steps E := cbv zeta in E; repeat step E.
Lemma path_same n : forall fuel Li beta r cl surf h s v s', (n < fuel)%nat -> path n Li beta r cl s = (Ok v, s') ->
  exists k, run (loop fuel n Li beta r cl None surf h) (fst (s_w W s)) = (Ok (v, h ++ k), fst (s_w W s')).
Proof.
  induction n as [|n IH]; intros fuel Li beta r cl surf h s v s' F E; (destruct fuel as [|fuel]; [lia|]).
  { injection E as <- <-. exists []. rewrite app_nil_r. reflexivity. }
  cbn [path_loop] in E. cbn [vol_loop]. destruct (isZero_dec beta); [injection E as <- <-; exists []; rewrite app_nil_r; reflexivity|].
  steps E. apply bind_inv in E as (a&z1&E1&E). pose proof (does_nonnull _ _ _ _ E1) as D. cbv beta in D. cbn [qrun]. rewrite D.
  destruct a as [its|]; [|steps E; injection E as <- <-; eexists; reflexivity].
  assert (N : i_null its = false) by (eapply solid_only; rewrite D; reflexivity).
  cbn [traverse]. unfold arrive, at_surface. rewrite N. clear D E1. steps E.
  apply bind_inv in E as (c1&z2&E1&E). apply does_query in E1. rewrite qrun_bind, E1. clear E1. steps E. cbn [qrun].
  apply bind_inv in E as (u&z3&E1&E). apply does_next1 in E1. rewrite E1. clear E1. steps E.
  destruct (Rgt_dec u (rr_prob beta)); [steps E; injection E as <- <-; eexists; reflexivity|]. steps E.
  apply bind_inv in E as (c2&z4&E1&E). apply does_query in E1. rewrite qrun_bind, E1. clear E1. steps E.
  destruct (Req_EM_T (c_pdf c2) 0); [steps E; injection E as <- <-; eexists; reflexivity|]. steps E.
  eapply IH with (fuel := fuel) in E as (k&E); [|lia]. rewrite E. eexists. rewrite <- app_assoc. reflexivity.
Qed.
End Same.

(** ** light counted once *)
Lemma bsdf_sample_spec b c c' : leaf (bsdf_sample b c) c' -> c_spec c = isDelta b -> c_spec c' = isDelta b.
Proof.
  intros L E. destruct b; cbn [bsdf_sample] in L;
    repeat match type of L with
    | leaf (if ?x then _ else _) _ => destruct x
    | leaf (QRet _) _ => apply leaf_ret_inv in L; subst c'
    | leaf (QRand1 ?k) _ => inversion L as [| |? u ? L' E1 E2|]; subst; clear L; rename L' into L; cbv zeta in L
    | leaf (QRand2 ?k) _ => inversion L as [| | |? u ? L' E1 E2]; subst; clear L; rename L' into L; cbv zeta in L
    end; cbn [put kill c_spec isDelta] in *; auto.
Qed.
Lemma shadow_delivered mat wi l nee : shadow_sum mat wi l nee = vadd nee (delivered mat wi l).
Proof.
  unfold delivered. revert nee. induction l as [|e l IH]; intros nee; [simpl; apply vec3_eq; simpl; ring|].
  cbn [shadow_sum filter]. rewrite IH. destruct (e_valid e); cbn [map]; [|reflexivity].
  match goal with |- vadd (vadd ?a ?b) (vsum ?s) = _ => change (vsum (b :: s)) with (vadd b (vsum s)); generalize a b (vsum s) end. intros. apply vec3_eq; simpl; ring.
Qed.
Section Once.
Variable mesh_point : nat -> vec2 -> outcome (vec3 * vec3 * R).
Context {M : Type}.
Variable inside : nat -> option (option M).
Variable transmittance : M -> ray -> query vec3.
Variable fuel : nat.
Variable emitters : list emitter.
Variable inst : nat -> nat.
Variable ignore : bool.
Variable object_emitter : nat -> option emitter.
Variable material : isect -> bsdf.
Variable boundary : nat -> option (option M * option M).
Variable med_sample : M -> option bool -> ray -> R -> query (vec3 * R).
Variable phase_sample : M -> vec3 -> vec2 -> vec3 * R.
Variable nee_media : bool -> bool -> isect -> option M -> query (list emitter_eval).
Variable ev : isect -> ray -> option M -> closure -> query closure.
Variable mat : isect -> vec3 -> vec3 -> vec3.
Hypothesis ev_simple : forall i r md c c', leaf (ev i r md c) c' ->
  leaf (simple_evaluate_in mesh_point M inside transmittance fuel emitters inst ignore object_emitter md (isDelta (material i)) i r c) (Ok c').
Let sample i c := bsdf_sample (material i) c.
Notation history := (vol_history boundary med_sample phase_sample nee_media ev mat sample).
Definition rules (c : closure) (h : list (vevent M)) : Prop := counted_late (c_last_spec c) (c_spec c) h /\ samples_late mat (c_shadow c) h.
Lemma rules_hold n t md c r h : history n t md c r h -> rules c h.
Proof.
  intros P. refine (vol_history_mind M boundary med_sample phase_sample nee_media ev mat sample
    (fun n t md c r h _ => rules c h)
    (fun n t md c r i h _ => rules c h)
    (fun n t md c r i h _ => c_shadow c = [] -> c_last_spec c = c_spec c -> c_spec c = isDelta (material i) -> rules c h)
    _ _ _ _ _ _ _ _ _ _ n t md c r h P); clear P n t md c r h; unfold rules.
  - intros. split; exact I.
  - intros. split; exact I.
  - intros. split; exact I.
  - intros n t m c r i f w d g l s wi ph u c' h Z L1 D L2 Ph Fl Go IH Stop. cbn [counted_late samples_late].
    destruct (Rle_dec u (survival (vmul t w))) as [U|U].
    + destruct (Fl U) as (F1&F2&F3&_). destruct (IH U) as [I1 I2]. rewrite F1 in I2. rewrite F2, F3 in I1. auto.
    + rewrite (Stop ltac:(lra)). split; exact I.
  - intros. cbn [counted_late samples_late]. auto.
  - auto.
  - intros n t md c r i c' h Nu (S1&S2&S3&_) H IH. cbn [counted_late samples_late]. rewrite S1, S2, S3 in IH. exact IH.
  - intros n t md c r i c0 c1 u h Nu (S1&S2&S3&_) (U1&U2&U3&_) L Go IH Stop. cbn [counted_late samples_late].
    destruct (simple_in_leaf _ _ _ _ _ _ _ _ _ _ _ _ _ _ (ev_simple _ _ _ _ _ L)) as ((A1&A2&A3&A4&A5&A6&A7&A8)&B1&B2).
    cbn [accumulate_shadow_rays c_emission c_spec c_nee c_shadow c_last_spec] in *.
    assert (Rest : counted_late (c_spec c1) (c_spec c1) h /\ samples_late mat [] h).
    { destruct (Rle_dec u (survival t)) as [U|U].
      - rewrite B1 in IH. destruct (IH U eq_refl (eq_sym A3) A3) as [I1 I2]. rewrite A3 in *. auto.
      - rewrite (Stop ltac:(lra)). split; exact I. }
    destruct Rest as [R1 R2]. split; split; auto.
    + intros D. rewrite A1; [exact U2|congruence].
    + intros D. rewrite A3 in D. rewrite shadow_delivered, A4, U3, A5, U1, A7 by now left. rewrite S1. apply vadd_0_l.
  - intros n t md c r i c' L Pd Sh La Sp. cbn [counted_late samples_late]. split; exact I.
  - intros n t md c r i c' h L Pd H IH Sh La Sp. cbn [counted_late samples_late]. destruct (bsdf_sample_keeps _ _ _ L) as (K1&K2&_).
    pose proof (bsdf_sample_spec _ _ _ L Sp) as K3. cbn [set_wi c_last_spec c_shadow c_spec] in *. rewrite K1, K2, K3 in IH. rewrite Sp. exact IH.
Qed.
Lemma once_unless_late d s h : counted_late (M := M) d s h -> no_late s h -> counted_once d h.
Proof.
  revert d s. induction h as [|e h IH]; intros d s C N; [exact I|].
  destruct e; cbn [counted_late no_late counted_once] in *; try (exact (IH d s C N)).
  - destruct N as [-> N]. exact (IH false false C N).
  - destruct C as [C1 C2]. split; [exact C1|]. exact (IH _ _ C2 N).
Qed.
End Once.

(** ** clocks *)
Section Clocks.
Context {W : Type}.
Variable now : W -> R * W.
Variable hit : W -> ray -> option isect * W.
Variable rnd1 : W -> R * W.
Variable rnd2 : W -> vec2 * W.
Lemma as_Li_safe {X} (q : ray -> query (outcome (vec3 * X))) : (forall r o, leaf (q r) o -> o = OutOfFuel \/ exists v, o = Ok v) -> safe_Li (fun r => as_Li W now hit rnd1 rnd2 (q r)).
Proof.
  intros Q r f F. unfold as_Li. eapply runs_bind with (T1 := fun _ => False); [apply runs_query, F; simpl; tauto| |intros h []].
  intros o h [-> L]. apply Q in L as [->|([v x]&->)].
  - intros s S0. exists []. cbn. rewrite app_nil_r. split; [auto|]. exact I.
  - apply runs_ret. exact I.
Qed.
End Clocks.
