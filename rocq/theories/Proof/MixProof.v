(** Light transport in three scenes of which the third has the lights of the first two. *)
From Coq Require Import Reals List Bool ZArith Lra Lia.
From Coquelicot Require Import Rbar.
From Verif.Base Require Import Outcome.
From Verif.Model Require Import Vec Frame BBox Warp Clocker Integrators Bsdf Scene VolPath Renderer.
From Verif.Spec Require Import MixSpec.
From Verif.Proof Require Import VecLemmas.
Import ListNotations.
Open Scope R_scope.

Ltac vring := apply V3_eq; cbn; unfold Rdiv; ring.
Definition eq3 {A} (a b c : A) : Prop := b = a /\ c = a.

(** programs that ask for the same rays and random numbers *)
Inductive tog {A} (R : A -> A -> A -> Prop) : query A -> query A -> query A -> Prop :=
| tog_ret a b c : R a b c -> tog R (QRet a) (QRet b) (QRet c)
| tog_hit r f g h : (forall x, tog R (f x) (g x) (h x)) -> tog R (QHit r f) (QHit r g) (QHit r h)
| tog_rand1 f g h : (forall u, tog R (f u) (g u) (h u)) -> tog R (QRand1 f) (QRand1 g) (QRand1 h)
| tog_rand2 f g h : (forall u, tog R (f u) (g u) (h u)) -> tog R (QRand2 f) (QRand2 g) (QRand2 h).
Lemma tog_same {A} (q : query A) : tog eq3 q q q.
Proof. induction q; constructor; auto. split; reflexivity. Qed.
Lemma tog_bind {A B} (R : A -> A -> A -> Prop) (Q : B -> B -> B -> Prop) q q' q'' f f' f'' :
  tog R q q' q'' -> (forall a b c, R a b c -> tog Q (f a) (f' b) (f'' c)) -> tog Q (qbind q f) (qbind q' f') (qbind q'' f'').
Proof. intros H F. induction H; cbn; [auto| | |]; constructor; auto. Qed.
Lemma tog_obind {A B} (R : A -> A -> A -> Prop) (Q : B -> B -> B -> Prop) q q' q'' f f' f'' :
  tog (out3 R) q q' q'' -> (forall a b c, R a b c -> tog (out3 Q) (f a) (f' b) (f'' c)) -> tog (out3 Q) (obind q f) (obind q' f') (obind q'' f'').
Proof.
  intros H F. eapply tog_bind; [exact H|]. intros [a|m| |] [b|m'| |] [c|m''| |] E; cbn in E; try contradiction; auto; constructor; cbn; auto.
Qed.
Lemma tog_osame {A} (q : query (outcome A)) : tog (out3 eq3) q q q.
Proof. induction q as [a| | |]; constructor; auto. destruct a; cbn; unfold eq3; auto. Qed.
Lemma tog_total {A} (R : A -> A -> A -> Prop) a b c q q' q'' : R a b c -> tog (out3 R) q q' q'' -> tog R (no_failure a q) (no_failure b q') (no_failure c q'').
Proof.
  intros E H. eapply tog_bind; [exact H|]. intros [x|m| |] [y|m'| |] [z|m''| |] Q; cbn in Q; try contradiction; constructor; auto.
Qed.

(** ** light sampling *)
Definition sample3 (s1 s2 s3 : em_sample) : Prop :=
  eq3 (es_wi s1) (es_wi s2) (es_wi s3) /\ eq3 (es_sqr_dist s1) (es_sqr_dist s2) (es_sqr_dist s3) /\ eq3 (es_pdf s1) (es_pdf s2) (es_pdf s3) /\ adds (es_color s1) (es_color s2) (es_color s3).
Definition eval3 (a b c : emitter_eval) : Prop :=
  adds (e_throughput a) (e_throughput b) (e_throughput c) /\ eq3 (e_dir a) (e_dir b) (e_dir c) /\ eq3 (e_valid a) (e_valid b) (e_valid c).
Definition clos3 (a b c : closure) : Prop :=
  eq3 (c_wi a) (c_wi b) (c_wi c) /\ eq3 (c_wo a) (c_wo b) (c_wo c) /\ all3 eval3 (c_shadow a) (c_shadow b) (c_shadow c) /\
  eq3 (c_albedo a) (c_albedo b) (c_albedo c) /\ adds (c_emission a) (c_emission b) (c_emission c) /\ adds (c_nee a) (c_nee b) (c_nee c) /\
  eq3 (c_pdf a) (c_pdf b) (c_pdf c) /\ eq3 (c_eta a) (c_eta b) (c_eta c) /\ eq3 (c_spec a) (c_spec b) (c_spec c) /\
  eq3 (c_last_spec a) (c_last_spec b) (c_last_spec c) /\ eq3 (c_all a) (c_all b) (c_all c) /\ eq3 (c_accepts a) (c_accepts b) (c_accepts c).
Definition light3 (a b c : option (vec3 * vec3)) : Prop :=
  match a, b, c with
  | None, None, None => True
  | Some (d, v), Some (d', v'), Some (d'', v'') => d' = d /\ d'' = d /\ adds v v' v''
  | _, _, _ => False
  end.
Definition shadow3 (a b c : ray * vec3 * R) : Prop :=
  eq3 (fst (fst a)) (fst (fst b)) (fst (fst c)) /\ eq3 (snd a) (snd b) (snd c) /\ adds (snd (fst a)) (snd (fst b)) (snd (fst c)).

Section Lights.
Context {M : Type}.
Variable mp : nat -> vec2 -> outcome (vec3 * vec3 * R).
Variable inside : nat -> option (option M).
Variable tr : M -> ray -> query vec3.
Variable fuel : nat.
Variable ignore : bool.
Lemma sample_nee_mixed e1 e2 e3 p u : mixed e1 e2 e3 -> out3 sample3 (sample_nee mp e1 p u) (sample_nee mp e2 p u) (sample_nee mp e3 p u).
Proof.
  unfold sample3, eq3, adds. intros H; destruct H; cbn; try (repeat split; vring).
  - repeat split; cbn. destruct (Rgt_dec _ _); vring.
  - destruct (mp m u) as [[[q n] ar]|x| |]; cbn; auto. destruct (Rle_dec _ _); repeat split; cbn; vring.
Qed.
Lemma mixed_mesh e1 e2 e3 : mixed e1 e2 e3 -> eq3 (em_mesh e1) (em_mesh e2) (em_mesh e3) /\ eq3 (needs_visibility e1) (needs_visibility e2) (needs_visibility e3).
Proof. intros H; destruct H; repeat split. Qed.
Lemma shadow_mixed its e1 e2 e3 s1 s2 s3 : mixed e1 e2 e3 -> sample3 s1 s2 s3 ->
  tog (out3 shadow3) (shadow_query fuel its e1 s1) (shadow_query fuel its e2 s2) (shadow_query fuel its e3 s3).
Proof.
  intros H ((W2 & W3) & (D2 & D3) & (P2 & P3) & C). destruct (mixed_mesh _ _ _ H) as ((M2 & M3) & (V2 & V3)). unfold shadow_query. rewrite W2, W3, D2, D3, P2, P3, M2, M3, V2, V3.
  assert (F : forall d c1 c2 c3, adds c1 c2 c3 -> tog (out3 shadow3)
      match d with None => QRet UB | Some d2 => QRet (Ok (Ray (i_p its) (es_wi s1) (Finite Epsilon) (Finite (sqrt d2 - Epsilon)), c1, es_pdf s1)) end
      match d with None => QRet UB | Some d2 => QRet (Ok (Ray (i_p its) (es_wi s1) (Finite Epsilon) (Finite (sqrt d2 - Epsilon)), c2, es_pdf s1)) end
      match d with None => QRet UB | Some d2 => QRet (Ok (Ray (i_p its) (es_wi s1) (Finite Epsilon) (Finite (sqrt d2 - Epsilon)), c3, es_pdf s1)) end).
  { intros d c1 c2 c3 A. destruct d; constructor; [repeat split; assumption|exact I]. }
  destruct (needs_visibility e1); [|apply F; exact C].
  eapply tog_obind; [apply tog_osame|]. intros j j' j'' (-> & ->). destruct j as [j|]; [|apply F; unfold adds; vring].
  destruct (match em_mesh e1 with Some m => _ | None => _ end); [|apply F; unfold adds; vring]. apply (F (Some _)). unfold adds in *. rewrite C. vring.
Qed.
Lemma emitter_mixed its md normal inm p e1 e2 e3 : mixed e1 e2 e3 ->
  tog (out3 light3) (eval_emitter mp M inside tr fuel ignore its md normal inm p e1) (eval_emitter mp M inside tr fuel ignore its md normal inm p e2)
      (eval_emitter mp M inside tr fuel ignore its md normal inm p e3).
Proof.
  intros H. unfold eval_emitter. constructor. intros u.
  eapply tog_obind; [constructor; apply sample_nee_mixed, H|]. intros s1 s2 s3 Hs.
  eapply tog_obind; [apply shadow_mixed; eassumption|]. intros [[r c1] pdf] [[r2 c2] pdf2] [[r3 c3] pdf3] ((A & B) & (C & D) & E). cbn in A, B, C, D, E. subst r2 r3 pdf2 pdf3.
  eapply tog_obind; [apply tog_osame|]. intros bw bw' bw'' (-> & ->). destruct bw as [blocked w].
  destruct Hs as ((W2 & W3) & _). rewrite ?W2, ?W3.
  destruct (negb blocked || ignore); [|constructor; exact I]. constructor. cbn. split; [reflexivity|]. split; [reflexivity|]. unfold adds in *. rewrite E.
  destruct (Req_EM_T pdf 0); [vring|]. destruct inm; vring.
Qed.
Lemma eval_of_mixed its a b c : light3 a b c -> eval3 (eval_of its a) (eval_of its b) (eval_of its c).
Proof.
  destruct a as [[d v]|], b as [[d' v']|], c as [[d'' v'']|]; cbn; try contradiction; [intros (-> & -> & A); repeat split; exact A|intros _; repeat split; cbn; unfold adds; vring].
Qed.
Lemma eval_all_mixed its md inm l1 l2 l3 : all3 mixed l1 l2 l3 ->
  tog (out3 (all3 eval3)) (eval_all mp M inside tr fuel ignore its md inm l1) (eval_all mp M inside tr fuel ignore its md inm l2) (eval_all mp M inside tr fuel ignore its md inm l3).
Proof.
  intros H. induction H as [|e1 e2 e3 l1 l2 l3 E _ IH]; cbn [eval_all]; [constructor; constructor|].
  eapply tog_obind; [apply emitter_mixed, E|]. intros a b c Habc.
  eapply tog_obind; [apply IH|]. intros x y z Hx. constructor. constructor; [apply eval_of_mixed; exact Habc|exact Hx].
Qed.
Lemma all3_length {A} (R : A -> A -> A -> Prop) l1 l2 l3 : all3 R l1 l2 l3 -> length l2 = length l1 /\ length l3 = length l1.
Proof. intros H; induction H; cbn; [auto|]. lia. Qed.
Lemma all3_nth {A} (R : A -> A -> A -> Prop) l1 l2 l3 n : all3 R l1 l2 l3 -> opt3 R (nth_error l1 n) (nth_error l2 n) (nth_error l3 n).
Proof. intros H. revert n. induction H as [|a b c l m o E H IH]; intros [|k]; cbn; auto; try apply IH. Qed.
Variable inst : nat -> nat.
Definition pick3 (a b c : option (emitter * R)) : Prop := opt3 (fun x y z => mixed (fst x) (fst y) (fst z) /\ eq3 (snd x) (snd y) (snd z)) a b c.
Lemma choose_mixed its l1 l2 l3 : all3 mixed l1 l2 l3 -> tog (out3 pick3) (choose_emitter l1 inst its) (choose_emitter l2 inst its) (choose_emitter l3 inst its).
Proof.
  intros H. unfold choose_emitter. destruct (all3_length _ _ _ _ H) as (L2 & L3). pose proof (fun n => all3_nth _ _ _ _ n H) as N.
  destruct H as [|e1 e2 e3 m1 m2 m3 E H']; [constructor; exact I|]. constructor. intros u. unfold naive_choice. rewrite L2, L3.
  destruct (Z.ltb _ 0); [constructor; exact I|]. match goal with |- context [nth_error (e1 :: m1) ?n] => specialize (N n); set (i := n) in * end.
  destruct (nth_error (e1 :: m1) i) as [x|], (nth_error (e2 :: m2) i) as [y|], (nth_error (e3 :: m3) i) as [z|]; cbn in N; try contradiction; [|constructor; exact I].
  destruct (mixed_mesh _ _ _ N) as ((M2 & M3) & _). rewrite M2, M3.
  destruct (em_mesh x); [destruct (_ =? _)%nat|]; constructor; cbn; auto; repeat split; auto.
Qed.
Lemma eval_one_mixed its md inm l1 l2 l3 : all3 mixed l1 l2 l3 ->
  tog (out3 (all3 eval3)) (eval_one mp M inside tr fuel l1 inst ignore its md inm) (eval_one mp M inside tr fuel l2 inst ignore its md inm) (eval_one mp M inside tr fuel l3 inst ignore its md inm).
Proof.
  intros H. unfold eval_one. eapply tog_obind; [apply choose_mixed, H|].
  intros [[e1 p1]|] [[e2 p2]|] [[e3 p3]|] P; cbn in P; try contradiction.
  - destruct P as (E & -> & ->). eapply tog_obind; [apply emitter_mixed, E|]. intros x y z Hx. constructor. constructor; [apply eval_of_mixed, Hx|constructor].
  - constructor. cbn. constructor; [|constructor]. repeat split; cbn; unfold adds; vring.
Qed.
Lemma em_evaluate_mixed e1 e2 e3 wi : mixed e1 e2 e3 -> out3 adds (em_evaluate e1 wi) (em_evaluate e2 wi) (em_evaluate e3 wi).
Proof.
  unfold adds. intros H; destruct H; cbn; auto; try (destruct (Rlt_dec _ _); vring); try (destruct (Rgt_dec _ _); vring); try vring.
  destruct tex; vring.
Qed.
Lemma env_mixed l1 l2 l3 d : all3 mixed l1 l2 l3 -> out3 adds (env_emission l1 d) (env_emission l2 d) (env_emission l3 d).
Proof.
  intros H. unfold env_emission. assert (G : forall a b c, adds a b c ->
    out3 adds (foldM (fun Le e => bind (em_evaluate e d) (fun c => Ok (vadd Le c))) l1 a) (foldM (fun Le e => bind (em_evaluate e d) (fun c => Ok (vadd Le c))) l2 b)
      (foldM (fun Le e => bind (em_evaluate e d) (fun c => Ok (vadd Le c))) l3 c)).
  { induction H as [|e1 e2 e3 l1 l2 l3 E H IH]; intros a b c A; cbn; [exact A|]. pose proof (em_evaluate_mixed _ _ _ d E) as Q.
    destruct (em_evaluate e1 d), (em_evaluate e2 d), (em_evaluate e3 d); cbn in Q |- *; try contradiction; auto.
    apply IH. unfold adds in *. subst. vring. }
  apply G. unfold adds. vring.
Qed.
Variables oe1 oe2 oe3 : nat -> option emitter.
Hypothesis OE : forall n, opt3 mixed (oe1 n) (oe2 n) (oe3 n).
Lemma emission_mixed its r c1 c2 c3 : clos3 c1 c2 c3 ->
  out3 clos3 (accumulate_emission inst oe1 its r c1) (accumulate_emission inst oe2 its r c2) (accumulate_emission inst oe3 its r c3).
Proof.
  intros C. unfold accumulate_emission. specialize (OE (inst (i_mesh its))).
  destruct (oe1 (inst (i_mesh its))) as [e1|], (oe2 (inst (i_mesh its))) as [e2|], (oe3 (inst (i_mesh its))) as [e3|]; cbn in OE; try contradiction.
  - pose proof (em_evaluate_mixed _ _ _ (toLocal (i_s its) (dir r)) OE) as H.
    destruct (em_evaluate e1 _), (em_evaluate e2 _), (em_evaluate e3 _); cbn in H |- *; try contradiction; auto.
    unfold clos3 in *. cbn. intuition.
  - cbn. unfold clos3, adds in *. cbn. intuition; vring.
Qed.
Lemma shade_mixed md delta its r l1 l2 l3 c1 c2 c3 : all3 mixed l1 l2 l3 -> clos3 c1 c2 c3 ->
  tog (out3 clos3) (shade_in mp M inside tr fuel l1 inst ignore oe1 md delta its r c1) (shade_in mp M inside tr fuel l2 inst ignore oe2 md delta its r c2)
      (shade_in mp M inside tr fuel l3 inst ignore oe3 md delta its r c3).
Proof.
  intros L C. unfold shade_in.
  assert (C1 : clos3 (set_spec c1 delta (c_last_spec c1) (c_accepts c1)) (set_spec c2 delta (c_last_spec c2) (c_accepts c2)) (set_spec c3 delta (c_last_spec c3) (c_accepts c3))).
  { unfold clos3, eq3 in *. cbn. intuition. }
  revert C1. generalize (set_spec c1 delta (c_last_spec c1) (c_accepts c1)) (set_spec c2 delta (c_last_spec c2) (c_accepts c2)) (set_spec c3 delta (c_last_spec c3) (c_accepts c3)).
  clear c1 c2 c3 C. intros c1 c2 c3 C. cbv zeta.
  eapply tog_obind with (R := clos3).
  { constructor. pose proof C as (_ & _ & _ & _ & _ & _ & _ & _ & _ & (A & B) & _). rewrite A, B. destruct (c_last_spec c1); [apply emission_mixed, C|exact C]. }
  clear c1 c2 c3 C. intros c1 c2 c3 C. destruct delta; [constructor; unfold clos3, eq3 in *; cbn; intuition|].
  pose proof C as (_ & _ & _ & _ & _ & _ & _ & _ & _ & _ & (A2 & A3) & (P2 & P3)). rewrite P2, P3, A2, A3. destruct (c_accepts c1); [|constructor; exact C].
  eapply tog_obind with (R := all3 eval3); [destruct (c_all c1); [apply eval_all_mixed|apply eval_one_mixed]; exact L|].
  intros x y z H. constructor. unfold clos3 in *; cbn; intuition.
Qed.
Lemma simple_mixed md delta its r l1 l2 l3 c1 c2 c3 : all3 mixed l1 l2 l3 -> clos3 c1 c2 c3 ->
  tog (out3 clos3) (simple_evaluate_in mp M inside tr fuel l1 inst ignore oe1 md delta its r c1) (simple_evaluate_in mp M inside tr fuel l2 inst ignore oe2 md delta its r c2)
      (simple_evaluate_in mp M inside tr fuel l3 inst ignore oe3 md delta its r c3).
Proof.
  intros L C. unfold simple_evaluate_in. eapply tog_obind; [apply shade_mixed; eassumption|]. clear c1 c2 c3 C. intros c1 c2 c3 C. constructor.
  destruct delta; [exact C|]. unfold clos3, eq3 in *; cbn; intuition.
Qed.
End Lights.

(** ** materials *)
Lemma put_mixed c1 c2 c3 wo a p eta s ac : clos3 c1 c2 c3 -> clos3 (put c1 wo a p eta s ac) (put c2 wo a p eta s ac) (put c3 wo a p eta s ac).
Proof. unfold clos3, eq3; cbn; intuition. Qed.
Lemma bsdf_mixed b c1 c2 c3 : clos3 c1 c2 c3 -> tog clos3 (bsdf_sample b c1) (bsdf_sample b c2) (bsdf_sample b c3).
Proof.
  intros C. pose proof C as ((Wi2 & Wi3) & (Wo2 & Wo3) & _ & _ & _ & _ & (Pd2 & Pd3) & (Et2 & Et3) & (Sp2 & Sp3) & _ & _ & (Ac2 & Ac3)).
  destruct b; cbn [bsdf_sample]; unfold kill; rewrite ?Wi2, ?Wi3, ?Wo2, ?Wo3, ?Pd2, ?Pd3, ?Et2, ?Et3, ?Sp2, ?Sp3, ?Ac2, ?Ac3;
    repeat first [ match goal with |- tog _ (if ?x then _ else _) _ _ => destruct x end
                 | apply tog_ret; apply put_mixed, C
                 | apply tog_rand1; intros u | apply tog_rand2; intros u | progress cbv zeta ].
Qed.
Lemma shadow_sum_mixed mat wi l1 l2 l3 : all3 eval3 l1 l2 l3 -> forall a b c, adds a b c ->
  adds (shadow_sum mat wi l1 a) (shadow_sum mat wi l2 b) (shadow_sum mat wi l3 c).
Proof.
  intros H. induction H as [|e1 e2 e3 l1 l2 l3 (T & (D2 & D3) & (V2 & V3)) _ IH]; intros a b c A; cbn; [exact A|]. apply IH.
  rewrite V2, V3, D2, D3. unfold adds in *. rewrite T, A. destruct (e_valid e1); vring.
Qed.
Lemma shadow_rays_mixed mat c1 c2 c3 : clos3 c1 c2 c3 -> clos3 (accumulate_shadow_rays mat c1) (accumulate_shadow_rays mat c2) (accumulate_shadow_rays mat c3).
Proof.
  intros C. unfold accumulate_shadow_rays, clos3. cbn. destruct C as (W & ? & Sh & ? & ? & Ne & ?). pose proof W as (Wi2 & Wi3). do 2 (split; [assumption|]).
  split; [constructor|]. do 2 (split; [assumption|]). split; [|assumption]. rewrite Wi2, Wi3. apply shadow_sum_mixed; assumption.
Qed.

(** ** integrators *)
Section Runs.
Context {W : Type}.
Variable now : W -> R * W.
Variable hit : W -> ray -> option isect * W.
Variable rnd1 : W -> R * W.
Variable rnd2 : W -> vec2 * W.
Variables env1 env2 env3 : ray -> vec3.
Variables ev1 ev2 ev3 : isect -> ray -> closure -> query closure.
Variable mat : isect -> vec3 -> vec3 -> vec3.
Variable sample : isect -> closure -> query closure.
Variable nn : nat.
Hypothesis Env : forall r, adds (env1 r) (env2 r) (env3 r).
Hypothesis Ev : forall i r c1 c2 c3, clos3 c1 c2 c3 -> tog clos3 (ev1 i r c1) (ev2 i r c2) (ev3 i r c3).
Hypothesis Sample : forall i c1 c2 c3, clos3 c1 c2 c3 -> tog clos3 (sample i c1) (sample i c2) (sample i c3).

Definition like3 (s1 s2 s3 : st W) : Prop := s_clk W s2 = s_clk W s1 /\ s_clk W s3 = s_clk W s1 /\ s_w W s2 = s_w W s1 /\ s_w W s3 = s_w W s1.
Definition rm3 {A} (R : A -> A -> A -> Prop) (m1 m2 m3 : Integrators.M W A) : Prop :=
  forall s1 s2 s3, like3 s1 s2 s3 -> out3 R (fst (m1 s1)) (fst (m2 s2)) (fst (m3 s3)) /\ like3 (snd (m1 s1)) (snd (m2 s2)) (snd (m3 s3)).
Lemma rm3_run m1 m2 m3 s : rm3 adds m1 m2 m3 -> run3 (m1 s) (m2 s) (m3 s).
Proof. intros H. apply (H s s s). repeat split. Qed.
Lemma r3_ret {A} (R : A -> A -> A -> Prop) a b c : R a b c -> rm3 R (ret W a) (ret W b) (ret W c).
Proof. intros H s1 s2 s3 L. split; [exact H|exact L]. Qed.
Lemma r3_bind {A B} (R : A -> A -> A -> Prop) (Q : B -> B -> B -> Prop) m1 m2 m3 f1 f2 f3 :
  rm3 R m1 m2 m3 -> (forall a b c, R a b c -> rm3 Q (f1 a) (f2 b) (f3 c)) -> rm3 Q (bindM W m1 f1) (bindM W m2 f2) (bindM W m3 f3).
Proof.
  intros H F s1 s2 s3 L. unfold bindM. specialize (H s1 s2 s3 L). destruct (m1 s1) as [[a|x| |] t1], (m2 s2) as [[b|x'| |] t2], (m3 s3) as [[c|x''| |] t3]; cbn in H; try (cbn; tauto).
  apply (F a b c); tauto.
Qed.
(** a step that looks at the clocks and the sampler only *)
Lemma r3_blind {A} (m : Integrators.M W A) : (forall k w l l', fst (m (St W k w l')) = fst (m (St W k w l)) /\
    s_clk W (snd (m (St W k w l'))) = s_clk W (snd (m (St W k w l))) /\ s_w W (snd (m (St W k w l'))) = s_w W (snd (m (St W k w l)))) -> rm3 eq3 m m m.
Proof.
  intros H [k w l] [k2 w2 l2] [k3 w3 l3] (Q1 & Q2 & Q3 & Q4). cbn in Q1, Q2, Q3, Q4. subst. destruct (H k w l l2) as (E2 & F2 & G2), (H k w l l3) as (E3 & F3 & G3).
  rewrite E2, E3. split; [|repeat split; assumption]. destruct (fst (m (St W k w l))); cbn; unfold eq3; auto.
Qed.
Lemma r3_start c : rm3 eq3 (clk_start W now c) (clk_start W now c) (clk_start W now c).
Proof. apply r3_blind. intros k w l l'. unfold clk_start. cbn. destruct (now w). destruct (start_clock _ _ _); cbn; auto. Qed.
Lemma r3_stop c : rm3 eq3 (clk_stop W now c) (clk_stop W now c) (clk_stop W now c).
Proof. apply r3_blind. intros k w l l'. unfold clk_stop. cbn. destruct (now w). destruct (end_clock _ _ _); cbn; auto. Qed.
Lemma r3_note e1 e2 e3 : rm3 eq3 (note W e1) (note W e2) (note W e3).
Proof. intros s1 s2 s3 L. split; [cbn; split; reflexivity|exact L]. Qed.
Lemma r3_next1 : rm3 eq3 (next1 W rnd1) (next1 W rnd1) (next1 W rnd1).
Proof. apply r3_blind. intros k w l l'. unfold next1. cbn. destruct (rnd1 w). auto. Qed.
Lemma r3_next2 : rm3 eq3 (next2 W rnd2) (next2 W rnd2) (next2 W rnd2).
Proof. apply r3_blind. intros k w l l'. unfold next2. cbn. destruct (rnd2 w). auto. Qed.
Lemma r3_accel r : rm3 eq3 (accel_intersect W now hit r) (accel_intersect W now hit r) (accel_intersect W now hit r).
Proof.
  unfold accel_intersect. eapply r3_bind; [apply r3_start|]. intros ? ? ? _. eapply r3_bind with (R := eq3).
  - apply r3_blind. intros k w l l'. cbn. destruct (hit w r). auto.
  - intros x y z H. eapply r3_bind; [apply r3_stop|]. intros ? ? ? _. apply r3_ret, H.
Qed.
Lemma r3_query {A} (R : A -> A -> A -> Prop) q1 q2 q3 : tog R q1 q2 q3 ->
  rm3 R (run_query W now hit rnd1 rnd2 q1) (run_query W now hit rnd1 rnd2 q2) (run_query W now hit rnd1 rnd2 q3).
Proof.
  intros H. induction H; cbn [run_query].
  - apply r3_ret; assumption.
  - eapply r3_bind; [apply r3_accel|]. intros x y z (-> & ->). auto.
  - eapply r3_bind; [apply r3_next1|]. intros x y z (-> & ->). auto.
  - eapply r3_bind; [apply r3_next2|]. intros x y z (-> & ->). auto.
Qed.
Lemma r3_nn_loop n : forall r, rm3 eq3 (nn_loop W now hit n r) (nn_loop W now hit n r) (nn_loop W now hit n r).
Proof.
  induction n as [|n IH]; intros r; cbn [nn_loop]; [intros s1 s2 s3 L; split; [exact I|exact L]|].
  eapply r3_bind; [apply r3_accel|]. intros x y z (-> & ->). destruct x as [i|]; [|apply r3_ret; split; reflexivity].
  destruct (i_null i); [apply IH|apply r3_ret; split; reflexivity].
Qed.
Lemma r3_nonnull r : rm3 eq3 (intersect_non_null W now hit nn r) (intersect_non_null W now hit nn r) (intersect_non_null W now hit nn r).
Proof.
  unfold intersect_non_null. eapply r3_bind; [apply r3_nn_loop|]. intros x y z (-> & ->). eapply r3_bind; [apply r3_note|].
  intros ? ? ? _. apply r3_ret. split; reflexivity.
Qed.

Lemma reset_mixed c1 c2 c3 wi : clos3 c1 c2 c3 -> clos3 (reset_closure c1 wi) (reset_closure c2 wi) (reset_closure c3 wi).
Proof. unfold clos3, adds, eq3. cbn. intuition; vring. Qed.
Lemma set_wi_mixed c1 c2 c3 wi : clos3 c1 c2 c3 -> clos3 (set_wi c1 wi) (set_wi c2 wi) (set_wi c3 wi).
Proof. unfold clos3, eq3. cbn. intuition. Qed.
Lemma init_mixed a b wi : clos3 (closure_init a b wi) (closure_init a b wi) (closure_init a b wi).
Proof. unfold clos3, eq3, adds. cbn. repeat split; try constructor; vring. Qed.
Lemma next_ray_mixed i c1 c2 c3 : clos3 c1 c2 c3 -> next_ray i c2 = next_ray i c1 /\ next_ray i c3 = next_ray i c1.
Proof. intros C. unfold next_ray, isect_toWorld. destruct C as (_ & (-> & ->) & _). split; reflexivity. Qed.
Lemma cos_mixed i c1 c2 c3 : clos3 c1 c2 c3 -> cos_term i c2 = cos_term i c1 /\ cos_term i c3 = cos_term i c1.
Proof.
  intros C. unfold cos_term. destruct (next_ray_mixed i c1 c2 c3 C) as (-> & ->). destruct C as (_ & _ & _ & _ & _ & _ & _ & _ & (-> & ->) & _). split; reflexivity.
Qed.

Ltac step := eapply r3_bind; [first [apply r3_start|apply r3_stop|apply r3_note|apply r3_next1|apply r3_next2]|
  let x := fresh "x" in let y := fresh "y" in let z := fresh "z" in intros x y z (-> & ->)].
Ltac total C L := unfold adds in *; destruct C as (_ & _ & _ & _ & -> & -> & _); rewrite L; vring.
Lemma r3_path n : forall L1 L2 L3 beta r c1 c2 c3, adds L1 L2 L3 -> clos3 c1 c2 c3 ->
  rm3 adds (path_loop W now hit rnd1 rnd2 env1 ev1 mat sample nn n L1 beta r c1) (path_loop W now hit rnd1 rnd2 env2 ev2 mat sample nn n L2 beta r c2)
           (path_loop W now hit rnd1 rnd2 env3 ev3 mat sample nn n L3 beta r c3).
Proof.
  induction n as [|n IH]; intros L1 L2 L3 beta r c1 c2 c3 HL C; cbn [path_loop]; [apply r3_ret, HL|].
  destruct (isZero_dec beta); [apply r3_ret, HL|]. step. eapply r3_bind; [apply r3_nonnull|].
  intros o o' o'' (-> & ->). destruct o as [its|].
  2:{ step. apply r3_ret. unfold adds in *. rewrite HL, Env. vring. }
  repeat step. cbv zeta. eapply r3_bind; [apply r3_query, Ev, reset_mixed, C|].
  clear c1 c2 c3 C. intros c1 c2 c3 C. apply (shadow_rays_mixed (mat its)) in C. revert C.
  generalize (accumulate_shadow_rays (mat its) c1) (accumulate_shadow_rays (mat its) c2) (accumulate_shadow_rays (mat its) c3). clear c1 c2 c3. intros c1 c2 c3 C.
  repeat step. match goal with |- rm3 _ (if Rgt_dec ?u ?p then _ else _) _ _ => destruct (Rgt_dec u p) end.
  { step. apply r3_ret. total C HL. }
  repeat step. eapply r3_bind; [apply r3_query, Sample, set_wi_mixed, C|].
  clear c1 c2 c3 C. intros c1 c2 c3 C. step. pose proof C as (_ & _ & _ & (A2 & A3) & _ & _ & (P2 & P3) & _). rewrite P2, P3, A2, A3.
  destruct (Req_EM_T (c_pdf c1) 0).
  { repeat step. apply r3_ret. total C HL. }
  repeat step. destruct (next_ray_mixed its _ _ _ C) as (-> & ->). destruct (cos_mixed its _ _ _ C) as (-> & ->).
  apply IH; [|exact C]. total C HL.
Qed.
Theorem path_mixed n r : rm3 adds (path_Li W now hit rnd1 rnd2 env1 ev1 mat sample nn n r) (path_Li W now hit rnd1 rnd2 env2 ev2 mat sample nn n r)
  (path_Li W now hit rnd1 rnd2 env3 ev3 mat sample nn n r).
Proof. apply (r3_path n (V3c 0) (V3c 0) (V3c 0) (V3c 1) r); [unfold adds; vring|apply init_mixed]. Qed.

Theorem whitted_mixed n : forall r, rm3 adds (whitted_Li W now hit rnd1 rnd2 env1 ev1 mat sample nn n r) (whitted_Li W now hit rnd1 rnd2 env2 ev2 mat sample nn n r)
  (whitted_Li W now hit rnd1 rnd2 env3 ev3 mat sample nn n r).
Proof.
  induction n as [|n IH]; intros r; cbn [whitted_Li]; [intros s1 s2 s3 L; split; [exact I|exact L]|].
  step. eapply r3_bind; [apply r3_nonnull|]. intros o o' o'' (-> & ->). destruct o as [its|]; [|step; apply r3_ret, Env].
  repeat step. cbv zeta. eapply r3_bind; [apply r3_query, Ev, init_mixed|].
  intros c1 c2 c3 C. apply (shadow_rays_mixed (mat its)) in C. revert C.
  generalize (accumulate_shadow_rays (mat its) c1) (accumulate_shadow_rays (mat its) c2) (accumulate_shadow_rays (mat its) c3). clear c1 c2 c3. intros c1 c2 c3 C.
  repeat step. pose proof C as (_ & _ & _ & _ & _ & _ & _ & _ & (S2 & S3) & _). rewrite S2, S3. destruct (c_spec c1).
  - step. eapply r3_bind; [apply r3_query, Sample, set_wi_mixed, C|].
    clear c1 c2 c3 C S2 S3. intros c1 c2 c3 C. repeat step. match goal with |- rm3 _ (if Rgt_dec ?u ?p then _ else _) _ _ => destruct (Rgt_dec u p) end.
    { step. apply r3_ret. unfold adds. vring. }
    repeat step. destruct (next_ray_mixed its _ _ _ C) as (-> & ->). destruct C as (_ & _ & _ & (A2 & A3) & Em & Ne & _). rewrite A2, A3.
    unfold adds in Em, Ne. rewrite Em, Ne.
    destruct (isZero_dec _); [apply r3_ret; unfold adds; vring|].
    eapply r3_bind; [apply IH|]. intros v v' v'' A. unfold adds in A. rewrite A. apply r3_ret. unfold adds. vring.
  - repeat step. apply r3_ret. destruct C as (_ & _ & _ & _ & Em & Ne & _). unfold adds in *. rewrite Em, Ne. vring.
Qed.

(** volumetric integrators *)
Section Vol.
Context {M : Type}.
Variable boundary : nat -> option (option M * option M).
Variable ms : M -> option bool -> ray -> R -> query (vec3 * R).
Variable phase_sample : M -> vec3 -> vec2 -> vec3 * R.
Variables nee1 nee2 nee3 : bool -> bool -> isect -> option M -> query (list emitter_eval).
Variables evm1 evm2 evm3 : isect -> ray -> option M -> closure -> query closure.
Hypothesis Nee : forall a b i m, tog (all3 eval3) (nee1 a b i m) (nee2 a b i m) (nee3 a b i m).
Hypothesis Evm : forall i r m c1 c2 c3, clos3 c1 c2 c3 -> tog clos3 (evm1 i r m c1) (evm2 i r m c2) (evm3 i r m c3).
Variable nonexp : bool.
Variable max_bounces : nat.
Definition res3 (a b c : vec3 * list (vevent M)) : Prop := adds (fst a) (fst b) (fst c).
Definition cont3 (f1 f2 f3 : continuation M) : Prop :=
  forall n L1 L2 L3 beta r c1 c2 c3 md b h1 h2 h3, adds L1 L2 L3 -> clos3 c1 c2 c3 ->
    tog (out3 res3) (f1 n L1 beta r c1 md b h1) (f2 n L2 beta r c2 md b h2) (f3 n L3 beta r c3 md b h3).
Lemma media_nee_mixed beta p l1 l2 l3 : all3 eval3 l1 l2 l3 -> forall a b c, adds a b c ->
  adds (media_nee beta p l1 a) (media_nee beta p l2 b) (media_nee beta p l3 c).
Proof.
  intros H. induction H as [|e1 e2 e3 l1 l2 l3 (T & _ & (V2 & V3)) _ IH]; intros a b c A; cbn; [exact A|]. apply IH.
  rewrite V2, V3. destruct (e_valid e1); [|exact A]. unfold adds in *. rewrite T, A. vring.
Qed.
Lemma boundary_mixed f1 f2 f3 n L1 L2 L3 beta r c1 c2 c3 md b its h1 h2 h3 : cont3 f1 f2 f3 -> adds L1 L2 L3 -> clos3 c1 c2 c3 ->
  tog (out3 res3) (at_boundary M boundary nonexp max_bounces f1 n L1 beta r c1 md b its h1) (at_boundary M boundary nonexp max_bounces f2 n L2 beta r c2 md b its h2)
     (at_boundary M boundary nonexp max_bounces f3 n L3 beta r c3 md b its h3).
Proof.
  intros F L C. unfold at_boundary. apply F; [exact L|]. unfold boundary_closure. destruct (boundary (i_mesh its)); [|exact C]. apply set_wi_mixed, C.
Qed.
Lemma surface_mixed f1 f2 f3 n L1 L2 L3 beta r c1 c2 c3 md its h1 h2 h3 : cont3 f1 f2 f3 -> adds L1 L2 L3 -> clos3 c1 c2 c3 ->
  tog (out3 res3) (at_surface M evm1 mat sample f1 n L1 beta r c1 md its h1) (at_surface M evm2 mat sample f2 n L2 beta r c2 md its h2)
     (at_surface M evm3 mat sample f3 n L3 beta r c3 md its h3).
Proof.
  intros F L C. unfold at_surface. eapply tog_bind; [apply Evm, reset_mixed, C|].
  clear c1 c2 c3 C. intros c1 c2 c3 C. apply (shadow_rays_mixed (mat its)) in C. revert C.
  generalize (accumulate_shadow_rays (mat its) c1) (accumulate_shadow_rays (mat its) c2) (accumulate_shadow_rays (mat its) c3). clear c1 c2 c3. intros c1 c2 c3 C.
  constructor. intros u. destruct (Rgt_dec u (rr_prob beta)).
  { constructor. cbn [out3]. unfold res3. cbn [fst]. total C L. }
  eapply tog_bind; [apply Sample, set_wi_mixed, C|]. clear C. rename c1 into d1, c2 into d2, c3 into d3. intros c1 c2 c3 C. pose proof C as (_ & _ & _ & (A2 & A3) & _ & _ & (P2 & P3) & _). rewrite P2, P3, A2, A3.
  destruct (Req_EM_T (c_pdf c1) 0).
  { constructor. cbn [out3]. unfold res3. cbn [fst]. total C L. }
  destruct (next_ray_mixed its _ _ _ C) as (-> & ->). destruct (cos_mixed its _ _ _ C) as (-> & ->). apply F; [|exact C]. total C L.
Qed.
Lemma arrive_mixed f1 f2 f3 n L1 L2 L3 beta r c1 c2 c3 md b its h1 h2 h3 : cont3 f1 f2 f3 -> adds L1 L2 L3 -> clos3 c1 c2 c3 ->
  tog (out3 res3) (arrive M boundary evm1 mat sample nonexp max_bounces f1 n L1 beta r c1 md b its h1) (arrive M boundary evm2 mat sample nonexp max_bounces f2 n L2 beta r c2 md b its h2)
     (arrive M boundary evm3 mat sample nonexp max_bounces f3 n L3 beta r c3 md b its h3).
Proof. intros F L C. unfold arrive. destruct (i_null its); [apply boundary_mixed|apply surface_mixed]; assumption. Qed.
Lemma scatter_mixed f1 f2 f3 n L1 L2 L3 beta r c1 c2 c3 m fl b its w d h1 h2 h3 : cont3 f1 f2 f3 -> adds L1 L2 L3 -> clos3 c1 c2 c3 ->
  tog (out3 res3) (scatter M phase_sample nee1 nonexp f1 n L1 beta r c1 m fl b its w d h1) (scatter M phase_sample nee2 nonexp f2 n L2 beta r c2 m fl b its w d h2)
     (scatter M phase_sample nee3 nonexp f3 n L3 beta r c3 m fl b its w d h3).
Proof.
  intros F L C. unfold scatter. pose proof C as (_ & _ & _ & _ & _ & _ & _ & _ & _ & _ & (A2 & A3) & _). rewrite A2, A3.
  eapply tog_bind; [apply Nee|]. intros l1 l2 l3 Hl. constructor. intros s.
  destruct (phase_sample m (vneg (dir r)) s) as [wi phase]. constructor. intros u.
  assert (N : adds (media_nee beta phase l1 (V3c 0)) (media_nee beta phase l2 (V3c 0)) (media_nee beta phase l3 (V3c 0))) by (apply media_nee_mixed; [exact Hl|unfold adds; vring]).
  revert N. generalize (media_nee beta phase l1 (V3c 0)) (media_nee beta phase l2 (V3c 0)) (media_nee beta phase l3 (V3c 0)). intros x y z N. cbv zeta.
  destruct (Rgt_dec u (rr_prob beta)).
  { constructor. cbn [out3]. unfold res3, adds in *. cbn [fst]. rewrite L, N. vring. }
  apply F.
  - unfold adds in *. rewrite L, N. vring.
  - unfold scatter_closure, clos3, eq3, adds in *. cbn. destruct C as (? & ? & ? & ? & ? & ? & ? & ? & ? & ? & ? & ?). repeat split; auto; try tauto; vring.
Qed.
Lemma traverse_mixed f1 f2 f3 n L1 L2 L3 beta r c1 c2 c3 md b its h1 h2 h3 : cont3 f1 f2 f3 -> adds L1 L2 L3 -> clos3 c1 c2 c3 ->
  tog (out3 res3) (traverse M boundary ms phase_sample nee1 evm1 mat sample nonexp max_bounces f1 n L1 beta r c1 md b its h1)
     (traverse M boundary ms phase_sample nee2 evm2 mat sample nonexp max_bounces f2 n L2 beta r c2 md b its h2)
     (traverse M boundary ms phase_sample nee3 evm3 mat sample nonexp max_bounces f3 n L3 beta r c3 md b its h3).
Proof.
  intros F L C. unfold traverse. destruct md as [m|]; [|apply arrive_mixed; assumption].
  eapply tog_bind; [apply tog_same|]. intros wt wt' wt'' (-> & ->).
  destruct (Rlt_dec (snd wt) (i_t its)); [apply scatter_mixed|apply arrive_mixed]; assumption.
Qed.
Lemma vol_loop_mixed fuel : cont3 (vol_loop M env1 boundary ms phase_sample nee1 evm1 mat sample nonexp max_bounces fuel)
  (vol_loop M env2 boundary ms phase_sample nee2 evm2 mat sample nonexp max_bounces fuel) (vol_loop M env3 boundary ms phase_sample nee3 evm3 mat sample nonexp max_bounces fuel).
Proof.
  induction fuel as [|fuel IH]; intros n L1 L2 L3 beta r c1 c2 c3 md b h1 h2 h3 L C; cbn [vol_loop]; [constructor; exact I|].
  destruct n as [|n]; [constructor; exact L|]. destruct (isZero_dec beta); [constructor; exact L|].
  constructor. intros [its|]; [apply traverse_mixed; assumption|].
  constructor. cbn [out3]. unfold res3, adds in *. cbn [fst]. rewrite L, Env. vring.
Qed.
Theorem vol_mixed fuel md r : rm3 adds
  (as_Li W now hit rnd1 rnd2 (vol_Li M env1 boundary ms phase_sample nee1 evm1 mat sample nonexp max_bounces fuel md r))
  (as_Li W now hit rnd1 rnd2 (vol_Li M env2 boundary ms phase_sample nee2 evm2 mat sample nonexp max_bounces fuel md r))
  (as_Li W now hit rnd1 rnd2 (vol_Li M env3 boundary ms phase_sample nee3 evm3 mat sample nonexp max_bounces fuel md r)).
Proof.
  unfold as_Li. eapply r3_bind; [apply r3_query, vol_loop_mixed; [unfold adds; vring|apply init_mixed]|]. intros o o' o'' Ho s1 s2 s3 L.
  destruct o as [[v x]|m| |], o' as [[v' x']|m'| |], o'' as [[v'' x'']|m''| |]; cbn in Ho; try contradiction; cbn; auto.
Qed.
End Vol.
End Runs.
