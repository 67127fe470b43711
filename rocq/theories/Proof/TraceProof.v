(** A computation depends on the answers to its own rays only. *)
From Coq Require Import Reals List Bool Lia.
From Coquelicot Require Import Rbar.
From Verif.Base Require Import Outcome.
From Verif.Model Require Import Vec Frame BBox Clocker Integrators Bsdf Scene VolPath.
From Verif.Spec Require Import TraceSpec.
Import ListNotations.

Section Trace.
Context {W : Type}.
Variable now : W -> R * W.
Variable hit hit' : W -> ray -> option isect * W.
Variable rnd1 : W -> R * W.
Variable rnd2 : W -> vec2 * W.
Notation V := (W * list ray)%type.
(** the watched run, the plain run and the run in the other scene *)
Definition follows {A} (m : M V A) (m1 m2 : M W A) : Prop :=
  forall clk w log l, let x := m (St V clk (w, l) log) in exists new, traced x = new ++ l /\ m1 (St W clk w log) = unwatched x /\
    ((forall r, In r new -> same_answer hit hit' r) -> m2 (St W clk w log) = unwatched x).

Lemma f_bind {A B} (m : M V A) m1 m2 (f : A -> M V B) f1 f2 : follows m m1 m2 -> (forall a, follows (f a) (f1 a) (f2 a)) -> follows (bindM V m f) (bindM W m1 f1) (bindM W m2 f2).
Proof.
  intros H F clk w log l. cbv zeta. destruct (H clk w log l) as (n1 & E1 & P1 & Q1). cbv zeta in *. unfold bindM. rewrite P1.
  destruct (m (St V clk (w, l) log)) as [o [k [w1 l1] g1]]. unfold traced, unwatched in *. cbn [fst snd s_w s_clk s_log] in *. subst l1.
  destruct o as [a|e| |].
  - destruct (F a k w1 g1 (n1 ++ l)) as (n2 & E2 & P2 & Q2). cbv zeta in *. unfold traced, unwatched in *. cbn [fst snd s_w s_clk s_log] in *.
    exists (n2 ++ n1). rewrite <- app_assoc. split; [exact E2|]. split; [exact P2|]. intros Ag. rewrite Q1 by (intros r Ir; apply Ag, in_or_app; now right).
    apply Q2. intros r Ir. apply Ag, in_or_app. now left.
  - exists n1. repeat split. intros Ag. rewrite (Q1 Ag). reflexivity.
  - exists n1. repeat split. intros Ag. rewrite (Q1 Ag). reflexivity.
  - exists n1. repeat split. intros Ag. rewrite (Q1 Ag). reflexivity.
Qed.
Lemma f_ret {A} (a : A) : follows (ret V a) (ret W a) (ret W a).
Proof. intros clk w log l. exists []. repeat split. Qed.
Lemma f_out {A} : follows (fun s => (@OutOfFuel A, s)) (fun s => (OutOfFuel, s)) (fun s => (OutOfFuel, s)).
Proof. intros clk w log l. exists []. repeat split. Qed.
Lemma f_start c : follows (clk_start V (watched_now now) c) (clk_start W now c) (clk_start W now c).
Proof. intros clk w log l. exists []. unfold clk_start, watched_now. cbn [s_w s_clk fst snd]. destruct (now w) as [t w1]. destruct (start_clock c t clk); repeat split. Qed.
Lemma f_stop c : follows (clk_stop V (watched_now now) c) (clk_stop W now c) (clk_stop W now c).
Proof. intros clk w log l. exists []. unfold clk_stop, watched_now. cbn [s_w s_clk fst snd]. destruct (now w) as [t w1]. destruct (end_clock c t clk); repeat split. Qed.
Lemma f_note e : follows (note V e) (note W e) (note W e).
Proof. intros clk w log l. exists []. repeat split. Qed.
Lemma f_next1 : follows (next1 V (watched_rnd1 rnd1)) (next1 W rnd1) (next1 W rnd1).
Proof. intros clk w log l. exists []. unfold next1, watched_rnd1. cbn [s_w fst snd]. destruct (rnd1 w). repeat split. Qed.
Lemma f_next2 : follows (next2 V (watched_rnd2 rnd2)) (next2 W rnd2) (next2 W rnd2).
Proof. intros clk w log l. exists []. unfold next2, watched_rnd2. cbn [s_w fst snd]. destruct (rnd2 w). repeat split. Qed.
Lemma f_accel r : follows (accel_intersect V (watched_now now) (watched_hit hit) r) (accel_intersect W now hit r) (accel_intersect W now hit' r).
Proof.
  unfold accel_intersect. apply f_bind; [apply f_start|]. intros _. apply f_bind; [|intros a; apply f_bind; [apply f_stop|intros _; apply f_ret]].
  intros clk w log l. exists [r]. unfold watched_hit. cbn [s_w s_clk s_log fst snd]. destruct (hit w r) as [a w1] eqn:E. repeat split.
  intros Ag. rewrite (Ag r (or_introl eq_refl) w), E. reflexivity.
Qed.
Lemma f_query {A} (q : query A) : follows (run_query V (watched_now now) (watched_hit hit) (watched_rnd1 rnd1) (watched_rnd2 rnd2) q) (run_query W now hit rnd1 rnd2 q) (run_query W now hit' rnd1 rnd2 q).
Proof.
  induction q as [a|r k IH|k IH|k IH]; cbn [run_query]; [apply f_ret| | |].
  - apply f_bind; [apply f_accel|exact IH].
  - apply f_bind; [apply f_next1|exact IH].
  - apply f_bind; [apply f_next2|exact IH].
Qed.
Lemma f_non_null nn r : follows (intersect_non_null V (watched_now now) (watched_hit hit) nn r) (intersect_non_null W now hit nn r) (intersect_non_null W now hit' nn r).
Proof.
  unfold intersect_non_null. apply f_bind; [|intros a; apply f_bind; [apply f_note|intros _; apply f_ret]].
  revert r. induction nn as [|nn IH]; intros r; cbn [nn_loop]; [apply f_out|]. apply f_bind; [apply f_accel|]. intros [i|]; [|apply f_ret]. destruct (i_null i); [apply IH|apply f_ret].
Qed.
Ltac step := first
  [ apply f_ret | apply f_start | apply f_stop | apply f_note | apply f_next1 | apply f_next2 | apply f_non_null | apply f_query
  | apply f_bind; [|intros ?]
  | match goal with |- follows (match ?x with _ => _ end) _ _ => destruct x end
  | progress cbv zeta ].

Variable env : ray -> vec3.
Variable sh_evaluate : isect -> ray -> closure -> query closure.
Variable sh_mat : isect -> vec3 -> vec3 -> vec3.
Variable sh_sample : isect -> closure -> query closure.
Variable nn : nat.
Lemma f_path n r : follows (path_Li V (watched_now now) (watched_hit hit) (watched_rnd1 rnd1) (watched_rnd2 rnd2) env sh_evaluate sh_mat sh_sample nn n r)
  (path_Li W now hit rnd1 rnd2 env sh_evaluate sh_mat sh_sample nn n r) (path_Li W now hit' rnd1 rnd2 env sh_evaluate sh_mat sh_sample nn n r).
Proof.
  unfold path_Li. generalize (V3c 0) at 1 3 5 as Li. generalize (V3c 1) as beta. generalize (closure_init false true (V3c 0)) as c. revert r.
  induction n as [|n IH]; intros r c beta Li; cbn [path_loop]; [apply f_ret|]. destruct (isZero_dec beta); [apply f_ret|].
  repeat (first [apply IH | step]).
Qed.
Lemma f_whitted n r : follows (whitted_Li V (watched_now now) (watched_hit hit) (watched_rnd1 rnd1) (watched_rnd2 rnd2) env sh_evaluate sh_mat sh_sample nn n r)
  (whitted_Li W now hit rnd1 rnd2 env sh_evaluate sh_mat sh_sample nn n r) (whitted_Li W now hit' rnd1 rnd2 env sh_evaluate sh_mat sh_sample nn n r).
Proof. revert r. induction n as [|n IH]; intros r; cbn [whitted_Li]; [apply f_out|]. repeat (first [apply IH | step]). Qed.
Lemma f_amb_occ r : follows (amb_occ_Li V (watched_now now) (watched_hit hit) (watched_rnd2 rnd2) nn r) (amb_occ_Li W now hit rnd2 nn r) (amb_occ_Li W now hit' rnd2 nn r).
Proof. unfold amb_occ_Li. repeat step. Qed.
Lemma f_as_Li {X} (q : query (outcome (vec3 * X))) : follows (as_Li V (watched_now now) (watched_hit hit) (watched_rnd1 rnd1) (watched_rnd2 rnd2) q) (as_Li W now hit rnd1 rnd2 q) (as_Li W now hit' rnd1 rnd2 q).
Proof. unfold as_Li. apply f_bind; [apply f_query|]. intros o clk w log l. exists []. destruct o as [[v x]|e| |]; repeat split. Qed.
Lemma f_render (Li : ray -> M V vec3) Li1 Li2 camera film : (forall r, follows (Li r) (Li1 r) (Li2 r)) ->
  follows (render V (watched_now now) (watched_rnd2 rnd2) Li camera film) (render W now rnd2 Li1 camera film) (render W now rnd2 Li2 camera film).
Proof.
  intros L. unfold render. apply f_bind; [|intros xs; repeat step].
  induction film as [|px film IH]; cbn [render_samples]; repeat (first [apply IH|apply L|step]).
Qed.
End Trace.
