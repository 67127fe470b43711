(** The light that arrives over more and more vertices. *)
From Coq Require Import Reals List Bool ZArith Lra Lia.
From Coquelicot Require Import Rbar.
From Verif.Base Require Import Outcome.
From Verif.Model Require Import Vec Frame BBox Integrators Scene VolPath.
From Verif.Spec Require Import IntegratorSpec BoundSpec VolPathSpec ExpectSpec BounceSpec.
From Verif.Proof Require Import VecLemmas IntegratorProof VolPathTheory ExpectProof.
Import ListNotations.
Open Scope R_scope.

Section Bounce.
Variable d : R.
Variable e1 : (R -> R) -> R.
Variable e2 : (vec2 -> R) -> R.
Hypothesis av : averages d e1 e2.
Variable hit : ray -> option isect.
Context {M : Type}.
Variable env : ray -> vec3.
Variable boundary : nat -> option (option M * option M).
Variable ms : M -> option bool -> ray -> R -> query (vec3 * R).
Variable ph : M -> vec3 -> vec2 -> vec3 * R.
Variable nee : bool -> bool -> isect -> option M -> query (list emitter_eval).
Variable ev : isect -> ray -> option M -> closure -> query closure.
Variable mat : isect -> vec3 -> vec3 -> vec3.
Variable sample : isect -> closure -> query closure.
Variable L rho : R.
Variable P : closure -> Prop.
Hypothesis ge : gentle hit M env boundary ms ph nee ev mat sample false L P.
Hypothesis fa : fading hit M ms ev mat sample rho P.
Variable get : vec3 -> R.
Hypothesis ch : channel get.
Notation expect := (expect hit e1 e2).
Notation arrives max := (arrives hit e1 e2 M env boundary ms ph nee ev mat sample false max get).

(** without the non-exponential rule the bound on the bounces is only a bound on the bounces *)
Lemma arrives_max max max' fuel n r c md surf : arrives max fuel n r c md surf = arrives max' fuel n r c md surf.
Proof. reflexivity. Qed.

Lemma expect_step {A} (q : query A) f g x : (forall a, hleaf hit q a -> f a <= g a <= f a + x) -> expect q f <= expect q g <= expect q f + x.
Proof.
  intros H. pose proof (expect_near d e1 e2 av hit q g f 0 1 0 x) as K. rewrite !Rplus_0_l, !Rmult_1_l, Rminus_0_r in K. apply K.
  intros a La. destruct (H a La). lra.
Qed.
Lemma e2_step f g x : (forall a, f a <= g a <= f a + x) -> e2 f <= e2 g <= e2 f + x.
Proof.
  intros H. pose proof (e2_near d e1 e2 av g f 0 1 0 x) as K. rewrite !Rplus_0_l, !Rmult_1_l, Rminus_0_r in K. apply K. intros a. destruct (H a). lra.
Qed.
Lemma term n : 0 <= L * rho ^ n.
Proof. apply Rmult_le_pos; [apply (ge_light _ _ _ _ _ _ _ _ _ _ _ _ _ ge)|apply pow_le, (fa_share _ _ _ _ _ _ _ _ fa)]. Qed.
(** one more vertex adds something, and at most L rho^n *)
Lemma one_more max fuel : forall n r c md surf, P c ->
  arrives max fuel n r c md surf <= arrives max fuel (S n) r c md surf <= arrives max fuel n r c md surf + L * rho ^ n.
Proof.
  induction fuel as [|fuel IH]; intros n r c md surf Pc; [pose proof (term n); cbn [ExpectSpec.arrives]; lra|].
  pose proof (term n) as Tn.
  destruct n as [|n].
  { pose proof (arrives_range d e1 e2 av hit env boundary ms ph nee ev mat sample false max L P ge get ch (S fuel) 1 r c md surf Pc) as H.
    cbn [INR] in H. change (arrives max (S fuel) 0 r c md surf) with 0. cbn [pow]. lra. }
  cbn [ExpectSpec.arrives]. destruct (hit r) as [i|] eqn:Hi; [|lra]. cbv zeta. cbn [andb negb].
  destruct (fa_share _ _ _ _ _ _ _ _ fa) as (R0 & R1).
  match goal with |- match md with None => ?x | _ => _ end <= match md with None => ?y | _ => _ end <= _ => assert (B : x <= y <= x + L * rho ^ S n); [|set (b := x) in *; set (b' := y) in *] end.
  { destruct (i_null i).
    - apply IH. apply (ge_cross _ _ _ _ _ _ _ _ _ _ _ _ _ ge), Pc.
    - apply expect_step. intros c1 L1. destruct (ge_vertex _ _ _ _ _ _ _ _ _ _ _ _ _ ge r i md c c1 Hi Pc L1) as (_ & K).
      match goal with |- ?a + expect ?q ?f <= ?a + expect ?q ?g <= _ => assert (E : expect q f <= expect q g <= expect q f + L * rho ^ S n); [|lra] end.
      apply expect_step. intros c3 L3. destruct (K c3 L3) as (_ & _ & P3 & _). destruct (Req_EM_T (c_pdf c3) 0) as [E|E]; [lra|].
      pose proof (get_in get ch _ _ (fa_surface _ _ _ _ _ _ _ _ fa r i md c c1 c3 Hi Pc L1 L3 E)) as W.
      pose proof (IH n (next_ray i c3) c3 md true P3) as (I1 & I2). pose proof (term n). cbn [pow].
      set (w := get _) in *. set (x := arrives max fuel n _ _ _ _) in *. set (y := arrives max fuel (S n) _ _ _ _) in *. nra. }
  destruct md as [m|]; [|exact B].
  apply expect_step. intros wt Lw.
  pose proof (get_in get ch _ _ (ge_medium _ _ _ _ _ _ _ _ _ _ _ _ _ ge _ _ _ _ _ Lw)) as W.
  destruct (Rlt_dec (snd wt) (i_t i)) as [In|Out].
  2:{ set (w := get _) in *. nra. }
  pose proof (get_in get ch _ _ (fa_medium _ _ _ _ _ _ _ _ fa _ _ _ _ _ Lw In)) as W'.
  match goal with |- ?w * ?x <= ?w * ?y <= _ => assert (E : x <= y <= x + L * rho ^ n) end.
  { apply expect_step. intros l Ll. apply e2_step. intros s.
    destruct (ge_scatter _ _ _ _ _ _ _ _ _ _ _ _ _ ge surf i m _ r c wt l s (V3c 0) Pc Hi Lw In Ll) as (_ & Ps). destruct (ph m (vneg (dir r)) s) as [wi phase].
    match goal with |- context [arrives max fuel n ?a ?b ?c ?e] => pose proof (IH n a b c e Ps) end. lra. }
  cbn [pow]. pose proof (term n). set (w := get _) in *.
  match goal with |- w * ?x <= w * ?y <= _ => set (x' := x) in *; set (y' := y) in * end. nra.
Qed.
Lemma rest_step n : rest L rho n = L * rho ^ n + rest L rho (S n).
Proof. unfold rest. destruct (fa_share _ _ _ _ _ _ _ _ fa). cbn [pow]. field. lra. Qed.
Lemma rest_pos n : 0 <= rest L rho n.
Proof. unfold rest. destruct (fa_share _ _ _ _ _ _ _ _ fa). apply Rmult_le_pos; [apply term|left; apply Rinv_0_lt_compat; lra]. Qed.
Lemma many_more max fuel n k r c md surf : P c ->
  arrives max fuel n r c md surf <= arrives max fuel (n + k) r c md surf <= arrives max fuel n r c md surf + (rest L rho n - rest L rho (n + k)).
Proof.
  intros Pc. induction k as [|k IH]; [rewrite Nat.add_0_r; lra|]. replace (n + S k)%nat with (S (n + k)) by lia.
  pose proof (one_more max fuel (n + k) r c md surf Pc). rewrite (rest_step (n + k)) in IH. lra.
Qed.
End Bounce.
