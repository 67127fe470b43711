(** Running a program on all tapes gives its average. *)
From Coq Require Import Reals List Bool Lra Lia FunctionalExtensionality.
From Coquelicot Require Import Rbar.
From Verif.Base Require Import Outcome.
From Verif.Model Require Import Vec Frame BBox Integrators Scene VolPath.
From Verif.Spec Require Import IntegratorSpec VolPathSpec ExpectSpec NoiseSpec TapeSpec.
From Verif.Proof Require Import ExpectScene.
Import ListNotations.
Open Scope R_scope.

Lemma total_ext n f g : (forall k, (k < n)%nat -> f k = g k) -> total n f = total n g.
Proof. induction n as [|n IH]; intros H; [reflexivity|]. cbn. rewrite IH, H by (intros; try apply H; lia). reflexivity. Qed.
Lemma total_scale n c f : total n (fun k => f k * c) = total n f * c.
Proof. induction n as [|n IH]; [cbn; ring|]. cbn. rewrite IH. ring. Qed.

Section Tapes.
Variable N : nat.
Hypothesis N_pos : (0 < N)%nat.
Lemma N_R' : 0 < INR N.
Proof. apply lt_0_INR, N_pos. Qed.
Lemma grid1_ext f g : (forall k, (k < N)%nat -> f (INR k / INR N) = g (INR k / INR N)) -> grid1 N f = grid1 N g.
Proof. intros H. unfold grid1. f_equal. apply total_ext, H. Qed.
Lemma grid1_same c : grid1 N (fun _ => c) = c.
Proof. pose proof N_R'. unfold grid1. rewrite (total_ext N _ (fun _ => 1 * c)) by (intros; ring). rewrite total_scale, total_one. field. lra. Qed.

Lemma sum_app l l' : sum (l ++ l') = sum l + sum l'.
Proof. induction l as [|x l IH]; cbn; [ring|rewrite IH; ring]. Qed.
Lemma all_length k : length (all_tapes N k) = (N ^ k)%nat.
Proof.
  induction k as [|k IH]; [reflexivity|]. cbn [all_tapes Nat.pow].
  assert (E : forall l, length (flat_map (fun j => map (cons (INR j / INR N)) (all_tapes N k)) l) = (length l * N ^ k)%nat).
  { induction l as [|x l IHl]; [reflexivity|]. cbn [flat_map length]. unfold tape in *. rewrite app_length, map_length. rewrite IH. rewrite IHl. lia. }
  rewrite E, seq_length. reflexivity.
Qed.
Lemma sum_flat (f : tape -> R) (g : nat -> list tape) n : sum (map f (flat_map g (seq 0 n))) = total n (fun j => sum (map f (g j))).
Proof.
  induction n as [|n IH]; [reflexivity|]. rewrite seq_S, flat_map_app, map_app, sum_app, IH. cbn [flat_map plus]. rewrite app_nil_r. reflexivity.
Qed.
Lemma over_0 f : over_tapes N 0 f = f [].
Proof. unfold over_tapes, mean. cbn. field. Qed.
Lemma over_S k f : over_tapes N (S k) f = grid1 N (fun u => over_tapes N k (fun l => f (u :: l))).
Proof.
  pose proof N_R' as N0. unfold over_tapes, mean. rewrite !map_length, !all_length. cbn [all_tapes]. rewrite sum_flat. unfold grid1.
  assert (P : 0 < INR (N ^ k)) by (apply lt_0_INR, Nat.neq_0_lt_0, Nat.pow_nonzero; lia).
  match goal with |- _ = total N ?g / _ => rewrite (total_ext N g (fun j => sum (map f (map (cons (INR j / INR N)) (all_tapes N k))) * / INR (N ^ k))) end.
  2: { intros j _. rewrite map_length, all_length, map_map. reflexivity. }
  rewrite total_scale. cbn [Nat.pow]. rewrite mult_INR. field. lra.
Qed.
Lemma over_ext k : forall f g, (forall l, f l = g l) -> over_tapes N k f = over_tapes N k g.
Proof. intros f g H. unfold over_tapes. f_equal. apply map_ext, H. Qed.
Lemma over_same k c : over_tapes N k (fun _ => c) = c.
Proof. induction k as [|k IH]; [apply over_0|]. rewrite over_S, IH. apply grid1_same. Qed.

(** one number of draws is enough for N programs *)
Lemma enough (P : nat -> nat -> Prop) : (forall j, exists K, forall k, (K <= k)%nat -> P j k) -> forall n, exists K, forall j k, (j < n)%nat -> (K <= k)%nat -> P j k.
Proof.
  intros H n. induction n as [|n (K & IH)]; [exists O; intros; lia|]. destruct (H n) as (K' & H'). exists (Nat.max K K'). intros j k J Hk.
  destruct (Nat.eq_dec j n) as [->|]; [apply H'; lia|apply IH; lia].
Qed.

Variable hit : ray -> option isect.
Notation run := (qrun (fun (l : tape) r => (hit r, l)) one_of two_of).
Lemma run_tapes {A} (q : query A) : exists K, forall k (f : A -> R), (K <= k)%nat -> over_tapes N k (fun l => f (fst (run q l))) = expect hit (grid1 N) (grid2 N) q f.
Proof.
  induction q as [a|r q IH|q IH|q IH].
  - exists O. intros k f _. cbn. apply over_same.
  - destruct (IH (hit r)) as (K & H). exists K. intros k f Hk. cbn. apply H, Hk.
  - destruct (enough (fun j k => forall f, over_tapes N k (fun l => f (fst (run (q (INR j / INR N)) l))) = expect hit (grid1 N) (grid2 N) (q (INR j / INR N)) f)) with (n := N) as (K & H).
    { intros j. destruct (IH (INR j / INR N)) as (K & H). exists K. intros k Hk f. apply H, Hk. }
    exists (S K). intros [|k] f Hk; [lia|]. rewrite over_S. cbn [expect]. apply grid1_ext. intros j Hj. cbn [qrun one_of]. apply H; [exact Hj|lia].
  - destruct (enough (fun i k => forall j f, (j < N)%nat -> over_tapes N k (fun l => f (fst (run (q (V2 (INR i / INR N) (INR j / INR N))) l))) = expect hit (grid1 N) (grid2 N) (q (V2 (INR i / INR N) (INR j / INR N))) f)) with (n := N) as (K & H).
    { intros i. destruct (enough (fun j k => forall f, over_tapes N k (fun l => f (fst (run (q (V2 (INR i / INR N) (INR j / INR N))) l))) = expect hit (grid1 N) (grid2 N) (q (V2 (INR i / INR N) (INR j / INR N))) f)) with (n := N) as (K & H).
      { intros j. destruct (IH (V2 (INR i / INR N) (INR j / INR N))) as (K & H). exists K. intros k Hk f. apply H, Hk. }
      exists K. intros k Hk j f Hj. apply H; assumption. }
    exists (S (S K)). intros [|[|k]] f Hk; [lia|lia|]. rewrite over_S. cbn [expect]. unfold grid2. apply grid1_ext. intros i Hi. rewrite over_S. apply grid1_ext. intros j Hj.
    cbn [qrun two_of one_of]. apply H; [exact Hi|lia|exact Hj].
Qed.
End Tapes.

Section Surfaces.
Context {M : Type}.
Variable hit : ray -> option isect.
Hypothesis solid : forall r i, hit r = Some i -> i_null i = false.
Variable e1 : (R -> R) -> R.
Variable e2 : (vec2 -> R) -> R.
Variable env : ray -> vec3.
Variable boundary : nat -> option (option M * option M).
Variable ms : M -> option bool -> ray -> R -> query (vec3 * R).
Variable ph : M -> vec3 -> vec2 -> vec3 * R.
Variable nee : bool -> bool -> isect -> option M -> query (list emitter_eval).
Variable ev : isect -> ray -> option M -> closure -> query closure.
Variable mat : isect -> vec3 -> vec3 -> vec3.
Variable sample : isect -> closure -> query closure.
Variable nonexp : bool.
Variable max : nat.
Variable get : vec3 -> R.
Lemma arrives_solid n : forall fuel r c surf, (n < fuel)%nat ->
  arrives hit e1 e2 M env boundary ms ph nee ev mat sample nonexp max get fuel n r c None surf = arrives_there hit e1 e2 env (fun i r c => ev i r None c) mat sample get n r c.
Proof.
  induction n as [|n IH]; intros [|fuel] r c surf F; try lia; [reflexivity|]. cbn [arrives arrives_there]. destruct (hit r) as [i|] eqn:H; [|reflexivity]. rewrite (solid r i H).
  assert (E : forall c3, arrives hit e1 e2 M env boundary ms ph nee ev mat sample nonexp max get fuel n (next_ray i c3) c3 None true = arrives_there hit e1 e2 env (fun i r c => ev i r None c) mat sample get n (next_ray i c3) c3)
    by (intros; apply IH; lia).
  f_equal. apply functional_extensionality. intros c1. f_equal. f_equal. apply functional_extensionality. intros c3. rewrite E. reflexivity.
Qed.
End Surfaces.

(** every leaf is reached with some tape *)
Lemma leaf_tape {A} hit (q : query A) a : hleaf hit q a -> exists t, fst (qrun (fun (l : tape) r => (hit r, l)) one_of two_of q t) = a.
Proof.
  induction 1 as [a|r k a H (t & IH)|k u a H (t & IH)|k [x y] a H (t & IH)].
  - exists []. reflexivity.
  - exists t. exact IH.
  - exists (u :: t). exact IH.
  - exists (x :: y :: t). exact IH.
Qed.
(** several samples in a row *)
Lemma qrun_bind {W A B} hit rnd1 rnd2 (q : query A) (f : A -> query B) : forall w : W,
  qrun hit rnd1 rnd2 (qbind q f) w = let (a, w) := qrun hit rnd1 rnd2 q w in qrun hit rnd1 rnd2 (f a) w.
Proof.
  induction q as [a|r q IH|q IH|q IH]; intros w; cbn; [reflexivity| | |].
  - destruct (hit w r) as [x w']. apply IH.
  - destruct (rnd1 w) as [x w']. apply IH.
  - destruct (rnd2 w) as [x w']. apply IH.
Qed.
Section Shots.
Context {A B X Y : Type}.
Variable hit : A -> ray -> option isect * A.
Variable rnd1 : A -> R * A.
Variable rnd2 : A -> vec2 * A.
Variable m : Integrators.M (A * B) X.
Variable q : query (outcome (X * Y)).
Variable good : st (A * B) -> Prop.
Hypothesis same : forall s, good s -> exists v y s', m s = (Ok v, s') /\ good s' /\ qrun hit rnd1 rnd2 q (fst (s_w _ s)) = (Ok (v, y), fst (s_w _ s')).
Lemma shots_samples n : forall s, good s -> exists l l' s', shots n m s = (Ok l, s') /\ good s' /\ qrun hit rnd1 rnd2 (samples n q) (fst (s_w _ s)) = (l', fst (s_w _ s')) /\
  Forall2 (fun v o => exists y, o = Ok (v, y)) l l'.
Proof.
  induction n as [|n IH]; intros s G; [exists [], [], s; repeat split; [exact G|constructor]|].
  destruct (same s G) as (v & y & s1 & E1 & G1 & Q1). destruct (IH s1 G1) as (l & l' & s2 & E2 & G2 & Q2 & F2).
  exists (v :: l), (Ok (v, y) :: l'), s2. split; [|split; [exact G2|split]].
  - cbn [shots]. unfold bindM at 1. rewrite E1. unfold bindM. rewrite E2. reflexivity.
  - cbn [samples]. rewrite qrun_bind, Q1, qrun_bind, Q2. reflexivity.
  - constructor; [eauto|exact F2].
Qed.
End Shots.
