(** C208: the order in which the lights of a scene are listed does not matter. *)
From Coq Require Import Reals List Bool ZArith Lra Lia Permutation.
From Flocq Require Core.Raux.
From Coquelicot Require Import Rbar.
From Verif.Base Require Import Outcome.
From Verif.Model Require Import Vec Frame BBox Clocker Integrators Bsdf Scene Renderer VolPath.
From Verif.Spec Require Import IntegratorSpec SceneSpec BoundSpec VolPathSpec ExpectSpec NoiseSpec TapeSpec OrderSpec.
From Verif.Proof Require Import VecLemmas IntegratorProof SceneProof VolPathTheory ExpectProof ExpectScene TapeProof WhittedProof OrderProof.
From Verif.Props Require VolPath Integrators.
From Verif.Props Require Import Expect Lamps PathMean Whitted.
Import ListNotations.
Open Scope R_scope.

(** a quantity computed from all samples of a pixel *)
Definition drawn_from {S} (f : list vec3 -> R) (x : outcome (list vec3) * S) : R := match fst x with Ok l => f l | _ => 0 end.

Section Order.
Context {M B : Type}.
Variable now : B -> R * B.
Variable S : scene M.
Variable L' : list emitter.
(** the same lights in another order *)
Hypothesis perm : Permutation (sc_emitters S) L'.
Notation S' := (with_lights S L').
Variable N : nat.
Hypothesis N_pos : (0 < N)%nat.
Variable hit : ray -> option isect.
Variable nn : nat.
Notation x := (uneven N (length (sc_emitters S))).
Notation path Z n r := (scene_path Z (tape * B) (own_now now) (own_hit (fun l q => (hit q, l))) (own_rnd one_of) (own_rnd two_of) (Datatypes.S nn) n r).
Notation whitted Z n r := (scene_whitted Z (tape * B) (own_now now) (own_hit (fun l q => (hit q, l))) (own_rnd one_of) (own_rnd two_of) (Datatypes.S nn) n r).
Notation volpath Z boundary ms ph n fuel md r := (scene_volpath Z (tape * B) (own_now now) (own_hit (fun l q => (hit q, l))) (own_rnd one_of) (own_rnd two_of) boundary ms ph n fuel md r).
Notation alike := (OrderSpec.alike hit (grid1 N) (grid2 N)).
Notation av := (grid_averages N N_pos).

Lemma swap_evaluate i r c : c_all c = false -> alike (if isDelta (chosen_bsdf S i) then 0 else x) (sc_evaluate S i r c) (sc_evaluate S' i r c).
Proof. intros Al. rewrite !evaluate_none. apply evaluate_alike; assumption. Qed.
Notation program Z n r := (vol_Li Empty_set (sc_env Z) nowhere nothing no_turn unseen (fun i q _ c => sc_evaluate Z i q c) (sc_mat Z) (sc_sample Z) false n (Datatypes.S n) None r).
Lemma path_alike n r : alike (INR n * x) (program S n r) (program S' n r).
Proof.
  unfold vol_Li. apply vol_alike with (d := 1 / INR N).
  - apply av.
  - apply uneven_pos, N_pos.
  - intros i q m c Al. eapply alike_le; [|apply swap_evaluate, Al]. pose proof (uneven_pos N N_pos (length (sc_emitters S))). destruct (isDelta _); lra.
  - intros. apply alike_refl, uneven_pos, N_pos.
  - intros i q m c c' Al Lf. rewrite evaluate_none in Lf. apply (evaluate_keeps S L' hit) in Lf as (-> & _). exact Al.
  - intros i c c' Al Lf. apply bsdf_sample_keeps in Lf as (_ & _ & -> & _). exact Al.
  - reflexivity.
Qed.

(** the path integrator: no quantity with values in [0, F] that depends on a sample has means over all random
    numbers that differ by more than n (N mod lights) / N F *)
Section Solid.
Hypothesis solid : forall r i, hit r = Some i -> i_null i = false.
Theorem C208_path n r b F f : 0 <= F -> (forall v, 0 <= f v <= F) -> exists K, forall k clk log, (K <= k)%nat -> idle clk ->
  Rabs (over_tapes N k (fun t => value f (path S n r (St _ clk (t, b) log))) - over_tapes N k (fun t => value f (path S' n r (St _ clk (t, b) log)))) <= INR n * x * F.
Proof.
  intros HF Hf. destruct (run_tapes N N_pos hit (program S n r)) as (K & H). destruct (run_tapes N N_pos hit (program S' n r)) as (K' & H').
  exists (Nat.max K K'). intros k clk log Hk I.
  assert (R0 : forall (Z : scene M) t, value f (path Z n r (St _ clk (t, b) log)) = result f (fst (qrun (fun (l : tape) q => (hit q, l)) one_of two_of (program Z n r) t))).
  { intros Z t. destruct (path_run now hit solid (sc_env Z) (sc_evaluate Z) (sc_mat Z) (sc_sample Z) N N_pos nn n r (St _ clk (t, b) log) I) as (v & h & s' & E1 & _ & E2). cbn [s_w fst] in E2.
    unfold scene_path. rewrite E1, E2. reflexivity. }
  rewrite (over_ext N k _ _ (R0 S)), (over_ext N k _ _ (R0 S')), (H k (result f)), (H' k (result f)) by lia.
  apply path_alike; [exact HF|]. intros [[v h]|e| |]; cbn; [apply Hf|lra..].
Qed.
(** equal when the number of lights divides N *)
Theorem C208_exact n r b F f : (N mod length (sc_emitters S) = 0)%nat -> 0 <= F -> (forall v, 0 <= f v <= F) -> exists K, forall k clk log, (K <= k)%nat -> idle clk ->
  over_tapes N k (fun t => value f (path S n r (St _ clk (t, b) log))) = over_tapes N k (fun t => value f (path S' n r (St _ clk (t, b) log))).
Proof.
  intros D HF Hf. destruct (C208_path n r b F f HF Hf) as (K & H). exists K. intros k clk log Hk I. specialize (H k clk log Hk I).
  unfold uneven in H. rewrite D in H. cbn [INR] in H. unfold Rdiv in H. rewrite Rmult_0_l, Rmult_0_r, Rmult_0_l in H. apply Flocq.Core.Raux.Rabs_le_inv in H. lra.
Qed.
(** all samples of a pixel together *)
Theorem C208_pixel n camera many b F f : 0 <= F -> (forall l, 0 <= f l <= F) ->
  let shot Z := bindM (tape * B) (next2 (tape * B) (own_rnd two_of)) (fun u => path Z n (camera u)) in
  exists K, forall k clk log, (K <= k)%nat -> idle clk ->
  Rabs (over_tapes N k (fun t => drawn_from f (shots many (shot S) (St _ clk (t, b) log))) - over_tapes N k (fun t => drawn_from f (shots many (shot S') (St _ clk (t, b) log)))) <= INR many * (INR n * x) * F.
Proof.
  intros HF Hf shot. set (one (Z : scene M) := QRand2 (fun u => program Z n (camera u))).
  destruct (run_tapes N N_pos hit (samples many (one S))) as (K & H). destruct (run_tapes N N_pos hit (samples many (one S'))) as (K' & H').
  exists (Nat.max K K'). intros k clk log Hk I.
  set (color (o : outcome (vec3 * list (vevent Empty_set))) := match o with Ok (v, _) => v | _ => V3c 0 end).
  assert (R0 : forall (Z : scene M) t, drawn_from f (shots many (shot Z) (St _ clk (t, b) log)) = f (map color (fst (qrun (fun (l : tape) q => (hit q, l)) one_of two_of (samples many (one Z)) t)))).
  { intros Z t. destruct (shots_samples (fun (l : tape) r => (hit r, l)) one_of two_of (shot Z) (one Z) (fun s => idle (s_clk _ s))) with (n := many) (s := St (tape * B) clk (t, b) log) as (l & l' & s' & E1 & _ & E2 & F2); [|exact I|].
    { intros s Is. unfold shot, bindM, next2, own_rnd. unfold one. cbn [qrun]. destruct (two_of (fst (s_w _ s))) as [u t'].
      destruct (path_run now hit solid (sc_env Z) (sc_evaluate Z) (sc_mat Z) (sc_sample Z) N N_pos nn n (camera u) (St _ (s_clk _ s) (t', snd (s_w _ s)) (s_log _ s)) Is) as (v & h & s' & P1 & P2 & P3).
      exists v, h, s'. split; [exact P1|]. split; [exact P2|exact P3]. }
    cbn [s_w fst] in E2. rewrite E1, E2. cbn [drawn_from fst]. f_equal. clear E1 E2. induction F2 as [|v o l l' (y & ->) F2 IH]; [reflexivity|]. cbn. rewrite IH. reflexivity. }
  rewrite (over_ext N k _ _ (R0 S)), (over_ext N k _ _ (R0 S')), (H k (fun l => f (map color l))), (H' k (fun l => f (map color l))) by lia.
  apply (alike_samples (1 / INR N) (grid1 N) (grid2 N) av hit); [|apply (alike_rand2 (1 / INR N) (grid1 N) (grid2 N) av hit); intros u; apply path_alike|exact HF|intros l; apply Hf].
  apply Rmult_le_pos; [apply pos_INR|apply uneven_pos, N_pos].
Qed.

(** Whitted's integrator samples the lights at most once, at the last surface *)
Theorem C208_whitted n r b F f : 0 <= F -> (forall v, 0 <= f v <= F) -> exists K, forall k clk log, (K <= k)%nat -> idle clk ->
  Rabs (over_tapes N k (fun t => value f (whitted S n r (St _ clk (t, b) log))) - over_tapes N k (fun t => value f (whitted S' n r (St _ clk (t, b) log)))) <= x * F.
Proof.
  intros HF Hf. set (prog (Z : scene M) := mirrors (sc_env Z) (sc_evaluate Z) (sc_mat Z) (sc_sample Z) n r).
  destruct (run_tapes N N_pos hit (prog S)) as (K & H). destruct (run_tapes N N_pos hit (prog S')) as (K' & H').
  exists (Nat.max K K'). intros k clk log Hk I.
  assert (R0 : forall (Z : scene M) t, value f (whitted Z n r (St _ clk (t, b) log)) = (fun o => match o with Ok v => f v | _ => 0 end) (fst (qrun (fun (l : tape) q => (hit q, l)) one_of two_of (prog Z) t))).
  { intros Z t. destruct (whitted_run now hit solid (sc_env Z) (sc_evaluate Z) (sc_mat Z) (sc_sample Z) nn n r (St _ clk (t, b) log) I) as (D & E). cbn [s_w fst] in E.
    unfold value, scene_whitted, prog. rewrite E. reflexivity. }
  rewrite (over_ext N k _ _ (R0 S)), (over_ext N k _ _ (R0 S')), (H k (fun o => match o with Ok v => f v | _ => 0 end)), (H' k (fun o => match o with Ok v => f v | _ => 0 end)) by lia.
  apply (mirrors_alike (1 / INR N) (grid1 N) (grid2 N) av hit); [apply uneven_pos, N_pos| |exact HF|intros [v|e| |]; cbn; [apply Hf|lra..]].
  intros i q c Al. exists (isDelta (chosen_bsdf S i)). split; [apply swap_evaluate, Al|]. intros c' Lf. rewrite evaluate_none in Lf. apply (evaluate_keeps S L' hit) in Lf as (_ & Sp). exact Sp.
Qed.
End Solid.

(** the volumetric path integrator, in any media *)
Theorem C208_volpath boundary ms ph n fuel md r b F f : 0 <= F -> (forall v, 0 <= f v <= F) -> exists K, forall k clk log, (K <= k)%nat -> idle clk ->
  Rabs (over_tapes N k (fun t => value f (volpath S boundary ms ph n fuel md r (St _ clk (t, b) log))) - over_tapes N k (fun t => value f (volpath S' boundary ms ph n fuel md r (St _ clk (t, b) log)))) <= INR n * x * F.
Proof.
  intros HF Hf. set (prog (Z : scene M) := vol_Li M (sc_env Z) boundary ms ph (sc_nee Z) (sc_evaluate_in Z) (sc_mat Z) (sc_sample Z) false n fuel md r).
  destruct (run_tapes N N_pos hit (prog S)) as (K & H). destruct (run_tapes N N_pos hit (prog S')) as (K' & H').
  exists (Nat.max K K'). intros k clk log Hk I.
  assert (R0 : forall (Z : scene M) t, value f (volpath Z boundary ms ph n fuel md r (St _ clk (t, b) log)) = result f (fst (qrun (fun (l : tape) q => (hit q, l)) one_of two_of (prog Z) t))).
  { intros Z t. set (s := St _ clk (t, b) log). unfold scene_volpath, as_Li, bindM, value. fold (prog Z).
    destruct (run_query_ok now (fun (l : tape) q => (hit q, l)) one_of two_of (prog Z) s I) as (o & s' & E).
    pose proof (does_query now (fun (l : tape) q => (hit q, l)) one_of two_of (prog Z) _ _ _ E) as Q. cbn [s s_w fst] in Q. rewrite E, Q. destruct o as [[v h]|e| |]; reflexivity. }
  rewrite (over_ext N k _ _ (R0 S)), (over_ext N k _ _ (R0 S')), (H k (result f)), (H' k (result f)) by lia.
  apply scene_vol; [exact perm|exact N_pos|exact HF|]. intros [[v h]|e| |]; cbn; [apply Hf|lra..].
Qed.
End Order.
Print Assumptions C208_path.
Print Assumptions C208_exact.
Print Assumptions C208_pixel.
Print Assumptions C208_whitted.
Print Assumptions C208_volpath.

(** the floor below two lamps: the first random number lights it by different lamps, yet the mean of every
    bounded quantity over all numbers k/2^23 is the same *)
Definition lamp (p h : R) : emitter := EPoint (V3c p) (V3 0 0 h).
Definition two_lamps (a p p' : R) : scene unit := with_lights (floor_scene a p) [lamp p 1; lamp p' 2].
Example C208_case a p p' n nn F f : p <> p' -> 0 <= F -> (forall v, 0 <= f v <= F) ->
  let S := two_lamps a p p' in
  let S' := with_lights S [lamp p' 2; lamp p 1] in
  let N := Nat.pow 2 23 in
  let path Z t clk log := scene_path Z (tape * unit) (own_now (fun b => (0, b))) (own_hit (fun l q => (scene_hit (VolPath.sheets floor) q, l))) (own_rnd one_of) (own_rnd two_of)
    (Datatypes.S nn) n floor_ray (St _ clk (t, tt) log) in
  fst (qrun (fun (l : tape) q => (None, l)) one_of two_of (choose_emitter (sc_emitters S) (sc_inst S) floor_point) [0]) = Ok (Some (lamp p 1, 1 / 2)) /\
  fst (qrun (fun (l : tape) q => (None, l)) one_of two_of (choose_emitter (sc_emitters S') (sc_inst S') floor_point) [0]) = Ok (Some (lamp p' 2, 1 / 2)) /\
  lamp p 1 <> lamp p' 2 /\
  uneven N (length (sc_emitters S)) = 0 /\
  exists K, forall k clk log, (K <= k)%nat -> idle clk -> over_tapes N k (fun t => value f (path S t clk log)) = over_tapes N k (fun t => value f (path S' t clk log)).
Proof.
  intros Ne HF Hf S S' N path. assert (D : (N mod length (sc_emitters S) = 0)%nat) by (unfold N; cbn [S two_lamps with_lights sc_emitters length]; rewrite Nat.pow_succ_r', Nat.mul_comm; apply Nat.mod_mul; discriminate).
  assert (Z : Flocq.Core.Raux.Ztrunc (0 * INR 2) = 0%Z) by (rewrite Rmult_0_l; exact (Flocq.Core.Raux.Ztrunc_IZR 0)).
  split; [|split; [|split; [|split]]].
  - unfold S. cbn [two_lamps with_lights sc_emitters choose_emitter naive_choice length qrun one_of]. rewrite Z. reflexivity.
  - unfold S'. cbn [two_lamps with_lights sc_emitters choose_emitter naive_choice length qrun one_of]. rewrite Z. reflexivity.
  - intros E. injection E as E. contradiction.
  - unfold uneven. rewrite D. cbn [INR]. unfold Rdiv. ring.
  - apply (C208_exact (fun b => (0, b)) S [lamp p' 2; lamp p 1] (perm_swap _ _ _) N) with (F := F); [unfold N; apply Nat.neq_0_lt_0, Nat.pow_nonzero; discriminate|exact floor_solid|exact D|exact HF|exact Hf].
Qed.
