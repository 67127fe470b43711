(** The order of the lights. *)
From Coq Require Import Reals List Bool ZArith Lra Lia Permutation.
From Flocq Require Import Core.Raux.
From Coquelicot Require Import Rbar.
From Verif.Base Require Import Outcome.
From Verif.Model Require Import Vec Frame BBox Clocker Integrators Bsdf Scene Renderer VolPath.
From Verif.Spec Require Import IntegratorSpec BoundSpec VolPathSpec ExpectSpec NoiseSpec TapeSpec OrderSpec.
From Verif.Proof Require Import VecLemmas IntegratorProof SceneProof VolPathTheory ExpectProof ExpectScene TapeProof WhittedProof.
Import ListNotations.
Open Scope R_scope.

Section Alike.
Variable d : R.
Variable e1 : (R -> R) -> R.
Variable e2 : (vec2 -> R) -> R.
Hypothesis av : averages d e1 e2.
Variable hit : ray -> option isect.
Notation alike := (OrderSpec.alike hit e1 e2).
Notation E := (expect hit e1 e2).

Lemma alike_refl {A} x (q : query A) : 0 <= x -> alike x q q.
Proof. intros X F f HF H. rewrite Rminus_diag_eq, Rabs_R0 by reflexivity. apply Rmult_le_pos; assumption. Qed.
Lemma alike_le {A} x y (q q' : query A) : x <= y -> alike x q q' -> alike y q q'.
Proof. intros L H F f HF Hf. eapply Rle_trans; [apply (H F f); assumption|]. apply Rmult_le_compat_r; assumption. Qed.
Lemma close_expect {A} (q : query A) f g x : (forall a, hleaf hit q a -> Rabs (f a - g a) <= x) -> Rabs (E q f - E q g) <= x.
Proof.
  intros H. pose proof (expect_near d e1 e2 av hit q f g 0 1 x x) as K. apply Rabs_le. lapply K; [lra|].
  intros a La. specialize (H a La). apply Rabs_le_inv in H. lra.
Qed.
Lemma alike_bind {A B} x y (q q' : query A) (g g' : A -> query B) : alike x q q' -> (forall a, hleaf hit q' a -> alike y (g a) (g' a)) -> alike (x + y) (qbind q g) (qbind q' g').
Proof.
  intros H K F f HF Hf. rewrite !(expect_bind d e1 e2 av).
  replace (E q (fun a => E (g a) f) - E q' (fun a => E (g' a) f)) with ((E q (fun a => E (g a) f) - E q' (fun a => E (g a) f)) + (E q' (fun a => E (g a) f) - E q' (fun a => E (g' a) f))) by ring.
  eapply Rle_trans; [apply Rabs_triang|]. rewrite Rmult_plus_distr_r. apply Rplus_le_compat.
  - apply H; [exact HF|]. intros a. apply (expect_between d e1 e2 av). intros b _. apply Hf.
  - apply close_expect. intros a La. apply K; assumption.
Qed.
Lemma alike_obind {A B} x y (q q' : query (outcome A)) (g g' : A -> query (outcome B)) : 0 <= y -> alike x q q' -> (forall a, alike y (g a) (g' a)) -> alike (x + y) (obind q g) (obind q' g').
Proof. intros Y H K. apply alike_bind; [exact H|]. intros [a|e| |] _; try (apply alike_refl; exact Y). apply K. Qed.
Lemma alike_same {A B} y (q : query A) (g g' : A -> query B) : (forall a, hleaf hit q a -> alike y (g a) (g' a)) -> alike y (qbind q g) (qbind q g').
Proof. intros K. replace y with (0 + y) by ring. apply alike_bind; [apply alike_refl; lra|exact K]. Qed.
Lemma alike_hit {A} y r (k k' : option isect -> query A) : (forall o, hit r = o -> alike y (k o) (k' o)) -> alike y (QHit r k) (QHit r k').
Proof. intros H F f. cbn [expect]. apply H. reflexivity. Qed.
Lemma alike_rand1 {A} y (k k' : R -> query A) : (forall u, alike y (k u) (k' u)) -> alike y (QRand1 k) (QRand1 k').
Proof. intros H. exact (alike_same y (QRand1 QRet) k k' (fun u _ => H u)). Qed.
Lemma alike_rand2 {A} y (k k' : vec2 -> query A) : (forall u, alike y (k u) (k' u)) -> alike y (QRand2 k) (QRand2 k').
Proof. intros H. exact (alike_same y (QRand2 QRet) k k' (fun u _ => H u)). Qed.
Lemma alike_samples {A} x (q q' : query A) n : 0 <= x -> alike x q q' -> alike (INR n * x) (samples n q) (samples n q').
Proof.
  intros X H. induction n as [|n IH]; [cbn [samples]; apply alike_refl; cbn; lra|]. cbn [samples]. rewrite S_INR. replace ((INR n + 1) * x) with (x + INR n * x) by ring.
  apply alike_bind; [exact H|]. intros a _. replace (INR n * x) with (INR n * x + 0) by ring. apply alike_bind; [exact IH|]. intros l _. apply alike_refl. lra.
Qed.

(** ** the volumetric path integrators *)
Section Vol.
Variable M : Type.
Variable env : ray -> vec3.
Variable boundary : nat -> option (option M * option M).
Variable ms : M -> option bool -> ray -> R -> query (vec3 * R).
Variable ph : M -> vec3 -> vec2 -> vec3 * R.
Variable nee nee' : bool -> bool -> isect -> option M -> query (list emitter_eval).
Variable ev ev' : isect -> ray -> option M -> closure -> query closure.
Variable mat : isect -> vec3 -> vec3 -> vec3.
Variable sample : isect -> closure -> query closure.
Variable max : nat.
Variable x : R.
Hypothesis x_pos : 0 <= x.
Hypothesis ev_alike : forall i r md c, c_all c = false -> alike x (ev i r md c) (ev' i r md c).
Hypothesis nee_alike : forall surf i md, alike x (nee false surf i md) (nee' false surf i md).
Hypothesis ev_all : forall i r md c c', c_all c = false -> leaf (ev' i r md c) c' -> c_all c' = false.
Hypothesis sample_all : forall i c c', c_all c = false -> leaf (sample i c) c' -> c_all c' = false.
Notation loop := (vol_loop M env boundary ms ph nee ev mat sample false max).
Notation loop' := (vol_loop M env boundary ms ph nee' ev' mat sample false max).

Lemma more n : x + INR n * x = INR (S n) * x. Proof. rewrite S_INR. ring. Qed.
Lemma most n : 0 <= INR n * x. Proof. apply Rmult_le_pos; [apply pos_INR|exact x_pos]. Qed.
Lemma vol_alike fuel : forall n Li beta r cl md surf h, c_all cl = false -> alike (INR n * x) (loop fuel n Li beta r cl md surf h) (loop' fuel n Li beta r cl md surf h).
Proof.
  induction fuel as [|fuel IH]; intros n Li beta r cl md surf h Al; [cbn; apply alike_refl, most|]. cbn [vol_loop].
  destruct n as [|n]; [apply alike_refl, most|]. destruct (isZero_dec beta); [apply alike_refl, most|]. apply alike_hit. intros [its|] _; [|apply alike_refl, most].
  assert (Arr : forall beta h, alike (INR (S n) * x) (arrive M boundary ev mat sample false max (loop fuel) n Li beta r cl md surf its h) (arrive M boundary ev' mat sample false max (loop' fuel) n Li beta r cl md surf its h)).
  { intros b k. unfold arrive. destruct (i_null its).
    - unfold at_boundary. apply IH. unfold boundary_closure. destruct (boundary _); exact Al.
    - unfold at_surface. rewrite <- more. apply alike_bind; [apply ev_alike; exact Al|]. intros c1 L1. cbv zeta.
      apply hleaf_leaf, ev_all in L1; [|exact Al]. assert (A2 : c_all (accumulate_shadow_rays (mat its) c1) = false) by exact L1.
      apply alike_rand1. intros u. destruct (Rgt_dec u _); [apply alike_refl, most|]. apply alike_same. intros c3 L3. apply hleaf_leaf, sample_all in L3; [|exact A2].
      destruct (Req_EM_T _ 0); [apply alike_refl, most|]. apply IH, L3. }
  unfold traverse. destruct md as [m|]; [|apply Arr]. cbv zeta. apply alike_same. intros wt _. destruct (Rlt_dec _ _); [|apply Arr].
  unfold scatter. rewrite <- more, Al. apply alike_bind; [apply nee_alike|]. intros l _. apply alike_rand2. intros s. destruct (ph _ _ _) as [wi phase]. apply alike_rand1. intros u. cbv zeta.
  destruct (Rgt_dec u _); [apply alike_refl, most|]. apply IH. exact Al.
Qed.
End Vol.

(** ** Whitted's integrator: only the last surface samples a light *)
Section Whitted.
Variable env : ray -> vec3.
Variable ev ev' : isect -> ray -> closure -> query closure.
Variable mat : isect -> vec3 -> vec3 -> vec3.
Variable sample : isect -> closure -> query closure.
Variable x : R.
Hypothesis x_pos : 0 <= x.
Hypothesis ev_alike : forall i r c, c_all c = false -> exists b : bool, alike (if b then 0 else x) (ev i r c) (ev' i r c) /\ forall c', leaf (ev' i r c) c' -> c_spec c' = b.
Lemma mirrors_alike n : forall r, alike x (mirrors env ev mat sample n r) (mirrors env ev' mat sample n r).
Proof.
  induction n as [|n IH]; intros r; [apply alike_refl, x_pos|]. cbn [mirrors]. apply alike_hit. intros [its|] _; [|apply alike_refl, x_pos].
  destruct (ev_alike its r (closure_init false true (isect_toLocal its (vneg (dir r)))) eq_refl) as (b & Al & Sp).
  apply alike_le with ((if b then 0 else x) + (if b then x else 0)); [destruct b; lra|]. apply alike_bind; [exact Al|]. intros c1 L1. cbv zeta.
  apply hleaf_leaf, Sp in L1. assert (A2 : c_spec (accumulate_shadow_rays (mat its) c1) = b) by exact L1. rewrite A2. destruct b; [|apply alike_refl; lra].
  apply alike_same. intros c3 _. apply alike_rand1. intros u. destruct (Rgt_dec u _); [apply alike_refl, x_pos|]. destruct (isZero_dec _); [apply alike_refl, x_pos|].
  apply alike_le with (x + 0); [lra|]. apply alike_obind; [lra|apply IH|]. intros v. apply alike_refl. lra.
Qed.
End Whitted.
End Alike.

(** ** choosing a light *)
Lemma total_add a b f : total (a + b) f = total a f + total b (fun j => f (a + j)%nat).
Proof. induction b as [|b IH]; [rewrite Nat.add_0_r; cbn; ring|]. rewrite Nat.add_succ_r. cbn [total]. rewrite IH. ring. Qed.
Lemma total_nonneg n f : (forall k, (k < n)%nat -> 0 <= f k) -> 0 <= total n f.
Proof. induction n as [|n IH]; intros H; cbn; [lra|]. pose proof (H n ltac:(lia)). assert (0 <= total n f) by (apply IH; intros k Hk; apply H; lia). lra. Qed.
Lemma total_const n c : total n (fun _ => c) = INR n * c.
Proof. induction n as [|n IH]; [cbn; ring|]. cbn [total]. rewrite IH, S_INR. ring. Qed.
Lemma total_minus n F f : total n (fun k => F - f k) = INR n * F - total n f.
Proof. induction n as [|n IH]; [cbn; ring|]. cbn [total]. rewrite IH, S_INR. ring. Qed.
Lemma total_list {A} (a : A) (g : A -> R) l : total (length l) (fun i => g (nth i l a)) = sum (map g l).
Proof.
  induction l as [|b l IH] using rev_ind; [reflexivity|]. rewrite app_length, map_app, Nat.add_1_r. cbn [total].
  rewrite nth_middle, (total_ext _ _ (fun i => g (nth i l a))) by (intros k Hk; rewrite app_nth1 by exact Hk; reflexivity). rewrite IH.
  clear. induction (map g l) as [|x m IH]; cbn in *; lra.
Qed.

Section Choice.
Variable N n : nat.
Hypothesis N_pos : (0 < N)%nat.
Hypothesis n_pos : (0 < n)%nat.
Definition cut i := ((i * N + (n - 1)) / n)%nat.
Lemma cut_spec i : (i * N <= cut i * n /\ cut i * n <= i * N + (n - 1))%nat.
Proof. unfold cut. pose proof (Nat.div_mod (i * N + (n - 1)) n ltac:(lia)). pose proof (Nat.mod_upper_bound (i * N + (n - 1)) n ltac:(lia)). nia. Qed.
Lemma share i j : (j < N / n)%nat -> ((cut i + j) * n / N = i)%nat.
Proof.
  intros H. pose proof (cut_spec i) as (A & B). pose proof (Nat.div_mod N n ltac:(lia)) as D. symmetry. apply (Nat.div_unique _ _ _ ((cut i + j) * n - i * N)); nia.
Qed.
Lemma cut_next i : (cut i + N / n <= cut (S i))%nat.
Proof. pose proof (cut_spec i). pose proof (cut_spec (S i)). pose proof (Nat.div_mod N n ltac:(lia)). nia. Qed.
Lemma cut_end : cut n = N.
Proof. pose proof (cut_spec n). nia. Qed.
Lemma dealt_low g : (forall i, 0 <= g i) -> forall m, INR (N / n) * total m g <= total (cut m) (fun k => g (k * n / N)%nat).
Proof.
  intros G. induction m as [|m IH]; [cbn [total]; rewrite Rmult_0_r; apply total_nonneg; intros; apply G|].
  pose proof (cut_next m) as C. replace (cut (S m)) with (cut m + (N / n + (cut (S m) - (cut m + N / n))))%nat by lia. rewrite total_add, total_add. cbn [total].
  rewrite (total_ext (N / n) _ (fun _ => g m)) by (intros j Hj; rewrite share by exact Hj; reflexivity). rewrite total_const.
  match goal with |- _ <= _ + (_ + ?t) => assert (0 <= t) by (apply total_nonneg; intros; apply G) end. lra.
Qed.
Lemma dealt g F : (forall i, 0 <= g i <= F) -> INR (N / n) * total n g <= total N (fun k => g (k * n / N)%nat) <= INR (N / n) * total n g + INR (N mod n) * F.
Proof.
  intros G. split.
  - pose proof (dealt_low g (fun i => proj1 (G i)) n) as H. rewrite cut_end in H. exact H.
  - pose proof (dealt_low (fun i => F - g i) ltac:(intros i; specialize (G i); lra) n) as H. rewrite cut_end, total_minus in H.
    rewrite (total_minus N F (fun k => g (k * n / N)%nat)) in H. assert (Q : INR N = INR n * INR (N / n) + INR (N mod n)) by (rewrite <- mult_INR, <- plus_INR, <- Nat.div_mod by lia; reflexivity).
    rewrite Q in H. lra.
Qed.
Lemma index k : (k < N)%nat -> Ztrunc (INR k / INR N * INR n) = Z.of_nat (k * n / N).
Proof.
  intros Hk. pose proof (lt_0_INR N N_pos) as N0. replace (INR k / INR N * INR n) with (INR (k * n) / INR N) by (rewrite mult_INR; field; lra).
  assert (P : 0 <= INR (k * n) / INR N) by (apply Rmult_le_pos; [apply pos_INR|left; apply Rinv_0_lt_compat, N0]).
  rewrite Ztrunc_floor by exact P. apply Zfloor_imp. rewrite plus_IZR, <- INR_IZR_INZ.
  pose proof (Nat.div_mod (k * n) N ltac:(lia)) as D. pose proof (Nat.mod_upper_bound (k * n) N ltac:(lia)) as U. apply lt_INR in U. pose proof (pos_INR ((k * n) mod N)).
  apply (f_equal INR) in D. rewrite plus_INR, (mult_INR N) in D. rewrite D. split.
  - apply Rmult_le_reg_r with (INR N); [exact N0|]. unfold Rdiv. rewrite Rmult_assoc, Rinv_l by lra. lra.
  - apply Rmult_lt_reg_r with (INR N); [exact N0|]. unfold Rdiv. rewrite Rmult_assoc, Rinv_l by lra. lra.
Qed.
End Choice.

Section Lights.
Context {M : Type}.
Variable Sc : scene M.
Variable L' : list emitter.
Hypothesis perm : Permutation (sc_emitters Sc) L'.
Variable N : nat.
Hypothesis N_pos : (0 < N)%nat.
Variable hit : ray -> option isect.
Notation Sc' := (with_lights Sc L').
Notation x := (uneven N (length (sc_emitters Sc))).
Notation alike := (OrderSpec.alike hit (grid1 N) (grid2 N)).
Notation av := (grid_averages N N_pos).

Lemma uneven_pos k : 0 <= uneven N k.
Proof. apply Rmult_le_pos; [apply pos_INR|left; apply Rinv_0_lt_compat, lt_0_INR, N_pos]. Qed.
(** what is found for a light *)
Definition pick (n : nat) (its : isect) (e : emitter) : outcome (option (emitter * R)) :=
  match em_mesh e with
  | Some m => if (sc_inst Sc m =? sc_inst Sc (i_mesh its))%nat then Ok None else Ok (Some (e, 1 / INR n))
  | None => Ok (Some (e, 1 / INR n))
  end.
Lemma choose_mean e0 l its f : (0 < length l)%nat ->
  expect hit (grid1 N) (grid2 N) (choose_emitter l (sc_inst Sc) its) f = total N (fun k => f (pick (length l) its (nth (k * length l / N) l e0))) / INR N.
Proof.
  intros H. unfold choose_emitter. destruct l as [|e l0] eqn:E; [cbn in H; lia|]. rewrite <- E in *. replace (match l with [] => QRet (Ok None) | _ :: _ => _ end) with (QRand1 (fun u =>
      let '(k, pdf) := naive_choice l u in
      if (k <? 0)%Z then QRet UB else
      match nth_error l (Z.to_nat k) with
      | None => QRet UB
      | Some e =>
          match em_mesh e with
          | Some m => if (sc_inst Sc m =? sc_inst Sc (i_mesh its))%nat then QRet (Ok None) else QRet (Ok (Some (e, pdf)))
          | None => QRet (Ok (Some (e, pdf)))
          end
      end)) by (rewrite E; reflexivity).
  cbn [expect]. unfold grid1. f_equal. apply total_ext. intros k Hk. unfold naive_choice. rewrite index by assumption.
  replace (Z.of_nat (k * length l / N) <? 0)%Z with false by (symmetry; apply Z.ltb_ge; lia). rewrite Nat2Z.id.
  assert (I : (k * length l / N < length l)%nat) by (apply Nat.div_lt_upper_bound; nia). rewrite (nth_error_nth' l e0 I). unfold pick.
  destruct (em_mesh _); [destruct (Nat.eqb _ _)|]; reflexivity.
Qed.
Lemma sum_perm l l' : Permutation l l' -> sum l = sum l'.
Proof. induction 1; cbn in *; lra. Qed.
Lemma choose_alike its : alike x (choose_emitter (sc_emitters Sc) (sc_inst Sc) its) (choose_emitter L' (sc_inst Sc) its).
Proof.
  pose proof (Permutation_length perm) as Len. destruct (sc_emitters Sc) as [|e0 l0] eqn:E.
  - destruct L'; [|discriminate]. apply alike_refl, uneven_pos.
  - rewrite <- E in *. assert (H : (0 < length (sc_emitters Sc))%nat) by (rewrite E; cbn; lia). set (n := length (sc_emitters Sc)) in *.
    intros F f HF Hf. rewrite !(choose_mean e0) by lia. rewrite <- Len.
    pose proof (dealt N n N_pos H (fun i => f (pick n its (nth i (sc_emitters Sc) e0))) F ltac:(intros i; apply Hf)) as A.
    pose proof (dealt N n N_pos H (fun i => f (pick n its (nth i L' e0))) F ltac:(intros i; apply Hf)) as B.
    assert (Q : total n (fun i => f (pick n its (nth i (sc_emitters Sc) e0))) = total n (fun i => f (pick n its (nth i L' e0)))).
    { pose proof (total_list e0 (fun e => f (pick n its e)) (sc_emitters Sc)) as T. pose proof (total_list e0 (fun e => f (pick n its e)) L') as T'. rewrite <- Len in T'. fold n in T. cbv beta in T, T'.
      rewrite T, T'. apply sum_perm, Permutation_map, perm. }
    rewrite Q in A. fold n. unfold uneven. pose proof (lt_0_INR N N_pos) as N0. unfold Rdiv. rewrite <- Rmult_minus_distr_r, Rabs_mult.
    rewrite (Rabs_pos_eq (/ INR N)) by (left; apply Rinv_0_lt_compat, N0). rewrite Rmult_assoc, (Rmult_comm (/ INR N)), <- Rmult_assoc.
    apply Rmult_le_compat_r; [left; apply Rinv_0_lt_compat, N0|]. apply Rabs_le. fold n in Len. lra.
Qed.
Lemma one_alike its md inm :
  alike x (eval_one (sc_mesh_point Sc) M (sc_inside Sc) (sc_transmittance Sc) (sc_fuel Sc) (sc_emitters Sc) (sc_inst Sc) (sc_ignore Sc) its md inm)
          (eval_one (sc_mesh_point Sc) M (sc_inside Sc) (sc_transmittance Sc) (sc_fuel Sc) L' (sc_inst Sc) (sc_ignore Sc) its md inm).
Proof.
  unfold eval_one. apply alike_le with (x + 0); [lra|]. apply alike_obind with (d := 1 / INR N); [apply av|lra|apply choose_alike|]. intros c. apply alike_refl. lra.
Qed.
Lemma no_failure_alike {A} y (a : A) q q' : alike y q q' -> alike y (no_failure a q) (no_failure a q').
Proof. intros H. unfold no_failure. apply alike_le with (y + 0); [lra|]. apply alike_bind with (d := 1 / INR N); [apply av|exact H|]. intros o _. apply alike_refl. lra. Qed.
Lemma nee_alike surf i md : alike x (sc_nee Sc false surf i md) (sc_nee Sc' false surf i md).
Proof. unfold sc_nee. apply no_failure_alike, one_alike. Qed.
Lemma shade_alike md (delta : bool) i r c : c_all c = false ->
  alike (if delta then 0 else x)
    (shade_in (sc_mesh_point Sc) M (sc_inside Sc) (sc_transmittance Sc) (sc_fuel Sc) (sc_emitters Sc) (sc_inst Sc) (sc_ignore Sc) (sc_object_emitter Sc) md delta i r c)
    (shade_in (sc_mesh_point Sc) M (sc_inside Sc) (sc_transmittance Sc) (sc_fuel Sc) L' (sc_inst Sc) (sc_ignore Sc) (sc_object_emitter Sc) md delta i r c).
Proof.
  intros Al. pose proof (uneven_pos (length (sc_emitters Sc))) as X. unfold shade_in. set (c0 := set_spec c delta (c_last_spec c) (c_accepts c)). assert (A0 : c_all c0 = false) by exact Al. clearbody c0.
  apply alike_same with (d := 1 / INR N); [apply av|]. intros o Lo. apply hleaf_leaf, leaf_ret_inv in Lo.
  assert (A1 : forall c1, o = Ok c1 -> c_all c1 = false).
  { intros c1 ->. destruct (c_last_spec c0); [|congruence]. symmetry in Lo. apply emission_leaf in Lo. destruct Lo as (_ & ->). exact A0. }
  destruct o as [c1|e| |]; try (apply alike_refl; destruct delta; lra). specialize (A1 c1 eq_refl).
  destruct delta; [apply alike_refl; lra|]. destruct (c_accepts c1); [|apply alike_refl, X]. rewrite A1.
  apply alike_le with (x + 0); [lra|]. apply alike_obind with (d := 1 / INR N); [apply av|lra|apply one_alike|]. intros l. apply alike_refl. lra.
Qed.
Lemma try_alike i r md c : c_all c = false -> alike (if isDelta (chosen_bsdf Sc i) then 0 else x) (sc_try_in Sc i r md c) (sc_try_in Sc' i r md c).
Proof.
  intros Al. unfold sc_try_in, chosen_bsdf. cbn [with_lights sc_shader]. destruct (sc_shader Sc (i_mesh i)) as [b|th b1 b2].
  - unfold simple_evaluate_in. apply alike_le with ((if isDelta b then 0 else x) + 0); [lra|].
    apply alike_obind with (d := 1 / INR N); [apply av|lra|apply shade_alike, Al|]. intros o. apply alike_refl. lra.
  - destruct (on_wire (i_bary i) th); apply shade_alike, Al.
Qed.
Lemma evaluate_alike i r md c : c_all c = false -> alike (if isDelta (chosen_bsdf Sc i) then 0 else x) (sc_evaluate_in Sc i r md c) (sc_evaluate_in Sc' i r md c).
Proof. intros Al. unfold sc_evaluate_in. apply no_failure_alike, try_alike, Al. Qed.
Lemma evaluate_keeps i r md c c' : leaf (sc_evaluate_in Sc' i r md c) c' -> c_all c' = c_all c /\ c_spec c' = isDelta (chosen_bsdf Sc i).
Proof.
  unfold sc_evaluate_in, no_failure. intros L. apply leaf_bind in L as (o & L1 & L2). apply leaf_ret_inv in L2. subst c'.
  destruct o as [c1|e| |]; try (split; reflexivity). unfold sc_try_in in L1. unfold chosen_bsdf. cbn [with_lights sc_shader] in L1. destruct (sc_shader Sc (i_mesh i)) as [b|th b1 b2].
  - apply simple_in_leaf in L1 as (Sh & _). unfold SceneProof.shaded in Sh. tauto.
  - apply shade_in_leaf in L1 as (Sh & _). unfold SceneProof.shaded in Sh. tauto.
Qed.
Lemma scene_vol boundary ms ph fuel n md r :
  alike (INR n * x)
    (vol_Li M (sc_env Sc) boundary ms ph (sc_nee Sc) (sc_evaluate_in Sc) (sc_mat Sc) (sc_sample Sc) false n fuel md r)
    (vol_Li M (sc_env Sc') boundary ms ph (sc_nee Sc') (sc_evaluate_in Sc') (sc_mat Sc') (sc_sample Sc') false n fuel md r).
Proof.
  unfold vol_Li. apply vol_alike with (d := 1 / INR N).
  - apply av.
  - apply uneven_pos.
  - intros i q m c Al. eapply alike_le; [|apply evaluate_alike, Al]. pose proof (uneven_pos (length (sc_emitters Sc))). destruct (isDelta _); lra.
  - intros surf i m. apply nee_alike.
  - intros i q m c c' Al Lf. apply evaluate_keeps in Lf as (-> & _). exact Al.
  - intros i c c' Al Lf. apply bsdf_sample_keeps in Lf as (_ & _ & -> & _). exact Al.
  - reflexivity.
Qed.
End Lights.

(** a program never fails while the clocks are idle *)
Lemma run_query_ok {A B X} (now : B -> R * B) (hit : A -> ray -> option isect * A) rnd1 rnd2 (q : query X) s : idle (s_clk _ s) ->
  exists x s', run_query (A * B) (own_now now) (own_hit hit) (own_rnd rnd1) (own_rnd rnd2) q s = (Ok x, s').
Proof.
  intros I. pose proof (runs_query (own_now now) (own_hit hit) (own_rnd rnd1) (own_rnd rnd2) q (actives (s_clk _ s))) as R.
  lapply R; [|apply I; cbn; tauto]. intros R1. destruct (R1 s ltac:(reflexivity)) as (h & _ & O).
  pose proof (nf_query (own_now now) (own_hit hit) (own_rnd rnd1) (own_rnd rnd2) q s) as Nf. unfold nf in Nf.
  destruct (run_query _ _ _ _ _ q s) as [[y|e| |] s']; cbn in *; try contradiction. eauto.
Qed.
