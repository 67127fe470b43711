(** The sampler as a position in one stream; the render driver. *)
From Coq Require Import Reals ZArith List String Bool Lia Lra Permutation.
From Flocq Require Import Core.Raux.
From Verif.Base Require Import Outcome Loops.
From Verif.Model Require Import Vec Matrix BBox Camera Integrators Film Driver.
From Verif.Spec Require Import TilesSpec FilmSpec DriverSpec.
From Verif.Proof Require Import FilmProof.
Import ListNotations.
Open Scope R_scope.

Lemma u32_small z : (0 <= z < 2 ^ 32)%Z -> u32 z = z.
Proof. intros H. unfold u32. apply Z.mod_small. exact H. Qed.
Lemma u32_idem z : u32 (u32 z) = u32 z.
Proof. unfold u32. apply Z.mod_mod. lia. Qed.
Lemma u32_range z : (0 <= u32 z < 2 ^ 32)%Z.
Proof. unfold u32. apply Z.mod_pos_bound. lia. Qed.
Lemma u32_neg z : (- 2 ^ 31 <= z < 0)%Z -> u32 z = (z + 2 ^ 32)%Z.
Proof. intros H. unfold u32. symmetry. apply Z.mod_unique with (q := (-1)%Z); lia. Qed.

(** an argument order for two arguments is one of two *)
Lemma order2 l : Permutation l (seq 0 2) -> l = [0; 1]%nat \/ l = [1; 0]%nat.
Proof.
  intros P. apply Permutation_sym, Permutation_length_2_inv in P. exact P.
Qed.

Section S.
Variable rng : Type.
Variable nextFloat : rng -> R * rng.
Variable ord : nat -> list nat.
Notation sampler := (sampler rng).
Notation next1D := (next1D rng nextFloat).
Notation next2D := (next2D rng nextFloat ord).
Notation draw_many := (draw_many rng nextFloat).
Notation run_on := (run_on rng nextFloat ord).

Definition adv (k : nat) (g : rng) : rng := Nat.iter k (fun g => snd (nextFloat g)) g.
Definition at_pos (s : sampler) (k : nat) : sampler := set_gen rng s (adv k (s_gen rng s)).
Lemma at_pos_0 s : at_pos s 0 = s.
Proof. destruct s; reflexivity. Qed.
Lemma at_pos_class s k : s_class rng (at_pos s k) = s_class rng s.
Proof. reflexivity. Qed.
Lemma at_pos_cnt s k : s_cnt rng (at_pos s k) = s_cnt rng s.
Proof. reflexivity. Qed.

Lemma next1D_at s k : s_class rng s = IndependentC ->
  next1D (at_pos s k) = Ok (stream nextFloat (s_gen rng s) k, at_pos s (S k)).
Proof.
  intros C. unfold Driver.next1D. rewrite at_pos_class, C. unfold at_pos, stream. simpl. unfold adv. simpl.
  destruct (nextFloat (Nat.iter k _ _)) as [v g] eqn:E. reflexivity.
Qed.
Lemma draw_many_at n : forall s k, s_class rng s = IndependentC ->
  draw_many n (at_pos s k) = Ok (map (stream nextFloat (s_gen rng s)) (seq k n), at_pos s (n + k)).
Proof.
  induction n as [|n IH]; intros s k C; [reflexivity|]. cbn [Driver.draw_many]. rewrite next1D_at by exact C. cbn [bind].
  rewrite IH by exact C. cbn [bind]. rewrite <- plus_n_Sm. reflexivity.
Qed.
Definition swapped : bool := match ord 2 with 1%nat :: _ => true | _ => false end.
Hypothesis ord2 : Permutation (ord 2) (seq 0 2).
Lemma next2D_at s k : s_class rng s = IndependentC ->
  next2D (at_pos s k) = Ok (plane (stream nextFloat (s_gen rng s)) swapped k, at_pos s (S (S k))).
Proof.
  intros C. unfold Driver.next2D, nextND. rewrite draw_many_at by exact C. cbn [bind].
  unfold plane, swapped. destruct (order2 _ ord2) as [-> | ->]; reflexivity.
Qed.
Lemma run_on_at {A} hit (q : query A) : forall s k, s_class rng s = IndependentC ->
  run_on hit q (at_pos s k) =
  Ok (fst (answer (stream nextFloat (s_gen rng s)) swapped hit q k), at_pos s (snd (answer (stream nextFloat (s_gen rng s)) swapped hit q k))).
Proof.
  induction q as [a|r f IH|f IH|f IH]; intros s k C; cbn [Driver.run_on answer].
  - reflexivity.
  - apply IH, C.
  - rewrite next1D_at by exact C. cbn [bind]. apply IH, C.
  - rewrite next2D_at by exact C. cbn [bind]. apply IH, C.
Qed.

Lemma run_on_start {A} hit (q : query A) s : s_class rng s = IndependentC ->
  run_on hit q s =
  Ok (fst (answer (stream nextFloat (s_gen rng s)) swapped hit q 0), at_pos s (snd (answer (stream nextFloat (s_gen rng s)) swapped hit q 0))).
Proof. intros C. rewrite <- run_on_at by exact C. now rewrite at_pos_0. Qed.

(** ** loops *)
Lemma loop_small {St} (body : St -> outcome St) cnt (n : nat) : forall fuel k st, (0 <= k)%Z -> (k + Z.of_nat n = cnt)%Z -> (cnt < 2 ^ 31)%Z -> (n <= fuel)%nat ->
  sample_loop fuel cnt k body st = foldM (fun st (_ : nat) => body st) (seq 0 n) st.
Proof.
  assert (E : forall m a st, foldM (fun st (_ : nat) => body st) (seq a m) st = foldM (fun st (_ : nat) => body st) (seq 0 m) st).
  { intros m. induction m as [|m IH]; intros a st; [reflexivity|]. cbn [seq foldM]. destruct (body st); cbn [bind]; try reflexivity.
    rewrite IH. symmetry. apply IH. }
  induction n as [|n IH]; intros fuel k st K1 K2 K3 F.
  - assert (k = cnt) by lia. subst k. destruct fuel; simpl; rewrite Z.ltb_irrefl; reflexivity.
  - destruct fuel as [|fuel]; [lia|]. cbn [sample_loop]. rewrite (u32_small k), (u32_small cnt) by lia.
    destruct (Z.ltb_spec k cnt); [|lia]. cbn [seq foldM]. destruct (body st); cbn [bind]; try reflexivity.
    destruct (Z.eqb_spec k (2 ^ 31 - 1)); [lia|]. rewrite E. apply IH; lia.
Qed.
(** with a count of at least 2^31 as an unsigned number the loop never ends well *)
Lemma loop_big {St} (body : St -> outcome St) cnt : (2 ^ 31 <= u32 cnt)%Z -> forall fuel k st, (0 <= k < 2 ^ 31)%Z ->
  forall st', sample_loop fuel cnt k body st <> Ok st'.
Proof.
  intros B. induction fuel as [|fuel IH]; intros k st K st'; cbn [sample_loop]; rewrite (u32_small k) by lia;
  (destruct (Z.ltb_spec k (u32 cnt)); [|lia]); [discriminate|].
  destruct (body st); cbn [bind]; try discriminate. destruct (Z.eqb_spec k (2 ^ 31 - 1)); [discriminate|]. apply IH. lia.
Qed.
Lemma loop_big_ub {St} (body : St -> outcome St) cnt (inv : St -> Prop) : (2 ^ 31 <= u32 cnt)%Z ->
  (forall st, inv st -> exists st', body st = Ok st' /\ inv st') -> forall m fuel k st, (0 <= k < 2 ^ 31)%Z -> inv st ->
  Z.of_nat m = (2 ^ 31 - k)%Z -> (m <= fuel)%nat -> sample_loop fuel cnt k body st = UB.
Proof.
  intros B I. induction m as [|m IH]; intros fuel k st K S M F; [lia|].
  destruct fuel as [|fuel]; [lia|]. cbn [sample_loop]. rewrite (u32_small k) by lia. destruct (Z.ltb_spec k (u32 cnt)); [|lia].
  destruct (I st S) as (st'&->&S'). cbn [bind]. destruct (Z.eqb_spec k (2 ^ 31 - 1)); [reflexivity|]. apply IH; try assumption; lia.
Qed.

(** ** the render *)
Section R.
Variable hit : ray -> option isect.
Variable fsize : vec2.
Variable feval : vec2 -> R.
Variable cam : Z -> Z -> vec2 -> vec2 -> ray.
Variable P : Type.
Variable pre : query P.
Variable Li : P -> ray -> query vec3.
Variable s0 : sampler.
Hypothesis indep : s_class rng s0 = IndependentC.
Notation u := (stream nextFloat (s_gen rng s0)).
Notation n2 := (fun k : nat => (plane u swapped k, S (S k))).
Notation rad_of := (fun (w h : Z) (p : P) (k : nat) (ps a : vec2) => answer u swapped hit (Li p (cam w h ps a)) k).

Lemma one_sample_at w h p k pix :
  one_sample rng nextFloat ord hit cam P Li w h p (at_pos s0 k) pix =
  let '(ps, rad, k') := take_sample nat n2 (rad_of w h p) k pix in Ok (ps, rad, at_pos s0 k').
Proof.
  destruct pix as [j i]. unfold one_sample, take_sample. rewrite next2D_at by exact indep. cbn [bind].
  rewrite next2D_at by exact indep. cbn [bind]. rewrite run_on_at by exact indep. cbn [bind].
  destruct (answer _ _ _ _ _) as [rad k']. reflexivity.
Qed.
Lemma pixels_ok w h p l : forall f k, exists f' k', foldM (render_body nat n2 (rad_of w h p) fsize feval w h) l (f, k) = Ok (f', k').
Proof.
  induction l as [|pix l IH]; intros f k; [exists f, k; reflexivity|]. cbn [foldM]. unfold render_body at 1.
  destruct (take_sample _ _ _ _ _) as [[ps rad] k'].
  destruct (add_pixels w h rad (splat fsize feval w h ps) f) as (f'&E&_).
  { intros [[x y] wt] I. apply splat_in in I. apply I. }
  rewrite E. cbn [bind]. apply IH.
Qed.
Definition lift (o : outcome (film * nat)) : outcome (film * sampler) :=
  bind o (fun '(f, k) => Ok (f, at_pos s0 k)).
Lemma body_at w h p f k pix :
  sample_body rng nextFloat ord hit fsize feval cam P Li w h p (f, at_pos s0 k) pix =
  lift (render_body nat n2 (rad_of w h p) fsize feval w h (f, k) pix).
Proof.
  unfold sample_body, render_body. rewrite one_sample_at. destruct (take_sample _ _ _ _ _) as [[ps rad] k']. cbn [bind].
  destruct (foldM _ _ f); reflexivity.
Qed.
Lemma pixels_at w h p l : forall f k,
  foldM (sample_body rng nextFloat ord hit fsize feval cam P Li w h p) l (f, at_pos s0 k) =
  lift (foldM (render_body nat n2 (rad_of w h p) fsize feval w h) l (f, k)).
Proof.
  induction l as [|pix l IH]; intros f k; [reflexivity|]. cbn [foldM]. rewrite body_at.
  destruct (render_body _ _ _ _ _ _ _ _ _) as [[f' k']| | |]; cbn [bind lift]; [apply IH| | |]; reflexivity.
Qed.
Lemma foldM_flat {A B St} (f : St -> B -> outcome St) (g : A -> list B) l : forall st,
  foldM f (flat_map g l) st = foldM (fun st a => foldM f (g a) st) l st.
Proof.
  assert (App : forall l1 l2 st, foldM f (l1 ++ l2) st = bind (foldM f l1 st) (foldM f l2)).
  { induction l1 as [|b l1 IH]; intros l2 st; [reflexivity|]. cbn [app foldM]. destruct (f st b); cbn [bind]; try reflexivity. apply IH. }
  induction l as [|a l IH]; intros st; [reflexivity|]. cbn [flat_map foldM]. rewrite App.
  destruct (foldM f (g a) st); cbn [bind]; try reflexivity. apply IH.
Qed.
Lemma rounds_at w h p n : forall f k,
  foldM (fun st (_ : nat) => foldM (sample_body rng nextFloat ord hit fsize feval cam P Li w h p) (pixels w h) st) (seq 0 n) (f, at_pos s0 k) =
  lift (foldM (render_body nat n2 (rad_of w h p) fsize feval w h) (rounds n w h) (f, k)).
Proof.
  intros f k. rewrite <- (foldM_flat _ (fun _ => pixels w h)). exact (pixels_at w h p _ f k).
Qed.
Lemma order_rounds spp w h : pixel_order spp w h = rounds (Z.to_nat spp) w h.
Proof.
  assert (Z0 : zrange 0 spp = map (fun n => (0 + Z.of_nat n)%Z) (seq 0 (Z.to_nat spp))) by (unfold zrange; now rewrite Z.sub_0_r).
  unfold pixel_order, rounds. rewrite Z0. clear Z0. generalize (flat_map (fun y => map (fun x => (x, y)) (zrange 0 w)) (zrange 0 h)).
  intros l. induction (seq 0 (Z.to_nat spp)) as [|a m IH]; [reflexivity|]. cbn [map flat_map]. now rewrite IH.
Qed.
Lemma draw_shots w h p l : forall k, draw nat n2 (rad_of w h p) l k = shots u swapped hit (cam w h) (Li p) l k.
Proof.
  induction l as [|[x y] l IH]; intros k; [reflexivity|]. cbn [draw shots]. unfold take_sample at 1.
  destruct (answer _ _ _ _ _) as [rad k'] eqn:E. f_equal. apply IH.
Qed.
Lemma driver_at fuel w h p img0 k cnt : s_cnt rng s0 = Some cnt -> (0 <= cnt < 2 ^ 31)%Z -> (Z.to_nat cnt <= fuel)%nat -> supported feval fsize ->
  exists im s', driver_render rng nextFloat ord hit fsize feval cam P Li fuel w h p img0 (at_pos s0 k) = Ok (im, s') /\
    (forall x y, in_film w h x y -> im x y = filtered feval (shots u swapped hit (cam w h) (Li p) (rounds (Z.to_nat cnt) w h) k) x y) /\
    (forall x y, ~ in_film w h x y -> im x y = img0 x y).
Proof.
  intros N C F Sup. unfold driver_render, getSampleCnt. rewrite at_pos_cnt, N. cbn [read bind].
  rewrite (u32_small cnt) by lia. rewrite (loop_small _ cnt (Z.to_nat cnt)) by lia. rewrite rounds_at.
  destruct (render_spec nat n2 (rad_of w h p) fsize feval cnt w h img0 k Sup) as (im&k'&E&V1&V2).
  unfold render in E. rewrite order_rounds in E. rewrite order_rounds, draw_shots in V1.
  destruct (foldM (render_body _ _ _ _ _ _ _) _ _) as [[f kk]| | |]; cbn [bind lift] in *; try discriminate.
  injection E as E1 E2. subst im. do 2 eexists. split; [reflexivity|]. split; assumption.
Qed.
Lemma driver_big fuel w h p img0 k cnt : s_cnt rng s0 = Some cnt -> (- 2 ^ 31 <= cnt < 0)%Z -> (Z.to_nat (2 ^ 31) <= fuel)%nat ->
  driver_render rng nextFloat ord hit fsize feval cam P Li fuel w h p img0 (at_pos s0 k) = UB.
Proof.
  intros N C F. unfold driver_render, getSampleCnt. rewrite at_pos_cnt, N. cbn [read bind].
  rewrite (loop_big_ub _ (u32 cnt) (fun st => exists f k, st = (f, at_pos s0 k))) with (m := Z.to_nat (2 ^ 31)).
  - reflexivity.
  - rewrite u32_idem, u32_neg by lia. lia.
  - intros st (f&j&->). rewrite pixels_at. destruct (pixels_ok w h p (pixels w h) f j) as (f'&k'&->). eexists. split; [reflexivity|eauto].
  - lia.
  - eauto.
  - rewrite Z2Nat.id; lia.
  - exact F.
Qed.
Lemma driver_big_never fuel w h p img0 s cnt r : s_cnt rng s = Some cnt -> (- 2 ^ 31 <= cnt < 0)%Z ->
  driver_render rng nextFloat ord hit fsize feval cam P Li fuel w h p img0 s <> Ok r.
Proof.
  intros N C. unfold driver_render, getSampleCnt. rewrite N. cbn [read bind].
  destruct (sample_loop _ _ _ _ _) as [st| | |] eqn:E; try discriminate.
  exfalso. revert E. apply loop_big; [rewrite u32_idem, u32_neg by lia; lia|lia].
Qed.
End R.
End S.
