(** C155-C161: samplers, the sample loop and rendering into an image. *)
From Coq Require Import Reals ZArith List String Bool Lia Lra Permutation.
From Flocq Require Import Core.Raux.
From Coquelicot Require Import Rbar.
From Verif.Base Require Import Outcome Loops RTac.
From Verif.Model Require Import Vec Matrix BBox Warp Camera Integrators Film Driver.
From Verif.Spec Require Import LinAlgSpec TilesSpec FilmSpec CameraSpec DriverSpec.
From Verif.Proof Require Import VecLemmas LinAlg CameraProof FilmProof DriverProof.
Import ListNotations.
Open Scope R_scope.

Section S.
Variable rng : Type.
Variable pcg_default : rng.
Variable pcg_seeded : Z -> Z -> rng.
Variable nextFloat : rng -> R * rng.
Notation numbers := (stream nextFloat).
Notation sampler := (sampler rng).

(** the sampler answers with the numbers of the generator g, in order, whatever their number *)
Definition yields (s : sampler) (g : rng) : Prop :=
  forall n, exists s', draw_many rng nextFloat n s = Ok (map (numbers g) (seq 0 n), s').
Lemma yields_gen s : s_class rng s = IndependentC -> yields s (s_gen rng s).
Proof.
  intros C n. exists (at_pos rng nextFloat s n). rewrite <- (at_pos_0 rng nextFloat s) at 1. rewrite draw_many_at by exact C.
  now rewrite Nat.add_0_r.
Qed.

(** what a user of a sampler may do between two calls of reseed() *)
Inductive use := Draw (n : nat) | Next.
Definition apply_use (ord : nat -> list nat) (o : use) (s : sampler) : outcome sampler :=
  match o with Draw n => bind (nextND rng nextFloat ord n s) (fun '(_, s') => Ok s') | Next => nextSample rng s end.

(** ** C155 *)
Theorem C155_reseed s z : s_class rng s = IndependentC ->
  exists s', reseed_with rng pcg_seeded z s = Ok s' /\ yields s' (pcg_seeded (u32 z) 1) /\ s_cnt rng s' = s_cnt rng s.
Proof.
  intros C. unfold reseed_with. rewrite C. eexists. split; [reflexivity|]. split; [|reflexivity].
  apply (yields_gen (set_gen rng (set_seed rng s (u32 z)) (pcg_seeded (u32 z) 1))). exact C.
Qed.
(** reseed() rewinds: whatever was drawn in between, the same numbers come again *)
Theorem C155_rewind ord uses : forall s s1 s2 z, s_class rng s = IndependentC ->
  reseed_with rng pcg_seeded z s = Ok s1 -> foldM (fun s o => apply_use ord o s) uses s1 = Ok s2 ->
  exists s3, reseed rng pcg_seeded s2 = Ok s3 /\ yields s3 (pcg_seeded (u32 z) 1).
Proof.
  assert (K : forall o s s', s_class rng s = IndependentC -> apply_use ord o s = Ok s' -> s_class rng s' = IndependentC /\ s_seed rng s' = s_seed rng s).
  { intros [n|] s s' C H; simpl in H.
    - unfold nextND in H. rewrite <- (at_pos_0 rng nextFloat s) in H. rewrite draw_many_at in H by exact C. cbn [bind] in H.
      injection H as <-. split; [exact C|reflexivity].
    - unfold nextSample in H. rewrite C in H. destruct (s_cur rng s); cbn [read bind] in H; [|discriminate]. injection H as <-. split; [exact C|reflexivity]. }
  assert (G : forall s s', s_class rng s = IndependentC -> foldM (fun s o => apply_use ord o s) uses s = Ok s' -> s_class rng s' = IndependentC /\ s_seed rng s' = s_seed rng s).
  { induction uses as [|o us IH]; intros s s' C H; simpl in H; [injection H as <-; auto|].
    destruct (apply_use ord o s) as [s1| | |] eqn:E; cbn [bind] in H; try discriminate. destruct (K _ _ _ C E) as [C1 E1].
    destruct (IH _ _ C1 H) as [C2 E2]. split; congruence. }
  intros s s1 s2 z C R H. unfold reseed_with in R. rewrite C in R. injection R as <-.
  pose proof (fun X => G _ _ X H) as G'. destruct (G' C) as [C2 E2]. unfold reseed. rewrite C2, E2. cbn [read bind s_seed set_gen set_seed]. eexists. split; [reflexivity|].
  apply (yields_gen (set_gen rng s2 (pcg_seeded (u32 z) 1))). exact C2.
Qed.
(** preProcess starts the numbers of the seed and the count of samples at 0; from there on nextSample only
    counts (mod 2^32), and every draw, before or after, takes the next numbers of the seed *)
Fixpoint nexts (l : list use) : nat := match l with [] => 0 | Next :: l' => S (nexts l') | Draw _ :: l' => nexts l' end.
Fixpoint drawn (l : list use) : nat := match l with [] => 0 | Next :: l' => drawn l' | Draw n :: l' => n + drawn l' end.
Lemma iter_sum {A} (f : A -> A) a b x : Nat.iter (a + b) f x = Nat.iter a f (Nat.iter b f x).
Proof. induction a as [|a IH]; [reflexivity|]. simpl. now rewrite IH. Qed.
Theorem C155_counter ord uses s z : s_class rng s = IndependentC -> s_seed rng s = Some z ->
  exists s1 s2, sampler_preProcess rng pcg_seeded s = Ok s1 /\ foldM (fun s o => apply_use ord o s) uses s1 = Ok s2 /\
    s_cur rng s2 = Some (Z.of_nat (nexts uses) mod 2 ^ 32)%Z /\
    forall n, exists s', draw_many rng nextFloat n s2 = Ok (map (numbers (pcg_seeded (u32 z) 1)) (seq (drawn uses) n), s').
Proof.
  intros C Z. assert (G : forall us t k, s_class rng t = IndependentC -> s_cur rng t = Some (u32 k) ->
    exists t2, foldM (fun s o => apply_use ord o s) us t = Ok t2 /\ s_class rng t2 = IndependentC /\ s_gen rng t2 = adv rng nextFloat (drawn us) (s_gen rng t) /\
      s_cur rng t2 = Some (u32 (k + Z.of_nat (nexts us)))).
  { induction us as [|[m|] us IH]; intros t k Ct Kt.
    - exists t. simpl. rewrite Z.add_0_r. auto.
    - cbn [foldM apply_use drawn nexts]. assert (D : nextND rng nextFloat ord m t = Ok (map (fun i => nth i (map (numbers (s_gen rng t)) (seq 0 m)) 0) (ord m), at_pos rng nextFloat t (m + 0))).
      { unfold nextND. rewrite <- (at_pos_0 rng nextFloat t). rewrite draw_many_at by exact Ct. reflexivity. }
      rewrite D. cbn [bind].
      destruct (IH (at_pos rng nextFloat t (m + 0)) k Ct Kt) as (t2 & E & C2 & G2 & K2).
      exists t2. split; [exact E|]. split; [exact C2|]. split; [|exact K2].
      rewrite G2. unfold at_pos, adv. cbn [s_gen set_gen]. rewrite Nat.add_0_r, Nat.add_comm. symmetry. apply iter_sum.
    - simpl. unfold nextSample. rewrite Ct, Kt. cbn [read bind].
      assert (U : s_cur rng (set_cur rng t (u32 (u32 k + 1))) = Some (u32 (k + 1))) by (simpl; unfold u32; now rewrite Zplus_mod_idemp_l).
      destruct (IH (set_cur rng t (u32 (u32 k + 1))) (k + 1)%Z Ct U) as (t2 & E & C2 & G2 & K2).
      exists t2. split; [exact E|]. split; [exact C2|]. split; [exact G2|]. rewrite K2. do 2 f_equal. lia. }
  unfold sampler_preProcess, reseed_with. rewrite C, Z. cbn [read bind]. cbn [s_class set_cur]. rewrite C.
  set (s1 := set_gen rng _ _). destruct (G uses s1 0%Z C eq_refl) as (s2 & E & C2 & G2 & K2).
  exists s1, s2. split; [reflexivity|]. split; [exact E|]. split; [exact K2|]. intros n. exists (at_pos rng nextFloat s2 n).
  rewrite <- (at_pos_0 rng nextFloat s2) at 1. rewrite draw_many_at by exact C2. rewrite Nat.add_0_r. do 2 f_equal. rewrite G2.
  replace (seq (drawn uses) n) with (map (fun i => i + drawn uses)%nat (seq 0 n)).
  - rewrite map_map. apply map_ext. intros i. unfold stream, adv. now rewrite iter_sum.
  - enough (Q : forall d o, map (fun i => i + d)%nat (seq o n) = seq (o + d) n) by (rewrite Q; reflexivity).
    clear. intros d. induction n as [|n IH]; intros o; [reflexivity|]. simpl. f_equal. now rewrite IH.
Qed.
(** a copy with a seed starts the numbers of that seed, wherever the original is, and keeps the sample count *)
Theorem C155_copy s z n : s_class rng s = IndependentC -> s_cnt rng s = Some n ->
  exists c, sampler_copy_with rng pcg_default pcg_seeded z s = Ok c /\ yields c (pcg_seeded (u32 z) 1) /\ s_cnt rng c = Some n.
Proof.
  intros C N. unfold sampler_copy_with. rewrite C, N. cbn [read bind]. unfold reseed_with. cbn [s_class sampler_new]. rewrite !u32_idem.
  eexists. split; [reflexivity|]. split; [|reflexivity].
  apply (yields_gen (set_gen rng (set_seed rng (sampler_new rng pcg_default IndependentC (u32 z) n) (u32 z)) (pcg_seeded (u32 z) 1))). reflexivity.
Qed.

(** ** C159: copy() *)
(** it restarts the numbers of the seed, but its sample count is not initialised: it cannot render *)
Theorem C159_plain_copy_refuted s z : s_class rng s = IndependentC -> s_seed rng s = Some z ->
  exists c, sampler_copy rng pcg_default pcg_seeded s = Ok c /\ yields c (pcg_seeded (u32 z) 1) /\ getSampleCnt rng c = UB.
Proof.
  intros C N. unfold sampler_copy. rewrite C, N. cbn [read bind]. unfold reseed_with. cbn [s_class sampler_default].
  eexists. split; [reflexivity|]. split; [|reflexivity].
  apply (yields_gen (set_gen rng (set_seed rng (sampler_default rng pcg_default IndependentC) (u32 z)) (pcg_seeded (u32 z) 1))). reflexivity.
Qed.

(** a sampler made without a seed has none to copy or to restart from, and copies and reseeded samplers
    cannot count samples before they are prepared *)
Theorem C159_unset c s z : sampler_copy rng pcg_default pcg_seeded (sampler_default rng pcg_default c) = UB /\
  reseed rng pcg_seeded (sampler_default rng pcg_default IndependentC) = UB /\
  sampler_preProcess rng pcg_seeded (sampler_default rng pcg_default IndependentC) = UB /\
  (s_class rng s = IndependentC -> s_cur rng s = None -> forall s', reseed_with rng pcg_seeded z s = Ok s' -> nextSample rng s' = UB) /\
  (s_class rng s = IndependentC -> forall s', sampler_copy rng pcg_default pcg_seeded s = Ok s' \/ sampler_copy_with rng pcg_default pcg_seeded z s = Ok s' -> nextSample rng s' = UB).
Proof.
  split; [destruct c; reflexivity|]. split; [reflexivity|]. split; [reflexivity|]. split.
  - intros C N s' E. unfold reseed_with in E. rewrite C in E. injection E as <-. unfold nextSample. cbn. rewrite C, N. reflexivity.
  - intros C s' [E|E].
    + unfold sampler_copy in E. rewrite C in E. destruct (s_seed rng s); [|discriminate]. injection E as <-. reflexivity.
    + unfold sampler_copy_with in E. rewrite C in E. destruct (s_cnt rng s); [|discriminate]. injection E as <-. reflexivity.
Qed.

(** ** C160: the other classes *)
Theorem C160_never_a_number s ord n hit {A} (q : query A) : s_class rng s <> IndependentC ->
  (forall r, next1D rng nextFloat s <> Ok r) /\ (forall r, nextND rng nextFloat ord (S n) s <> Ok r) /\ (forall r, nextSample rng s <> Ok r) /\
  (forall r z, reseed_with rng pcg_seeded z s <> Ok r) /\ (forall r, reseed rng pcg_seeded s <> Ok r) /\ (forall r, sampler_preProcess rng pcg_seeded s <> Ok r) /\
  (forall r z, sampler_copy_with rng pcg_default pcg_seeded z s <> Ok r) /\ (forall r, sampler_copy rng pcg_default pcg_seeded s <> Ok r) /\
  (forall a s', run_on rng nextFloat ord hit q s = Ok (a, s') -> s' = s).
Proof.
  intros C. unfold next1D, nextND, nextSample, reseed, sampler_preProcess, sampler_copy_with, sampler_copy, reseed_with.
  repeat match goal with |- _ /\ _ => split end; intros; unfold reseed; destruct (s_class rng s) eqn:E; try congruence; cbn [draw_many bind]; unfold next1D; rewrite ?E; cbn [bind];
    try discriminate; try (destruct (s_seed rng s); cbn; rewrite ?E; discriminate).
  all: clear -E H; induction q as [a0|r0 f IH|f IH|f IH]; cbn in H; [injection H; congruence|eapply IH; exact H| |]; unfold next1D, next2D, nextND in H; cbn in H; unfold next1D in H; rewrite E in H; discriminate.
Qed.
Theorem C160_api_makes_independent type seed cnt s : api_sampler rng pcg_default type seed cnt = Ok s ->
  type = "independent"%string /\ s_class rng s = IndependentC /\ s_cnt rng s = Some cnt.
Proof.
  unfold api_sampler. destruct (String.eqb_spec type "independent") as [->|]; [|destruct (String.eqb type "latin"); discriminate].
  intros H. injection H as <-. auto.
Qed.

Section R.
Variable ord : nat -> list nat.
Hypothesis compiler : Permutation (ord 2) (seq 0 2).
Variable hit : ray -> option isect.
Variable fsize : vec2.
Variable feval : vec2 -> R.
Hypothesis filter : supported feval fsize.
Variable cam : Z -> Z -> vec2 -> vec2 -> ray.
Variable P : Type.
Variable pre : query P.
Variable Li : P -> ray -> query vec3.
Notation swap := (swapped ord).
Notation render_scene := (renderScene rng nextFloat ord hit fsize feval cam P pre Li).

(** ** C156, C157: what is rendered *)
(** with any Independent sampler the image is the filtered average of [cnt] rounds of camera samples over the film, all read
    from the stream of its generator, after the numbers used by the integrator's preprocessing *)
Theorem C156_image_from_stream fuel film target cnt s w h img0 :
  s_class rng s = IndependentC -> s_cnt rng s = Some cnt -> (0 <= cnt < 2 ^ 31)%Z -> (Z.to_nat cnt <= fuel)%nat ->
  match target with Some t => t | None => (fst film, snd film, fun _ _ => V3 0 0 0) end = (w, h, img0) ->
  exists im, render_scene fuel film target s = Ok (w, h, im) /\
    (forall x y, in_film w h x y -> im x y =
       let '(p, k) := answer (numbers (s_gen rng s)) swap hit pre 0 in
       filtered feval (shots (numbers (s_gen rng s)) swap hit (cam w h) (Li p) (rounds (Z.to_nat cnt) w h) k) x y) /\
    (forall x y, ~ in_film w h x y -> im x y = img0 x y).
Proof.
  intros I N C F T. unfold renderScene. rewrite T. rewrite run_on_start by assumption. cbn [bind].
  destruct (answer (numbers (s_gen rng s)) swap hit pre 0) as [p k]. cbn [fst snd].
  destruct (driver_at rng nextFloat ord compiler hit fsize feval cam P Li s I fuel w h p img0 k cnt N C F filter) as (im&s'&E&V1&V2).
  rewrite E. cbn [bind]. exists im. split; [reflexivity|]. split; assumption.
Qed.
(** with the sampler of the API that is the stream of a default-constructed pcg32: the seed does not occur *)
Theorem C156_image fuel film target type seed cnt s w h img0 :
  api_sampler rng pcg_default type seed cnt = Ok s -> (0 <= cnt < 2 ^ 31)%Z -> (Z.to_nat cnt <= fuel)%nat ->
  match target with Some t => t | None => (fst film, snd film, fun _ _ => V3 0 0 0) end = (w, h, img0) ->
  exists im, render_scene fuel film target s = Ok (w, h, im) /\
    (forall x y, in_film w h x y -> im x y =
       let '(p, k) := answer (numbers pcg_default) swap hit pre 0 in
       filtered feval (shots (numbers pcg_default) swap hit (cam w h) (Li p) (rounds (Z.to_nat cnt) w h) k) x y) /\
    (forall x y, ~ in_film w h x y -> im x y = img0 x y).
Proof.
  intros A C F T. destruct (C160_api_makes_independent _ _ _ _ A) as (->&I&N).
  assert (G : s_gen rng s = pcg_default) by (injection A as <-; reflexivity). rewrite <- G.
  exact (C156_image_from_stream fuel film target cnt s w h img0 I N C F T).
Qed.
(** two seeds, one image *)
Theorem C156_seed_has_no_effect fuel film target type seed1 seed2 cnt s1 s2 w1 h1 im1 :
  api_sampler rng pcg_default type seed1 cnt = Ok s1 -> api_sampler rng pcg_default type seed2 cnt = Ok s2 ->
  (0 <= cnt < 2 ^ 31)%Z -> (Z.to_nat cnt <= fuel)%nat -> render_scene fuel film target s1 = Ok (w1, h1, im1) ->
  exists im2, render_scene fuel film target s2 = Ok (w1, h1, im2) /\ forall x y, im2 x y = im1 x y.
Proof.
  intros A1 A2 C F E. destruct (match target with Some t => t | None => (fst film, snd film, fun _ _ => V3 0 0 0) end) as [[w h] img0] eqn:T.
  destruct (C156_image _ _ _ _ _ _ _ _ _ _ A1 C F T) as (i1&E1&V1&O1).
  destruct (C156_image _ _ _ _ _ _ _ _ _ _ A2 C F T) as (i2&E2&V2&O2).
  rewrite E in E1. injection E1 as -> -> ->. exists i2. split; [exact E2|]. intros x y.
  destruct (in_filmb w h x y) eqn:B.
  - apply in_filmb_iff in B. now rewrite V1, V2.
  - assert (~ in_film w h x y) by (rewrite <- in_filmb_iff; congruence). now rewrite O1, O2.
Qed.
(** the threads' samplers do not depend on it either *)
Theorem C156_tiles n type seed1 seed2 cnt s1 s2 :
  api_sampler rng pcg_default type seed1 cnt = Ok s1 -> api_sampler rng pcg_default type seed2 cnt = Ok s2 ->
  tile_copies rng pcg_default pcg_seeded nextFloat n s1 = tile_copies rng pcg_default pcg_seeded nextFloat n s2.
Proof.
  intros A1 A2. destruct (C160_api_makes_independent _ _ _ _ A1) as (->&I1&N1). destruct (C160_api_makes_independent _ _ _ _ A2) as (_&I2&N2).
  injection A1 as A1. injection A2 as A2.
  assert (E : s_gen rng s1 = s_gen rng s2) by (subst; reflexivity). clear A1 A2.
  revert s1 s2 I1 I2 N1 N2 E. induction n as [|n IH]; intros s1 s2 I1 I2 N1 N2 E; [reflexivity|]. cbn [tile_copies].
  unfold next1D. rewrite I1, I2, E. destruct (nextFloat (s_gen rng s2)) as [v g]. cbn [bind].
  destruct (tile_seed v) as [z| | |]; cbn [bind]; try reflexivity.
  unfold sampler_copy_with. cbn [set_gen s_class s_cnt]. rewrite I1, I2, N1, N2. cbn [read bind].
  destruct (reseed_with rng pcg_seeded (u32 z) _); cbn [bind]; try reflexivity.
  rewrite (IH (set_gen rng s1 g) (set_gen rng s2 g)); try assumption; reflexivity.
Qed.

(** C157: a negative sample count does not give an empty image: the loop counts up to 2^31 and then overflows *)
Theorem C157_negative_count_refuted fuel film target type seed cnt s :
  api_sampler rng pcg_default type seed cnt = Ok s -> (- 2 ^ 31 <= cnt < 0)%Z ->
  (forall r, render_scene fuel film target s <> Ok r) /\ ((Z.to_nat (2 ^ 31) <= fuel)%nat -> render_scene fuel film target s = UB).
Proof.
  intros A C. destruct (C160_api_makes_independent _ _ _ _ A) as (->&I&N). unfold renderScene.
  destruct (match target with Some t => t | None => (fst film, snd film, fun _ _ => V3 0 0 0) end) as [[w h] img0].
  rewrite run_on_start by assumption. cbn [bind].
  destruct (answer _ _ _ pre _) as [p k]. cbn [fst snd]. split.
  - intros r. destruct (driver_render _ _ _ _ _ _ _ _ _ _ _ _ _ _ _) as [[im s']| | |] eqn:E; try discriminate.
    exfalso. revert E. eapply driver_big_never; [|exact C]. exact N.
  - intros F. rewrite (driver_big rng nextFloat ord compiler hit fsize feval cam P Li s I fuel w h p img0 k cnt N C F). reflexivity.
Qed.
(** a count of n >= 0 gives every pixel exactly n camera samples *)
Theorem C157_rounds_each_pixel n w h x y : in_film w h x y ->
  count_occ zz_dec (rounds n w h) (x, y) = n.
Proof.
  intros F. pose proof (count_pixel_order (Z.of_nat n) w h x y ltac:(lia) F) as H. rewrite order_rounds, Nat2Z.id in H. unfold count in H. lia.
Qed.
End R.
End S.

Print Assumptions C155_reseed.
Print Assumptions C155_rewind.
Print Assumptions C155_copy.
Print Assumptions C155_counter.
Print Assumptions C159_plain_copy_refuted.
Print Assumptions C159_unset.
Example C159_unset_case : let s := sampler_new nat 0%nat IndependentC 7 4 in s_class nat s = IndependentC /\ s_cur nat s = None /\
  (exists s', reseed_with nat (fun _ _ => 1%nat) 9 s = Ok s') /\ exists s', sampler_copy_with nat 0%nat (fun _ _ => 1%nat) 9 s = Ok s'.
Proof. cbn. repeat split; eexists; reflexivity. Qed.
Print Assumptions C160_never_a_number.
Print Assumptions C160_api_makes_independent.
Print Assumptions C156_image_from_stream.
Print Assumptions C156_image.
Print Assumptions C156_seed_has_no_effect.
Print Assumptions C156_tiles.
Print Assumptions C157_negative_count_refuted.
Print Assumptions C157_rounds_each_pixel.

(** ** C158: the order in which the compiler evaluates the arguments of a vector *)
(** the numbers of a vector, and everything drawn later, are the same for every compiler; only their order in the vector differs *)
Theorem C158_same_numbers rng nextFloat o1 o2 n (s : sampler rng) : Permutation (o1 n) (seq 0 n) -> Permutation (o2 n) (seq 0 n) ->
  s_class rng s = IndependentC -> exists l1 l2 s', nextND rng nextFloat o1 n s = Ok (l1, s') /\ nextND rng nextFloat o2 n s = Ok (l2, s') /\
    Permutation l1 (map (stream nextFloat (s_gen rng s)) (seq 0 n)) /\ Permutation l1 l2.
Proof.
  intros P1 P2 C. unfold nextND. rewrite <- (at_pos_0 rng nextFloat s). rewrite draw_many_at by exact C. cbn [bind]. rewrite at_pos_0.
  set (l := map (stream nextFloat (s_gen rng s)) (seq 0 n)).
  assert (E : l = map (fun i => nth i l 0) (seq 0 n)).
  { apply nth_ext with (d := 0) (d' := nth 0 l 0); [unfold l; now rewrite !map_length|]. intros i Hi.
    rewrite (map_nth (fun i => nth i l 0) (seq 0 n) 0%nat i). rewrite seq_nth; [reflexivity|]. unfold l in Hi. now rewrite map_length, seq_length in Hi. }
  do 3 eexists. split; [reflexivity|]. split; [reflexivity|]. split.
  - apply Permutation_trans with (map (fun i => nth i l 0) (seq 0 n)); [apply Permutation_map, P1|rewrite <- E; reflexivity].
  - apply Permutation_map. etransitivity; [exact P1|now symmetry].
Qed.
Print Assumptions C158_same_numbers.

(** ** concrete runs *)
(** a generator whose numbers are 1/2, 1/3, 1/4, ...; seed z starts further on *)
Definition ex_next (k : nat) : R * nat := (1 / (INR k + 2), S k).
Definition ex_seeded (z _ : Z) : nat := Z.to_nat z.
Definition ltr (n : nat) : list nat := seq 0 n.
Definition rtl (n : nat) : list nat := rev (seq 0 n).
Definition ex_li (_ : unit) (_ : ray) : query vec3 := QRand2 (fun v => QRet (V3 (x2 v) (y2 v) 0)).
Definition ex_cam (_ _ : Z) (_ _ : vec2) : ray := Ray (V3c 0) (V3 0 0 1) 0 p_infty.
Notation ex_render o := (renderScene nat ex_next o (fun _ => None) box_default_size (box_eval box_default_size) ex_cam unit (QRet tt) ex_li).

Lemma ex_stream g k : stream ex_next g k = 1 / (INR (k + g) + 2).
Proof.
  unfold stream. assert (E : Nat.iter k (fun g => snd (ex_next g)) g = (k + g)%nat) by (induction k as [|k IH]; [reflexivity|]; change (S (Nat.iter k (fun g => snd (ex_next g)) g) = S (k + g)); now rewrite IH).
  rewrite E. reflexivity.
Qed.
Lemma box_ok : supported (box_eval box_default_size) box_default_size.
Proof.
  intros v H. unfold box_eval in H. destruct (Rlt_dec (Rabs (x2 v)) (x2 box_default_size)); [|congruence].
  destruct (Rlt_dec (Rabs (y2 v)) (y2 box_default_size)); [|congruence]. lra.
Qed.
Lemma ex_pos k : 0 < 1 / (INR k + 2) <= 1 / 2.
Proof.
  pose proof (pos_INR k). split; [apply Rdiv_lt_0_compat; lra|]. unfold Rdiv. rewrite !Rmult_1_l. apply Rinv_le_contravar; lra.
Qed.
(** one pixel, one sample: it shows the plane sample drawn by the integrator *)
Lemma ex_pixel o s : (o 2%nat = ltr 2 \/ o 2%nat = rtl 2) -> s_class nat s = IndependentC -> s_cnt nat s = Some 1%Z ->
  exists im, ex_render o 1 (1, 1)%Z None s = Ok (1%Z, 1%Z, im) /\
   im 0%Z 0%Z = let g := s_gen nat s in if swapped o then V3 (1 / (INR (5 + g) + 2)) (1 / (INR (4 + g) + 2)) 0 else V3 (1 / (INR (4 + g) + 2)) (1 / (INR (5 + g) + 2)) 0.
Proof.
  intros O C N.
  assert (Pm : Permutation (o 2%nat) (seq 0 2)) by (destruct O as [-> | ->]; [reflexivity|apply Permutation_sym, (Permutation_rev [0; 1]%nat)]).
  destruct (C156_image_from_stream nat ex_next o Pm (fun _ => None) box_default_size (box_eval box_default_size) box_ok ex_cam unit (QRet tt) ex_li
    1 (1, 1)%Z None 1%Z s 1%Z 1%Z (fun _ _ => V3 0 0 0) C N ltac:(lia) ltac:(simpl; lia) eq_refl) as (im&E&V&_).
  exists im. split; [exact E|]. rewrite V by (unfold in_film; lia). clear V E. cbn [answer]. set (g := s_gen nat s).
  change (rounds (Z.to_nat 1) 1 1) with [(0%Z, 0%Z)]. cbn [shots]. unfold ex_li. cbn [answer].
  set (pl := plane (stream ex_next g) (swapped o)).
  assert (B : forall k, 0 < x2 (pl k) <= 1 / 2 /\ 0 < y2 (pl k) <= 1 / 2).
  { intros k. unfold pl, plane. destruct (swapped o); cbn [x2 y2]; rewrite !ex_stream; split; apply ex_pos. }
  unfold filtered, total_weight, weighted, RSum.rsum. cbn [map fold_right fst snd vx vy vz].
  assert (W : box_eval box_default_size (offset 0 0 (V2 (0 + x2 (pl 0%nat)) (0 + y2 (pl 0%nat)), V3 (x2 (pl 4%nat)) (y2 (pl 4%nat)) 0)) = 1).
  { destruct (B 0%nat) as [B1 B2]. unfold box_eval, offset. cbn [fst x2 y2 box_default_size]. rewrite !Rabs_pos_eq by lra.
    destruct (Rlt_dec _ _); [|lra]. destruct (Rlt_dec _ _); lra. }
  rewrite W. destruct (Req_EM_T (1 + 0) 0); [lra|].
  transitivity (V3 (x2 (pl 4%nat)) (y2 (pl 4%nat)) 0).
  { f_equal; field. }
  unfold pl, plane. cbv zeta. destruct (swapped o); cbn [x2 y2]; rewrite !ex_stream; reflexivity.
Qed.
Definition ex_sampler (seed : Z) : sampler nat := sampler_new nat 0%nat IndependentC seed 1.

(** seeding would change the picture; as the renderer never does it, both seeds give the same one *)
Theorem C156_seed_matters_refuted : exists s1 s2 p1 p2 i1 i2 j1 j2,
  api_sampler nat 0%nat "independent" 1 1 = Ok s1 /\ api_sampler nat 0%nat "independent" 2 1 = Ok s2 /\
  sampler_preProcess nat ex_seeded s1 = Ok p1 /\ sampler_preProcess nat ex_seeded s2 = Ok p2 /\
  ex_render ltr 1 (1, 1)%Z None p1 = Ok (1%Z, 1%Z, i1) /\ ex_render ltr 1 (1, 1)%Z None p2 = Ok (1%Z, 1%Z, i2) /\ i1 0%Z 0%Z <> i2 0%Z 0%Z /\
  ex_render ltr 1 (1, 1)%Z None s1 = Ok (1%Z, 1%Z, j1) /\ ex_render ltr 1 (1, 1)%Z None s2 = Ok (1%Z, 1%Z, j2) /\ j1 0%Z 0%Z = j2 0%Z 0%Z.
Proof.
  set (mk := fun z => set_gen nat (set_seed nat (set_cur nat (ex_sampler z) 0) z) (Z.to_nat z)).
  destruct (ex_pixel ltr (mk 1%Z) (or_introl eq_refl) eq_refl eq_refl) as (i1&E1&V1).
  destruct (ex_pixel ltr (mk 2%Z) (or_introl eq_refl) eq_refl eq_refl) as (i2&E2&V2).
  destruct (ex_pixel ltr (ex_sampler 1) (or_introl eq_refl) eq_refl eq_refl) as (j1&F1&U1).
  destruct (ex_pixel ltr (ex_sampler 2) (or_introl eq_refl) eq_refl eq_refl) as (j2&F2&U2).
  exists (ex_sampler 1), (ex_sampler 2), (mk 1%Z), (mk 2%Z), i1, i2, j1, j2.
  split; [reflexivity|]. split; [reflexivity|]. split; [reflexivity|]. split; [reflexivity|].
  split; [exact E1|]. split; [exact E2|]. split.
  - rewrite V1, V2. cbn. intros E. injection E. lra.
  - split; [exact F1|]. split; [exact F2|]. rewrite U1, U2. reflexivity.
Qed.
Print Assumptions C156_seed_matters_refuted.

(** the same program, scene and seed: two compilers, two pictures *)
Theorem C158_reproducible_refuted : exists o1 o2 s i1 i2, (forall n, Permutation (o1 n) (seq 0 n)) /\ (forall n, Permutation (o2 n) (seq 0 n)) /\
  api_sampler nat 0%nat "independent" 1 1 = Ok s /\ ex_render o1 1 (1, 1)%Z None s = Ok (1%Z, 1%Z, i1) /\ ex_render o2 1 (1, 1)%Z None s = Ok (1%Z, 1%Z, i2) /\
  i1 0%Z 0%Z <> i2 0%Z 0%Z.
Proof.
  destruct (ex_pixel ltr (ex_sampler 1) (or_introl eq_refl) eq_refl eq_refl) as (i1&E1&V1).
  destruct (ex_pixel rtl (ex_sampler 1) (or_intror eq_refl) eq_refl eq_refl) as (i2&E2&V2).
  exists ltr, rtl, (ex_sampler 1), i1, i2. split; [reflexivity|]. split; [intros n; apply Permutation_sym, Permutation_rev|].
  split; [reflexivity|]. split; [exact E1|]. split; [exact E2|]. rewrite V1, V2. cbn. intros E. injection E. lra.
Qed.
Print Assumptions C158_reproducible_refuted.
Example C155_case : exists s c, reseed_with nat ex_seeded 7 (ex_sampler 3) = Ok s /\ draw_many nat ex_next 2 s = Ok ([1 / (INR 7 + 2); 1 / (INR 8 + 2)], set_gen nat s 9%nat) /\
  sampler_copy_with nat 0%nat ex_seeded 7 (set_gen nat (ex_sampler 3) 100%nat) = Ok c /\ draw_many nat ex_next 1 c = Ok ([1 / (INR 7 + 2)], set_gen nat c 8%nat).
Proof. do 2 eexists. repeat (split; [reflexivity|]). reflexivity. Qed.
Example C155_counted : s_seed nat (ex_sampler 3) = Some 3%Z /\ nexts [Draw 2; Next; Draw 1; Next] = 2%nat /\ drawn [Draw 2; Next; Draw 1; Next] = 3%nat.
Proof. repeat split. Qed.
Example C156_case : api_sampler nat 0%nat "independent" 77 1 = Ok (ex_sampler 77) /\ supported (box_eval box_default_size) box_default_size /\
  exists c, tile_copies nat 0%nat ex_seeded ex_next 1 (ex_sampler 77) = Ok [c] /\ s_seed nat c = Some 50000000%Z.
Proof.
  split; [reflexivity|]. split; [exact box_ok|]. cbn [tile_copies]. unfold next1D, ex_sampler. cbn [s_class sampler_new s_gen ex_next bind]. unfold tile_seed.
  replace (1 / (INR 0 + 2) * 100000000) with (IZR 50000000) by (simpl; lra). rewrite Ztrunc_IZR. cbn [bind Z.leb Z.ltb Z.compare andb]. 
  eexists. split; reflexivity.
Qed.
Example C157_case : exists s, api_sampler nat 0%nat "independent" 1 (-1) = Ok s /\ getSampleCnt nat s = Ok 4294967295%Z.
Proof. eexists. split; reflexivity. Qed.
Example C158_case : exists s', nextND nat ex_next ltr 3 (ex_sampler 1) = Ok ([1 / (INR 0 + 2); 1 / (INR 1 + 2); 1 / (INR 2 + 2)], s') /\ nextND nat ex_next rtl 3 (ex_sampler 1) = Ok ([1 / (INR 2 + 2); 1 / (INR 1 + 2); 1 / (INR 0 + 2)], s').
Proof. eexists. split; reflexivity. Qed.
Example C159_case : exists s c, sampler_preProcess nat ex_seeded (ex_sampler 3) = Ok s /\ getSampleCnt nat s = Ok 1%Z /\ sampler_copy nat 0%nat ex_seeded s = Ok c /\ getSampleCnt nat c = UB.
Proof. do 2 eexists. repeat split; reflexivity. Qed.
Example C160_case : s_class nat (sampler_new nat 0%nat HaltonC 1 1) <> IndependentC /\ api_sampler nat 0%nat "latin" 1 1 = Throw "latin sampler still unsupported".
Proof. split; [discriminate|reflexivity]. Qed.

(** ** C161: rendering into an image of another shape *)
(** the picture is the one of the camera's own film, resampled to the size of the image *)
Theorem C161_resampled c w h film app : cam_ok c -> 0 < w -> 0 < h ->
  resized_ray c w h film app = sampleRay c (V2 (x2 film * (filmW c / w)) (y2 film * (filmH c / h))) app.
Proof.
  intros (_&_&W&H) w0 h0. unfold resized_ray, sampleRay, lens_dir.
  assert (E : resized_dir c w h film = cam_dir c (V2 (x2 film * (filmW c / w)) (y2 film * (filmH c / h)))).
  { unfold resized_dir, cam_dir. cbn [x2 y2]. do 3 f_equal; field; lra. }
  rewrite E. reflexivity.
Qed.
Print Assumptions C161_resampled.
(** so it is the picture of a camera with the film of the image exactly if both have the same aspect *)
Lemma sq0 x y z : x * x + y * y + z * z = 0 -> x = 0 /\ y = 0 /\ z = 0.
Proof. intros H. repeat split; apply Rsqr_0_uniq; pose proof (Rle_0_sqr x); pose proof (Rle_0_sqr y); pose proof (Rle_0_sqr z); unfold Rsqr in *; lra. Qed.
Lemma corner c w h : cam_ok c -> 0 < w -> 0 < h -> 0 < focalDist c -> aperture c = 0 -> rigid (camToWorld c) ->
  dir (resized_ray c w h (V2 0 0) (V2 0 0)) = dir (sampleRay (set_film c w h) (V2 0 0) (V2 0 0)) -> w / h = filmW c / filmH c.
Proof.
  intros K w0 h0 F A Rg. assert (K' : cam_ok (set_film c w h)) by (destruct K as (?&?&?&?); unfold cam_ok; cbn; auto).
  assert (D : forall film app, dir (resized_ray c w h film app) = tf_vector (camToWorld c) (normalized (film_point c (V2 (x2 film * (filmW c / w)) (y2 film * (filmH c / h)))))).
  { intros. rewrite C161_resampled by assumption. cbn [dir sampleRay]. rewrite pinhole_dir, cam_dir_eq by assumption. reflexivity. }
  assert (D' : forall film app, dir (sampleRay (set_film c w h) film app) = tf_vector (camToWorld c) (normalized (film_point (set_film c w h) film))).
  { intros. cbn [dir sampleRay]. rewrite pinhole_dir, cam_dir_eq by (try exact K'; try exact F; exact A). reflexivity. }
  pose proof (half_fov_tan c K) as T. destruct K as (_&_&W&H).
  intros E. rewrite D, D' in E.
    assert (N : normalized (film_point c (V2 (0 * (filmW c / w)) (0 * (filmH c / h)))) = normalized (film_point (set_film c w h) (V2 0 0))).
    { destruct Rg as [_ Rg]. cbn [x2 y2] in E. set (a := normalized _) in *. set (b := normalized (film_point (set_film c w h) _)) in *.
      assert (Z : dot (vsub a b) (vsub a b) = 0).
      { rewrite <- Rg. assert (L : tf_vector (camToWorld c) (vsub a b) = vsub (tf_vector (camToWorld c) a) (tf_vector (camToWorld c) b)).
        { unfold tf_vector, m3_vec, vsub; simpl. apply V3_eq; simpl; ring. }
        rewrite L, E. unfold dot, vsub; simpl; ring. }
      clearbody a b. clear - Z. destruct a as [a1 a2 a3], b as [b1 b2 b3]. unfold dot, vsub in Z. cbn [vx vy vz] in Z.
      apply sq0 in Z. destruct Z as (Z1&Z2&Z3). f_equal; lra. }
    assert (Q : forall cc f, vdiv (normalized (film_point cc f)) (vz (normalized (film_point cc f))) = film_point cc f).
    { intros cc f. pose proof (norm_pos _ (film_point_nonzero cc f)) as Np. unfold normalized, vdiv. set (n := norm _) in *. clearbody n.
      assert (Z1 : vz (film_point cc f) = 1) by reflexivity. destruct (film_point cc f) as [x y z]; simpl in *. subst z. apply V3_eq; simpl; field; lra. }
    assert (N2 : film_point c (V2 (0 * (filmW c / w)) (0 * (filmH c / h))) = film_point (set_film c w h) (V2 0 0)) by (rewrite <- (Q c), N, (Q (set_film c w h)); reflexivity).
    apply (f_equal vy) in N2. unfold film_point in N2. cbn [vy x2 y2 filmW filmH set_film fov] in N2. set (tn := tan _) in *. clearbody tn.
    assert (E1 : filmH c / filmW c = h / w).
    { apply Rmult_eq_reg_l with tn; [|lra]. replace ((1 - 2 * (0 * (filmH c / h) / filmH c))) with 1 in N2 by (field; lra).
      replace (1 - 2 * (0 / h)) with 1 in N2 by (field; lra). lra. }
    replace (w / h) with (/ (h / w)) by (field; lra). rewrite <- E1. field; lra.
Qed.
Theorem C161_right_iff c w h : cam_ok c -> 0 < w -> 0 < h -> 0 < focalDist c -> aperture c = 0 -> rigid (camToWorld c) ->
  (forall film app, dir (resized_ray c w h film app) = dir (sampleRay (set_film c w h) film app)) <-> w / h = filmW c / filmH c.
Proof.
  intros K w0 h0 F A Rg. pose proof K as K0. assert (K' : cam_ok (set_film c w h)) by (destruct K as (?&?&?&?); unfold cam_ok; cbn; auto).
  assert (D : forall film app, dir (resized_ray c w h film app) = tf_vector (camToWorld c) (normalized (film_point c (V2 (x2 film * (filmW c / w)) (y2 film * (filmH c / h)))))).
  { intros. rewrite C161_resampled by assumption. cbn [dir sampleRay]. rewrite pinhole_dir, cam_dir_eq by assumption. reflexivity. }
  assert (D' : forall film app, dir (sampleRay (set_film c w h) film app) = tf_vector (camToWorld c) (normalized (film_point (set_film c w h) film))).
  { intros. cbn [dir sampleRay]. rewrite pinhole_dir, cam_dir_eq by (try exact K'; try exact F; exact A). reflexivity. }
  pose proof (half_fov_tan c K) as T. destruct K as (_&_&W&H).
  split.
  - intros E. apply corner; try assumption. apply E.
  - intros E film app. rewrite D, D'. f_equal. f_equal. unfold film_point. cbn [x2 y2 filmW filmH set_film fov].
    assert (E1 : filmH c / filmW c = h / w) by (replace (filmH c / filmW c) with (/ (filmW c / filmH c)) by (field; lra); rewrite <- E; field; lra).
    rewrite E1. apply V3_eq; cbn [vx vy vz]; try reflexivity; set (tn := tan _); clearbody tn; field; lra.
Qed.
Print Assumptions C161_right_iff.
Example C161_case : let c := Persp 0 1 90 1 10 4 2 (tf_of (m4_translate (V3 1 2 3))) in
  cam_ok c /\ rigid (camToWorld c) /\ 400 / 200 = filmW c / filmH c /\ 300 / 300 <> filmW c / filmH c.
Proof.
  cbv zeta. split; [unfold cam_ok; simpl; lra|]. split; [|simpl; lra]. split; [repeat split|]. intros v w.
  unfold tf_vector, m3_vec, topLeft, dot; simpl. ring.
Qed.
Theorem C161_target_refuted : exists c w h film app, cam_ok c /\ 0 < w /\ 0 < h /\ dir (resized_ray c w h film app) <> dir (sampleRay (set_film c w h) film app).
Proof.
  destruct C161_case as (K&Rg&_&N). do 5 eexists. split; [exact K|]. split; [|split; [|intros E; apply N; apply (corner _ 300 300); try assumption; try exact E; try (cbn; lra); reflexivity]]; lra.
Qed.
Print Assumptions C161_target_refuted.
