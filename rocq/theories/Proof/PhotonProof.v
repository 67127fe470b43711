(** Photon scattering and photon queries. *)
From Coq Require Import Reals List Lra Lia Permutation Sorted ZArith.
From Coquelicot Require Import Rbar.
From Flocq Require Import Core.
From Verif.Base Require Import Outcome ListLemmas.
From Verif.Model Require Import Vec Frame BBox Warp Integrators Photon.
From Verif.Spec Require Import PhotonSpec.
From Verif.Proof Require Import VecLemmas.
Import ListNotations.
Open Scope R_scope.

(** ** k nearest *)
Lemma bubble_spec l : forall x l' z, StronglySorted nearer l -> bubble l x = (l', z) ->
  List.length l' = List.length l /\ Permutation (x :: l) (z :: l') /\ StronglySorted nearer l' /\ (forall y, In y l' -> nearer y z) /\
  (forall m, nearer m x -> (forall y, In y l -> nearer m y) -> forall y, In y l' -> nearer m y).
Proof.
  induction l as [|y l IH]; intros x l' z S E; cbn [bubble] in E.
  - injection E as <- <-. split; [reflexivity|]. split; [reflexivity|]. split; [constructor|]. split; intros; contradiction.
  - inversion S as [|? ? S' F]; subst. rewrite Forall_forall in F. destruct (Rlt_dec (fst x) (fst y)) as [L|L].
    + destruct (bubble l y) as [l'' z'] eqn:B. injection E as <- <-. destruct (IH y l'' z' S' B) as (A1&A2&A3&A4&A5).
      split; [cbn; congruence|]. split; [etransitivity; [apply perm_skip, A2|apply perm_swap]|].
      assert (M : forall v, In v l'' -> nearer x v). { apply A5; [unfold nearer; lra|]. intros v V. specialize (F v V). unfold nearer in *. lra. }
      split; [constructor; [exact A3|apply Forall_forall, M]|]. split.
      * intros v [<-|V]; [|exact (A4 v V)]. assert (In z' (y :: l)) as [<-|Z] by (eapply Permutation_in; [symmetry; exact A2|left; reflexivity]); [unfold nearer; lra|].
        specialize (F z' Z). unfold nearer in *. lra.
      * intros m MX ML v [<-|V]; [exact MX|]. apply A5; [apply ML; left; reflexivity|intros u U; apply ML; right; exact U|exact V].
    + destruct (bubble l x) as [l'' z'] eqn:B. injection E as <- <-. destruct (IH x l'' z' S' B) as (A1&A2&A3&A4&A5).
      split; [cbn; congruence|]. split; [etransitivity; [apply perm_swap|]; etransitivity; [apply perm_skip, A2|apply perm_swap]|].
      assert (M : forall v, In v l'' -> nearer y v). { apply A5; [unfold nearer; lra|exact F]. }
      split; [constructor; [exact A3|apply Forall_forall, M]|]. split.
      * intros v [<-|V]; [|exact (A4 v V)]. assert (In z' (x :: l)) as [<-|Z] by (eapply Permutation_in; [symmetry; exact A2|left; reflexivity]); [unfold nearer; lra|exact (F z' Z)].
      * intros m MX ML v [<-|V]; [apply ML; left; reflexivity|]. apply A5; [exact MX|intros u U; apply ML; right; exact U|exact V].
Qed.
Lemma sorted_snoc l z : StronglySorted nearer l -> (forall y, In y l -> nearer y z) -> StronglySorted nearer (l ++ [z]).
Proof.
  induction l as [|y l IH]; intros S B; cbn; [repeat constructor|]. inversion S as [|? ? S' F]; subst. constructor.
  - apply IH; [exact S'|]. intros v V. apply B. right. exact V.
  - apply Forall_app. split; [exact F|]. constructor; [apply B; left; reflexivity|constructor].
Qed.
Lemma maybe_add_nearest k all c x : (0 < k)%nat -> k_nearest k all c -> k_nearest k (all ++ [x]) (maybe_add k c x).
Proof.
  intros K (L&S&rest&P&B). unfold maybe_add. destruct c as [|y c].
  - assert (all = []) as ->. { cbn in L. destruct all; [reflexivity|]. cbn in L. lia. }
    split; [cbn; lia|]. split; [repeat constructor|]. exists []. split; [reflexivity|]. intros ? ? _ [].
  - remember (y :: c) as d eqn:D. destruct (bubble d x) as [l z] eqn:E. destruct (bubble_spec d x l z S E) as (A1&A2&A3&A4&_).
    pose proof (Permutation_length P) as PL. rewrite app_length in PL.
    assert (PX : Permutation (all ++ [x]) (l ++ z :: rest)).
    { etransitivity; [apply Permutation_app_comm|]. cbn [app]. etransitivity; [apply perm_skip, P|]. change (x :: d ++ rest) with ((x :: d) ++ rest).
      etransitivity; [apply Permutation_app_tail, A2|]. cbn [app]. apply Permutation_middle. }
    destruct (Nat.ltb_spec (List.length l) k) as [Q|Q].
    + assert (rest = []) as ->. { destruct rest; [reflexivity|]. cbn in PL. lia. }
      split; [rewrite !app_length; cbn; lia|]. split; [apply sorted_snoc; assumption|]. exists []. rewrite app_nil_r. split; [exact PX|]. intros ? ? _ [].
    + split; [rewrite app_length; cbn [List.length]; lia|]. split; [exact A3|]. exists (z :: rest). split; [exact PX|].
      intros a b IA [<-|IB]; [exact (A4 a IA)|]. assert (In z (x :: d)) as [Z|Z] by (eapply Permutation_in; [symmetry; exact A2|left; reflexivity]).
      * subst z. apply Permutation_cons_inv in A2. apply B; [|exact IB]. eapply Permutation_in; [symmetry; exact A2|exact IA].
      * pose proof (A4 a IA). pose proof (B z b Z IB). unfold nearer in *. lra.
Qed.
Lemma fold_nearest k l : (0 < k)%nat -> forall done c, k_nearest k done c -> k_nearest k (done ++ l) (fold_left (maybe_add k) l c).
Proof.
  intros K. induction l as [|x l IH]; intros done c H; cbn [fold_left]; [rewrite app_nil_r; exact H|].
  replace (done ++ x :: l) with ((done ++ [x]) ++ l) by (rewrite <- app_assoc; reflexivity). apply IH, maybe_add_nearest; assumption.
Qed.
Lemma closest_nearest k l pt : (0 < k)%nat -> k_nearest k (with_dist l pt) (closest_k k l pt).
Proof.
  intros K. apply (fold_nearest k (with_dist l pt) K [] []). split; [cbn; lia|]. split; [constructor|]. exists []. split; [reflexivity|]. intros ? ? [].
Qed.
Lemma with_dist_length l pt : List.length (with_dist l pt) = List.length l.
Proof. unfold with_dist. rewrite map_length, seq_length. reflexivity. Qed.
Lemma with_dist_in l pt x : In x (with_dist l pt) -> exists p, nth_error l (snd x) = Some p /\ fst x = sqrNorm (vsub pt (g_pos p)).
Proof.
  unfold with_dist. intros H. apply in_map_iff in H. destruct H as (i&<-&I). apply in_seq in I. cbn [fst snd].
  destruct (nth_error l i) as [p|] eqn:E; [|apply nth_error_None in E; lia]. exists p. split; [reflexivity|]. rewrite (nth_error_nth _ _ _ E). reflexivity.
Qed.

(** ** folds of vectors *)
Lemma vadd_assoc a b c : vadd (vadd a b) c = vadd a (vadd b c).
Proof. apply V3_eq; cbn; ring. Qed.
Lemma vadd_0_r a : vadd a (V3 0 0 0) = a.
Proof. destruct a. apply V3_eq; cbn; ring. Qed.
Lemma vsum_scale {A} (g : A -> vec3) (c : R) l : vsum (map (fun x => vscale (g x) c) l) = vscale (vsum (map g l)) c.
Proof. induction l as [|a l IH]; cbn [map vsum fold_right]; [apply V3_eq; cbn; ring|]. unfold vsum in IH. rewrite IH. apply V3_eq; cbn; ring. Qed.
(** photons within reach *)
Definition close_to (pt : vec3) (radius : R) (p : gphoton) : bool := if Rlt_dec (sqrNorm (vsub pt (g_pos p))) radius then true else false.
Lemma eval_radius_sum mat f l pt radius : forall nee, eval_radius mat f l pt radius nee =
  vadd nee (vscale (vsum (map (fun p => vmul (mat (toLocal f (g_dir p))) (g_power p)) (filter (close_to pt radius) l))) (1 / (PI * radius))).
Proof.
  unfold eval_radius. cbv zeta. set (k := 1 / (PI * radius)). induction l as [|p l IH]; intros nee; cbn [fold_left filter].
  - destruct nee. apply V3_eq; cbn; ring.
  - rewrite IH. unfold close_to at 2. destruct (Rlt_dec (sqrNorm (vsub pt (g_pos p))) radius); [|reflexivity]. cbn [map vsum fold_right]. fold (vsum (map (fun p => vmul (mat (toLocal f (g_dir p))) (g_power p)) (filter (close_to pt radius) l))).
    apply V3_eq; cbn; ring.
Qed.
Lemma close_iff pt rad p : 0 < rad -> (close_to pt rad p = true <-> away pt (g_pos p) < sqrt rad).
Proof.
  intros P. unfold close_to, away, norm. fold (sqrNorm (vsub pt (g_pos p))). destruct (Rlt_dec (sqrNorm (vsub pt (g_pos p))) rad) as [L|L].
  - split; [intros _|reflexivity]. apply sqrt_lt_1; [apply sqrNorm_nonneg|lra|exact L].
  - split; [discriminate|]. intros H. exfalso. apply L. apply sqrt_lt_0_alt. exact H.
Qed.

(** ** evaluation of the k nearest *)
Definition photon_at (l : list gphoton) (i : nat) : gphoton := nth i l (GPhoton (V3 0 0 0) (V3 0 0 0) (V3 0 0 0)).
Lemma eval_loop mat f l c (last : R * nat) inv : (forall x, In x c -> (snd x < List.length l)%nat /\ nearer x last) ->
  forall n s nee, (s + n <= List.length c)%nat ->
  foldM (fun nee i => bind (at_ c i) (fun ci => if Rgt_dec (fst ci) (fst last) then UB else bind (at_ l (snd ci)) (fun p =>
      Ok (vadd nee (vmul (mat (toLocal f (g_dir p))) (vscale (g_power p) inv)))))) (seq s n) nee
  = Ok (vadd nee (vscale (vsum (map (fun x => vmul (mat (toLocal f (g_dir (photon_at l (snd x))))) (g_power (photon_at l (snd x)))) (firstn n (skipn s c)))) inv)).
Proof.
  intros H. induction n as [|n IH]; intros s nee L; cbn [seq foldM].
  - cbn. f_equal. destruct nee. apply V3_eq; cbn; ring.
  - destruct (nth_error c s) as [x|] eqn:E; [|apply nth_error_None in E; lia]. unfold at_ at 1. rewrite E. cbn [bind].
    destruct (H x (nth_error_In _ _ E)) as (B&N). destruct (Rgt_dec (fst x) (fst last)) as [G|_]; [unfold nearer in N; lra|].
    unfold at_ at 1. destruct (nth_error l (snd x)) as [p|] eqn:EP; [|apply nth_error_None in EP; lia]. cbn [bind]. rewrite IH by lia. f_equal.
    assert (SK : skipn s c = x :: skipn (S s) c). { clear - E. revert s E. induction c as [|a c IHc]; intros [|s] E; cbn in E; try discriminate; [injection E as ->; reflexivity|]. cbn [skipn]. rewrite (IHc s E). destruct c; reflexivity. }
    rewrite SK. cbn [firstn map vsum fold_right]. unfold photon_at at 3 4. rewrite (nth_error_nth _ _ _ EP).
    match goal with |- context [fold_right vadd (V3 0 0 0) ?t] => change (fold_right vadd (V3 0 0 0) t) with (vsum t) end.
    apply V3_eq; cbn; ring.
Qed.

(** ** the array of photons *)
Lemma store_ok {A} (l : list A) i v : (i < List.length l)%nat -> exists l', store l i v = Ok l' /\ List.length l' = List.length l /\
  firstn i l' = firstn i l /\ nth_error l' i = Some v.
Proof.
  intros H. unfold store. destruct (Nat.ltb_spec i (List.length l)); [|lia]. exists (update l i v). split; [reflexivity|].
  clear - H. revert i H. induction l as [|a l IH]; intros [|i] H; cbn in *; try lia; [auto|].
  destruct (IH i ltac:(lia)) as (A1&A2&A3). repeat split; try congruence.
Qed.
Lemma store_ub {A} (l : list A) i v : (List.length l <= i)%nat -> store l i v = UB.
Proof. intros H. unfold store. destruct (Nat.ltb_spec i (List.length l)); [lia|reflexivity]. Qed.

Section Scatter.
Variable W : Type.
Variable rnd1 : W -> R * W.
Variable rnd2 : W -> vec2 * W.
Variable hit : ray -> option phit.
Variable bsdf : phit -> vec3 -> W -> (vec3 * vec3 * R) * W.
Notation path := (photon_path W rnd1 hit bsdf).
(** a photon of a surface that is not specular, with the direction it came from *)
Definition landed (p : photon) : Prop := exists r h, hit r = Some h /\ ph_spec h = Some false /\ ph_pos p = ph_p h /\ ph_dir p = vneg (dir r).
Lemma firstn_snoc_nth {A} (l : list A) k v : nth_error l k = Some v -> firstn (S k) l = firstn k l ++ [v].
Proof. revert k. induction l as [|a l IH]; intros [|k] H; cbn in H; try discriminate; [injection H as ->; reflexivity|]. cbn [firstn app]. f_equal. apply IH, H. Qed.
Lemma path_ok n : forall buf k r p w, (k + n <= List.length buf)%nat -> Forall landed (firstn k buf) ->
  match path n buf k r p w with
  | Ok (buf', k', w') => List.length buf' = List.length buf /\ (k <= k' <= k + n)%nat /\ firstn k buf' = firstn k buf /\ Forall landed (firstn k' buf')
  | Throw _ => True
  | UB | OutOfFuel => False
  end.
Proof.
  induction n as [|n IH]; intros buf k r p w L F; cbn [photon_path]; [repeat split; try lia; exact F|].
  destruct (hit r) as [h|] eqn:H; [|repeat split; try lia; exact F]. destruct (ph_spec h) as [spec|] eqn:S; [|exact I].
  assert (ST : exists b k1, (if spec then Ok (buf, k) else bind (store buf k (Photon (ph_p h) (vneg (dir r)) p)) (fun b => Ok (b, Datatypes.S k))) = Ok (b, k1) /\
    List.length b = List.length buf /\ (k <= k1 <= Datatypes.S k)%nat /\ firstn k b = firstn k buf /\ Forall landed (firstn k1 b)).
  { destruct spec; [exists buf, k; repeat split; try lia; exact F|]. destruct (store_ok buf k (Photon (ph_p h) (vneg (dir r)) p) ltac:(lia)) as (b&E&LB&FB&NB).
    exists b, (Datatypes.S k). rewrite E. split; [reflexivity|]. split; [exact LB|]. split; [lia|]. split; [exact FB|].
    rewrite (firstn_snoc_nth _ _ _ NB), FB. apply Forall_app. split; [exact F|]. constructor; [|constructor]. exists r, h. auto. }
  destruct ST as (b&k1&->&LB&KB&FB&PB). cbn [bind]. destruct (bsdf h _ w) as [[[wo albedo] pdf] w1].
  assert (DONE : List.length b = List.length buf /\ (k <= k1 <= k + Datatypes.S n)%nat /\ firstn k b = firstn k buf /\ Forall landed (firstn k1 b)) by (repeat split; try lia; assumption).
  assert (NEXT : forall r p w, match path n b k1 r p w with
    | Ok (buf', k', w') => List.length buf' = List.length buf /\ (k <= k' <= k + Datatypes.S n)%nat /\ firstn k buf' = firstn k buf /\ Forall landed (firstn k' buf')
    | Throw _ => True | UB | OutOfFuel => False end).
  { intros r' p' w'. specialize (IH b k1 r' p' w' ltac:(lia) PB). destruct (path n b k1 r' p' w') as [[[b2 k2] w2]| | |]; try exact IH.
    destruct IH as (A&B&C&D). split; [congruence|]. split; [lia|]. split; [|exact D]. rewrite <- FB. apply (f_equal (firstn k)) in C. rewrite !firstn_firstn in C.
    replace (Nat.min k k1) with k in C by lia. exact C. }
  destruct (Req_EM_T pdf 0); [exact DONE|]. destruct (rnd1 w1) as [u w2]. destruct p as [old|]; [|apply NEXT].
  destruct (next_power _ old u) as [p'|]; [apply NEXT|exact DONE].
Qed.
(** the same path in two arrays: the shorter one overflows exactly when more photons arrive than fit *)
Lemma path_two n : forall big buf k r p w b' k' w', (k <= List.length buf)%nat -> path n big k r p w = Ok (b', k', w') ->
  (k <= k')%nat /\ ((k' <= List.length buf)%nat -> exists b, path n buf k r p w = Ok (b, k', w') /\ List.length b = List.length buf) /\
  ((List.length buf < k')%nat -> path n buf k r p w = UB).
Proof.
  induction n as [|n IH]; intros big buf k r p w b' k' w' K E; cbn [photon_path] in *.
  - injection E as <- <- <-. split; [lia|]. split; [intros _; exists buf; auto|intros; lia].
  - destruct (hit r) as [h|]; [|injection E as <- <- <-; split; [lia|]; split; [intros _; exists buf; auto|intros; lia]].
    destruct (ph_spec h) as [spec|]; [|discriminate]. set (v := Photon (ph_p h) (vneg (dir r)) p) in *.
    assert (CONT : forall bg bf k1, (k <= k1)%nat -> (k1 <= List.length bf)%nat -> List.length bf = List.length buf ->
      (let '(wo, albedo, pdf, w) := bsdf h (toLocal (ph_frame h) (vneg (dir r))) w in
       if Req_EM_T pdf 0 then Ok (bg, k1, w)
       else let r' := Ray (ph_p h) (toWorld (ph_frame h) wo) (Finite Epsilon) p_infty in
         let f := vdiv (vscale albedo (photon_cos h (dir r') spec)) pdf in
         let (u, w) := rnd1 w in
         match p with
         | None => path n bg k1 r' None w
         | Some old => match next_power (vmul old f) old u with None => Ok (bg, k1, w) | Some p => path n bg k1 r' p w end
         end) = Ok (b', k', w') ->
      (k <= k')%nat /\ ((k' <= List.length buf)%nat -> exists b,
      (let '(wo, albedo, pdf, w) := bsdf h (toLocal (ph_frame h) (vneg (dir r))) w in
       if Req_EM_T pdf 0 then Ok (bf, k1, w)
       else let r' := Ray (ph_p h) (toWorld (ph_frame h) wo) (Finite Epsilon) p_infty in
         let f := vdiv (vscale albedo (photon_cos h (dir r') spec)) pdf in
         let (u, w) := rnd1 w in
         match p with
         | None => path n bf k1 r' None w
         | Some old => match next_power (vmul old f) old u with None => Ok (bf, k1, w) | Some p => path n bf k1 r' p w end
         end) = Ok (b, k', w') /\ List.length b = List.length buf) /\
      ((List.length buf < k')%nat -> (let '(wo, albedo, pdf, w) := bsdf h (toLocal (ph_frame h) (vneg (dir r))) w in
       if Req_EM_T pdf 0 then Ok (bf, k1, w)
       else let r' := Ray (ph_p h) (toWorld (ph_frame h) wo) (Finite Epsilon) p_infty in
         let f := vdiv (vscale albedo (photon_cos h (dir r') spec)) pdf in
         let (u, w) := rnd1 w in
         match p with
         | None => path n bf k1 r' None w
         | Some old => match next_power (vmul old f) old u with None => Ok (bf, k1, w) | Some p => path n bf k1 r' p w end
         end) = UB)).
    { intros bg bf k1 K1 K2 LB. destruct (bsdf h (toLocal (ph_frame h) (vneg (dir r))) w) as [[[wo albedo] pdf] w1].
      assert (STOP : Ok (bg, k1, w1) = Ok (b', k', w') -> (k <= k')%nat /\ ((k' <= List.length buf)%nat -> exists b, Ok (bf, k1, w1) = Ok (b, k', w') /\ List.length b = List.length buf) /\ ((List.length buf < k')%nat -> @Ok (list photon * nat * W) (bf, k1, w1) = UB)).
      { intros Q. injection Q as <- <- <-. split; [lia|]. split; [intros _; exists bf; auto|intros; lia]. }
      destruct (Req_EM_T pdf 0); [exact STOP|]. cbv zeta. destruct (rnd1 w1) as [u w2].
      assert (GO : forall r' p', path n bg k1 r' p' w2 = Ok (b', k', w') -> (k <= k')%nat /\ ((k' <= List.length buf)%nat -> exists b, path n bf k1 r' p' w2 = Ok (b, k', w') /\ List.length b = List.length buf) /\ ((List.length buf < k')%nat -> path n bf k1 r' p' w2 = UB)).
      { intros r' p' Q. destruct (IH bg bf k1 r' p' w2 b' k' w' K2 Q) as (A&B&C). rewrite LB in *. split; [lia|]. split; assumption. }
      destruct p as [old|]; [|apply GO]. destruct (next_power _ old u) as [p'|]; [apply GO|].
      intros Q. injection Q as <- <- <-. split; [lia|]. split; [intros _; exists bf; auto|intros; lia]. }
    destruct spec.
    + cbn [bind] in *. exact (CONT big buf k ltac:(lia) K eq_refl E).
    + destruct (store big k v) as [bg| | |] eqn:SB; cbn [bind] in E; try discriminate.
      destruct (Nat.lt_ge_cases k (List.length buf)) as [LT|GE].
      * destruct (store_ok buf k v LT) as (bf&SF&LF&_). rewrite SF. cbn [bind]. exact (CONT bg bf (Datatypes.S k) ltac:(lia) ltac:(lia) LF E).
      * rewrite (store_ub buf k v GE). cbn [bind]. assert (G : (Datatypes.S k <= k')%nat).
        { clear CONT. destruct (bsdf h (toLocal (ph_frame h) (vneg (dir r))) w) as [[[wo albedo] pdf] w1]. destruct (Req_EM_T pdf 0); [injection E as _ <- _; lia|].
          destruct (rnd1 w1) as [u w2].
          assert (GO : forall r' p', path n bg (Datatypes.S k) r' p' w2 = Ok (b', k', w') -> (Datatypes.S k <= k')%nat).
          { intros r' p' Q. apply (IH bg (repeat photon0 (Datatypes.S k)) (Datatypes.S k) r' p' w2 b' k' w'); [rewrite repeat_length; lia|exact Q]. }
          destruct p as [old|]; [|eapply GO; exact E]. destruct (next_power _ old u); [eapply GO; exact E|injection E as _ <- _; lia]. }
        split; [lia|]. split; [intros; lia|reflexivity].
Qed.

Lemma store_ok_inv {A} (l l' : list A) i v : store l i v = Ok l' -> (i < List.length l)%nat /\ List.length l' = List.length l /\ firstn i l' = firstn i l /\ nth_error l' i = Some v.
Proof.
  intros E. destruct (Nat.lt_ge_cases i (List.length l)) as [L|L]; [|rewrite store_ub in E by exact L; discriminate].
  destruct (store_ok l i v L) as (b&E'&A1&A2&A3). rewrite E in E'. injection E' as ->. auto.
Qed.
Lemma path_landed n : forall buf k r p w b' k' w', (k <= List.length buf)%nat -> Forall landed (firstn k buf) -> path n buf k r p w = Ok (b', k', w') ->
  (k <= k' <= List.length buf)%nat /\ List.length b' = List.length buf /\ Forall landed (firstn k' b').
Proof.
  induction n as [|n IH]; intros buf k r p w b' k' w' K F E; cbn [photon_path] in E; [injection E as <- <- <-; repeat split; try lia; exact F|].
  destruct (hit r) as [h|] eqn:H; [|injection E as <- <- <-; repeat split; try lia; exact F]. destruct (ph_spec h) as [spec|] eqn:S; [|discriminate].
  destruct (if spec then Ok (buf, k) else bind (store buf k (Photon (ph_p h) (vneg (dir r)) p)) (fun b => Ok (b, Datatypes.S k))) as [[b k1]| | |] eqn:ST; try discriminate.
  assert (B : List.length b = List.length buf /\ (k <= k1 <= List.length buf)%nat /\ Forall landed (firstn k1 b)).
  { destruct spec; [injection ST as <- <-; repeat split; try lia; exact F|].
    destruct (store buf k (Photon (ph_p h) (vneg (dir r)) p)) as [b0| | |] eqn:SB; try discriminate. cbn [bind] in ST. injection ST as <- <-.
    destruct (store_ok_inv _ _ _ _ SB) as (A1&A2&A3&A4). split; [exact A2|]. split; [lia|]. rewrite (firstn_snoc_nth _ _ _ A4), A3. apply Forall_app. split; [exact F|].
    constructor; [|constructor]. exists r, h. auto. }
  destruct B as (LB&KB&FB). cbn [bind] in E. destruct (bsdf h _ w) as [[[wo albedo] pdf] w1].
  destruct (Req_EM_T pdf 0); [injection E as <- <- <-; repeat split; try lia; assumption|]. destruct (rnd1 w1) as [u w2].
  assert (GO : forall r' p', path n b k1 r' p' w2 = Ok (b', k', w') -> (k <= k' <= List.length buf)%nat /\ List.length b' = List.length buf /\ Forall landed (firstn k' b')).
  { intros r' p' Q. destruct (IH b k1 r' p' w2 b' k' w' ltac:(lia) FB Q) as (A1&A2&A3). split; [lia|]. split; [congruence|exact A3]. }
  destruct p as [old|]; [|eapply GO; exact E]. destruct (next_power _ old u); [eapply GO; exact E|]. injection E as <- <- <-. repeat split; try lia; assumption.
Qed.

Variable lights : list plight.
Notation emit := (emit W rnd1 rnd2 lights).
Notation loop := (scatter_loop W rnd1 rnd2 hit bsdf lights).
Lemma emit_not_stuck w : (forall w, 0 <= fst (rnd1 w) < 1) -> lights <> [] -> match emit w with Ok _ | Throw _ => True | UB | OutOfFuel => False end.
Proof.
  intros U N. unfold Photon.emit. specialize (U w). destruct (rnd1 w) as [v w1]. cbn [fst] in U.
  set (n := List.length lights). assert (P : (0 < n)%nat) by (unfold n; destruct lights; [congruence|cbn; lia]). apply lt_INR in P. cbn [INR] in P.
  assert (B : (Z.to_nat (Ztrunc (v * INR n)) < n)%nat).
  { assert (Q : 0 <= v * INR n) by (apply Rmult_le_pos; lra). rewrite Ztrunc_floor by exact Q.
    assert (F : (Zfloor (v * INR n) < Z.of_nat n)%Z). { apply lt_IZR. rewrite <- INR_IZR_INZ. eapply Rle_lt_trans; [apply Zfloor_lb|]. rewrite <- (Rmult_1_l (INR n)) at 2. apply Rmult_lt_compat_r; lra. }
    assert (0 <= Zfloor (v * INR n))%Z by (apply Zfloor_lub; exact Q). lia. }
  unfold at_. destruct (nth_error lights _) as [l|] eqn:E; [|apply nth_error_None in E; change (List.length lights) with n in E; lia]. cbn [bind].
  destruct (rnd2 w1) as [d w2]. destruct (rnd2 w2) as [q w3]. destruct l; exact I.
Qed.
Lemma loop_ok fuel : forall mb num buf k w, (forall w, 0 <= fst (rnd1 w) < 1) -> lights <> [] -> (num + mb - 1 <= List.length buf)%nat -> (k <= List.length buf)%nat -> Forall landed (firstn k buf) ->
  match loop fuel mb num buf k w with
  | Ok (buf', w') => List.length buf' = List.length buf /\ Forall landed (firstn num buf')
  | UB => False | Throw _ | OutOfFuel => True
  end.
Proof.
  induction fuel as [|fuel IH]; intros mb num buf k w U N L K F; cbn [scatter_loop]; (destruct (Nat.ltb_spec k num) as [LT|GE]).
  - exact I.
  - split; [reflexivity|]. replace num with (Nat.min num k) by lia. rewrite <- firstn_firstn. apply Forall_forall. intros x X. rewrite Forall_forall in F. apply F. clear - X. revert X.
    rewrite <- (firstn_skipn num (firstn k buf)) at 2. intros X. apply in_or_app. left. exact X.
  - pose proof (emit_not_stuck w U N) as E. destruct (emit w) as [[[r power] w1]| | |]; try exact E; try exact I. cbn [bind].
    pose proof (path_ok mb buf k r (Some power) w1 ltac:(lia) F) as P. destruct (path mb buf k r (Some power) w1) as [[[b k1] w2]| | |]; try exact P; try exact I; try contradiction.
    cbn [bind]. destruct P as (LB&KB&_&FB). specialize (IH mb num b k1 w2 U N ltac:(lia) ltac:(lia) FB).
    destruct (loop fuel mb num b k1 w2) as [[b2 w3]| | |]; try exact IH. destruct IH as (A&B). split; [congruence|exact B].
  - split; [reflexivity|]. replace num with (Nat.min num k) by lia. rewrite <- firstn_firstn. apply Forall_forall. intros x X. rewrite Forall_forall in F. apply F. clear - X. revert X.
    rewrite <- (firstn_skipn num (firstn k buf)) at 2. intros X. apply in_or_app. left. exact X.
Qed.
(** with the array of the code: whatever happens, success means that exactly [num] photons arrived *)
Lemma path_bound n : forall buf k r p w b' k' w', (k <= List.length buf)%nat -> path n buf k r p w = Ok (b', k', w') -> (k' <= List.length buf)%nat /\ List.length b' = List.length buf.
Proof.
  intros buf k r p w b' k' w' K E. destruct (path_two n buf buf k r p w b' k' w' K E) as (_&A&B).
  destruct (Nat.lt_ge_cases (List.length buf) k') as [C|C]; [rewrite (B C) in E; discriminate|]. split; [exact C|]. destruct (A C) as (b&E'&LB). congruence.
Qed.
Lemma specular_path n : (forall r h, hit r = Some h -> ph_spec h = Some true) -> forall buf k r p w, exists w', path n buf k r p w = Ok (buf, k, w').
Proof.
  intros S. induction n as [|n IH]; intros buf k r p w; cbn [photon_path]; [eexists; reflexivity|]. destruct (hit r) as [h|] eqn:H; [|eexists; reflexivity].
  rewrite (S r h H). cbn [bind]. destruct (bsdf h _ w) as [[[wo albedo] pdf] w1]. destruct (Req_EM_T pdf 0); [eexists; reflexivity|]. destruct (rnd1 w1) as [u w2].
  destruct p as [old|]; [|apply IH]. destruct (next_power _ old u); [apply IH|eexists; reflexivity].
Qed.
Lemma specular_loop fuel : (forall r h, hit r = Some h -> ph_spec h = Some true) -> (forall w, exists e, emit w = Ok e) ->
  forall mb num buf k w, (k < num)%nat -> loop fuel mb num buf k w = OutOfFuel.
Proof.
  intros S E. induction fuel as [|fuel IH]; intros mb num buf k w K; cbn [scatter_loop]; destruct (Nat.ltb_spec k num); try lia; [reflexivity|].
  destruct (E w) as ([[r power] w1]&->). cbn [bind]. destruct (specular_path mb S buf k r (Some power) w1) as (w2&->). cbn [bind]. apply IH, K.
Qed.
Lemma firstn_forall {A} (P : A -> Prop) a b (l : list A) : (a <= b)%nat -> Forall P (firstn b l) -> Forall P (firstn a l).
Proof.
  intros L F. replace a with (Nat.min a b) by lia. rewrite <- firstn_firstn. apply Forall_forall. intros x X. rewrite Forall_forall in F. apply F. revert X.
  rewrite <- (firstn_skipn a (firstn b l)) at 2. intros X. apply in_or_app. left. exact X.
Qed.
Lemma loop_landed fuel : forall mb num buf k w b' w', (k <= List.length buf)%nat -> Forall landed (firstn k buf) -> loop fuel mb num buf k w = Ok (b', w') ->
  List.length b' = List.length buf /\ Forall landed (firstn num b').
Proof.
  induction fuel as [|fuel IH]; intros mb num buf k w b' w' K F E; cbn [scatter_loop] in E; destruct (Nat.ltb_spec k num) as [LT|GE]; try discriminate.
  - injection E as <- <-. split; [reflexivity|]. eapply firstn_forall; eassumption.
  - destruct (emit w) as [[[r power] w1]| | |]; try discriminate. cbn [bind] in E. destruct (path mb buf k r (Some power) w1) as [[[b k1] w2]| | |] eqn:P; try discriminate. cbn [bind] in E.
    destruct (path_landed _ _ _ _ _ _ _ _ _ K F P) as (A1&A2&A3). destruct (IH mb num b k1 w2 b' w' ltac:(lia) A3 E) as (B1&B2). split; [congruence|exact B2].
  - injection E as <- <-. split; [reflexivity|]. eapply firstn_forall; eassumption.
Qed.
(** one bounce: every photon has the power it was emitted with *)
Lemma loop_power fuel (c : vec3) : (forall w r p w', emit w = Ok (r, p, w') -> p = c) ->
  forall num buf k w b' w', (k <= List.length buf)%nat -> Forall (fun p => ph_power p = Some c) (firstn k buf) -> loop fuel 1 num buf k w = Ok (b', w') ->
  Forall (fun p => ph_power p = Some c) (firstn num b').
Proof.
  intros C. induction fuel as [|fuel IH]; intros num buf k w b' w' K F E; cbn [scatter_loop] in E; destruct (Nat.ltb_spec k num) as [LT|GE]; try discriminate.
  - injection E as <- <-. eapply firstn_forall; eassumption.
  - destruct (emit w) as [[[r power] w1]| | |] eqn:EM; try discriminate. cbn [bind] in E. apply C in EM. subst power.
    destruct (path 1 buf k r (Some c) w1) as [[[b k1] w2]| | |] eqn:P; try discriminate. cbn [bind] in E.
    assert (B : (k1 <= List.length b)%nat /\ Forall (fun p => ph_power p = Some c) (firstn k1 b)).
    { cbn [photon_path] in P. destruct (hit r) as [h|]; [|injection P as <- <- <-; auto]. destruct (ph_spec h) as [[|]|]; [| |discriminate].
      - cbn [bind] in P. destruct (bsdf h _ w1) as [[[wo albedo] pdf] w3]. destruct (Req_EM_T pdf 0); [injection P as <- <- <-; auto|]. destruct (rnd1 w3) as [u w4].
        destruct (next_power _ c u); injection P as <- <- <-; auto.
      - destruct (store buf k _) as [b0| | |] eqn:SB; try discriminate. cbn [bind] in P. destruct (store_ok_inv _ _ _ _ SB) as (A1&A2&A3&A4).
        assert (Q : (Datatypes.S k <= List.length b0)%nat /\ Forall (fun p => ph_power p = Some c) (firstn (Datatypes.S k) b0)).
        { split; [lia|]. rewrite (firstn_snoc_nth _ _ _ A4), A3. apply Forall_app. split; [exact F|]. repeat constructor. }
        destruct (bsdf h _ w1) as [[[wo albedo] pdf] w3]. destruct (Req_EM_T pdf 0); [injection P as <- <- <-; exact Q|]. destruct (rnd1 w3) as [u w4].
        destruct (next_power _ c u); injection P as <- <- <-; exact Q. }
    destruct B as (B1&B2). exact (IH num b k1 w2 b' w' B1 B2 E).
  - injection E as <- <-. eapply firstn_forall; eassumption.
Qed.
End Scatter.

Lemma emit_power W rnd1 rnd2 lights w r p w' : emit W rnd1 rnd2 lights w = Ok (r, p, w') -> exists pos inten, In (PointLight pos inten) lights /\ org r = pos /\ p = vscale inten (INR (List.length lights)).
Proof.
  unfold emit. destruct (rnd1 w) as [v w1]. unfold at_. destruct (nth_error lights _) as [l|] eqn:E; [|discriminate]. cbn [bind].
  destruct (rnd2 w1) as [d w2]. destruct (rnd2 w2) as [q w3]. destruct l as [pos inten|]; [|discriminate]. intros Q. injection Q as <- <- <-.
  exists pos, inten. split; [eapply nth_error_In; exact E|]. split; [reflexivity|]. unfold sqrToUniSphPdf. pose proof PI_RGT_0.
  assert (N : INR (List.length lights) <> 0). { apply not_0_INR. intros Z. destruct lights; [destruct (Z.to_nat _); discriminate|discriminate]. }
  apply V3_eq; cbn; field; split; try lra; exact N.
Qed.

(** ** Russian roulette *)
Definition rr_channel (c : vec3 -> R) (power old : vec3) (u : R) : R := match next_power power old u with Some (Some p) => c p | _ => 0 end.
Lemma ratio_scaled old f : 0 < old -> ratio (old * f) old = Some f.
Proof. intros H. unfold ratio. destruct (Req_EM_T old 0); [lra|]. f_equal. field. assumption. Qed.
Lemma ratio_none p : ratio p 0 = None.
Proof. unfold ratio. destruct (Req_EM_T 0 0); [reflexivity|lra]. Qed.
Lemma max_opt_some a b c : exists m, max_opt (Some a) b c = Some m /\ a <= m /\ (forall x, b = Some x -> x <= m) /\ (forall x, c = Some x -> x <= m) /\ (m = a \/ b = Some m \/ c = Some m).
Proof.
  unfold max_opt. destruct b as [b|], c as [c|]; unfold gt_opt; repeat match goal with |- context [Rgt_dec ?x ?y] => destruct (Rgt_dec x y) end;
  eexists; (split; [reflexivity|]); repeat split; try lra; try (intros x [= <-]; lra); try (intros x [=]); auto.
Qed.
Lemma rr_value old f : 0 < vx old -> 0 <= vy old -> 0 <= vz old -> 0 <= vx f -> 0 <= vy f -> 0 <= vz f -> vmul old f <> V3 0 0 0 ->
  exists q, photon_rr (vmul old f) old = Some q /\ 0 < q <= 1.
Proof.
  intros O1 O2 O3 F1 F2 F3 N. unfold photon_rr. cbn [vmul vx vy vz]. rewrite (ratio_scaled _ _ O1).
  destruct (max_opt_some (vx f) (ratio (vy old * vy f) (vy old)) (ratio (vz old * vz f) (vz old))) as (m&->&A&B&C&_). eexists. split; [reflexivity|].
  split; [|apply Rmin_r]. apply Rmin_glb_lt; [|lra]. destruct (Rlt_or_le 0 m) as [P|P]; [exact P|]. exfalso. apply N.
  assert (X : vx f = 0) by lra.
  assert (Y : vy old * vy f = 0). { destruct O2 as [O2|O2]; [|rewrite <- O2; ring]. specialize (B _ (ratio_scaled _ _ O2)). replace (vy f) with 0 by lra. ring. }
  assert (Z : vz old * vz f = 0). { destruct O3 as [O3|O3]; [|rewrite <- O3; ring]. specialize (C _ (ratio_scaled _ _ O3)). replace (vz f) with 0 by lra. ring. }
  apply V3_eq; cbn; [rewrite X; ring|exact Y|exact Z].
Qed.
Lemma red_none power old : vx old = 0 -> photon_rr power old = None.
Proof. intros H. unfold photon_rr. rewrite H, ratio_none. unfold max_opt. destruct (ratio (vy power) (vy old)), (ratio (vz power) (vz old)); reflexivity. Qed.
Section Nan.
Variable W : Type.
Variable rnd1 : W -> R * W.
Variable hit : ray -> option phit.
Variable bsdf : phit -> vec3 -> W -> (vec3 * vec3 * R) * W.
Notation path := (photon_path W rnd1 hit bsdf).
Lemma path_nan : forall n buf k r w b' k' w', path n buf k r None w = Ok (b', k', w') -> forall i p, (k <= i < k')%nat -> nth_error b' i = Some p -> ph_power p = None.
Proof.
  assert (KEEP : forall n buf k r w b' k' w' i p, path n buf k r None w = Ok (b', k', w') -> (i < k)%nat -> nth_error b' i = Some p -> nth_error buf i = Some p).
  { induction n as [|n IH]; intros buf k r w b' k' w' i p E L N; cbn [photon_path] in E; [injection E as <- <- <-; exact N|].
    destruct (hit r) as [h|]; [|injection E as <- <- <-; exact N]. destruct (ph_spec h) as [[|]|]; [| |discriminate].
    - cbn [bind] in E. destruct (bsdf h _ w) as [[[wo albedo] pdf] w1]. destruct (Req_EM_T pdf 0); [injection E as <- <- <-; exact N|]. destruct (rnd1 w1) as [u w2]. eapply IH; eassumption.
    - destruct (store buf k _) as [b0| | |] eqn:SB; try discriminate. cbn [bind] in E. destruct (store_ok_inv _ _ _ _ SB) as (A1&A2&A3&A4).
      assert (Q : nth_error b0 i = Some p).
      { destruct (bsdf h _ w) as [[[wo albedo] pdf] w1]. destruct (Req_EM_T pdf 0); [injection E as <- <- <-; exact N|]. destruct (rnd1 w1) as [u w2]. eapply IH; [exact E|lia|exact N]. }
      apply (f_equal (fun l => nth_error l i)) in A3. assert (T : forall l : list photon, nth_error (firstn k l) i = nth_error l i).
      { clear - L. intros l. revert k i L. induction l as [|a l IHl]; intros [|k] [|i] L; cbn; try lia; try reflexivity. apply IHl. lia. }
      rewrite !T in A3. rewrite <- A3. exact Q. }
  induction n as [|n IH]; intros buf k r w b' k' w' E i p L N; cbn [photon_path] in E; [injection E as <- <- <-; lia|].
  destruct (hit r) as [h|]; [|injection E as <- <- <-; lia]. destruct (ph_spec h) as [[|]|]; [| |discriminate].
  - cbn [bind] in E. destruct (bsdf h _ w) as [[[wo albedo] pdf] w1]. destruct (Req_EM_T pdf 0); [injection E as <- <- <-; lia|]. destruct (rnd1 w1) as [u w2]. eapply IH; eassumption.
  - destruct (store buf k _) as [b0| | |] eqn:SB; try discriminate. cbn [bind] in E. destruct (store_ok_inv _ _ _ _ SB) as (A1&A2&A3&A4).
    assert (HD : nth_error b0 i = Some p -> i = k -> ph_power p = None) by (intros Q ->; rewrite A4 in Q; injection Q as <-; reflexivity).
    destruct (bsdf h _ w) as [[[wo albedo] pdf] w1]. destruct (Req_EM_T pdf 0); [injection E as <- <- <-; apply HD; [exact N|lia]|]. destruct (rnd1 w1) as [u w2].
    destruct (Nat.eq_dec i k) as [->|NE]; [apply HD; [|reflexivity]; eapply KEEP; [exact E|lia|exact N]|]. eapply IH; [exact E| |exact N]. lia.
Qed.
End Nan.
