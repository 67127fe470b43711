(** Shading data, boxes, OBJ files. *)
From Coq Require Import Reals List Lra Lia ZArith String Ascii Bool Decimal DecimalString DecimalNat.
From Coquelicot Require Import Rbar.
From Verif.Base Require Import Outcome ListLemmas.
From Verif.Model Require Import Vec Matrix Frame BBox Mesh.
From Verif.Spec Require Import LinAlgSpec BBoxSpec FrameSpec MeshSpec.
From Verif.Proof Require Import VecLemmas FrameProof BBoxProof MeshProof.
Import ListNotations.
Open Scope R_scope.

(** ** shading data *)
Lemma interp3_combine a b c w : interp3 a b c w = combine3 a b c w.
Proof. apply V3_eq; cbn; ring. Qed.
Lemma complete_ok m h a b c : well_formed m -> face_of m (mh_f h) a b c -> exists s, complete m h = Ok s /\
  su_bary s = V3 (1 - mh_u h - mh_v h) (mh_u h) (mh_v h) /\
  su_p s = combine3 a b c (su_bary s) /\
  su_g s = frame_of (normalized (cross (vsub b a) (vsub c a))) /\
  match ms_ns m with
  | [] => su_s s = su_g s
  | _ => exists na nb nc, face_normals m (mh_f h) na nb nc /\ su_s s = frame_of (normalized (combine3 na nb nc (su_bary s)))
  end /\
  match ms_uvs m with
  | [] => su_uv s = (mh_u h, mh_v h)
  | _ => exists a b c, face_uvs m (mh_f h) a b c /\
     su_uv s = (fst a * vx (su_bary s) + fst b * vy (su_bary s) + fst c * vz (su_bary s), snd a * vx (su_bary s) + snd b * vy (su_bary s) + snd c * vz (su_bary s))
  end.
Proof.
  intros W F. destruct (face_corners _ _ _ _ _ F) as (t&T&C). assert (T' : nth_error (ms_tris m) (mh_f h) = Some t).
  { unfold at_ in T. destruct (nth_error (ms_tris m) (mh_f h)) eqn:E; [|discriminate]. injection T as ->. reflexivity. }
  pose proof (nth_error_In _ _ T') as I.
  destruct (W t I) as (_&NS&US). unfold complete. rewrite T. cbn [bind]. rewrite C. cbn [bind]. rewrite interp3_combine.
  set (bary := V3 (1 - mh_u h - mh_v h) (mh_u h) (mh_v h)).
  assert (EU : exists uv, match ms_uvs m with
        | [] => Ok (mh_u h, mh_v h)
        | _ => bind (atz (ms_uvs m) (i_0 (uvsInds t))) (fun a => bind (atz (ms_uvs m) (i_1 (uvsInds t))) (fun b => bind (atz (ms_uvs m) (i_2 (uvsInds t))) (fun c =>
          Ok (fst a * vx bary + fst b * vy bary + fst c * vz bary, snd a * vx bary + snd b * vy bary + snd c * vz bary))))
        end = Ok uv /\ match ms_uvs m with
  | [] => uv = (mh_u h, mh_v h)
  | _ => exists a b c, face_uvs m (mh_f h) a b c /\
     uv = (fst a * vx bary + fst b * vy bary + fst c * vz bary, snd a * vx bary + snd b * vy bary + snd c * vz bary)
  end).
  { destruct (ms_uvs m) as [|u us] eqn:E; [eexists; split; reflexivity|]. destruct (US ltac:(discriminate)) as (A&B&D).
    destruct (atz_ok _ _ A) as (x&X&X'), (atz_ok _ _ B) as (y&Y&Y'), (atz_ok _ _ D) as (z&Z&Z'). rewrite X, Y, Z. cbn [bind]. eexists. split; [reflexivity|].
    exists x, y, z. split; [|reflexivity]. exists t. rewrite E. split; [exact T'|]. split; [exact X'|]. split; [exact Y'|exact Z']. }
  destruct EU as (uv&EU&PU).
  set (g := frame_of (normalized (cross (vsub b a) (vsub c a)))).
  assert (EN : exists s, match ms_ns m with
       | [] => Ok g
       | _ => bind (atz (ms_ns m) (i_0 (nsInds t))) (fun a => bind (atz (ms_ns m) (i_1 (nsInds t))) (fun b => bind (atz (ms_ns m) (i_2 (nsInds t))) (fun c =>
         Ok (frame_of (normalized (interp3 a b c bary))))))
       end = Ok s /\ match ms_ns m with
  | [] => s = g
  | _ => exists na nb nc, face_normals m (mh_f h) na nb nc /\ s = frame_of (normalized (combine3 na nb nc bary))
  end).
  { destruct (ms_ns m) as [|u us] eqn:E; [eexists; split; reflexivity|]. destruct (NS ltac:(discriminate)) as (A&B&D).
    destruct (atz_ok _ _ A) as (x&X&X'), (atz_ok _ _ B) as (y&Y&Y'), (atz_ok _ _ D) as (z&Z&Z'). rewrite X, Y, Z. cbn [bind]. eexists. split; [reflexivity|].
    exists x, y, z. rewrite interp3_combine. split; [|reflexivity]. exists t. rewrite E. split; [exact T'|]. split; [exact X'|]. split; [exact Y'|exact Z']. }
  destruct EN as (s&EN&PN). rewrite EU. cbn [bind]. rewrite EN. cbn [bind]. eexists. split; [reflexivity|]. cbn. repeat split; assumption.
Qed.
Lemma dot_normalized n e : n <> V3 0 0 0 -> dot (normalized n) e = dot n e / norm n.
Proof. intros N. rewrite normalized_vdiv. pose proof (norm_pos n N). unfold dot. cbn [vx vy vz vdiv]. field. lra. Qed.
Lemma normalized_perp n e : n <> V3 0 0 0 -> dot n e = 0 -> dot (normalized n) e = 0.
Proof. intros N H. rewrite dot_normalized by exact N. rewrite H. unfold Rdiv. ring. Qed.
Lemma geometric_frame a b c : cross (vsub b a) (vsub c a) <> V3 0 0 0 -> let g := frame_of (normalized (cross (vsub b a) (vsub c a))) in
  orthonormal (fs g) (ft g) (fn g) /\ dot (fn g) (vsub b a) = 0 /\ dot (fn g) (vsub c a) = 0 /\ 0 < dot (fn g) (cross (vsub b a) (vsub c a)).
Proof.
  intros N g. destruct (frame_orthonormal _ (normalized_unit _ N)) as (O&_&E). fold g in O, E. split; [exact O|]. rewrite E.
  split; [apply normalized_perp; [exact N|apply dot_cross_l]|]. split; [apply normalized_perp; [exact N|apply dot_cross_r]|].
  rewrite (normalized_scale _ N) at 2. rewrite dot_scale_r. pose proof (normalized_unit _ N) as U. unfold unit3 in U. rewrite U. pose proof (norm_pos _ N). lra.
Qed.
(** interpolating normals on one side of a plane stays on that side *)
Lemma combine_side na nb nc w g : weights w -> 0 < dot na g -> 0 < dot nb g -> 0 < dot nc g -> 0 < dot (combine3 na nb nc w) g.
Proof.
  intros (A&B&C&S) P Q U. replace (dot (combine3 na nb nc w) g) with (vx w * dot na g + vy w * dot nb g + vz w * dot nc g) by (unfold dot, combine3; cbn; ring).
  pose proof (Rmult_le_pos _ _ A (Rlt_le _ _ P)). pose proof (Rmult_le_pos _ _ B (Rlt_le _ _ Q)). pose proof (Rmult_le_pos _ _ C (Rlt_le _ _ U)).
  destruct (Rle_lt_or_eq_dec _ _ A) as [A'|A']; [pose proof (Rmult_lt_0_compat _ _ A' P); lra|].
  destruct (Rle_lt_or_eq_dec _ _ B) as [B'|B']; [pose proof (Rmult_lt_0_compat _ _ B' Q); lra|].
  assert (C' : 0 < vz w) by lra. pose proof (Rmult_lt_0_compat _ _ C' U). lra.
Qed.
Lemma normalized_side n g : 0 < dot n g -> 0 < dot (normalized n) g /\ n <> V3 0 0 0.
Proof.
  intros H. assert (N : n <> V3 0 0 0) by (intros ->; unfold dot in H; cbn in H; lra). split; [|exact N].
  rewrite dot_normalized by exact N. apply Rdiv_lt_0_compat; [exact H|apply norm_pos, N].
Qed.

(** ** boxes *)
Lemma rbar_convex_le (lo : Rbar) (a b c : R) w : weights w -> Rbar_le lo a -> Rbar_le lo b -> Rbar_le lo c -> Rbar_le lo (a * vx w + b * vy w + c * vz w).
Proof. intros (A&B&C&S). destruct lo as [l| |]; cbn; try tauto. intros X Y Z.
  pose proof (Rmult_le_compat_r _ _ _ A X). pose proof (Rmult_le_compat_r _ _ _ B Y). pose proof (Rmult_le_compat_r _ _ _ C Z). replace l with (l * vx w + l * vy w + l * vz w) by (rewrite <- !Rmult_plus_distr_l, S; ring). lra. Qed.
Lemma rbar_convex_ge (hi : Rbar) (a b c : R) w : weights w -> Rbar_le a hi -> Rbar_le b hi -> Rbar_le c hi -> Rbar_le (a * vx w + b * vy w + c * vz w) hi.
Proof. intros (A&B&C&S). destruct hi as [l| |]; cbn; try tauto. intros X Y Z.
  pose proof (Rmult_le_compat_r _ _ _ A X). pose proof (Rmult_le_compat_r _ _ _ B Y). pose proof (Rmult_le_compat_r _ _ _ C Z). replace l with (l * vx w + l * vy w + l * vz w) by (rewrite <- !Rmult_plus_distr_l, S; ring). lra. Qed.
Lemma box_convex k a b c q : in_ebox k a -> in_ebox k b -> in_ebox k c -> in_triangle a b c q -> in_ebox k q.
Proof.
  intros (A1&A2&A3&A4&A5&A6) (B1&B2&B3&B4&B5&B6) (C1&C2&C3&C4&C5&C6) (w&W&->). unfold in_ebox, combine3. cbn [vx vy vz].
  repeat split; first [apply rbar_convex_le; assumption|apply rbar_convex_ge; assumption].
Qed.
Lemma smallest_point p : smallest (fun q => q = p) (ebox_point p).
Proof.
  split; [intros q ->; unfold in_ebox, ebox_point, ev; cbn [emn emx ex ey ez]; repeat split; apply Rbar_le_refl|].
  intros c H. pose proof (H p eq_refl) as K. unfold in_ebox, within, ebox_point, ev in *. cbn [emn emx ex ey ez]. tauto.
Qed.
Lemma tri_bbox_ok m i a b c : face_of m i a b c -> exists k, tri_bbox m i = Ok k /\ smallest (in_triangle a b c) k.
Proof.
  intros F. destruct (face_corners _ _ _ _ _ F) as (t&T&C). unfold tri_bbox. rewrite T. cbn [bind]. rewrite C. cbn [bind].
  eexists. split; [reflexivity|]. pose proof (smallest_expand _ _ c (smallest_expand _ _ b (smallest_point a))) as (S1&S2).
  split.
  - intros q Q. apply (box_convex _ a b c); [apply S1; tauto|apply S1; tauto|apply S1; tauto|exact Q].
  - intros k K. apply S2. intros p [[-> | ->]| ->]; apply K.
    + exists (V3 1 0 0). split; [unfold weights; cbn; lra|]. apply V3_eq; cbn; ring.
    + exists (V3 0 1 0). split; [unfold weights; cbn; lra|]. apply V3_eq; cbn; ring.
    + exists (V3 0 0 1). split; [unfold weights; cbn; lra|]. apply V3_eq; cbn; ring.
Qed.
Lemma mesh_bbox_ok vs old : vs <> [] -> smallest (fun q => In q vs) (mesh_bbox true vs old).
Proof.
  destruct vs as [|v vs]; [congruence|]. intros _. cbn [mesh_bbox]. eapply smallest_ext; [|apply (smallest_fold vs _ _ (smallest_point v))].
  intros p. cbn. intuition.
Qed.
Lemma expand_box_reset b : ebox_expand_box b ebox_reset = b.
Proof.
  destruct b as [[a1 a2 a3] [b1 b2 b3]]. unfold ebox_expand_box, ebox_reset, emin, emax, emin1, emax1. cbn [emn emx ex ey ez].
  destruct (Rbar_lt_dec a1 p_infty) as [|H1], (Rbar_lt_dec a2 p_infty) as [|H2], (Rbar_lt_dec a3 p_infty) as [|H3],
    (Rbar_lt_dec m_infty b1) as [|K1], (Rbar_lt_dec m_infty b2) as [|K2], (Rbar_lt_dec m_infty b3) as [|K3];
  repeat f_equal; match goal with |- _ = ?x => destruct x; cbn in *; try reflexivity; exfalso; auto end.
Qed.
Lemma bounds_fold objs : forall (S : vec3 -> Prop) b, smallest S b ->
  smallest (fun q => S q \/ exists o, In o objs /\ fst o = true /\ In q (snd o))
    (fold_left (fun b o => ebox_expand_box b (mesh_bbox (fst o) (snd o) ebox_reset)) objs b).
Proof.
  induction objs as [|[e vs] objs IH]; intros S b H; cbn [fold_left].
  - eapply smallest_ext; [|exact H]. intros p. split; [auto|]. intros [|(o&[]&_)]; assumption.
  - assert (K : smallest (fun q => S q \/ (e = true /\ In q vs)) (ebox_expand_box b (mesh_bbox e vs ebox_reset))).
    { destruct e, vs as [|v vs]; cbn [mesh_bbox]; try (rewrite expand_box_reset; eapply smallest_ext; [|exact H]; intros p; cbn; intuition discriminate).
      change (ebox_expand_box b ?x) with (ebox_merge b x). eapply smallest_ext; [|apply smallest_merge; [exact H|apply (mesh_bbox_ok (v :: vs) ebox_reset); discriminate]].
      intros p. intuition. }
    specialize (IH _ _ K). eapply smallest_ext; [|exact IH]. intros p. split.
    + intros [[|(E&I)]|(o&I&E&Q)]; [auto|right; exists (e, vs); cbn; auto|right; exists o; cbn; auto].
    + intros [|(o&[<-|I]&E&Q)]; [auto|left; right; auto|right; exists o; auto].
Qed.

(** ** OBJ files *)
Lemma digits_uint d : forall acc, digits_val (NilEmpty.string_of_uint d) (Z.of_nat acc) = Z.of_nat (Nat.of_uint_acc d acc).
Proof.
  induction d; intros acc; cbn [NilEmpty.string_of_uint digits_val Nat.of_uint_acc]; [reflexivity|..];
  (match goal with |- context [digit ?c] => let v := eval vm_compute in (digit c) in change (digit c) with v end; cbv iota;
   rewrite <- IHd; f_equal; rewrite Nat.tail_mul_spec; lia).
Qed.
Lemma nil_empty_not_nil d : d <> Nil -> exists c s z, NilEmpty.string_of_uint d = String c s /\ digit c = Some z /\ c <> "-"%char /\ c <> "+"%char /\ c <> "/"%char.
Proof. intros N. destruct d; [congruence|..]; (do 3 eexists; split; [reflexivity|]; split; [reflexivity|]; repeat split; discriminate). Qed.
Lemma nilzero_shape n : exists c s z, decimal n = String c s /\ digit c = Some z /\ c <> "-"%char /\ c <> "+"%char /\ c <> "/"%char.
Proof.
  unfold decimal, NilZero.string_of_uint. destruct (Nat.to_uint n) eqn:E; [do 3 eexists; split; [reflexivity|]; split; [reflexivity|]; repeat split; discriminate|..];
  apply nil_empty_not_nil; discriminate.
Qed.
Lemma decimal_val n : digits_val (decimal n) 0 = Z.of_nat n.
Proof.
  unfold decimal, NilZero.string_of_uint. pose proof (Unsigned.of_to n) as H. destruct (Nat.to_uint n) eqn:E; [cbn in H; subst n; reflexivity|..];
  (change 0%Z with (Z.of_nat 0); rewrite digits_uint; f_equal; exact H).
Qed.
Lemma stoi_decimal n : (Z.of_nat n < 2 ^ 31)%Z -> stoi (decimal n) = Ok (Z.of_nat n).
Proof.
  intros L. pose proof (decimal_val n) as V. destruct (nilzero_shape n) as (c&s&z&E&D&N1&N2&_). rewrite E in *.
  assert (U : unsigned_val (String c s) = Some (Z.of_nat n)) by (cbn [unsigned_val]; rewrite D, V; reflexivity).
  assert (X : stoi (String c s) = match unsigned_val (String c s) with None => Throw "invalid_argument" | Some z => if ((- 2 ^ 31 <=? z) && (z <? 2 ^ 31))%Z%bool then Ok z else Throw "out_of_range" end).
  { unfold stoi. destruct c as [[] [] [] [] [] [] [] []]; try reflexivity; congruence. }
  rewrite X, U. destruct (Z.leb_spec (- 2 ^ 31) (Z.of_nat n)); [|lia]. destruct (Z.ltb_spec (Z.of_nat n) (2 ^ 31)); [|lia]. reflexivity.
Qed.
Fixpoint no_slash (s : string) : Prop := match s with EmptyString => True | String c s => c <> "/"%char /\ no_slash s end.
Lemma uint_no_slash d : no_slash (NilEmpty.string_of_uint d).
Proof. induction d; cbn; try exact I; split; try assumption; discriminate. Qed.
Lemma decimal_no_slash n : no_slash (decimal n).
Proof.
  unfold decimal, NilZero.string_of_uint. destruct (Nat.to_uint n) eqn:E; [cbn; split; [discriminate|exact I]|..]; apply uint_no_slash.
Qed.
Lemma pieces_app a s : no_slash a -> pieces (a ++ "/" ++ s) = a :: pieces s.
Proof.
  induction a as [|c a IH]; intros H; [reflexivity|]. destruct H as (N&H). cbn [append pieces].
  destruct (Ascii.eqb_spec c "/"); [congruence|]. change (pieces (a ++ "/" ++ s)%string) with (pieces (a ++ "/" ++ s)) in IH. cbn [append] in IH.
  rewrite (IH H). reflexivity.
Qed.
Lemma pieces_one a : no_slash a -> pieces a = [a].
Proof.
  induction a as [|c a IH]; intros H; [reflexivity|]. destruct H as (N&H). cbn [pieces]. destruct (Ascii.eqb_spec c "/"); [congruence|]. rewrite (IH H). reflexivity.
Qed.
Lemma corner_word_ok p u n : (0 < p)%nat -> (0 < u)%nat -> (0 < n)%nat ->
  (Z.of_nat p < 2 ^ 31 /\ Z.of_nat u < 2 ^ 31 /\ Z.of_nat n < 2 ^ 31)%Z ->
  face_corner (corner_word p u n) = Ok (Z.of_nat (p - 1), Z.of_nat (u - 1), Z.of_nat (n - 1)).
Proof.
  intros P U N (B1&B2&B3). unfold face_corner, getlines, corner_word.
  rewrite !pieces_app, pieces_one by apply decimal_no_slash. cbn [nth]. rewrite !stoi_decimal by assumption. cbn [bind].
  unfold u32. f_equal. f_equal; [f_equal|]; rewrite Z.mod_small; lia.
Qed.
Lemma plain_word_ok p : (0 < p)%nat -> (Z.of_nat p < 2 ^ 31)%Z ->
  face_corner (decimal p) = Ok (Z.of_nat (p - 1), Z.of_nat (p - 1), Z.of_nat (p - 1)).
Proof.
  intros P B. unfold face_corner, getlines. rewrite pieces_one by apply decimal_no_slash. cbn [nth]. rewrite !stoi_decimal by assumption. cbn [bind].
  unfold u32. f_equal. f_equal; [f_equal|]; rewrite Z.mod_small; lia.
Qed.
