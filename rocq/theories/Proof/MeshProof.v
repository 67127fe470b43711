(** Triangle meshes. *)
From Coq Require Import Reals List Lra Lia ZArith String Ascii Bool Permutation.
From Coquelicot Require Import Rbar.
From Verif.Base Require Import Outcome ListLemmas.
From Verif.Model Require Import Vec Matrix Frame BBox Mesh.
From Verif.Spec Require Import LinAlgSpec BBoxSpec FrameSpec MeshSpec.
From Verif.Proof Require Import VecLemmas FrameProof BBoxProof.
Import ListNotations.
Open Scope R_scope.

(** ** one triangle *)
Lemma cramer o d p0 e1 e2 : let tv := vsub o p0 in let pv := cross d e2 in let qv := cross tv e1 in
  vscale tv (dot e1 pv) = vsub (vadd (vscale e1 (dot tv pv)) (vscale e2 (dot d qv))) (vscale d (dot e2 qv)).
Proof. cbv zeta. destruct o, d, p0, e1, e2. apply V3_eq; unfold dot; cbn; ring. Qed.
Lemma cramer_u d e1 e2 u v t : let tv := vsub (vadd (vscale e1 u) (vscale e2 v)) (vscale d t) in
  dot tv (cross d e2) = u * dot e1 (cross d e2).
Proof. cbv zeta. destruct d, e1, e2. unfold dot. cbn. ring. Qed.
Lemma cramer_v d e1 e2 u v t : let tv := vsub (vadd (vscale e1 u) (vscale e2 v)) (vscale d t) in
  dot d (cross tv e1) = v * dot e1 (cross d e2).
Proof. cbv zeta. destruct d, e1, e2. unfold dot. cbn. ring. Qed.
Lemma cramer_t d e1 e2 u v t : let tv := vsub (vadd (vscale e1 u) (vscale e2 v)) (vscale d t) in
  dot e2 (cross tv e1) = t * dot e1 (cross d e2).
Proof. cbv zeta. destruct d, e1, e2. unfold dot. cbn. ring. Qed.

Definition on_plane (p0 p1 p2 : vec3) (r : ray) (u v t : R) : Prop :=
  ray_at r t = vadd p0 (vadd (vscale (vsub p1 p0) u) (vscale (vsub p2 p0) v)).
Lemma on_plane_iff p0 p1 p2 r u v t : tri_det p0 p1 p2 r <> 0 ->
  (on_plane p0 p1 p2 r u v t <->
   u = dot (vsub (org r) p0) (cross (dir r) (vsub p2 p0)) * (1 / tri_det p0 p1 p2 r) /\
   v = dot (dir r) (cross (vsub (org r) p0) (vsub p1 p0)) * (1 / tri_det p0 p1 p2 r) /\
   t = dot (vsub p2 p0) (cross (vsub (org r) p0) (vsub p1 p0)) * (1 / tri_det p0 p1 p2 r)).
Proof.
  intros N. unfold on_plane, ray_at. unfold tri_det in *. set (e1 := vsub p1 p0) in *. set (e2 := vsub p2 p0) in *. set (d := dir r) in *.
  set (D := dot e1 (cross d e2)) in *. split.
  - intros E. assert (T : vsub (org r) p0 = vsub (vadd (vscale e1 u) (vscale e2 v)) (vscale d t)).
    { apply V3_eq; [apply (f_equal vx) in E|apply (f_equal vy) in E|apply (f_equal vz) in E]; cbn [vx vy vz vadd vsub vscale] in *; lra. }
    rewrite T, cramer_u, cramer_v, cramer_t. fold D. repeat split; field; exact N.
  - intros (U&V&T). pose proof (cramer (org r) d p0 e1 e2) as C. cbv zeta in C. fold D in C. set (tv := vsub (org r) p0) in *.
    assert (C' : tv = vsub (vadd (vscale e1 u) (vscale e2 v)) (vscale d t)).
    { rewrite U, V, T. set (a := dot tv (cross d e2)) in *. set (b := dot d (cross tv e1)) in *. set (c := dot e2 (cross tv e1)) in *.
      clearbody a b c D. apply V3_eq; [apply (f_equal vx) in C|apply (f_equal vy) in C|apply (f_equal vz) in C]; cbn [vx vy vz vadd vsub vscale] in *;
        apply (Rmult_eq_reg_r D); try exact N; rewrite C; field; exact N. }
    unfold tv in C'. apply V3_eq; [apply (f_equal vx) in C'|apply (f_equal vy) in C'|apply (f_equal vz) in C']; cbn [vx vy vz vadd vsub vscale] in *; lra.
Qed.
Lemma tri_hit_spec p0 p1 p2 r u v t : tri_hit p0 p1 p2 r = Some (u, v, t) <->
  det_tol <= Rabs (tri_det p0 p1 p2 r) /\ 0 <= u <= 1 /\ 0 <= v <= 1 /\ in_ray_range r t /\ on_plane p0 p1 p2 r u v t.
Proof.
  unfold tri_hit. cbv zeta. fold (tri_det p0 p1 p2 r). set (D := tri_det p0 p1 p2 r).
  destruct (if Rgt_dec D (- (1 / 100000000)) then if Rlt_dec D (1 / 100000000) then true else false else false) eqn:S.
  { split; [discriminate|]. intros (H&_). exfalso. destruct (Rgt_dec D _); [|discriminate]. destruct (Rlt_dec D _); [|discriminate].
    unfold det_tol, Rabs in H. destruct (Rcase_abs D); lra. }
  assert (DT : det_tol <= Rabs D).
  { unfold det_tol. destruct (Rgt_dec D _) as [G|G]; [destruct (Rlt_dec D _) as [L|L]; [discriminate|]|]; unfold Rabs; destruct (Rcase_abs D); lra. }
  assert (N : D <> 0) by (intros E; rewrite E, Rabs_R0 in DT; unfold det_tol in DT; lra). clear S.
  pose proof (on_plane_iff p0 p1 p2 r u v t N) as P. fold D in P.
  set (U := _ * (1 / D)) in *. set (V := _ * (1 / D)) in P |- *. set (T := _ * (1 / D)) in P |- *.
  split.
  - destruct (Rlt_dec U 0) as [|U0]; [discriminate|]. destruct (Rgt_dec U 1) as [|U1]; [discriminate|].
    destruct (Rlt_dec V 0) as [|V0]; [discriminate|]. destruct (Rgt_dec V 1) as [|V1]; [discriminate|].
    destruct (Rbar_le_dec (rnear r) T) as [T0|]; [|discriminate]. destruct (Rbar_le_dec T (rfar r)) as [T1|]; [|discriminate].
    intros E. injection E as <- <- <-. split; [exact DT|]. split; [lra|]. split; [lra|]. split; [split; assumption|]. apply P. auto.
  - intros (_&HU&HV&(T0&T1)&H). apply P in H. destruct H as (->&->&->).
    destruct (Rlt_dec U 0); [lra|]. destruct (Rgt_dec U 1); [lra|]. destruct (Rlt_dec V 0); [lra|]. destruct (Rgt_dec V 1); [lra|].
    destruct (Rbar_le_dec _ _); [|contradiction]. destruct (Rbar_le_dec _ _); [|contradiction]. reflexivity.
Qed.
Lemma on_plane_combine p0 p1 p2 r u v t : on_plane p0 p1 p2 r u v t <-> ray_at r t = combine3 p0 p1 p2 (V3 (1 - u - v) u v).
Proof.
  unfold on_plane. replace (combine3 p0 p1 p2 (V3 (1 - u - v) u v)) with (vadd p0 (vadd (vscale (vsub p1 p0) u) (vscale (vsub p2 p0) v))); [reflexivity|].
  apply V3_eq; cbn; ring.
Qed.
Lemma in_triangle_uv a b c q : in_triangle a b c q <-> exists u v, 0 <= u /\ 0 <= v /\ u + v <= 1 /\ q = combine3 a b c (V3 (1 - u - v) u v).
Proof.
  split.
  - intros (w&(A&B&C&S)&->). exists (vy w), (vz w). repeat split; try lra. f_equal. apply V3_eq; cbn; lra.
  - intros (u&v&U&V&S&->). eexists. split; [|reflexivity]. unfold weights. cbn. lra.
Qed.

(** ** indices *)
Lemma atz_ok {A} (l : list A) i : (0 <= i < Z.of_nat (List.length l))%Z -> exists a, atz l i = Ok a /\ nth_error l (Z.to_nat i) = Some a.
Proof.
  intros H. unfold atz. destruct (Z.ltb_spec i (Z.of_nat (List.length l))); [|lia]. unfold at_.
  destruct (nth_error l (Z.to_nat i)) eqn:E; [eauto|]. apply nth_error_None in E. lia.
Qed.
Lemma atz_some {A} (l : list A) i a : (0 <= i)%Z -> nth_error l (Z.to_nat i) = Some a -> atz l i = Ok a.
Proof.
  intros P E. assert (L : (Z.to_nat i < List.length l)%nat) by (apply nth_error_Some; congruence). unfold atz.
  destruct (Z.ltb_spec i (Z.of_nat (List.length l))); [|lia]. unfold at_. rewrite E. reflexivity.
Qed.
Lemma atz_in {A} (l : list A) i a : atz l i = Ok a -> In a l.
Proof.
  unfold atz, at_. destruct (_ <? _)%Z; [|discriminate]. destruct (nth_error l _) eqn:E; [|discriminate]. intros H. injection H as <-. eapply nth_error_In, E.
Qed.
Lemma face_corners m i a b c : face_of m i a b c -> exists t, at_ (ms_tris m) i = Ok t /\ corners m t = Ok (a, b, c).
Proof.
  intros (t&T&(P0&P1&P2)&A&B&C). exists t. unfold at_. rewrite T. split; [reflexivity|]. unfold corners.
  rewrite (atz_some _ _ _ P0 A), (atz_some _ _ _ P1 B), (atz_some _ _ _ P2 C). reflexivity.
Qed.
Lemma wf_face m i : well_formed m -> (i < List.length (ms_tris m))%nat -> exists a b c, face_of m i a b c.
Proof.
  intros W L. destruct (nth_error (ms_tris m) i) as [t|] eqn:T; [|apply nth_error_None in T; lia].
  destruct (W t (nth_error_In _ _ T)) as ((A&B&C)&_). destruct (atz_ok _ _ A) as (a&_&Ea). destruct (atz_ok _ _ B) as (b&_&Eb). destruct (atz_ok _ _ C) as (c&_&Ec).
  exists a, b, c, t. repeat split; try assumption; lia.
Qed.
Lemma face_unique m i a b c a' b' c' : face_of m i a b c -> face_of m i a' b' c' -> a = a' /\ b = b' /\ c = c'.
Proof. intros (t&T&_&A&B&C) (t'&T'&_&A'&B'&C'). rewrite T in T'. injection T' as <-. repeat split; congruence. Qed.
Lemma face_hit_of m r i a b c : face_of m i a b c -> face_hit m r i = Ok (tri_hit a b c r).
Proof. intros F. destruct (face_corners _ _ _ _ _ F) as (t&T&C). unfold face_hit. rewrite T. cbn [bind]. rewrite C. reflexivity. Qed.

(** ** the loop over the faces *)
(** face i is hit at (u, v, t) by the ray as given *)
Definition hits (m : mesh) (r : ray) (i : nat) (u v t : R) : Prop := exists a b c, face_of m i a b c /\ tri_hit a b c r = Some (u, v, t).
Lemma tri_hit_far a b c r x u v t : Rbar_le (Finite x) (rfar r) -> (tri_hit a b c (set_far r x) = Some (u, v, t) <-> tri_hit a b c r = Some (u, v, t) /\ t <= x).
Proof.
  intros L. rewrite !tri_hit_spec. unfold in_ray_range, on_plane, tri_det, ray_at, set_far. cbn [org dir rnear rfar].
  split; [|cbn [Rbar_le]; tauto]. intros (A&B&C&(D&E)&F). split; [|exact E]. split; [exact A|]. split; [exact B|]. split; [exact C|]. split; [|exact F].
  split; [exact D|]. eapply Rbar_le_trans; [exact E|exact L].
Qed.
Definition best_hit (m : mesh) (r : ray) (n : nat) (o : option mesh_hit) : Prop :=
  match o with
  | None => forall i u v t, (i < n)%nat -> ~ hits m r i u v t
  | Some h => (mh_f h < n)%nat /\ hits m r (mh_f h) (mh_u h) (mh_v h) (mh_t h) /\
      forall i u v t, (i < n)%nat -> hits m r i u v t -> mh_t h <= t /\ (t = mh_t h -> (i <= mh_f h)%nat)
  end.
Definition state_ray (r : ray) (o : option mesh_hit) : ray := match o with None => r | Some h => set_far r (mh_t h) end.
Lemma hit_in_range m r i u v t : hits m r i u v t -> Rbar_le (Finite t) (rfar r).
Proof. intros (a&b&c&_&H). apply tri_hit_spec in H. apply H. Qed.
Lemma loop_best m r : well_formed m -> forall n, (n <= List.length (ms_tris m))%nat ->
  exists o, foldM (hit_step m) (seq 0 n) (r, None) = Ok (state_ray r o, o) /\ best_hit m r n o.
Proof.
  intros W. induction n as [|n IH]; intros L.
  { exists None. split; [reflexivity|]. intros i u v t H. lia. }
  destruct IH as (o&E&B); [lia|]. rewrite seq_S, foldM_app, E. cbn [bind plus foldM].
  destruct (wf_face m n W ltac:(lia)) as (a&b&c&F). unfold hit_step. cbn [fst].
  rewrite (face_hit_of _ _ _ _ _ _ F). cbn [bind].
  assert (HN : forall u v t, hits m r n u v t <-> tri_hit a b c r = Some (u, v, t)).
  { intros u v t. split; [|exists a, b, c; auto]. intros (a'&b'&c'&F'&H). destruct (face_unique _ _ _ _ _ _ _ _ F F') as (->&->&->). exact H. }
  destruct o as [h|]; cbn [state_ray] in *.
  - destruct B as (B1&B2&B3). pose proof (hit_in_range _ _ _ _ _ _ B2) as FR.
    destruct (tri_hit a b c (set_far r (mh_t h))) as [[[u v] t]|] eqn:T.
    + apply (tri_hit_far _ _ _ _ _ _ _ _ FR) in T. destruct T as (T&TL). exists (Some (MeshHit t u v n)). split; [reflexivity|].
      cbn. split; [lia|]. split; [apply HN, T|]. intros i u' v' t' I H. destruct (Nat.eq_dec i n) as [->|NE].
      * apply HN in H. rewrite T in H. injection H as <- <- <-. split; [lra|lia].
      * destruct (B3 i u' v' t' ltac:(lia) H). split; [lra|lia].
    + exists (Some h). split; [reflexivity|]. split; [lia|]. split; [exact B2|]. intros i u' v' t' I H. destruct (Nat.eq_dec i n) as [->|NE].
      * apply HN in H. destruct (Rlt_or_le (mh_t h) t') as [Q|Q]; [split; [lra|intros; lra]|]. exfalso.
        assert (X : tri_hit a b c (set_far r (mh_t h)) = Some (u', v', t')) by (apply tri_hit_far; auto). congruence.
      * apply (B3 i u' v' t' ltac:(lia) H).
  - destruct (tri_hit a b c r) as [[[u v] t]|] eqn:T.
    + exists (Some (MeshHit t u v n)). split; [reflexivity|]. cbn. split; [lia|]. split; [apply HN, eq_refl|]. intros i u' v' t' I H.
      destruct (Nat.eq_dec i n) as [->|NE]; [apply HN in H; injection H as <- <- <-; split; [lra|lia]|]. exfalso. apply (B i u' v' t' ltac:(lia) H).
    + exists None. split; [reflexivity|]. intros i u' v' t' I H. destruct (Nat.eq_dec i n) as [->|NE]; [apply HN in H; discriminate|]. apply (B i u' v' t' ltac:(lia) H).
Qed.
Lemma mesh_best m r : well_formed m -> exists o, mesh_intersect m r = Ok o /\ best_hit m r (List.length (ms_tris m)) o.
Proof. intros W. destruct (loop_best m r W _ (le_n _)) as (o&E&B). exists o. unfold mesh_intersect. rewrite E. auto. Qed.
