(** C40, C41, C60, C61, C92-C98, C101, C102: emitters, shadow rays and direct lighting. *)
From Coq Require Import Reals List Bool ZArith Lra Lia String.
From Coquelicot Require Import Rbar.
From Flocq Require Import Core.
From Verif.Base Require Import Outcome.
From Verif.Model Require Import Vec Frame BBox Warp Integrators Bsdf Scene.
From Verif.Spec Require Import LinAlgSpec FrameSpec IntegratorSpec PathSpec SceneSpec.
From Verif.Proof Require Import VecLemmas FrameProof IntegratorProof HistoryProof SceneProof.
Import ListNotations.
Open Scope R_scope.

(** C40: a point light of power P gives P / (4 pi d^2) at distance d, from the direction of the light *)
Theorem C40_inverse_square mesh_point power pos p u : pos <> p -> exists s,
  sample_nee mesh_point (EPoint power pos) p u = Ok s /\
  let d := norm (vsub pos p) in
  0 < d /\ sqrNorm (es_wi s) = 1 /\ pos = vadd p (vscale (es_wi s) d) /\ es_sqr_dist s = Some (d * d) /\ es_pdf s = 1 /\
  es_color s = V3 (point_irradiance (vx power) d) (point_irradiance (vy power) d) (point_irradiance (vz power) d).
Proof.
  intros N. eexists. split; [reflexivity|]. cbv zeta. cbn [es_wi es_sqr_dist es_pdf es_color].
  assert (Nz : vsub pos p <> V3 0 0 0) by (intros E; apply N; injection E as E1 E2 E3; apply V3_eq; lra).
  pose proof (norm_pos _ Nz) as D. pose proof (normalized_unit _ Nz) as U. pose proof (normalized_scale _ Nz) as W.
  rewrite sqrNorm_norm with (v := vsub pos p). set (d := norm (vsub pos p)) in *.
  split; [exact D|]. split; [rewrite <- dot_self; exact U|]. split; [rewrite <- W; apply V3_eq; simpl; ring|].
  split; [reflexivity|]. split; [reflexivity|].
  pose proof PI_RGT_0. unfold point_irradiance. apply vec3_eq; simpl; field; lra.
Qed.
Print Assumptions C40_inverse_square.
Example C40_case : exists s, sample_nee (fun _ _ => UB) (EPoint (V3c (4 * PI)) (V3 0 0 2)) (V3 0 0 0) (V2 0 0) = Ok s /\ es_sqr_dist s = Some 4 /\ vx (es_color s) = 1 / 4.
Proof.
  assert (N : V3 0 0 2 <> V3 0 0 0) by (intros E; injection E; lra).
  destruct (C40_inverse_square (fun _ _ => UB) (V3c (4 * PI)) (V3 0 0 2) (V3 0 0 0) (V2 0 0) N) as (s&E&_&_&_&D&_&C).
  exists s. split; [exact E|]. assert (Q : norm (vsub (V3 0 0 2) (V3 0 0 0)) = 2).
  { unfold norm. cbn [vsub vx vy vz]. replace ((0 - 0) * (0 - 0) + (0 - 0) * (0 - 0) + (2 - 0) * (2 - 0)) with (2 * 2) by ring. apply sqrt_square. lra. }
  rewrite Q in *. split; [rewrite D; f_equal; ring|]. rewrite C. cbn [vx]. unfold point_irradiance. simpl. field. pose proof PI_RGT_0. lra.
Qed.

(** C41 is false: the light keeps the direction as given.  A directional light given (0,0,2) lights
    from a vector of length 2 *)
Theorem C41_unit_direction_refuted : exists d radiance s,
  sample_nee (fun _ _ => UB) (new_directional d radiance) (V3c 0) (V2 0 0) = Ok s /\ d <> V3c 0 /\ sqrNorm (es_wi s) <> 1.
Proof. exists (V3 0 0 2), (V3c 1). eexists. split; [reflexivity|]. split; [intros E; injection E; lra|]. unfold sqrNorm. simpl. lra. Qed.
Print Assumptions C41_unit_direction_refuted.
(** what is used is the given vector: unit exactly when it was given as such *)
Theorem C41_direction_as_given mesh_point d radiance p u : exists s,
  sample_nee mesh_point (new_directional d radiance) p u = Ok s /\ es_wi s = d /\ es_color s = radiance.
Proof. eexists. split; [reflexivity|]. split; reflexivity. Qed.
Print Assumptions C41_direction_as_given.
Example C41_case : exists s, sample_nee (fun _ _ => UB) (new_directional (V3 0 0 1) (V3c 3)) (V3c 0) (V2 0 0) = Ok s /\ es_wi s = V3 0 0 1.
Proof. destruct (C41_direction_as_given (fun _ _ => UB) (V3 0 0 1) (V3c 3) (V3c 0) (V2 0 0)) as (s&E&W&_). eauto. Qed.

(** C60 *)
Theorem C60_shadow_rays mat c : let c' := accumulate_shadow_rays mat c in
  c_nee c' = vadd (c_nee c) (delivered mat (c_wi c) (c_shadow c)) /\ c_shadow c' = [] /\
  c_wi c' = c_wi c /\ c_wo c' = c_wo c /\ c_albedo c' = c_albedo c /\ c_emission c' = c_emission c /\ c_pdf c' = c_pdf c /\ c_eta c' = c_eta c /\
  c_spec c' = c_spec c /\ c_last_spec c' = c_last_spec c /\ c_all c' = c_all c /\ c_accepts c' = c_accepts c.
Proof.
  cbv zeta. split; [|repeat split; reflexivity]. cbn [accumulate_shadow_rays c_nee]. unfold delivered.
  generalize (c_nee c). induction (c_shadow c) as [|e l IH]; intros nee; [simpl; apply vec3_eq; simpl; ring|].
  cbn [shadow_sum filter]. rewrite IH. destruct (e_valid e); cbn [map]; [|reflexivity].
  match goal with |- vadd (vadd ?a ?b) (vsum ?s) = _ => change (vsum (b :: s)) with (vadd b (vsum s)); generalize a b (vsum s) end. intros. apply vec3_eq; simpl; ring.
Qed.
Print Assumptions C60_shadow_rays.
Example C60_case : c_nee (accumulate_shadow_rays (fun _ _ => V3c (1 / 2))
    (Closure (V3 0 0 1) (V3 0 0 1) [EmEval (V3c 4) (V3 0 0 1) true; EmEval (V3c 100) (V3 0 0 1) false; EmEval (V3c 2) (V3 0 0 1) true]
       (V3c 0) (V3c 0) (V3c 1) 1 1 false false true true)) = V3c 4.
Proof. rewrite (proj1 (C60_shadow_rays _ _)). unfold delivered. simpl. apply vec3_eq; simpl; lra. Qed.

Section Scene.
Variable mesh_point : nat -> vec2 -> outcome (vec3 * vec3 * R).
Context {M : Type}.
Variable inside : nat -> option (option M).
Variable T : M -> Rbar -> Rbar -> vec3.
Variable lines : vec3 -> vec3 -> list isect.
Variable fuel : nat.
Variable emitters : list emitter.
Variable inst : nat -> nat.
Let transmittance (m : M) (r : ray) : query vec3 := QRet (T m (rnear r) (rfar r)).

(** C92: what is computed: blocked exactly by solid surfaces in range; otherwise every stretch
    between consecutive boundaries counts as filled with the medium of the first of the two (the
    stretch up to the first boundary with the initial medium) *)
Theorem C92_computed r initial beta us vs : let l := on_ray lines r in
  ordered (1 / 1000) (lines (org r) (dir r)) -> bounded inside l -> (List.length l < fuel)%nat ->
  play (scene_hit lines) (intersect_transmittance M inside transmittance fuel r initial beta) us vs =
    Some (Ok (if existsb (fun i => negb (i_null i)) l then (true, beta)
      else (false, match initial, l with
                   | None, _ => vmul beta (between (medium_of inside) T l)
                   | Some m, [] => vmul beta (T m (rnear r) (rfar r))
                   | Some m, i :: l' => vmul (vmul beta (T m (rnear r) (Finite (i_t i)))) (between (medium_of inside) T l')
                   end)), us, vs).
Proof. exact (play_transmittance inside T lines fuel r initial beta us vs). Qed.

(** the cases in which this is the transmittance of the media on the way *)
Theorem C92_no_media_partial r beta us vs : ordered (1 / 1000) (lines (org r) (dir r)) -> bounded inside (on_ray lines r) ->
  (List.length (on_ray lines r) < fuel)%nat -> (forall i, In i (on_ray lines r) -> i_null i = true /\ medium_of inside i = None) ->
  play (scene_hit lines) (intersect_transmittance M inside transmittance fuel r None beta) us vs =
    Some (Ok (false, vmul beta (through (medium_of inside) T None (rnear r) (on_ray lines r) (rfar r))), us, vs).
Proof.
  intros O B F A. rewrite C92_computed by assumption.
  assert (S : existsb (fun i => negb (i_null i)) (on_ray lines r) = false).
  { destruct (existsb _ _) eqn:E; [|reflexivity]. apply existsb_exists in E as (x&X&Y). rewrite (proj1 (A x X)) in Y. discriminate. }
  rewrite S.
  assert (E1 : forall l, (forall i, In i l -> medium_of inside i = None) -> between (medium_of inside) T l = V3c 1).
  { induction l as [|i [|j l] IH]; intros H; [reflexivity..|]. change (between (medium_of inside) T (i :: j :: l)) with
      (match medium_of inside i with Some m => vmul (T m (Finite (i_t i + 1 / 1000)) (Finite (i_t j))) (between (medium_of inside) T (j :: l)) | None => between (medium_of inside) T (j :: l) end).
    rewrite (H i (or_introl eq_refl)). apply IH. intros k K. apply H. now right. }
  assert (E2 : forall l near, (forall i, In i l -> medium_of inside i = None) -> through (medium_of inside) T None near l (rfar r) = V3c 1).
  { induction l as [|i l IH]; intros near H; [reflexivity|]. cbn [through]. rewrite (H i (or_introl eq_refl)), IH by (intros k K; apply H; now right). apply vmul_1_r. }
  rewrite E1, E2 by (intros i I1; apply (proj2 (A i I1))). reflexivity.
Qed.
Theorem C92_leaving_one_medium_partial r m i beta us vs : ordered (1 / 1000) (lines (org r) (dir r)) -> bounded inside (on_ray lines r) ->
  (List.length (on_ray lines r) < fuel)%nat -> on_ray lines r = [i] \/ on_ray lines r = [] -> (forall j, In j (on_ray lines r) -> i_null j = true) ->
  play (scene_hit lines) (intersect_transmittance M inside transmittance fuel r (Some m) beta) us vs =
    Some (Ok (false, vmul beta (through (medium_of inside) T (Some m) (rnear r) (on_ray lines r) (rfar r))), us, vs).
Proof.
  intros O B F A N. rewrite C92_computed by assumption. destruct A as [E|E]; rewrite E in *; cbn [existsb through between].
  - rewrite (N i (or_introl eq_refl)). cbn [negb orb]. rewrite !vmul_1_r. reflexivity.
  - reflexivity.
Qed.
(** crossing one medium: its transmittance without the first 1/1000 *)
Theorem C92_crossing_one_medium_partial r m i j beta us vs : ordered (1 / 1000) (lines (org r) (dir r)) -> bounded inside (on_ray lines r) ->
  (2 < fuel)%nat -> on_ray lines r = [i; j] -> i_null i = true -> i_null j = true -> medium_of inside i = Some m ->
  play (scene_hit lines) (intersect_transmittance M inside transmittance fuel r None beta) us vs =
    Some (Ok (false, vmul beta (T m (Finite (i_t i + 1 / 1000)) (Finite (i_t j)))), us, vs).
Proof.
  intros O B F A Ni Nj Mi. rewrite C92_computed; [|assumption|assumption|rewrite A; simpl; lia]. rewrite A in *. cbn [existsb between].
  rewrite Ni, Nj, Mi. cbn [negb orb]. rewrite vmul_1_r. reflexivity.
Qed.

(** C95: the one-light strategy picks light k for u in [k/n, (k+1)/n), that is with probability 1/n,
    and then records n times what light k alone gives; so the expected value is the sum over the lights *)
Theorem C95_one_light_unbiased ignore hit its media im k e u us vs o us' vs' :
  nth_error emitters k = Some e -> INR k / INR (List.length emitters) <= u < (INR k + 1) / INR (List.length emitters) ->
  (match em_mesh e with Some m => inst m <> inst (i_mesh its) | None => True end) ->
  play hit (eval_emitter mesh_point M inside transmittance fuel ignore its media (fn (i_s its)) im 1 e) us vs = Some (Ok o, us', vs') ->
  play hit (eval_one mesh_point M inside transmittance fuel emitters inst ignore its media im) (u :: us) vs =
    Some (Ok [match o with
              | Some (w, t) => EmEval (vscale t (INR (List.length emitters))) (toLocal (i_s its) w) true
              | None => EmEval (V3c 0) (V3c 0) false
              end], us', vs').
Proof.
  intros N U S E. assert (K : (k < List.length emitters)%nat) by (apply nth_error_Some; congruence).
  assert (P : 0 < INR (List.length emitters)) by (apply lt_0_INR; lia).
  rewrite (eval_one_cell mesh_point inside transmittance fuel emitters inst ignore hit its media im k e u us vs o us' vs' N) ; auto.
  - destruct o as [[w t]|]; reflexivity.
  - destruct U as [U1 U2]. split.
    + apply (Rmult_le_compat_r (INR (List.length emitters))) in U1; [|lra]. unfold Rdiv in U1. rewrite Rmult_assoc, Rinv_l, Rmult_1_r in U1; lra.
    + apply (Rmult_lt_compat_r (INR (List.length emitters))) in U2; [|lra]. unfold Rdiv in U2. rewrite Rmult_assoc, Rinv_l, Rmult_1_r in U2; lra.
Qed.

(** C101: light of a point light: blocked exactly by solid surfaces between the surface and the
    light (both ends shortened by 1/1000); otherwise irradiance times cosine times what the media let
    through.  The cosine is that of the geometric frame when all lights are sampled. *)
Theorem C101_point_light its power pos nrm v us vs : let d := norm (vsub pos (i_p its)) in let w := normalized (vsub pos (i_p its)) in
  let r := Ray (i_p its) w (Finite (1 / 1000)) (Finite (d - 1 / 1000)) in
  pos <> i_p its -> - (1 / 1000) <= dot nrm w ->
  ordered (1 / 1000) (lines (i_p its) w) -> bounded inside (on_ray lines r) -> (List.length (on_ray lines r) < fuel)%nat ->
  play (scene_hit lines) (eval_emitter mesh_point M inside transmittance fuel false its None nrm false 1 (EPoint power pos)) us (v :: vs) =
    Some (Ok (if existsb (fun i => negb (i_null i)) (on_ray lines r) then None
              else Some (w, vmul (vscale (V3 (point_irradiance (vx power) d) (point_irradiance (vy power) d) (point_irradiance (vz power) d)) (dot nrm w))
                              (between (medium_of inside) T (on_ray lines r)))), us, vs).
Proof.
  cbv zeta. intros N C O B F. unfold eval_emitter. cbn [play].
  destruct (C40_inverse_square mesh_point power pos (i_p its) v N) as (s&Es&D&U&W&Q&P&Cl). cbv zeta in *.
  assert (Ws : es_wi s = normalized (vsub pos (i_p its))).
  { cbn [sample_nee] in Es. injection Es as <-. reflexivity. }
  erewrite play_obind. 2:{ rewrite Es. reflexivity. }
  assert (Sq : play (scene_hit lines) (shadow_query fuel its (EPoint power pos) s) us vs =
    Some (Ok (Ray (i_p its) (normalized (vsub pos (i_p its))) (Finite (1 / 1000)) (Finite (norm (vsub pos (i_p its)) - 1 / 1000)),
       V3 (point_irradiance (vx power) (norm (vsub pos (i_p its)))) (point_irradiance (vy power) (norm (vsub pos (i_p its)))) (point_irradiance (vz power) (norm (vsub pos (i_p its)))), 1), us, vs)).
  { unfold shadow_query. cbn [needs_visibility]. rewrite Q, Ws, Cl, P. cbn [play]. rewrite sqrt_square by lra. unfold Epsilon. reflexivity. }
  erewrite play_obind by exact Sq. cbv beta iota.
  erewrite play_obind. 2:{ apply (C92_computed (Ray (i_p its) (normalized (vsub pos (i_p its))) (Finite (1 / 1000)) (Finite (norm (vsub pos (i_p its)) - 1 / 1000))) None (V3c 1)); assumption. }
  destruct (existsb _ _); cbv beta iota; [reflexivity|]. cbn [negb orb play dir].
  destruct (Req_EM_T 1 0); [lra|]. unfold nee_cos. destruct (Rlt_dec _ _); [unfold Epsilon in *; lra|]. match goal with |- Some (Ok (Some (_, ?a)), _, _) = Some (Ok (Some (_, ?b)), _, _) => replace a with b; [reflexivity|] end.
  match goal with |- vmul (vscale ?a ?k) ?b = _ => generalize a k b end. intros. apply vec3_eq; simpl; field.
Qed.

(** C97: light of a mesh light, sampled at point q with normal n and density pdf per area *)
Theorem C97_mesh_light its m L nrm v q n pdf us vs : let d := norm (vsub q (i_p its)) in let w := normalized (vsub q (i_p its)) in
  let r := Ray (i_p its) w (Finite (1 / 1000)) (Finite (d - 1 / 1000)) in
  mesh_point m v = Ok (q, n, pdf) -> q <> i_p its -> 0 < pdf -> 1 / 1000 < dot (vneg w) n -> - (1 / 1000) <= dot nrm w ->
  ordered (1 / 1000) (lines (i_p its) w) -> bounded inside (on_ray lines r) -> (List.length (on_ray lines r) < fuel)%nat ->
  play (scene_hit lines) (eval_emitter mesh_point M inside transmittance fuel false its None nrm false 1 (EMesh m L)) us (v :: vs) =
    Some (Ok (if existsb (fun i => negb (i_null i)) (on_ray lines r) then None
              else Some (w, vmul (vscale L (dot nrm w * dot (vneg w) n / (d * d) / pdf)) (between (medium_of inside) T (on_ray lines r)))), us, vs).
Proof.
  cbv zeta. intros Mp N Pp Cl C O B F. unfold eval_emitter. cbn [play].
  assert (Nz : vsub q (i_p its) <> V3 0 0 0) by (intros E; apply N; injection E as E1 E2 E3; apply V3_eq; lra).
  pose proof (norm_pos _ Nz) as D. pose proof (norm_sqr (vsub q (i_p its))) as D2.
  erewrite play_obind. 2:{ cbn [sample_nee]. rewrite Mp. cbn [bind]. destruct (Rle_dec _ _) as [X|X]; [exfalso; unfold Epsilon in X; lra|]. reflexivity. }
  set (d := norm (vsub q (i_p its))) in *. set (w := normalized (vsub q (i_p its))) in *.
  erewrite play_obind. 2:{ unfold shadow_query. cbn [needs_visibility es_sqr_dist es_wi es_pdf es_color play]. rewrite <- D2, sqrt_square by lra. unfold Epsilon. reflexivity. }
  cbv beta iota. erewrite play_obind. 2:{ apply (C92_computed (Ray (i_p its) w (Finite (1 / 1000)) (Finite (d - 1 / 1000))) None (V3c 1)); assumption. }
  destruct (existsb _ _); cbv beta iota; [reflexivity|]. cbn [negb orb play dir]. rewrite Rabs_right by lra.
  assert (P : 0 < pdf * (d * d) / dot (vneg w) n) by (apply Rdiv_lt_0_compat; [apply Rmult_lt_0_compat; nra|lra]).
  destruct (Req_EM_T _ 0); [lra|]. unfold nee_cos. destruct (Rlt_dec _ _); [unfold Epsilon in *; lra|].
  match goal with |- Some (Ok (Some (_, ?a)), _, _) = Some (Ok (Some (_, ?b)), _, _) => replace a with b; [reflexivity|] end.
  generalize (between (medium_of inside) T (on_ray lines {| org := i_p its; dir := w; rnear := 1 / 1000; rfar := d - 1 / 1000 |})). intros b.
  apply vec3_eq; simpl; field; lra.
Qed.
End Scene.
Print Assumptions C97_mesh_light.
Print Assumptions C92_computed.
Print Assumptions C92_no_media_partial.
Print Assumptions C92_leaving_one_medium_partial.
Print Assumptions C92_crossing_one_medium_partial.
Print Assumptions C95_one_light_unbiased.
Print Assumptions C101_point_light.

(** a medium that absorbs *)
Definition absorb (_ : unit) (a b : Rbar) : vec3 := V3c (exp (- 10 * (real b - real a))).
Definition fog (_ : nat) : option (option unit) := Some (Some tt).
Definition wall_at (t : R) (null : bool) : isect := Isect (V3 0 0 t) t (V3c (1 / 3)) (Fr (V3 1 0 0) (V3 0 1 0) (V3 0 0 1)) (Fr (V3 1 0 0) (V3 0 1 0) (V3 0 0 1)) 0 null.
Definition z_ray (far : R) : ray := Ray (V3c 0) (V3 0 0 1) (Finite (1 / 1000)) (Finite far).
Ltac range := apply andb_true_intro; split; apply leb_iff; simpl; lra.
Ltac inside_all := unfold on_ray; cbn [filter org dir z_ray]; repeat match goal with |- context [if ?b then _ else _] => replace b with true by (symmetry; range) end; reflexivity.

(** C92 is false for two media behind each other: the gap between them is attenuated as well *)
Theorem C92_two_media_refuted : exists l r c, ordered (1 / 1000) l /\ (forall i, In i l -> i_null i = true) /\
  play (scene_hit (fun _ _ => l)) (intersect_transmittance unit fog (fun m r => QRet (absorb m (rnear r) (rfar r))) 10 r None (V3c 1)) [] [] = Some (Ok (false, c), [], []) /\
  vx c < vx (through (medium_of fog) absorb None (rnear r) (on_ray (fun _ _ => l) r) (rfar r)) / 10.
Proof.
  set (l := [wall_at 1 true; wall_at 2 true; wall_at 3 true; wall_at 4 true]). exists l, (z_ray 10). eexists.
  assert (A : on_ray (fun _ _ => l) (z_ray 10) = l) by (unfold l; inside_all).
  assert (O : ordered (1 / 1000) l) by (simpl; lra).
  split; [exact O|]. split; [simpl; intros i H; repeat (destruct H as [<-|H]; [reflexivity|]); destruct H|]. split.
  - rewrite (C92_computed fog absorb (fun _ _ => l) 10 (z_ray 10) None (V3c 1) [] []); [rewrite A; reflexivity|exact O|intros i _ _; discriminate|rewrite A; simpl; lia].
  - rewrite A. cbn [between through l existsb i_null wall_at negb orb vx vmul V3c absorb medium_of fog i_mesh i_t rfar rnear real].
    rewrite !Rmult_1_l, !Rmult_1_r, <- !exp_plus.
    replace (-10 * (2 - (1 + 1 / 1000)) + (-10 * (3 - (2 + 1 / 1000)) + -10 * (4 - (3 + 1 / 1000)))) with (- (9 + 97 / 100) + (-10 * (2 - 1) + -10 * (4 - 3))) by lra.
    rewrite exp_plus. set (e := exp (_ + _)). assert (0 < e) by apply exp_pos.
    assert (X : exp (- (9 + 97 / 100)) < 1 / 10); [|nra]. rewrite exp_Ropp. pose proof (exp_ineq1 (9 + 97 / 100) ltac:(lra)).
    apply Rlt_le_trans with (/ (1 + (9 + 97 / 100))); [apply Rinv_lt_contravar; nra|]. lra.
Qed.
Print Assumptions C92_two_media_refuted.
(** ... and for a light inside a medium: the last stretch is not attenuated *)
Theorem C92_light_in_medium_refuted : exists l r, ordered (1 / 1000) l /\ (forall i, In i l -> i_null i = true) /\
  play (scene_hit (fun _ _ => l)) (intersect_transmittance unit fog (fun m r => QRet (absorb m (rnear r) (rfar r))) 10 r None (V3c 1)) [] [] = Some (Ok (false, V3c 1), [], []) /\
  vx (through (medium_of fog) absorb None (rnear r) (on_ray (fun _ _ => l) r) (rfar r)) < 1 / 10.
Proof.
  set (l := [wall_at 1 true]). exists l, (z_ray 2). assert (A : on_ray (fun _ _ => l) (z_ray 2) = l) by (unfold l; inside_all).
  assert (O : ordered (1 / 1000) l) by (simpl; lra).
  split; [exact O|]. split; [simpl; intros i H; repeat (destruct H as [<-|H]; [reflexivity|]); destruct H|]. split.
  - rewrite (C92_computed fog absorb (fun _ _ => l) 10 (z_ray 2) None (V3c 1) [] []); [|exact O|intros i _ _; discriminate|rewrite A; simpl; lia].
    rewrite A. cbn [between l existsb i_null wall_at negb orb]. rewrite vmul_1_r. reflexivity.
  - rewrite A. cbn [through l vx vmul V3c absorb medium_of fog i_mesh i_t rfar rnear real wall_at z_ray].
    rewrite Rmult_1_l. replace (-10 * (2 - 1)) with (Ropp 10) by lra. rewrite exp_Ropp. pose proof (exp_ineq1 10 ltac:(lra)).
    apply Rlt_le_trans with (/ (1 + 10)); [apply Rinv_lt_contravar; nra|]. lra.
Qed.
Print Assumptions C92_light_in_medium_refuted.
(** a null boundary without inside: the pointer is followed all the same *)
Theorem C92_missing_inside_refuted {M : Type} (inside : nat -> option (option M)) tr fuel lines r us vs i l beta : on_ray lines r = i :: l -> i_null i = true ->
  inside (i_mesh i) = None -> (0 < fuel)%nat -> play (scene_hit lines) (intersect_transmittance M inside tr fuel r None beta) us vs = Some (UB, us, vs).
Proof.
  intros E N I F. unfold intersect_transmittance, obind. rewrite play_bind. destruct fuel as [|n]; [lia|]. cbn [tr_loop play].
  destruct r as [o d near far]. cbn [org dir rnear rfar]. rewrite hit_hd, E. cbn [hd_error]. rewrite N, I. reflexivity.
Qed.
Print Assumptions C92_missing_inside_refuted.
(** one slab of fog between 1 and 2 *)
Example C92_case : play (scene_hit (fun _ _ => [wall_at 1 true; wall_at 2 true])) (intersect_transmittance unit fog (fun m r => QRet (absorb m (rnear r) (rfar r))) 10 (z_ray 10) None (V3c 3)) [] []
  = Some (Ok (false, vmul (V3c 3) (absorb tt (Finite (1 + 1 / 1000)) (Finite 2))), [], []).
Proof.
  assert (A : on_ray (fun _ _ => [wall_at 1 true; wall_at 2 true]) (z_ray 10) = [wall_at 1 true; wall_at 2 true]) by inside_all.
  apply (C92_crossing_one_medium_partial fog absorb (fun _ _ => [wall_at 1 true; wall_at 2 true]) 10 (z_ray 10) tt (wall_at 1 true) (wall_at 2 true) (V3c 3) [] []);
    try reflexivity; [simpl; lra|intros i _ _; discriminate|lia|exact A].
Qed.
(** a wall between *)
Example C92_blocked_case : play (scene_hit (fun _ _ => [wall_at 1 true; wall_at 2 false])) (intersect_transmittance unit fog (fun m r => QRet (absorb m (rnear r) (rfar r))) 10 (z_ray 10) None (V3c 3)) [] []
  = Some (Ok (true, V3c 3), [], []).
Proof.
  assert (A : on_ray (fun _ _ => [wall_at 1 true; wall_at 2 false]) (z_ray 10) = [wall_at 1 true; wall_at 2 false]) by inside_all.
  rewrite (C92_computed fog absorb (fun _ _ => [wall_at 1 true; wall_at 2 false]) 10 (z_ray 10) None (V3c 3) [] []);
    [rewrite A; reflexivity|simpl; lra|intros i _ _; discriminate|rewrite A; simpl; lia].
Qed.

(** a point light of power 4 pi at height 2 over a floor at the origin, nothing between *)
Definition floor : isect := Isect (V3c 0) 1 (V3c (1 / 3)) (Fr (V3 1 0 0) (V3 0 1 0) (V3 0 0 1)) (Fr (V3 1 0 0) (V3 0 1 0) (V3 0 0 1)) 0 false.
Lemma up_norm : norm (vsub (V3 0 0 2) (V3c 0)) = 2.
Proof. unfold norm. cbn [vsub V3c vx vy vz]. replace ((0 - 0) * (0 - 0) + (0 - 0) * (0 - 0) + (2 - 0) * (2 - 0)) with (2 * 2) by ring. apply sqrt_square. lra. Qed.
Lemma up_dir : normalized (vsub (V3 0 0 2) (V3c 0)) = V3 0 0 1.
Proof. unfold normalized. rewrite up_norm. apply vec3_eq; simpl; lra. Qed.
Example C101_case : play (scene_hit (fun _ _ => [])) (eval_emitter (fun _ _ => UB) unit fog (fun m r => QRet (absorb m (rnear r) (rfar r))) 10 false floor None (V3 0 0 1) false 1
    (EPoint (V3c (4 * PI)) (V3 0 0 2))) [] [V2 0 0] = Some (Ok (Some (V3 0 0 1, V3c (1 / 4))), [], []).
Proof.
  rewrite (C101_point_light (fun _ _ => UB) fog absorb (fun _ _ => []) 10 floor (V3c (4 * PI)) (V3 0 0 2) (V3 0 0 1) (V2 0 0) [] []); cbn [i_p floor];
    [|intros E; injection E; lra|rewrite up_dir; unfold dot; simpl; lra|exact I|intros i []|simpl; lia].
  rewrite up_norm, up_dir. cbn [on_ray filter existsb]. repeat f_equal. pose proof PI_RGT_0. unfold point_irradiance, dot. apply vec3_eq; simpl; field; lra.
Qed.
(** the same with a wall at 1 *)
Example C101_blocked_case : play (scene_hit (fun _ _ => [wall_at 1 false])) (eval_emitter (fun _ _ => UB) unit fog (fun m r => QRet (absorb m (rnear r) (rfar r))) 10 false floor None (V3 0 0 1) false 1
    (EPoint (V3c (4 * PI)) (V3 0 0 2))) [] [V2 0 0] = Some (Ok None, [], []).
Proof.
  assert (A : on_ray (fun _ _ => [wall_at 1 false]) (Ray (V3c 0) (V3 0 0 1) (Finite (1 / 1000)) (Finite (2 - 1 / 1000))) = [wall_at 1 false]).
  { unfold on_ray. cbn [filter]. replace (_ && _)%bool with true; [reflexivity|]. symmetry. range. }
  rewrite (C101_point_light (fun _ _ => UB) fog absorb (fun _ _ => [wall_at 1 false]) 10 floor (V3c (4 * PI)) (V3 0 0 2) (V3 0 0 1) (V2 0 0) [] []); cbn [i_p floor]; rewrite ?up_norm, ?up_dir, ?A;
    [reflexivity|intros E; injection E; lra|unfold dot; simpl; lra|simpl; tauto|intros i _ _; discriminate|simpl; lia].
Qed.
Definition lamp_point (_ : nat) (_ : vec2) : outcome (vec3 * vec3 * R) := Ok (V3 0 0 2, V3 0 0 (-1), 1 / 4).
(** a lamp of area 4 at height 2 facing down *)
Example C97_case : play (scene_hit (fun _ _ => [])) (eval_emitter lamp_point unit fog (fun m r => QRet (absorb m (rnear r) (rfar r))) 10 false floor None (V3 0 0 1) false 1
    (EMesh 1 (V3c 5))) [] [V2 0 0] = Some (Ok (Some (V3 0 0 1, V3c 5)), [], []).
Proof.
  rewrite (C97_mesh_light lamp_point fog absorb (fun _ _ => []) 10 floor 1 (V3c 5) (V3 0 0 1) (V2 0 0) (V3 0 0 2) (V3 0 0 (-1)) (1 / 4) [] []); cbn [i_p floor];
    [|reflexivity|intros E; injection E; lra|lra|rewrite up_dir; unfold dot; simpl; lra|rewrite up_dir; unfold dot; simpl; lra|exact I|intros i []|simpl; lia].
  rewrite up_norm, up_dir. cbn [on_ray filter existsb]. repeat f_equal. unfold dot. apply vec3_eq; simpl; lra.
Qed.
(** the same light twice in the list: the second is chosen for 1/2 <= u < 1 and counts double *)
Example C95_case : play (scene_hit (fun _ _ => [])) (eval_one lamp_point unit fog (fun m r => QRet (absorb m (rnear r) (rfar r))) 10
    [EPoint (V3c 1) (V3 1 1 1); EMesh 1 (V3c 5)] (fun m => m) false floor None false) [3 / 4] [V2 0 0] = Some (Ok [EmEval (V3c 10) (V3 0 0 1) true], [], []).
Proof.
  rewrite (C95_one_light_unbiased lamp_point fog absorb 10 [EPoint (V3c 1) (V3 1 1 1); EMesh 1 (V3c 5)] (fun m => m) false (scene_hit (fun _ _ => [])) floor None false 1 (EMesh 1 (V3c 5)) (3 / 4) [] [V2 0 0] _ _ _ eq_refl ltac:(simpl; lra) ltac:(simpl; lia) C97_case).
  repeat f_equal; apply vec3_eq; simpl; unfold dot; simpl; lra.
Qed.

(** C96 is false: just below the horizon a light subtracts *)
Theorem C96_negative_light_refuted : exists pos nrm w t, sqrNorm nrm = 1 /\
  play (scene_hit (fun _ _ => [])) (eval_emitter (fun _ _ => UB) unit fog (fun m r => QRet (absorb m (rnear r) (rfar r))) 10 false floor None nrm false 1
    (EPoint (V3c (4 * PI)) pos)) [] [V2 0 0] = Some (Ok (Some (w, t)), [], []) /\ vx t < 0 /\ vy t < 0 /\ vz t < 0.
Proof.
  set (s := sqrt (1 - 1 / 4000000)). assert (S : s * s = 1 - 1 / 4000000) by (apply sqrt_sqrt; lra).
  exists (V3 0 0 2), (V3 s 0 (- (1 / 2000))). eexists. eexists. split; [unfold sqrNorm; simpl; lra|]. split.
  - rewrite (C101_point_light (fun _ _ => UB) fog absorb (fun _ _ => []) 10 floor (V3c (4 * PI)) (V3 0 0 2) (V3 s 0 (- (1 / 2000))) (V2 0 0) [] []); cbn [i_p floor];
      [cbn [on_ray filter existsb]; reflexivity|intros E; injection E; lra|rewrite up_dir; unfold dot; simpl; lra|exact I|intros i []|simpl; lia].
  - rewrite up_norm, up_dir. cbn [between on_ray filter]. unfold point_irradiance, dot. simpl.
    assert (E : 4 * PI / (4 * PI * (2 * 2)) = 1 / 4) by (field; pose proof PI_RGT_0; lra). rewrite E. lra.
Qed.
Print Assumptions C96_negative_light_refuted.
(** away from that sliver, contributions are never negative *)
Theorem C96_nonnegative_partial mesh_point {M} inside tr fuel ignore its media nrm im p e w t :
  (forall m u q n d, mesh_point m u = Ok (q, n, d) -> 0 <= d) -> (forall m r x, leaf (tr m r) x -> nonneg x) ->
  (match e with EPoint c _ | EDirectional _ c | ESpot _ _ c _ | EMesh _ c | EDirMesh _ _ c => nonneg c | _ => True end) -> 0 < p ->
  leaf (eval_emitter mesh_point M inside tr fuel ignore its media nrm im p e) (Ok (Some (w, t))) ->
  im = true \/ dot nrm w < - (1 / 1000) \/ 0 <= dot nrm w -> nonneg t.
Proof. intros D T N. exact (eval_emitter_nonneg mesh_point D inside tr T fuel ignore its media nrm im p e w t N). Qed.
Print Assumptions C96_nonnegative_partial.
Example C96_case : nonneg (V3c (1 / 4)).
Proof.
  apply (C96_nonnegative_partial (fun _ _ => UB) fog (fun m r => QRet (absorb m (rnear r) (rfar r))) 10 false floor None (V3 0 0 1) false 1 (EPoint (V3c (4 * PI)) (V3 0 0 2)) (V3 0 0 1)).
  - discriminate.
  - intros m r x L. apply leaf_ret_inv in L. subst. pose proof (exp_pos (- 10 * (real (rfar r) - real (rnear r)))). repeat split; simpl; lra.
  - pose proof PI_RGT_0. repeat split; simpl; lra.
  - lra.
  - exact (play_leaf _ _ _ _ _ _ _ C101_case).
  - right. right. unfold dot. simpl. lra.
Qed.

(** C93 is false: the distance of a directional or spot light is read without being set *)
Theorem C93_distant_lights_refuted mesh_point {M} inside tr fuel ignore its media nrm im p e x :
  (exists d c, e = new_directional d c) \/ (exists q d c a, e = new_spot q d c a) ->
  leaf (eval_emitter mesh_point M inside tr fuel ignore its media nrm im p e) x -> x = UB.
Proof. intros D. apply distant_ub. destruct D as [(d&c&->)|(q&d&c&a&->)]; exact I. Qed.
Print Assumptions C93_distant_lights_refuted.
(** so no scene with such a light gets through the all-lights loop *)
Theorem C93_scene_refuted mesh_point {M} inside tr fuel ignore its media im emitters l :
  (exists d c, In (new_directional d c) emitters) \/ (exists q d c a, In (new_spot q d c a) emitters) ->
  ~ leaf (eval_all mesh_point M inside tr fuel ignore its media im emitters) (Ok l).
Proof. intros D. apply eval_all_distant. destruct D as [(d&c&D)|(q&d&c&a&D)]; eexists; (split; [exact D|exact I]). Qed.
Print Assumptions C93_scene_refuted.
Example C93_case : forall l, ~ leaf (eval_all lamp_point unit fog (fun m r => QRet (absorb m (rnear r) (rfar r))) 10 false floor None false
  [EMesh 1 (V3c 1); new_directional (V3 0 0 1) (V3c 1)]) (Ok l).
Proof. intros l. apply C93_scene_refuted. left. exists (V3 0 0 1), (V3c 1). simpl. auto. Qed.

(** C98: a spot light given a unit direction shines exactly on the points inside its cone, with the
    same radiance at every distance *)
Theorem C98_spot_cone mesh_point pos ldir radiance angle p u theta : sqrNorm ldir = 1 -> 0 <= angle <= 180 -> pos <> p ->
  angle_is (normalized (vsub p pos)) ldir theta -> exists s,
  sample_nee mesh_point (new_spot pos ldir radiance angle) p u = Ok s /\
  es_wi s = normalized (vsub pos p) /\ (theta < angle * PI / 180 -> es_color s = radiance) /\ (angle * PI / 180 <= theta -> es_color s = V3c 0).
Proof.
  intros U A N [T C]. eexists. split; [reflexivity|]. cbn [es_wi es_color]. split; [reflexivity|].
  pose proof PI_RGT_0 as Pi.
  assert (D : vz (toLocal (frame_of ldir) (vneg (normalized (vsub pos p)))) = cos theta).
  { rewrite <- C. unfold frame_of. destruct (coordinateSystem ldir) as [s t]. cbn [toLocal vz fn].
    assert (E : norm (vsub p pos) = norm (vsub pos p)) by (unfold norm; f_equal; simpl; ring).
    assert (Nz : vsub pos p <> V3 0 0 0) by (intros X; apply N; injection X as E1 E2 E3; apply V3_eq; lra). pose proof (norm_pos _ Nz) as P.
    unfold normalized. rewrite E. unfold dot. simpl. field. lra. }
  rewrite D. unfold degToRad. set (a := angle * (PI / 180)). assert (Ea : angle * PI / 180 = a) by (unfold a; field). rewrite Ea.
  assert (R1 : 0 <= a <= PI). { unfold a. split; [apply Rmult_le_pos; [lra|]; lra|]. apply Rle_trans with (180 * (PI / 180)); [apply Rmult_le_compat_r; lra|lra]. }
  split; intros H; destruct (Rgt_dec _ _) as [G|G]; try reflexivity; exfalso.
  - apply G. apply cos_decreasing_1; lra.
  - destruct H as [H|H]; [|rewrite H in G; lra]. assert (cos theta < cos a) by (apply cos_decreasing_1; lra). lra.
Qed.
Print Assumptions C98_spot_cone.
Example C98_case : exists s, sample_nee (fun _ _ => UB) (new_spot (V3 0 0 2) (V3 0 0 (-1)) (V3c 7) 30) (V3 0 0 0) (V2 0 0) = Ok s /\ es_color s = V3c 7.
Proof.
  assert (E : normalized (vsub (V3 0 0 0) (V3 0 0 2)) = V3 0 0 (-1)).
  { unfold normalized. assert (Q : norm (vsub (V3 0 0 0) (V3 0 0 2)) = 2).
    { unfold norm. cbn [vsub vx vy vz]. replace ((0 - 0) * (0 - 0) + (0 - 0) * (0 - 0) + (0 - 2) * (0 - 2)) with (2 * 2) by ring. apply sqrt_square. lra. }
    rewrite Q. apply vec3_eq; simpl; lra. }
  destruct (C98_spot_cone (fun _ _ => UB) (V3 0 0 2) (V3 0 0 (-1)) (V3c 7) 30 (V3 0 0 0) (V2 0 0) 0) as (s&S&_&C&_).
  - unfold sqrNorm. simpl. lra.
  - lra.
  - intros X. injection X. lra.
  - rewrite E. pose proof PI_RGT_0. split; [lra|]. rewrite cos_0. unfold dot. simpl. lra.
  - exists s. split; [exact S|]. apply C. pose proof PI_RGT_0. lra.
Qed.
(** C41 for spot lights: given direction (0,0,-2) and 45 degrees, a point far outside the cone is lit *)
Theorem C41_spot_refuted : exists ldir p s theta, ldir <> V3c 0 /\ sample_nee (fun _ _ => UB) (new_spot (V3c 0) ldir (V3c 7) 45) p (V2 0 0) = Ok s /\
  angle_is (normalized p) (normalized ldir) theta /\ 45 * PI / 180 < theta /\ es_color s = V3c 7.
Proof.
  exists (V3 0 0 (-2)), (V3 4 0 (-3)). eexists. exists (acos (3 / 5)). pose proof PI_RGT_0 as Pi.
  assert (N5 : forall x, x = vsub (V3c 0) (V3 4 0 (-3)) \/ x = V3 4 0 (-3) -> norm x = 5).
  { intros x H. unfold norm. replace (vx x * vx x + vy x * vy x + vz x * vz x) with (5 * 5) by (destruct H; subst x; simpl; ring). apply sqrt_square. lra. }
  assert (N2 : norm (V3 0 0 (-2)) = 2).
  { unfold norm. cbn [vx vy vz]. replace (0 * 0 + 0 * 0 + -2 * -2) with (2 * 2) by ring. apply sqrt_square. lra. }
  split; [intros X; injection X; lra|]. split; [reflexivity|]. split; [|split].
  - split; [apply acos_bound|]. rewrite cos_acos by lra. unfold normalized. rewrite N2, (N5 (V3 4 0 (-3))) by auto. unfold dot. simpl. lra.
  - destruct (Rlt_dec (45 * PI / 180) (acos (3 / 5))) as [|H]; [assumption|exfalso]. apply Rnot_lt_le in H.
    pose proof (acos_bound (3 / 5)) as B. assert (X : cos (45 * PI / 180) <= cos (acos (3 / 5))).
    { destruct H as [H|H]; [left; apply cos_decreasing_1; lra|right; rewrite H; reflexivity]. }
    rewrite cos_acos in X by lra. replace (45 * PI / 180) with (PI / 4) in X by field. rewrite cos_PI4 in X.
    assert (S : sqrt 2 * sqrt 2 = 2) by (apply sqrt_sqrt; lra). pose proof (sqrt_lt_R0 2 ltac:(lra)).
    assert (Y : 1 / sqrt 2 * (1 / sqrt 2) = 1 / 2). { transitivity (1 / (sqrt 2 * sqrt 2)); [field; lra|rewrite S; lra]. }
    assert (0 < 1 / sqrt 2) by (apply Rdiv_lt_0_compat; lra). nra.
  - cbn [es_color]. destruct (Rgt_dec _ _) as [_|G]; [reflexivity|exfalso; apply G].
    unfold frame_of. destruct (coordinateSystem _) as [s t]. cbn [toLocal vz fn]. unfold normalized. rewrite N5 by auto. unfold dot. cbn [vneg vsub V3c vx vy vz].
    replace (degToRad 45) with (PI / 4) by (unfold degToRad; field). pose proof (COS_bound (PI / 4)). lra.
Qed.
Print Assumptions C41_spot_refuted.

(** C61 is false: of k sampled lights, only the first entry of the list can ever be valid *)
Theorem C61_multi_exact mesh_point {M} inside tr fuel emitters inst ignore k its media im l :
  leaf (eval_multi mesh_point M inside tr fuel emitters inst ignore k its media im) (Ok l) ->
  List.length l = k /\ forall j e, (1 <= j)%nat -> nth_error l j = Some e -> e_valid e = false.
Proof. apply eval_multi_invalid. Qed.
Print Assumptions C61_multi_exact.
(** hence by C60 at most one of the k samples is counted *)
Theorem C61_one_counted mesh_point {M} inside tr fuel emitters inst ignore k its media im l mat wi :
  leaf (eval_multi mesh_point M inside tr fuel emitters inst ignore k its media im) (Ok l) ->
  delivered mat wi l = V3c 0 \/ exists e, nth_error l 0 = Some e /\ delivered mat wi l = vmul (e_throughput e) (mat wi (normalized (e_dir e))).
Proof.
  intros L. apply C61_multi_exact in L as [_ V]. unfold delivered. destruct l as [|e l]; [left; reflexivity|].
  assert (F : filter e_valid l = []).
  { assert (H : forall x, In x l -> e_valid x = false) by (intros x X; apply In_nth_error in X as (j&J); apply (V (S j) x); [lia|exact J]). clear V.
    induction l as [|x l IH]; [reflexivity|]. cbn [filter]. rewrite (H x (or_introl eq_refl)). apply IH. intros y Y. apply H. now right. }
  cbn [filter]. destruct (e_valid e); rewrite F; [|left; reflexivity]. right. exists e. split; [reflexivity|]. cbn [map vsum fold_right].
  match goal with |- vadd ?a _ = _ => generalize a end. intros a. apply vec3_eq; simpl; ring.
Qed.
Print Assumptions C61_one_counted.
(** two samples of the lamp of C97, neither blocked: the second is lost although it has a throughput *)
Theorem C61_samples_lost_refuted : exists a b, play (scene_hit (fun _ _ => [])) (eval_multi lamp_point unit fog (fun m r => QRet (absorb m (rnear r) (rfar r))) 10
    [EMesh 1 (V3c 5)] (fun m => m) false 2 floor None false) [0; 0] [V2 0 0; V2 0 0] = Some (Ok [a; b], [], []) /\
  e_throughput a = V3c 5 /\ e_throughput b = V3c 5 /\ e_valid a = true /\ e_valid b = false.
Proof.
  assert (Q : forall us vs, play (scene_hit (fun _ _ => [])) (eval_emitter lamp_point unit fog (fun m r => QRet (absorb m (rnear r) (rfar r))) 10 false floor None (V3 0 0 1) false (1 / INR 1)
    (EMesh 1 (V3c 5))) us (V2 0 0 :: vs) = Some (Ok (Some (V3 0 0 1, V3c 5)), us, vs)).
  { intros us vs. rewrite (eval_emitter_scale lamp_point fog _ 10 false (scene_hit (fun _ _ => [])) floor None (V3 0 0 1) false (1 / INR 1) (EMesh 1 (V3c 5)) us (V2 0 0 :: vs)
      (Some (V3 0 0 1, V3c 5)) us vs); [|simpl; lra|].
    - cbn [rescale]. repeat f_equal. apply vec3_eq; simpl; lra.
    - rewrite (C97_mesh_light lamp_point fog absorb (fun _ _ => []) 10 floor 1 (V3c 5) (V3 0 0 1) (V2 0 0) (V3 0 0 2) (V3 0 0 (-1)) (1 / 4) us vs); cbn [i_p floor];
        [|reflexivity|intros E; injection E; lra|lra|rewrite up_dir; unfold dot; simpl; lra|rewrite up_dir; unfold dot; simpl; lra|exact I|intros i []|simpl; lia].
      rewrite up_norm, up_dir. cbn [on_ray filter existsb]. repeat f_equal. unfold dot. apply vec3_eq; simpl; lra. }
  assert (C : forall us vs, play (scene_hit (fun _ _ => [])) (choose_emitter [EMesh 1 (V3c 5)] (fun m => m) floor) (0 :: us) vs = Some (Ok (Some (EMesh 1 (V3c 5), 1 / INR 1)), us, vs)).
  { intros us vs. apply (choose_cell [EMesh 1 (V3c 5)] (fun m => m) (scene_hit (fun _ _ => [])) floor 0 (EMesh 1 (V3c 5)) 0 us vs eq_refl); simpl; [lra|lia]. }
  do 2 eexists. split.
  - unfold eval_multi. cbn [eval_multi_loop]. erewrite play_obind by apply C. cbv beta iota. erewrite play_obind by apply Q. cbv beta iota zeta.
    erewrite play_obind by apply C. cbv beta iota. erewrite play_obind by apply Q. cbv beta iota zeta. cbn [play]. reflexivity.
  - repeat split; reflexivity.
Qed.
Print Assumptions C61_samples_lost_refuted.
(** a run that met the hypothesis of C61_multi_exact: two samples of one lamp, nothing in between *)
Example C61_case mat wi : exists a b, leaf (eval_multi lamp_point unit fog (fun m r => QRet (absorb m (rnear r) (rfar r))) 10
    [EMesh 1 (V3c 5)] (fun m => m) false 2 floor None false) (Ok [a; b]) /\ e_throughput b = V3c 5 /\
  delivered mat wi [a; b] = vmul (V3c 5) (mat wi (normalized (e_dir a))).
Proof.
  destruct C61_samples_lost_refuted as (a&b&P&Ta&Tb&Va&Vb). exists a, b. split; [eapply play_leaf; exact P|]. split; [exact Tb|].
  unfold delivered. cbn [filter]. rewrite Va, Vb. cbn [map vsum fold_right]. rewrite Ta. match goal with |- vadd ?x _ = _ => generalize x end. intros x. apply vec3_eq; simpl; ring.
Qed.

(** C94: with the simple shader and the materials of Model/Bsdf.v, emitted light is counted at a vertex
    only when the previous vertex did not sample lights *)
Theorem C94_counted_once mesh_point {M} inside tr fuel emitters inst ignore object_emitter (material : isect -> bsdf) ev mat
    (ev_simple : forall i r c c', leaf (ev i r c) c' ->
       leaf (simple_evaluate mesh_point M inside tr fuel emitters inst ignore object_emitter (isDelta (material i)) i r c) (Ok c')) wi r h :
  path_history ev mat (fun i c => bsdf_sample (material i) c) (closure_init false true wi) r h -> light_once true h.
Proof. intros P. exact (once_holds mesh_point inside tr fuel emitters inst ignore object_emitter material ev mat ev_simple _ r h P eq_refl). Qed.
Print Assumptions C94_counted_once.
(** the same for every run of the path integrator *)
Theorem C94_path_counted_once mesh_point {M} inside tr fuel emitters inst ignore object_emitter (material : isect -> bsdf) ev mat
    (ev_simple : forall i r c c', leaf (ev i r c) c' ->
       leaf (simple_evaluate mesh_point M inside tr fuel emitters inst ignore object_emitter (isDelta (material i)) i r c) (Ok c'))
    (W : Type) now hit rnd1 rnd2 env nn n r s v s' :
  path_Li W now hit rnd1 rnd2 env ev mat (fun i c => bsdf_sample (material i) c) nn n r s = (Ok v, s') ->
  exists h, s_log W s' = s_log W s ++ h /\ light_once true h.
Proof.
  intros E. destruct (hs_path now hit rnd1 rnd2 env ev mat _ nn _ _ _ _ _ s v s' E) as (h&L&P). exists h. split; [exact L|].
  exact (C94_counted_once mesh_point inside tr fuel emitters inst ignore object_emitter material ev mat ev_simple _ r h P).
Qed.
Print Assumptions C94_path_counted_once.

(** a scene with one point light, where every shape emits; surface 0 is a mirror, surface 1 null, the
    others diffuse *)
Definition demo_material (i : isect) : bsdf := match i_mesh i with O => Mirror (V3c 1) | S O => NullBsdf | _ => Diffuse (V3c (1 / 2)) end.
Definition demo_lights : list emitter := [EPoint (V3c (4 * PI)) (V3 0 0 2)].
Definition demo_simple := simple_evaluate (fun _ _ => UB) unit fog (fun m r => QRet (absorb m (rnear r) (rfar r))) 10 demo_lights (fun m => m) false (fun _ => Some (EMesh 0 (V3c 9))).
Lemma demo_light_ok its nrm p us v vs : exists o,
  play (fun _ => None) (eval_emitter (fun _ _ => UB) unit fog (fun m r => QRet (absorb m (rnear r) (rfar r))) 10 false its None nrm false p (EPoint (V3c (4 * PI)) (V3 0 0 2))) us (v :: vs) = Some (Ok o, us, vs).
Proof. eexists. unfold eval_emitter. cbn [play]. unfold obind. cbn. reflexivity. Qed.
Lemma demo_simple_ok delta i r c : exists c' us vs, play (fun _ => None) (demo_simple delta i r c) [0] [V2 0 0] = Some (Ok c', us, vs).
Proof.
  assert (Sh : exists c1 us vs, play (fun _ => None) (shade (fun _ _ => UB) unit fog (fun m r => QRet (absorb m (rnear r) (rfar r))) 10 demo_lights (fun m => m) false (fun _ => Some (EMesh 0 (V3c 9))) delta i r c) [0] [V2 0 0] = Some (Ok c1, us, vs)).
  { unfold shade, shade_in. cbv zeta.
    assert (A : exists c2, (if c_last_spec (set_spec c delta (c_last_spec c) (c_accepts c)) then accumulate_emission (fun m => m) (fun _ => Some (EMesh 0 (V3c 9))) i r (set_spec c delta (c_last_spec c) (c_accepts c)) else Ok (set_spec c delta (c_last_spec c) (c_accepts c))) = Ok c2).
    { destruct (c_last_spec _); eexists; reflexivity. }
    destruct A as (c2&A). rewrite A. unfold obind at 1. cbn [qbind]. destruct delta; [do 3 eexists; reflexivity|]. destruct (c_accepts c2); [|do 3 eexists; reflexivity].
    assert (Q : exists l us vs, play (fun _ => None) (if c_all c2 then eval_all (fun _ _ => UB) unit fog (fun m r => QRet (absorb m (rnear r) (rfar r))) 10 false i None false demo_lights
      else eval_one (fun _ _ => UB) unit fog (fun m r => QRet (absorb m (rnear r) (rfar r))) 10 demo_lights (fun m => m) false i None false) [0] [V2 0 0] = Some (Ok l, us, vs)).
    { destruct (c_all c2).
      - destruct (demo_light_ok i (fn (i_g i)) 1 [0] (V2 0 0) []) as (o&O). unfold demo_lights. cbn [eval_all]. erewrite play_obind by exact O. do 3 eexists. reflexivity.
      - destruct (demo_light_ok i (fn (i_s i)) (1 / INR 1) [] (V2 0 0) []) as (o&O). unfold eval_one. erewrite play_obind.
        2:{ apply (choose_cell demo_lights (fun m => m) _ i 0 (EPoint (V3c (4 * PI)) (V3 0 0 2)) 0 [] [V2 0 0] eq_refl); [simpl; lra|exact I]. }
        cbv beta iota. unfold demo_lights at 1. cbn [List.length]. erewrite play_obind by exact O. do 3 eexists. reflexivity. }
    destruct Q as (l&us&vs&Q). erewrite play_obind by exact Q. do 3 eexists. reflexivity. }
  destruct Sh as (c1&us&vs&Sh). unfold demo_simple, simple_evaluate, simple_evaluate_in. change (shade_in ?a ?b ?c ?d ?e ?f ?g ?h ?i None) with (shade a b c d e f g h i). erewrite play_obind by exact Sh. do 3 eexists. reflexivity.
Qed.
Definition demo_run (i : isect) (r : ray) (c : closure) : closure :=
  match play (fun _ => None) (demo_simple (isDelta (demo_material i)) i r c) [0] [V2 0 0] with Some (Ok c', _, _) => c' | _ => c end.
Definition demo_ev (i : isect) (r : ray) (c : closure) : query closure := QRet (demo_run i r c).
Lemma demo_ev_simple i r c c' : leaf (demo_ev i r c) c' -> leaf (demo_simple (isDelta (demo_material i)) i r c) (Ok c').
Proof.
  intros L. apply leaf_ret_inv in L. subst c'. unfold demo_run. destruct (demo_simple_ok (isDelta (demo_material i)) i r c) as (c'&us&vs&E).
  rewrite E. exact (play_leaf _ _ _ _ _ _ _ E).
Qed.
Definition surface (m : nat) : isect := Isect (V3c 0) 1 (V3c (1 / 3)) (Fr (V3 1 0 0) (V3 0 1 0) (V3 0 0 1)) (Fr (V3 1 0 0) (V3 0 1 0) (V3 0 0 1)) m false.
Definition down : ray := Ray (V3 0 0 1) (V3 0 0 (-1)) (Finite (1 / 1000)) p_infty.
Definition fresh (i : isect) (r : ray) (prev : closure) : closure :=
  Closure (arriving i r) (V3c 1) (c_shadow prev) (V3c 0) (V3c 0) (V3c 0) 1 1 (c_spec prev) (c_last_spec prev) (c_all prev) (c_accepts prev).
(** camera, mirror, diffuse surface *)
Example C94_case : exists c1 c2 c3 u, let h := [HRay down (Some (surface 0)); HShade (surface 0) c1; HRoulette u; HSample (surface 0) c2;
    HRay (leaving (surface 0) (c_wo c2)) (Some (surface 2)); HShade (surface 2) c3; HRoulette u] in
  path_history demo_ev (fun _ _ _ => V3c 1) (fun i c => bsdf_sample (demo_material i) c) (closure_init false true (V3c 0)) down h /\ light_once true h /\ c_emission c1 = V3c 9.
Proof.
  set (c0 := fresh (surface 0) down (closure_init false true (V3c 0))).
  set (c1 := accumulate_shadow_rays (fun _ _ => V3c 1) (demo_run (surface 0) down c0)).
  assert (S : exists c2, leaf (bsdf_sample (demo_material (surface 0)) (set_wi c1 (arriving (surface 0) down))) c2 /\ c_pdf c2 <> 0).
  { cbn [demo_material surface i_mesh bsdf_sample]. destruct (Rle_dec _ _) as [X|X].
    - exfalso. cbn [set_wi c_wi] in X. unfold arriving, dot in X. simpl in X. lra.
    - eexists. split; [constructor|]. cbn. lra. }
  destruct S as (c2&S&P). set (r2 := leaving (surface 0) (c_wo c2)).
  set (c3 := accumulate_shadow_rays (fun _ _ => V3c 1) (demo_run (surface 2) r2 (fresh (surface 2) r2 c2))).
  exists c1, c2, c3, (1 / 2). cbv zeta.
  assert (H : path_history demo_ev (fun _ _ _ => V3c 1) (fun i c => bsdf_sample (demo_material i) c) (closure_init false true (V3c 0)) down
    [HRay down (Some (surface 0)); HShade (surface 0) c1; HRoulette (1 / 2); HSample (surface 0) c2; HRay r2 (Some (surface 2)); HShade (surface 2) c3; HRoulette (1 / 2)]).
  { apply (ph_surface demo_ev (fun _ _ _ => V3c 1) (fun i c => bsdf_sample (demo_material i) c) (closure_init false true (V3c 0)) down (surface 0) c0
      (demo_run (surface 0) down c0) (1 / 2)); try reflexivity; [constructor|].
    apply ps_go; [exact S|exact P|]. apply (ph_surface demo_ev (fun _ _ _ => V3c 1) (fun i c => bsdf_sample (demo_material i) c) c2 r2 (surface 2) (fresh (surface 2) r2 c2)
      (demo_run (surface 2) r2 (fresh (surface 2) r2 c2)) (1 / 2) []); try reflexivity; constructor. }
  split; [exact H|]. split.
  - exact (C94_counted_once _ _ _ _ _ _ _ _ demo_material demo_ev _ demo_ev_simple _ _ _ H).
  - unfold c1. cbn [accumulate_shadow_rays c_emission].
    pose proof (simple_leaf _ _ _ _ _ _ _ _ _ _ _ _ _ (demo_ev_simple (surface 0) down c0 _ (leaf_ret _))) as ((_&A&_)&_).
    specialize (A eq_refl). revert A. generalize (c_emission (demo_run (surface 0) down c0)). intros x A. cbn [i_mesh surface em_evaluate] in A. injection A as A. rewrite <- A.
    destruct (Rlt_dec _ _) as [X|X]; [|reflexivity]. exfalso. unfold toLocal, dot, Epsilon in X. simpl in X. lra.
Qed.

(** the wireframe shader never clears the flag: on a path from the camera over such surfaces, the
    light emitted at a surface is counted at every surface *)
Theorem C94_wireframe_exact mesh_point {M} inside tr fuel emitters inst ignore object_emitter th wd md ev mat material
    (ev_wire : forall i r c c', leaf (ev i r c) c' ->
       leaf (wireframe_evaluate mesh_point M inside tr fuel emitters inst ignore object_emitter th wd md i r c) (Ok c')) wi r h :
  path_history ev mat (fun i c => bsdf_sample (material i) c) (closure_init false true wi) r h ->
  forall i c, In (HShade i c) h -> match object_emitter (inst (i_mesh i)) with
    | None => c_emission c = V3c 0
    | Some e => exists d, em_evaluate e (toLocal (i_s i) d) = Ok (c_emission c) end.
Proof.
  intros P. enough (G : forall prev, path_history ev mat (fun i c => bsdf_sample (material i) c) prev r h -> c_last_spec prev = true ->
    forall i c, In (HShade i c) h -> match object_emitter (inst (i_mesh i)) with
    | None => c_emission c = V3c 0
    | Some e => exists d, em_evaluate e (toLocal (i_s i) d) = Ok (c_emission c) end) by exact (G _ P eq_refl).
  clear P. intros prev P. refine (path_history_mind ev mat (fun i c => bsdf_sample (material i) c)
    (fun prev r h _ => c_last_spec prev = true -> forall i c, In (HShade i c) h -> match object_emitter (inst (i_mesh i)) with
      | None => c_emission c = V3c 0 | Some e => exists d, em_evaluate e (toLocal (i_s i) d) = Ok (c_emission c) end)
    (fun r i c h _ => c_last_spec c = true -> forall i c, In (HShade i c) h -> match object_emitter (inst (i_mesh i)) with
      | None => c_emission c = V3c 0 | Some e => exists d, em_evaluate e (toLocal (i_s i) d) = Ok (c_emission c) end) _ _ _ _ _ _ prev r h P); clear P prev r h.
  - intros ? ? ? ? ? [].
  - intros ? ? ? ? ? [X|[]]. discriminate.
  - intros prev r i c0 c1 u l W E N A S L Al Ac Lf Sc IH Sh j c H.
    destruct (wireframe_leaf _ _ _ _ _ _ _ _ _ _ _ _ _ _ _ (ev_wire _ _ _ _ Lf)) as ((A1&A2&A3&A4&A5&A6&A7&A8)&B1&B2).
    rewrite L in *. destruct H as [H|[H|[H|H]]]; try discriminate.
    + injection H as <- <-. cbn [accumulate_shadow_rays c_emission]. specialize (A2 Sh). destruct (object_emitter (inst (i_mesh i))); [exists (dir r)|]; exact A2.
    + revert j c H. apply IH. cbn [accumulate_shadow_rays c_last_spec]. rewrite B1, Sh. destruct (if on_wire (i_bary i) th then wd else md); reflexivity.
  - intros ? ? ? ? ? ? [].
  - intros ? ? ? ? ? ? ? ? ? [X|[]]. discriminate.
  - intros r i c c' h Lf Pd P IH Sh j d [X|X]; [discriminate|]. revert j d X. apply IH. destruct (bsdf_sample_keeps _ _ _ Lf) as (K1&_).
    rewrite K1. exact Sh.
Qed.
Print Assumptions C94_wireframe_exact.
(** at one surface of a lit scene lights are sampled, at the next the emitted light is counted again *)
Definition demo_wire := wireframe_evaluate lamp_point unit fog (fun m r => QRet (absorb m (rnear r) (rfar r))) 10 [EMesh 1 (V3c 5)] (fun m => m) false
  (fun m => match m with 1%nat => Some (EMesh 1 (V3c 5)) | _ => None end) (1 / 10) false false.
Theorem C94_wireframe_refuted : exists i j r r' c c' d d',
  leaf (demo_wire i r c) (Ok c') /\ c_spec c' = false /\ delivered (fun _ _ => V3c 1) (c_wi c') (c_shadow c') = V3c 5 /\
  leaf (bsdf_sample (Diffuse (V3c (1 / 2))) (accumulate_shadow_rays (fun _ _ => V3c 1) c')) d /\ c_pdf d <> 0 /\
  leaf (demo_wire j r' (fresh j r' d)) (Ok d') /\ c_emission d' = V3c 5.
Proof.
  set (c0 := fresh floor down (closure_init false true (V3c 0))).
  set (c1 := set_shadow (set_emission (set_spec c0 false true true) (V3c 0)) [EmEval (V3c 5) (V3 0 0 1) true]).
  assert (L1 : leaf (demo_wire floor down c0) (Ok c1)).
  { apply (play_leaf (scene_hit (fun _ _ => [])) _ [0] [V2 0 0] _ [] []). unfold demo_wire, wireframe_evaluate. replace (if on_wire _ _ then false else false) with false by (destruct (on_wire _ _); reflexivity).
    unfold shade, shade_in. cbv zeta. cbn [c0 fresh set_spec c_last_spec closure_init c_accepts]. unfold accumulate_emission. cbn [i_mesh floor]. unfold obind at 1. cbn [qbind set_emission c_accepts c_all set_spec].
    erewrite play_obind.
    2:{ apply (C95_one_light_unbiased lamp_point fog absorb 10 [EMesh 1 (V3c 5)] (fun m => m) false (scene_hit (fun _ _ => [])) floor None false 0 (EMesh 1 (V3c 5)) 0 [] [V2 0 0] _ _ _ eq_refl ltac:(simpl; lra) ltac:(simpl; lia) C97_case). }
    cbv beta iota. cbn [play]. repeat f_equal. unfold c1. f_equal. f_equal. f_equal; apply vec3_eq; simpl; unfold dot; simpl; lra. }
  set (c2 := accumulate_shadow_rays (fun _ _ => V3c 1) c1).
  assert (S : exists d, leaf (bsdf_sample (Diffuse (V3c (1 / 2))) c2) d /\ c_pdf d <> 0 /\ c_last_spec d = true).
  { cbn [bsdf_sample]. destruct (Rle_dec _ _) as [X|X].
    - exfalso. unfold cosTheta, c2, c1, c0, fresh, arriving, dot in X. simpl in X. lra.
    - eexists. split; [apply (leaf_rand2 _ (V2 0 0)); constructor|]. split; [|reflexivity].
      cbn [put c_pdf]. unfold cosTheta, sqrToCosHemi, sqrToUniDisk. cbn [vz x2 y2]. rewrite sqrt_0, !Rmult_0_r, !Rminus_0_r.
      rewrite Rmax_right, sqrt_1 by lra. pose proof PI_RGT_0. intros Y. apply Rmult_integral in Y. destruct Y as [Y|Y]; [|lra].
      assert (0 < 1 / PI) by (apply Rdiv_lt_0_compat; lra). lra. }
  destruct S as (d&S&Pd&Ld). exists floor, (surface 1), down, down, c0, c1, d.
  assert (L2 : exists d', leaf (demo_wire (surface 1) down (fresh (surface 1) down d)) (Ok d') /\ c_emission d' = V3c 5).
  { eexists. split.
    - apply (play_leaf (scene_hit (fun _ _ => [])) _ [0] [] _ [] []). unfold demo_wire, wireframe_evaluate. replace (if on_wire _ _ then false else false) with false by (destruct (on_wire _ _); reflexivity).
      unfold shade, shade_in. cbv zeta. cbn [fresh set_spec c_last_spec c_accepts]. rewrite Ld. unfold accumulate_emission. cbn [i_mesh surface em_evaluate bind]. unfold obind at 1. cbn [qbind].
      destruct (Rlt_dec _ _) as [X|_]; [exfalso; unfold toLocal, dot, Epsilon in X; simpl in X; lra|].
      cbn [set_emission c_accepts c_all set_spec]. destruct (bsdf_sample_keeps _ _ _ S) as (_&_&Kl&Ka). cbn [fresh c_accepts c_all]. rewrite Ka, Kl. cbn [c2 c1 c0 accumulate_shadow_rays set_shadow set_emission set_spec c_accepts c_all fresh closure_init].
      erewrite play_obind.
      2:{ unfold eval_one. erewrite play_obind. 2:{ unfold choose_emitter. cbn [play]. rewrite (naive_cell [EMesh 1 (V3c 5)] 0 0) by (simpl; lia || lra). cbn. reflexivity. } reflexivity. }
      reflexivity.
    - reflexivity. }
  destruct L2 as (d'&L2&E2). exists d'. split; [exact L1|]. split; [reflexivity|]. split; [|auto].
  unfold delivered. cbn. apply vec3_eq; simpl; lra.
Qed.
Print Assumptions C94_wireframe_refuted.

(** C102 is false: a surface reached through a null material never samples the lights *)
Theorem C102_behind_null_refuted mesh_point {M} inside tr fuel emitters inst ignore object_emitter (material : isect -> bsdf) ev mat
    (ev_simple : forall i r c c', leaf (ev i r c) c' ->
       leaf (simple_evaluate mesh_point M inside tr fuel emitters inst ignore object_emitter (isDelta (material i)) i r c) (Ok c')) prev r i c u c' r' j d u' h :
  path_history ev mat (fun i c => bsdf_sample (material i) c) prev r
    (HRay r (Some i) :: HShade i c :: HRoulette u :: HSample i c' :: HRay r' (Some j) :: HShade j d :: HRoulette u' :: h) ->
  material i = NullBsdf -> c_nee d = V3c 0.
Proof.
  intros P N. inversion P as [| |? ? ? c0 c1 ? ? W E0 N0 A0 S0 L0 Al Ac Lf Sc]; subst. inversion Sc as [| |? ? ? ? ? Ls Pd P2]; subst.
  inversion P2 as [| |? ? ? c2 c3 ? ? W2 E2 N2 A2 S2 L2 Al2 Ac2 Lf2 Sc2]; subst.
  rewrite N in *. destruct (bsdf_sample_keeps _ _ _ Ls) as (_&K2&_&K4). cbn [set_wi c_shadow accumulate_shadow_rays] in K2.
  destruct (simple_leaf _ _ _ _ _ _ _ _ _ _ _ _ _ (ev_simple _ _ _ _ Lf2)) as ((B1&B2&B3&B4&B5&B6&B7&B8)&_).
  cbn [accumulate_shadow_rays c_nee]. rewrite B7 by (right; congruence). rewrite S2, K2. cbn [shadow_sum]. congruence.
Qed.
Print Assumptions C102_behind_null_refuted.
(** the diffuse surface 2 under the point light: lit when seen directly, dark behind the null surface 1 *)
Example C102_case : exists c1 c2 c3 u, path_history demo_ev (fun _ _ _ => V3c 1) (fun i c => bsdf_sample (demo_material i) c) (closure_init false true (V3c 0)) down
    [HRay down (Some (surface 1)); HShade (surface 1) c1; HRoulette u; HSample (surface 1) c2; HRay (leaving (surface 1) (c_wo c2)) (Some (surface 2)); HShade (surface 2) c3; HRoulette u]
  /\ c_nee c3 = V3c 0.
Proof.
  set (c0 := fresh (surface 1) down (closure_init false true (V3c 0))).
  set (c1 := accumulate_shadow_rays (fun _ _ => V3c 1) (demo_run (surface 1) down c0)).
  assert (S : exists c2, leaf (bsdf_sample (demo_material (surface 1)) (set_wi c1 (arriving (surface 1) down))) c2 /\ c_pdf c2 <> 0).
  { eexists. split; [cbn [demo_material surface i_mesh bsdf_sample]; constructor|]. cbn. lra. }
  destruct S as (c2&S&P). set (r2 := leaving (surface 1) (c_wo c2)).
  set (c3 := accumulate_shadow_rays (fun _ _ => V3c 1) (demo_run (surface 2) r2 (fresh (surface 2) r2 c2))).
  exists c1, c2, c3, (1 / 2).
  assert (H : path_history demo_ev (fun _ _ _ => V3c 1) (fun i c => bsdf_sample (demo_material i) c) (closure_init false true (V3c 0)) down
    [HRay down (Some (surface 1)); HShade (surface 1) c1; HRoulette (1 / 2); HSample (surface 1) c2; HRay r2 (Some (surface 2)); HShade (surface 2) c3; HRoulette (1 / 2)]).
  { apply (ph_surface demo_ev (fun _ _ _ => V3c 1) (fun i c => bsdf_sample (demo_material i) c) (closure_init false true (V3c 0)) down (surface 1) c0
      (demo_run (surface 1) down c0) (1 / 2)); try reflexivity; [constructor|].
    apply ps_go; [exact S|exact P|]. apply (ph_surface demo_ev (fun _ _ _ => V3c 1) (fun i c => bsdf_sample (demo_material i) c) c2 r2 (surface 2) (fresh (surface 2) r2 c2)
      (demo_run (surface 2) r2 (fresh (surface 2) r2 c2)) (1 / 2) []); try reflexivity; constructor. }
  split; [exact H|]. exact (C102_behind_null_refuted _ _ _ _ _ _ _ _ demo_material demo_ev _ demo_ev_simple _ _ _ _ _ _ _ _ _ _ _ H eq_refl).
Qed.
Example C102_direct_case : c_nee (accumulate_shadow_rays (fun _ _ => V3c 1) (demo_run (surface 2) down (fresh (surface 2) down (closure_init false true (V3c 0))))) = V3c (1 / 4).
Proof.
  assert (E : forall c0, c_last_spec c0 = true -> c_accepts c0 = true -> c_all c0 = false -> c_nee c0 = V3c 0 -> exists c', play (scene_hit (fun _ _ => [])) (demo_simple false (surface 2) down c0) [0] [V2 0 0] = Some (Ok c', [], []) /\ c_nee c' = V3c 0 /\ c_shadow c' = [EmEval (V3c (1 / 4)) (V3 0 0 1) true]).
  { intros c0 H1 H2 H3 H4. eexists. split.
    - unfold demo_simple, simple_evaluate, simple_evaluate_in. change (shade_in ?a ?b ?c ?d ?e ?f ?g ?h ?i None) with (shade a b c d e f g h i). erewrite play_obind.
      2:{ unfold shade, shade_in. cbv zeta. cbn [set_spec c_last_spec]. rewrite H1. unfold accumulate_emission. cbn [em_evaluate bind]. unfold obind at 1. cbn [qbind set_emission c_accepts c_all set_spec]. rewrite H2, H3.
          erewrite play_obind.
          2:{ apply (C95_one_light_unbiased (fun _ _ => UB) fog absorb 10 demo_lights (fun m => m) false (scene_hit (fun _ _ => [])) (surface 2) None false 0 (EPoint (V3c (4 * PI)) (V3 0 0 2)) 0 [] [V2 0 0] (Some (V3 0 0 1, V3c (1 / 4))) [] [] eq_refl ltac:(simpl; lra) I).
              exact C101_case. }
          reflexivity. }
      reflexivity.
    - split; [exact H4|]. cbn [set_spec set_shadow c_shadow]. f_equal. f_equal; apply vec3_eq; simpl; unfold dot; simpl; lra. }
  destruct (E (fresh (surface 2) down (closure_init false true (V3c 0))) eq_refl eq_refl eq_refl eq_refl) as (c'&P&N&S).
  unfold demo_run. change (isDelta (demo_material (surface 2))) with false. change (fun _ : ray => None) with (scene_hit (fun _ _ => [])). rewrite P.
  rewrite (proj1 (C60_shadow_rays _ _)), N, S. unfold delivered. cbn. apply vec3_eq; simpl; lra.
Qed.
