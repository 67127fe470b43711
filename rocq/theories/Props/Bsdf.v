(** C35-C39, C86-C90: materials. *)
From Coq Require Import Reals List Bool ZArith Lra Lia.
From Coquelicot Require Import Coquelicot.
From Verif.Model Require Import Vec Frame BBox Warp Integrators Bsdf.
From Verif.Spec Require Import LinAlgSpec CameraSpec WarpSpec BsdfSpec IntegratorSpec.
From Verif.Proof Require Import VecLemmas FrameProof WarpProof BsdfProof.
Import ListNotations.
Open Scope R_scope.

(** index on the side the light comes from, and on the other side *)
Definition n_in (c ext int : R) : R := if Rlt_dec c 0 then int else ext.
Definition n_out (c ext int : R) : R := if Rlt_dec c 0 then ext else int.

(** C35 *)
Theorem C35_range c ext int : 0 < ext -> 0 < int -> c <> 0 -> exists f, fresnel c ext int = Some f /\ 0 <= f <= 1.
Proof.
  intros E I C. destruct (Req_EM_T ext int) as [->|N].
  - exists 0. split; [|lra]. unfold fresnel. destruct (Req_EM_T int int); [reflexivity|contradiction].
  - destruct (fresnel_cases c ext int E I N) as (A&B&_).
    destruct (total_dec c (if Rlt_dec c 0 then int else ext) (if Rlt_dec c 0 then ext else int)).
    + exists 1. split; [auto|lra].
    + eexists. split; [apply B; auto|]. apply schlick0_range; assumption.
Qed.
Theorem C35_total_reflection c ext int : 0 < ext -> 0 < int -> -1 <= c <= 1 ->
  total_reflection c (n_in c ext int) (n_out c ext int) -> fresnel c ext int = Some 1.
Proof.
  intros E I C T. destruct (Req_EM_T ext int) as [->|N].
  - exfalso. unfold n_in, n_out, total_reflection in T. destruct (Rlt_dec c 0); nra.
  - apply (fresnel_cases c ext int E I N). exact T.
Qed.
Theorem C35_equal_indices c n : fresnel c n n = Some 0.
Proof. unfold fresnel. destruct (Req_EM_T n n); [reflexivity|contradiction]. Qed.
(** the excluded cosine: 0/0, unless all light is reflected *)
Theorem C35_grazing ext int : 0 < ext -> 0 < int -> ext <> int ->
  (ext < int -> fresnel 0 ext int = None) /\ (int < ext -> fresnel 0 ext int = Some 1).
Proof.
  intros E I N. destruct (fresnel_cases 0 ext int E I N) as (A&_&B). destruct (Rlt_dec 0 0); [lra|].
  split; intros H; [apply B; [|reflexivity]|apply A]; unfold total_reflection; nra.
Qed.
Print Assumptions C35_range.
Print Assumptions C35_total_reflection.
Print Assumptions C35_equal_indices.
Print Assumptions C35_grazing.
Example C35_case : total_reflection (-1 / 2) (n_in (-1 / 2) 1 2) (n_out (-1 / 2) 1 2) /\ fresnel (-1 / 2) 1 2 = Some 1.
Proof.
  assert (T : total_reflection (-1 / 2) (n_in (-1 / 2) 1 2) (n_out (-1 / 2) 1 2)) by (unfold total_reflection, n_in, n_out; destruct (Rlt_dec _ 0); lra).
  split; [exact T|]. apply C35_total_reflection; auto; lra.
Qed.

(** C36: what is computed does not depend on the angle *)
Theorem C36_angle_ignored c ext int : 0 < ext -> 0 < int -> c <> 0 ->
  ~ total_reflection c (n_in c ext int) (n_out c ext int) ->
  fresnel c ext int = Some (((ext - int) / (ext + int)) * ((ext - int) / (ext + int))).
Proof.
  intros E I C T. destruct (Req_EM_T ext int) as [->|N].
  - rewrite C35_equal_indices. f_equal. field. lra.
  - apply (fresnel_cases c ext int E I N); assumption.
Qed.
Theorem C36_right_at_normal_incidence ext int : 0 < ext -> 0 < int ->
  fresnel 1 ext int = Some (fresnel_equations 1 ext int) /\ fresnel (-1) ext int = Some (fresnel_equations 1 int ext).
Proof.
  intros E I.
  assert (S0 : forall a b, sqrt (1 - a / b * (a / b) * (1 - 1 * 1)) = 1).
  { intros a b. replace (1 - a / b * (a / b) * (1 - 1 * 1)) with 1 by ring. apply sqrt_1. }
  assert (T1 : ~ total_reflection 1 (n_in 1 ext int) (n_out 1 ext int)) by (unfold total_reflection, n_in, n_out; destruct (Rlt_dec 1 0); intros ?; nra).
  assert (T2 : ~ total_reflection (-1) (n_in (-1) ext int) (n_out (-1) ext int)) by (unfold total_reflection, n_in, n_out; destruct (Rlt_dec (-1) 0); intros ?; nra).
  split; [rewrite (C36_angle_ignored 1 ext int E I ltac:(lra) T1)|rewrite (C36_angle_ignored (-1) ext int E I ltac:(lra) T2)];
    unfold fresnel_equations; rewrite S0; f_equal; field; lra.
Qed.
Theorem C36_refuted : exists c ext int, 0 < c <= 1 /\ 0 < ext /\ 0 < int /\ ~ total_reflection c ext int /\
  fresnel c ext int <> Some (fresnel_equations c ext int).
Proof.
  exists (3 / 5), 3, 4. assert (T : ~ total_reflection (3 / 5) 3 4) by (unfold total_reflection; lra).
  repeat split; try lra; [exact T|].
  rewrite C36_angle_ignored; try lra; [|unfold n_in, n_out; destruct (Rlt_dec _ 0); [lra|exact T]].
  unfold fresnel_equations. replace (1 - 3 / 4 * (3 / 4) * (1 - 3 / 5 * (3 / 5))) with ((4 / 5) * (4 / 5)) by field.
  rewrite sqrt_square by lra. intros H. injection H. lra.
Qed.
Print Assumptions C36_angle_ignored.
Print Assumptions C36_right_at_normal_incidence.
Print Assumptions C36_refuted.
Example C36_case : fresnel (1 / 2) 1 2 = Some (1 / 9).
Proof. rewrite C36_angle_ignored; try lra; [f_equal; lra|]. unfold total_reflection, n_in, n_out. destruct (Rlt_dec _ 0); lra. Qed.

(** C37 *)
Theorem C37_reciprocal a wi wo : bsdf_value (Diffuse a) wi wo = bsdf_value (Diffuse a) wo wi.
Proof. unfold bsdf_value. destruct (Rle_dec (cosTheta wi) 0), (Rle_dec (cosTheta wo) 0); reflexivity. Qed.
Theorem C37_opaque a wi wo : vz wi <= 0 \/ vz wo <= 0 -> bsdf_value (Diffuse a) wi wo = Some (V3c 0).
Proof. unfold bsdf_value, cosTheta. intros H. destruct (Rle_dec (vz wi) 0), (Rle_dec (vz wo) 0); try reflexivity; lra. Qed.
(** reflectance: over all directions, value times cosine integrates to the albedo *)
Theorem C37_reflectance a wi (get : vec3 -> R) : 0 < vz wi -> In get [vx; vy; vz] ->
  sphere_integral (fun wo => match bsdf_value (Diffuse a) wi wo with Some v => get v * vz wo | None => 0 end) (get a).
Proof.
  intros W G. pose proof (diffuse_integral (get a)) as D. destruct D as [D1 D2].
  assert (E : forall wo, match bsdf_value (Diffuse a) wi wo with Some v => get v * vz wo | None => 0 end
     = (if Rle_dec (vz wo) 0 then 0 else get a * (1 / PI)) * vz wo).
  { intros wo. unfold bsdf_value, cosTheta. destruct (Rle_dec (vz wi) 0); [lra|].
    destruct (Rle_dec (vz wo) 0); destruct G as [<-|[<-|[<-|[]]]]; simpl; ring. }
  split.
  - intros q. eapply ex_RInt_ext; [|apply (D1 q)]. intros z _. exact (eq_sym (E (sph_dir z q))).
  - eapply is_RInt_ext; [|exact D2]. intros q _. apply RInt_ext. intros z _. exact (eq_sym (E (sph_dir z q))).
Qed.
(** the weight of a sampled direction is the albedo, or the sample is discarded *)
Theorem C37_sampling_weight a c u1 u2 c' : in_unit_square u2 -> answer (bsdf_sample (Diffuse a) c) u1 u2 = Some c' ->
  (vz (c_wi c) <= 0 /\ c_pdf c' = 0 /\ c_albedo c' = V3c 0) \/
  (0 < vz (c_wi c) /\ unit3 (c_wo c') /\ 0 <= vz (c_wo c') /\ c_pdf c' = sqrToCosHemiPdf (c_wo c') /\
   bsdf_value (Diffuse a) (c_wi c) (c_wo c') = (if Rle_dec (vz (c_wo c')) 0 then Some (V3c 0) else Some (c_albedo c')) /\
   (c_pdf c' <> 0 -> vscale (c_albedo c') (vz (c_wo c') / c_pdf c') = a)).
Proof.
  intros U. unfold bsdf_sample. destruct (Rle_dec (cosTheta (c_wi c)) 0) as [L|L]; cbn [answer].
  { intros E. injection E as <-. left. unfold cosTheta in L. repeat split; auto. }
  rewrite (cos_hemi_form u2 U). set (z := sqrt (1 - y2 u2)). set (w := sph_dir z (2 * PI * x2 u2)). assert (Wz : vz w = z) by reflexivity.
  assert (Z0 : 0 <= z) by apply sqrt_pos. destruct U as [_ U].
  assert (Z1 : z * z = 1 - y2 u2) by (apply sqrt_sqrt; lra). assert (z <= 1) by nra.
  assert (Un : unit3 w) by (apply sph_dir_unit; lra).
  clearbody w. cbv zeta. intros E. injection E as <-. right. unfold cosTheta in *. cbn [put c_wo c_pdf c_albedo]. rewrite Wz.
  pose proof PI_RGT_0. split; [lra|]. split; [exact Un|]. split; [exact Z0|]. split.
  { unfold sqrToCosHemiPdf. rewrite Wz. destruct (Rgt_dec z 0); [reflexivity|]. replace z with 0 by lra. ring. }
  split.
  { unfold bsdf_value, cosTheta. rewrite Wz. destruct (Rle_dec (vz (c_wi c)) 0); [lra|]. destruct (Rle_dec z 0); reflexivity. }
  intros P. assert (z <> 0) by (intros Q; apply P; rewrite Q; ring). apply V3_eq; simpl; field; lra.
Qed.
Print Assumptions C37_reciprocal.
Print Assumptions C37_opaque.
Print Assumptions C37_reflectance.
Print Assumptions C37_sampling_weight.
Definition demo_closure (wi : vec3) : closure := Closure wi (V3c 1) [] (V3c 0) (V3c 0) (V3c 0) 1 1 true true false true.
Example C37_case : exists c', answer (bsdf_sample (Diffuse (V3c (1 / 2))) (demo_closure (V3 0 0 1))) 0 (V2 0 (1 / 2)) = Some c' /\ 0 < c_pdf c'.
Proof.
  unfold bsdf_sample. destruct (Rle_dec _ 0) as [H|H]; [cbn in H; lra|]. eexists. split; [reflexivity|]. cbn [put c_pdf].
  rewrite cos_hemi_form by (split; simpl; lra). simpl. pose proof PI_RGT_0.
  apply Rmult_lt_0_compat; [unfold Rdiv; rewrite Rmult_1_l; apply Rinv_0_lt_compat; lra|apply sqrt_lt_R0; lra].
Qed.

(** C38: mirror *)
Theorem C38_mirror a c u1 u2 c' : answer (bsdf_sample (Mirror a) c) u1 u2 = Some c' ->
  (vz (c_wi c) <= 0 /\ c_pdf c' = 0 /\ c_albedo c' = V3c 0) \/
  (0 < vz (c_wi c) /\ c_wo c' = reflection up (c_wi c) /\ dot (c_wo c') up = dot (c_wi c) up /\
   (unit3 (c_wi c) -> unit3 (c_wo c')) /\ c_pdf c' = 1 /\ c_albedo c' = a).
Proof.
  unfold bsdf_sample. destruct (Rle_dec (cosTheta (c_wi c)) 0) as [L|L]; cbn [answer]; intros E; injection E as <-.
  - left. unfold cosTheta in L. repeat split; auto.
  - right. unfold cosTheta in L. cbn [put c_wo c_pdf c_albedo]. split; [lra|]. split; [apply mirrored_reflection|].
    split; [unfold dot, mirrored, up; simpl; ring|]. split; [apply mirrored_unit|]. auto.
Qed.
(** dielectric, away from grazing angles on either side: reflection, or refraction with the index
    ratio of the side the light comes from *)
Theorem C38_dielectric int ext a c u1 u2 c' : 0 < int -> 0 < ext -> unit3 (c_wi c) -> 0 <= u1 < 1 ->
  let z := vz (c_wi c) in let ni := n_in z ext int in let nt := n_out z ext int in
  (z < - Epsilon \/ 0 < z) ->
  (total_reflection z ni nt \/ Epsilon <= 1 - ni / nt * (ni / nt) * (1 - z * z)) ->
  answer (bsdf_sample (Dielectric int ext a) c) u1 u2 = Some c' ->
  c_pdf c' = 1 /\ c_albedo c' = a /\
  (c_wo c' = reflection up (c_wi c) \/ (refraction ni nt (c_wi c) (c_wo c') /\ ~ total_reflection z ni nt)).
Proof.
  intros I E U Hu. cbv zeta. intros Z G. unfold bsdf_sample. cbn [answer].
  set (z := vz (c_wi c)) in *. unfold cosTheta. fold z.
  assert (Ep : 0 < Epsilon) by (unfold Epsilon; lra). assert (Zn : z <> 0) by (destruct Z; intros ?; lra).
  assert (Zr : -1 <= z <= 1) by (unfold unit3, dot in U; fold z in U; split; nra).
  destruct (C35_range z ext int E I Zn) as (f&F&R0). rewrite F. unfold ltb_nan. destruct (Rlt_dec u1 f) as [L|L]; cbn [answer]; intros Q; injection Q as <-;
    cbn [put c_wo c_pdf c_albedo]; (split; [reflexivity|]); (split; [reflexivity|]).
  - left. apply mirrored_reflection.
  - assert (NT : ~ total_reflection z (n_in z ext int) (n_out z ext int)).
    { intros T. rewrite (C35_total_reflection z ext int E I Zr T) in F. injection F as <-. lra. }
    right. split; [|exact NT]. destruct G as [G|G]; [contradiction|].
    set (eta := if Rlt_dec z 0 then int / ext else ext / int).
    assert (Et : eta = n_in z ext int / n_out z ext int) by (unfold eta, n_in, n_out; destruct (Rlt_dec z 0); reflexivity).
    rewrite <- Et in G.
    destruct (refracted_sqrt SQRT (c_wi c) eta U) as (A&B&C&D); fold z.
    + unfold SQRT. destruct (Rlt_dec _ Epsilon); [lra|reflexivity].
    + lra.
    + exact Z.
    + assert (No : 0 < n_out z ext int) by (unfold n_out; destruct (Rlt_dec z 0); lra).
      split; [exact A|]. split; [exact B|]. rewrite C, D, Et. split; field; lra.
Qed.
(** near grazing it fails: the direction is not a unit vector, or stays on the same side *)
Theorem C38_dielectric_refuted :
  (exists int ext c u, 0 < int /\ 0 < ext /\ unit3 (c_wi c) /\ 0 < vz (c_wi c) /\ 0 <= u < 1 /\
     forall u2 c', answer (bsdf_sample (Dielectric int ext (V3c 1)) c) u u2 = Some c' -> ~ unit3 (c_wo c')) /\
  (exists int ext c u, 0 < int /\ 0 < ext /\ unit3 (c_wi c) /\ vz (c_wi c) < 0 /\ 0 <= u < 1 /\
     forall u2 c', answer (bsdf_sample (Dielectric int ext (V3c 1)) c) u u2 = Some c' ->
       vz (c_wo c') < 0 /\ c_wo c' <> reflection up (c_wi c)).
Proof.
  assert (Ep : Epsilon = 1 / 1000) by reflexivity. split.
  - exists 1, 1, (demo_closure (V3 (sqrt (9999 / 10000)) 0 (1 / 100))), 0. cbn [demo_closure c_wi vz].
    assert (S0 : sqrt (9999 / 10000) * sqrt (9999 / 10000) = 9999 / 10000) by (apply sqrt_sqrt; lra).
    assert (U : unit3 (V3 (sqrt (9999 / 10000)) 0 (1 / 100))) by (unfold unit3, dot; simpl; lra).
    repeat split; try lra; [exact U|]. intros u2 c'. unfold bsdf_sample. cbn [answer c_wi]. rewrite C35_equal_indices. unfold ltb_nan.
    destruct (Rlt_dec 0 0); [lra|]. cbn [answer]. intros E. injection E as <-. cbn [put c_wo].
    unfold refracted. cbv zeta. rewrite (wt_norm _ _ U). cbn [vz]. unfold cosTheta; cbn [vz].
    destruct (Rlt_dec (1 / 100) (- Epsilon)); [lra|]. destruct (Rlt_dec (1 / 100) 0); [lra|].
    unfold SQRT. destruct (Rlt_dec _ Epsilon) as [_|H]; [|exfalso; apply H; lra].
    unfold unit3, dot; simpl. intros H. lra.
  - exists 1, 2, (demo_closure (V3 (sqrt (1 - 1 / 4000000)) 0 (-1 / 2000))), (1 / 2). cbn [demo_closure c_wi vz].
    assert (S0 : sqrt (1 - 1 / 4000000) * sqrt (1 - 1 / 4000000) = 1 - 1 / 4000000) by (apply sqrt_sqrt; lra).
    assert (U : unit3 (V3 (sqrt (1 - 1 / 4000000)) 0 (-1 / 2000))) by (unfold unit3, dot; simpl; lra).
    split; [lra|]. split; [lra|]. split; [exact U|]. split; [lra|]. split; [lra|]. intros u2 c'.
    assert (F : fresnel (-1 / 2000) 2 1 = Some ((2 - 1) / (2 + 1) * ((2 - 1) / (2 + 1)))).
    { apply C36_angle_ignored; try lra. unfold total_reflection, n_in, n_out. destruct (Rlt_dec _ 0); lra. }
    unfold bsdf_sample. cbn [answer demo_closure c_wi]. unfold cosTheta; cbn [vz]. rewrite F. unfold ltb_nan.
    destruct (Rlt_dec (1 / 2) _) as [H|_]; [lra|]. cbn [answer]. intros E. injection E as <-. cbn [put c_wo].
    destruct (Rlt_dec (-1 / 2000) 0); [|lra]. unfold refracted. cbv zeta. rewrite (wt_norm _ _ U). cbn [vz].
    destruct (Rlt_dec (-1 / 2000) (- Epsilon)); [lra|]. unfold SQRT. destruct (Rlt_dec _ Epsilon) as [H|_]; [lra|]. split.
    + cbn [vz vadd vscale]. match goal with |- context [sqrt ?x] => assert (0 < sqrt x) by (apply sqrt_lt_R0; lra) end. lra.
    + intros H. apply (f_equal vx) in H. unfold reflection, up in H. simpl in H. assert (0 < sqrt (1 - 1 / 4000000)) by (apply sqrt_lt_R0; lra). lra.
Qed.
(** how it fails: within Epsilon of total reflection the refracted ray runs along the surface, with its length cut short *)
Theorem C38_grazing int ext a c u1 u2 c' : 0 < int -> 0 < ext -> unit3 (c_wi c) -> 0 <= u1 < 1 ->
  let z := vz (c_wi c) in let k := n_in z ext int / n_out z ext int in z <> 0 ->
  1 - k * k * (1 - z * z) < Epsilon ->
  answer (bsdf_sample (Dielectric int ext a) c) u1 u2 = Some c' ->
  c_wo c' = reflection up (c_wi c) \/ (c_wo c' = V3 (- k * vx (c_wi c)) (- k * vy (c_wi c)) 0 /\ dot (c_wo c') (c_wo c') = k * k * (1 - z * z)).
Proof.
  intros I E U Hu. cbv zeta. set (z := vz (c_wi c)). intros Z G. unfold bsdf_sample. cbn [answer]. unfold cosTheta. fold z.
  destruct (C35_range z ext int E I Z) as (f&F&R0). rewrite F. unfold ltb_nan. destruct (Rlt_dec u1 f) as [L|L]; cbn [answer]; intros Q; injection Q as <-; cbn [put c_wo].
  - left. apply mirrored_reflection.
  - right. set (eta := if Rlt_dec z 0 then int / ext else ext / int).
    assert (Et : eta = n_in z ext int / n_out z ext int) by (unfold eta, n_in, n_out; destruct (Rlt_dec z 0); reflexivity).
    rewrite <- Et in *. unfold unit3, dot in U. fold z in U.
    assert (X : refracted SQRT (c_wi c) eta = V3 (- eta * vx (c_wi c)) (- eta * vy (c_wi c)) 0).
    { unfold refracted. cbv zeta. set (q := 1 - sqrNorm _). assert (Q : q < Epsilon).
      { replace q with (1 - eta * eta * (1 - z * z)); [exact G|]. unfold q, sqrNorm, vscale. cbn [vx vy vz]. nra. }
      unfold SQRT. destruct (Rlt_dec q Epsilon); [|lra]. unfold vadd, vscale. cbn [vx vy vz]. destruct (Rlt_dec (vz (c_wi c)) (- Epsilon)); f_equal; ring. }
    rewrite X. split; [reflexivity|]. unfold dot. cbn [vx vy vz]. nra.
Qed.
Print Assumptions C38_grazing.
(** 30 degrees inside glass of index 2: exactly critical, so the ray leaves along the surface *)
Example C38_grazing_case : let c := demo_closure (V3 (1 / 2) 0 (- sqrt (3 / 4))) in
  unit3 (c_wi c) /\ vz (c_wi c) <> 0 /\ 1 - 2 / 1 * (2 / 1) * (1 - vz (c_wi c) * vz (c_wi c)) < Epsilon.
Proof.
  cbv zeta. cbn [demo_closure c_wi vz]. assert (S : sqrt (3 / 4) * sqrt (3 / 4) = 3 / 4) by (apply sqrt_sqrt; lra).
  assert (P : 0 < sqrt (3 / 4)) by (apply sqrt_lt_R0; lra). unfold unit3, dot, Epsilon. cbn [vx vy vz]. repeat split; nra.
Qed.
Print Assumptions C38_mirror.
Print Assumptions C38_dielectric.
Print Assumptions C38_dielectric_refuted.
(** from air into glass of index 2, at 3-4-5 incidence; the random number 1/2 refracts *)
Example C38_case : exists c', answer (bsdf_sample (Dielectric 2 1 (V3c 1)) (demo_closure (V3 (3 / 5) 0 (4 / 5)))) (1 / 2) (V2 0 0) = Some c' /\
  refraction 1 2 (V3 (3 / 5) 0 (4 / 5)) (c_wo c').
Proof.
  assert (U : unit3 (V3 (3 / 5) 0 (4 / 5))) by (unfold unit3, dot; simpl; lra).
  destruct (answer (bsdf_sample (Dielectric 2 1 (V3c 1)) (demo_closure (V3 (3 / 5) 0 (4 / 5)))) (1 / 2) (V2 0 0)) as [c'|] eqn:E.
  2:{ exfalso. unfold bsdf_sample in E. cbn [answer] in E. destruct (ltb_nan _ _); discriminate. }
  exists c'. split; [reflexivity|].
  assert (Ni : n_in (4 / 5) 1 2 = 1) by (unfold n_in; destruct (Rlt_dec _ 0); lra). assert (No : n_out (4 / 5) 1 2 = 2) by (unfold n_out; destruct (Rlt_dec _ 0); lra).
  destruct (C38_dielectric 2 1 (V3c 1) (demo_closure (V3 (3 / 5) 0 (4 / 5))) (1 / 2) (V2 0 0) c') as (_&_&[H|[H _]]); try lra.
  - exact U.
  - simpl. lra.
  - cbn [demo_closure c_wi vz]. right. rewrite Ni, No. unfold Epsilon. lra.
  - exact E.
  - exfalso. revert E. unfold bsdf_sample. cbn [answer demo_closure c_wi]. unfold cosTheta; cbn [vz].
    rewrite C36_angle_ignored; try lra; [|rewrite Ni, No; unfold total_reflection; lra]. unfold ltb_nan.
    destruct (Rlt_dec (1 / 2) _); [lra|]. cbn [answer]. intros Q. injection Q as <-. cbn [put c_wo] in H.
    destruct (Rlt_dec (4 / 5) 0); [lra|]. apply (f_equal vx) in H. unfold refracted, reflection, up, Epsilon in H. cbv zeta in H. cbn [vz] in H.
    destruct (Rlt_dec (4 / 5) (- (1 / 1000))); simpl in H; lra.
  - cbn [demo_closure c_wi vz] in H. rewrite Ni, No in H. exact H.
Qed.

(** exactly along the surface of the denser medium, where the Fresnel term is 0/0 (C35_grazing) and all
    light should be reflected, none is: whatever the random number, the ray is refracted *)
Theorem C38_along int ext a c u1 u2 c' : 0 < ext < int -> unit3 (c_wi c) -> vz (c_wi c) = 0 ->
  answer (bsdf_sample (Dielectric int ext a) c) u1 u2 = Some c' \/ answer (bsdf_sample (OneWay int ext a) c) u1 u2 = Some c' ->
  c_eta c' = ext / int /\ vx (c_wo c') = - (ext / int) * vx (c_wi c) /\ vy (c_wo c') = - (ext / int) * vy (c_wi c) /\ c_wo c' <> reflection up (c_wi c).
Proof.
  intros I U Z. destruct (C35_grazing ext int ltac:(lra) ltac:(lra) ltac:(lra)) as (N & _). specialize (N ltac:(lra)).
  unfold bsdf_sample. cbn [answer]. unfold cosTheta. rewrite Z, N. cbn [ltb_nan orb]. destruct (Rlt_dec 0 0) as [L|_]; [lra|].
  assert (K : 0 < ext / int < 1).
  { split; [apply Rdiv_lt_0_compat; lra|]. apply Rmult_lt_reg_r with int; [lra|]. unfold Rdiv. rewrite Rmult_assoc, Rinv_l by lra. lra. }
  set (k := ext / int) in *. clearbody k. unfold unit3, dot in U. rewrite Z in U.
  assert (G : forall root, vx (refracted root (c_wi c) k) = - k * vx (c_wi c) /\ vy (refracted root (c_wi c) k) = - k * vy (c_wi c)).
  { intros root. unfold refracted. cbv zeta. rewrite Z. pose proof (eq_refl : Epsilon = 1 / 1000). destruct (Rlt_dec 0 (- Epsilon)) as [L|_]; [lra|]. cbn. split; ring. }
  intros [Q|Q]; injection Q as <-; cbn [put c_wo c_eta]; (split; [reflexivity|]).
  - destruct (G SQRT) as (X & Y). split; [exact X|]. split; [exact Y|]. intros R. pose proof (f_equal vx R) as RX. pose proof (f_equal vy R) as RY. rewrite X in RX. rewrite Y in RY.
    unfold reflection, up, dot in RX, RY. cbn in RX, RY. nra.
  - destruct (G sqrt) as (X & Y). split; [exact X|]. split; [exact Y|]. intros R. pose proof (f_equal vx R) as RX. pose proof (f_equal vy R) as RY. rewrite X in RX. rewrite Y in RY.
    unfold reflection, up, dot in RX, RY. cbn in RX, RY. nra.
Qed.
Print Assumptions C38_along.
Example C38_along_case : 0 < 1 < 3 / 2 /\ unit3 (V3 (3 / 5) (-4 / 5) 0) /\ vz (V3 (3 / 5) (-4 / 5) 0) = 0.
Proof. unfold unit3, dot; cbn. repeat split; lra. Qed.

(** C39: Phong picks one of two lobes, around the mirror direction with probability ks and around
    the normal otherwise; the reported density is the density of that choice *)
Theorem C39_phong_density kd ks n c : unit3 (c_wi c) -> 0 < vz (c_wi c) -> 0 <= ks <= 1 -> 0 <= n ->
  exists dir lobe1 lobe2 pdf1 pdf2,
    mixture ks dir lobe1 lobe2 /\ law_around (reflection up (c_wi c)) lobe1 pdf1 /\ law_around up lobe2 pdf2 /\
    forall u1 u2, exists c', answer (bsdf_sample (Phong kd ks n) c) u1 u2 = Some c' /\
      c_wo c' = dir u2 /\ c_pdf c' = ks * pdf1 (c_wo c') + (1 - ks) * pdf2 (c_wo c').
Proof.
  intros U Z K N. assert (Um : unit3 (phong_wr (c_wi c))) by (rewrite phong_wr_mirrored; apply mirrored_unit, U).
  exists (phong_dir ks n (c_wi c)), (fun u => toWorld (frame_of (phong_wr (c_wi c))) (sqrToCosPowHemi u n)), sqrToCosHemi,
    (fun v => sqrToCosPowHemiPdf (toLocal (frame_of (phong_wr (c_wi c))) v) n), sqrToCosHemiPdf.
  split; [apply phong_mixture, K|]. split.
  - rewrite <- mirrored_reflection, <- phong_wr_mirrored.
    apply (law_around_frame _ (fun u => sqrToCosPowHemi u n) (fun v => sqrToCosPowHemiPdf v n) Um), cospow_law, N.
  - split; [apply law_around_up, cos_hemi_law|]. intros u1 u2. unfold bsdf_sample, cosTheta. destruct (Rle_dec (vz (c_wi c)) 0); [lra|].
    cbn [answer]. eexists. split; [reflexivity|]. cbn [put c_wo c_pdf]. split; [reflexivity|]. unfold phong_pdf. ring.
Qed.
(** Blinn with no specular part samples the cosine hemisphere, and reports another density
    for every direction but the normal *)
Theorem C39_blinn_refuted : exists kd n c, unit3 (c_wi c) /\ 0 < vz (c_wi c) /\
  exists dir, sphere_law dir sqrToCosHemiPdf /\
  forall u1 u2, in_unit_square u2 -> 0 < y2 u2 ->
    exists c', answer (bsdf_sample (Blinn kd (V3c 0) n) c) u1 u2 = Some c' /\
      c_wo c' = dir u2 /\ c_pdf c' <> sqrToCosHemiPdf (c_wo c').
Proof.
  exists (V3c 1), 1, (demo_closure (V3 0 0 1)). split; [unfold unit3, dot; simpl; lra|]. split; [simpl; lra|].
  exists sqrToCosHemi. split; [apply cos_hemi_law|]. intros u1 u2 U Y.
  pose proof PI_RGT_0 as Pp. pose proof (Rinv_0_lt_compat _ Pp) as Pi.
  assert (M : maxValue (V3c 0) = 0) by (destruct (maxValue_spec (V3c 0)) as [[H|[H|H]] _]; exact H).
  assert (B : blinn_dir (V3c 0) 1 (V3 0 0 1) u2 = sqrToCosHemi u2).
  { unfold blinn_dir. rewrite M. destruct (Rlt_dec (x2 u2) 0) as [H|_]; [destruct U; lra|]. f_equal. destruct u2; simpl. f_equal. field. }
  unfold bsdf_sample, cosTheta. cbn [demo_closure c_wi vz]. destruct (Rle_dec 1 0); [lra|]. cbn [answer]. rewrite B.
  assert (D : unit3 (sqrToCosHemi u2) /\ vz (sqrToCosHemi u2) = sqrt (1 - y2 u2)).
  { rewrite (cos_hemi_form u2 U). split; [|reflexivity]. apply sph_dir_unit. destruct U. pose proof (sqrt_pos (1 - y2 u2)).
    split; [lra|]. apply Rle_trans with (sqrt 1); [apply sqrt_le_1_alt; lra|rewrite sqrt_1; lra]. }
  set (wo := sqrToCosHemi u2) in *. clearbody wo. destruct D as [D Ez].
  assert (Q : 0 <= vz wo < 1).
  { rewrite Ez. destruct U. split; [apply sqrt_pos|]. apply Rlt_le_trans with (sqrt 1); [apply sqrt_lt_1_alt; lra|rewrite sqrt_1; lra]. }
  clear Ez. set (z := vz wo) in *.
  assert (Sn : sqrNorm (vadd (V3 0 0 1) wo) = 2 + 2 * z) by (unfold sqrNorm, vadd; simpl; unfold unit3, dot in D; fold z in D |- *; lra).
  assert (Nn : norm (vadd (V3 0 0 1) wo) = sqrt (2 + 2 * z)) by (rewrite <- Sn; reflexivity).
  assert (Sq : sqrt (2 + 2 * z) * sqrt (2 + 2 * z) = 2 + 2 * z) by (apply sqrt_sqrt; lra). assert (Sp : 1 < sqrt (2 + 2 * z)) by (apply Rle_lt_trans with (sqrt 1); [rewrite sqrt_1; lra|apply sqrt_lt_1_alt; lra]).
  rewrite Nn. unfold Epsilon at 1. destruct (Rlt_dec _ (1 / 1000)); [lra|]. eexists. split; [reflexivity|]. cbn [put c_wo c_pdf]. split; [reflexivity|].
  unfold blinn_pdf. rewrite M, Rminus_0_r, Rmult_1_l, !Rmult_0_l, Rplus_0_r.
  set (v := toLocal _ _).
  assert (V : vz v * sqrt (2 + 2 * z) = 1 + z).
  { unfold v, toLocal. cbn [vz]. unfold frame_of. destruct (coordinateSystem _) as [s t]. cbn [fn]. unfold normalized, vdiv, dot. rewrite Nn. cbn [vx vy vz vadd].
    fold z. unfold unit3, dot in D. fold z in D. field_simplify; [|lra]. nra. }
  assert (Vp : 0 < vz v) by nra. unfold sqrToCosHemiPdf. fold z. destruct (Rgt_dec (vz v) 0); [|lra].
  destruct (Rgt_dec z 0); [|unfold Rdiv; nra]. intros E. assert (Vz : vz v = z) by nra. rewrite Vz in V. nra.
Qed.
Print Assumptions C39_phong_density.
Print Assumptions C39_blinn_refuted.
Example C39_case : exists dir lobe1 lobe2 pdf1 pdf2,
    mixture (1 / 4) dir lobe1 lobe2 /\ law_around (V3 (-3 / 5) 0 (4 / 5)) lobe1 pdf1 /\ law_around up lobe2 pdf2.
Proof.
  destruct (C39_phong_density (V3c 1) (1 / 4) 20 (demo_closure (V3 (3 / 5) 0 (4 / 5)))) as (d&l1&l2&p1&p2&A&B&C&_); try lra.
  - unfold unit3, dot; simpl; lra.
  - simpl; lra.
  - exists d, l1, l2, p1, p2. split; [exact A|]. split; [|exact C].
    replace (V3 (-3 / 5) 0 (4 / 5)) with (reflection up (c_wi (demo_closure (V3 (3 / 5) 0 (4 / 5))))); [exact B|].
    unfold reflection, up; simpl. apply V3_eq; simpl; unfold dot; simpl; field.
Qed.

(** C86: the value written when sampling is the value [evaluate] gives for the sampled direction *)
Theorem C86_sample_is_evaluate b c u1 u2 c' : answer (bsdf_sample b c) u1 u2 = Some c' -> c_pdf c' <> 0 ->
  match b with Phong _ _ _ => Epsilon <= dot (reflection up (c_wi c)) (c_wo c') | _ => True end ->
  bsdf_value b (c_wi c) (c_wo c') = Some (c_albedo c').
Proof.
  destruct b as [a|a|int ext a|int ext a| |kd ks n|kd ks n]; unfold bsdf_sample, bsdf_value, cosTheta; cbn [answer].
  - destruct (Rle_dec (vz (c_wi c)) 0); cbn [answer]; intros E P _; injection E as <-; [reflexivity|]. cbn [put c_wo c_pdf c_albedo] in *.
    destruct (Rle_dec (vz (sqrToCosHemi u2)) 0) as [L|]; [|reflexivity]. exfalso. apply P.
    assert (V : 0 <= vz (sqrToCosHemi u2)) by apply sqrt_pos. change (1 / PI * vz (sqrToCosHemi u2) = 0). replace (vz (sqrToCosHemi u2)) with 0 by lra. ring.
  - destruct (Rle_dec (vz (c_wi c)) 0); cbn [answer]; intros E _ _; injection E as <-; reflexivity.
  - destruct (ltb_nan _ _); cbn [answer]; intros E _ _; injection E as <-; reflexivity.
  - destruct (ltb_nan _ _ || _)%bool; cbn [answer]; intros E _ _; injection E as <-; reflexivity.
  - intros E _ _; injection E as <-; reflexivity.
  - destruct (Rle_dec (vz (c_wi c)) 0); cbn [answer]; intros E P D; injection E as <-; [exfalso; apply P; reflexivity|].
    cbn [put c_wo c_albedo] in *. rewrite <- mirrored_reflection, <- phong_wr_mirrored in D.
    assert (Ep : 0 < Epsilon) by (unfold Epsilon; lra).
    rewrite (dot_comm (phong_dir _ _ _ _)). unfold powf. destruct (Rlt_dec _ 0); [lra|]. rewrite Rmax_left by lra. reflexivity.
  - destruct (Rle_dec (vz (c_wi c)) 0); cbn [answer]; intros E P _; [injection E as <-; reflexivity|].
    destruct (Rlt_dec (norm _) Epsilon); cbn [answer] in E; injection E as <-; [exfalso; apply P; reflexivity|].
    cbn [put c_wo c_albedo] in *. assert (Vc : forall a b, vadd a b = vadd b a) by (intros a b; unfold vadd; apply V3_eq; simpl; ring).
    rewrite (Vc (blinn_dir _ _ _ _)). reflexivity.
Qed.
(** Phong below the mirror direction's horizon: [evaluate] gives NaN, or a negative colour *)
Theorem C86_phong_refuted : exists c u2 wo, unit3 (c_wi c) /\ 0 < vz (c_wi c) /\ in_unit_square u2 /\ 0 < vz wo /\
  (forall n u1, 0 <= n -> exists c', answer (bsdf_sample (Phong (V3c 0) (1 / 2) n) c) u1 u2 = Some c' /\ c_wo c' = wo /\ 0 < c_pdf c' /\ 0 < vx (c_albedo c')) /\
  bsdf_value (Phong (V3c 0) (1 / 2) (1 / 2)) (c_wi c) wo = None /\
  exists v, bsdf_value (Phong (V3c 0) (1 / 2) 1) (c_wi c) wo = Some v /\ vx v < 0.
Proof.
  pose proof PI_RGT_0 as Pp. pose proof (Rinv_0_lt_compat _ Pp) as Pi. assert (Ip : 0 < 1 / (2 * PI)) by (apply Rdiv_lt_0_compat; lra).
  exists (demo_closure (V3 (3 / 5) 0 (4 / 5))), (V2 (1 / 2) (144 / 169)), (V3 (12 / 13) 0 (5 / 13)). cbn [demo_closure c_wi].
  split; [unfold unit3, dot; simpl; lra|]. split; [simpl; lra|]. split; [split; simpl; lra|]. split; [simpl; lra|].
  assert (Hd : sqrToCosHemi (V2 0 (144 / 169)) = V3 (12 / 13) 0 (5 / 13)).
  { rewrite cos_hemi_form by (split; simpl; lra). unfold sph_dir. cbn [x2 y2]. replace (1 - 144 / 169) with ((5 / 13) * (5 / 13)) by field. rewrite sqrt_square by lra.
    replace (1 - 5 / 13 * (5 / 13)) with ((12 / 13) * (12 / 13)) by field. rewrite sqrt_square by lra. rewrite Rmult_0_r, cos_0, sin_0. apply V3_eq; simpl; ring. }
  assert (Hp : forall n, phong_dir (1 / 2) n (V3 (3 / 5) 0 (4 / 5)) (V2 (1 / 2) (144 / 169)) = V3 (12 / 13) 0 (5 / 13)).
  { intros n. unfold phong_dir. cbn [x2 y2]. destruct (Rlt_dec (1 / 2) (1 / 2)); [lra|]. rewrite <- Hd. f_equal. f_equal. field. }
  assert (Dt : dot (V3 (12 / 13) 0 (5 / 13)) (phong_wr (V3 (3 / 5) 0 (4 / 5))) = - (16 / 65)) by (unfold dot, phong_wr, vsub; simpl; field).
  split; [|split].
  - intros n u1 N. unfold bsdf_sample, cosTheta. cbn [demo_closure c_wi vz]. destruct (Rle_dec (4 / 5) 0); [lra|]. cbn [answer]. rewrite Hp. eexists. split; [reflexivity|]. cbn [put c_wo c_pdf c_albedo].
    split; [reflexivity|]. split.
    + unfold phong_pdf. apply Rplus_lt_le_0_compat; [|apply Rmult_le_pos; [lra|apply cospow_pdf_nonneg; lra]].
      unfold sqrToCosHemiPdf. cbn [vz]. destruct (Rgt_dec (5 / 13) 0); [|lra]. unfold Rdiv. nra.
    + unfold phong_value. cbn [vx vadd vscale V3c]. rewrite Rmult_0_l, Rplus_0_l. rewrite dot_comm, Dt. rewrite Rmax_right by (unfold Epsilon; lra).
      repeat apply Rmult_lt_0_compat; try lra. unfold pow_nn. destruct (Req_EM_T n 0); [lra|]. rewrite rpow_pos by (unfold Epsilon; lra). apply exp_pos.
  - unfold bsdf_value. rewrite Dt. unfold powf. destruct (Rlt_dec (- (16 / 65)) 0); [|lra].
    assert (Zf : Flocq.Core.Raux.Zfloor (1 / 2) = 0%Z) by (apply Flocq.Core.Raux.Zfloor_imp; simpl; lra). rewrite Zf. destruct (Req_EM_T (1 / 2) 0); [lra|]. reflexivity.
  - unfold bsdf_value. rewrite Dt. unfold powf. destruct (Rlt_dec (- (16 / 65)) 0); [|lra].
    rewrite (Flocq.Core.Raux.Zfloor_IZR 1). destruct (Req_EM_T 1 1); [|lra]. eexists. split; [reflexivity|]. unfold phong_value. cbn [vx vadd vscale V3c powerRZ]. simpl. nra.
Qed.
Print Assumptions C86_sample_is_evaluate.
Print Assumptions C86_phong_refuted.
Example C86_case : exists c', answer (bsdf_sample (Diffuse (V3c 1)) (demo_closure (V3 0 0 1))) 0 (V2 0 (3 / 4)) = Some c' /\
  bsdf_value (Diffuse (V3c 1)) (V3 0 0 1) (c_wo c') = Some (c_albedo c').
Proof.
  destruct (answer (bsdf_sample (Diffuse (V3c 1)) (demo_closure (V3 0 0 1))) 0 (V2 0 (3 / 4))) as [c'|] eqn:E.
  2:{ exfalso. unfold bsdf_sample, cosTheta in E. cbn [demo_closure c_wi vz] in E. destruct (Rle_dec 1 0); discriminate. }
  exists c'. split; [reflexivity|]. apply (C86_sample_is_evaluate (Diffuse (V3c 1)) (demo_closure (V3 0 0 1)) 0 (V2 0 (3 / 4)) c' E); [|exact I].
  assert (Q : in_unit_square (V2 0 (3 / 4))) by (split; simpl; lra).
  assert (Z : vz (sqrToCosHemi (V2 0 (3 / 4))) = 1 / 2).
  { rewrite (cos_hemi_form _ Q). cbn [sph_dir vz y2]. replace (1 - 3 / 4) with (1 / 2 * (1 / 2)) by field. apply sqrt_square. lra. }
  unfold bsdf_sample, cosTheta in E. change (vz (c_wi (demo_closure (V3 0 0 1)))) with 1 in E. destruct (Rle_dec 1 0); [lra|]. cbn [answer] in E. rewrite Z in E.
  assert (P : c_pdf c' = 1 / PI * (1 / 2)) by (injection E as <-; reflexivity). rewrite P.
  pose proof PI_RGT_0 as Pp. pose proof (Rinv_0_lt_compat _ Pp). unfold Rdiv. intros ?. nra.
Qed.

(** evaluate stores the value for the two directions of the closure as its albedo and touches nothing else *)
Theorem C86_evaluate b c c' : bsdf_evaluate b c = Some c' ->
  bsdf_value b (c_wi c) (c_wo c) = Some (c_albedo c') /\
  c_wi c' = c_wi c /\ c_wo c' = c_wo c /\ c_shadow c' = c_shadow c /\ c_emission c' = c_emission c /\ c_nee c' = c_nee c /\
  c_pdf c' = c_pdf c /\ c_eta c' = c_eta c /\ c_spec c' = c_spec c /\ c_last_spec c' = c_last_spec c /\ c_all c' = c_all c /\ c_accepts c' = c_accepts c.
Proof. unfold bsdf_evaluate. destruct (bsdf_value b (c_wi c) (c_wo c)); [|discriminate]. intros E. injection E as <-. cbn. repeat split; reflexivity. Qed.
(** evaluating what has just been sampled changes nothing at all: the two agree on every field *)
Theorem C86_evaluate_after_sample b c u1 u2 c' : answer (bsdf_sample b c) u1 u2 = Some c' -> c_pdf c' <> 0 ->
  match b with Phong _ _ _ => Epsilon <= dot (reflection up (c_wi c)) (c_wo c') | _ => True end ->
  bsdf_evaluate b c' = Some c'.
Proof.
  intros E P G. assert (W : c_wi c' = c_wi c).
  { revert E. clear. destruct b; unfold bsdf_sample; cbn [answer];
    repeat (match goal with |- context [Rle_dec ?x ?y] => destruct (Rle_dec x y) | |- context [if ?x then _ else _] => destruct x end; cbn [answer]); intros E; injection E as <-; reflexivity. }
  pose proof (C86_sample_is_evaluate b c u1 u2 c' E P G) as V. unfold bsdf_evaluate. rewrite W, V. f_equal. destruct c'. reflexivity.
Qed.
Print Assumptions C86_evaluate.
Print Assumptions C86_evaluate_after_sample.
(** C87: what Phong reflects of light from straight above; the constructor's scaling of ks plays no part *)
Theorem C87_phong_reflectance kd ks n (get : vec3 -> R) : 0 <= n -> In get [vx; vy; vz] ->
  cap_integral (fun wo => match bsdf_value (mk_phong kd ks n) up wo with Some v => get v * vz wo | None => 0 end)
    0 (2 * PI) (get kd + ks).
Proof.
  intros N G. pose proof PI_RGT_0 as Pp. pose proof (phong_normal_integral (get kd) ks n N) as I.
  replace (get kd + ks) with (2 * PI * ((get kd + ks) / (2 * PI))) by (field; lra).
  set (g := fun z => match powf z n with Some p => get (phong_value kd ks n p) * z | None => 0 end).
  apply (cap_integral_of _ g).
  - intros z q. unfold mk_phong, bsdf_value, g.
    replace (dot (sph_dir z q) (phong_wr up)) with z by (unfold dot, phong_wr, up, sph_dir, vsub; cbn [vx vy vz]; ring).
    destruct (powf z n); reflexivity.
  - eapply is_RInt_ext; [|exact I]. rewrite Rmin_left, Rmax_right by lra. intros z Z. unfold g, powf. destruct (Rlt_dec z 0); [lra|].
    unfold phong_value. destruct G as [<-|[<-|[<-|[]]]]; reflexivity.
Qed.
(** Blinn's lobe over half vectors: of light sent straight back, summed over all directions, kd + ks *)
Theorem C87_blinn_half_vectors kd ks n (get : vec3 -> R) : 0 <= n -> In get [vx; vy; vz] ->
  cap_integral (fun wh => match bsdf_value (Blinn kd ks n) wh wh with Some v => get v * vz wh | None => 0 end)
    0 (2 * PI) (get kd + get ks).
Proof.
  intros N G. pose proof PI_RGT_0 as Pp. pose proof (phong_normal_integral (get kd) (get ks) n N) as I.
  replace (get kd + get ks) with (2 * PI * ((get kd + get ks) / (2 * PI))) by (field; lra).
  set (g := fun z => (get kd * (1 / PI) + get ks * (n + 2) * (1 / (2 * PI)) * pow_nn z n) * z) in *.
  set (pdf := fun wh => _).
  assert (P : forall z q, 0 < z < 1 -> pdf (sph_dir z q) = g z).
  { intros z q Z. unfold pdf, bsdf_value, cosTheta. assert (Vz : vz (sph_dir z q) = z) by reflexivity. rewrite Vz. destruct (Rle_dec z 0); [lra|].
    assert (H : normalized (vadd (sph_dir z q) (sph_dir z q)) = sph_dir z q).
    { pose proof (sph_dir_unit z q ltac:(lra)) as U. unfold normalized. assert (Nn : norm (vadd (sph_dir z q) (sph_dir z q)) = 2).
      { unfold norm. unfold unit3, dot in U. match goal with |- sqrt ?t = 2 => replace t with (2 * 2); [apply sqrt_square; lra|] end. unfold sqrNorm, dot, vadd. cbn [vx vy vz] in *. nra. }
      rewrite ?Nn. unfold vdiv, vscale, vadd, sph_dir. cbn [vx vy vz]. f_equal; field. }
    rewrite H, Vz, Rmax_left by lra. unfold g, blinn_value. destruct G as [<-|[<-|[<-|[]]]]; unfold vadd, vscale; cbn [vx vy vz]; ring. }
  split.
  - intros q. eexists. apply (is_RInt_ext g); [|exact I]. rewrite Rmin_left, Rmax_right by lra. intros z Z. symmetry. apply P, Z.
  - apply (is_RInt_ext (fun _ => (get kd + get ks) / (2 * PI))).
    + intros q _. symmetry. apply is_RInt_unique. apply (is_RInt_ext g); [|exact I]. rewrite Rmin_left, Rmax_right by lra. intros z Z. symmetry. apply P, Z.
    + pose proof (is_RInt_const 0 (2 * PI) ((get kd + get ks) / (2 * PI))) as K. unfold scal in K; simpl in K; unfold mult in K; simpl in K.
      replace (2 * PI * ((get kd + get ks) / (2 * PI))) with ((2 * PI - 0) * ((get kd + get ks) / (2 * PI))) by ring. exact K.
Qed.
Print Assumptions C87_blinn_half_vectors.
Example C87_blinn_case : cap_integral (fun wh => match bsdf_value (Blinn (V3c (1 / 2)) (V3 0 (1 / 4) 1) 5) wh wh with Some v => vy v * vz wh | None => 0 end)
    0 (2 * PI) (1 / 2 + 1 / 4).
Proof. apply (C87_blinn_half_vectors (V3c (1 / 2)) (V3 0 (1 / 4) 1) 5 vy); [lra|right; left; reflexivity]. Qed.
Theorem C87_energy_refuted : exists kd ks n, 0 <= vx kd <= 1 /\ 0 <= vy kd <= 1 /\ 0 <= vz kd <= 1 /\ 0 <= ks <= 1 /\ 0 <= n /\
  exists total, 1 < total /\
  cap_integral (fun wo => match bsdf_value (mk_phong kd ks n) up wo with Some v => vx v * vz wo | None => 0 end) 0 (2 * PI) total.
Proof.
  exists (V3c 1), 1, 20. simpl. repeat split; try lra. exists 2. split; [lra|].
  replace 2 with (vx (V3c 1) + 1) at 5 by (simpl; ring). apply C87_phong_reflectance; [lra|left; reflexivity].
Qed.
Print Assumptions C87_phong_reflectance.
Print Assumptions C87_energy_refuted.
Example C87_case : cap_integral (fun wo => match bsdf_value (mk_phong (V3c (1 / 2)) (1 / 4) 5) up wo with Some v => vy v * vz wo | None => 0 end)
    0 (2 * PI) (1 / 2 + 1 / 4).
Proof. apply (C87_phong_reflectance (V3c (1 / 2)) (1 / 4) 5 vy); [lra|right; left; reflexivity]. Qed.

(** C88: one-way dielectric *)
Theorem C88_never_leaves int ext a c u1 u2 c' : vz (c_wi c) < 0 -> answer (bsdf_sample (OneWay int ext a) c) u1 u2 = Some c' ->
  c_wo c' = reflection up (c_wi c) /\ vz (c_wo c') < 0 /\ c_pdf c' = 1 /\ c_albedo c' = a.
Proof.
  intros Z. unfold bsdf_sample, cosTheta. cbn [answer]. destruct (Rlt_dec (vz (c_wi c)) 0); [|contradiction].
  rewrite orb_true_r. cbn [answer]. intros E. injection E as <-. cbn [put c_wo c_pdf c_albedo]. split; [apply mirrored_reflection|]. auto.
Qed.
Theorem C88_enters int ext a c u1 u2 c' : 0 < int -> 0 < ext -> unit3 (c_wi c) -> 0 <= u1 < 1 -> 0 < vz (c_wi c) ->
  int * int <> ext * ext * (1 - vz (c_wi c) * vz (c_wi c)) ->
  answer (bsdf_sample (OneWay int ext a) c) u1 u2 = Some c' ->
  c_pdf c' = 1 /\ c_albedo c' = a /\
  (c_wo c' = reflection up (c_wi c) \/ (refraction ext int (c_wi c) (c_wo c') /\ ~ total_reflection (vz (c_wi c)) ext int)).
Proof.
  intros I E U Hu Z Cr. unfold bsdf_sample, cosTheta. cbn [answer]. set (z := vz (c_wi c)) in *.
  assert (Zr : -1 <= z <= 1) by (unfold unit3, dot in U; fold z in U; split; nra).
  assert (Ni : n_in z ext int = ext) by (unfold n_in; destruct (Rlt_dec z 0); lra). assert (No : n_out z ext int = int) by (unfold n_out; destruct (Rlt_dec z 0); lra).
  destruct (C35_range z ext int E I ltac:(lra)) as (f&F&R0). rewrite F. unfold ltb_nan. destruct (Rlt_dec z 0); [lra|]. rewrite orb_false_r.
  destruct (Rlt_dec u1 f) as [L|L]; cbn [answer]; intros Q; injection Q as <-; cbn [put c_wo c_pdf c_albedo]; (split; [reflexivity|]); (split; [reflexivity|]).
  - left. apply mirrored_reflection.
  - assert (NT : ~ total_reflection z ext int).
    { intros T. rewrite (C35_total_reflection z ext int E I Zr) in F; [injection F as <-; lra|]. rewrite Ni, No. exact T. }
    right. split; [|exact NT]. unfold total_reflection in NT.
    destruct (refracted_sqrt sqrt (c_wi c) (ext / int) U) as (A&B&C&D); fold z.
    + reflexivity.
    + assert (X : ext * ext * (1 - z * z) < int * int) by (destruct (Rtotal_order (ext * ext * (1 - z * z)) (int * int)) as [H|[H|H]]; lra).
      replace (1 - ext / int * (ext / int) * (1 - z * z)) with ((int * int - ext * ext * (1 - z * z)) / (int * int)) by (field; lra).
      apply Rdiv_lt_0_compat; nra.
    + right. lra.
    + split; [exact A|]. split; [exact B|]. rewrite C, D. split; field; lra.
Qed.
Print Assumptions C88_never_leaves.
Print Assumptions C88_enters.
Example C88_case : exists c', answer (bsdf_sample (OneWay 2 1 (V3c 1)) (demo_closure (V3 0 (3 / 5) (-4 / 5)))) (1 / 2) (V2 0 0) = Some c' /\ vz (c_wo c') < 0.
Proof.
  destruct (answer (bsdf_sample (OneWay 2 1 (V3c 1)) (demo_closure (V3 0 (3 / 5) (-4 / 5)))) (1 / 2) (V2 0 0)) as [c'|] eqn:E.
  - exists c'. split; [reflexivity|]. apply C88_never_leaves in E; [tauto|]. simpl. lra.
  - exfalso. unfold bsdf_sample in E. cbn [answer] in E. destruct (_ || _)%bool; discriminate.
Qed.

(** C89: the null material lets light through, but leaves the density of an earlier bounce *)
Theorem C89_direction_and_colour c u1 u2 : exists c', answer (bsdf_sample NullBsdf c) u1 u2 = Some c' /\
  c_wo c' = vscale (c_wi c) (-1) /\ c_albedo c' = V3c 1 /\ c_pdf c' = c_pdf c /\ c_accepts c' = false.
Proof. eexists. split; [reflexivity|]. cbn [put c_wo c_albedo c_pdf c_accepts]. repeat split. apply V3_eq; simpl; ring. Qed.
(** a diffuse bounce, then the null surface: the weight of passing straight through is 2 pi *)
Theorem C89_weight_refuted : exists c u2 c1 c2, 
  answer (bsdf_sample (Diffuse (V3c 1)) c) 0 u2 = Some c1 /\
  answer (bsdf_sample NullBsdf (set_wi c1 (vneg (c_wo c1)))) 0 u2 = Some c2 /\
  c_wo c2 = c_wo c1 /\ vdiv (c_albedo c2) (c_pdf c2) = V3c (2 * PI).
Proof.
  pose proof PI_RGT_0 as Pp. exists (demo_closure (V3 0 0 1)), (V2 0 (3 / 4)).
  assert (Q : in_unit_square (V2 0 (3 / 4))) by (split; simpl; lra).
  assert (Z : vz (sqrToCosHemi (V2 0 (3 / 4))) = 1 / 2).
  { rewrite (cos_hemi_form _ Q). cbn [sph_dir vz y2]. replace (1 - 3 / 4) with (1 / 2 * (1 / 2)) by field. apply sqrt_square. lra. }
  unfold bsdf_sample, cosTheta. change (vz (c_wi (demo_closure (V3 0 0 1)))) with 1. destruct (Rle_dec 1 0); [lra|]. cbn [answer]. rewrite Z.
  eexists. eexists. split; [reflexivity|]. split; [reflexivity|]. split.
  - generalize (sqrToCosHemi (V2 0 (3 / 4))). intros w. cbn [put set_wi c_wi c_wo]. destruct w; unfold vneg; apply V3_eq; simpl; ring.
  - generalize (sqrToCosHemi (V2 0 (3 / 4))). intros w. cbn [put set_wi c_albedo c_pdf]. unfold vdiv, V3c. apply V3_eq; simpl; field; lra.
Qed.
Print Assumptions C89_direction_and_colour.
Print Assumptions C89_weight_refuted.
Example C89_case : exists c', answer (bsdf_sample NullBsdf (demo_closure (V3 (3 / 5) 0 (4 / 5)))) 0 (V2 0 0) = Some c' /\ c_wo c' = V3 (-3 / 5) 0 (-4 / 5).
Proof.
  destruct (C89_direction_and_colour (demo_closure (V3 (3 / 5) 0 (4 / 5))) 0 (V2 0 0)) as (c'&E&W&_). exists c'. split; [exact E|].
  rewrite W. simpl. apply V3_eq; simpl; field.
Qed.

(** C90 *)
Theorem C90_diffuse_and_mirror b c u1 u2 c' : (exists a, b = Diffuse a \/ b = Mirror a) ->
  answer (bsdf_sample b c) u1 u2 = Some c' -> c_pdf c' <> 0 -> 0 < vz (c_wi c) /\ 0 <= vz (c_wo c').
Proof.
  intros (a&[->| ->]); unfold bsdf_sample, cosTheta; (destruct (Rle_dec (vz (c_wi c)) 0); cbn [answer]; intros E; injection E as <-; [intros P; exfalso; apply P; reflexivity|]);
    intros _; cbn [put c_wo]; (split; [lra|]).
  - change (0 <= vz (sqrToCosHemi u2)). apply sqrt_pos.
  - unfold mirrored; simpl; lra.
Qed.
Lemma rpow_half_root : rpow (49 / 625) (1 / (1 + 1)) = 7 / 25.
Proof.
  rewrite rpow_pos by lra. replace (1 / (1 + 1)) with (/ 2) by field. rewrite Rpower_sqrt by lra.
  replace (49 / 625) with (7 / 25 * (7 / 25)) by field. apply sqrt_square. lra.
Qed.
Lemma sin_24_25 : sqrt (Rmax 0 (1 - 7 / 25 * (7 / 25))) = 24 / 25.
Proof. rewrite Rmax_right by lra. replace (1 - 7 / 25 * (7 / 25)) with (24 / 25 * (24 / 25)) by field. apply sqrt_square. lra. Qed.
Theorem C90_phong_refuted : exists kd ks n c u2 c', unit3 (c_wi c) /\ 0 < vz (c_wi c) /\ 0 <= ks <= 1 /\ 0 <= n /\ in_unit_square u2 /\
  answer (bsdf_sample (Phong kd ks n) c) 0 u2 = Some c' /\ vz (c_wo c') < 0 /\ 0 < c_pdf c'.
Proof.
  exists (V3c 0), 1, 1, (demo_closure (V3 (3 / 5) 0 (4 / 5))), (V2 (3 / 4) (49 / 625)). pose proof PI_RGT_0 as Pp. pose proof (Rinv_0_lt_compat _ Pp) as Pi.
  assert (W : phong_wr (V3 (3 / 5) 0 (4 / 5)) = V3 (-3 / 5) 0 (4 / 5)) by (unfold phong_wr, vsub; apply V3_eq; simpl; field).
  assert (U : unit3 (V3 (-3 / 5) 0 (4 / 5))) by (unfold unit3, dot; simpl; lra).
  destruct (frame_orthonormal _ U) as (O&_&Fn).
  assert (Ft : vz (ft (frame_of (V3 (-3 / 5) 0 (4 / 5)))) = 3 / 5).
  { unfold frame_of, coordinateSystem. cbn [vx vy vz]. destruct (Rgt_dec (Rabs (-3 / 5)) (Rabs 0)) as [_|H].
    - cbn [ft vz]. replace (-3 / 5 * (-3 / 5) + 4 / 5 * (4 / 5)) with 1 by field. rewrite sqrt_1. field.
    - exfalso. apply H. rewrite Rabs_R0, Rabs_left; lra. }
  set (L := sqrToCosPowHemi (V2 (3 / 4) (49 / 625)) 1).
  assert (EL : L = V3 0 (- (24 / 25)) (7 / 25)).
  { unfold L, sqrToCosPowHemi. cbn [x2 y2]. rewrite rpow_half_root, sin_24_25. replace (2 * PI * (3 / 4)) with (3 * (PI / 2)) by field. rewrite cos_3PI2, sin_3PI2. apply V3_eq; simpl; ring. }
  assert (D : phong_dir 1 1 (V3 (3 / 5) 0 (4 / 5)) (V2 (3 / 4) (49 / 625)) = toWorld (frame_of (V3 (-3 / 5) 0 (4 / 5))) L).
  { unfold phong_dir. cbn [x2 y2]. destruct (Rlt_dec (3 / 4) 1); [|lra]. rewrite W. replace (3 / 4 / 1) with (3 / 4) by field. reflexivity. }
  unfold bsdf_sample, cosTheta. cbn [demo_closure c_wi vz]. destruct (Rle_dec (4 / 5) 0); [lra|]. cbn [answer]. rewrite D. eexists.
  split; [unfold unit3, dot; simpl; lra|]. split; [lra|]. split; [lra|]. split; [lra|]. split; [split; simpl; lra|]. split; [reflexivity|]. cbn [put c_wo c_pdf]. split.
  - rewrite EL. unfold toWorld. cbn [vz vadd vscale]. rewrite Ft, Fn. simpl. lra.
  - unfold phong_pdf. rewrite W, world_local by exact O. rewrite EL. unfold sqrToCosPowHemiPdf. cbn [vz]. destruct (Rgt_dec (7 / 25) 0); [|lra].
    rewrite rpow_pos by lra. rewrite Rpower_1 by lra. unfold Rdiv. nra.
Qed.
Theorem C90_blinn_refuted : exists kd ks n c u2 c', unit3 (c_wi c) /\ 0 < vz (c_wi c) /\ ks = V3c 1 /\ 0 <= n /\ in_unit_square u2 /\
  answer (bsdf_sample (Blinn kd ks n) c) 0 u2 = Some c' /\ vz (c_wo c') < 0 /\ 0 < c_pdf c'.
Proof.
  exists (V3c 0), (V3c 1), 1, (demo_closure (V3 (3 / 5) 0 (4 / 5))), (V2 0 (49 / 625)). pose proof PI_RGT_0 as Pp. pose proof (Rinv_0_lt_compat _ Pp) as Pi.
  assert (M : maxValue (V3c 1) = 1) by (destruct (maxValue_spec (V3c 1)) as [[H|[H|H]] _]; exact H).
  assert (D : blinn_dir (V3c 1) 1 (V3 (3 / 5) 0 (4 / 5)) (V2 0 (49 / 625)) = V3 (117 / 125) 0 (-44 / 125)).
  { unfold blinn_dir. rewrite M. cbn [x2 y2]. destruct (Rlt_dec 0 1); [|lra]. unfold sqrToCosPowHemi. cbn [x2 y2]. rewrite rpow_half_root, sin_24_25.
    replace (2 * PI * (0 / 1)) with 0 by field. rewrite cos_0, sin_0. unfold dot, vsub, vscale. apply V3_eq; simpl; field. }
  unfold bsdf_sample, cosTheta. cbn [demo_closure c_wi vz]. destruct (Rle_dec (4 / 5) 0); [lra|]. cbn [answer]. rewrite D, M.
  assert (S : vadd (V3 (3 / 5) 0 (4 / 5)) (V3 (117 / 125) 0 (-44 / 125)) = V3 (192 / 125) 0 (56 / 125)) by (apply V3_eq; simpl; field). rewrite S.
  assert (Nn : norm (V3 (192 / 125) 0 (56 / 125)) = 8 / 5).
  { unfold norm. cbn [vx vy vz]. replace (192 / 125 * (192 / 125) + 0 * 0 + 56 / 125 * (56 / 125)) with (8 / 5 * (8 / 5)) by field. apply sqrt_square. lra. }
  assert (Nz : normalized (V3 (192 / 125) 0 (56 / 125)) = V3 (24 / 25) 0 (7 / 25)) by (unfold normalized; rewrite Nn; apply V3_eq; simpl; field).
  rewrite Nn, Nz. destruct (Rlt_dec (8 / 5) Epsilon) as [H|_]; [unfold Epsilon in H; lra|]. cbn [answer]. eexists.
  split; [unfold unit3, dot; simpl; lra|]. split; [lra|]. split; [reflexivity|]. split; [lra|]. split; [split; simpl; lra|]. split; [reflexivity|]. cbn [put c_wo c_pdf]. split; [simpl; lra|].
  unfold blinn_pdf. rewrite M. set (v := toLocal _ _).
  assert (V : vz v = 4 / 5).
  { unfold v, toLocal, frame_of. destruct (coordinateSystem _) as [s t]. cbn [vz fn]. unfold dot; simpl. lra. }
  replace (1 - 1) with 0 by ring. rewrite Rmult_0_l, Rplus_0_l, Rmult_1_l. apply Rmult_lt_0_compat.
  - unfold sqrToCosPowHemiPdf. rewrite V. destruct (Rgt_dec (4 / 5) 0); [|lra]. rewrite rpow_pos by lra. rewrite Rpower_1 by lra. unfold Rdiv. nra.
  - apply Rdiv_lt_0_compat; [lra|]. pose proof (Rmax_r (dot (V3 (24 / 25) 0 (7 / 25)) (V3 (117 / 125) 0 (-44 / 125))) Epsilon) as H. unfold Epsilon in H at 1. lra.
Qed.
Print Assumptions C90_diffuse_and_mirror.
Print Assumptions C90_phong_refuted.
Print Assumptions C90_blinn_refuted.
Example C90_case : exists c', answer (bsdf_sample (Mirror (V3c 1)) (demo_closure (V3 (3 / 5) 0 (4 / 5)))) 0 (V2 0 0) = Some c' /\ 0 <= vz (c_wo c').
Proof.
  destruct (answer (bsdf_sample (Mirror (V3c 1)) (demo_closure (V3 (3 / 5) 0 (4 / 5)))) 0 (V2 0 0)) as [c'|] eqn:E.
  - exists c'. split; [reflexivity|]. destruct (C38_mirror _ _ _ _ _ E) as [(H&_)|(H&_&_&_&P&_)]; [simpl in H; lra|].
    destruct (C90_diffuse_and_mirror (Mirror (V3c 1)) _ _ _ _ (ex_intro _ _ (or_intror eq_refl)) E); [rewrite P; lra|assumption].
  - exfalso. unfold bsdf_sample in E. cbn [answer] in E. destruct (Rle_dec _ 0); discriminate.
Qed.

(** C56: every material of the library meets what the integrator theorems ask of shaders *)
Theorem C56_materials_keep_light b : keeps_light (fun _ c => bsdf_sample b c).
Proof.
  intros i c c' H. 
  assert (K : forall x, (exists wo a p e s t, x = put c wo a p e s t) -> c_emission x = c_emission c /\ c_nee x = c_nee c) by (intros x (?&?&?&?&?&?&->); split; reflexivity).
  destruct b; unfold bsdf_sample in H; try (destruct (Rle_dec _ 0)); try (inversion H; subst; apply K; unfold kill; repeat eexists; fail);
    inversion H as [|?|k u a L|k u a L]; subst; clear H.
  - inversion L; subst. apply K. repeat eexists.
  - destruct (ltb_nan _ _); inversion L; subst; apply K; repeat eexists.
  - destruct (_ || _)%bool; inversion L; subst; apply K; repeat eexists.
  - inversion L; subst. apply K. repeat eexists.
  - cbv zeta in L. destruct (Rlt_dec (norm _) Epsilon); inversion L; subst; apply K; repeat eexists.
Qed.
Definition sensible (b : bsdf) : Prop :=
  match b with
  | Diffuse a | Mirror a | Dielectric _ _ a | OneWay _ _ a => nonneg a
  | NullBsdf => False
  | Phong kd ks n => nonneg kd /\ 0 <= ks <= 1 /\ 0 <= n
  | Blinn kd ks n => nonneg kd /\ nonneg ks /\ maxValue ks <= 1 /\ 0 <= n
  end.
Theorem C56_materials_physical b i c c' : sensible b -> leaf ((fun (_ : isect) c => bsdf_sample b c) i c) c' ->
  (no_negative_light c -> no_negative_light c') /\ nonneg (c_albedo c') /\ 0 <= c_pdf c'.
Proof.
  pose proof PI_RGT_0 as Pp. assert (Pi : 0 < 1 / PI) by (apply Rdiv_lt_0_compat; lra). assert (P2 : 0 < 1 / (2 * PI)) by (apply Rdiv_lt_0_compat; lra).
  assert (K : forall x, (exists wo a p e s t, x = put c wo a p e s t /\ nonneg a /\ 0 <= p) -> (no_negative_light c -> no_negative_light x) /\ nonneg (c_albedo x) /\ 0 <= c_pdf x).
  { intros x (?&a&p&?&?&?&->&A&P). split; [intros X; exact X|]. cbn [put c_albedo c_pdf]. split; assumption. }
  assert (Kk : (exists wo a p e s t, kill c = put c wo a p e s t /\ nonneg a /\ 0 <= p)).
  { unfold kill. do 6 eexists. split; [reflexivity|]. split; [repeat split; simpl; lra|lra]. }
  assert (Ks : forall a k, nonneg a -> 0 <= k -> nonneg (vscale a k)) by (intros a k (A1&A2&A3) Kp; repeat split; simpl; nra).
  assert (Kc : forall k, 0 <= k -> nonneg (V3c k)) by (intros k Kp; repeat split; simpl; lra).
  assert (Ka : forall a b, nonneg a -> nonneg b -> nonneg (vadd a b)) by (intros a d (A1&A2&A3) (B1&B2&B3); repeat split; simpl; lra).
  intros S H. cbv beta in H. apply K. destruct b as [a|a|int ext a|int ext a| |kd ks n|kd ks n]; unfold bsdf_sample in H; cbn [sensible] in S; try contradiction; try (destruct (Rle_dec _ 0); [inversion H; subst; exact Kk|]);
    inversion H as [|?|k u a0 L|k u a0 L]; subst; clear H.
  - inversion L; subst. do 6 eexists. split; [reflexivity|]. split; [apply Ks; [exact S|lra]|]. apply Rmult_le_pos; [lra|]. change (0 <= vz (sqrToCosHemi u)). apply sqrt_pos.
  - do 6 eexists. split; [reflexivity|]. split; [exact S|lra].
  - destruct (ltb_nan _ _); inversion L; subst; do 6 eexists; (split; [reflexivity|]); (split; [exact S|lra]).
  - destruct (_ || _)%bool; inversion L; subst; do 6 eexists; (split; [reflexivity|]); (split; [exact S|lra]).
  - destruct S as (S1&S2&S3). inversion L; subst. do 6 eexists. split; [reflexivity|]. split.
    + unfold phong_value. apply Ka; [apply Ks; [exact S1|lra]|]. apply Kc. repeat apply Rmult_le_pos; try lra. apply pow_nn_nonneg.
    + unfold phong_pdf. apply Rplus_le_le_0_compat; apply Rmult_le_pos; try lra; [apply cos_hemi_pdf_nonneg|apply cospow_pdf_nonneg; lra].
  - destruct S as (S1&S2&S3&S4). cbv zeta in L. destruct (Rlt_dec (norm _) Epsilon); inversion L; subst; do 6 eexists; (split; [reflexivity|]).
    + split; [apply Kc; lra|lra].
    + split.
      * unfold blinn_value. apply Ka; [apply Ks; [exact S1|lra]|]. repeat apply Ks; try lra; [exact S2|apply pow_nn_nonneg].
      * assert (M : 0 <= maxValue ks) by (destruct S2 as (?&?&?); destruct (maxValue_spec ks) as [[Hk|[Hk|Hk]] _]; lra).
        unfold blinn_pdf. apply Rplus_le_le_0_compat; repeat apply Rmult_le_pos; try lra; [apply cos_hemi_pdf_nonneg|apply cospow_pdf_nonneg; lra|].
        left. apply Rinv_0_lt_compat. match goal with |- 0 < 4 * Rmax ?d Epsilon => pose proof (Rmax_r d Epsilon) as Hm end. unfold Epsilon in Hm at 1. lra.
Qed.
Print Assumptions C56_materials_keep_light.
Print Assumptions C56_materials_physical.
Example C56_materials_case : sensible (Blinn (V3c (1 / 2)) (V3 (1 / 4) (1 / 2) 1) 30).
Proof.
  cbn [sensible]. destruct (maxValue_spec (V3 (1 / 4) (1 / 2) 1)) as [[H|[H|H]] _]; rewrite H; repeat split; simpl; lra.
Qed.
