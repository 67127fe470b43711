(** C53, C54, C128-C131: photon mapping. *)
From Coq Require Import Reals List Lra Lia Psatz Permutation Sorted String ZArith.
From Coquelicot Require Import Rbar RInt Hierarchy.
From Verif.Base Require Import Outcome.
From Verif.Model Require Import Vec Frame BBox Warp Integrators Photon.
From Verif.Spec Require Import PhotonSpec.
From Verif.Proof Require Import VecLemmas EstimateProof WarpProof PhotonProof.
Import ListNotations.
Open Scope R_scope.

Definition f0 : frame := Fr (V3 1 0 0) (V3 0 1 0) (V3 0 0 1).
Definition three : list gphoton := [GPhoton (V3 2 0 0) (V3 0 0 1) (V3 1 1 1); GPhoton (V3 1 0 0) (V3 0 0 1) (V3 1 1 1); GPhoton (V3 3 0 0) (V3 0 0 1) (V3 1 1 1)].

(** * C53 *)
(** the chosen photons are the k nearest, sorted, each with its squared distance; fewer than k
    photons are all taken *)
Theorem C53_nearest k l pt : (0 < k)%nat -> k_nearest k (with_dist l pt) (closest_k k l pt) /\
  forall x, In x (closest_k k l pt) -> exists p, nth_error l (snd x) = Some p /\ fst x = sqrNorm (vsub pt (g_pos p)).
Proof.
  intros K. pose proof (closest_nearest k l pt K) as N. split; [exact N|]. destruct N as (_&_&rest&P&_). intros x X. apply (with_dist_in l pt).
  eapply Permutation_in; [symmetry; exact P|]. apply in_or_app. left. exact X.
Qed.
Print Assumptions C53_nearest.
(** with at least k photons the query succeeds: the k-1 nearest are spread over the disc that reaches
    to the k-th *)
Theorem C53_estimate mat f l pt k nee : (0 < k <= List.length l)%nat -> exists c far, closest_k k l pt = c ++ [far] /\ List.length c = (k - 1)%nat /\
  (forall x, In x c -> nearer x far) /\
  eval_k mat f l pt k nee = Ok (vadd nee (vscale (vsum (map (fun x => vmul (mat (toLocal f (g_dir (photon_at l (snd x))))) (g_power (photon_at l (snd x)))) c)) (1 / (PI * fst far)))).
Proof.
  intros K. destruct (C53_nearest k l pt (proj1 K)) as ((L&S&rest&P&B)&I). rewrite with_dist_length in L. replace (Nat.min k (List.length l)) with k in L by lia.
  destruct k as [|k]; [lia|]. destruct (exists_last (l := closest_k (Datatypes.S k) l pt)) as (c&far&E); [intros Z; rewrite Z in L; discriminate|].
  rewrite E, app_length in L. cbn in L. exists c, far. split; [exact E|]. split; [lia|].
  assert (N : forall x, In x (c ++ [far]) -> nearer x far).
  { rewrite E in S. clear - S. induction c as [|a c IH]; cbn [app] in S; intros x [<-|X]; try (unfold nearer; lra); try contradiction.
    - inversion S as [|? ? S' F]; subst. rewrite Forall_forall in F. apply F. apply in_or_app. right. left. reflexivity.
    - inversion S; subst. apply IH; assumption. }
  split; [intros x X; apply N, in_or_app; left; exact X|]. unfold eval_k. rewrite E.
  assert (A : at_ (c ++ [far]) k = Ok far). { unfold at_. rewrite nth_error_app2 by lia. replace (k - List.length c)%nat with 0%nat by lia. reflexivity. }
  rewrite A. cbn [bind]. rewrite (eval_loop mat f l (c ++ [far]) far).
  - rewrite app_length. cbn [List.length skipn]. replace (List.length c + 1 - 1)%nat with (List.length c) by lia. rewrite firstn_app, Nat.sub_diag, firstn_all, firstn_O, app_nil_r. reflexivity.
  - intros x X. split; [|exact (N x X)]. rewrite E in I. destruct (I x X) as (p&Q&_). apply nth_error_Some. congruence.
  - rewrite app_length. cbn. lia.
Qed.
Print Assumptions C53_estimate.
(** with fewer photons the query reads past the end of its list *)
Theorem C53_too_few mat f l pt k nee : (List.length l < k)%nat -> eval_k mat f l pt k nee = UB.
Proof.
  intros K. destruct (C53_nearest k l pt ltac:(lia)) as ((L&_)&_). rewrite with_dist_length in L. unfold eval_k. destruct k as [|k]; [lia|]. unfold at_.
  destruct (nth_error (closest_k (Datatypes.S k) l pt) k) as [x|] eqn:E; [|reflexivity]. apply nth_error_Some_lt in E || (assert (nth_error (closest_k (Datatypes.S k) l pt) k <> None) by congruence; apply nth_error_Some in H; lia).
Qed.
Print Assumptions C53_too_few.
(** three photons at distances 2, 1 and 3: the two nearest are photon 1 and photon 0 *)
Example C53_case : closest_k 2 three (V3 0 0 0) = [(1, 1%nat); (4, 0%nat)] /\ (0 < 2 <= List.length three)%nat.
Proof.
  split; [|cbn; lia]. unfold closest_k, with_dist. cbn [three List.length seq map nth g_pos fold_left].
  replace (sqrNorm (vsub (V3 0 0 0) (V3 2 0 0))) with 4 by (unfold sqrNorm; cbn; ring).
  replace (sqrNorm (vsub (V3 0 0 0) (V3 1 0 0))) with 1 by (unfold sqrNorm; cbn; ring).
  replace (sqrNorm (vsub (V3 0 0 0) (V3 3 0 0))) with 9 by (unfold sqrNorm; cbn; ring).
  unfold maybe_add at 3. unfold maybe_add at 2. cbn [bubble fst]. destruct (Rlt_dec 1 4); [|lra]. cbn [List.length Nat.ltb Nat.leb app].
  unfold maybe_add. cbn [bubble fst]. destruct (Rlt_dec 9 1); [lra|]. destruct (Rlt_dec 9 4); [lra|]. reflexivity.
Qed.

(** * C54 *)
(** a small world: the state counts the samples; every ray hits a diffuse surface, which reflects everything *)
Definition c_rnd1 (w : nat) : R * nat := (0, w).
Definition c_rnd2 (w : nat) : vec2 * nat := (V2 0 0, Datatypes.S w).
Definition c_hit (r : ray) : option phit := Some (PHit (V3 0 0 0) f0 (Some false)).
Definition c_bsdf (h : phit) (wi : vec3) (w : nat) : (vec3 * vec3 * R) * nat := (V3 0 0 1, V3 1 1 1, 1, w).
Definition c_lights := [PointLight (V3 0 0 1) (V3 1 1 1)].
Lemma c_cos : photon_cos (PHit (V3 0 0 0) f0 (Some false)) (toWorld f0 (V3 0 0 1)) false = 1.
Proof.
  unfold photon_cos. cbn [ph_frame]. assert (E : dot (fn f0) (toWorld f0 (V3 0 0 1)) = 1) by (unfold dot; cbn; ring). rewrite E. destruct (Rlt_dec 1 0); lra.
Qed.
Lemma c_emit w : emit nat c_rnd1 c_rnd2 c_lights w = Ok (Ray (V3 0 0 1) (sqrToUniSph (V2 0 0)) (Finite Epsilon) (Finite 10000000), V3 1 1 1, Datatypes.S (Datatypes.S w)).
Proof.
  unfold emit, c_rnd1, c_rnd2. replace (0 * INR (List.length c_lights)) with (IZR 0) by (cbn; ring). rewrite Flocq.Core.Raux.Ztrunc_IZR. cbn [Z.to_nat]. unfold at_. cbn [nth_error c_lights bind].
  do 2 f_equal. f_equal. unfold sqrToUniSphPdf. pose proof PI_RGT_0. apply V3_eq; cbn; field; lra.
Qed.
Lemma c_next (v : vec3) : v = V3 1 1 1 -> next_power v (V3 1 1 1) 0 = Some (Some (V3 1 1 1)).
Proof.
  intros ->. unfold next_power, photon_rr. cbn [vx vy vz]. replace (ratio 1 1) with (Some 1) by (unfold ratio; destruct (Req_EM_T 1 0); [lra|f_equal; field]).
  unfold max_opt, gt_opt. destruct (Rgt_dec 1 1); [lra|]. destruct (Rgt_dec 1 1); [lra|]. rewrite Rmin_left by lra. destruct (Rgt_dec 0 1); [lra|]. destruct (Req_EM_T 1 0); [lra|].
  do 2 f_equal. apply V3_eq; cbn; field.
Qed.
Lemma c_path n buf k r w : (k < List.length buf)%nat -> photon_path nat c_rnd1 c_hit c_bsdf (Datatypes.S n) buf k r (Some (V3 1 1 1)) w =
  photon_path nat c_rnd1 c_hit c_bsdf n (update buf k (Photon (V3 0 0 0) (vneg (dir r)) (Some (V3 1 1 1)))) (Datatypes.S k) (Ray (V3 0 0 0) (toWorld f0 (V3 0 0 1)) (Finite Epsilon) p_infty) (Some (V3 1 1 1)) w.
Proof.
  intros L. cbn [photon_path c_hit ph_spec]. unfold store. destruct (Nat.ltb_spec k (List.length buf)); [|lia]. cbn [bind c_bsdf]. destruct (Req_EM_T 1 0); [lra|].
  cbn [c_rnd1]. rewrite c_next; [reflexivity|]. cbn [ph_frame dir]. rewrite c_cos. apply V3_eq; cbn; field.
Qed.
Lemma c_path0 buf k r p w : photon_path nat c_rnd1 c_hit c_bsdf 0 buf k r p w = Ok (buf, k, w).
Proof. reflexivity. Qed.
(** the array can overrun *)
Theorem C54_overrun_refuted : exists W rnd1 rnd2 hit bsdf lights (w : W), (forall w, 0 <= fst (rnd1 w) < 1) /\ lights <> [] /\
  forall fuel num, (0 < fuel)%nat -> (0 < num)%nat -> scatter_photons W rnd1 rnd2 hit bsdf lights fuel (Datatypes.S num) num w = UB.
Proof.
  exists nat, c_rnd1, c_rnd2, c_hit, c_bsdf, c_lights, 0%nat. split; [intros; cbn; lra|]. split; [discriminate|]. intros [|fuel] num F N; [lia|].
  unfold scatter_photons. cbn [scatter_loop]. destruct (Nat.ltb_spec 0 num); [|lia]. rewrite c_emit. cbn [bind].
  assert (G : forall n buf k r w, (k <= List.length buf)%nat -> (List.length buf - k < n)%nat -> photon_path nat c_rnd1 c_hit c_bsdf n buf k r (Some (V3 1 1 1)) w = UB).
  { induction n as [|n IH]; intros buf k r w K L; [lia|]. destruct (Nat.eq_dec k (List.length buf)) as [->|NE].
    - cbn [photon_path c_hit ph_spec]. rewrite store_ub by lia. reflexivity.
    - rewrite c_path by lia. apply IH; rewrite (proj1 (proj2 (store_ok_inv buf _ k _ ltac:(unfold store; destruct (Nat.ltb_spec k (List.length buf)); [reflexivity|lia])))); lia. }
  rewrite G; [reflexivity|lia|rewrite repeat_length; lia].
Qed.
Print Assumptions C54_overrun_refuted.
(** when: a path in the array of the code behaves like the same path in any other array, unless more
    photons arrive than fit *)
Theorem C54_when_exactly W rnd1 hit bsdf n big buf k r p w b' k' w' : (k <= List.length buf)%nat -> photon_path W rnd1 hit bsdf n big k r p w = Ok (b', k', w') ->
  ((List.length buf < k')%nat <-> photon_path W rnd1 hit bsdf n buf k r p w = UB).
Proof.
  intros K E. destruct (path_two W rnd1 hit bsdf n big buf k r p w b' k' w' K E) as (_&A&B). split; [exact B|]. intros U.
  destruct (Nat.lt_ge_cases (List.length buf) k') as [L|L]; [exact L|]. destruct (A L) as (b&Q&_). congruence.
Qed.
Print Assumptions C54_when_exactly.
(** one bounce never overruns; nor would an array with room for max_bounces - 1 more *)
Theorem C54_safe_room W rnd1 rnd2 hit bsdf lights fuel mb num extra w : (forall w, 0 <= fst (rnd1 w) < 1) -> lights <> [] -> (mb <= Datatypes.S extra)%nat ->
  scatter_loop W rnd1 rnd2 hit bsdf lights fuel mb num (repeat photon0 (num + extra)) 0 w <> UB.
Proof.
  intros U N M E. pose proof (loop_ok W rnd1 rnd2 hit bsdf lights fuel mb num (repeat photon0 (num + extra)) 0 w U N) as Q.
  rewrite repeat_length in Q. specialize (Q ltac:(lia) ltac:(lia) (Forall_nil _)). rewrite E in Q. exact Q.
Qed.
Print Assumptions C54_safe_room.
Theorem C54_one_bounce W rnd1 rnd2 hit bsdf lights fuel num w : (forall w, 0 <= fst (rnd1 w) < 1) -> lights <> [] ->
  scatter_photons W rnd1 rnd2 hit bsdf lights fuel 1 num w <> UB.
Proof.
  intros U N E. apply (C54_safe_room W rnd1 rnd2 hit bsdf lights fuel 1 num 0 w U N ltac:(lia)). rewrite Nat.add_0_r. unfold scatter_photons in E.
  destruct (scatter_loop _ _ _ _ _ _ fuel 1 num (repeat photon0 num) 0 w) as [[b w']| | |]; [discriminate|discriminate|reflexivity|discriminate].
Qed.
Print Assumptions C54_one_bounce.
(** success means: exactly num photons, every one on a surface that is not specular, with the
    direction it came from *)
Theorem C54_photons W rnd1 rnd2 hit bsdf lights fuel mb num w l w' : scatter_photons W rnd1 rnd2 hit bsdf lights fuel mb num w = Ok (l, w') ->
  List.length l = num /\ Forall (landed hit) l.
Proof.
  unfold scatter_photons. destruct (scatter_loop _ _ _ _ _ _ fuel mb num (repeat photon0 num) 0 w) as [[b w1]| | |] eqn:E; try discriminate. cbn [bind fst snd]. intros Q. injection Q as <- <-.
  destruct (loop_landed W rnd1 rnd2 hit bsdf lights fuel mb num (repeat photon0 num) 0 w b w1 ltac:(lia) (Forall_nil _) E) as (L&F). rewrite repeat_length in L.
  rewrite map_length. split; [exact L|]. rewrite <- L, firstn_all in F. apply Forall_forall. intros x X. apply in_map_iff in X. destruct X as (y&<-&Y). rewrite Forall_forall in F.
  destruct (F y Y) as (r&h&A&B&C&D). exists r, h. auto.
Qed.
Print Assumptions C54_photons.
(** if only specular surfaces can be hit, scattering never ends *)
Theorem C54_specular_hangs W rnd1 rnd2 hit bsdf lights mb num w : (forall r h, hit r = Some h -> ph_spec h = Some true) -> (forall w, exists e, emit W rnd1 rnd2 lights w = Ok e) -> (0 < num)%nat ->
  forall fuel, scatter_photons W rnd1 rnd2 hit bsdf lights fuel mb num w = OutOfFuel.
Proof. intros S E N fuel. unfold scatter_photons. rewrite specular_loop; auto. Qed.
Print Assumptions C54_specular_hangs.
Example C54_case : (forall w, 0 <= fst (c_rnd1 w) < 1) /\ c_lights <> [] /\ (forall w, exists e, emit nat c_rnd1 c_rnd2 c_lights w = Ok e) /\
  exists l, scatter_photons nat c_rnd1 c_rnd2 c_hit c_bsdf c_lights 2 1 2 0%nat = Ok (l, 4%nat) /\ List.length l = 2%nat.
Proof.
  split; [intros; cbn; lra|]. split; [discriminate|]. split; [intros w; eexists; apply c_emit|]. unfold scatter_photons. cbn [scatter_loop Nat.ltb Nat.leb repeat].
  rewrite c_emit. cbn [bind]. rewrite c_path by (cbn; lia). rewrite c_path0. cbn [bind update]. cbn [Nat.ltb Nat.leb].
  rewrite c_emit. cbn [bind]. rewrite c_path by (cbn; lia). rewrite c_path0. cbn [bind update]. cbn [Nat.ltb Nat.leb]. eexists. split; [reflexivity|reflexivity].
Qed.

(** * C128: gathering within a radius *)
(** what is gathered: the photons nearer than the square root of the radius, over the disc of that size *)
Theorem C128_reach mat f l pt radius nee : 0 < radius -> exists chosen, (forall p, In p chosen <-> In p l /\ away pt (g_pos p) < sqrt radius) /\
  eval_radius mat f l pt radius nee = vadd nee (vscale (vsum (map (fun p => vmul (mat (toLocal f (g_dir p))) (g_power p)) chosen)) (1 / (PI * (sqrt radius * sqrt radius)))).
Proof.
  intros P. exists (filter (close_to pt radius) l). split; [intros p; rewrite filter_In, close_iff by exact P; reflexivity|]. rewrite sqrt_sqrt by lra. apply eval_radius_sum.
Qed.
Print Assumptions C128_reach.
(** nearPhoton asks about the square root of the radius as well *)
Theorem C128_near l pt radius : 0 < radius -> (near_photon l pt radius = true <-> exists p, In p l /\ away pt (g_pos p) < sqrt radius).
Proof.
  intros P. unfold near_photon. rewrite existsb_exists. split; intros (p&I&H); exists p; (split; [exact I|]); apply (close_iff pt radius p P); exact H.
Qed.
Print Assumptions C128_near.
(** so a photon at a distance beyond the radius is gathered when the radius is below 1, and one within
    the radius is ignored when it is above 1 *)
Theorem C128_radius_refuted : (forall radius, 0 < radius < 1 -> exists l pt, (forall p, In p l -> radius < away pt (g_pos p)) /\ near_photon l pt radius = true) /\
  (forall radius, 1 < radius -> exists l pt, (exists p, In p l /\ away pt (g_pos p) < radius) /\ near_photon l pt radius = false).
Proof.
  assert (AW : forall d, 0 <= d -> away (V3 0 0 0) (V3 d 0 0) = d). { intros d D. unfold away, norm. cbn. match goal with |- sqrt ?x = _ => replace x with (d * d) by ring end. apply sqrt_square, D. }
  split; intros radius P.
  - set (d := (radius + sqrt radius) / 2). assert (S : radius < sqrt radius). { rewrite <- (sqrt_square radius) at 1 by lra. apply sqrt_lt_1; nra. }
    exists [GPhoton (V3 d 0 0) (V3 0 0 1) (V3 1 1 1)], (V3 0 0 0). split.
    + intros p [<-|[]]. cbn [g_pos]. rewrite AW; unfold d; lra.
    + apply C128_near; [lra|]. eexists. split; [left; reflexivity|]. cbn [g_pos]. rewrite AW; unfold d; lra.
  - set (d := (radius + sqrt radius) / 2). assert (S : 0 < sqrt radius < radius). { split; [apply sqrt_lt_R0; lra|]. rewrite <- (sqrt_square radius) at 2 by lra. apply sqrt_lt_1; nra. }
    exists [GPhoton (V3 d 0 0) (V3 0 0 1) (V3 1 1 1)], (V3 0 0 0). split.
    + eexists. split; [left; reflexivity|]. cbn [g_pos]. rewrite AW; unfold d; lra.
    + destruct (near_photon _ _ _) eqn:E; [|reflexivity]. exfalso. apply C128_near in E; [|lra]. destruct E as (p&[<-|[]]&D). cbn [g_pos] in D. rewrite AW in D by (unfold d; lra). unfold d in D. lra.
Qed.
Print Assumptions C128_radius_refuted.
(** the renderer asks with 0.01 and so gathers within a tenth; no surface emission and no environment
    is added *)
Theorem C128_render l p f mat : exists chosen, (forall q, In q chosen <-> In q l /\ away p (g_pos q) < 1 / 10) /\
    photon_Li (Some (p, f, mat)) l = vscale (vsum (map (fun q => vmul (mat (toLocal f (g_dir q))) (g_power q)) chosen)) (100 / PI).
Proof.
  destruct (C128_reach mat f l p (1 / 100) (V3 0 0 0) ltac:(lra)) as (c&A&B).
  assert (S : sqrt (1 / 100) = 1 / 10). { replace (1 / 100) with (1 / 10 * (1 / 10)) by field. apply sqrt_square. lra. }
  rewrite S in *. exists c. split; [exact A|]. unfold photon_Li. rewrite B. pose proof PI_RGT_0. apply V3_eq; cbn; field; lra.
Qed.
Print Assumptions C128_render.
Example C128_case : 0 < 1 / 4 /\ near_photon three (V3 (1 / 2) 0 0) (1 / 2) = true /\ near_photon three (V3 0 0 0) (1 / 4) = false.
Proof.
  split; [lra|]. split.
  - apply C128_near; [lra|]. exists (GPhoton (V3 1 0 0) (V3 0 0 1) (V3 1 1 1)). split; [right; left; reflexivity|]. cbn [g_pos]. unfold away, norm. cbn. apply sqrt_lt_1; lra.
  - destruct (near_photon _ _ _) eqn:E; [|reflexivity]. exfalso. apply C128_near in E; [|lra]. destruct E as (p&P&D). unfold away, norm in D.
    cbn [In three] in P. destruct P as [<-|[<-|[<-|[]]]]; cbn in D; apply sqrt_lt_0_alt in D; lra.
Qed.

(** * C129: the energy of the map *)
(** with one point light and one bounce the map always holds the whole power of the light, however
    many of the emitted paths missed the scene *)
Theorem C129_total W rnd1 rnd2 hit bsdf pos inten fuel num w l w' : (0 < num)%nat ->
  scatter_photons W rnd1 rnd2 hit bsdf [PointLight pos inten] fuel 1 num w = Ok (l, w') ->
  exists ps, map ph_power l = map Some ps /\ vsum ps = inten.
Proof.
  intros N. unfold scatter_photons. destruct (scatter_loop _ _ _ _ _ _ fuel 1 num (repeat photon0 num) 0 w) as [[b w1]| | |] eqn:E; try discriminate. cbn [bind fst snd]. intros Q. injection Q as <- <-.
  destruct (loop_landed W rnd1 rnd2 hit bsdf _ fuel 1 num (repeat photon0 num) 0 w b w1 ltac:(lia) (Forall_nil _) E) as (L&_). rewrite repeat_length in L.
  assert (F : Forall (fun p => ph_power p = Some inten) (firstn num b)).
  { apply (loop_power W rnd1 rnd2 hit bsdf [PointLight pos inten] fuel inten) with (buf := repeat photon0 num) (k := 0%nat) (w := w) (w' := w1); [|lia|constructor|exact E].
    intros v r p v' Q. destruct (emit_power _ _ _ _ _ _ _ _ Q) as (pos'&i'&[[= <- <-]|[]]&_&->). apply V3_eq; cbn; ring. }
  rewrite <- L, firstn_all in F. exists (map (fun _ => vdiv inten (INR num)) b). split.
  - rewrite !map_map. apply map_ext_in. intros p P. rewrite Forall_forall in F. cbn [ph_power scale_photon]. rewrite (F p P). reflexivity.
  - assert (G : forall (b : list photon) c, vsum (map (fun _ => c) b) = vscale c (INR (List.length b))).
    { clear. induction b as [|a b IH]; intros c; [apply V3_eq; cbn; ring|]. cbn [map vsum fold_right]. fold (vsum (map (fun _ => c) b)). rewrite IH. cbn [List.length]. rewrite S_INR. apply V3_eq; cbn; ring. }
    rewrite G, L. assert (INR num <> 0) by (apply not_0_INR; lia). apply V3_eq; cbn; field; assumption.
Qed.
Print Assumptions C129_total.
(** a world in which the state counts the 2D samples (two per emitted path), and every other path misses *)
Definition d_rnd2 (w : nat) : vec2 * nat := (V2 0 (if Nat.odd (w / 2) then 0 else 1), Datatypes.S w).
Definition d_hit (r : ray) : option phit := if Rlt_dec 0 (vz (dir r)) then Some (PHit (V3 0 0 0) f0 (Some false)) else None.
Definition d_bsdf (h : phit) (wi : vec3) (w : nat) : (vec3 * vec3 * R) * nat := (V3 0 0 1, V3 1 1 1, 0, w).
Lemma d_emit w : emit nat c_rnd1 d_rnd2 c_lights w = Ok (Ray (V3 0 0 1) (sqrToUniSph (fst (d_rnd2 w))) (Finite Epsilon) (Finite 10000000), V3 1 1 1, Datatypes.S (Datatypes.S w)).
Proof.
  unfold emit, c_rnd1. replace (0 * INR (List.length c_lights)) with (IZR 0) by (cbn; ring). rewrite Flocq.Core.Raux.Ztrunc_IZR. cbn [Z.to_nat]. unfold at_. cbn [nth_error c_lights bind].
  unfold d_rnd2. cbn [fst]. do 2 f_equal. f_equal. unfold sqrToUniSphPdf. pose proof PI_RGT_0. apply V3_eq; cbn; field; lra.
Qed.
Lemma d_path buf k r p w : photon_path nat c_rnd1 d_hit d_bsdf 1 buf k r p w =
  if Rlt_dec 0 (vz (dir r)) then bind (store buf k (Photon (V3 0 0 0) (vneg (dir r)) p)) (fun b => Ok (b, Datatypes.S k, w)) else Ok (buf, k, w).
Proof.
  cbn [photon_path]. unfold d_hit. destruct (Rlt_dec 0 (vz (dir r))); [|reflexivity]. cbn [ph_spec ph_p]. destruct (store buf k _); [|reflexivity..].
  cbn [bind d_bsdf]. destruct (Req_EM_T 0 0); [reflexivity|lra].
Qed.
(** two paths are emitted (four 2D samples) for one photon, which gets the whole power of the light
    instead of half of it *)
Theorem C129_normalised_refuted : exists rnd1 rnd2 hit bsdf p, (forall w, snd (rnd1 w) = w) /\ (forall w, snd (rnd2 w) = Datatypes.S w) /\ (forall h d w, snd (bsdf h d w) = w) /\
  scatter_photons nat rnd1 rnd2 hit bsdf [PointLight (V3 0 0 1) (V3 1 1 1)] 2 1 1 0%nat = Ok ([p], 4%nat) /\ ph_power p = Some (V3 1 1 1).
Proof.
  assert (E0 : d_rnd2 0 = (V2 0 1, 1%nat)) by reflexivity. assert (E2 : d_rnd2 2 = (V2 0 0, 3%nat)) by reflexivity.
  exists c_rnd1, d_rnd2, d_hit, d_bsdf. eexists. split; [reflexivity|]. split; [reflexivity|]. split; [reflexivity|]. change [PointLight (V3 0 0 1) (V3 1 1 1)] with c_lights. split.
  - unfold scatter_photons. cbn [scatter_loop Nat.ltb Nat.leb repeat]. rewrite d_emit. cbn [bind]. rewrite d_path. cbn [dir].
    rewrite E0. cbn [fst sqrToUniSph vz y2]. destruct (Rlt_dec 0 (1 - 2 * 1)); [lra|]. cbn [bind Nat.ltb Nat.leb].
    rewrite d_emit. cbn [bind]. rewrite d_path. cbn [dir]. rewrite E2. cbn [fst sqrToUniSph vz y2]. destruct (Rlt_dec 0 (1 - 2 * 0)); [|lra].
    unfold store. cbn [List.length Nat.ltb Nat.leb bind update fst snd map]. reflexivity.
  - cbn [ph_power scale_photon option_map]. f_equal. apply V3_eq; cbn; field.
Qed.
Print Assumptions C129_normalised_refuted.
Example C129_case : (0 < 2)%nat /\ exists l, scatter_photons nat c_rnd1 c_rnd2 c_hit c_bsdf [PointLight (V3 0 0 1) (V3 1 1 1)] 2 1 2 0%nat = Ok (l, 4%nat).
Proof. split; [lia|]. destruct C54_case as (_&_&_&l&H&_). exists l. exact H. Qed.

(** * C130: Russian roulette of photons *)
(** the expected power after the roulette is the power before, for a light with some red *)
Theorem C130_unbiased old f : 0 < vx old -> 0 <= vy old -> 0 <= vz old -> 0 <= vx f -> 0 <= vy f -> 0 <= vz f -> vmul old f <> V3 0 0 0 ->
  (forall u, next_power (vmul old f) old u <> Some None) /\
  is_RInt (rr_channel vx (vmul old f) old) 0 1 (vx old * vx f) /\ is_RInt (rr_channel vy (vmul old f) old) 0 1 (vy old * vy f) /\ is_RInt (rr_channel vz (vmul old f) old) 0 1 (vz old * vz f).
Proof.
  intros O1 O2 O3 F1 F2 F3 N. destruct (rr_value old f O1 O2 O3 F1 F2 F3 N) as (q&Q&QB).
  assert (NP : forall u, next_power (vmul old f) old u = if Rgt_dec u q then None else Some (Some (vdiv (vmul old f) q))).
  { intros u. unfold next_power. rewrite Q. destruct (Rgt_dec u q); [reflexivity|]. destruct (Req_EM_T q 0); [lra|reflexivity]. }
  split; [intros u; rewrite NP; destruct (Rgt_dec u q); discriminate|].
  assert (G : forall (c : vec3 -> R) (x : R), c (vdiv (vmul old f) q) = x / q -> is_RInt (rr_channel c (vmul old f) old) 0 1 x).
  { intros c x C. apply (is_RInt_ext (fun u => if Rgt_dec u q then 0 else x / q)).
    - intros u _. unfold rr_channel. rewrite NP. destruct (Rgt_dec u q); [reflexivity|symmetry; exact C].
    - apply (is_RInt_val _ 0 1 (q * (x / q) + (1 - q) * 0)); [field; lra|]. apply step_integral. lra. }
  repeat split; apply G; reflexivity.
Qed.
Print Assumptions C130_unbiased.
(** a path whose power has no red goes on whatever the surface reflects, with a power that is not a
    number, and so does everything it stores later *)
Theorem C130_no_red_refuted W rnd1 hit bsdf : (forall power old u, vx old = 0 -> next_power power old u = Some None) /\
  (forall n buf k r w b' k' w', photon_path W rnd1 hit bsdf n buf k r None w = Ok (b', k', w') -> forall i p, (k <= i < k')%nat -> nth_error b' i = Some p -> ph_power p = None).
Proof.
  split; [|exact (path_nan W rnd1 hit bsdf)]. intros power old u H. unfold next_power. rewrite (red_none power old H). reflexivity.
Qed.
Print Assumptions C130_no_red_refuted.
(** a black surface ends the path, unless the random number is exactly zero *)
Theorem C130_black old u : 0 < vx old -> 0 <= u -> next_power (V3 0 0 0) old u = (if Req_EM_T u 0 then Some None else None).
Proof.
  intros O U. unfold next_power, photon_rr. cbn [vx vy vz]. assert (Z : forall o, ratio 0 o = Some 0 \/ ratio 0 o = None). { intros o. unfold ratio. destruct (Req_EM_T o 0); [auto|]. left. f_equal. field. assumption. }
  assert (X : ratio 0 (vx old) = Some 0) by (unfold ratio; destruct (Req_EM_T (vx old) 0); [lra|f_equal; field; lra]). rewrite X.
  assert (M : max_opt (Some 0) (ratio 0 (vy old)) (ratio 0 (vz old)) = Some 0).
  { unfold max_opt. destruct (Z (vy old)) as [-> | ->], (Z (vz old)) as [-> | ->]; cbn [gt_opt]; repeat (match goal with |- context [Rgt_dec 0 0] => destruct (Rgt_dec 0 0); [lra|] end); reflexivity. }
  rewrite M. rewrite Rmin_left by lra. destruct (Rgt_dec u 0), (Req_EM_T u 0), (Req_EM_T 0 0); try lra; reflexivity.
Qed.
Print Assumptions C130_black.
Example C130_case : 0 < vx (V3 1 0 2) /\ 0 <= vy (V3 1 0 2) /\ vmul (V3 1 0 2) (V3 (1 / 2) 1 0) <> V3 0 0 0.
Proof. cbn. repeat split; try lra. intros H. injection H. lra. Qed.

(** * C131: emission of photons *)
(** a photon starts at a point light, with the power of the light times the number of lights *)
Theorem C131_power W rnd1 rnd2 lights w r p w' : emit W rnd1 rnd2 lights w = Ok (r, p, w') ->
  exists pos inten, In (PointLight pos inten) lights /\ org r = pos /\ p = vscale inten (INR (List.length lights)).
Proof. apply emit_power. Qed.
Print Assumptions C131_power.
(** with point lights only, every draw emits *)
Theorem C131_emits W rnd1 rnd2 lights w : (forall w, 0 <= fst (rnd1 w) < 1) -> lights <> [] -> (forall l, In l lights -> l <> OtherLight) -> exists e, emit W rnd1 rnd2 lights w = Ok e.
Proof.
  intros U N A. pose proof (emit_not_stuck W rnd1 rnd2 lights w U N) as H. destruct (emit W rnd1 rnd2 lights w) as [e|m| |] eqn:E; [exists e; reflexivity| |contradiction|contradiction].
  exfalso. clear H. unfold emit in E. destruct (rnd1 w) as [v w1]. unfold at_ in E. destruct (nth_error lights _) as [l|] eqn:L; [|discriminate]. cbn [bind] in E.
  destruct (rnd2 w1) as [d w2]. destruct (rnd2 w2) as [q w3]. destruct l; [discriminate|]. apply (A OtherLight); [eapply nth_error_In; exact L|reflexivity].
Qed.
Print Assumptions C131_emits.
(** any other light makes the render fail as soon as it is drawn, and a scene without lights reads
    outside the list of emitters *)
Theorem C131_other_refuted W rnd1 rnd2 hit bsdf : (forall w, 0 <= fst (rnd1 w) < 1) ->
  (forall fuel mb num w, (0 < fuel)%nat -> (0 < num)%nat -> scatter_photons W rnd1 rnd2 hit bsdf [OtherLight] fuel mb num w = Throw "sample ray") /\
  (forall fuel mb num w, (0 < fuel)%nat -> (0 < num)%nat -> scatter_photons W rnd1 rnd2 hit bsdf [] fuel mb num w = UB).
Proof.
  intros U. split; intros [|fuel] mb num w F N; try lia; unfold scatter_photons; cbn [scatter_loop]; (destruct (Nat.ltb_spec 0 num); [|lia]); unfold emit; specialize (U w); destruct (rnd1 w) as [v w1]; cbn [fst] in U; cbn [List.length].
  - assert (Z : Flocq.Core.Raux.Ztrunc (v * INR 1) = 0%Z). { cbn [INR]. rewrite Rmult_1_r. rewrite Flocq.Core.Raux.Ztrunc_floor by lra. apply Flocq.Core.Raux.Zfloor_imp. cbn. lra. }
    rewrite Z. cbn [Z.to_nat]. unfold at_. cbn [nth_error bind]. destruct (rnd2 w1) as [d w2]. destruct (rnd2 w2) as [q w3]. reflexivity.
  - unfold at_. destruct (Z.to_nat _); reflexivity.
Qed.
Print Assumptions C131_other_refuted.
Example C131_case : (forall w, 0 <= fst (c_rnd1 w) < 1) /\ (forall l, In l c_lights -> l <> OtherLight) /\ c_lights <> [].
Proof. split; [intros; cbn; lra|]. split; [intros l [<-|[]]; discriminate|discriminate]. Qed.

(** a diffuse surface sampled with the cosine on either side passes on its reflectance times the power
    that arrives, and the photon is stored with the power that arrives *)
Theorem C130_diffuse W rnd1 hit bsdf n buf k r old w h wo rho w1 : (k < List.length buf)%nat -> hit r = Some h -> ph_spec h = Some false ->
  let nd := dot (fn (ph_frame h)) (toWorld (ph_frame h) wo) in nd <> 0 ->
  bsdf h (toLocal (ph_frame h) (vneg (dir r))) w = (wo, vscale rho (1 / PI), Rabs nd / PI, w1) ->
  exists buf', store buf k (Photon (ph_p h) (vneg (dir r)) (Some old)) = Ok buf' /\
  photon_path W rnd1 hit bsdf (Datatypes.S n) buf k r (Some old) w =
    match next_power (vmul old rho) old (fst (rnd1 w1)) with
    | None => Ok (buf', Datatypes.S k, snd (rnd1 w1))
    | Some p => photon_path W rnd1 hit bsdf n buf' (Datatypes.S k) (Ray (ph_p h) (toWorld (ph_frame h) wo) (Finite Epsilon) p_infty) p (snd (rnd1 w1))
    end.
Proof.
  intros K H Sp nd Nz B. unfold store. rewrite (proj2 (Nat.ltb_lt _ _) K). eexists. split; [reflexivity|].
  cbn [photon_path]. rewrite H, Sp. unfold store. rewrite (proj2 (Nat.ltb_lt _ _) K). cbn [bind]. rewrite B. pose proof PI_RGT_0 as P. pose proof (Rabs_pos_lt _ Nz) as A.
  destruct (Req_EM_T (Rabs nd / PI) 0) as [Z|Z]; [exfalso; apply (Rdiv_lt_0_compat _ _ A) in P; lra|]. cbn [dir].
  assert (F : vdiv (vscale (vscale rho (1 / PI)) (photon_cos h (toWorld (ph_frame h) wo) false)) (Rabs nd / PI) = rho).
  { replace (photon_cos h (toWorld (ph_frame h) wo) false) with (Rabs nd).
    - destruct rho as [x y z]. unfold vdiv, vscale. cbn. f_equal; field; lra.
    - unfold photon_cos. fold nd. destruct (Rlt_dec nd 0); [rewrite Rabs_left by lra|rewrite Rabs_right by lra]; reflexivity. }
  rewrite F. destruct (rnd1 w1) as [u w2]. reflexivity.
Qed.
Print Assumptions C130_diffuse.
(** a direction below the normal *)
Example C130_diffuse_case : exists h : phit, ph_spec h = Some false /\ dot (fn (ph_frame h)) (toWorld (ph_frame h) (V3 0 0 (-1))) = -1.
Proof. exists (PHit (V3 0 0 0) f0 (Some false)). split; [reflexivity|]. unfold dot. cbn. ring. Qed.
