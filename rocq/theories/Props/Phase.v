(** Phase functions. *)
From Coq Require Import Reals Lra Psatz.
From Coquelicot Require Import Coquelicot.
From Verif.Base Require Import Outcome.
From Verif.Model Require Import Vec Frame Warp Phase.
From Verif.Spec Require Import CameraSpec WarpSpec LinAlgSpec FrameSpec BsdfSpec PhaseSpec.
From Verif.Proof Require Import VecLemmas FrameProof WarpProof BsdfProof PhaseProof.
Open Scope R_scope.

(** the parameter ranges for which the textbook function is a density *)
Definition proper (p : phase) : Prop :=
  match p with
  | Isotropic | Rayleigh => True
  | HG g => -1 < g < 1
  | Ellipsoidal b => -1 < b < 1 /\ b <> 0
  | Binomial n => 0 <= n
  | Eddington _ => False
  end.
Theorem C45_phase_normalised p wo : proper p -> unit3 wo -> density_around wo (phase_eval p wo).
Proof.
  intros P U. pose proof PI_RGT_0. destruct p; simpl in P; try contradiction.
  - apply (density_around_of wo _ (fun _ => 1 / (4 * PI)) U); [reflexivity|intros; apply Rlt_le, Rdiv_lt_0_compat; lra|].
    apply const_int. field. lra.
  - apply (density_around_of wo _ (fun c => hg c g) U); [intros w; simpl; rewrite dot_comm; reflexivity|intros; apply Rlt_le, hg_pos; assumption|]. apply hg_total, P.
  - apply (density_around_of wo _ rayleigh_pdf U); [intros w; simpl; rewrite dot_comm; reflexivity| |].
    + intros c C. unfold rayleigh_pdf. apply Rmult_le_pos; [|lra]. apply Rmult_le_pos; [nra|apply Rlt_le, Rdiv_lt_0_compat; lra].
    + eapply is_RInt_val; [|apply (rayleigh_int (-1))]. field. lra.
  - destruct P as [B N]. apply (density_around_of wo _ (ell_pdf b) U); [intros w; simpl; rewrite dot_comm; reflexivity|intros; apply Rlt_le, ell_pos; assumption|]. apply ell_total; assumption.
  - apply (density_around_of wo _ (bin_pdf n) U); [intros w; simpl; rewrite dot_comm; reflexivity| |apply bin_total, P].
    intros c C. unfold bin_pdf. apply Rmult_le_pos; [|apply rpow_nonneg]. apply Rmult_le_pos; [|lra].
    apply Rmult_le_pos; [apply Rlt_le, Rdiv_lt_0_compat; lra|left; apply exp_pos].
Qed.
Print Assumptions C45_phase_normalised.
(** the value only depends on the angle between the two directions *)
Theorem C45_phase_symmetric p wo wi : phase_eval p wo wi = phase_eval p wi wo.
Proof. destruct p; simpl; rewrite ?(dot_comm wo wi); reflexivity. Qed.
Print Assumptions C45_phase_symmetric.
(** Henyey-Greenstein: mean cosine g, positive g favours wi = wo *)
Theorem C45_hg_mean_cosine g : -1 < g < 1 -> g <> 0 ->
  is_RInt (fun c => c * (2 * PI * hg c g)) (-1) 1 g.
Proof.
  intros G N. pose proof PI_RGT_0 as P.
  (* antiderivative: (1-g^2)/(4 g^2) * ((1+g^2)/sqrt d + sqrt d) *)
  apply (is_RInt_val _ _ _ ((1 - g * g) / (4 * (g * g)) * ((1 + g * g) / sqrt (1 + g * g - 2 * g * 1) + sqrt (1 + g * g - 2 * g * 1))
    - (1 - g * g) / (4 * (g * g)) * ((1 + g * g) / sqrt (1 + g * g - 2 * g * -1) + sqrt (1 + g * g - 2 * g * -1)))).
  { replace (1 + g * g - 2 * g * 1) with ((1 - g) * (1 - g)) by ring. replace (1 + g * g - 2 * g * -1) with ((1 + g) * (1 + g)) by ring.
    rewrite !sqrt_square by lra. field. repeat split; lra. }
  apply (is_RInt_derive (fun c => (1 - g * g) / (4 * (g * g)) * ((1 + g * g) / sqrt (1 + g * g - 2 * g * c) + sqrt (1 + g * g - 2 * g * c)))
    (fun c => c * (2 * PI * hg c g))); rewrite Rmin_left, Rmax_right by lra; intros x X;
    assert (Dx : 0 < 1 + g * g - 2 * g * x) by (apply hg_den_pos; lra); pose proof (sqrt_lt_R0 _ Dx) as S; pose proof (sqrt_sqrt _ (Rlt_le _ _ Dx)) as Q.
  - auto_derive; replace (1 + g * g + - (2 * g * x)) with (1 + g * g - 2 * g * x) by ring.
    + repeat split; try lra.
    + unfold hg. cbv zeta. set (r := sqrt _) in *. assert (E : x = (1 + g * g - r * r) / (2 * g)) by (rewrite Q; field; lra).
      rewrite <- Q. rewrite E at 1. field. repeat split; lra.
  - apply (ex_derive_continuous (fun c => c * (2 * PI * hg c g))). unfold hg. auto_derive.
    replace (1 + g * g + - (2 * g * x)) with (1 + g * g - 2 * g * x) by ring. split; [exact Dx|]. split; [|trivial].
    apply Rmult_integral_contrapositive_currified; lra.
Qed.
Print Assumptions C45_hg_mean_cosine.
(** EddingtonPhase ignores its parameter and takes negative values *)
Theorem C45_eddington_refuted : exists b wo, unit3 wo /\ -1 <= b <= 1 /\ ~ density_around wo (phase_eval (Eddington b) wo).
Proof.
  exists 0, (V3 0 0 1). split; [unfold unit3, dot; simpl; ring|]. split; [lra|]. intros [P _]. pose proof PI_RGT_0.
  specialize (P (V3 0 0 (-1)) ltac:(unfold unit3, dot; simpl; ring)). simpl in P. unfold dot in P; simpl in P.
  assert (0 < 1 / (4 * PI)) by (apply Rdiv_lt_0_compat; lra). nra.
Qed.
Print Assumptions C45_eddington_refuted.
Remark eddington_ignores_parameter b b' wo wi : phase_eval (Eddington b) wo wi = phase_eval (Eddington b') wo wi.
Proof. reflexivity. Qed.
Example C45_case : density_around (V3 (3 / 5) 0 (4 / 5)) (phase_eval (HG (1 / 2)) (V3 (3 / 5) 0 (4 / 5))) /\
  phase_eval (HG (1 / 2)) (V3 0 0 1) (V3 0 0 1) = 3 / (2 * PI).
Proof.
  split.
  - apply C45_phase_normalised; [simpl; lra|unfold unit3, dot; simpl; lra].
  - pose proof PI_RGT_0. simpl. unfold hg, dot; simpl. replace (1 + 1 / 2 * (1 / 2) - 2 * (1 / 2) * (0 * 0 + 0 * 0 + 1 * 1)) with (1 / 2 * (1 / 2)) by field.
    rewrite sqrt_square by lra. field. lra.
Qed.

(** ** sampling *)
(** isotropic scattering: uniform directions, reported density exact *)
Theorem C46_isotropic wo : law_around up sqrToUniSph (phase_eval Isotropic wo) /\
  forall s, in_unit_square s -> phase_sample Isotropic s wo = Ok (sqrToUniSph s, phase_eval Isotropic wo (sqrToUniSph s)) /\ unit3 (sqrToUniSph s).
Proof.
  split; [apply law_around_up, uni_sph_law|]. intros s S. split; [reflexivity|]. rewrite uni_sph_form. apply sph_dir_unit. destruct S. lra.
Qed.
Print Assumptions C46_isotropic.
(** Rayleigh: the sampled direction has the density of the phase function, and that density is returned *)
Theorem C46_rayleigh wo : unit3 wo ->
  draws (fun s => phase_sample Rayleigh s wo) (vneg wo) (phase_eval Rayleigh wo) /\
  reports (fun s => phase_sample Rayleigh s wo) (phase_eval Rayleigh wo).
Proof.
  intros U. split.
  - exists (fun s => about wo (rayleigh_cos (x2 s)) (y2 s)). split; [intros; eexists; reflexivity|].
    destruct (rayleigh_law wo U) as (s&t&w0&p0&O&L&A&B). exists s, t, w0, p0. split; [exact O|]. split; [exact L|]. cbv zeta in *. split; [exact A|].
    intros v. rewrite <- B. unfold rayleigh_pdf, phase_eval. cbv zeta. rewrite dot_neg_r. rewrite (dot_comm wo). unfold Rdiv. ring.
  - intros s S. eexists. split; [reflexivity|]. apply about_unit; [exact U|]. apply rayleigh_cos_range. apply S.
Qed.
Print Assumptions C46_rayleigh.
(** Henyey-Greenstein: the direction drawn for wo is distributed like the phase function for the
    opposite vector; what is returned is the phase function for wo itself *)
Theorem C46_hg_draws g wo : -1 < g < 1 -> unit3 wo ->
  draws (fun s => phase_sample (HG g) s wo) (vneg wo)
    (if Rlt_dec (Rabs g) (1 / 1000) then phase_eval Isotropic wo else phase_eval (HG g) (vneg wo)) /\
  reports (fun s => phase_sample (HG g) s wo) (phase_eval (HG g) wo).
Proof.
  intros G U. split.
  - exists (fun s => about wo (hg_cos g (x2 s)) (y2 s)). split; [intros; eexists; reflexivity|].
    destruct (Rlt_dec (Rabs g) (1 / 1000)) as [A|A].
    + apply (uniform_law wo (hg_cos g) U). intros u. unfold hg_cos. destruct (Rlt_dec _ _); lra.
    + destruct (hg_cos_law wo g U G ltac:(lra)) as (s&t&w0&p0&O&L&A0&B). exists s, t, w0, p0. split; [exact O|]. split; [exact L|]. cbv zeta in *. split; [exact A0|].
      intros v. rewrite <- B. simpl. rewrite dot_comm. reflexivity.
  - intros s S. exists (about wo (hg_cos g (x2 s)) (y2 s)). split.
    + simpl. rewrite about_dot' by exact U. reflexivity.
    + apply about_unit; [exact U|]. apply hg_cos_range; [exact G|apply S].
Qed.
Print Assumptions C46_hg_draws.
(** the two differ for every anisotropic function, at every sample not exactly sideways *)
Theorem C46_hg_refuted g wo : -1 < g < 1 -> 1 / 1000 <= Rabs g -> unit3 wo ->
  exists pdf, draws (fun s => phase_sample (HG g) s wo) (vneg wo) pdf /\
  forall s, in_unit_square s -> exists w r, phase_sample (HG g) s wo = Ok (w, r) /\ (dot wo w <> 0 -> r <> pdf w).
Proof.
  intros G A U. destruct (C46_hg_draws g wo G U) as [D R]. destruct (Rlt_dec (Rabs g) (1 / 1000)); [lra|].
  exists (phase_eval (HG g) (vneg wo)). split; [exact D|]. intros s S. destruct (R s S) as (w&E&W). exists w, (phase_eval (HG g) wo w). split; [exact E|].
  intros N. simpl. rewrite dot_neg_l. apply hg_mono_neq; try assumption; [|apply unit_dot; assumption].
  intros ->. rewrite Rabs_R0 in A. lra.
Qed.
Print Assumptions C46_hg_refuted.
(** Ellipsoidal and Eddington have the same flaw *)
Theorem C46_ellipsoidal_draws b wo : -1 < b < 1 -> b <> 0 -> unit3 wo ->
  draws (fun s => phase_sample (Ellipsoidal b) s wo) (vneg wo) (phase_eval (Ellipsoidal b) (vneg wo)) /\
  reports (fun s => phase_sample (Ellipsoidal b) s wo) (phase_eval (Ellipsoidal b) wo).
Proof.
  intros B N U. split.
  - exists (fun s => about wo (ellipsoidal_cos b (x2 s)) (y2 s)). split; [intros; eexists; reflexivity|].
    destruct (ell_law wo b U B N) as (s&t&w0&p0&O&L&A0&C). exists s, t, w0, p0. split; [exact O|]. split; [exact L|]. cbv zeta in *. split; [exact A0|].
    intros v. rewrite <- C. simpl. rewrite dot_comm. reflexivity.
  - intros s S. eexists. split; [reflexivity|]. apply about_unit; [exact U|]. apply ell_cos_range; try assumption. apply S.
Qed.
Print Assumptions C46_ellipsoidal_draws.
Theorem C46_eddington_draws b wo : -1 <= b <= 1 -> unit3 wo ->
  draws (fun s => phase_sample (Eddington b) s wo) (vneg wo)
    (if Rlt_dec (Rabs b) (1 / 1000) then fun _ => 1 / (4 * PI) else fun w => 1 / (4 * PI) * (1 - b * dot wo w)) /\
  reports (fun s => phase_sample (Eddington b) s wo) (fun w => 1 / (4 * PI) * (1 + 4 * dot wo w)).
Proof.
  intros B U. split.
  - exists (fun s => about wo (eddington_cos b (x2 s)) (y2 s)). split; [intros; eexists; reflexivity|].
    destruct (Rlt_dec (Rabs b) (1 / 1000)) as [A|A].
    + apply (uniform_law wo (eddington_cos b) U). intros u. unfold eddington_cos. destruct (Rlt_dec _ _); lra.
    + destruct (edd_law wo b U B ltac:(lra)) as (s&t&w0&p0&O&L&A0&C). exists s, t, w0, p0. split; [exact O|]. split; [exact L|]. cbv zeta in *. split; [exact A0|].
      intros v. rewrite <- C. unfold edd_pdf. rewrite dot_neg_r, (dot_comm wo). ring.
  - intros s S. eexists. split; [reflexivity|]. apply about_unit; [exact U|]. apply edd_cos_range; [exact B|apply S].
Qed.
Print Assumptions C46_eddington_draws.
(** a negative probability density is reported *)
Theorem C46_eddington_refuted : exists b s wo w r, -1 <= b <= 1 /\ in_unit_square s /\ unit3 wo /\
  phase_sample (Eddington b) s wo = Ok (w, r) /\ r < 0.
Proof.
  exists 0, (V2 0 0), (V3 0 0 1). assert (U : unit3 (V3 0 0 1)) by (unfold unit3, dot; simpl; ring).
  exists (about (V3 0 0 1) (eddington_cos 0 0) 0). eexists. split; [lra|]. split; [unfold in_unit_square; simpl; lra|]. split; [exact U|]. split; [reflexivity|].
  simpl. rewrite about_dot' by exact U. unfold eddington_cos. rewrite Rabs_R0. destruct (Rlt_dec _ _); [|lra].
  pose proof PI_RGT_0. assert (0 < 1 / (4 * PI)) by (apply Rdiv_lt_0_compat; lra). nra.
Qed.
Print Assumptions C46_eddington_refuted.
Remark binomial_throws n s wo : exists m, phase_sample (Binomial n) s wo = Throw m.
Proof. eexists. reflexivity. Qed.
Example C46_case : exists w r, phase_sample (HG (1 / 2)) (V2 0 0) (V3 0 0 1) = Ok (w, r) /\ dot (V3 0 0 1) w = 1 /\
  r = 3 / (2 * PI) /\ phase_eval (HG (1 / 2)) (vneg (V3 0 0 1)) w = 1 / (18 * PI).
Proof.
  assert (U : unit3 (V3 0 0 1)) by (unfold unit3, dot; simpl; ring). pose proof PI_RGT_0.
  assert (C : hg_cos (1 / 2) 0 = -1) by (unfold hg_cos; rewrite Rabs_pos_eq by lra; destruct (Rlt_dec _ _); [lra|]; cbv zeta; field).
  eexists. eexists. split; [reflexivity|]. cbn [x2 y2]. rewrite C.
  assert (D : dot (V3 0 0 1) (about (V3 0 0 1) (-1) 0) = 1) by (rewrite about_dot' by exact U; ring).
  split; [exact D|]. split.
  - unfold hg. cbv zeta. replace (1 + 1 / 2 * (1 / 2) - 2 * (1 / 2) * - -1) with (1 / 2 * (1 / 2)) by field. rewrite sqrt_square by lra. field. lra.
  - simpl. rewrite dot_neg_l, D. unfold hg. cbv zeta. replace (1 + 1 / 2 * (1 / 2) - 2 * (1 / 2) * - (1)) with (3 / 2 * (3 / 2)) by field. rewrite sqrt_square by lra. field. lra.
Qed.
