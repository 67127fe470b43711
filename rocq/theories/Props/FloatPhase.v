(** C218: the value of the phase function of Henyey and Greenstein in single precision. *)
From Coq Require Import ZArith Reals Lra Lia Bool.
From Flocq Require Import Core BinarySingleNaN.
From Verif.Base Require Import F32.
From Verif.Model Require Import FloatDirs FloatPhase.
From Verif.Spec Require Import FloatPhaseSpec.
From Verif.Proof Require Import FloatPhaseProof.
Open Scope R_scope.

(** For asymmetries up to 0.991 and cosines of unit vectors, up to their rounding, the value is within
    two percent of the density. *)
Theorem C218_value c g : is_finite c = true -> is_finite g = true -> Rabs (B2R g) <= 991 / 1000 -> Rabs (B2R c) <= 1 + / 2 ^ 20 ->
  within_2_percent (f_hg c g) (hg_density (B2R c) (B2R g)).
Proof. exact (hg_value c g). Qed.
Print Assumptions C218_value.

(** a number drawn from [0,1) for which the drawn cosine is above one and the returned value is not a
    number, for the float nearest to -0.99 *)
Theorem C218_sample_refuted : exists g u, is_finite g = true /\ is_finite u = true /\ Rabs (B2R g) <= 991 / 1000 /\ 0 <= B2R u < 1 /\
  is_finite (f_hg_cos g u) = true /\ B2R (f_hg_cos g u) > 1001 / 1000 /\ f_hg_sampled g u = B754_nan.
Proof.
  exists (f_of (-16609444) (-24)), (f_of 8388552 (-23)).
  destruct (f_of_small (-16609444) (-24) ltac:(lia) ltac:(lia)) as (A & FA). destruct (f_of_small 8388552 (-23) ltac:(lia) ltac:(lia)) as (B & FB).
  split; [exact FA|]. split; [exact FB|]. rewrite A, B. split; [|split].
  - apply Rabs_le. simpl. lra.
  - simpl. lra.
  - assert (E : f_hg_cos (f_of (-16609444) (-24)) (f_of 8388552 (-23)) = f_of 8397777 (-23)) by (apply B2SF_inj; vm_compute; reflexivity).
    destruct (f_of_small 8397777 (-23) ltac:(lia) ltac:(lia)) as (V & F). rewrite E, V. split; [exact F|]. split; [simpl; lra|].
    apply B2SF_inj. vm_compute. reflexivity.
Qed.
Print Assumptions C218_sample_refuted.

(** forward scattering for the float nearest to 0.9999 is infinite although the density is finite *)
Theorem C218_peak_refuted : exists g, is_finite g = true /\ 0 < B2R g < 1 /\ f_hg f1 g = finf.
Proof.
  exists (f_of 16775538 (-24)). destruct (f_of_small 16775538 (-24) ltac:(lia) ltac:(lia)) as (A & FA).
  split; [exact FA|]. rewrite A. split; [simpl; lra|]. apply B2SF_inj. vm_compute. reflexivity.
Qed.
Print Assumptions C218_peak_refuted.

(** the hypotheses are met by g = 7/8 and the cosine 1/2 *)
Example C218_case : is_finite fhalf = true /\ is_finite (f_of 7 (-3)) = true /\ Rabs (B2R (f_of 7 (-3))) <= 991 / 1000 /\ Rabs (B2R fhalf) <= 1 + / 2 ^ 20 /\
  hg_density (B2R fhalf) (B2R (f_of 7 (-3))) > 0.
Proof.
  destruct (f_of_small 7 (-3) ltac:(lia) ltac:(lia)) as (A & FA). destruct (f_of_small 1 (-1) ltac:(lia) ltac:(lia)) as (B & FB). fold fhalf in B, FB.
  split; [exact FB|]. split; [exact FA|]. rewrite A, B. simpl (IZR 7 * _). simpl (IZR 1 * _).
  split; [apply Rabs_le; lra|]. split; [apply Rabs_le; simpl; lra|].
  unfold hg_density. apply Rdiv_lt_0_compat; [simpl; lra|]. apply Rmult_lt_0_compat; [pose proof pi_bounds; lra|].
  apply sqrt_lt_R0. simpl. lra.
Qed.
