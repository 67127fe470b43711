(** The test harness. *)
From Coq Require Import Reals ZArith List String Ascii Lia Lra Decimal DecimalString DecimalFacts DecimalZ DecimalPos DecimalN.
From Verif.Base Require Import Outcome.
From Verif.Model Require Import Mesh Harness.
From Verif.Spec Require Import HarnessSpec.
Import ListNotations.
Open Scope R_scope.

Lemma fail_iff e : does_it_fail e = true <-> too_far e.
Proof.
  unfold too_far. destruct e as [e|]; cbn [does_it_fail]; [|split; [discriminate|intros (x&H&_); discriminate]].
  destruct (Rgt_dec e 1) as [G|G]; split.
  - intros _. exists e. split; [reflexivity|exact G].
  - reflexivity.
  - discriminate.
  - intros (x&H&L). injection H as <-. exfalso. apply G. exact L.
Qed.
Lemma pass_iff e : does_it_fail e = false <-> ~ too_far e.
Proof. rewrite <- fail_iff. destruct (does_it_fail e); split; try discriminate; try reflexivity; auto. intros H. exfalso. apply H. reflexivity. Qed.

(** ** run_all *)
Section Runs.
Variable err : string -> nat -> option R.
Lemma inner_runs n ks : forall done passes, fold_left (fun '(done, passes) k => ((done ++ [Evaluate n k])%list, if does_it_fail (err n k) then false else passes)) ks (done, passes) =
  ((done ++ map (Evaluate n) ks)%list, (passes && forallb (fun k => negb (does_it_fail (err n k))) ks)%bool).
Proof.
  induction ks as [|k ks IH]; intros done passes; cbn [fold_left map forallb]; [rewrite List.app_nil_r, Bool.andb_true_r; reflexivity|].
  rewrite IH, <- List.app_assoc. cbn [app]. f_equal. destruct (does_it_fail (err n k)), passes; reflexivity.
Qed.
Lemma all_runs ns : forall done passes, fold_left (fun '(done, passes) n => fold_left (fun '(done, passes) k =>
      ((done ++ [Evaluate n k])%list, if does_it_fail (err n k) then false else passes)) (seq 0 num_tests_per_record) (done, passes)) ns (done, passes) =
  ((done ++ flat_map (fun n => map (Evaluate n) (seq 0 num_tests_per_record)) ns)%list,
   (passes && forallb (fun n => forallb (fun k => negb (does_it_fail (err n k))) (seq 0 num_tests_per_record)) ns)%bool).
Proof.
  induction ns as [|n ns IH]; intros done passes; cbn [fold_left flat_map forallb]; [rewrite List.app_nil_r, Bool.andb_true_r; reflexivity|].
  rewrite inner_runs, IH, <- List.app_assoc, Bool.andb_assoc. reflexivity.
Qed.
Lemma all_refs ns : forall (done : list action) (passes : bool), fold_left (fun '(done, passes) n => ((done ++ [Replace ("../scenes/unit_tests/scenes/" ++ n)])%list, passes)) ns (done, passes) =
  ((done ++ map (fun n => Replace ("../scenes/unit_tests/scenes/" ++ n)) ns)%list, passes).
Proof. induction ns as [|n ns IH]; intros done passes; cbn [fold_left map]; [rewrite List.app_nil_r; reflexivity|]. rewrite IH, <- List.app_assoc. reflexivity. Qed.
End Runs.

(** ** file names *)
Lemma substring_all s : substring 0 (String.length s) s = s.
Proof. induction s as [|c s IH]; cbn; [reflexivity|]. rewrite IH. reflexivity. Qed.
Lemma substring_app a b : substring (String.length a) (String.length b) (a ++ b) = b.
Proof. induction a as [|c a IH]; cbn; [apply substring_all|exact IH]. Qed.
Lemma length_app a b : String.length (a ++ b) = (String.length a + String.length b)%nat.
Proof. induction a as [|c a IH]; cbn; [reflexivity|]. rewrite IH. reflexivity. Qed.
Lemma split_at n : forall s, (n <= String.length s)%nat -> s = append (substring 0 n s) (substring n (String.length s - n) s).
Proof.
  induction n as [|n IH]; intros s L.
  - rewrite Nat.sub_0_r. destruct s; cbn; [reflexivity|]. rewrite substring_all. reflexivity.
  - destruct s as [|c s]; cbn in L; [lia|]. cbn. f_equal. apply IH. lia.
Qed.
Lemma length_substring0 n : forall s, (n <= String.length s)%nat -> String.length (substring 0 n s) = n.
Proof. induction n as [|n IH]; intros [|c s] L; cbn in *; try lia; try reflexivity. rewrite IH by lia. reflexivity. Qed.
Lemma is_json_iff s : is_json s = true <-> scene_file s.
Proof.
  unfold is_json, scene_file. rewrite Bool.andb_true_iff, Nat.ltb_lt, String.eqb_eq. split.
  - intros (L&E). exists (substring 0 (String.length s - 5) s). split.
    + intros Z. pose proof (length_substring0 (String.length s - 5) s ltac:(lia)) as Q. rewrite Z in Q. cbn in Q. lia.
    + rewrite <- E. rewrite (split_at (String.length s - 5) s) at 1 by lia. f_equal. f_equal. lia.
  - intros (b&N&->). rewrite length_app. cbn [String.length]. replace (String.length b + 5 - 5)%nat with (String.length b) by lia. split.
    + destruct b; [congruence|cbn; lia].
    + apply (substring_app b ".json").
Qed.

(** ** padded numbers *)
Fixpoint strip0 (s : string) : string := match s with String "0" s' => strip0 s' | _ => s end.
Lemma zeros_S n : zeros (S n) = String "0" (zeros n).
Proof. unfold zeros. cbn [repeat]. destruct n; [reflexivity|]. reflexivity. Qed.
Lemma strip_pad n s : strip0 (zeros n ++ s) = strip0 s.
Proof. induction n as [|n IH]; [reflexivity|]. rewrite zeros_S. cbn. exact IH. Qed.
Lemma nzhead_start u : Decimal.nzhead u = Decimal.Nil \/ strip0 (NilEmpty.string_of_uint (Decimal.nzhead u)) = NilEmpty.string_of_uint (Decimal.nzhead u).
Proof. induction u; cbn [Decimal.nzhead]; auto. Qed.
Lemma to_int_norm z : Decimal.norm (Z.to_int z) = Z.to_int z.
Proof. rewrite <- (DecimalZ.to_of (Z.to_int z)). rewrite DecimalZ.of_to. reflexivity. Qed.
Lemma strip_int z : strip0 (NilZero.string_of_int (Z.to_int z)) = if Z.eqb z 0 then EmptyString else NilZero.string_of_int (Z.to_int z).
Proof.
  destruct (Z.eqb_spec z 0) as [->|NZ]; [reflexivity|]. destruct z as [|p|p]; [congruence| |reflexivity].
  cbn [Z.to_int]. pose proof (DecimalPos.Unsigned.to_uint_nonzero p) as N. pose proof (DecimalPos.Unsigned.to_uint_nonnil p) as NN.
  assert (U : Decimal.unorm (Pos.to_uint p) = Pos.to_uint p). { pose proof (to_int_norm (Zpos p)) as Q. cbn in Q. injection Q. auto. }
  unfold Decimal.unorm in U. destruct (nzhead_start (Pos.to_uint p)) as [Z|S].
  - rewrite Z in U. congruence.
  - destruct (Decimal.nzhead (Pos.to_uint p)) eqn:E; try (rewrite <- U; exact S). rewrite <- U in N. exfalso. apply N. reflexivity.
Qed.
Lemma string_of_Z_inj a b : NilZero.string_of_int (Z.to_int a) = NilZero.string_of_int (Z.to_int b) -> a = b.
Proof.
  intros E. assert (X : forall z, NilZero.int_of_string (NilZero.string_of_int (Z.to_int z)) = Some (Z.to_int z)).
  { intros z. apply NilZero.isi; destruct z; cbn; try discriminate; intros [= H]; exact (DecimalPos.Unsigned.to_uint_nonnil _ H). }
  pose proof (X a) as A. rewrite E, X in A. injection A as A. rewrite <- (DecimalZ.of_to a), <- A. apply DecimalZ.of_to.
Qed.
Lemma string_of_Z_nonempty z : NilZero.string_of_int (Z.to_int z) <> EmptyString.
Proof.
  intros E. destruct z as [|p|p]; cbn in E; try discriminate. pose proof (DecimalPos.Unsigned.to_uint_nonnil p) as N. unfold NilZero.string_of_uint in E.
  destruct (Pos.to_uint p); cbn in E; try discriminate.
Qed.
Lemma padded_inj a b : zero_padded_num a = zero_padded_num b -> a = b.
Proof.
  unfold zero_padded_num. intros E. apply (f_equal strip0) in E. rewrite !strip_pad, !strip_int in E.
  destruct (Z.eqb_spec a 0) as [A|A]; destruct (Z.eqb_spec b 0) as [B|B].
  - congruence.
  - exfalso. exact (string_of_Z_nonempty b (eq_sym E)).
  - exfalso. exact (string_of_Z_nonempty a E).
  - apply string_of_Z_inj, E.
Qed.
Lemma length_zeros n : String.length (zeros n) = n.
Proof. induction n as [|n IH]; [reflexivity|]. rewrite zeros_S. cbn. rewrite IH. reflexivity. Qed.
Lemma app_cancel_r a b c : (a ++ c)%string = (b ++ c)%string -> a = b.
Proof.
  revert b. induction a as [|x a IH]; intros [|y b] E; cbn in E; [reflexivity| | |].
  - apply (f_equal String.length) in E. cbn in E. rewrite length_app in E. lia.
  - apply (f_equal String.length) in E. cbn in E. rewrite length_app in E. lia.
  - injection E as -> E. rewrite (IH b E). reflexivity.
Qed.
