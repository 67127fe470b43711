(** C63, C134, C135: the test harness and the command line. *)
From Coq Require Import Reals ZArith List String Lia Lra.
From Verif.Base Require Import Outcome.
From Verif.Model Require Import Mesh Harness.
From Verif.Spec Require Import HarnessSpec.
From Verif.Proof Require Import HarnessProof.
Import ListNotations.
Local Open Scope string_scope.
Open Scope R_scope.

(** * C63 *)
(** running all tests evaluates every scene file of the directory once, in order, and the process
    reports success exactly when no measured error is above the threshold *)
Theorem C63_all err dir rest : exists code, main_ err dir ("-u" :: rest) = Ok (Exit (map (fun n => Evaluate n 0) (test_names dir)) code) /\
  (code = 0%Z <-> forall n, In n (test_names dir) -> ~ too_far (err n 0%nat)) /\ (code <> 0%Z -> code = (-1)%Z).
Proof.
  unfold main_. cbn [main_loop String.eqb Ascii.eqb Bool.eqb]. unfold run_all_tests. rewrite all_runs. unfold finished. cbn [fst snd app].
  assert (FM : forall l, flat_map (fun n => map (Evaluate n) (seq 0 num_tests_per_record)) l = map (fun n => Evaluate n 0) l).
  { induction l as [|n l IH]; [reflexivity|]. cbn [flat_map map]. rewrite IH. reflexivity. }
  rewrite FM. eexists. split; [reflexivity|].
  - cbn [andb]. destruct (forallb _ (test_names dir)) eqn:F; cbn [negb]; (split; [|]); try congruence; try lia.
    + split; [|reflexivity]. intros _ n I. rewrite forallb_forall in F. specialize (F n I). cbn in F. rewrite Bool.andb_true_r in F. apply pass_iff. destruct (does_it_fail (err n 0%nat)); [discriminate|reflexivity].
    + split; [discriminate|]. intros H. exfalso. assert (T : forallb (fun n => forallb (fun k => negb (does_it_fail (err n k))) (seq 0 num_tests_per_record)) (test_names dir) = true); [|congruence].
      apply forallb_forall. intros n I. cbn. rewrite Bool.andb_true_r. rewrite (proj2 (pass_iff _) (H n I)). reflexivity.
Qed.
Print Assumptions C63_all.
(** a single test: success is reported exactly when it fails *)
Theorem C63_single_refuted err dir i z rest : stoi i = Ok z -> exists code, main_ err dir ("-ui" :: i :: rest) = Ok (Exit [Evaluate (test_name z) 0] code) /\
  (code = 0%Z <-> too_far (err (test_name z) 0%nat)) /\ (code <> 0%Z -> code = (-1)%Z).
Proof.
  intros S. unfold main_. cbn [main_loop String.eqb Ascii.eqb Bool.eqb]. rewrite S. cbn [bind]. unfold run_test, finished. cbn [fst snd]. eexists. split; [reflexivity|].
  rewrite <- fail_iff. destruct (does_it_fail (err (test_name z) 0%nat)); cbn [negb]; split; try congruence; try lia; split; try discriminate; reflexivity.
Qed.
Print Assumptions C63_single_refuted.
(** replacing a single reference always reports failure, and renders from the bare file name; replacing all
    reports success *)
Theorem C63_reference_refuted err dir i z rest : stoi i = Ok z ->
  main_ err dir ("-uri" :: i :: rest) = Ok (Exit [Replace (test_name z)] (-1)) /\
  main_ err dir ("-ur" :: rest) = Ok (Exit (map (fun n => Replace ("../scenes/unit_tests/scenes/" ++ n)) (test_names dir)) 0).
Proof.
  intros S. split; unfold main_; cbn [main_loop String.eqb Ascii.eqb Bool.eqb].
  - rewrite S. cbn [bind]. unfold run_test, finished. cbn [fst snd]. rewrite (proj2 (pass_iff (Some 0))); [reflexivity|]. intros (e&H&L). injection H as <-. lra.
  - unfold run_all_tests. rewrite all_refs. reflexivity.
Qed.
Print Assumptions C63_reference_refuted.
(** an image that is not a number anywhere passes, and so does a directory that cannot be read *)
Theorem C63_nan_refuted dir rest : exists err, (forall n k, ~ within (err n k)) /\
  exists did, main_ err dir ("-u" :: rest) = Ok (Exit did 0).
Proof.
  exists (fun _ _ => None). split; [intros n k (e&H&_); discriminate|]. destruct (C63_all (fun _ _ => None) dir rest) as (code&E&C&_). eexists. rewrite E. do 2 f_equal. apply C. intros n _ (e&H&_). discriminate.
Qed.
Print Assumptions C63_nan_refuted.
(** two tests, one of them failing *)
Example C63_case : exists did, main_ (fun n _ => if String.eqb n "b.json" then Some 2 else Some 0) (Some ["a.json"; "x"; "b.json"]) ["-u"] = Ok (Exit did (-1)) /\
  did = [Evaluate "a.json" 0; Evaluate "b.json" 0] /\ stoi "7" = Ok 7%Z.
Proof.
  destruct (C63_all (fun n _ => if String.eqb n "b.json" then Some 2 else Some 0) (Some ["a.json"; "x"; "b.json"]) []) as (code&E&C&D). eexists. split; [|split; reflexivity]. rewrite E. do 2 f_equal. apply D.
  intros Z. apply (proj1 C Z "b.json"); [right; left; reflexivity|]. exists 2. split; [reflexivity|lra].
Qed.

(** * C134: the command line *)
(** words that ask for something *)
Definition flag (a : string) : Prop := a = "-u" \/ a = "-ui" \/ a = "-ur" \/ a = "-uri" \/ a = "-s".
Lemma no_flag err dir a rest scene : ~ flag a -> main_loop err dir (a :: rest) scene = main_loop err dir rest scene.
Proof.
  intros N. unfold flag in N. cbn [main_loop]. destruct (String.eqb_spec a "-u"); [tauto|]. destruct (String.eqb_spec a "-ui"); [tauto|]. destruct (String.eqb_spec a "-ur"); [tauto|].
  destruct (String.eqb_spec a "-uri"); [tauto|]. destruct (String.eqb_spec a "-s"); [tauto|]. reflexivity.
Qed.
(** other words are skipped; the last scene wins; without one the empty name is rendered *)
Theorem C134_scenes err dir (pre : list string) (pairs : list (string * list string)) :
  (forall a, In a pre -> ~ flag a) -> (forall p a, In p pairs -> In a (snd p) -> ~ flag a) ->
  main_ err dir (pre ++ flat_map (fun p => "-s" :: fst p :: snd p) pairs) = Ok (Render (last (map fst pairs) "")).
Proof.
  intros P Q. unfold main_. assert (SK : forall l rest scene, (forall a, In a l -> ~ flag a) -> main_loop err dir (l ++ rest) scene = main_loop err dir rest scene).
  { induction l as [|a l IH]; intros rest scene N; [reflexivity|]. change ((a :: l) ++ rest)%list with (a :: (l ++ rest))%list. rewrite no_flag by (apply N; left; reflexivity). apply IH. intros b B. apply N. right. exact B. }
  rewrite SK by exact P. clear P.
  enough (G : forall scene, main_loop err dir (flat_map (fun p => "-s" :: fst p :: snd p) pairs) scene = Ok (Render (last (map fst pairs) scene))) by apply G. induction pairs as [|[s l] pairs IH]; intros scene; [reflexivity|].
  cbn [flat_map fst snd]. change (("-s" :: s :: l) ++ flat_map (fun p => "-s" :: fst p :: snd p) pairs)%list with ("-s" :: s :: (l ++ flat_map (fun p => "-s" :: fst p :: snd p) pairs))%list.
  cbn [main_loop String.eqb Ascii.eqb Bool.eqb]. rewrite SK by (intros a A; apply (Q (s, l) a); [left; reflexivity|exact A]). rewrite IH by (intros p a I A; apply (Q p a); [right; exact I|exact A]).
  cbn [map fst]. destruct pairs as [|q pairs]; [reflexivity|]. do 2 f_equal. cbn [map]. clear. revert q. induction pairs as [|r pairs IH]; intros q; [reflexivity|]. cbn [last map] in *. apply IH.
Qed.
Print Assumptions C134_scenes.
(** a scene option or a test option at the end of the line reads a null pointer *)
Theorem C134_missing_refuted err dir pre a : (forall b, In b pre -> ~ flag b) -> (a = "-s" \/ a = "-ui" \/ a = "-uri") -> main_ err dir (pre ++ [a]) = UB.
Proof.
  intros P A. unfold main_.
  enough (G : forall scene, main_loop err dir (pre ++ [a]) scene = UB) by apply G. induction pre as [|b pre IH]; intros scene.
  - destruct A as [-> |[-> | ->]]; reflexivity.
  - change ((b :: pre) ++ [a])%list with (b :: (pre ++ [a]))%list. rewrite no_flag by (apply P; left; reflexivity). apply IH. intros c C. apply P. right. exact C.
Qed.
Print Assumptions C134_missing_refuted.
(** every run ends: exit codes are 0 and -1 only *)
Theorem C134_codes err dir args did code : main_ err dir args = Ok (Exit did code) -> code = 0%Z \/ code = (-1)%Z.
Proof.
  unfold main_. assert (F : forall r did code, finished r = Ok (Exit did code) -> code = 0%Z \/ code = (-1)%Z).
  { clear. intros [d b] did code E. unfold finished in E. cbn [fst snd] in E. injection E as _ <-. destruct b; auto. }
  assert (G : forall n args did code scene, (List.length args <= n)%nat -> main_loop err dir args scene = Ok (Exit did code) -> code = 0%Z \/ code = (-1)%Z).
  { clear did code. induction n as [|n IH]; intros [|a l] did code scene L E; cbn [List.length] in L; try lia; cbn [main_loop] in E; try discriminate.
    destruct (String.eqb a "-u"); [eapply F; exact E|]. destruct (String.eqb a "-ui"). { destruct l as [|i l]; [discriminate|]. destruct (stoi i); try discriminate. eapply F; exact E. }
    destruct (String.eqb a "-ur"); [eapply F; exact E|]. destruct (String.eqb a "-uri"). { destruct l as [|i l]; [discriminate|]. destruct (stoi i); try discriminate. eapply F; exact E. }
    destruct (String.eqb a "-s"). { destruct l as [|i l]; [discriminate|]. cbn [List.length] in L. eapply IH; [|exact E]. lia. } eapply IH; [|exact E]. lia. }
  intros E. eapply G; [|exact E]. apply le_n.
Qed.
Print Assumptions C134_codes.
Example C134_case : main_ (fun _ _ => None) None ["x"; "-s"; "a.json"; "y"; "-s"; "b.json"] = Ok (Render "b.json") /\ ~ flag "x" /\ ~ flag "y".
Proof. split; [reflexivity|]. unfold flag. split; intros H; repeat destruct H as [H|H]; discriminate. Qed.

(** * C135: names of tests *)
(** different numbers name different files with at least three digits *)
Theorem C135_names a b : (test_name a = test_name b -> a = b) /\ scene_file (test_name a) /\ (3 <= String.length (zero_padded_num a))%nat.
Proof.
  split; [|split].
  - unfold test_name. intros E. apply (f_equal (fun s => substring 5 (String.length s - 5) s)) in E. cbn [append] in E. cbn [String.length Nat.sub substring] in E. rewrite !Nat.sub_0_r, !substring_all in E.
    apply app_cancel_r in E. apply padded_inj, E.
  - exists ("test_" ++ zero_padded_num a). split; [discriminate|reflexivity].
  - unfold zero_padded_num. rewrite length_app, length_zeros. lia.
Qed.
Print Assumptions C135_names.
(** the numbers 0 to 999 have exactly three digits: the files sort by number *)
Theorem C135_three_digits z : (0 <= z < 1000)%Z -> String.length (zero_padded_num z) = 3%nat.
Proof.
  intros H. assert (G : forallb (fun n => Nat.eqb (String.length (zero_padded_num (Z.of_nat n))) 3) (seq 0 1000) = true) by (vm_compute; reflexivity).
  rewrite forallb_forall in G. specialize (G (Z.to_nat z)). rewrite Z2Nat.id in G by lia. apply Nat.eqb_eq, G. apply in_seq. lia.
Qed.
Print Assumptions C135_three_digits.
(** exactly the scene files of the directory are tested *)
Theorem C135_selected es n : In n (test_names (Some es)) <-> In n es /\ scene_file n.
Proof. unfold test_names. rewrite filter_In, is_json_iff. reflexivity. Qed.
Print Assumptions C135_selected.
Example C135_case : test_name 7 = "test_007.json" /\ test_name 1234 = "test_1234.json" /\ test_names (Some ["a.json"; ".json"; "b.jso"]) = ["a.json"].
Proof. repeat split. Qed.
