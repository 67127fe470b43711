From Coq Require Import Reals ZArith List String Ascii Bool Lia Permutation.
From Verif.Base Require Import Outcome.
From Verif.Model Require Import Clocker Harness Site.
From Verif.Spec Require Import HarnessSpec SiteSpec.
From Verif.Proof Require Import HarnessProof ClockProof.
Import ListNotations.
Local Open Scope string_scope.

(** ** strings *)
Lemma app_assoc_s a b c : (a ++ (b ++ c)) = ((a ++ b) ++ c).
Proof. induction a; cbn; [reflexivity|]. now rewrite IHa. Qed.
Lemma app_nil_s a : a ++ "" = a.
Proof. induction a; cbn; [reflexivity|]. now rewrite IHa. Qed.
Lemma app_inj_l a b c : a ++ b = a ++ c -> b = c.
Proof. induction a; cbn; [auto|]. intros E. injection E. auto. Qed.
Lemma substring_0_app a b : substring 0 (String.length a) (a ++ b) = a.
Proof. induction a; cbn; [destruct b; reflexivity|]. now rewrite IHa. Qed.
Lemma stem_json t : stem (t ++ ".json") = t.
Proof. unfold stem. rewrite length_app. change (String.length ".json") with 5%nat. replace (String.length t + 5 - 5)%nat with (String.length t) by lia. apply substring_0_app. Qed.
Lemma last_dot_json t : last_dot (t ++ ".json") = Some (String.length t).
Proof. induction t; [reflexivity|]. cbn [append last_dot String.length]. now rewrite IHt. Qed.
Lemma result_name_json t : result_name (t ++ ".json") = t.
Proof. unfold result_name. rewrite last_dot_json. apply substring_0_app. Qed.
Lemma in_names es n : In n (test_names (Some es)) <-> exists t, t <> "" /\ n = t ++ ".json" /\ In n es.
Proof.
  unfold test_names. rewrite filter_In, is_json_iff. unfold scene_file. split.
  - intros (I&t&N&E). exists t. auto.
  - intros (t&N&E&I). split; [exact I|]. exists t. auto.
Qed.
Lemma in_stems es t : In t (map stem (test_names (Some es))) <-> t <> "" /\ In (t ++ ".json") es.
Proof.
  rewrite in_map_iff. split.
  - intros (n&E&I). apply in_names in I. destruct I as (t'&N&En&I). subst n. rewrite stem_json in E. subst t'. auto.
  - intros (N&I). exists (t ++ ".json"). split; [apply stem_json|]. apply in_names. exists t. auto.
Qed.
Lemma nodup_stems es : NoDup es -> NoDup (map stem (test_names (Some es))).
Proof.
  intros N. assert (F : NoDup (test_names (Some es))) by (apply NoDup_filter, N).
  assert (J : forall n, In n (test_names (Some es)) -> exists t, n = t ++ ".json") by (intros n I; apply in_names in I; destruct I as (t&_&E&_); eauto).
  induction (test_names (Some es)) as [|n l IH]; cbn; [constructor|]. inversion F; subst. constructor.
  - intros I. apply in_map_iff in I. destruct I as (m&E&I). destruct (J n ltac:(left; reflexivity)) as (a&->). destruct (J m ltac:(right; exact I)) as (b&->).
    rewrite !stem_json in E. subst b. auto.
  - apply IH; [assumption|]. intros m I. apply J. right. exact I.
Qed.

(** ** sorting *)
Lemma leb_total a b : String.leb a b = true \/ String.leb b a = true.
Proof.
  unfold String.leb. rewrite (String.compare_antisym b a). destruct (String.compare a b); cbn; auto.
Qed.
Lemma insert_perm s l : Permutation (s :: l) (insert s l).
Proof.
  induction l as [|x l IH]; cbn [insert]; [reflexivity|]. destruct (String.leb s x); [reflexivity|].
  transitivity (x :: s :: l); [apply perm_swap|]. now constructor.
Qed.
Lemma insert_asc s l : ascending l -> ascending (insert s l).
Proof.
  induction l as [|x l IH]; intros A; [exact I|]. cbn [insert]. destruct (String.leb s x) eqn:E; [split; assumption|].
  assert (XS : String.leb x s = true) by (destruct (leb_total s x); congruence).
  destruct l as [|y l].
  - cbn. auto.
  - destruct A as (XY&A). specialize (IH A). cbn [insert] in IH |- *. destruct (String.leb s y); split; auto.
Qed.
Lemma sort_perm l : Permutation l (sort l).
Proof. induction l as [|s l IH]; [reflexivity|]. change (sort (s :: l)) with (insert s (sort l)). rewrite <- insert_perm. now constructor. Qed.
Lemma sort_asc l : ascending (sort l).
Proof. induction l as [|s l IH]; [exact I|]. change (sort (s :: l)) with (insert s (sort l)). apply insert_asc, IH. Qed.

(** ** rows *)
Definition lk (p : string) : item := Link (p ++ ".html") ("../images/" ++ p ++ ".png").
(** rows of three *)
Fixpoint layout (n : nat) (ps : list string) : list (list item) :=
  match n with
  | O => []
  | S n => match ps with
           | [] => []
           | [a] => [[lk a]]
           | [a; b] => [[lk a; lk b]]
           | a :: b :: c :: ps => [lk a; lk b; lk c] :: layout n ps
           end
  end.
Lemma layout_ok : forall n ps, (List.length ps <= n)%nat -> home_rows 0 ps = flat_map (fun r => RowOpen :: r ++ [RowClose])%list (layout n ps) /\
  List.concat (layout n ps) = map lk ps /\ Forall (fun r => (1 <= List.length r <= 3)%nat) (layout n ps) /\
  forall pre r, layout n ps = (pre ++ [r])%list -> Forall (fun r => List.length r = 3%nat) pre.
Proof.
  induction n as [|n IH]; intros ps L.
  - destruct ps; [|cbn in L; lia]. repeat split; [constructor|]. intros [|]; discriminate.
  - destruct ps as [|a [|b [|c ps]]].
    + repeat split; [constructor|]. intros [|]; discriminate.
    + repeat split; [repeat constructor|]. intros pre r E. destruct pre as [|x pre]; [constructor|]. injection E as _ E. destruct pre; discriminate.
    + repeat split; [repeat constructor|]. intros pre r E. destruct pre as [|x pre]; [constructor|]. injection E as _ E. destruct pre; discriminate.
    + assert (L' : (List.length ps <= n)%nat) by (cbn in L; lia). destruct (IH ps L') as (A&B&C&D). cbn [layout]. repeat split.
      * cbn [home_rows Nat.eqb images_per_row flat_map app lk]. rewrite A. reflexivity.
      * cbn [List.concat app map]. rewrite B. reflexivity.
      * constructor; [cbn; lia|exact C].
      * intros pre r E. destruct pre as [|x pre]; [constructor|]. injection E as <- E. constructor; [reflexivity|]. apply (D pre r E).
Qed.
Lemma layout_links n ps : (List.length ps <= n)%nat -> Forall (fun r => Forall (fun i => i <> RowOpen /\ i <> RowClose) r) (layout n ps).
Proof.
  intros L. destruct (layout_ok n ps L) as (_&B&_). rewrite Forall_forall. intros r R. rewrite Forall_forall. intros i J.
  assert (X : In i (map lk ps)) by (rewrite <- B; apply in_concat; eauto). apply in_map_iff in X. destruct X as (p&<-&_). split; discriminate.
Qed.
Lemma hrefs_rows rows : hrefs (flat_map (fun r => RowOpen :: r ++ [RowClose])%list rows) = hrefs (List.concat rows).
Proof.
  unfold hrefs. induction rows as [|r rows IH]; [reflexivity|]. cbn [flat_map List.concat app]. rewrite !flat_map_app, IH. cbn [flat_map app].
  rewrite app_nil_r. reflexivity.
Qed.
Lemma hrefs_lk ps : hrefs (map lk ps) = map (fun p => p ++ ".html") ps.
Proof. induction ps as [|p ps IH]; [reflexivity|]. unfold hrefs in *. cbn. now rewrite IH. Qed.

(** ** pages *)
Lemma page_at_app path a b : page_at path (a ++ b)%list = match page_at path b with Some c => Some c | None => page_at path a end.
Proof.
  unfold page_at. rewrite fold_left_app. set (x := fold_left _ a None). clearbody x. revert x. induction b as [|e b IH]; intros x; [reflexivity|].
  cbn [fold_left]. rewrite IH, (IH (match e with WritePage p c => _ | _ => _ end)).
  match goal with |- match ?f with _ => _ end = _ => destruct f; [reflexivity|] end. destruct e; try reflexivity. destruct (String.eqb path0 path); reflexivity.
Qed.
Lemma page_at_none path l : (forall p c, In (WritePage p c) l -> p <> path) -> page_at path l = None.
Proof.
  induction l as [|e l IH]; intros H; [reflexivity|]. change (e :: l) with ([e] ++ l)%list. rewrite page_at_app, IH by (intros; apply (H p c); right; assumption).
  destruct e; try reflexivity. cbn. destruct (String.eqb_spec path0 path); [|reflexivity]. exfalso. eapply H; [left; reflexivity|assumption].
Qed.
Definition one_test (reference_run : bool) (row : string -> list R) (n : string) : list effect :=
  ((if reference_run then reference_files n else evaluate_files n ++ append_to_test_records n (row n)) ++
     [WritePage (viewer ++ stem n ++ ".html") (test_page n)])%list.
Lemma one_test_page ref row n path : page_at path (one_test ref row n) = if String.eqb (viewer ++ stem n ++ ".html") path then Some (test_page n) else None.
Proof.
  unfold one_test. rewrite page_at_app. unfold page_at at 1. cbn [fold_left]. destruct (String.eqb _ path); [reflexivity|].
  apply page_at_none. intros p c I. exfalso. destruct ref; cbn in I; intuition discriminate.
Qed.
Lemma html_inj a b : viewer ++ a ++ ".html" = viewer ++ b ++ ".html" -> a = b.
Proof. intros E. apply app_inj_l in E. apply app_cancel_r in E. exact E. Qed.
Lemma tests_page ref row ns n : (forall m, In m ns -> exists t, m = t ++ ".json") -> In n ns ->
  page_at (viewer ++ stem n ++ ".html") (flat_map (one_test ref row) ns) = Some (test_page n).
Proof.
  induction ns as [|m ns IH]; intros J I; [destruct I|]. cbn [flat_map]. rewrite page_at_app.
  destruct (in_dec string_dec n ns) as [K|K]; [rewrite IH; [reflexivity| |exact K]; intros x X; apply J; right; exact X|].
  destruct I as [->|I]; [|contradiction]. rewrite page_at_none.
  - rewrite one_test_page, String.eqb_refl. reflexivity.
  - intros p c X E. apply in_flat_map in X. destruct X as (x&X&Y). assert (Ex : p = viewer ++ stem x ++ ".html").
    { unfold one_test in Y. apply in_app_iff in Y. destruct Y as [Y|[Y|[]]]; [exfalso; destruct ref; cbn in Y; intuition discriminate|]. injection Y as <- _. reflexivity. }
    rewrite Ex in E. apply html_inj in E. destruct (J x ltac:(right; exact X)) as (a&->). destruct (J n ltac:(left; reflexivity)) as (b&->). rewrite !stem_json in E. subst b. auto.
Qed.
Lemma home_clash n : (exists t, n = t ++ ".json") -> viewer ++ "home.html" = viewer ++ stem n ++ ".html" -> n = "home.json".
Proof.
  intros (t&->) E. rewrite stem_json in E. change "home.html" with ("home" ++ ".html") in E. apply html_inj in E. subst t. reflexivity.
Qed.
Lemma site_unfold ref dir dir' row : site_run ref dir dir' row = (flat_map (one_test ref row) (test_names dir) ++ [WritePage (viewer ++ "home.html") (home_page dir')])%list.
Proof. reflexivity. Qed.

(** ** commands *)
Definition plain (s : string) : Prop := forall i, String.get i s <> Some " "%char.
Lemma plain_cons c s : plain (String c s) -> c <> " "%char /\ plain s.
Proof. intros H. split; [intros ->; apply (H 0%nat); reflexivity|]. intros i. exact (H (S i)). Qed.
Lemma words_from_plain cur s : plain s -> words_from cur s = if String.eqb (cur ++ s) "" then [] else [cur ++ s].
Proof.
  revert cur. induction s as [|c s IH]; intros cur P; cbn [words_from]; [rewrite app_nil_s; reflexivity|].
  apply plain_cons in P. destruct P as (C&P). destruct (Ascii.eqb_spec c " "%char); [contradiction|]. rewrite IH by exact P.
  rewrite <- app_assoc_s. reflexivity.
Qed.
Lemma plain_app a b : plain a -> plain b -> plain (a ++ b).
Proof.
  intros A B. induction a as [|c a IH]; [exact B|]. apply plain_cons in A. destruct A as (C&A). intros [|i]; cbn [append String.get].
  - congruence.
  - apply IH, A.
Qed.
Lemma removed_plain t : plain t -> removed ("rm -rf " ++ t ++ "/") = [t ++ "/"].
Proof.
  intros P. unfold removed, words. cbn [append words_from Ascii.eqb Bool.eqb String.eqb]. rewrite words_from_plain.
  - cbn [append]. destruct (String.eqb_spec (t ++ "/") ""); [destruct t; discriminate|reflexivity].
  - apply plain_app; [exact P|]. intros [|[|i]]; discriminate.
Qed.
