(** C179-C183: the web pages and records of the tests. *)
From Coq Require Import Reals ZArith List String Ascii Bool Lia Lra Permutation.
From Verif.Base Require Import Outcome.
From Verif.Model Require Import Clocker Harness Site.
From Verif.Spec Require Import HarnessSpec SiteSpec.
From Verif.Proof Require Import HarnessProof ClockProof SiteProof.
Import ListNotations.
Local Open Scope string_scope.

(** * C179: the overview *)
(** every scene file of the directory has exactly one link; the links are in alphabetical order, in
    complete rows of three, of which only the last may be shorter *)
Theorem C179_overview es : NoDup es -> exists names rows,
  hrefs (home_page (Some es)) = map (fun t => t ++ ".html") names /\
  (forall t, In t names <-> t <> "" /\ In (t ++ ".json") es) /\ NoDup names /\ ascending names /\
  in_rows (home_page (Some es)) rows /\ Forall (fun r => (List.length r <= 3)%nat) rows /\
  (forall pre r, rows = (pre ++ [r])%list -> Forall (fun r => List.length r = 3%nat) pre).
Proof.
  intros N. set (names := sort (map stem (test_names (Some es)))). set (n := List.length names).
  pose proof (sort_perm (map stem (test_names (Some es)))) as P. fold names in P.
  destruct (layout_ok n names (le_n _)) as (A&B&C&D). exists names, (layout n names). unfold home_page. fold names.
  split; [rewrite A, hrefs_rows, B; apply hrefs_lk|]. split; [intros t; split; intros I|].
  { apply in_stems. exact (Permutation_in _ (Permutation_sym P) I). }
  { apply (Permutation_in _ P). apply in_stems. exact I. }
  split; [apply (Permutation_NoDup P), nodup_stems, N|]. split; [apply sort_asc|]. split; [split; [exact A|]|split; [|exact D]].
  - pose proof (layout_links n names (le_n _)) as L. rewrite Forall_forall in *. intros r R. split; [|apply L, R]. specialize (C r R). intros ->. cbn in C. lia.
  - rewrite Forall_forall in *. intros r R. apply C, R.
Qed.
Print Assumptions C179_overview.
Example C179_case : hrefs (home_page (Some ["b.json"; "notes.txt"; "a.json"; "d.json"; "c.json"; ".json"])) = ["a.html"; "b.html"; "c.html"; "d.html"] /\
  home_page (Some ["b.json"; "a.json"]) = [RowOpen; Link "a.html" "../images/a.png"; Link "b.html" "../images/b.png"; RowClose].
Proof. split; reflexivity. Qed.

(** * C180: every test has its page *)
Theorem C180_links_work ref es row h : In h (hrefs (home_page (Some es))) ->
  exists p, page_at ("../scenes/unit_tests/web_viewer/" ++ h) (site_run ref (Some es) (Some es) row) = Some p.
Proof.
  intros H. set (names := sort (map stem (test_names (Some es)))). destruct (layout_ok (List.length names) names (le_n _)) as (A&B&_).
  unfold home_page in H. fold names in H. rewrite A, hrefs_rows, B, hrefs_lk in H. apply in_map_iff in H. destruct H as (t&<-&I).
  apply (Permutation_in _ (Permutation_sym (sort_perm _))) in I. apply in_map_iff in I. destruct I as (n&<-&I).
  rewrite site_unfold, page_at_app. change "../scenes/unit_tests/web_viewer/" with viewer.
  destruct (page_at (viewer ++ stem n ++ ".html") [WritePage (viewer ++ "home.html") (home_page (Some es))]) as [p|]; [exists p; reflexivity|].
  exists (test_page n). apply tests_page; [|exact I]. intros m M. apply in_names in M. destruct M as (t&_&E&_). eauto.
Qed.
Print Assumptions C180_links_work.
(** the page of a test is its own, whatever else is in the directory and in both modes *)
Theorem C180_own_page ref es es' row t : t <> "" -> In (t ++ ".json") es -> t <> "home" ->
  page_at ("../scenes/unit_tests/web_viewer/" ++ t ++ ".html") (site_run ref (Some es) es' row) = Some (test_page (t ++ ".json")).
Proof.
  intros N I H. assert (M : In (t ++ ".json") (test_names (Some es))) by (apply in_names; eauto).
  rewrite site_unfold, page_at_app. replace (page_at _ [WritePage (viewer ++ "home.html") (home_page es')]) with (@None (list item)).
  - rewrite <- (stem_json t) at 1. apply tests_page; [|exact M]. intros m X. apply in_names in X. destruct X as (a&_&E&_). eauto.
  - symmetry. apply page_at_none. intros p c [E|[]] Q. injection E as <- _. change "home.html" with ("home" ++ ".html") in Q. apply html_inj in Q. auto.
Qed.
Print Assumptions C180_own_page.
(** the page of a test called home is replaced by the overview *)
Theorem C180_home_refuted : exists es n, In n (test_names (Some es)) /\ forall ref row,
  page_at ("../scenes/unit_tests/web_viewer/" ++ stem n ++ ".html") (site_run ref (Some es) (Some es) row) = Some (home_page (Some es)) /\
  home_page (Some es) <> test_page n.
Proof.
  exists ["home.json"], "home.json". split; [left; reflexivity|]. intros ref row. split; [|discriminate]. rewrite site_unfold, page_at_app. reflexivity.
Qed.
Print Assumptions C180_home_refuted.
Example C180_case : page_at "../scenes/unit_tests/web_viewer/a.html" (site_run true (Some ["b.json"; "a.json"]) None (fun _ => [])) = Some (test_page "a.json").
Proof. apply (C180_own_page true ["b.json"; "a.json"] None (fun _ => []) "a"); [discriminate|right; left; reflexivity|discriminate]. Qed.

(** * C181: a test page shows the images of its test *)
Lemma loads_image s : loads ("../images/" ++ s) = "../scenes/unit_tests/images/" ++ s.
Proof.
  unfold loads. replace (String.prefix "../images/" ("../images/" ++ s)) with true by (destruct s; reflexivity).
  cbn [append String.length Nat.sub substring]. rewrite Nat.sub_0_r, substring_all. reflexivity.
Qed.
Lemma loads_graph s : loads ("clocking_logs/" ++ s) = logs ++ s.
Proof. reflexivity. Qed.
Lemma shown_page t : shown (test_page (t ++ ".json")) =
  List.app ["../images/" ++ t ++ ".png"; "../images/" ++ t ++ "_ref.png"; "../images/" ++ t ++ ".png"; "../images/" ++ t ++ "_ref.png";
    "../images/test_001_pos_error.png"; "../images/" ++ t ++ "_neg_error.png"]
   (map (fun m => "clocking_logs/" ++ t ++ "/" ++ t ++ m ++ ".png") (List.app ["_time"; "_error"; "_MSE"; "_rel_error"] time_measures)).
Proof. unfold test_page. rewrite stem_json. reflexivity. Qed.
(** apart from the positive error, every image on the page is one of its own *)
Theorem C181_own_images t s : In s (shown (test_page (t ++ ".json"))) ->
  loads s = "../scenes/unit_tests/images/test_001_pos_error.png" \/
  (exists e, In e [".png"; "_ref.png"; "_neg_error.png"] /\ loads s = "../scenes/unit_tests/images/" ++ t ++ e) \/
  (exists m, loads s = "../scenes/unit_tests/web_viewer/clocking_logs/" ++ t ++ "/" ++ t ++ m ++ ".png").
Proof.
  rewrite shown_page. intros I. apply in_app_iff in I. destruct I as [I|I].
  - cbn [In] in I. destruct I as [<-|[<-|[<-|[<-|[<-|[<-|[]]]]]]]; [| | | |left; reflexivity|]; right; left; rewrite loads_image; eexists; (split; [|reflexivity]); cbn; tauto.
  - right. right. apply in_map_iff in I. destruct I as (m&<-&_). exists m. reflexivity.
Qed.
Print Assumptions C181_own_images.
(** and it has been written: by the run itself or by a run for the references *)
Theorem C181_images_exist es es' es2 row t s : In "test_001.json" es -> t <> "" -> In (t ++ ".json") es -> In s (shown (test_page (t ++ ".json"))) ->
  (exists r, s = "../images/" ++ r) ->
  In (loads s) (List.app (written (site_run false (Some es) es' row)) (written (site_run true (Some es) es2 row))).
Proof.
  intros T1 N I S (r&R). rewrite in_app_iff.
  assert (W : forall (ref : bool) (es' : option (list string)) (a e : string), a <> "" -> In (a ++ ".json") es -> In e (if ref then ["_ref.png"] else [".png"; "_pos_error.png"; "_neg_error.png"]) ->
    In ("../scenes/unit_tests/images/" ++ a ++ e) (written (site_run ref (Some es) es' row))).
  { intros ref e' a e Na Ia Ie. rewrite site_unfold. unfold written. rewrite flat_map_app. apply in_app_iff. left. apply in_flat_map.
    exists (WriteImage ("../scenes/unit_tests/images/" ++ a ++ e)). split; [|left; reflexivity]. apply in_flat_map. exists (a ++ ".json").
    split; [apply in_names; eauto|]. unfold one_test, evaluate_files, reference_files. rewrite result_name_json. destruct ref.
    - destruct Ie as [<-|[]]. cbn. tauto.
    - rewrite !in_app_iff. left. left. destruct Ie as [<-|[<-|[<-|[]]]]; cbn; tauto. }
  rewrite shown_page in S. apply in_app_iff in S. destruct S as [S|S].
  - cbn [In] in S. destruct S as [<-|[<-|[<-|[<-|[<-|[<-|[]]]]]]]; rewrite ?loads_image.
    + left. apply W; cbn; auto.
    + right. apply W; cbn; auto.
    + left. apply W; cbn; auto.
    + right. apply W; cbn; auto.
    + left. change (loads "../images/test_001_pos_error.png") with ("../scenes/unit_tests/images/" ++ "test_001" ++ "_pos_error.png"). apply W; cbn; auto. discriminate.
    + left. apply W; cbn; auto.
  - exfalso. apply in_map_iff in S. destruct S as (m&E&_). rewrite <- E in R. cbn in R. discriminate R.
Qed.
Print Assumptions C181_images_exist.
(** the positive error of every other test is written and never shown on its page *)
Theorem C181_positive_error_refuted t : t <> "" -> t <> "test_001" ->
  In ("../scenes/unit_tests/images/" ++ t ++ "_pos_error.png") (written (site_run false (Some [t ++ ".json"]) None (fun _ => []))) /\
  ~ In ("../scenes/unit_tests/images/" ++ t ++ "_pos_error.png") (map loads (shown (test_page (t ++ ".json")))).
Proof.
  intros N1 N. split.
  - rewrite site_unfold. unfold written. rewrite flat_map_app. apply in_app_iff. left. apply in_flat_map. exists (WriteImage ("../scenes/unit_tests/images/" ++ t ++ "_pos_error.png")).
    split; [|left; reflexivity]. apply in_flat_map. exists (t ++ ".json"). split; [apply in_names; exists t; cbn; auto|].
    unfold one_test, evaluate_files. rewrite result_name_json. cbn. tauto.
  - intros I. apply in_map_iff in I. destruct I as (s&L&S). rewrite shown_page in S. apply in_app_iff in S.
    assert (LEN : forall a b c, "../scenes/unit_tests/images/" ++ a ++ b = "../scenes/unit_tests/images/" ++ a ++ c -> b = c) by (intros a b c E; apply app_inj_l in E; apply app_inj_l in E; exact E).
    destruct S as [S|S].
    + cbn [In] in S. destruct S as [<-|[<-|[<-|[<-|[<-|[<-|[]]]]]]]; rewrite ?loads_image in L; try (apply LEN in L; discriminate L).
      change (loads "../images/test_001_pos_error.png") with ("../scenes/unit_tests/images/" ++ "test_001" ++ "_pos_error.png") in L.
      apply app_inj_l in L. apply app_cancel_r in L. auto.
    + apply in_map_iff in S. destruct S as (m&<-&_). rewrite loads_graph in L. cbn in L. discriminate L.
Qed.
Print Assumptions C181_positive_error_refuted.
Example C181_case : In "../images/test_001_pos_error.png" (shown (test_page "cornell.json")) /\
  ~ In "../images/cornell_pos_error.png" (shown (test_page "cornell.json")) /\
  In "../scenes/unit_tests/images/cornell_pos_error.png" (written (site_run false (Some ["cornell.json"]) None (fun _ => []))).
Proof. split; [cbn; tauto|]. split; [|cbn; tauto]. cbn. intuition discriminate. Qed.

(** * C182: every graph shows the quantity it is named after *)
Theorem C182_row c a s r : List.length (r_times c) = 24%nat -> exists row, record_row c a s r = Ok row /\ List.length row = expected_columns.
Proof.
  intros L. unfold record_row. rewrite to_fields_ok by exact L. eexists. split; [reflexivity|]. rewrite !app_length, L. reflexivity.
Qed.
Print Assumptions C182_row.
Lemma row_value c a s r row : List.length (r_times c) = 24%nat -> record_row c a s r = Ok row ->
  row = ([IZR (r_year c); IZR (r_month c); IZR (r_day c)] ++ r_times c ++ [nth 3 (r_times c) 0 + nth 1 (r_times c) 0 + nth 0 (r_times c) 0; a; s; r])%R%list.
Proof.
  intros L E. unfold record_row in E. rewrite to_fields_ok in E by exact L. cbn [bind] in E. injection E as <-. rewrite <- !app_assoc. reflexivity.
Qed.
(** every graph on a test page but one is drawn by the script, from the column that holds what its
    name says *)
Theorem C182_graphs c a s r row t m q : List.length (r_times c) = 24%nat -> record_row c a s r = Ok row -> In (m, q) meaning -> m <> "_MSE" ->
  In ("clocking_logs/" ++ t ++ "/" ++ t ++ m ++ ".png") (shown (test_page (t ++ ".json"))) /\
  exists save_name k, In (save_name, k) script_columns /\ graph_file t save_name = loads ("clocking_logs/" ++ t ++ "/" ++ t ++ m ++ ".png") /\
    nth_error row k = Some (value_of q c a s r).
Proof.
  intros L E I N. split.
  - rewrite shown_page. apply in_app_iff. right. apply (in_map (fun m => "clocking_logs/" ++ t ++ "/" ++ t ++ m ++ ".png")).
    cbn in I |- *. intuition (try congruence); match goal with H : (_, _) = (m, q) |- _ => injection H as <- _ end; tauto.
  - rewrite (row_value c a s r row L E). destruct (r_times c) as [|x0 [|x1 [|x2 [|x3 [|x4 [|x5 [|x6 [|x7 [|x8 [|x9 [|x10 [|x11 [|x12 [|x13 [|x14 [|x15 [|x16 [|x17 [|x18 [|x19 [|x20 [|x21 [|x22 [|x23 [|]]]]]]]]]]]]]]]]]]]]]]]]] eqn:RT; try discriminate L.
    assert (G : forall s' k v, In (s', k) script_columns -> m = "_" ++ s' -> nth_error ([IZR (r_year c); IZR (r_month c); IZR (r_day c)] ++ r_times c ++ [nth 3 (r_times c) 0 + nth 1 (r_times c) 0 + nth 0 (r_times c) 0; a; s; r])%R%list k = Some v -> v = value_of q c a s r ->
      exists save_name k, In (save_name, k) script_columns /\ graph_file t save_name = loads ("clocking_logs/" ++ t ++ "/" ++ t ++ m ++ ".png") /\
        nth_error ([IZR (r_year c); IZR (r_month c); IZR (r_day c)] ++ r_times c ++ [nth 3 (r_times c) 0 + nth 1 (r_times c) 0 + nth 0 (r_times c) 0; a; s; r])%R%list k = Some (value_of q c a s r)).
    { intros s' k v Is -> Nv Ev. exists s', k. split; [exact Is|]. split; [|rewrite Nv, Ev; reflexivity].
      rewrite loads_graph. unfold graph_file. cbn [append]. reflexivity. }
    rewrite <- RT. cbn [meaning In] in I. rewrite RT in G |- *.
    do 28 (destruct I as [I|I]; [injection I as <- <-; first [exfalso; apply N; reflexivity|
      eapply G; [|reflexivity| |]; [unfold script_columns; cbn [In]; repeat (first [left; reflexivity|right])|reflexivity|unfold value_of; rewrite ?RT; reflexivity]]|]).
    destruct I.
Qed.
Print Assumptions C182_graphs.
(** no graph is ever drawn under the name the page uses for the squared error *)
Theorem C182_squared_error_refuted t : In ("clocking_logs/" ++ t ++ "/" ++ t ++ "_MSE.png") (shown (test_page (t ++ ".json"))) /\
  forall save_name k, In (save_name, k) script_columns -> graph_file t save_name <> loads ("clocking_logs/" ++ t ++ "/" ++ t ++ "_MSE.png").
Proof.
  split.
  - rewrite shown_page. apply in_app_iff. right. apply in_map_iff. exists "_MSE". split; [reflexivity|]. cbn. tauto.
  - intros sn k I E. rewrite loads_graph in E. unfold graph_file in E. apply app_inj_l in E. apply app_inj_l in E. cbn [append] in E. injection E as E.
    apply app_inj_l in E. cbn [append] in E. injection E as E. change "MSE.png" with ("MSE" ++ ".png") in E. apply app_cancel_r in E. subst sn.
    cbn in I. intuition discriminate.
Qed.
Print Assumptions C182_squared_error_refuted.
Example C182_case : exists row, record_row (Res (repeat 1 COUNT) 5 17 2021)%R 0 1 2 = Ok row /\ nth_error row 28 = Some 0%R /\ nth_error row 29 = Some 1%R.
Proof.
  destruct (C182_row (Res (repeat 1 COUNT) 5 17 2021)%R 0 1 2 eq_refl) as (row&E&_). exists row. split; [exact E|].
  rewrite (row_value (Res (repeat 1 COUNT) 5 17 2021)%R 0 1 2 row eq_refl E). split; reflexivity.
Qed.

(** * C183: recording a test deletes its old graphs and nothing else *)
(** all a run deletes: for every test the folder of its name beside the working directory's files,
    which holds none of the graphs *)
Theorem C183_deleted_refuted es es' row : (forall t i, In (t ++ ".json") es -> String.get i t <> Some " "%char) ->
  (forall p, In p (flat_map (fun e => match e with Command c => removed c | _ => [] end) (site_run false (Some es) es' row)) <->
     exists t, t <> "" /\ In (t ++ ".json") es /\ p = t ++ "/") /\
  (forall t save_name, exists f, graph_file t save_name = "../scenes/unit_tests/web_viewer/clocking_logs/" ++ t ++ "/" ++ f) /\
  (forall t, t ++ "/" <> "../scenes/unit_tests/web_viewer/clocking_logs/" ++ t ++ "/").
Proof.
  intros P. split; [|split].
  - intros p. rewrite in_flat_map. split.
    + intros (e&I&R). rewrite site_unfold in I. apply in_app_iff in I. destruct I as [I|[<-|[]]]; [|destruct R]. apply in_flat_map in I. destruct I as (n&M&I).
      apply in_names in M. destruct M as (t&Nt&->&M). exists t. split; [exact Nt|]. split; [exact M|].
      unfold one_test, append_to_test_records, remove_command in I. rewrite stem_json in I. cbn [evaluate_files map List.app In] in I.
      destruct I as [<-|[<-|[<-|[<-|[<-|[<-|[<-|[<-|[<-|[]]]]]]]]]]; try (exfalso; exact R).
      rewrite (removed_plain t (fun i => P t i M)) in R. destruct R as [<-|[]]. reflexivity.
    + intros (t&Nt&M&->). exists (Command (remove_command (t ++ ".json"))). split.
      * rewrite site_unfold. apply in_app_iff. left. apply in_flat_map. exists (t ++ ".json"). split; [apply in_names; eauto|]. cbn. tauto.
      * unfold remove_command. rewrite stem_json, (removed_plain t (fun i => P t i M)). left. reflexivity.
  - intros t sn. exists (t ++ "_" ++ sn ++ ".png"). reflexivity.
  - intros t E. apply (f_equal String.length) in E. rewrite !length_app in E. cbn [String.length] in E. lia.
Qed.
Print Assumptions C183_deleted_refuted.
(** the folder that is made for a recorded test is the one its graphs are written to *)
Theorem C183_folder es es' row t : t <> "" -> In (t ++ ".json") es ->
  exists folder, In (Command ("mkdir " ++ folder)) (site_run false (Some es) es' row) /\ forall save_name, exists f, graph_file t save_name = folder ++ f.
Proof.
  intros Nt I. exists ("../scenes/unit_tests/web_viewer/clocking_logs/" ++ t ++ "/"). split.
  - rewrite site_unfold. apply in_app_iff. left. apply in_flat_map. exists (t ++ ".json"). split; [apply in_names; eauto|].
    unfold one_test, append_to_test_records, mkdir_command. rewrite stem_json. cbn [evaluate_files map List.app In]. do 6 right. left. reflexivity.
  - intros save_name. exists (t ++ "_" ++ save_name ++ ".png"). unfold graph_file, logs. rewrite <- !app_assoc_s. reflexivity.
Qed.
Print Assumptions C183_folder.
Example C183_folder_case : exists folder, In (Command ("mkdir " ++ folder)) (site_run false (Some ["a.json"; "b.json"]) None (fun _ => [])) /\
  forall save_name, exists f, graph_file "b" save_name = folder ++ f.
Proof. apply C183_folder; [discriminate|cbn; tauto]. Qed.
(** the graphs of a recorded test are drawn in the background, after its row was added and their
    folder was made *)
Theorem C183_drawn es es' row t : t <> "" -> In (t ++ ".json") es ->
  exists before between folder after, site_run false (Some es) es' row =
    (before ++ [Append ("../scenes/unit_tests/web_viewer/clocking_logs/" ++ t ++ ".dat")%string (row (t ++ ".json")%string)] ++ between ++
     [Command ("mkdir " ++ folder)%string; Command ("python3 ../scenes/unit_tests/web_viewer/scripts/generate_clocking_graphs.py " ++ t ++ " &")%string] ++ after)%list /\
    forall save_name, exists f, graph_file t save_name = folder ++ f.
Proof.
  intros Nt I. assert (M : In (t ++ ".json") (test_names (Some es))) by (apply in_names; eauto).
  apply in_split in M. destruct M as (l1 & l2 & E).
  rewrite site_unfold, E, flat_map_app. cbn [flat_map]. unfold one_test at 2. unfold append_to_test_records, mkdir_command, graphs_command. rewrite stem_json.
  exists (flat_map (one_test false row) l1 ++ evaluate_files (t ++ ".json")%string)%list, [Command (remove_command (t ++ ".json"))], ("../scenes/unit_tests/web_viewer/clocking_logs/" ++ t ++ "/").
  eexists. split.
  - rewrite <- !app_assoc. f_equal. f_equal. cbn [List.app]. f_equal. 
  - intros save_name. exists (t ++ "_" ++ save_name ++ ".png"). unfold graph_file, logs. rewrite <- !app_assoc_s. reflexivity.
Qed.
Print Assumptions C183_drawn.
Example C183_drawn_case : "b" <> "" /\ In ("b" ++ ".json") ["a.json"; "b.json"; "c.json"].
Proof. split; [discriminate|cbn; tauto]. Qed.
(** with a space in the name a folder of another name goes *)
Theorem C183_others_refuted : exists n, is_json n = true /\ In "results" (removed (remove_command n)) /\ stem n <> "results".
Proof. exists "results old.json". split; [reflexivity|]. split; [cbn; tauto|discriminate]. Qed.
Print Assumptions C183_others_refuted.
(** every recorded test gets exactly one row, in its own file, in the order of the directory *)
Theorem C183_one_row_each es es' row : NoDup es ->
  flat_map (fun e => match e with Append p r => [(p, r)] | _ => [] end) (site_run false (Some es) es' row) =
    map (fun n => ("../scenes/unit_tests/web_viewer/clocking_logs/" ++ stem n ++ ".dat", row n)) (test_names (Some es)) /\
  NoDup (map (fun n => "../scenes/unit_tests/web_viewer/clocking_logs/" ++ stem n ++ ".dat") (test_names (Some es))).
Proof.
  intros N. split.
  - rewrite site_unfold, flat_map_app. cbn [flat_map]. rewrite app_nil_r. induction (test_names (Some es)) as [|n l IH]; [reflexivity|].
    cbn [flat_map map]. rewrite flat_map_app, IH. reflexivity.
  - pose proof (nodup_stems es N) as S. revert S. induction (test_names (Some es)) as [|n l IH]; intros S; [constructor|]. cbn [map] in S |- *. inversion S; subst. constructor.
    + intros I. apply in_map_iff in I. destruct I as (m&E&I). apply app_inj_l in E. apply app_cancel_r in E. match goal with X : ~ In _ _ |- _ => apply X end. rewrite <- E. apply in_map, I.
    + apply IH. assumption.
Qed.
Print Assumptions C183_one_row_each.
Example C183_case : removed (remove_command "test_001.json") = ["test_001/"] /\ NoDup ["a.json"; "b.json"] /\
  flat_map (fun e => match e with Append p r => [(p, r)] | _ => [] end) (site_run false (Some ["a.json"; "b.json"]) None (fun _ => [])) =
    [("../scenes/unit_tests/web_viewer/clocking_logs/a.dat", []); ("../scenes/unit_tests/web_viewer/clocking_logs/b.dat", [])].
Proof. split; [reflexivity|]. split; [|reflexivity]. repeat constructor; cbn; intuition discriminate. Qed.
