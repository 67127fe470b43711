(** C19, C20: the stop watches and the timing records. *)
From Coq Require Import Reals List Bool String ZArith Lia Lra.
From Verif.Base Require Import Outcome RSum.
From Verif.Model Require Import Clocker.
From Verif.Spec Require Import ClockSpec.
From Verif.Proof Require Import ClockProof.
Import ListNotations.
Open Scope R_scope.

(** C19: a sequence of calls on a new clocker is accepted exactly when every clock is started and
    stopped alternately; then the totals are the sums of the completed intervals *)
Theorem C19_accepted_iff_alternating ops : (exists k, run_ops ops clk_init = Ok k) <-> disciplined ops.
Proof. exact (run_ok_iff ops). Qed.
Print Assumptions C19_accepted_iff_alternating.

Theorem C19_totals ops k : run_ops ops clk_init = Ok k ->
  forall c, times k c = elapsed (calls c ops) /\ actives k c = running (calls c ops).
Proof.
  intros E c. assert (D : disciplined ops) by (apply run_ok_iff; eauto).
  destruct (run_cases ops) as [H _]. destruct (H D) as (k'&E'&M). assert (k' = k) as -> by congruence.
  destruct (M c) as (A&T&_). auto.
Qed.
Print Assumptions C19_totals.

(** the first call that breaks the alternation raises, with the name of its clock *)
Theorem C19_first_error pre o post : disciplined pre -> ~ disciplined (pre ++ [o]) ->
  run_ops (pre ++ o :: post) clk_init = Throw (complaint o).
Proof. intros D N. destruct (run_cases (pre ++ o :: post)) as [_ H]. exact (H pre o post eq_refl D N). Qed.
Print Assumptions C19_first_error.

(** calls on other clocks do not matter *)
Theorem C19_independent ops ops' k k' c : run_ops ops clk_init = Ok k -> run_ops ops' clk_init = Ok k' ->
  calls c ops = calls c ops' -> times k c = times k' c /\ actives k c = actives k' c.
Proof.
  intros E E' H. destruct (C19_totals ops k E c) as [A B]. destruct (C19_totals ops' k' E' c) as [A' B'].
  rewrite A, B, A', B', H. auto.
Qed.
Print Assumptions C19_independent.

(** if time never runs backwards the totals are not negative *)
(** a complaint identifies the clock: no two clocks share a name *)
Theorem C19_names_distinct a b : to_name a = to_name b -> a = b.
Proof. destruct a, b; intros H; first [reflexivity|discriminate H]. Qed.
Print Assumptions C19_names_distinct.

Theorem C19_total_nonnegative ops k c : run_ops ops clk_init = Ok k ->
  (forall i j, (i <= j < List.length (calls c ops))%nat -> when (calls c ops) i <= when (calls c ops) j) -> 0 <= times k c.
Proof.
  intros E T. destruct (C19_totals ops k E c) as [-> _]. apply rsum_nonneg. intros x Hx.
  apply in_map_iff in Hx. destruct Hx as (i&<-&Hi). apply in_seq in Hi.
  pose proof (half_bound (List.length (calls c ops))). specialize (T (2 * i) (2 * i + 1))%nat. assert (when (calls c ops) (2 * i) <= when (calls c ops) (2 * i + 1)) by (apply T; lia). lra.
Qed.
Print Assumptions C19_total_nonnegative.

(** a clock that is added (again) starts from nothing, whatever it showed, and the others go on *)
Theorem C19_added c t k s e : exists k1 k2, start_clock c s (add_clocker c t k) = Ok k1 /\ end_clock c e k1 = Ok k2 /\
  times k2 c = e - s /\ actives k2 c = false /\ forall d, d <> c -> times k2 d = times k d /\ actives k2 d = actives k d /\ start_times k2 d = start_times k d.
Proof.
  unfold start_clock, end_clock, add_clocker. cbn. unfold upd. destruct (ctype_dec c c) as [_|N]; [|contradiction]. eexists. eexists. split; [reflexivity|]. cbn.
  destruct (ctype_dec c c) as [_|N]; [|contradiction]. split; [reflexivity|]. cbn. destruct (ctype_dec c c) as [_|N]; [|contradiction].
  split; [lra|]. split; [reflexivity|]. intros d N. destruct (ctype_dec d c); [contradiction|]. auto.
Qed.
Print Assumptions C19_added.

Example C19_case :
  exists k, run_ops [Start SHADER 1; Start EMBREE 2; Stop EMBREE 4; Start EMBREE 5; Stop EMBREE 6; Stop SHADER 9] clk_init = Ok k /\
    times k EMBREE = 3 /\ times k SHADER = 8 /\
  run_ops [Start SHADER 1; Start EMBREE 2; Start SHADER 3] clk_init = Throw "shader already active"%string.
Proof. eexists. split; [reflexivity|]. cbn. repeat split; lra. Qed.

(** C20: reading a record back never succeeds: the reader stores beyond the end of the vector of
    times, whatever the text is *)
Theorem C20_read_never_succeeds vals r : results_of_string vals <> Ok r.
Proof. exact (parse_never vals r). Qed.
Print Assumptions C20_read_never_succeeds.

Theorem C20_round_trip_refuted : exists r, List.length (r_times r) = COUNT /\
  exists fields, to_fields r = Ok fields /\ results_of_string fields <> Ok r.
Proof.
  exists (Res (repeat 1 COUNT) 5 17 2021). split; [reflexivity|]. eexists. split; [apply to_fields_ok; reflexivity|]. apply parse_never.
Qed.
Print Assumptions C20_round_trip_refuted.

(** on the text of a well-formed record the failure is that store, not an exception *)
Theorem C20_round_trip_is_undefined r fields : List.length (r_times r) = COUNT ->
  to_fields r = Ok fields -> results_of_string fields = UB.
Proof.
  intros L E. rewrite to_fields_ok in E by exact L. injection E as <-.
  unfold results_of_string, parse_fields. cbn [at_ nth_error bind app].
  change (IZR (r_year r) :: ?a :: ?b :: ?l) with ([IZR (r_year r); a; b] ++ l).
  rewrite parse_times_ok; [|exact L|apply repeat_length]. cbn [bind]. unfold store. rewrite L, Nat.ltb_irrefl. reflexivity.
Qed.
Print Assumptions C20_round_trip_is_undefined.

(** what the fields say: all the times are recovered, but the writer puts the date as year, month,
    day and the reader takes the same fields as month, day, year *)
Theorem C20_times_recovered_date_permuted r fields : List.length (r_times r) = COUNT ->
  to_fields r = Ok fields ->
  parse_times fields (repeat 0 COUNT) = Ok (r_times r) /\
  (exists a b c, nth_error fields 0 = Some a /\ nth_error fields 1 = Some b /\ nth_error fields 2 = Some c /\
     to_int a = r_year r /\ to_int b = r_month r /\ to_int c = r_day r /\
     ((to_int a, to_int b, to_int c) = (r_month r, r_day r, r_year r) <->
      r_year r = r_month r /\ r_month r = r_day r)) /\
  last fields 0 = nth 0 (r_times r) 0 + nth 1 (r_times r) 0 + nth 3 (r_times r) 0.
Proof.
  intros L E. rewrite to_fields_ok in E by exact L. injection E as <-. split; [|split].
  - apply (parse_times_ok _ _ _ (r_times r)); [exact L|apply repeat_length].
  - do 3 eexists. repeat split; try (cbn; reflexivity); try apply to_int_IZR; rewrite ?to_int_IZR in *.
    + congruence.
    + congruence.
    + intros [A B]. congruence.
  - match goal with |- last (?a :: ?b :: ?c :: ?l ++ [?x]) 0 = _ => change (a :: b :: c :: l ++ [x]) with ((a :: b :: c :: l) ++ [x]) end.
    rewrite last_last. ring.
Qed.
Print Assumptions C20_times_recovered_date_permuted.
Example C20_case : exists fields, to_fields (Res (repeat 1 COUNT) 5 17 2021) = Ok fields /\ List.length fields = 28%nat.
Proof. eexists. split; [apply to_fields_ok; reflexivity|reflexivity]. Qed.

(** C210: adding up records and dividing by their number averages every clock and keeps the first date *)
Definition add_all (a : results) (l : list results) : outcome results := foldM res_add l a.
Lemma res_add_ok a b : (List.length (r_times a) <= List.length (r_times b))%nat ->
  exists r, res_add a b = Ok r /\ List.length (r_times r) = List.length (r_times a) /\ r_month r = r_month a /\ r_day r = r_day a /\ r_year r = r_year a /\
    forall i, (i < List.length (r_times a))%nat -> nth i (r_times r) 0 = nth i (r_times a) 0 + nth i (r_times b) 0.
Proof.
  intros L. set (n := List.length (r_times a)) in *.
  assert (F : forall m k acc, (k + m <= n)%nat -> List.length acc = k -> (forall i, (i < k)%nat -> nth i acc 0 = nth i (r_times a) 0 + nth i (r_times b) 0) ->
    exists ts, foldM (fun acc i => bind (at_ (r_times a) i) (fun x => bind (at_ (r_times b) i) (fun y => Ok (acc ++ [x + y])%list))) (seq k m) acc = Ok ts /\
      List.length ts = (k + m)%nat /\ forall i, (i < k + m)%nat -> nth i ts 0 = nth i (r_times a) 0 + nth i (r_times b) 0).
  { induction m as [|m IH]; intros k acc Lk La H; cbn [seq foldM].
    - exists acc. rewrite Nat.add_0_r. auto.
    - unfold at_. rewrite (nth_error_nth' (r_times a) 0) by (fold n; lia). rewrite (nth_error_nth' (r_times b) 0) by lia. cbn [bind].
      destruct (IH (S k) (acc ++ [nth k (r_times a) 0 + nth k (r_times b) 0])%list) as (ts&E&Lt&G).
      + lia.
      + rewrite app_length. cbn. lia.
      + intros i Hi. destruct (Nat.eq_dec i k) as [->|Ne].
        * rewrite app_nth2 by lia. rewrite La, Nat.sub_diag. reflexivity.
        * rewrite app_nth1 by lia. apply H. lia.
      + exists ts. split; [exact E|]. split; [lia|]. intros i Hi. apply G. lia. }
  destruct (F n 0%nat [] ltac:(lia) eq_refl ltac:(intros; lia)) as (ts&E&Lt&G). unfold res_add. fold n. rewrite E. cbn [bind].
  eexists. split; [reflexivity|]. cbn. repeat split; auto.
Qed.
Theorem C210_average a l : List.Forall (fun b => List.length (r_times b) = List.length (r_times a)) l ->
  exists r, add_all a l = Ok r /\ let m := res_div r (INR (S (List.length l))) in
    List.length (r_times m) = List.length (r_times a) /\ (r_month m, r_day m, r_year m) = (r_month a, r_day a, r_year a) /\
    forall i, (i < List.length (r_times a))%nat ->
      INR (S (List.length l)) * nth i (r_times m) 0 = nth i (r_times a) 0 + fold_right Rplus 0 (map (fun b => nth i (r_times b) 0) l).
Proof.
  intros F. assert (A : exists r, add_all a l = Ok r /\ List.length (r_times r) = List.length (r_times a) /\ (r_month r, r_day r, r_year r) = (r_month a, r_day a, r_year a) /\
    forall i, (i < List.length (r_times a))%nat -> nth i (r_times r) 0 = nth i (r_times a) 0 + fold_right Rplus 0 (map (fun b => nth i (r_times b) 0) l)).
  { unfold add_all. revert a F. induction l as [|b l IH]; intros a F.
    - exists a. cbn. repeat split; auto. intros; ring.
    - inversion F as [|? ? Fb Fl]; subst. destruct (res_add_ok a b ltac:(lia)) as (s&Es&Ls&M&D&Y&G). cbn [foldM]. rewrite Es. cbn [bind].
      destruct (IH s) as (r&Er&Lr&Dr&Gr). { rewrite Ls. exact Fl. }
      exists r. split; [exact Er|]. split; [congruence|]. split; [rewrite Dr, M, D, Y; reflexivity|].
      intros i Hi. rewrite Gr by lia. rewrite G by lia. cbn [map fold_right]. ring. }
  destruct A as (r&E&L&D&G). exists r. split; [exact E|]. cbv zeta. unfold res_div. cbn [r_times r_month r_day r_year]. split; [rewrite map_length; exact L|]. split; [exact D|].
  intros i Hi. set (d := fun x => x / INR (S (List.length l))). rewrite (nth_indep _ 0 (d 0)) by (rewrite map_length; lia). rewrite map_nth. unfold d. rewrite <- G by exact Hi.
  field. apply not_0_INR. discriminate.
Qed.
(** a record with fewer clocks is read beyond its end *)
Theorem C210_shorter a b : (List.length (r_times b) < List.length (r_times a))%nat -> res_add a b = UB.
Proof.
  intros L. unfold res_add. set (f := fun acc i => _).
  assert (F : forall m k acc, (k <= List.length (r_times b))%nat -> (List.length (r_times b) < k + m)%nat -> (k + m <= List.length (r_times a))%nat -> foldM f (seq k m) acc = UB).
  { induction m as [|m IH]; intros k acc Lk Lm La; [lia|]. cbn [seq foldM]. unfold f at 1. unfold at_. rewrite (nth_error_nth' (r_times a) 0) by lia. cbn [bind].
    destruct (nth_error (r_times b) k) as [y|] eqn:E; [|reflexivity]. cbn [bind]. assert (k < List.length (r_times b))%nat by (apply nth_error_Some; congruence).
    apply IH; lia. }
  rewrite F by lia. reflexivity.
Qed.
Print Assumptions C210_average.
Print Assumptions C210_shorter.
Example C210_case : exists r, add_all (Res [1; 2] 5 17 2021) [Res [3; 0] 1 1 2022; Res [2; 1] 6 6 2023] = Ok r /\
  res_div r 3 = Res [2; 1] 5 17 2021.
Proof. eexists. split; [reflexivity|]. unfold res_div. cbn. f_equal. f_equal; [lra|]. f_equal. lra. Qed.
