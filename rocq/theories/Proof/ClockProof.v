From Coq Require Import Reals List Bool String ZArith Arith Lia Lra.
From Flocq Require Import Core.
From Verif.Base Require Import Outcome ListLemmas RSum.
From Verif.Model Require Import Clocker.
From Verif.Spec Require Import ClockSpec.
Import ListNotations.
Open Scope R_scope.

Lemma calls_app c a b : calls c (a ++ b) = calls c a ++ calls c b.
Proof. induction a as [|[d t|d t] a IH]; simpl; [reflexivity| |]; destruct (ctype_dec d c); simpl; rewrite IH; reflexivity. Qed.

Definition ev (o : cop) : bool * R := match o with Start _ t => (true, t) | Stop _ t => (false, t) end.
Lemma calls_one c o : calls c [o] = if ctype_dec (clock_of o) c then [ev o] else [].
Proof. destruct o; reflexivity. Qed.

Lemma alternate_app a b : alternate (a ++ b) -> alternate a.
Proof. intros H i x t E. apply (H i x t). rewrite nth_error_app1; [exact E|]. apply nth_error_Some. congruence. Qed.

Lemma alternate_snoc l b t : alternate l -> (alternate (l ++ [(b, t)]) <-> b = negb (running l)).
Proof.
  intros H. unfold running. rewrite <- Nat.negb_even, negb_involutive. split.
  - intros A. apply (A (List.length l) b t). rewrite nth_error_app2 by lia. rewrite Nat.sub_diag. reflexivity.
  - intros -> i b' t' E. destruct (Nat.lt_ge_cases i (List.length l)) as [L|L].
    + rewrite nth_error_app1 in E by exact L. eauto.
    + rewrite nth_error_app2 in E by exact L.
      destruct (i - List.length l)%nat as [|n] eqn:D; [|destruct n; discriminate]. simpl in E.
      replace i with (List.length l) by lia. congruence.
Qed.

Lemma when_app l r i : (i < List.length l)%nat -> when (l ++ r) i = when l i.
Proof. intros H. unfold when. rewrite app_nth1 by exact H. reflexivity. Qed.
Lemma when_last l b t : when (l ++ [(b, t)]) (List.length l) = t.
Proof. unfold when. rewrite app_nth2, Nat.sub_diag by lia. reflexivity. Qed.

Lemma elapsed_ext l r n : (forall i, (i < 2 * n)%nat -> when l i = when r i) ->
  map (fun k => when l (2 * k + 1) - when l (2 * k)) (seq 0 n) =
  map (fun k => when r (2 * k + 1) - when r (2 * k)) (seq 0 n).
Proof. intros H. apply map_ext_in. intros k K. apply in_seq in K. rewrite !H by lia. reflexivity. Qed.

Lemma half_bound n : (2 * (n / 2) <= n)%nat.
Proof. apply Nat.mul_div_le. lia. Qed.

Lemma elapsed_start l t : running l = false -> elapsed (l ++ [(true, t)]) = elapsed l.
Proof.
  intros H. unfold elapsed. rewrite app_length. simpl List.length.
  unfold running in H. rewrite <- Nat.negb_even in H. apply negb_false_iff, Nat.even_spec in H. destruct H as [m Hm].
  replace ((List.length l + 1) / 2)%nat with (List.length l / 2)%nat.
  2:{ rewrite Hm. replace (2 * m)%nat with (m * 2)%nat by lia. rewrite Nat.div_mul by lia. rewrite Nat.div_add_l by lia. simpl. lia. }
  f_equal. apply elapsed_ext. intros i Hi. apply when_app. pose proof (half_bound (List.length l)). lia.
Qed.

Lemma elapsed_stop l t : running l = true -> elapsed (l ++ [(false, t)]) = elapsed l + (t - when l (List.length l - 1)).
Proof.
  intros H. unfold elapsed. rewrite app_length. simpl List.length.
  unfold running in H. apply Nat.odd_spec in H. destruct H as [m Hm].
  replace ((List.length l + 1) / 2)%nat with (S m).
  2:{ replace (List.length l + 1)%nat with (S m * 2)%nat by lia. rewrite Nat.div_mul by lia. reflexivity. }
  replace (List.length l / 2)%nat with m.
  2:{ rewrite Hm. replace (2 * m + 1)%nat with (m * 2 + 1)%nat by lia. rewrite Nat.div_add_l by lia. simpl. lia. }
  rewrite seq_S, map_app, rsum_app. cbn [map]. rewrite rsum_cons, rsum_nil.
  rewrite (elapsed_ext (l ++ [(false, t)]) l m) by (intros; apply when_app; lia).
  f_equal. rewrite Rplus_0_r. replace (0 + m)%nat with m by lia.
  replace (2 * m + 1)%nat with (List.length l) by lia. rewrite when_last. rewrite when_app by lia.
  replace (2 * m)%nat with (List.length l - 1)%nat by lia. reflexivity.
Qed.

Lemma running_snoc l e : running (l ++ [e]) = negb (running l).
Proof. unfold running. rewrite app_length. simpl. rewrite Nat.add_1_r, Nat.odd_succ, <- Nat.negb_odd. reflexivity. Qed.

(** the state mirrors the history *)
Definition mirrors (k : clocker) (ops : list cop) : Prop := forall c,
  actives k c = running (calls c ops) /\ times k c = elapsed (calls c ops) /\
  (running (calls c ops) = true -> start_times k c = when (calls c ops) (List.length (calls c ops) - 1)).

Lemma run_ops_snoc ops o k : run_ops (ops ++ [o]) k = bind (run_ops ops k) (fun k => do_op k o).
Proof. unfold run_ops. rewrite foldM_app. destruct (foldM do_op ops k); simpl; try reflexivity. destruct (do_op a o); reflexivity. Qed.

Lemma disciplined_app a b : disciplined (a ++ b) -> disciplined a.
Proof. intros H c. specialize (H c). rewrite calls_app in H. eapply alternate_app; eauto. Qed.

Lemma disciplined_snoc ops o : disciplined ops ->
  (disciplined (ops ++ [o]) <-> fst (ev o) = negb (running (calls (clock_of o) ops))).
Proof.
  intros D. split.
  - intros H. specialize (H (clock_of o)). rewrite calls_app, calls_one in H.
    destruct (ctype_dec (clock_of o) (clock_of o)); [|congruence]. destruct (ev o) as [b t]. apply alternate_snoc in H; auto.
  - intros E c. rewrite calls_app, calls_one. destruct (ctype_dec (clock_of o) c) as [<-|N].
    + destruct (ev o) as [b t]. apply alternate_snoc; auto.
    + rewrite app_nil_r. apply D.
Qed.

Lemma step_good ops o k : mirrors k ops -> fst (ev o) = negb (running (calls (clock_of o) ops)) ->
  exists k', do_op k o = Ok k' /\ mirrors k' (ops ++ [o]).
Proof.
  intros M E. destruct (M (clock_of o)) as (A&T&S0).
  destruct o as [c t|c t]; simpl in *.
  - unfold start_clock. rewrite A. destruct (running (calls c ops)) eqn:R0; [discriminate|]. eexists; split; [reflexivity|].
    intros d. rewrite calls_app. simpl. unfold upd. destruct (ctype_dec c d) as [<-|N].
    + destruct (ctype_dec c c); [|congruence]. rewrite running_snoc, R0, app_length. simpl. split; [reflexivity|]. split.
      * rewrite elapsed_start; auto.
      * intros _. rewrite Nat.add_sub, when_last. reflexivity.
    + destruct (ctype_dec d c); [congruence|]. rewrite app_nil_r. apply M.
  - unfold end_clock. rewrite A. destruct (running (calls c ops)) eqn:R0; [|discriminate]. eexists; split; [reflexivity|].
    intros d. rewrite calls_app. simpl. unfold upd. destruct (ctype_dec c d) as [<-|N].
    + destruct (ctype_dec c c); [|congruence]. rewrite running_snoc, R0. simpl. split; [reflexivity|]. split; [|discriminate].
      rewrite elapsed_stop, T, S0; auto.
    + destruct (ctype_dec d c); [congruence|]. rewrite app_nil_r. apply M.
Qed.

Lemma step_bad ops o k : mirrors k ops -> fst (ev o) = running (calls (clock_of o) ops) -> do_op k o = Throw (complaint o).
Proof.
  intros M E. destruct (M (clock_of o)) as (A&_).
  destruct o as [c t|c t]; simpl in *; [unfold start_clock|unfold end_clock]; rewrite A, <- E; reflexivity.
Qed.

Lemma run_cases ops :
  (disciplined ops -> exists k, run_ops ops clk_init = Ok k /\ mirrors k ops) /\
  (forall pre o post, ops = pre ++ o :: post -> disciplined pre -> ~ disciplined (pre ++ [o]) ->
     run_ops ops clk_init = Throw (complaint o)).
Proof.
  assert (G : forall ops, disciplined ops -> exists k, run_ops ops clk_init = Ok k /\ mirrors k ops).
  { clear ops. induction ops as [|o ops IH] using rev_ind; intros D.
    - exists clk_init. split; [reflexivity|]. intros c. split; [reflexivity|]. split; [reflexivity|discriminate].
    - destruct IH as (k&E&M); [eapply disciplined_app; eauto|].
      destruct (step_good ops o k M) as (k'&E'&M'). { apply disciplined_snoc; [eapply disciplined_app; eauto|exact D]. }
      exists k'. rewrite run_ops_snoc, E. simpl. auto. }
  split; [apply G|]. intros pre o post -> D N. destruct (G pre D) as (k&E&M).
  replace (pre ++ o :: post) with (pre ++ [o] ++ post) by reflexivity.
  unfold run_ops in *. rewrite foldM_app, E. simpl. rewrite (step_bad pre o k M); [reflexivity|].
  rewrite disciplined_snoc in N by exact D. destruct (fst (ev o)), (running (calls (clock_of o) pre)); simpl in N; congruence.
Qed.

Lemma disciplined_step_dec ops o : disciplined ops -> disciplined (ops ++ [o]) \/ ~ disciplined (ops ++ [o]).
Proof. intros D. rewrite disciplined_snoc by exact D. destruct (fst (ev o)), (running (calls (clock_of o) ops)); simpl; first [left; reflexivity | right; discriminate]. Qed.

Lemma disciplined_split ops : disciplined ops \/
  exists pre o post, ops = pre ++ o :: post /\ disciplined pre /\ ~ disciplined (pre ++ [o]).
Proof.
  induction ops as [|o ops IH] using rev_ind; [left; intros c i b t; destruct i; discriminate|].
  destruct IH as [D|(pre&x&post&->&D&N)].
  - destruct (disciplined_step_dec ops o D) as [|N]; [left; assumption|]. right. exists ops, o, []. auto.
  - right. exists pre, x, (post ++ [o]). rewrite <- app_assoc. auto.
Qed.

Lemma run_ok_iff ops : (exists k, run_ops ops clk_init = Ok k) <-> disciplined ops.
Proof.
  split.
  - intros (k&E). destruct (disciplined_split ops) as [D|(pre&o&post&->&D&N)]; [assumption|].
    destruct (run_cases (pre ++ o :: post)) as [_ H]. rewrite (H pre o post eq_refl D N) in E. discriminate.
  - intros D. destruct (run_cases ops) as [H _]. destruct (H D) as (k&E&_). eauto.
Qed.

(** *** records *)
Lemma foldM_store (f : nat -> R) n m ts : (n + m <= List.length ts)%nat ->
  exists ts', foldM (fun ts i => store ts i (f i)) (seq n m) ts = Ok ts' /\ List.length ts' = List.length ts /\
    (forall i, (n <= i < n + m)%nat -> nth_error ts' i = Some (f i)) /\
    (forall i, ~ (n <= i < n + m)%nat -> nth_error ts' i = nth_error ts i).
Proof.
  revert n ts; induction m as [|m IH]; intros n ts L; simpl.
  - exists ts. repeat split; auto. lia.
  - unfold store at 1. destruct (Nat.ltb_spec n (List.length ts)); [|lia]. simpl.
    destruct (IH (S n) (update ts n (f n))) as (ts'&E&L'&A&B). { rewrite length_update. lia. }
    exists ts'. split; [exact E|]. rewrite length_update in L'. split; [lia|]. split.
    + intros i Hi. destruct (Nat.eq_dec i n) as [->|]; [|apply A; lia].
      rewrite B by lia. apply nth_error_update_eq. lia.
    + intros i Hi. rewrite B by lia. apply nth_error_update_neq. lia.
Qed.

Lemma foldM_collect (l : list R) n m : (n + m <= List.length l)%nat ->
  forall acc, foldM (fun acc i => bind (at_ l i) (fun t => Ok (acc ++ [t])%list)) (seq n m) acc
  = Ok (acc ++ firstn m (skipn n l)).
Proof.
  revert n; induction m as [|m IH]; intros n L acc; simpl; [rewrite app_nil_r; reflexivity|].
  unfold at_ at 1. destruct (nth_error l n) as [x|] eqn:E.
  2:{ apply nth_error_None in E. lia. }
  simpl. rewrite IH by lia. f_equal. rewrite <- app_assoc. f_equal.
  assert (S0 : skipn n l = x :: skipn (S n) l).
  { clear -E. revert l E. induction n as [|n IH]; intros [|y l] E; try discriminate; simpl in *; [congruence|]. rewrite IH by exact E. destruct l; reflexivity. }
  rewrite S0. reflexivity.
Qed.

Lemma to_int_IZR z : to_int (IZR z) = z.
Proof.
  assert (P : forall z, Int_part (IZR z) = z).
  { intros y. unfold Int_part. assert (H : up (IZR y) = (y + 1)%Z). { symmetry. apply tech_up; rewrite plus_IZR; lra. } lia. }
  unfold to_int. destruct (Rle_dec 0 (IZR z)); [apply P|]. rewrite <- opp_IZR, P. lia.
Qed.

Lemma to_fields_ok r : List.length (r_times r) = COUNT ->
  to_fields r = Ok ([IZR (r_year r); IZR (r_month r); IZR (r_day r)] ++ r_times r ++
                    [nth 3 (r_times r) 0 + nth 1 (r_times r) 0 + nth 0 (r_times r) 0]).
Proof.
  intros L. unfold to_fields. rewrite foldM_collect by (rewrite L; simpl; lia). simpl (skipn 0 _). rewrite <- L, firstn_all.
  unfold COUNT in L. destruct (r_times r) as [|a [|b [|c [|d l]]]]; try discriminate. reflexivity.
Qed.

Lemma foldM_ext {A S} (f g : S -> A -> outcome S) l s : (forall s x, In x l -> f s x = g s x) -> foldM f l s = foldM g l s.
Proof.
  revert s; induction l as [|x l IH]; intros s H; simpl; [reflexivity|]. rewrite H by (left; reflexivity).
  destruct (g s x); simpl; auto. apply IH. intros; apply H; right; assumption.
Qed.

Lemma list_ext {A} (l r : list A) : (forall i, nth_error l i = nth_error r i) -> l = r.
Proof.
  revert r; induction l as [|x l IH]; intros [|y r] H; [reflexivity|specialize (H 0%nat); discriminate|specialize (H 0%nat); discriminate|].
  f_equal; [specialize (H 0%nat); simpl in H; congruence|]. apply IH. intros i. apply (H (S i)).
Qed.

Lemma parse_times_ok a b c ts tot zs : List.length ts = COUNT -> List.length zs = COUNT ->
  parse_times ([a; b; c] ++ ts ++ [tot]) zs = Ok ts.
Proof.
  intros L Lz. unfold parse_times.
  rewrite (foldM_ext _ (fun u i => store u i (nth i ts 0))).
  - destruct (foldM_store (fun i => nth i ts 0) 0 COUNT zs) as (ts'&E&L'&A&_); [rewrite Lz; lia|]. rewrite E. f_equal.
    apply list_ext. intros i. destruct (Nat.lt_ge_cases i COUNT) as [H|H].
    + rewrite A by lia. symmetry. rewrite (nth_error_nth' ts 0) by lia. reflexivity.
    + transitivity (@None R); [|symmetry]; apply nth_error_None; lia.
  - intros u i Hi. apply in_seq in Hi. assert (Nat.ltb i (List.length ([a; b; c] ++ ts ++ [tot])) = true) as ->.
    { apply Nat.ltb_lt. rewrite !app_length, L. change (List.length [a; b; c]) with 3%nat. lia. }
    unfold at_. rewrite nth_error_app2 by (simpl; lia). change (List.length [a; b; c]) with 3%nat. replace (3 + i - 3)%nat with i by lia.
    rewrite nth_error_app1 by (rewrite L; lia). rewrite (nth_error_nth' ts 0) by (rewrite L; lia). reflexivity.
Qed.

Lemma store_length {A} (l : list A) i v l' : store l i v = Ok l' -> List.length l' = List.length l.
Proof. unfold store. destruct (Nat.ltb i (List.length l)); [|discriminate]. intros E. injection E as <-. apply length_update. Qed.

Lemma parse_times_length vals ts ts' : parse_times vals ts = Ok ts' -> List.length ts' = List.length ts.
Proof.
  unfold parse_times. generalize (seq 0 COUNT). intros l. revert ts. induction l as [|i l IH]; intros ts E; simpl in E; [congruence|].
  destruct (Nat.ltb i (List.length vals)).
  - change (S (S (S i))) with (3 + i)%nat in E. destruct (at_ vals (3 + i)) as [a| | |]; simpl in E; try discriminate. destruct (store ts i a) eqn:S0; simpl in E; try discriminate.
    rewrite (IH _ E). eapply store_length; eauto.
  - destruct (store ts i 0) eqn:S0; simpl in E; try discriminate. rewrite (IH _ E). eapply store_length; eauto.
Qed.

(** the record is never built: the last store is out of bounds *)
Lemma parse_never vals r : results_of_string vals <> Ok r.
Proof.
  unfold results_of_string, parse_fields. intros E.
  destruct (at_ vals 0); cbn [bind] in E; try discriminate. destruct (at_ vals 1); cbn [bind] in E; try discriminate.
  destruct (at_ vals 2); cbn [bind] in E; try discriminate. destruct (parse_times vals (repeat 0 COUNT)) eqn:P; cbn [bind] in E; try discriminate.
  apply parse_times_length in P. rewrite repeat_length in P. unfold store in E. rewrite P, Nat.ltb_irrefl in E. discriminate.
Qed.
