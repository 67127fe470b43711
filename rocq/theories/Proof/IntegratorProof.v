From Coq Require Import Reals List Bool String Lia Lra.
From Coquelicot Require Import Rbar.
From Verif.Base Require Import Outcome ListLemmas.
From Verif.Model Require Import Vec Frame BBox Warp Clocker Integrators.
From Verif.Spec Require Import IntegratorSpec.
Import ListNotations.
Open Scope R_scope.

Section Exec.
Context {W : Type}.
Variable now : W -> R * W.
Variable hit : W -> ray -> option isect * W.
Variable rnd1 : W -> R * W.
Variable rnd2 : W -> vec2 * W.
Notation MM := (M W).

(** [m], started with clock flags [f], ends with flags [g] and result/history in [E], or stops for
    lack of fuel with history in [T]; it never throws *)
Definition runs {A} (m : MM A) (f g : ctype -> bool) (E : list event -> A -> Prop) (T : list event -> Prop) : Prop :=
  forall s, (forall c, actives (s_clk W s) c = f c) ->
  exists h, s_log W (snd (m s)) = s_log W s ++ h /\
  match fst (m s) with
  | Ok a => (forall c, actives (s_clk W (snd (m s))) c = g c) /\ E h a
  | OutOfFuel => T h
  | _ => False
  end.

Lemma runs_conv {A} (m : MM A) f f' g g' (E E' : list event -> A -> Prop) (T T' : list event -> Prop) : runs m f g E T ->
  (forall c, f' c = f c) -> (forall c, g c = g' c) -> (forall h a, E h a -> E' h a) -> (forall h, T h -> T' h) -> runs m f' g' E' T'.
Proof.
  intros R F G HE HT s S0. destruct (R s) as (h&L&O). { intros; rewrite S0; auto. }
  exists h. split; [exact L|]. destruct (fst (m s)); auto. destruct O as [O1 O2]. split; auto. intros c. rewrite O1; auto.
Qed.

Lemma runs_ret {A} (a : A) f (E : list event -> A -> Prop) T : E [] a -> runs (ret W a) f f E T.
Proof. intros H s S0. exists []. simpl. rewrite app_nil_r. auto. Qed.

Lemma runs_ret_to {A} (a : A) f g (E : list event -> A -> Prop) T : (forall c, f c = g c) -> E [] a -> runs (ret W a) f g E T.
Proof. intros F H s S0. exists []. simpl. rewrite app_nil_r. split; [reflexivity|]. split; [|exact H]. intros c. rewrite S0; auto. Qed.

Lemma runs_bind {A B} (m : MM A) (k : A -> MM B) f g g' E1 T1 E T :
  runs m f g E1 T1 ->
  (forall a h1, E1 h1 a -> runs (k a) g g' (fun h2 b => E (h1 ++ h2) b) (fun h2 => T (h1 ++ h2))) ->
  (forall h, T1 h -> T h) -> runs (bindM W m k) f g' E T.
Proof.
  intros R1 R2 HT s S0. destruct (R1 s S0) as (h1&L1&O1). unfold bindM. destruct (m s) as [o s1]; simpl in *.
  destruct o as [a| | |]; simpl; try (exists h1; split; [exact L1|]; auto; fail).
  destruct O1 as [O1 EE]. destruct (R2 a h1 EE s1 O1) as (h2&L2&O2). exists (h1 ++ h2). rewrite L2, L1, app_assoc. auto.
Qed.

Lemma runs_start c f (E : list event -> unit -> Prop) T : f c = false -> E [] tt -> runs (clk_start W now c) f (upd f c true) E T.
Proof.
  intros H HE s S0. exists []. unfold clk_start, start_clock. destruct (now (s_w W s)) as [t w]. rewrite S0, H. simpl.
  rewrite app_nil_r. split; [reflexivity|]. split; [|exact HE]. intros d. unfold upd. destruct (ctype_dec d c); auto.
Qed.
Lemma runs_stop c f (E : list event -> unit -> Prop) T : f c = true -> E [] tt -> runs (clk_stop W now c) f (upd f c false) E T.
Proof.
  intros H HE s S0. exists []. unfold clk_stop, end_clock. destruct (now (s_w W s)) as [t w]. rewrite S0, H. simpl.
  rewrite app_nil_r. split; [reflexivity|]. split; [|exact HE]. intros d. unfold upd. destruct (ctype_dec d c); auto.
Qed.
Lemma runs_note e f (E : list event -> unit -> Prop) T : E [e] tt -> runs (note W e) f f E T.
Proof. intros H s S0. exists [e]. simpl. auto. Qed.
Lemma runs_next1 f (E : list event -> R -> Prop) T : (forall u, E [] u) -> runs (next1 W rnd1) f f E T.
Proof. intros H s S0. exists []. unfold next1. destruct (rnd1 (s_w W s)). simpl. rewrite app_nil_r. auto. Qed.
Lemma runs_next2 f (E : list event -> vec2 -> Prop) T : (forall u, E [] u) -> runs (next2 W rnd2) f f E T.
Proof. intros H s S0. exists []. unfold next2. destruct (rnd2 (s_w W s)). simpl. rewrite app_nil_r. auto. Qed.
Lemma runs_ask r f (E : list event -> option isect -> Prop) T : (forall a, E [] a) ->
  runs (fun s => let (a, w) := hit (s_w W s) r in (Ok a, St W (s_clk W s) w (s_log W s))) f f E T.
Proof. intros H s S0. exists []. destruct (hit (s_w W s) r). simpl. rewrite app_nil_r. auto. Qed.

(** sequencing when the first part leaves no history *)
Definition quiet {A} (h : list event) (_ : A) : Prop := h = [].
Lemma runs_seq {A B} (m : MM A) (k : A -> MM B) f g g' E T :
  runs m f g quiet (fun h => h = []) -> (forall a, runs (k a) g g' E T) -> T [] -> runs (bindM W m k) f g' E T.
Proof.
  intros R1 R2 HT. eapply runs_bind; [exact R1| |].
  - intros a h ->. simpl. eapply runs_conv; [apply R2|auto..].
  - intros h ->. exact HT.
Qed.
Lemma runs_note_seq {B} e (k : unit -> MM B) f g E T :
  runs (k tt) f g (fun h b => E (e :: h) b) (fun h => T (e :: h)) -> runs (bindM W (note W e) k) f g E T.
Proof.
  intros R1. eapply runs_bind with (E1 := fun h _ => h = [e]) (T1 := fun _ => False).
  - apply runs_note. reflexivity.
  - intros [] h ->. exact R1.
  - intros h [].
Qed.

Lemma upd_same {A} (f : ctype -> A) c v : upd f c v c = v.
Proof. unfold upd. destruct (ctype_dec c c); congruence. Qed.

Lemma runs_accel r f : f EMBREE = false -> runs (accel_intersect W now hit r) f f quiet (fun _ => False).
Proof.
  intros H. eapply runs_conv with (g := upd (upd f EMBREE true) EMBREE false) (f := f) (E := quiet) (T := fun _ => False); [|auto| |auto|].
  - unfold accel_intersect. eapply runs_bind with (E1 := quiet) (T1 := fun _ => False); [apply runs_start; [exact H|reflexivity]| |auto].
    intros [] h ->. simpl. eapply runs_bind with (E1 := quiet) (T1 := fun _ => False); [apply runs_ask; reflexivity| |auto].
    intros a h ->. simpl. eapply runs_bind with (E1 := quiet) (T1 := fun _ => False); [apply runs_stop; [apply upd_same|reflexivity]| |auto].
    intros [] h ->. simpl. apply runs_ret. reflexivity.
  - intros c. unfold upd. destruct (ctype_dec c EMBREE) as [->|]; auto.
  - auto.
Qed.

Lemma runs_query {A} (q : query A) f : f EMBREE = false ->
  runs (run_query W now hit rnd1 rnd2 q) f f (fun h a => h = [] /\ leaf q a) (fun _ => False).
Proof.
  intros H. induction q as [a|r k IH|k IH|k IH]; simpl.
  - apply runs_ret. split; [reflexivity|constructor].
  - eapply runs_bind; [apply runs_accel, H| |intros h []]. intros a h ->.
    eapply runs_conv; [apply IH|auto..]. intros h x [-> L]. split; [reflexivity|econstructor; eauto].
  - eapply runs_bind; [apply runs_next1 with (E := quiet) (T := fun _ => False); reflexivity| |intros h []]. intros a h ->.
    eapply runs_conv; [apply IH|auto..]. intros h x [-> L]. split; [reflexivity|econstructor; eauto].
  - eapply runs_bind; [apply runs_next2 with (E := quiet) (T := fun _ => False); reflexivity| |intros h []]. intros a h ->.
    eapply runs_conv; [apply IH|auto..]. intros h x [-> L]. split; [reflexivity|econstructor; eauto].
Qed.

Lemma runs_nn n r f : f EMBREE = false -> runs (nn_loop W now hit n r) f f quiet (fun h => h = []).
Proof.
  intros H. revert r. induction n as [|n IH]; intros r; simpl.
  - intros s S0. exists []. simpl. rewrite app_nil_r. auto.
  - eapply runs_bind; [apply runs_accel, H| |intros h []]. intros [i|] h ->.
    + destruct (i_null i); [apply IH|apply runs_ret; reflexivity].
    + apply runs_ret. reflexivity.
Qed.

End Exec.

Arguments runs {W A}.
Arguments quiet {A}.

Section Rays.
Context {W : Type}.
Variable now : W -> R * W.
Variable hit : W -> ray -> option isect * W.
Variable n : nat.
Lemma runs_nonnull r f : f EMBREE = false ->
  runs (intersect_non_null W now hit n r) f f (fun h a => h = [HRay r a]) (fun h => h = []).
Proof.
  intros H. unfold intersect_non_null. eapply runs_bind; [apply runs_nn, H| |auto]. intros a h ->. cbn [app].
  apply runs_note_seq. apply runs_ret. reflexivity.
Qed.
End Rays.

(** *** symbolic execution over clock flags *)
Ltac flag := cbn; first [reflexivity | assumption | congruence].
Ltac one :=
  match goal with
  | |- runs (bindM _ (clk_start _ _ _) _) _ _ _ _ =>
      eapply runs_seq; [apply runs_start; [flag|reflexivity]|intros []|]
  | |- runs (bindM _ (clk_stop _ _ _) _) _ _ _ _ =>
      eapply runs_seq; [apply runs_stop; [flag|reflexivity]|intros []|]
  | |- runs (bindM _ (note _ _) _) _ _ _ _ => apply runs_note_seq
  end.

Definition idle_f (f : ctype -> bool) : Prop := forall c, In c integrator_clocks -> f c = false.
Lemma idle_f_all f : idle_f f ->
  f INTEGRATOR_INTERSECT = false /\ f INTEGRATOR_RR = false /\ f INTEGRATOR_NEE = false /\ f INTEGRATOR_EVAL = false /\
  f SHADER = false /\ f SHADER_SURFACE = false /\ f SHADER_SURFACE_EVAL = false /\ f SHADER_SURFACE_SAMPLE = false /\ f EMBREE = false.
Proof. intros H. repeat split; apply H; simpl; tauto. Qed.

Ltac restore := let c := fresh "c" in intros c; destruct c; cbn; congruence.

Section Loops.
Context {W : Type}.
Variable now : W -> R * W.
Variable hit : W -> ray -> option isect * W.
Variable rnd1 : W -> R * W.
Variable rnd2 : W -> vec2 * W.
Variable n : nat.


(** ask for the nearest non-null hit *)
Lemma runs_ray {B} r (k : option isect -> M W B) f g E (T : list event -> Prop) : f EMBREE = false -> T [] ->
  (forall a, runs (k a) f g (fun h b => E (HRay r a :: h) b) (fun h => T (HRay r a :: h))) ->
  runs (bindM W (intersect_non_null W now hit n r) k) f g E T.
Proof.
  intros H HT R1. eapply runs_bind; [apply runs_nonnull, H| |].
  - intros a h ->. apply R1.
  - intros h ->. exact HT.
Qed.
Lemma runs_draw1 {B} (k : R -> M W B) f g E T :
  (forall u, runs (k u) f g E T) -> runs (bindM W (next1 W rnd1) k) f g E T.
Proof.
  intros R1. eapply runs_bind with (E1 := quiet) (T1 := fun _ => False); [apply runs_next1; reflexivity| |intros h []].
  intros u h ->. apply R1.
Qed.
Lemma runs_draw2 {B} (k : vec2 -> M W B) f g E T :
  (forall u, runs (k u) f g E T) -> runs (bindM W (next2 W rnd2) k) f g E T.
Proof.
  intros R1. eapply runs_bind with (E1 := quiet) (T1 := fun _ => False); [apply runs_next2; reflexivity| |intros h []].
  intros u h ->. apply R1.
Qed.
Lemma runs_shader {A B} (q : query A) (k : A -> M W B) f g E T : f EMBREE = false ->
  (forall a, leaf q a -> runs (k a) f g E T) -> runs (bindM W (run_query W now hit rnd1 rnd2 q) k) f g E T.
Proof.
  intros H R1. eapply runs_bind; [apply runs_query, H| |intros h []]. intros a h [-> L]. apply R1, L.
Qed.

Ltac clocks f I :=
  apply idle_f_all in I;
  let I1 := fresh in let I2 := fresh in let I3 := fresh in let I4 := fresh in let I5 := fresh in
  let I6 := fresh in let I7 := fresh in let I8 := fresh in let I9 := fresh in
  destruct I as (I1&I2&I3&I4&I5&I6&I7&I8&I9).
Ltac ones := repeat (one; [|exact Logic.I]).

Lemma runs_amb_occ r f : idle_f f ->
  runs (amb_occ_Li W now hit rnd2 n r) f f
    (fun h a => (h = [HRay r None] /\ a = V3c 0) \/
       exists i u b, h = [HRay r (Some i); HPoint u; HRay (ao_ray i u) b] /\
         a = match b with None => V3c 1 | Some _ => V3c 0 end)
    (fun _ => True).
Proof.
  intros Idle. clocks f Idle. unfold amb_occ_Li. ones.
  apply runs_ray; [flag|exact Logic.I|]. intros [i|].
  - ones. apply runs_draw2. intros u. one. apply runs_ray; [flag|exact Logic.I|]. intros [j|].
    + ones. apply runs_ret_to; [restore|]. right. exists i, u, (Some j). auto.
    + ones. apply runs_ret_to; [restore|]. right. exists i, u, None. auto.
  - ones. apply runs_ret_to; [restore|]. auto.
Qed.

Lemma runs_normal r f : idle_f f ->
  runs (normal_Li W now hit n r) f f
    (fun h a => (h = [HRay r None] /\ a = V3c 0) \/ exists i, h = [HRay r (Some i)] /\ a = vabs (fn (i_s i)))
    (fun _ => True).
Proof.
  intros Idle. clocks f Idle. unfold normal_Li. ones.
  apply runs_ray; [flag|exact Logic.I|]. intros [i|].
  - ones. cbv zeta.
    assert (E : vabs_tilde (fn (i_s i)) = vabs (fn (i_s i))).
    { unfold vabs_tilde, vabs, Rabs. repeat (destruct (Rlt_dec _ _) || destruct (Rcase_abs _)); try reflexivity; exfalso; lra. }
    rewrite E. pose proof (Rabs_pos (vx (fn (i_s i)))). pose proof (Rabs_pos (vy (fn (i_s i)))). pose proof (Rabs_pos (vz (fn (i_s i)))).
    destruct (Rlt_dec (vx _) 0) as [L|]; [unfold vabs in L; cbn [vx] in L; lra|].
    destruct (Rlt_dec (vy _) 0) as [L|]; [unfold vabs in L; cbn [vy] in L; lra|].
    destruct (Rlt_dec (vz _) 0) as [L|]; [unfold vabs in L; cbn [vz] in L; lra|].
    ones. apply runs_ret_to; [restore|]. right. exists i. auto.
  - ones. apply runs_ret_to; [restore|]. auto.
Qed.

Lemma runs_nice_normal r f : idle_f f ->
  runs (nice_normal_Li W now hit n r) f f
    (fun h a => (h = [HRay r None] /\ a = V3c 0) \/
       exists i, h = [HRay r (Some i)] /\ a = vscale (vadd (fn (i_s i)) (V3c 1)) (1 / 2))
    (fun _ => True).
Proof.
  intros Idle. clocks f Idle. unfold nice_normal_Li. ones.
  apply runs_ray; [flag|exact Logic.I|]. intros [i|]; ones; (apply runs_ret_to; [restore|]); [right; exists i|left]; auto.
Qed.
Lemma runs_cosine r f : idle_f f ->
  runs (cosine_Li W now hit n r) f f
    (fun h a => (h = [HRay r None] /\ a = V3c (-2)) \/
       exists i, h = [HRay r (Some i)] /\ a = V3c (dot (fn (i_s i)) (dir r)))
    (fun _ => True).
Proof.
  intros Idle. clocks f Idle. unfold cosine_Li. ones.
  apply runs_ray; [flag|exact Logic.I|]. intros [i|]; ones; (apply runs_ret_to; [restore|]); [right; exists i|left]; auto.
Qed.
Lemma runs_bary r f : idle_f f ->
  runs (bary_Li W now hit n r) f f
    (fun h a => (h = [HRay r None] /\ a = V3c (-2)) \/
       exists i, h = [HRay r (Some i)] /\
         ((Rmin (vx (i_bary i)) (Rmin (vy (i_bary i)) (vz (i_bary i))) < 1 / 100 /\ a = V3c 1) \/
          (1 / 100 <= Rmin (vx (i_bary i)) (Rmin (vy (i_bary i)) (vz (i_bary i))) /\ a = V3c 0)))
    (fun _ => True).
Proof.
  intros Idle. clocks f Idle. unfold bary_Li. ones.
  apply runs_ray; [flag|exact Logic.I|]. intros [i|].
  - ones. assert (E : bary_min (i_bary i) = Rmin (vx (i_bary i)) (Rmin (vy (i_bary i)) (vz (i_bary i)))).
    { unfold bary_min, Rmin. repeat destruct (Rlt_dec _ _); repeat destruct (Rle_dec _ _); lra. }
    rewrite E. destruct (Rlt_dec _ (1 / 100)); (apply runs_ret_to; [restore|]); right; exists i; (split; [reflexivity|]).
    + auto.
    + right. split; [lra|reflexivity].
  - ones. apply runs_ret_to; [restore|]. auto.
Qed.
End Loops.

Lemma vec3_eq a b : vx a = vx b -> vy a = vy b -> vz a = vz b -> a = b.
Proof. destruct a, b; simpl; congruence. Qed.
Lemma vadd_0_r a : vadd a (V3c 0) = a.
Proof. apply vec3_eq; simpl; ring. Qed.
Lemma vadd_assoc a b c : vadd (vadd a b) c = vadd a (vadd b c).
Proof. apply vec3_eq; simpl; ring. Qed.
Lemma vadd_comm a b : vadd a b = vadd b a.
Proof. apply vec3_eq; simpl; ring. Qed.

Lemma maxValue_Rmax a : maxValue a = Rmax (vx a) (Rmax (vy a) (vz a)).
Proof. unfold maxValue, Rmax. repeat destruct (Rgt_dec _ _); repeat destruct (Rle_dec _ _); lra. Qed.
Lemma rr_survival beta : rr_prob beta = survival beta.
Proof. unfold rr_prob, survival. rewrite maxValue_Rmax. apply Rmin_comm. Qed.
Lemma atten_eq beta i c :
  vmul beta (vdiv (vscale (c_albedo c) (cos_term i c)) (c_pdf c * rr_prob beta)) = vmul beta (attenuation beta (i, c)).
Proof.
  rewrite rr_survival.
  assert (E : cos_term i c = if c_spec c then 1 else Rabs (dot (fn (i_s i)) (toWorld (i_s i) (c_wo c)))).
  { unfold cos_term, next_ray, isect_toWorld. cbn [dir]. destruct (c_spec c); [reflexivity|]. unfold Rabs. destruct (Rlt_dec _ 0), (Rcase_abs _); lra. }
  rewrite E. unfold attenuation. apply vec3_eq; cbn [vx vy vz vmul vdiv vscale]; unfold Rdiv; ring.
Qed.

Lemma estimate_stop env t i c rest : lights rest = [] -> escape rest = None ->
  estimate env t (HShade i c :: rest) = vmul t (vadd (c_emission c) (c_nee c)).
Proof.
  intros L E. unfold estimate. cbn [lights scatterings escape]. rewrite L, E.
  destruct (scatterings rest); cbn [carried zip_mul vsum fold_right]; rewrite ?vadd_0_r; [reflexivity|].
  destruct (carried _ _); cbn [zip_mul fold_right]; rewrite !vadd_0_r; reflexivity.
Qed.
Lemma estimate_ray env t r i h : estimate env t (HRay r (Some i) :: h) = estimate env t h.
Proof. reflexivity. Qed.
Lemma estimate_cons env t r i c u i' c' h :
  estimate env t (HRay r (Some i) :: HShade i c :: HRoulette u :: HSample i' c' :: h)
  = vadd (vmul t (vadd (c_emission c) (c_nee c))) (estimate env (vmul t (attenuation t (i', c'))) h).
Proof.
  unfold estimate, surfaces. cbn [lights scatterings escape List.length carried zip_mul vsum fold_right nth].
  rewrite vadd_assoc. reflexivity.
Qed.

Section PathLoop.
Context {W : Type}.
Variable now : W -> R * W.
Variable hit : W -> ray -> option isect * W.
Variable rnd1 : W -> R * W.
Variable rnd2 : W -> vec2 * W.
Variable env : ray -> vec3.
Variable sh_evaluate : isect -> ray -> closure -> query closure.
Variable sh_mat : isect -> vec3 -> vec3 -> vec3.
Variable sh_sample : isect -> closure -> query closure.
Variable n : nat.

Ltac clocks f I :=
  apply idle_f_all in I;
  let I1 := fresh in let I2 := fresh in let I3 := fresh in let I4 := fresh in let I5 := fresh in
  let I6 := fresh in let I7 := fresh in let I8 := fresh in let I9 := fresh in
  destruct I as (I1&I2&I3&I4&I5&I6&I7&I8&I9).
Ltac ones := repeat first [progress cbv zeta | apply runs_note_seq | one; [|cbn; lia]].

Lemma runs_path m Li beta r cl f : idle_f f ->
  runs (path_loop W now hit rnd1 rnd2 env sh_evaluate sh_mat sh_sample n m Li beta r cl) f f
    (fun h a => (rays_cast h <= m)%nat /\ (surfaces h <= m)%nat /\
                (keeps_light sh_sample -> a = vadd Li (estimate env beta h)))
    (fun h => (rays_cast h <= m)%nat /\ (surfaces h <= m)%nat).
Proof.
  revert Li beta r cl f. induction m as [|m IH]; intros Li beta r cl f Idle; cbn [path_loop].
  { apply runs_ret. repeat split; try (cbn; lia). intros _. unfold estimate. simpl. rewrite vadd_0_r, vadd_0_r. reflexivity. }
  destruct (isZero_dec beta) as [Z|NZ].
  { apply runs_ret. repeat split; try (cbn; lia). intros _. unfold estimate. simpl. rewrite vadd_0_r, vadd_0_r. reflexivity. }
  pose proof Idle as Idle0. clocks f Idle. ones.
  apply runs_ray; [flag|cbn; lia|]. intros [i|].
  2:{ ones. apply runs_ret_to; [restore|]. cbn. repeat split; try lia. intros _. f_equal. unfold estimate. simpl. rewrite vadd_comm, vadd_0_r. reflexivity. }
  ones. apply runs_shader; [flag|]. intros c1 L1. ones. apply runs_draw1. intros u. ones.
  destruct (Rgt_dec u (rr_prob beta)).
  { ones. apply runs_ret_to; [restore|]. cbn [rays_cast lights surfaces List.length]. repeat split; try (cbn; lia). intros _.
    f_equal. rewrite estimate_ray, estimate_stop; reflexivity. }
  ones. apply runs_shader; [flag|]. intros c2 L2. ones.
  destruct (Req_EM_T (c_pdf c2) 0).
  { ones. apply runs_ret_to; [restore|]. repeat split; try (cbn; lia). intros K.
    destruct (K _ _ _ L2) as [K1 K2]. f_equal. rewrite K1, K2, estimate_ray, estimate_stop; reflexivity. }
  ones. rewrite atten_eq.
  eapply runs_conv; [apply IH with (f := f); exact Idle0|restore|auto| |].
  - intros h a (A&B&C). unfold surfaces in *. cbn [rays_cast lights List.length]. repeat split; try lia.
    intros K. rewrite (C K). destruct (K _ _ _ L2) as [K1 K2]. rewrite vadd_assoc. f_equal.
    rewrite estimate_cons. f_equal. rewrite K1, K2, vadd_comm. reflexivity.
  - intros h (A&B). unfold surfaces in *. cbn [rays_cast lights List.length]. lia.
Qed.
End PathLoop.

Section WhittedLoop.
Context {W : Type}.
Variable now : W -> R * W.
Variable hit : W -> ray -> option isect * W.
Variable rnd1 : W -> R * W.
Variable rnd2 : W -> vec2 * W.
Variable env : ray -> vec3.
Variable sh_evaluate : isect -> ray -> closure -> query closure.
Variable sh_mat : isect -> vec3 -> vec3 -> vec3.
Variable sh_sample : isect -> closure -> query closure.
Variable n : nat.

Ltac clocks f I :=
  apply idle_f_all in I;
  let I1 := fresh in let I2 := fresh in let I3 := fresh in let I4 := fresh in let I5 := fresh in
  let I6 := fresh in let I7 := fresh in let I8 := fresh in let I9 := fresh in
  destruct I as (I1&I2&I3&I4&I5&I6&I7&I8&I9).
Ltac ones := repeat first [progress cbv zeta | apply runs_note_seq | one; [|exact Logic.I]].

Lemma beta_eq c : vscale (c_albedo c) (1 / rr_cont) = vdiv (c_albedo c) (95 / 100).
Proof. unfold rr_cont, Rdiv. apply vec3_eq; simpl; unfold Rdiv; ring. Qed.

Lemma runs_whitted m r f : idle_f f ->
  runs (whitted_Li W now hit rnd1 rnd2 env sh_evaluate sh_mat sh_sample n m r) f f
    (fun h a => whitted_value env h a /\ exists b h', h = HRay r b :: h') (fun _ => True).
Proof.
  revert r f. induction m as [|m IH]; intros r f Idle; cbn [whitted_Li].
  { intros s S0. exists []. simpl. rewrite app_nil_r. auto. }
  pose proof Idle as Idle0. clocks f Idle. ones.
  apply runs_ray; [flag|exact Logic.I|]. intros [i|].
  2:{ ones. apply runs_ret_to; [restore|]. split; [constructor|eauto]. }
  ones. apply runs_shader; [flag|]. intros c1 L1. ones.
  destruct (c_spec (accumulate_shadow_rays (sh_mat i) c1)) eqn:Sp.
  2:{ ones. apply runs_ret_to; [restore|]. split; [|eauto].
      replace (vadd (vadd (c_emission _) (c_nee _)) (c_emission _)) with
        (vadd (c_nee (accumulate_shadow_rays (sh_mat i) c1)) (vadd (c_emission (accumulate_shadow_rays (sh_mat i) c1)) (c_emission (accumulate_shadow_rays (sh_mat i) c1)))).
      - constructor. exact Sp.
      - apply vec3_eq; simpl; ring. }
  ones. apply runs_shader; [flag|]. intros c2 L2. ones. apply runs_draw1. intros u. ones.
  destruct (Rgt_dec u rr_cont) as [G|G]; unfold rr_cont in G.
  { ones. apply runs_ret_to; [restore|]. split; [|eauto]. apply wv_killed; auto. }
  ones. rewrite beta_eq. destruct (isZero_dec (vdiv (c_albedo c2) (95 / 100))) as [Z|NZ].
  { ones. apply runs_ret_to; [restore|]. split; [|eauto]. rewrite vadd_comm. apply wv_dark; auto. lra. }
  eapply runs_bind with (T1 := fun _ => True).
  - eapply runs_conv with (f := f) (g := f); [apply IH; exact Idle0|restore|auto|intros ? ? HH; exact HH|auto].
  - intros v h (V&b&h'&E). apply runs_ret_to; [auto|]. cbn [app]. rewrite app_nil_r. split; [|eauto].
    replace (vadd (vadd _ _) (c_emission c2)) with (vadd (vmul (vdiv (c_albedo c2) (95 / 100)) v) (vadd (c_emission c2) (c_nee c2))) by (apply vec3_eq; simpl; ring).
    apply wv_bounce; auto; [lra|]. exists b, h'. rewrite E. reflexivity.
  - auto.
Qed.
End WhittedLoop.

Section Render.
Context {W : Type}.
Variable now : W -> R * W.
Variable rnd2 : W -> vec2 * W.
Variable Li : ray -> M W vec3.
Variable camera : nat -> vec2 -> vec2 -> ray.
Definition safe_Li : Prop := forall r f, idle_f f -> runs (Li r) f f (fun _ _ => True) (fun _ => True).
Definition idle_rf (f : ctype -> bool) : Prop := forall c, In c render_clocks -> f c = false.

Ltac ones := repeat first [progress cbv zeta | one; [|exact Logic.I]].

Lemma runs_samples film f : safe_Li -> idle_rf f ->
  runs (render_samples W now rnd2 Li camera film) f f (fun _ xs => List.length xs = List.length film) (fun _ => True).
Proof.
  intros S0 I. assert (I1 := I CAMERA_RAY). assert (I2 := I INTEGRATOR). assert (I3 := I FILTER).
  specialize (I1 ltac:(simpl; tauto)). specialize (I2 ltac:(simpl; tauto)). specialize (I3 ltac:(simpl; tauto)).
  induction film as [|p l IH]; cbn [render_samples]; [apply runs_ret; reflexivity|].
  ones. apply runs_draw2. intros u. apply runs_draw2. intros v. ones.
  eapply runs_bind with (E1 := fun _ _ => True) (T1 := fun _ => True).
  - apply S0. intros c Hc. assert (Hr : f c = false) by (apply I; simpl in *; tauto).
    simpl in Hc. intuition (subst c; cbn; assumption).
  - intros x h1 _. ones. eapply runs_bind with (T1 := fun _ => True).
    + eapply runs_conv with (f := f) (g := f); [apply IH|restore|auto|intros ? ? HH; exact HH|auto].
    + intros xs h2 E. apply runs_ret_to; [auto|]. simpl. rewrite E. reflexivity.
    + auto.
  - auto.
Qed.

Lemma runs_render film f : safe_Li -> idle_rf f ->
  runs (render W now rnd2 Li camera film) f f (fun _ xs => List.length xs = List.length film) (fun _ => True).
Proof.
  intros S0 I. unfold render. eapply runs_bind with (T1 := fun _ => True); [apply runs_samples; assumption| |auto].
  intros xs h E. assert (I3 := I FILTER ltac:(simpl; tauto)). ones. apply runs_ret_to; [restore|]. exact E.
Qed.
End Render.

(** ** the null-boundary loop is the only place where the model's fuel can run out *)
Section NoFuel.
Context {W : Type}.
Variable now : W -> R * W.
Variable hit : W -> ray -> option isect * W.
Variable rnd1 : W -> R * W.
Variable rnd2 : W -> vec2 * W.
Variable env : ray -> vec3.
Variable sh_evaluate : isect -> ray -> closure -> query closure.
Variable sh_mat : isect -> vec3 -> vec3 -> vec3.
Variable sh_sample : isect -> closure -> query closure.
Variable n : nat.
Definition nf {A} (m : M W A) : Prop := forall s, fst (m s) <> OutOfFuel.
Lemma nf_ret {A} (a : A) : nf (ret W a). Proof. intros s. discriminate. Qed.
Lemma nf_bind {A B} (m : M W A) (k : A -> M W B) : nf m -> (forall a, nf (k a)) -> nf (bindM W m k).
Proof.
  intros H K s. unfold bindM. specialize (H s). destruct (m s) as [[a|e| |] s']; simpl in *; try discriminate; [apply K|congruence].
Qed.
Lemma nf_start c : nf (clk_start W now c).
Proof. intros s. unfold clk_start. destruct (now (s_w W s)). unfold start_clock. destruct (actives _ _); discriminate. Qed.
Lemma nf_stop c : nf (clk_stop W now c).
Proof. intros s. unfold clk_stop. destruct (now (s_w W s)). unfold end_clock. destruct (actives _ _); discriminate. Qed.
Lemma nf_note e : nf (note W e). Proof. intros s. discriminate. Qed.
Lemma nf_next1 : nf (next1 W rnd1). Proof. intros s. unfold next1. destruct (rnd1 _). discriminate. Qed.
Lemma nf_next2 : nf (next2 W rnd2). Proof. intros s. unfold next2. destruct (rnd2 _). discriminate. Qed.
Lemma nf_accel r : nf (accel_intersect W now hit r).
Proof.
  unfold accel_intersect. apply nf_bind; [apply nf_start|intros _]. apply nf_bind.
  - intros s. destruct (hit _ _). discriminate.
  - intros a. apply nf_bind; [apply nf_stop|intros _; apply nf_ret].
Qed.
Lemma nf_query {A} (q : query A) : nf (run_query W now hit rnd1 rnd2 q).
Proof.
  induction q; cbn [run_query]; [apply nf_ret|..]; (apply nf_bind; [first [apply nf_accel|apply nf_next1|apply nf_next2]|auto]).
Qed.
(** what the log may contain, whatever happens *)
Variable Q : event -> Prop.
Definition lg {A} (m : M W A) (P : A -> Prop) : Prop := forall s,
  exists h, s_log W (snd (m s)) = s_log W s ++ h /\ Forall Q h /\ (forall a, fst (m s) = Ok a -> P a).
Lemma lg_ret {A} (a : A) (P : A -> Prop) : P a -> lg (ret W a) P.
Proof. intros H s. exists []. rewrite app_nil_r. repeat split; auto. intros b E. injection E as <-. exact H. Qed.
Lemma lg_bind {A B} (m : M W A) (k : A -> M W B) P P' : lg m P -> (forall a, P a -> lg (k a) P') -> lg (bindM W m k) P'.
Proof.
  intros H K s. unfold bindM. destruct (H s) as (h&L&F&V). destruct (m s) as [[a|e| |] s'] eqn:E; simpl in *;
    try (exists h; repeat split; auto; intros; discriminate).
  destruct (K a (V a eq_refl) s') as (h'&L'&F'&V'). exists (h ++ h'). rewrite L', L, app_assoc. repeat split; auto. apply Forall_app; auto.
Qed.
Lemma lg_start c : lg (clk_start W now c) (fun _ => True).
Proof. intros s. exists []. rewrite app_nil_r. unfold clk_start. destruct (now (s_w W s)). unfold start_clock. destruct (actives _ _); auto. Qed.
Lemma lg_stop c : lg (clk_stop W now c) (fun _ => True).
Proof. intros s. exists []. rewrite app_nil_r. unfold clk_stop. destruct (now (s_w W s)). unfold end_clock. destruct (actives _ _); auto. Qed.
Lemma lg_note e : Q e -> lg (note W e) (fun _ => True). Proof. intros H s. exists [e]. auto. Qed.
Lemma lg_next1 : lg (next1 W rnd1) (fun _ => True).
Proof. intros s. exists []. rewrite app_nil_r. unfold next1. destruct (rnd1 _). auto. Qed.
Lemma lg_next2 : lg (next2 W rnd2) (fun _ => True).
Proof. intros s. exists []. rewrite app_nil_r. unfold next2. destruct (rnd2 _). auto. Qed.
Lemma lg_accel r : lg (accel_intersect W now hit r) (fun _ => True).
Proof.
  unfold accel_intersect. eapply lg_bind; [apply lg_start|intros _ _]. apply lg_bind with (fun _ => True).
  - intros s. exists []. rewrite app_nil_r. destruct (hit _ _). auto.
  - intros a _. eapply lg_bind; [apply lg_stop|intros _ _; apply lg_ret; exact I].
Qed.
Lemma lg_query {A} (q : query A) : lg (run_query W now hit rnd1 rnd2 q) (leaf q).
Proof.
  induction q; cbn [run_query].
  - apply lg_ret. constructor.
  - eapply lg_bind; [apply lg_accel|]. intros x _ s. destruct (H x s) as (h&L&F&V). exists h. repeat split; auto. intros a E. econstructor. eauto.
  - eapply lg_bind; [apply lg_next1|]. intros x _ s. destruct (H x s) as (h&L&F&V). exists h. repeat split; auto. intros a E. econstructor. eauto.
  - eapply lg_bind; [apply lg_next2|]. intros x _ s. destruct (H x s) as (h&L&F&V). exists h. repeat split; auto. intros a E. econstructor. eauto.
Qed.
Lemma lg_nn r : (forall r a, Q (HRay r a)) -> lg (intersect_non_null W now hit n r) (fun _ => True).
Proof.
  intros QR. unfold intersect_non_null. apply lg_bind with (fun _ => True).
  - revert r. induction n as [|m IH]; intros r; cbn [nn_loop].
    + intros s. exists []. rewrite app_nil_r. repeat split; auto.
    + eapply lg_bind; [apply lg_accel|]. intros [i|] _; [destruct (i_null i)|]; auto using lg_ret.
  - intros a _. eapply lg_bind; [apply lg_note; auto|intros _ _; apply lg_ret; exact I].
Qed.
Definition physical_event (e : event) : Prop :=
  match e with
  | HShade _ c => nonneg (c_emission c) /\ nonneg (c_nee c)
  | HSample _ c => nonneg (c_albedo c) /\ 0 <= c_pdf c
  | _ => True
  end.
Lemma shadow_sum_nonneg mat wi l nee : (forall a b, nonneg (mat a b)) -> nonneg nee -> Forall (fun e => nonneg (e_throughput e)) l ->
  nonneg (shadow_sum mat wi l nee).
Proof.
  intros HM. revert nee. induction l as [|e l IH]; intros nee N F; cbn [shadow_sum]; [exact N|]. inversion F; subst. apply IH; [|assumption].
  destruct (e_valid e); [|exact N]. specialize (HM wi (normalized (e_dir e))).
  destruct N as (?&?&?), HM as (?&?&?), H1 as (?&?&?). repeat split; simpl; apply Rplus_le_le_0_compat; auto; apply Rmult_le_pos; auto.
Qed.
Lemma no_neg_accumulate mat c : (forall a b, nonneg (mat a b)) -> no_negative_light c -> no_negative_light (accumulate_shadow_rays mat c).
Proof. intros HM (E&N&S0). repeat split; simpl; try apply E; auto; apply shadow_sum_nonneg; auto. Qed.

Lemma path_physical m Li beta r cl : physical_shaders sh_evaluate sh_mat sh_sample -> (forall e, physical_event e -> Q e) -> no_negative_light cl ->
  lg (path_loop W now hit rnd1 rnd2 env sh_evaluate sh_mat sh_sample n m Li beta r cl) (fun _ => True).
Proof.
  intros (PE&PM&PS) HQ. revert Li beta r cl. induction m as [|m IH]; intros Li beta r cl G; cbn [path_loop]; [apply lg_ret; exact I|].
  destruct (isZero_dec beta); [apply lg_ret; exact I|].
  eapply lg_bind; [apply lg_start|intros _ _]. eapply lg_bind; [apply lg_nn; intros; apply HQ; exact I|]. intros [its|] _.
  2:{ eapply lg_bind; [apply lg_stop|intros _ _; apply lg_ret; exact I]. }
  do 3 (eapply lg_bind; [first [apply lg_stop|apply lg_start]|intros _ _]). cbv zeta.
  eapply lg_bind; [apply lg_start|intros _ _].
  eapply lg_bind; [apply lg_query|]. intros c1 L1.
  assert (N0 : nonneg (V3c 0)) by (repeat split; simpl; lra).
  assert (G1 : no_negative_light c1). { eapply PE; [|exact L1]. destruct G as (_&_&S0). repeat split; simpl; try apply N0; exact S0. }
  assert (G2 := no_neg_accumulate (sh_mat its) c1 (PM its) G1).
  do 2 (eapply lg_bind; [first [apply lg_stop|apply lg_start]|intros _ _]).
  eapply lg_bind; [apply lg_note, HQ; simpl; split; apply G2|intros _ _].
  do 4 (eapply lg_bind; [first [apply lg_stop|apply lg_start]|intros _ _]).
  eapply lg_bind; [apply lg_next1|intros u _]. eapply lg_bind; [apply lg_note, HQ; exact I|intros _ _].
  destruct (Rgt_dec u (rr_prob beta)); [eapply lg_bind; [apply lg_stop|intros _ _; apply lg_ret; exact I]|].
  do 4 (eapply lg_bind; [first [apply lg_stop|apply lg_start]|intros _ _]).
  eapply lg_bind; [apply lg_query|]. intros c2 L2.
  destruct (fun g => PS its _ c2 g L2) as (G3&A3&P3). { exact G2. }
  eapply lg_bind; [apply lg_note, HQ; simpl; auto|intros _ _].
  destruct (Req_EM_T (c_pdf c2) 0).
  - do 3 (eapply lg_bind; [first [apply lg_stop|apply lg_start]|intros _ _]). apply lg_ret; exact I.
  - do 4 (eapply lg_bind; [first [apply lg_stop|apply lg_start]|intros _ _]). eapply lg_bind; [apply lg_stop|intros _ _]. apply IH. exact G3.
Qed.

Hypothesis n0 : n <> O.
Hypothesis solid : forall w r i, fst (hit w r) = Some i -> i_null i = false.
Lemma nf_nn r : nf (intersect_non_null W now hit n r).
Proof.
  unfold intersect_non_null. apply nf_bind; [|intros a; apply nf_bind; [apply nf_note|intros _; apply nf_ret]].
  destruct n as [|m]; [congruence|]. cbn [nn_loop]. intros s. unfold accel_intersect, bindM, clk_start, clk_stop, ret, start_clock, end_clock.
  destruct (now (s_w W s)) as [t w]. destruct (actives (s_clk W s) EMBREE); [discriminate|]. cbn [s_w].
  pose proof (solid w r) as S0. destruct (hit w r) as [a w']. simpl in S0. cbn [s_w s_clk].
  destruct (now w') as [t' w'']. cbn [actives]. destruct (upd _ _ _ _); [|discriminate].
  destruct a as [i|]; [|discriminate]. rewrite (S0 i eq_refl). discriminate.
Qed.
Lemma path_no_fuel m Li beta r cl : nf (path_loop W now hit rnd1 rnd2 env sh_evaluate sh_mat sh_sample n m Li beta r cl).
Proof.
  revert Li beta r cl. induction m as [|m IH]; intros; cbn [path_loop]; [apply nf_ret|].
  repeat first
    [ apply IH | apply nf_ret | apply nf_nn | apply nf_start | apply nf_stop | apply nf_note | apply nf_next1 | apply nf_query
    | apply nf_bind; [|intros ?] | progress cbv zeta
    | match goal with |- nf (match ?x with _ => _ end) => destruct x end ].
Qed.
End NoFuel.
