From Coq Require Import Reals List Bool ZArith Lra Lia String.
From Coquelicot Require Import Rbar.
From Flocq Require Import Core.
From Verif.Base Require Import Outcome ListLemmas.
From Verif.Model Require Import Vec Frame BBox Warp Integrators Bsdf Scene.
From Verif.Spec Require Import IntegratorSpec PathSpec SceneSpec.
From Verif.Proof Require Import IntegratorProof HistoryProof.
Import ListNotations.
Open Scope R_scope.

Lemma play_bind {A B} hit (q : query A) (f : A -> query B) us vs :
  play hit (qbind q f) us vs = match play hit q us vs with Some (a, us', vs') => play hit (f a) us' vs' | None => None end.
Proof.
  revert us vs. induction q; intros us vs; cbn [qbind play]; auto.
  - destruct us; auto.
  - destruct vs; auto.
Qed.
Lemma play_obind {A B} hit (q : query (outcome A)) (f : A -> query (outcome B)) us vs a us' vs' :
  play hit q us vs = Some (Ok a, us', vs') -> play hit (obind q f) us vs = play hit (f a) us' vs'.
Proof. intros E. unfold obind. rewrite play_bind, E. reflexivity. Qed.
Lemma leaf_bind {A B} (q : query A) (f : A -> query B) b : leaf (qbind q f) b -> exists a, leaf q a /\ leaf (f a) b.
Proof.
  induction q; cbn [qbind]; intros L.
  - exists a. split; [constructor|exact L].
  - inversion L; subst. match goal with X : leaf (qbind (_ ?y) _) _ |- _ => destruct (H y X) as (a&L1&L2) end. exists a. split; [econstructor; exact L1|exact L2].
  - inversion L; subst. match goal with X : leaf (qbind (_ ?y) _) _ |- _ => destruct (H y X) as (a&L1&L2) end. exists a. split; [econstructor; exact L1|exact L2].
  - inversion L; subst. match goal with X : leaf (qbind (_ ?y) _) _ |- _ => destruct (H y X) as (a&L1&L2) end. exists a. split; [econstructor; exact L1|exact L2].
Qed.
Lemma leaf_bind_intro {A B} (q : query A) (f : A -> query B) a b : leaf q a -> leaf (f a) b -> leaf (qbind q f) b.
Proof. intros L. induction L; cbn [qbind]; intros; auto; econstructor; eauto. Qed.
Lemma leaf_ret_inv {A} (a b : A) : leaf (QRet a) b -> b = a.
Proof. intros L. inversion L. reflexivity. Qed.
Lemma leaf_obind {A B} (q : query (outcome A)) (f : A -> query (outcome B)) b : leaf (obind q f) (Ok b) ->
  exists a, leaf q (Ok a) /\ leaf (f a) (Ok b).
Proof.
  intros L. destruct (leaf_bind _ _ _ L) as (o&L1&L2). destruct o as [a|m| |]; try (apply leaf_ret_inv in L2; discriminate). eauto.
Qed.

Lemma find_hd {A} (f : A -> bool) l : find f l = hd_error (filter f l).
Proof. induction l; [reflexivity|]. simpl. destruct (f a); auto. Qed.
Lemma hit_hd lines r : scene_hit lines r = hd_error (on_ray lines r).
Proof. apply find_hd. Qed.
Lemma leb_iff a b : Rbar_leb a b = true <-> Rbar_le a b.
Proof. unfold Rbar_leb. destruct (Rbar_le_dec a b); split; intros; congruence || contradiction || auto. Qed.

Lemma on_ray_next lines r i l : ordered (1 / 1000) (lines (org r) (dir r)) -> on_ray lines r = i :: l ->
  on_ray lines (Ray (org r) (dir r) (Finite (i_t i + Epsilon)) (rfar r)) = l /\ in_range r i.
Proof.
  unfold on_ray. cbn [org dir rnear rfar]. generalize (lines (org r) (dir r)). intros L. induction L as [|x L IH]; intros O E; [discriminate|].
  pose proof (ordered_after (1 / 1000) x L ltac:(lra) O) as Aft. pose proof (ordered_tail _ _ _ O) as O'.
  cbn [filter] in E. destruct (Rbar_leb (rnear r) (i_t x) && Rbar_leb (i_t x) (rfar r))%bool eqn:X.
  - injection E as -> <-. apply andb_true_iff in X as [X1 X2]. split; [|split; apply leb_iff; assumption].
    cbn [filter]. destruct (Rbar_leb (Finite (i_t i + Epsilon)) (i_t i)) eqn:Y.
    { apply leb_iff in Y. simpl in Y. unfold Epsilon in Y. lra. }
    cbn [andb]. apply filter_ext_in. intros j J. f_equal. apply Aft in J.
    assert (H1 : Rbar_leb (Finite (i_t i + Epsilon)) (i_t j) = true) by (apply leb_iff; simpl; unfold Epsilon; lra).
    assert (H2 : Rbar_leb (rnear r) (i_t j) = true).
    { apply leb_iff. apply leb_iff in X1. apply (Rbar_le_trans _ _ _ X1). simpl. lra. }
    rewrite H1, H2. reflexivity.
  - destruct (IH O' E) as [E1 E2]. split; [|exact E2]. cbn [filter].
    assert (I1 : In i L).
    { assert (In i (filter (fun i : isect => (Rbar_leb (rnear r) (i_t i) && Rbar_leb (i_t i) (rfar r))%bool) L)) by (rewrite E; now left).
      apply filter_In in H. apply H. }
    assert (Z : (Rbar_leb (Finite (i_t i + Epsilon)) (i_t x) && Rbar_leb (i_t x) (rfar r))%bool = false).
    { apply andb_false_iff. left. destruct (Rbar_leb (Finite (i_t i + Epsilon)) (i_t x)) eqn:Y; [|reflexivity]. apply leb_iff in Y. apply Aft in I1. simpl in Y. unfold Epsilon in Y. lra. }
    rewrite Z. exact E1.
Qed.

Lemma vmul_assoc a b c : vmul a (vmul b c) = vmul (vmul a b) c.
Proof. apply vec3_eq; simpl; ring. Qed.
Lemma vmul_1_r a : vmul a (V3c 1) = a.
Proof. apply vec3_eq; simpl; ring. Qed.

Section Transmittance.
Context {M : Type}.
Variable inside : nat -> option (option M).
Variable T : M -> Rbar -> Rbar -> vec3.
Variable lines : vec3 -> vec3 -> list isect.
Let transmittance (m : M) (r : ray) : query vec3 := QRet (T m (rnear r) (rfar r)).
Definition medium_of (i : isect) : option M := match inside (i_mesh i) with Some o => o | None => None end.
Definition solid_in (l : list isect) : bool := existsb (fun i => negb (i_null i)) l.
Definition bounded (l : list isect) : Prop := forall i, In i l -> i_null i = true -> inside (i_mesh i) <> None.

Lemma play_attenuate hit segs beta us vs :
  play hit (attenuate M transmittance segs beta) us vs = Some (Ok (fold_left (fun b s => vmul b (T (fst s) (rnear (snd s)) (rfar (snd s)))) segs beta), us, vs).
Proof.
  revert beta. induction segs as [|[m r] l IH]; intros beta; [reflexivity|]. cbn [attenuate]. unfold transmittance at 1. cbn [qbind]. apply IH.
Qed.
(** the segments recorded on the rest of the ray *)
Fixpoint segs_of (o d : vec3) (l : list isect) : list (M * ray) :=
  match l with
  | i :: ((j :: _) as l') =>
      match medium_of i with
      | Some m => (m, Ray o d (Finite (i_t i + Epsilon)) (Finite (i_t j))) :: segs_of o d l'
      | None => segs_of o d l'
      end
  | _ => []
  end.
Lemma segs_between o d l beta :
  fold_left (fun b s => vmul b (T (fst s) (rnear (snd s)) (rfar (snd s)))) (segs_of o d l) beta = vmul beta (between medium_of T l).
Proof.
  revert beta. induction l as [|i [|j l] IH]; intros beta; cbn [segs_of between fold_left]; try (symmetry; apply vmul_1_r).
  destruct (medium_of i); [|apply IH]. cbn [fold_left]. rewrite IH. cbn [fst snd rnear rfar]. unfold Epsilon. rewrite <- vmul_assoc. reflexivity.
Qed.

Lemma play_loop l : forall n full near segs us vs,
  ordered (1 / 1000) (lines (org full) (dir full)) -> on_ray lines (Ray (org full) (dir full) near (rfar full)) = l ->
  bounded l -> (List.length l < n)%nat ->
  play (scene_hit lines) (tr_loop M inside n full near segs) us vs =
    Some (Ok (if solid_in l then None else Some (segs ++ segs_of (org full) (dir full) l)), us, vs).
Proof.
  induction l as [|i l IH]; intros n full near segs us vs O E B N; (destruct n as [|n]; [inversion N|]); cbn [tr_loop play]; rewrite hit_hd, E; cbn [hd_error].
  - simpl. rewrite app_nil_r. reflexivity.
  - destruct (on_ray_next lines (Ray (org full) (dir full) near (rfar full)) i l O E) as [E1 R1]. cbn [org dir rfar] in E1.
    cbn [solid_in existsb]. destruct (i_null i) eqn:Nu; cbn [negb orb]; [|reflexivity].
    change (existsb (fun i0 => negb (i_null i0)) l) with (solid_in l).
    assert (B1 : bounded l) by (intros j J; apply B; now right). simpl in N.
    destruct (inside (i_mesh i)) as [[m|]|] eqn:In1; [| |exfalso; apply (B i (or_introl eq_refl) Nu In1)].
    + cbn [play]. rewrite hit_hd, E1. destruct l as [|j l'].
      * cbn [hd_error]. rewrite IH by (auto; lia). cbn [segs_of solid_in existsb]. rewrite !app_nil_r. reflexivity.
      * cbn [hd_error]. destruct (i_null j) eqn:Nj.
        2:{ cbn [solid_in existsb]. rewrite Nj. reflexivity. }
        assert (Sg : segs_of (org full) (dir full) (i :: j :: l') = (m, Ray (org full) (dir full) (Finite (i_t i + Epsilon)) (Finite (i_t j))) :: segs_of (org full) (dir full) (j :: l')).
        { cbn [segs_of]. unfold medium_of at 1. rewrite In1. reflexivity. }
        rewrite Sg. unfold Rbar_geb. destruct (Rbar_le_dec (rfar full) (i_t j)) as [G|G].
        -- (* j is the last surface *)
           assert (Last : l' = []).
           { destruct l' as [|k l']; [reflexivity|exfalso].
             destruct (on_ray_next lines (Ray (org full) (dir full) (Finite (i_t i + Epsilon)) (rfar full)) j (k :: l') O E1) as [E2 _].
             assert (K : in_range (Ray (org full) (dir full) (Finite (i_t j + Epsilon)) (rfar full)) k).
             { destruct (on_ray_next lines (Ray (org full) (dir full) (Finite (i_t j + Epsilon)) (rfar full)) k l' O E2) as [_ K]. exact K. }
             destruct K as [K1 K2]. cbn [rnear rfar] in *. pose proof (Rbar_le_trans _ _ _ K2 G) as K3. simpl in K1, K3. unfold Epsilon in K1. lra. }
           subst l'. cbn [play segs_of solid_in existsb]. rewrite Nj. reflexivity.
        -- rewrite IH by (auto; lia). rewrite <- app_assoc. reflexivity.
    + rewrite IH by (auto; lia). destruct l as [|j l']; [reflexivity|]. cbn [segs_of]. unfold medium_of at 2. rewrite In1. reflexivity.
Qed.
Lemma play_transmittance fuel r initial beta us vs : let l := on_ray lines r in
  ordered (1 / 1000) (lines (org r) (dir r)) -> bounded l -> (List.length l < fuel)%nat ->
  play (scene_hit lines) (intersect_transmittance M inside transmittance fuel r initial beta) us vs =
    Some (Ok (if solid_in l then (true, beta)
      else (false, match initial, l with
                   | None, _ => vmul beta (between medium_of T l)
                   | Some m, [] => vmul beta (T m (rnear r) (rfar r))
                   | Some m, i :: l' => vmul (vmul beta (T m (rnear r) (Finite (i_t i)))) (between medium_of T l')
                   end)), us, vs).
Proof.
  cbv zeta. intros O B N. unfold intersect_transmittance. destruct initial as [m|].
  - cbn [play]. rewrite hit_hd. destruct (on_ray lines r) as [|i l] eqn:E; cbn [hd_error].
    + erewrite play_obind. 2:{ apply (play_loop []); [exact O|destruct r; exact E|intros j []|exact N]. }
      cbn [solid_in existsb segs_of finish]. erewrite play_obind. 2:{ apply play_attenuate. } reflexivity.
    + destruct (on_ray_next lines r i l O E) as [E1 _]. destruct (i_null i) eqn:Nu.
      2:{ cbn [solid_in existsb]. rewrite Nu. reflexivity. }
      erewrite play_obind. 2:{ apply (play_loop l); [exact O|exact E1|intros j J; apply B; now right|simpl in N; lia]. }
      cbn [solid_in existsb]. rewrite Nu. cbn [negb orb]. change (existsb (fun i0 => negb (i_null i0)) l) with (solid_in l).
      destruct (solid_in l); [reflexivity|]. cbn [finish]. erewrite play_obind. 2:{ apply play_attenuate. }
      cbn [app fold_left]. rewrite segs_between. reflexivity.
  - erewrite play_obind. 2:{ apply (play_loop (on_ray lines r)); [exact O|destruct r; reflexivity|exact B|exact N]. }
    destruct (solid_in (on_ray lines r)); [reflexivity|]. cbn [finish]. erewrite play_obind. 2:{ apply play_attenuate. }
    cbn [app]. rewrite segs_between. reflexivity.
Qed.
End Transmittance.

(** ** shading *)
Section Shading.
Variable mesh_point : nat -> vec2 -> outcome (vec3 * vec3 * R).
Context {M : Type}.
Variable inside : nat -> option (option M).
Variable transmittance : M -> ray -> query vec3.
Variable fuel : nat.
Variable emitters : list emitter.
Variable inst : nat -> nat.
Variable ignore : bool.
Variable object_emitter : nat -> option emitter.
Notation lights md its c := (if c_all c then eval_all mesh_point M inside transmittance fuel ignore its md false emitters
  else eval_one mesh_point M inside transmittance fuel emitters inst ignore its md false).

Lemma emission_leaf its r c c' : accumulate_emission inst object_emitter its r c = Ok c' ->
  match object_emitter (inst (i_mesh its)) with
  | None => c_emission c' = V3c 0
  | Some e => em_evaluate e (toLocal (i_s its) (dir r)) = Ok (c_emission c')
  end /\ c' = set_emission c (c_emission c').
Proof.
  unfold accumulate_emission. destruct (object_emitter _) as [e|]; [|intros E; injection E as <-; split; reflexivity].
  destruct (em_evaluate e _) as [v|m| |]; cbn [bind]; intros E; try discriminate. injection E as <-. split; reflexivity.
Qed.

Definition shaded (md : option M) (delta : bool) (its : isect) (r : ray) (c c' : closure) : Prop :=
  (c_last_spec c = false -> c_emission c' = c_emission c) /\
  (c_last_spec c = true -> match object_emitter (inst (i_mesh its)) with
     | None => c_emission c' = V3c 0 | Some e => em_evaluate e (toLocal (i_s its) (dir r)) = Ok (c_emission c') end) /\
  c_spec c' = delta /\ c_nee c' = c_nee c /\ c_wi c' = c_wi c /\ c_all c' = c_all c /\
  (delta = true \/ c_accepts c = false -> c_shadow c' = c_shadow c) /\
  (delta = false -> c_accepts c = true -> leaf (lights md its c) (Ok (c_shadow c'))).
Lemma shade_in_leaf md delta its r c c' :
  leaf (shade_in mesh_point M inside transmittance fuel emitters inst ignore object_emitter md delta its r c) (Ok c') ->
  shaded md delta its r c c' /\ c_last_spec c' = (if delta then true else c_last_spec c) /\ c_accepts c' = c_accepts c.
Proof.
  unfold shade_in. intros L. apply leaf_obind in L as (c1&L1&L2). apply leaf_ret_inv in L1.
  set (c0 := set_spec c delta (c_last_spec c) (c_accepts c)) in *.
  assert (H : (c_last_spec c = false -> c1 = c0) /\ (c_last_spec c = true -> match object_emitter (inst (i_mesh its)) with
     | None => c_emission c1 = V3c 0 | Some e => em_evaluate e (toLocal (i_s its) (dir r)) = Ok (c_emission c1) end /\ c1 = set_emission c0 (c_emission c1))).
  { change (c_last_spec c0) with (c_last_spec c) in L1. destruct (c_last_spec c); split; intros X; try discriminate.
    - symmetry in L1. apply emission_leaf in L1. exact L1.
    - congruence. }
  assert (F : c_last_spec c1 = c_last_spec c /\ c_accepts c1 = c_accepts c /\ c_all c1 = c_all c /\ c_shadow c1 = c_shadow c /\ c_nee c1 = c_nee c /\ c_wi c1 = c_wi c /\ c_spec c1 = delta).
  { destruct H as [H1 H2]. destruct (c_last_spec c) eqn:E; [destruct (H2 eq_refl) as [_ ->]|rewrite (H1 eq_refl)]; cbn; rewrite ?E; repeat split; reflexivity. }
  destruct F as (F1&F2&F3&F4&F5&F6&F7).
  assert (Em : (c_last_spec c = false -> c_emission c1 = c_emission c)) by (intros X; rewrite (proj1 H X); reflexivity).
  assert (Em2 : c_last_spec c = true -> match object_emitter (inst (i_mesh its)) with
     | None => c_emission c1 = V3c 0 | Some e => em_evaluate e (toLocal (i_s its) (dir r)) = Ok (c_emission c1) end) by (intros X; apply H, X).
  unfold shaded. destruct delta.
  - apply leaf_ret_inv in L2. injection L2 as ->. cbn [set_spec c_emission c_spec c_nee c_wi c_all c_shadow c_last_spec c_accepts].
    repeat split; auto; try discriminate.
  - rewrite F2 in L2. destruct (c_accepts c) eqn:A.
    + apply leaf_obind in L2 as (l&L3&L4). apply leaf_ret_inv in L4. injection L4 as ->. rewrite F3 in L3.
      cbn [set_shadow c_emission c_spec c_nee c_wi c_all c_shadow c_last_spec c_accepts].
      repeat split; auto. intros [X|X]; discriminate.
    + apply leaf_ret_inv in L2. injection L2 as ->. repeat split; auto. intros _ X; discriminate.
Qed.
Lemma simple_in_leaf md delta its r c c' :
  leaf (simple_evaluate_in mesh_point M inside transmittance fuel emitters inst ignore object_emitter md delta its r c) (Ok c') ->
  shaded md delta its r c c' /\ c_last_spec c' = delta /\ c_accepts c' = (if delta then c_accepts c else true).
Proof.
  unfold simple_evaluate_in. intros L. apply leaf_obind in L as (c1&L1&L2). apply leaf_ret_inv in L2. injection L2 as ->.
  destruct (shade_in_leaf _ _ _ _ _ _ L1) as (S1&S2&S3). destruct delta; [auto|]. split; [|split; reflexivity].
  destruct S1 as (A1&A2&A3&A4&A5&A6&A7&A8). unfold shaded. cbn [set_spec c_emission c_spec c_nee c_wi c_all c_shadow]. repeat split; auto.
Qed.
Lemma simple_leaf delta its r c c' :
  leaf (simple_evaluate mesh_point M inside transmittance fuel emitters inst ignore object_emitter delta its r c) (Ok c') ->
  shaded None delta its r c c' /\ c_last_spec c' = delta /\ c_accepts c' = (if delta then c_accepts c else true).
Proof. apply simple_in_leaf. Qed.
Lemma wireframe_leaf th wd md its r c c' :
  leaf (wireframe_evaluate mesh_point M inside transmittance fuel emitters inst ignore object_emitter th wd md its r c) (Ok c') ->
  let delta := if on_wire (i_bary its) th then wd else md in
  shaded None delta its r c c' /\ c_last_spec c' = (if delta then true else c_last_spec c) /\ c_accepts c' = c_accepts c.
Proof. apply shade_in_leaf. Qed.
End Shading.

(** materials leave the bookkeeping of the closure alone *)
Lemma bsdf_sample_keeps b c c' : leaf (bsdf_sample b c) c' ->
  c_last_spec c' = c_last_spec c /\ c_shadow c' = c_shadow c /\ c_all c' = c_all c /\
  c_accepts c' = (match b with NullBsdf => false | _ => c_accepts c end).
Proof.
  intros L. destruct b; cbn [bsdf_sample] in L;
    repeat match type of L with
    | leaf (if ?x then _ else _) _ => destruct x
    | leaf (QRet _) _ => apply leaf_ret_inv in L; subst c'
    | leaf (QRand1 ?k) _ => inversion L as [| |? u ? L' E1 E2|]; subst; clear L; rename L' into L; cbv zeta in L
    | leaf (QRand2 ?k) _ => inversion L as [| | |? u ? L' E1 E2]; subst; clear L; rename L' into L; cbv zeta in L
    end; repeat split; reflexivity.
Qed.

Scheme path_history_mind := Induction for path_history Sort Prop
  with path_scatter_mind := Induction for path_scatter Sort Prop.

Section Once.
Variable mesh_point : nat -> vec2 -> outcome (vec3 * vec3 * R).
Context {M : Type}.
Variable inside : nat -> option (option M).
Variable transmittance : M -> ray -> query vec3.
Variable fuel : nat.
Variable emitters : list emitter.
Variable inst : nat -> nat.
Variable ignore : bool.
Variable object_emitter : nat -> option emitter.
Variable material : isect -> bsdf.
Variable ev : isect -> ray -> closure -> query closure.
Variable mat : isect -> vec3 -> vec3 -> vec3.
Hypothesis ev_simple : forall i r c c', leaf (ev i r c) c' ->
  leaf (simple_evaluate mesh_point M inside transmittance fuel emitters inst ignore object_emitter (isDelta (material i)) i r c) (Ok c').
Let sample i c := bsdf_sample (material i) c.
Lemma once_holds prev r h : path_history ev mat sample prev r h -> c_shadow prev = [] -> light_once (c_last_spec prev) h.
Proof.
  intros P. refine (path_history_mind ev mat sample
    (fun prev r h _ => c_shadow prev = [] -> light_once (c_last_spec prev) h)
    (fun r i c h _ => c_shadow c = [] -> c_last_spec c = c_spec c -> light_once (c_spec c) h) _ _ _ _ _ _ prev r h P); clear P prev r h.
  - intros. exact I.
  - intros. exact I.
  - intros prev r i c0 c1 u l W E N A S L Al Ac Lf Sc IH Sh. cbn [light_once].
    destruct (simple_leaf _ _ _ _ _ _ _ _ _ _ _ _ _ (ev_simple _ _ _ _ Lf)) as ((A1&A2&A3&A4&A5&A6&A7&A8)&B1&B2).
    cbn [accumulate_shadow_rays c_emission c_spec c_nee]. split; [|split].
    + intros D. rewrite A1; [exact E|congruence].
    + intros D. rewrite A3 in D. rewrite A7 by now left. rewrite S, Sh. cbn [shadow_sum]. rewrite A4. exact N.
    + apply IH; cbn [accumulate_shadow_rays c_shadow c_last_spec c_spec]; [reflexivity|congruence].
  - intros. exact I.
  - intros. exact I.
  - intros r i c c' h Lf Pd P IH Sh Sp. cbn [light_once]. destruct (bsdf_sample_keeps _ _ _ Lf) as (K1&K2&_).
    cbn [set_wi c_last_spec c_shadow] in *. rewrite <- Sp, <- K1. apply IH. congruence.
Qed.
End Once.

(** ** lights *)
Lemma play_obind_inv {A B} hit (q : query (outcome A)) (f : A -> query (outcome B)) us vs b us' vs' :
  play hit (obind q f) us vs = Some (Ok b, us', vs') ->
  exists a us1 vs1, play hit q us vs = Some (Ok a, us1, vs1) /\ play hit (f a) us1 vs1 = Some (Ok b, us', vs').
Proof.
  unfold obind. rewrite play_bind. destruct (play hit q us vs) as [[[[a|m| |] us1] vs1]|]; cbn [play]; intros E; try discriminate.
  exists a, us1, vs1. auto.
Qed.
Lemma sqrNorm_norm v : sqrNorm v = norm v * norm v.
Proof. unfold sqrNorm, norm. rewrite sqrt_sqrt; [reflexivity|nra]. Qed.

Section Eval.
Variable mesh_point : nat -> vec2 -> outcome (vec3 * vec3 * R).
Context {M : Type}.
Variable inside : nat -> option (option M).
Variable transmittance : M -> ray -> query vec3.
Variable fuel : nat.
Variable emitters : list emitter.
Variable inst : nat -> nat.
Variable ignore : bool.
Notation EV := (eval_emitter mesh_point M inside transmittance fuel ignore).
Definition rescale (k : R) (o : option (vec3 * vec3)) : option (vec3 * vec3) :=
  match o with Some (w, t) => Some (w, vscale t k) | None => None end.
Lemma eval_emitter_scale hit its media nrm im p e us vs o us' vs' : p <> 0 ->
  play hit (EV its media nrm im 1 e) us vs = Some (Ok o, us', vs') ->
  play hit (EV its media nrm im p e) us vs = Some (Ok (rescale (1 / p) o), us', vs').
Proof.
  intros P. unfold eval_emitter. cbn [play]. destruct vs as [|v vs]; [discriminate|]. intros E.
  apply play_obind_inv in E as (s&us1&vs1&E1&E). erewrite play_obind by exact E1.
  apply play_obind_inv in E as ([[r c] pdf]&us2&vs2&E2&E). erewrite play_obind by exact E2.
  apply play_obind_inv in E as ([bl tr]&us3&vs3&E3&E). erewrite play_obind by exact E3.
  cbv beta iota in *. destruct (negb bl || ignore)%bool.
  - cbn [play] in *. injection E as <- <- <-. cbn [rescale]. repeat f_equal.
    destruct (Req_EM_T pdf 0); [apply vec3_eq; simpl; ring|].
    destruct im; apply vec3_eq; simpl; field; auto.
  - cbn [play] in *. injection E as <- <- <-. reflexivity.
Qed.
Lemma naive_cell k u : (k < List.length emitters)%nat -> INR k <= u * INR (List.length emitters) < INR k + 1 ->
  naive_choice emitters u = (Z.of_nat k, 1 / INR (List.length emitters)).
Proof.
  intros K [L H]. unfold naive_choice. f_equal. rewrite Ztrunc_floor by (pose proof (pos_INR k); lra).
  apply Zfloor_imp. rewrite plus_IZR, <- INR_IZR_INZ. split; lra.
Qed.
Lemma choose_cell hit its k e u us vs : nth_error emitters k = Some e -> INR k <= u * INR (List.length emitters) < INR k + 1 ->
  (match em_mesh e with Some m => inst m <> inst (i_mesh its) | None => True end) ->
  play hit (choose_emitter emitters inst its) (u :: us) vs = Some (Ok (Some (e, 1 / INR (List.length emitters))), us, vs).
Proof.
  intros N U S. assert (K : (k < List.length emitters)%nat) by (apply nth_error_Some; congruence).
  assert (Q : choose_emitter emitters inst its = QRand1 (fun u =>
      let '(k, pdf) := naive_choice emitters u in
      if (k <? 0)%Z then QRet UB else
      match nth_error emitters (Z.to_nat k) with
      | None => QRet UB
      | Some e =>
          match em_mesh e with
          | Some m => if (inst m =? inst (i_mesh its))%nat then QRet (Ok None) else QRet (Ok (Some (e, pdf)))
          | None => QRet (Ok (Some (e, pdf)))
          end
      end)) by (unfold choose_emitter; destruct emitters; [destruct k; discriminate|reflexivity]).
  rewrite Q. cbn [play]. rewrite (naive_cell k u K U). cbv beta iota. replace (Z.of_nat k <? 0)%Z with false by (symmetry; apply Z.ltb_ge; lia).
  rewrite Nat2Z.id, N. destruct (em_mesh e) as [m|]; [|reflexivity]. destruct (Nat.eqb_spec (inst m) (inst (i_mesh its))); [contradiction|reflexivity].
Qed.
Lemma eval_one_cell hit its media im k e u us vs o us' vs' :
  nth_error emitters k = Some e -> INR k <= u * INR (List.length emitters) < INR k + 1 ->
  (match em_mesh e with Some m => inst m <> inst (i_mesh its) | None => True end) ->
  play hit (EV its media (fn (i_s its)) im 1 e) us vs = Some (Ok o, us', vs') ->
  play hit (eval_one mesh_point M inside transmittance fuel emitters inst ignore its media im) (u :: us) vs =
    Some (Ok [eval_of its (rescale (INR (List.length emitters)) o)], us', vs').
Proof.
  intros N U S E. assert (K : (k < List.length emitters)%nat) by (apply nth_error_Some; congruence).
  assert (P : 1 / INR (List.length emitters) <> 0).
  { assert (0 < INR (List.length emitters)) by (apply lt_0_INR; lia). intros X. apply Rmult_integral in X. destruct X; [lra|]. pose proof (Rinv_0_lt_compat _ H). lra. }
  unfold eval_one. erewrite play_obind by exact (choose_cell hit its k e u us vs N U S). cbv beta iota. erewrite play_obind by (apply eval_emitter_scale; [exact P|exact E]).
  cbn [play]. replace (1 / (1 / INR (List.length emitters))) with (INR (List.length emitters)); [reflexivity|].
  field. assert (0 < INR (List.length emitters)) by (apply lt_0_INR; lia). lra.
Qed.
End Eval.

Lemma play_leaf {A} hit (q : query A) : forall us vs a us' vs', play hit q us vs = Some (a, us', vs') -> leaf q a.
Proof.
  induction q; intros us vs b us' vs' E; cbn [play] in E.
  - injection E as <- _ _. constructor.
  - econstructor. eapply H. exact E.
  - destruct us as [|u us]; [discriminate|]. econstructor. eapply H. exact E.
  - destruct vs as [|u vs]; [discriminate|]. econstructor. eapply H. exact E.
Qed.
Lemma leaf_rand1_inv {A} (k : R -> query A) a : leaf (QRand1 k) a -> exists u, leaf (k u) a.
Proof. intros L. inversion L; subst; eauto. Qed.
Lemma leaf_rand2_inv {A} (k : vec2 -> query A) a : leaf (QRand2 k) a -> exists u, leaf (k u) a.
Proof. intros L. inversion L; subst; eauto. Qed.
Lemma leaf_hit_inv {A} r (k : option isect -> query A) a : leaf (QHit r k) a -> exists u, leaf (k u) a.
Proof. intros L. inversion L; subst; eauto. Qed.

(** ** contributions are never negative, up to the cosine *)
Definition emits_nonneg (e : emitter) : Prop :=
  match e with
  | EPoint c _ | EDirectional _ c | ESpot _ _ c _ | EMesh _ c | EDirMesh _ _ c => nonneg c
  | _ => True
  end.
Lemma nonneg_0 : nonneg (V3c 0).
Proof. repeat split; simpl; lra. Qed.
Lemma nonneg_scale v k : nonneg v -> 0 <= k -> nonneg (vscale v k).
Proof. intros (A&B&C) K. repeat split; simpl; apply Rmult_le_pos; assumption. Qed.
Lemma nonneg_div v k : nonneg v -> 0 <= k -> nonneg (vdiv v k).
Proof.
  intros N [K|<-].
  - destruct N as (A&B&C). repeat split; simpl; apply Rmult_le_pos; try assumption; left; apply Rinv_0_lt_compat; assumption.
  - destruct N as (A&B&C). repeat split; simpl; unfold Rdiv; rewrite Rinv_0, Rmult_0_r; lra.
Qed.
Lemma nonneg_mul v w : nonneg v -> nonneg w -> nonneg (vmul v w).
Proof. intros (A&B&C) (D&E&F). repeat split; simpl; apply Rmult_le_pos; assumption. Qed.
Lemma sqrNorm_ge v : 0 <= sqrNorm v.
Proof. unfold sqrNorm. nra. Qed.
Section NonNeg.
Variable mesh_point : nat -> vec2 -> outcome (vec3 * vec3 * R).
Hypothesis density : forall m u p n d, mesh_point m u = Ok (p, n, d) -> 0 <= d.
Context {M : Type}.
Variable inside : nat -> option (option M).
Variable transmittance : M -> ray -> query vec3.
Hypothesis tr_nonneg : forall m r t, leaf (transmittance m r) t -> nonneg t.
Variable fuel : nat.
Variable ignore : bool.
Lemma sample_nonneg e p u s : emits_nonneg e -> sample_nee mesh_point e p u = Ok s -> nonneg (es_color s) /\ 0 <= es_pdf s.
Proof.
  pose proof PI_RGT_0 as P. intros N E. destruct e as [power pos|ld rad|lp ld rad la|m int|m ld int|t int|t b]; cbn [sample_nee] in E.
  - injection E as <-. cbn [es_color es_pdf]. split; [|lra]. apply nonneg_scale; [apply nonneg_div; [exact N|apply sqrNorm_ge]|]. left. apply Rdiv_lt_0_compat; lra.
  - injection E as <-. split; [exact N|cbn; lra].
  - injection E as <-. cbn [es_color es_pdf]. split; [|lra]. destruct (Rgt_dec _ _); [exact N|apply nonneg_0].
  - destruct (mesh_point m u) as [[[q n] d]|msg| |] eqn:D; cbn [bind] in E; try discriminate. apply density in D.
    destruct (Rle_dec _ _); injection E as <-; cbn [es_color es_pdf]; split; [apply nonneg_0|lra|exact N|].
    set (a := sqrNorm _). assert (0 <= a) by apply sqrNorm_ge. unfold Rdiv. apply Rmult_le_pos; [nra|].
    left. apply Rinv_0_lt_compat. unfold Epsilon in *. rewrite Rabs_right; lra.
  - injection E as <-. split; [exact N|cbn; lra].
  - discriminate.
  - discriminate.
Qed.
Lemma query_nonneg its e s r c pdf : nonneg (es_color s) -> leaf (shadow_query fuel its e s) (Ok (r, c, pdf)) -> nonneg c /\ pdf = es_pdf s /\ dir r = es_wi s.
Proof.
  intros N L. unfold shadow_query in L.
  assert (F : forall d c', leaf (match d with None => QRet UB | Some d2 => QRet (Ok (Ray (i_p its) (es_wi s) (Finite Epsilon) (Finite (sqrt d2 - Epsilon)), c', es_pdf s)) end) (Ok (r, c, pdf)) ->
     c = c' /\ pdf = es_pdf s /\ dir r = es_wi s).
  { intros d c' X. destruct d; apply leaf_ret_inv in X; [|discriminate]. injection X as -> -> ->. auto. }
  destruct (needs_visibility e).
  - apply leaf_obind in L as (a&_&L). destruct a as [t|].
    + destruct (match em_mesh e with Some m => (m =? i_mesh t)%nat | None => false end).
      * apply (F (Some _)) in L as (->&L). split; [|exact L]. apply nonneg_div; [exact N|apply sqrNorm_ge].
      * apply F in L as (->&L). split; [apply nonneg_0|exact L].
    + apply F in L as (->&L). split; [apply nonneg_0|exact L].
  - apply F in L as (->&L). split; [exact N|exact L].
Qed.
Lemma attenuate_nonneg segs : forall beta b, nonneg beta -> leaf (attenuate M transmittance segs beta) (Ok b) -> nonneg b.
Proof.
  induction segs as [|[m r] l IH]; intros beta b N L; cbn [attenuate] in L.
  - apply leaf_ret_inv in L. injection L as ->. exact N.
  - apply leaf_bind in L as (t&L1&L2). apply (IH _ _ (nonneg_mul _ _ N (tr_nonneg _ _ _ L1)) L2).
Qed.
Lemma finish_nonneg o beta x : nonneg beta -> leaf (finish M transmittance o beta) (Ok x) -> nonneg (snd x).
Proof.
  intros N L. destruct o as [l|]; cbn [finish] in L.
  - apply leaf_obind in L as (b&L1&L2). apply leaf_ret_inv in L2. injection L2 as ->. exact (attenuate_nonneg _ _ _ N L1).
  - apply leaf_ret_inv in L. injection L as ->. exact N.
Qed.
Lemma tr_nonneg' r i beta x : nonneg beta -> leaf (intersect_transmittance M inside transmittance fuel r i beta) (Ok x) -> nonneg (snd x).
Proof.
  intros N L. unfold intersect_transmittance in L. destruct i as [m|].
  - apply leaf_hit_inv in L as (a&L). destruct a as [i|].
    + destruct (i_null i).
      * apply leaf_obind in L as (o&_&L). exact (finish_nonneg _ _ _ N L).
      * apply leaf_ret_inv in L. injection L as ->. exact N.
    + apply leaf_obind in L as (o&_&L). exact (finish_nonneg _ _ _ N L).
  - apply leaf_obind in L as (o&_&L). exact (finish_nonneg _ _ _ N L).
Qed.
Lemma eval_emitter_nonneg its media nrm im p e w t : emits_nonneg e -> 0 < p ->
  leaf (eval_emitter mesh_point M inside transmittance fuel ignore its media nrm im p e) (Ok (Some (w, t))) ->
  im = true \/ dot nrm w < - (1 / 1000) \/ 0 <= dot nrm w -> nonneg t.
Proof.
  intros N P L C. unfold eval_emitter in L. apply leaf_rand2_inv in L as (u&L). apply leaf_obind in L as (s&L1&L). apply leaf_ret_inv in L1.
  apply leaf_obind in L as ([[r c] pdf]&L2&L). apply leaf_obind in L as ([bl tr]&L3&L). cbv beta iota in L.
  symmetry in L1. destruct (sample_nonneg _ _ _ _ N L1) as [N1 N2]. destruct (query_nonneg _ _ _ _ _ _ N1 L2) as (N3&->&D).
  apply tr_nonneg' in L3; [|repeat split; simpl; lra]. cbn [snd] in L3.
  destruct (negb bl || ignore)%bool; apply leaf_ret_inv in L; [|discriminate]. injection L as -> ->.
  destruct (Req_EM_T (es_pdf s) 0); [apply nonneg_0|]. apply nonneg_mul; [|exact L3]. apply nonneg_div; [|apply Rmult_le_pos; lra].
  destruct im; [exact N3|]. apply nonneg_scale; [exact N3|]. unfold nee_cos. destruct (Rlt_dec _ _); unfold Epsilon in *; destruct C as [C|[C|C]]; (discriminate || lra).
Qed.
End NonNeg.

(** ** lights without a distance *)
Definition distant (e : emitter) : Prop := match e with EDirectional _ _ | ESpot _ _ _ _ => True | _ => False end.
Section Distant.
Variable mesh_point : nat -> vec2 -> outcome (vec3 * vec3 * R).
Context {M : Type}.
Variable inside : nat -> option (option M).
Variable transmittance : M -> ray -> query vec3.
Variable fuel : nat.
Variable ignore : bool.
Lemma distant_ub its media nrm im p e x : distant e ->
  leaf (eval_emitter mesh_point M inside transmittance fuel ignore its media nrm im p e) x -> x = UB.
Proof.
  intros D L. unfold eval_emitter in L. apply leaf_rand2_inv in L as (u&L).
  destruct e; try contradiction; unfold obind at 1 in L; cbn [qbind sample_nee] in L; unfold obind at 1 in L; unfold shadow_query in L; cbn [needs_visibility es_sqr_dist qbind] in L;
    apply leaf_ret_inv in L; exact L.
Qed.
Lemma eval_all_distant its media im l r : (exists e, In e l /\ distant e) ->
  ~ leaf (eval_all mesh_point M inside transmittance fuel ignore its media im l) (Ok r).
Proof.
  revert r. induction l as [|e l IH]; intros r (x&I&D) L; [destruct I|]. cbn [eval_all] in L. apply leaf_obind in L as (o&L1&L2). destruct I as [<-|I].
  - apply distant_ub in L1; [discriminate|exact D].
  - apply leaf_obind in L2 as (rest&L2&_). apply (IH rest); [exists x; auto|exact L2].
Qed.
End Distant.

(** ** several samples *)
Section Multi.
Variable mesh_point : nat -> vec2 -> outcome (vec3 * vec3 * R).
Context {M : Type}.
Variable inside : nat -> option (option M).
Variable transmittance : M -> ray -> query vec3.
Variable fuel : nat.
Variable emitters : list emitter.
Variable inst : nat -> nat.
Variable ignore : bool.
Lemma nth_error_nth_eval acc i : nth_eval acc i = match nth_error acc i with Some e => e | None => no_eval end.
Proof. unfold nth_eval. revert i. induction acc; destruct i; cbn; auto. Qed.
Lemma multi_invalid k : forall i its media im acc l, (forall j e, (1 <= j)%nat -> nth_error acc j = Some e -> e_valid e = false) ->
  leaf (eval_multi_loop mesh_point M inside transmittance fuel emitters inst ignore k i its media im acc) (Ok l) ->
  List.length l = List.length acc /\ forall j e, (1 <= j)%nat -> nth_error l j = Some e -> e_valid e = false.
Proof.
  induction k as [|k IH]; intros i its media im acc l V L; cbn [eval_multi_loop] in L.
  - apply leaf_ret_inv in L. injection L as ->. auto.
  - assert (Th : forall a t, (forall j e, (1 <= j)%nat -> nth_error a j = Some e -> e_valid e = false) ->
       forall j e, (1 <= j)%nat -> nth_error (update a i (set_throughput (nth_eval a i) t)) j = Some e -> e_valid e = false).
    { intros a t Va j e J E. rewrite nth_error_update in E. destruct (Nat.eqb_spec i j) as [->|]; [|apply (Va j e J E)].
      destruct (Nat.ltb_spec j (List.length a)) as [Lt|]; [|discriminate]. injection E as <-. cbn [set_throughput e_valid]. rewrite nth_error_nth_eval.
      destruct (nth_error a j) as [x|] eqn:X; [apply (Va j x J X)|reflexivity]. }
    apply leaf_obind in L as (c&_&L). destruct c as [[e pdf]|].
    + apply leaf_obind in L as (o&_&L). destruct o as [[w t]|].
      * apply IH in L; [rewrite !length_update in L; exact L|]. apply Th. intros j x J E. rewrite nth_error_update_neq in E by lia. exact (V j x J E).
      * exact (IH _ _ _ _ _ _ V L).
    + apply IH in L; [rewrite length_update in L; exact L|]. apply Th, V.
Qed.
Lemma eval_multi_invalid k its media im l :
  leaf (eval_multi mesh_point M inside transmittance fuel emitters inst ignore k its media im) (Ok l) ->
  List.length l = k /\ forall j e, (1 <= j)%nat -> nth_error l j = Some e -> e_valid e = false.
Proof.
  intros L. apply multi_invalid in L.
  - rewrite repeat_length in L. exact L.
  - intros j e _ E. apply nth_error_In, repeat_spec in E. subst. reflexivity.
Qed.
End Multi.
