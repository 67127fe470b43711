(** The documented scene-file format. *)
From Coq Require Import Reals ZArith Lra Lia String List Bool Permutation.
From Verif.Base Require Import Outcome.
From Verif.Model Require Import Vec Matrix ApiTransform Api Json.
From Verif.Spec Require Import ApiSpec JsonSpec FormatSpec.
From Verif.Proof Require Import JsonProof JsonLoad.
From Verif.Props Require Import Api Json JsonComplete.
Import ListNotations.
Local Open Scope string_scope.
Open Scope R_scope.

Lemma opt_inv {A} m k (get : json -> outcome A) def x : opt m k get def = Ok x ->
  match find_member m k with Some j => get j = Ok x | None => x = def end.
Proof. unfold opt. destruct (find_member m k); congruence. Qed.
Lemma str_back j s : get_str j = Ok s -> shows j (VStr s).
Proof. destruct j; cbn; congruence. Qed.
Lemma int_back j z : get_int j = Ok z -> shows j (VInt z).
Proof.
  destruct j as [| |y| | | |]; try discriminate. unfold get_int.
  destruct (Z.leb_spec (- 2 ^ 31) y) as [A|A], (Z.ltb_spec y (2 ^ 31)) as [B|B]; cbn [andb]; try discriminate. intros [= <-]. split; [reflexivity|]. lia.
Qed.
Lemma num_back j x : get_float j = Ok x -> is_num j x.
Proof. destruct j; cbn; try discriminate; intros [= <-]; [right; eauto|now left]. Qed.
Lemma elem_back j i a : elem j i = Ok a -> exists l, j = JArr l /\ nth_error l i = Some a.
Proof. destruct j; cbn; try discriminate. unfold at_. destruct (nth_error l i) eqn:E; [|discriminate]. intros [= <-]. eauto. Qed.
Ltac back H := repeat match type of H with
  | bind ?x _ = Ok _ => let a := fresh "a" in let E := fresh "E" in destruct x as [a| | |] eqn:E; [cbn [bind] in H|discriminate H..]
  end.
Ltac elems := repeat match goal with E : elem _ _ = Ok _ |- _ => apply elem_back in E; let l := fresh "l" in let J := fresh "J" in let N := fresh "N" in destruct E as (l & J & N) end;
  repeat match goal with E : get_float _ = Ok _ |- _ => apply num_back in E end.
Lemma vec_back j v : get_vec j = Ok v -> shows j (vec v).
Proof.
  unfold get_vec. intros H. back H. injection H as <-. elems. subst j.
  repeat match goal with J : JArr _ = JArr _ |- _ => injection J as <- end.
  match goal with N : nth_error ?l 0 = _ |- _ => destruct l as [|b0 [|b1 [|b2 rest]]] end; cbn in *; try discriminate.
  repeat match goal with N : Some _ = Some _ |- _ => injection N as <- end.
  exists [b0; b1; b2], rest. split; [reflexivity|]. repeat (apply Forall2_cons; [assumption|]). apply Forall2_nil.
Qed.
Lemma look_back j v t u : get_lookat j = Ok (v, t, u) -> shows j (VNums [vx v; vy v; vz v; vx t; vy t; vz t; vx u; vy u; vz u]).
Proof.
  unfold get_lookat. intros H. back H. injection H as <- <- <-. elems. subst j.
  repeat match goal with J : JArr _ = JArr _ |- _ => injection J as <- end.
  match goal with N : nth_error ?l 0 = _ |- _ => destruct l as [|b0 [|b1 [|b2 [|b3 [|b4 [|b5 [|b6 [|b7 [|b8 rest]]]]]]]]] end; cbn in *; try discriminate.
  repeat match goal with N : Some _ = Some _ |- _ => injection N as <- end.
  exists [b0; b1; b2; b3; b4; b5; b6; b7; b8], rest. split; [reflexivity|]. repeat (apply Forall2_cons; [assumption|]). apply Forall2_nil.
Qed.

(** how a field was obtained: from the first member of its name, or it has its default *)
Definition got (m : list (string * json)) (k : string) (def v : value) : Prop :=
  (exists j, first_member m k j /\ shows j v) \/ (no_member m k /\ v = def).
Lemma got_opt {A} m k (get : json -> outcome A) (def x : A) (val : A -> value) : (forall j y, get j = Ok y -> shows j (val y)) ->
  opt m k get def = Ok x -> got m k (val def) (val x).
Proof.
  intros B H. apply opt_inv in H. destruct (find_member m k) as [j|] eqn:E.
  - left. exists j. split; [now apply find_first|now apply B].
  - right. split; [now apply find_none|congruence].
Qed.
Lemma opt_str m k def x : opt m k get_str def = Ok x -> got m k (VStr def) (VStr x). Proof. apply (got_opt m k get_str def x VStr str_back). Qed.
Lemma opt_int m k def x : opt m k get_int def = Ok x -> got m k (VInt def) (VInt x). Proof. apply (got_opt m k get_int def x VInt int_back). Qed.
Lemma opt_num m k def x : opt m k get_float def = Ok x -> got m k (VNum def) (VNum x). Proof. apply (got_opt m k get_float def x VNum num_back). Qed.
Lemma opt_vec m k def x : opt m k get_vec def = Ok x -> got m k (vec def) (vec x). Proof. apply (got_opt m k get_vec def x vec vec_back). Qed.
Lemma opt_look m k def v t u : opt m k get_lookat def = Ok (v, t, u) ->
  (exists j, first_member m k j /\ shows j (VNums [vx v; vy v; vz v; vx t; vy t; vz t; vx u; vy u; vz u])) \/ no_member m k.
Proof.
  intros H. apply opt_inv in H. destruct (find_member m k) as [j|] eqn:E.
  - left. exists j. split; [now apply find_first|now apply look_back].
  - right. now apply find_none.
Qed.
Definition chosen (m : list (string * json)) (k def x : string) : Prop := match find_member m k with Some j => get_str j = Ok x | None => x = def end.
Lemma object_back m : forall n me ma em acc l, parse_object_loop m n me ma em acc = Ok l -> NoDup (map fst m) -> (forall it, In it acc -> exists c, it = ITransform c) ->
  forall it, In it l -> (exists c, it = ITransform c) \/
    exists n' me' ma' em', it = IObject n' me' ma' em' /\ chosen m "name" n n' /\ chosen m "mesh" me me' /\ chosen m "material_shader" ma ma' /\ chosen m "emitter" em em'.
Proof.
  induction m as [|[k j] m IH]; intros n me ma em acc l; cbn [parse_object_loop].
  - intros [= <-] _ A it [<- |H]; [eauto|]. apply in_app_or in H as [H|[<- |[<- |[]]]]; eauto. right. exists n, me, ma, em. split; [reflexivity|]. repeat split; reflexivity.
  - cbn [map fst]. intros H ND A. inversion ND as [|? ? NI ND']; subst.
    assert (FN : forall k', k' = k -> find_member m k' = None) by (intros k' ->; now apply find_none).
    intros it I. unfold chosen. cbn [find_member].
    destruct (String.eqb_spec k "name") as [-> |N1].
    { back H. destruct (IH _ _ _ _ _ _ H ND' A it I) as [Q|(n' & me' & ma' & em' & Q & Q1 & Q2 & Q3 & Q4)]; [now left|right]. exists n', me', ma', em'. split; [exact Q|].
      cbn [String.eqb Ascii.eqb Bool.eqb]. unfold chosen in Q1. rewrite FN in Q1 by reflexivity. subst n'. auto. }
    destruct (String.eqb_spec k "mesh") as [-> |N2].
    { back H. destruct (IH _ _ _ _ _ _ H ND' A it I) as [Q|(n' & me' & ma' & em' & Q & Q1 & Q2 & Q3 & Q4)]; [now left|right]. exists n', me', ma', em'. split; [exact Q|].
      cbn [String.eqb Ascii.eqb Bool.eqb]. unfold chosen in Q2. rewrite FN in Q2 by reflexivity. subst me'. auto. }
    destruct (String.eqb_spec k "material_shader") as [-> |N3].
    { back H. destruct (IH _ _ _ _ _ _ H ND' A it I) as [Q|(n' & me' & ma' & em' & Q & Q1 & Q2 & Q3 & Q4)]; [now left|right]. exists n', me', ma', em'. split; [exact Q|].
      cbn [String.eqb Ascii.eqb Bool.eqb]. unfold chosen in Q3. rewrite FN in Q3 by reflexivity. subst ma'. auto. }
    destruct (parse_transform k j) as [o|] eqn:PT.
    { assert (N4 : k <> "emitter") by (intros ->; discriminate PT). apply String.eqb_neq in N4. rewrite N4.
      back H. destruct (IH _ _ _ _ _ _ H ND') with (it := it) as [Q|(n' & me' & ma' & em' & Q)]; [|exact I|now left|right; exists n', me', ma', em'; exact Q].
      intros x J. apply in_app_or in J as [J|[<- |[]]]; eauto. }
    destruct (String.eqb_spec k "emitter") as [-> |N4].
    { back H. destruct (IH _ _ _ _ _ _ H ND' A it I) as [Q|(n' & me' & ma' & em' & Q & Q1 & Q2 & Q3 & Q4)]; [now left|right]. exists n', me', ma', em'. split; [exact Q|].
      unfold chosen in Q4. rewrite FN in Q4 by reflexivity. subst em'. auto. }
    exact (IH _ _ _ _ _ _ H ND' A it I).
Qed.
Lemma transforms_back m : forall l, emitter_transforms m = Ok l -> forall it, In it l -> exists c, it = ITransform c.
Proof.
  induction m as [|[k j] m IH]; intros l; cbn [emitter_transforms]; [intros [= <-] it []|].
  destruct (parse_transform k j); [|apply IH]. intros H. back H. injection H as <-. intros it [<- |I]; [eauto|]. exact (IH _ eq_refl it I).
Qed.

(** ** C187: the documented format *)
Definition documented_value (b : string) (m : list (string * json)) (k : string) (v : value) : Prop :=
  (exists j, first_member m k j /\ shows j v) \/ (no_member m k /\ forall v', documented_default b k v' -> v = v').
Lemma got_doc b m k def v : got m k def v -> (forall v', documented_default b k v' -> def = v') -> documented_value b m k v.
Proof. intros [H|[N ->]] D; [now left|right; auto]. Qed.
Ltac dd := let v := fresh in let H := fresh in intros v H; unfold documented_default in H; cbn in H; repeat (destruct H as [H|H]; [first [discriminate H|injection H as <-; reflexivity]|]); contradiction.
Ltac fin := match goal with
  | E : opt ?m ?k get_str _ = Ok ?x |- documented_value _ ?m ?k (VStr ?x) => apply opt_str in E; refine (got_doc _ _ _ _ _ E _); dd
  | E : opt ?m ?k get_int _ = Ok ?x |- documented_value _ ?m ?k (VInt ?x) => apply opt_int in E; refine (got_doc _ _ _ _ _ E _); dd
  | E : opt ?m ?k get_float _ = Ok ?x |- documented_value _ ?m ?k (VNum ?x) => apply opt_num in E; refine (got_doc _ _ _ _ _ E _); dd
  | E : opt ?m ?k get_vec _ = Ok ?x |- documented_value _ ?m ?k (vec ?x) => apply opt_vec in E; refine (got_doc _ _ _ _ _ E _); dd
  end.
Ltac each K := repeat (destruct K as [K|K]; [injection K as <- <-|]); [..|contradiction].
Lemma block_back b m l : parse_block b (JObj m) = Ok l -> NoDup (map fst m) -> forall it k v, In it l -> In (k, v) (meaning it) ->
  ~ misread b k -> ~ refused_member b k -> documented_value b m k v.
Proof.
  intros H ND it k v I K M R. unfold parse_block in H. cbn [members bind] in H.
  repeat match type of H with (if String.eqb b ?n then _ else _) = _ => destruct (String.eqb_spec b n) as [-> |_] end; [..|discriminate H].
  - unfold parse_scene in H. back H. injection H as <-. destruct I as [<- |[]]. cbn [meaning] in K. each K; fin.
  - unfold parse_media in H. back H. injection H as <-. destruct I as [<- |[]]. contradiction.
  - unfold parse_density in H. back H. destruct (String.eqb _ _); [|discriminate]. back H. injection H as <-. destruct I as [<- |[]]. contradiction.
  - unfold parse_accel in H. back H. destruct (String.eqb _ _); [injection H as <-; destruct I as [<- |[]]; contradiction|].
    destruct (String.eqb _ _); [|injection H as <-; contradiction]. back H. injection H as <-; destruct I as [<- |[]]; contradiction.
  - unfold parse_integrator in H. back H. destruct (String.eqb_spec a "photon") as [-> |].
    + back H. injection H as <-. destruct I as [<- |[]]. cbn [meaning] in K. each K; fin.
    + injection H as <-. destruct I as [<- |[]]. cbn [meaning] in K. each K; fin.
  - unfold parse_sampler in H. back H. destruct (String.eqb_spec a0 "independent") as [-> |]; [|discriminate]. back H. injection H as <-. destruct I as [<- |[]]. cbn [meaning] in K.
    each K; try fin. exfalso. apply M. cbn. tauto.
  - unfold parse_camera in H. back H. destruct (String.eqb_spec a0 "perspective") as [-> |]; [|discriminate].
    destruct (has m "origin"); [discriminate|]. destruct (has m "target"); [discriminate|]. destruct (has m "up"); [discriminate|]. back H.
    match goal with E : opt m "lookat" _ _ = Ok ?x |- _ => rename E into LK; destruct x as [[o t] u] end. injection H as <-. destruct I as [<- |[]]. cbn [meaning] in K.
    each K; try fin; try (exfalso; apply R; cbn; tauto). apply opt_look in LK as [LK|LK]; [now left|right]. split; [exact LK|]. dd.
  - unfold parse_object in H. destruct (object_back _ _ _ _ _ _ _ H ND) with (it := it) as [(c & ->)|(n' & me & ma & em & -> & Q1 & Q2 & Q3 & Q4)]; [intros ? []|exact I|contradiction|].
    assert (C : forall k0 d x, chosen m k0 d x -> opt m k0 get_str d = Ok x) by (intros k0 d x; unfold chosen, opt; destruct (find_member m k0); congruence).
    apply C in Q1, Q2, Q3. cbn [meaning] in K. each K; try fin. exfalso. apply M. cbn. tauto.
  - unfold parse_mesh in H. back H. injection H as <-. destruct I as [<- |[]]. destruct a4; try contradiction. cbn [meaning] in K. rename E4 into P.
    destruct (String.eqb_spec a0 "triangle_mesh") as [-> |].
    { back P. injection P as -> -> -> -> -> ->. each K; fin. }
    exfalso. repeat match type of P with (if ?c then _ else _) = _ => destruct c; [back P; discriminate P|] end. discriminate.
  - unfold parse_emitter in H. back H. injection H as <-. destruct I as [<- |I]; [contradiction|].
    apply in_app_or in I as [I|[<- |[<- |[]]]]; [destruct (transforms_back _ _ E1 _ I) as (c & ->); contradiction| |contradiction]. rename E2 into P.
    destruct (String.eqb_spec a0 "point") as [-> |].
    { back P. injection P as <-. cbn [meaning] in K. each K; try fin. exfalso. apply M. cbn. tauto. }
    destruct (String.eqb_spec a0 "mesh") as [-> |].
    { back P. injection P as <-. cbn [meaning] in K. each K; try fin. }
    exfalso. repeat match type of P with (if ?c then _ else _) = _ => destruct c; [back P; injection P as <-; contradiction|] end. discriminate.
  - unfold parse_bsdf in H. back H. injection H as <-. destruct I as [<- |[]]. rename E1 into P.
    destruct (String.eqb_spec a0 "diffuse") as [-> |].
    { back P. injection P as <-. cbn [meaning] in K. each K; try fin. }
    exfalso. repeat match type of P with (if ?c then _ else _) = _ => destruct c; [back P; injection P as <-; contradiction|] end. discriminate.
  - unfold parse_shader in H. back H. injection H as <-. destruct I as [<- |[]]. destruct a1; contradiction.
  - unfold parse_texture in H. back H. destruct (String.eqb _ _); [|discriminate]. back H. injection H as <-. destruct I as [<- |[]]. contradiction.
Qed.
(** outside nine members the documentation is right: a created thing has the value written for it, or the documented default *)
Theorem C187_members : forall b m l it k v, parse_block b (JObj m) = Ok l -> NoDup (map fst m) -> In it l -> In (k, v) (meaning it) ->
  ~ misread b k -> ~ refused_member b k ->
  (forall j, first_member m k j -> shows j v) /\ (no_member m k -> forall v', documented_default b k v' -> v = v').
Proof.
  intros b m l it k v H ND I K M R. destruct (block_back b m l H ND it k v I K M R) as [(j & F & S)|[N D]].
  - split.
    + intros j' F'. apply find_first in F, F'. congruence.
    + intros N. apply find_none in N. apply find_first in F. congruence.
  - split; [|auto]. intros j F. apply find_none in N. apply find_first in F. congruence.
Qed.
Print Assumptions C187_members.
Lemma extra_absent b m k : by_the_book b m -> ~ is_documented b k -> no_member m k.
Proof. intros [_ D] N I. exact (N (D k I)). Qed.
Lemma not_documented b k : forallb (fun e => negb (String.eqb b (fst e)) || negb (existsb (String.eqb k) (snd e)))%bool documented = true -> ~ is_documented b k.
Proof.
  intros H (ks & I & J). rewrite forallb_forall in H. specialize (H _ I). cbn [fst snd] in H. rewrite String.eqb_refl in H. cbn [negb orb] in H.
  apply Bool.negb_true_iff in H. assert (existsb (String.eqb k) ks = true); [|congruence]. apply existsb_exists. exists k. split; [exact J|apply String.eqb_refl].
Qed.
(** in a block written as documented every member that is left out has its documented default *)
Theorem C187_defaults : forall b m l it k v v', parse_block b (JObj m) = Ok l -> by_the_book b m -> In it l -> In (k, v) (meaning it) ->
  no_member m k -> documented_default b k v' -> v = v'.
Proof.
  intros b m l it k v v' H B I K N D. pose proof (proj1 B) as ND.
  assert (dec : forall x y : string * string, {x = y} + {x <> y}) by (intros [] []; destruct (string_dec s s1), (string_dec s0 s2); (left; congruence) || (right; congruence)).
  destruct (in_dec dec (b, k) [("sampler", "spp"); ("emitter", "pos")]) as [[Q|[Q|[]]]|Q].
  - injection Q as <- <-. assert (NS : find_member m "sample_count" = None) by (apply find_none, (extra_absent _ _ _ B), not_documented; reflexivity).
    cbn in H. unfold parse_sampler in H. back H. destruct (String.eqb a0 "independent"); [|discriminate]. back H. injection H as <-. destruct I as [<- |[]].
    unfold opt in E1. rewrite NS in E1. injection E1 as <-. cbn [meaning] in K.
    repeat (destruct K as [K|K]; [try discriminate K|]); [|contradiction]. injection K as <-. unfold documented_default in D. cbn in D.
    repeat (destruct D as [D|D]; [first [discriminate D|injection D as <-; reflexivity]|]); contradiction.
  - injection Q as <- <-. assert (NS : find_member m "position" = None) by (apply find_none, (extra_absent _ _ _ B), not_documented; reflexivity).
    cbn in H. unfold parse_emitter in H. back H. injection H as <-. destruct I as [<- |I]; [contradiction|].
    apply in_app_or in I as [I|[<- |[<- |[]]]]; [destruct (transforms_back _ _ E1 _ I) as (c & ->); contradiction| |contradiction]. rename E2 into P.
    destruct (String.eqb a0 "point").
    { back P. injection P as <-. unfold opt in E2. rewrite NS in E2. injection E2 as <-. cbn [meaning] in K.
      repeat (destruct K as [K|K]; [try discriminate K|]); [|contradiction]. injection K as <-. unfold documented_default in D. cbn in D.
      repeat (destruct D as [D|D]; [first [discriminate D|injection D as <-; reflexivity]|]); contradiction. }
    exfalso. destruct (String.eqb a0 "mesh").
    { back P. injection P as <-. cbn [meaning] in K. repeat (destruct K as [K|K]; [discriminate K|]). contradiction. }
    repeat match type of P with (if ?c then _ else _) = _ => destruct c; [back P; injection P as <-; contradiction|] end. discriminate.
  - destruct (C187_members b m l it k v H ND I K) as [_ X]; [| |exact (X N v' D)].
    + intros M. unfold misread in M. cbn in M, Q. unfold documented_default in D. cbn in D.
      repeat (destruct M as [M|M]; [injection M as <- <-; first [tauto|repeat (destruct D as [D|D]; [discriminate D|]); contradiction]|]). contradiction.
    + intros M. unfold refused_member in M. cbn in M. unfold documented_default in D. cbn in D.
      repeat (destruct M as [M|M]; [injection M as <- <-; repeat (destruct D as [D|D]; [discriminate D|]); contradiction|]). contradiction.
Qed.
Print Assumptions C187_defaults.

(** six documented members are not looked at *)
Lemma find_skip m1 m2 k j k' : k <> k' -> find_member (m1 ++ (k, j) :: m2) k' = find_member (m1 ++ m2) k'.
Proof. intros N. apply String.eqb_neq in N. induction m1 as [|[a x] m1 IH]; cbn; [now rewrite N|]. now rewrite IH. Qed.
Lemma loop_skip m1 m2 k j : object_key k = false -> transform_key k = false -> forall n me ma em acc,
  parse_object_loop (m1 ++ (k, j) :: m2) n me ma em acc = parse_object_loop (m1 ++ m2) n me ma em acc.
Proof.
  intros O T. unfold object_key in O. pose proof (parse_transform_none k j T) as PT.
  apply Bool.orb_false_elim in O as [O O4]. apply Bool.orb_false_elim in O as [O O3]. apply Bool.orb_false_elim in O as [O1 O2].
  induction m1 as [|[a x] m1 IH]; intros n me ma em acc; cbn [app parse_object_loop].
  - now rewrite O1, O2, O3, PT, O4.
  - destruct (String.eqb a "name"); [destruct (get_str x); cbn [bind]; auto|]. destruct (String.eqb a "mesh"); [destruct (get_str x); cbn [bind]; auto|].
    destruct (String.eqb a "material_shader"); [destruct (get_str x); cbn [bind]; auto|]. destruct (parse_transform a x) as [[]|]; cbn [bind]; auto.
    destruct (String.eqb a "emitter"); [destruct (get_str x); cbn [bind]; auto|]. auto.
Qed.
Lemma transforms_skip m1 m2 k j : transform_key k = false -> emitter_transforms (m1 ++ (k, j) :: m2) = emitter_transforms (m1 ++ m2).
Proof.
  intros T. pose proof (parse_transform_none k j T) as PT. induction m1 as [|[a x] m1 IH]; cbn [app emitter_transforms]; [now rewrite PT|]. now rewrite IH.
Qed.
Theorem C187_ignored_refuted : forall b k, misread b k -> is_documented b k /\
  forall m1 m2 j, parse_block b (JObj (m1 ++ (k, j) :: m2)) = parse_block b (JObj (m1 ++ m2)).
Proof.
  intros b k M. split.
  - unfold misread in M. cbn in M. unfold is_documented, documented.
    repeat (destruct M as [M|M]; [injection M as <- <-; eexists; split; [cbn; eauto 12|cbn; tauto]|]). contradiction.
  - intros m1 m2 j. unfold misread in M. cbn in M.
    repeat (destruct M as [M|M]; [injection M as <- <-; unfold parse_block; cbn [String.eqb Ascii.eqb Bool.eqb members bind]; unfold parse_sampler, parse_object, parse_emitter, opt;
      rewrite ?loop_skip, ?transforms_skip by reflexivity; repeat rewrite find_skip by discriminate; reflexivity|]). contradiction.
Qed.
Print Assumptions C187_ignored_refuted.
(** three make the file fail *)
Theorem C187_camera_refuted : forall b k, refused_member b k -> is_documented b k /\ forall m j l, first_member m k j -> parse_block b (JObj m) <> Ok l.
Proof.
  intros b k M. split.
  - unfold refused_member in M. cbn in M. unfold is_documented, documented.
    repeat (destruct M as [M|M]; [injection M as <- <-; eexists; split; [cbn; eauto 12|cbn; tauto]|]). contradiction.
  - intros m j l F H. apply find_first in F.
    assert (b = "camera") as -> by (unfold refused_member in M; cbn in M; intuition congruence).
    unfold parse_block in H. cbn [String.eqb Ascii.eqb Bool.eqb members bind] in H. unfold parse_camera in H. back H. destruct (String.eqb a0 "perspective"); [|discriminate].
    unfold has in H. unfold refused_member in M. cbn in M.
    repeat (destruct M as [M|M]; [injection M as <-; rewrite F in H; repeat match type of H with context [find_member m ?x] => destruct (find_member m x) end; discriminate|]). contradiction.
Qed.
Print Assumptions C187_camera_refuted.
(** and so does the documented block "material" *)
Lemma parse_doc_block d k : In k (map fst d) -> (forall j, parse_block k j = UB) -> snd (parse_doc d) <> Ok tt.
Proof.
  induction d as [|[k' j] d IH]; intros I U; [contradiction|]. cbn [parse_doc]. destruct (parse_block k' j) as [l| | |] eqn:E; try discriminate.
  destruct I as [I|I]; [cbn in I; subst k'; rewrite U in E; discriminate|]. specialize (IH I U). destruct (parse_doc d) as [l' o]. exact IH.
Qed.
Theorem C187_material_refuted : (exists ks, In ("material", ks) documented) /\
  forall clocking d z, In "material" (map fst d) -> load clocking (Some (JObj d)) <> (z, Ret tt).
Proof.
  split; [unfold documented; eexists; cbn; eauto 12|]. intros c d z I H. pose proof (parse_doc_block d "material" I ltac:(reflexivity)) as P.
  unfold load in H. destruct (parse_doc d) as [l o]. cbn in P. destruct (exec c 0 l api_init) as [s [[]|e| |]]; try discriminate.
  destruct o as [[]| | |]; try discriminate. now apply P.
Qed.
Print Assumptions C187_material_refuted.
(** the documented defaults of the scene do not exist: a scene without integrator, sampler or camera cannot be rendered *)
Definition scene_kind (k : string) : option kind :=
  if String.eqb k "integrator" then Some KIntegrator else if String.eqb k "sampler" then Some KSampler else if String.eqb k "camera" then Some KCamera else None.
Theorem C187_scene_defaults_refuted : forall d l m k kd, doc_says d l -> well_formed l -> In ("scene", JObj m) d ->
  scene_kind k = Some kd -> no_member m k -> ~ In (kd, "default") (keys (map fst l)) ->
  exists z, load true (Some (JObj d)) = (z, Ret tt) /\
  forall objs ems meds w, Permutation objs (entries z KObject) -> Permutation ems (entries z KEmitter) -> Permutation meds (entries z KMedia) ->
  flush true objs ems meds z <> Ret w.
Proof.
  intros d l m k kd D WF I SK N NK.
  assert (exists it ts, In (it, ts) l /\ says "scene" m it ts) as (it & ts & J & (B & DS & _)).
  { revert I. clear -D. unfold doc_says in D. induction D as [|kj b d l (m' & E & S) F IH]; [easy|].
    intros [I|I]; [|destruct (IH I) as (it & ts & J & S'); exists it, ts; split; [now right|exact S']].
    subst kj. cbn [fst snd] in *. injection E as <-. exists (fst b), (snd b). split; [left; now destruct b|exact S]. }
  destruct it; try discriminate B.
  destruct (C186_renders_iff d l _ _ _ _ _ _ _ _ _ D WF J) as (z & L & X). exists z. split; [exact L|].
  intros objs ems meds w P1 P2 P3 F. apply NK. destruct (X objs ems meds P1 P2 P3) as [X1 _].
  specialize (X1 (ex_intro _ w F) _ (kd, "default") J). apply X1. cbn [fst wanted].
  assert (V : forall v, In (k, v) (fields (IScene name integ samp cam med keywords description sdf_mode)) -> k <> "type" -> In (k, v) (fields (default_params (IScene name integ samp cam med keywords description sdf_mode)))).
  { intros v Iv NT. destruct (DS k v Iv) as [(j & Fj & _)|[_ MO]]; [apply find_first in Fj; apply find_none in N; congruence|].
    unfold may_omit in MO. apply String.eqb_neq in NT. now rewrite NT in MO. }
  unfold scene_kind in SK. destruct (String.eqb_spec k "integrator") as [-> |N1].
  { injection SK as <-. specialize (V (VStr integ) ltac:(cbn; tauto) ltac:(discriminate)). cbn in V. assert (integ = "default") as -> by intuition congruence. now left. }
  destruct (String.eqb_spec k "sampler") as [-> |N2].
  { injection SK as <-. specialize (V (VStr samp) ltac:(cbn; tauto) ltac:(discriminate)). cbn in V. assert (samp = "default") as -> by intuition congruence. right. now left. }
  destruct (String.eqb_spec k "camera") as [-> |N3]; [|discriminate].
  injection SK as <-. specialize (V (VStr cam) ltac:(cbn; tauto) ltac:(discriminate)). cbn in V. assert (cam = "default") as -> by intuition congruence. right. right. now left.
Qed.
Print Assumptions C187_scene_defaults_refuted.
(** a documented sampler block asking for 64 samples gets 8 *)
Example C187_case : let m := [("name", JStr "s"); ("spp", JInt 64); ("seed", JInt 7)] in by_the_book "sampler" m /\ parse_block "sampler" (JObj m) = Ok [ISampler "s" 8 7] /\
  first_member m "seed" (JInt 7) /\ In ("seed", VInt 7) (meaning (ISampler "s" 8 7)) /\ ~ misread "sampler" "seed".
Proof.
  cbv zeta. split; [split|].
  - repeat constructor; cbn; intuition discriminate.
  - intros k. cbn. intros [<- |[<- |[<- |[]]]]; (eexists; split; [right; right; left; reflexivity|cbn; tauto]).
  - split; [reflexivity|]. split; [exists [("name", JStr "s"); ("spp", JInt 64)], []; split; [reflexivity|cbn; intuition discriminate]|]. split; [cbn; tauto|].
    unfold misread. cbn. intuition discriminate.
Qed.
Example C187_case_scene : doc_says dark_doc dark_blocks /\ well_formed dark_blocks /\ In ("scene", JObj []) dark_doc /\ scene_kind "camera" = Some KCamera /\
  no_member [] "camera" /\ ~ In (KCamera, "default") (keys (map fst dark_blocks)).
Proof.
  destruct C186_case_missing as (A & B & _). split; [exact A|]. split; [exact B|]. split; [now left|]. split; [reflexivity|]. split; [intros []|].
  cbn. intuition discriminate.
Qed.
