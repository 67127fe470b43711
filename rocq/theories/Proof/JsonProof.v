(** Reading described blocks. *)
From Coq Require Import Reals ZArith List String Lia Lra Permutation.
From Verif.Base Require Import Outcome.
From Verif.Model Require Import Vec Matrix ApiTransform Api Json.
From Verif.Spec Require Import JsonSpec.
Import ListNotations.
Local Open Scope string_scope.
Local Open Scope list_scope.
Open Scope R_scope.

(** * Members *)
Lemma find_first m k j : first_member m k j <-> find_member m k = Some j.
Proof.
  split.
  - intros (a & b & -> & N). induction a as [|[k' j'] a IH]; cbn [app find_member].
    + now rewrite String.eqb_refl.
    + cbn in N. destruct (String.eqb_spec k' k) as [->|]; [tauto|]. apply IH. tauto.
  - induction m as [|[k' j'] m IH]; cbn [find_member]; [discriminate|]. destruct (String.eqb_spec k' k) as [->|N].
    + intros [= ->]. exists [], m. split; [reflexivity|]. intros [].
    + intros F. destruct (IH F) as (a & b & -> & X). exists ((k', j') :: a), b. split; [reflexivity|]. cbn. tauto.
Qed.
Lemma find_none m k : no_member m k <-> find_member m k = None.
Proof.
  unfold no_member. induction m as [|[k' j'] m IH]; cbn; [tauto|]. destruct (String.eqb_spec k' k) as [->|N].
  - split; [tauto|discriminate].
  - rewrite <- IH. tauto.
Qed.
Lemma opt_some {A} m k (get : json -> outcome A) def j : first_member m k j -> opt m k get def = get j.
Proof. intros F. apply find_first in F. unfold opt. now rewrite F. Qed.
Lemma opt_none {A} m k (get : json -> outcome A) def : no_member m k -> opt m k get def = Ok def.
Proof. intros F. apply find_none in F. unfold opt. now rewrite F. Qed.

(** * Getters *)
Lemma get_int_ok j z : is_int j z -> get_int j = Ok z.
Proof.
  intros [-> R]. unfold get_int. destruct (Z.leb_spec (- 2 ^ 31) z); [|lia]. destruct (Z.ltb_spec z (2 ^ 31)); [|lia]. reflexivity.
Qed.
Lemma get_float_ok j x : is_num j x -> get_float j = Ok x.
Proof. intros [->|(z & -> & ->)]; reflexivity. Qed.
Lemma elem_ok {B} {P : json -> B -> Prop} a l rest : Forall2 P a l -> forall i x, nth_error l i = Some x -> exists j, elem (JArr (a ++ rest)) i = Ok j /\ P j x.
Proof.
  intros F. induction F as [|j y a l PJ F IH]; intros i x N; [destruct i; discriminate|]. destruct i as [|i]; cbn in N.
  - injection N as <-. exists j. split; [reflexivity|exact PJ].
  - destruct (IH i x N) as (j' & E & P'). exists j'. split; [|exact P']. exact E.
Qed.
Ltac entry F i := let j := fresh "j" in let E := fresh "E" in let P := fresh "P" in
  match goal with rest : list json |- context [elem (JArr (_ ++ ?rest)) i] => destruct (elem_ok _ _ rest F i _ eq_refl) as (j & E & P) end; rewrite E; clear E; cbn [bind]; rewrite (get_float_ok _ _ P); clear P; cbn [bind].
Lemma get_vec_ok j x y z : shows j (VNums [x; y; z]) -> get_vec j = Ok (V3 x y z).
Proof. intros (a & rest & -> & F). unfold get_vec. entry F 0%nat. entry F 1%nat. entry F 2%nat. reflexivity. Qed.
Lemma get_rot_ok j w x y z : shows j (VNums [w; x; y; z]) -> get_rot j = Ok (w, V3 x y z).
Proof. intros (a & rest & -> & F). unfold get_rot. entry F 0%nat. entry F 1%nat. entry F 2%nat. entry F 3%nat. reflexivity. Qed.
Lemma get_lookat_ok j a b c d e f g h i : shows j (VNums [a; b; c; d; e; f; g; h; i]) -> get_lookat j = Ok (V3 a b c, V3 d e f, V3 g h i).
Proof.
  intros (l & rest & -> & F). unfold get_lookat.
  entry F 0%nat. entry F 1%nat. entry F 2%nat. entry F 3%nat. entry F 4%nat. entry F 5%nat. entry F 6%nat. entry F 7%nat. entry F 8%nat. reflexivity.
Qed.
Lemma get_res_ok j x y : shows j (VInts [x; y]) -> get_res j = Ok (x, y).
Proof.
  intros (a & rest & -> & F). unfold get_res.
  destruct (elem_ok _ _ rest F 0%nat _ eq_refl) as (u & E & P). rewrite E. cbn [bind]. rewrite (get_int_ok _ _ P). cbn [bind].
  destruct (elem_ok _ _ rest F 1%nat _ eq_refl) as (w & E' & P'). rewrite E'. cbn [bind]. rewrite (get_int_ok _ _ P'). reflexivity.
Qed.

(** * Fields *)
Fixpoint get_field (l : list (string * value)) (k : string) : option value :=
  match l with [] => None | (k', v) :: l' => if String.eqb k' k then Some v else get_field l' k end.
Lemma get_field_in l k v : get_field l k = Some v -> In (k, v) l.
Proof.
  induction l as [|[k' v'] l IH]; cbn; [discriminate|]. destruct (String.eqb_spec k' k) as [->|]; [intros [= ->]; left; reflexivity|auto].
Qed.
Lemma in_get_field l k v : NoDup (map fst l) -> In (k, v) l -> get_field l k = Some v.
Proof.
  induction l as [|[k' v'] l IH]; cbn; [tauto|]. intros ND [E|I].
  - injection E as -> ->. now rewrite String.eqb_refl.
  - inversion ND as [|? ? N ND']; subst. destruct (String.eqb_spec k' k) as [->|]; [|auto]. exfalso. apply N. apply (in_map fst) in I. exact I.
Qed.
Lemma nodup_fields i : NoDup (map fst (fields i)).
Proof.
  destruct i as [| | | | | | | | | | ? p|? p|? p|? p| |]; try destruct p; cbn; repeat (constructor; [cbn; intuition discriminate|]); constructor.
Qed.
Section Read.
Variable A : Type.
Variable get : json -> outcome A.
Variable want : A -> value.
Hypothesis get_ok : forall j x, shows j (want x) -> get j = Ok x.
(** a member is read as the field, or left out where the default is the field *)
Lemma read_field m i k def x : describes m i -> get_field (fields i) k = Some (want x) ->
  (if String.eqb k "type" then forall t, default_type (block i) = Some t -> want x = VStr t -> def = x
   else get_field (fields (default_params i)) k = Some (want x) -> def = x) ->
  opt m k get def = Ok x.
Proof.
  intros D G O. apply get_field_in in G. destruct (D k _ G) as [(j & F & S)|(N & M)].
  - rewrite (opt_some m k get def j F). apply get_ok, S.
  - rewrite (opt_none m k get def N). f_equal. unfold may_omit in M. destruct (String.eqb k "type").
    + destruct (default_type (block i)) as [t|]; [|contradiction]. apply (O t); auto.
    + apply O, in_get_field, M. apply nodup_fields.
Qed.
End Read.
Lemma str_shows j s : shows j (VStr s) -> get_str j = Ok s. Proof. intros ->. reflexivity. Qed.
Lemma bool_shows j b : shows j (VBool b) -> get_bool j = Ok b. Proof. intros ->. reflexivity. Qed.
Lemma vec_shows j v : shows j (vec v) -> get_vec j = Ok v. Proof. destruct v. apply get_vec_ok. Qed.
Definition want_look (l : vec3 * vec3 * vec3) : value := let '(o, t, u) := l in VNums [vx o; vy o; vz o; vx t; vy t; vz t; vx u; vy u; vz u].
Lemma look_shows j l : shows j (want_look l) -> get_lookat j = Ok l. Proof. destruct l as [[[a b c] [d e f]] [g h i]]. apply get_lookat_ok. Qed.
Lemma res_shows j r : shows j (VInts [fst r; snd r]) -> get_res j = Ok r. Proof. destruct r. apply get_res_ok. Qed.
Definition rd_str := read_field string get_str VStr str_shows.
Definition rd_bool := read_field bool get_bool VBool bool_shows.
Definition rd_int := read_field Z get_int VInt get_int_ok.
Definition rd_num := read_field R get_float VNum get_float_ok.
Definition rd_vec := read_field vec3 get_vec vec vec_shows.
Definition rd_look := read_field _ get_lookat want_look look_shows.
Definition rd_res := read_field _ get_res (fun r => VInts [fst r; snd r]) res_shows.
Lemma vec_inj a b : vec a = vec b -> a = b.
Proof. destruct a, b. unfold vec. cbn. congruence. Qed.
Lemma some_vec_inj a b : Some (vec a) = Some (vec b) -> a = b.
Proof. intros E. apply vec_inj. congruence. Qed.

Lemma opt_spare {A} m k (get : json -> outcome A) def : (forall j, first_member m k j -> exists x, get j = Ok x) -> exists x, opt m k get def = Ok x.
Proof.
  intros H. unfold opt. destruct (find_member m k) as [j|] eqn:E; [|eauto]. apply find_first in E. exact (H j E).
Qed.

Ltac omit := cbn; first
  [ let t := fresh in let E := fresh in let W := fresh in intros t E W; first [discriminate E|injection E as <-; first [discriminate W|injection W as ->; reflexivity|injection W as <-; reflexivity]]
  | let E := fresh in intros E; first [exact (some_vec_inj _ _ E)|congruence] ].
Ltac rd L D := erewrite (L _ _ _ _ _ D); [|reflexivity|omit]; cbn [bind].
Ltac rds D := repeat first [rd rd_str D|rd rd_bool D|rd rd_int D|rd rd_num D|rd rd_vec D|rd rd_res D].

Lemma look_default v t u : Some (want_look (V3 0 1 0, V3 0 0 0, V3 0 1 0)) = Some (want_look (v, t, u)) -> (V3 0 1 0, V3 0 0 0, V3 0 1 0) = (v, t, u).
Proof. destruct v, t, u. unfold want_look. cbn. congruence. Qed.

Ltac eqbs := cbn [String.eqb Ascii.eqb Bool.eqb].
Lemma has_none m k : no_member m k -> has m k = false.
Proof. intros N. apply find_none in N. unfold has. now rewrite N. Qed.

(** * Transforms *)
Lemma parse_transform_ok k j c : shows_transform (k, j) c -> parse_transform k j = Some (Ok c).
Proof.
  destruct c as [|v|v|a v]; cbn [shows_transform fst snd]; [tauto| | |]; intros [-> S]; unfold parse_transform; eqbs.
  - rewrite (vec_shows _ _ S). reflexivity.
  - rewrite (vec_shows _ _ S). reflexivity.
  - destruct v as [x y z]. rewrite (get_rot_ok _ _ _ _ _ S). reflexivity.
Qed.
Lemma parse_transform_none k j : transform_key k = false -> parse_transform k j = None.
Proof.
  unfold transform_key, parse_transform. intros T. destruct (String.eqb k "scale"), (String.eqb k "translate"), (String.eqb k "rotate"); try discriminate. reflexivity.
Qed.
Lemma emitter_transforms_ok m : forall ts, lists_transforms m ts -> emitter_transforms m = Ok (map ITransform ts).
Proof.
  unfold lists_transforms. induction m as [|[k j] m IH]; intros ts F; cbn [filter fst] in F.
  - inversion F. reflexivity.
  - cbn [emitter_transforms]. destruct (transform_key k) eqn:T.
    + inversion F as [|? c ? ts' S F']; subst. rewrite (parse_transform_ok _ _ _ S). cbn [bind]. rewrite (IH _ F'). reflexivity.
    + rewrite (parse_transform_none _ _ T). apply IH, F.
Qed.
Definition final (m : list (string * json)) (k cur x : string) : Prop := find_member m k = Some (JStr x) \/ (find_member m k = None /\ cur = x).
Lemma once_find k j m : object_key k = true -> once ((k, j) :: m) -> find_member m k = None.
Proof.
  unfold once. cbn [map fst filter]. intros E. rewrite E. intros ND. inversion ND as [|? ? N _]; subst. apply find_none. unfold no_member. intros I. apply N, filter_In. auto.
Qed.
Lemma once_tail kj m : once (kj :: m) -> once m.
Proof. unfold once. cbn [map filter]. destruct (object_key (fst kj)); [|auto]. intros ND. now inversion ND. Qed.
Lemma final_skip k j m k' cur x : k <> k' -> final ((k, j) :: m) k' cur x -> final m k' cur x.
Proof. unfold final. cbn [find_member]. intros N. apply String.eqb_neq in N. rewrite N. auto. Qed.
Lemma final_take k j m cur x : final ((k, j) :: m) k cur x -> find_member m k = None -> j = JStr x /\ final m k x x.
Proof. unfold final. cbn [find_member]. rewrite String.eqb_refl. intros [[= ->]|[E _]] N; [|discriminate]. auto. Qed.
Lemma object_loop_ok m : forall n me ma em acc n' me' ma' em' ts, once m -> lists_transforms m ts ->
  final m "name" n n' -> final m "mesh" me me' -> final m "material_shader" ma ma' -> final m "emitter" em em' ->
  parse_object_loop m n me ma em acc = Ok (ITransform TClear :: (acc ++ map ITransform ts) ++ [IObject n' me' ma' em'; ITransform TClear]).
Proof.
  unfold lists_transforms. induction m as [|[k j] m IH]; intros n me ma em acc n' me' ma' em' ts O F F1 F2 F3 F4; cbn [filter fst] in F.
  - inversion F. subst. cbn [map parse_object_loop]. rewrite app_nil_r. destruct F1 as [?|[_ ->]]; [discriminate|]. destruct F2 as [?|[_ ->]]; [discriminate|]. destruct F3 as [?|[_ ->]]; [discriminate|]. destruct F4 as [?|[_ ->]]; [discriminate|]. reflexivity.
  - cbn [parse_object_loop]. pose proof (once_tail _ _ O) as O'.
    destruct (String.eqb_spec k "name") as [->|N1].
    { cbn in F. destruct (final_take _ _ _ _ _ F1 (once_find "name" _ _ eq_refl O)) as [-> G]. cbn [get_str bind]. apply IH; auto; eapply final_skip; eauto; discriminate. }
    destruct (String.eqb_spec k "mesh") as [->|N2].
    { cbn in F. destruct (final_take _ _ _ _ _ F2 (once_find "mesh" _ _ eq_refl O)) as [-> G]. cbn [get_str bind]. apply IH; auto; eapply final_skip; eauto; discriminate. }
    destruct (String.eqb_spec k "material_shader") as [->|N3].
    { cbn in F. destruct (final_take _ _ _ _ _ F3 (once_find "material_shader" _ _ eq_refl O)) as [-> G]. cbn [get_str bind]. apply IH; auto; eapply final_skip; eauto; discriminate. }
    destruct (transform_key k) eqn:T.
    { inversion F as [|? c ? ts' S F']; subst. rewrite (parse_transform_ok _ _ _ S). cbn [bind].
      assert (N4 : k <> "emitter") by (intros ->; discriminate).
      rewrite (IH _ _ _ _ _ n' me' ma' em' ts' O' F') by (eapply final_skip; eauto). cbn [map]. rewrite <- !app_assoc. reflexivity. }
    rewrite (parse_transform_none _ _ T). destruct (String.eqb_spec k "emitter") as [->|N4].
    { destruct (final_take _ _ _ _ _ F4 (once_find "emitter" _ _ eq_refl O)) as [-> G]. cbn [get_str bind]. apply IH; auto; eapply final_skip; eauto; discriminate. }
    apply IH; auto; eapply final_skip; eauto.
Qed.
Lemma final_field m i k def x : describes m i -> get_field (fields i) k = Some (VStr x) -> String.eqb k "type" = false ->
  (get_field (fields (default_params i)) k = Some (VStr x) -> def = x) -> final m k def x.
Proof.
  intros D G T O. apply get_field_in in G. destruct (D k _ G) as [(j & F & S)|(N & M)].
  - left. apply find_first in F. rewrite F. f_equal. exact S.
  - right. split; [apply find_none, N|]. unfold may_omit in M. rewrite T in M. apply O, in_get_field, M. apply nodup_fields.
Qed.

(** * Blocks *)
Lemma read_block k m i ts : says k m i ts -> parse_block k (JObj m) = Ok (calls i ts).
Proof.
  intros (-> & D & X & P). destruct i as [| | | | | | | | | | n p|n p|n p|n p| |]; cbn [placed] in P; unfold calls; cbn [placed].
  - subst ts. unfold parse_block, block. eqbs. cbn [members bind]. unfold parse_scene. rds D. reflexivity.
  - destruct X as [-> ->]. unfold parse_block, block. eqbs. cbn [members bind]. unfold parse_media. rds D. reflexivity.
  - unfold parse_block, block. eqbs. cbn [members bind]. unfold parse_density. rds D. eqbs. rds D. reflexivity.
  - unfold parse_block, block. eqbs. cbn [members bind]. unfold parse_accel. rds D. eqbs. rds D. reflexivity.
  - unfold parse_block, block. eqbs. cbn [members bind]. unfold parse_accel. rds D. eqbs. rds D. reflexivity.
  - unfold parse_block, block. eqbs. cbn [members bind]. unfold parse_integrator. rds D. apply String.eqb_neq in X. rewrite X. reflexivity.
  - unfold parse_block, block. eqbs. cbn [members bind]. unfold parse_integrator. rds D. eqbs. rds D. reflexivity.
  - unfold parse_block, block. eqbs. cbn [members bind]. unfold parse_sampler. rds D. eqbs. rds D. reflexivity.
  - destruct X as (X1 & X2 & X3). unfold parse_block, block. eqbs. cbn [members bind]. unfold parse_camera. rds D. eqbs. rewrite !has_none by assumption. rds D.
    rewrite (rd_look _ _ "lookat" (V3 0 1 0, V3 0 0 0, V3 0 1 0) (origin, target, up) D eq_refl (look_default origin target up)). reflexivity.
  - unfold parse_block, block. eqbs. cbn [members bind]. unfold parse_object.
    erewrite (object_loop_ok m "obj" "default" "null" "null" [] _ _ _ _ ts X P); [cbn [app]; reflexivity| | | |]; (eapply final_field; [exact D|reflexivity|reflexivity|cbn; congruence]).
  - unfold parse_block, block. eqbs. cbn [members bind]. unfold parse_mesh. destruct p; rds D; eqbs; rds D; try reflexivity.
    + destruct X as [X1 X2].
      destruct (opt_spare m "is_null" get_bool false) as [b E]. { intros j F. destruct (X1 j F) as [b ->]. exists b. reflexivity. } rewrite E. cbn [bind].
      destruct (opt_spare m "inside_media" get_str "null") as [s1 E1]. { intros j F. destruct (X2 _ j (or_introl eq_refl) F) as [b' ->]. exists b'. reflexivity. } rewrite E1. cbn [bind].
      destruct (opt_spare m "outside_media" get_str "null") as [s2 E2]. { intros j F. destruct (X2 _ j (or_intror eq_refl) F) as [b' ->]. exists b'. reflexivity. } rewrite E2. cbn [bind].
      eqbs. rds D. rewrite (rd_res _ _ "resolution" (2, 2)%Z (rx, ry) D eq_refl ltac:(cbn; congruence)). reflexivity.
    + destruct (opt_spare m "interp" get_float 0) as [s1 E1]. { intros j F. destruct (X j F) as [x Hx]. exists x. apply get_float_ok, Hx. } rewrite E1. reflexivity.
  - unfold parse_block, block. eqbs. cbn [members bind]. unfold parse_emitter. destruct p; rds D; rewrite (emitter_transforms_ok _ _ P); cbn [bind]; eqbs; rds D; reflexivity.
  - unfold parse_block, block. eqbs. cbn [members bind]. unfold parse_bsdf. destruct p; rds D; eqbs; rds D; reflexivity.
  - unfold parse_block, block. eqbs. cbn [members bind]. unfold parse_shader. destruct p; rds D; eqbs; rds D; reflexivity.
  - destruct X as [-> X]. unfold parse_block, block. eqbs. cbn [members bind]. unfold parse_texture. rds D. eqbs. rds D. rewrite has_none by exact X. reflexivity.
  - contradiction.
Qed.
