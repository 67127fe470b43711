(** What is asked of the volumetric path integrators, on the history of what happened. *)
From Coq Require Import Reals List Bool.
From Coquelicot Require Import Rbar.
From Verif.Base Require Import Outcome.
From Verif.Model Require Import Vec Frame BBox Integrators VolPath.
From Verif.Spec Require Import IntegratorSpec PathSpec SceneSpec.
Import ListNotations.
Open Scope R_scope.

Section Spec.
Context {M : Type}.
Notation vevent := (vevent M).

(** ** sum of attenuated contributions *)
(** light that light samples deliver *)
Definition unblocked (l : list emitter_eval) : vec3 := IntegratorSpec.vsum (map e_throughput (filter e_valid l)).
(** light found at an event by a path that carries [t] *)
Definition gain (env : ray -> vec3) (t : vec3) (e : vevent) : vec3 :=
  match e with
  | VEscape r => vmul t (env r)
  | VScatter _ _ _ _ _ w _ l _ ph _ => vscale (vmul (vmul t w) (unblocked l)) ph
  | VShade _ _ c => vmul t (vadd (c_emission c) (c_nee c))
  | _ => V3c 0
  end.
(** what the path carries after the event *)
Definition after (t : vec3) (e : vevent) : vec3 :=
  match e with
  | VPass _ _ _ _ w => vmul t w
  | VScatter _ _ _ _ _ w _ _ _ _ _ => vdiv (vmul t w) (survival (vmul t w))
  | VSample i c => vmul t (attenuation t (i, c))
  | _ => t
  end.
Fixpoint vol_estimate (env : ray -> vec3) (t : vec3) (h : list vevent) : vec3 :=
  match h with
  | [] => V3c 0
  | e :: h' => vadd (gain env t e) (vol_estimate env (after t e) h')
  end.

(** direct light at a scattering event: light from direction x is scattered towards the previous vertex
    with the phase function for that pair of directions *)
Definition phased (val : M -> vec3 -> vec3 -> R) (t : vec3) (e : vevent) : vec3 :=
  match e with
  | VScatter m _ r i _ w _ l _ _ _ =>
      IntegratorSpec.vsum (map (fun x => vscale (vmul (vmul t w) (e_throughput x)) (val m (vneg (dir r)) (toWorld (i_s i) (e_dir x)))) (filter e_valid l))
  | _ => V3c 0
  end.

(** ** counting *)
Definition vertex (e : vevent) : bool :=
  match e with VScatter _ _ _ _ _ _ _ _ _ _ _ | VShade _ _ _ => true | _ => false end.
Definition vertices (h : list vevent) : nat := List.length (filter vertex h).

(** ** media *)
Variable boundary : nat -> option (option M * option M).
(** the medium behind a boundary: moving with the normal leads outside, against it inside; a shape
    without boundary data changes nothing *)
Definition beyond (md : option M) (r : ray) (i : isect) : option M :=
  match boundary (i_mesh i) with
  | None => md
  | Some (outside, inside) => if Rle_dec 0 (dot (dir r) (fn (i_s i))) then outside else inside
  end.
Fixpoint medium_after (md : option M) (h : list vevent) : option M :=
  match h with
  | [] => md
  | VBoundary r i :: h' => medium_after (beyond md r i) h'
  | _ :: h' => medium_after md h'
  end.

(** the medium of every segment: [segments md p h] for a path in medium md, p being the surface up to
    which the medium has just been crossed.  In a medium every surface (boundary or not) is reached
    after crossing the medium up to it, exactly once; without a medium nothing is crossed. *)
Definition crossed (md : option M) (p : option (ray * isect)) (r : ray) (i : isect) : Prop :=
  p = match md with Some _ => Some (r, i) | None => None end.
Fixpoint segments (md : option M) (p : option (ray * isect)) (h : list vevent) : Prop :=
  match h with
  | [] => p = None
  | VEscape r :: h' => p = None /\ h' = []
  | VPass m _ r i _ :: h' => md = Some m /\ p = None /\ segments md (Some (r, i)) h'
  | VScatter m _ _ _ _ _ _ _ _ _ _ :: h' => md = Some m /\ p = None /\ segments md None h'
  | VBoundary r i :: h' => crossed md p r i /\ segments (beyond md r i) None h'
  | VShade r i _ :: h' => crossed md p r i /\ segments md None h'
  | VRoulette _ :: h' | VSample _ _ :: h' => p = None /\ segments md None h'
  end.

(** ** counting emitted light once *)
(** emitted light counts at a vertex only when no lights were sampled at the previous vertex
    ([direct]: the camera or a specular surface) *)
Fixpoint counted_once (direct : bool) (h : list vevent) : Prop :=
  match h with
  | [] => True
  | VShade _ _ c :: h' => (direct = false -> c_emission c = V3c 0) /\ counted_once (c_spec c) h'
  | VScatter _ _ _ _ _ _ _ _ _ _ _ :: h' => counted_once false h'
  | _ :: h' => counted_once direct h'
  end.
(** what the renderer does: a scattering event takes over whether the vertex before it was specular *)
Fixpoint counted_late (direct spec : bool) (h : list vevent) : Prop :=
  match h with
  | [] => True
  | VShade _ _ c :: h' => (direct = false -> c_emission c = V3c 0) /\ counted_late (c_spec c) (c_spec c) h'
  | VScatter _ _ _ _ _ _ _ _ _ _ _ :: h' => counted_late spec false h'
  | _ :: h' => counted_late direct spec h'
  end.
(** no scattering event directly after the camera or a specular surface *)
Fixpoint no_late (spec : bool) (h : list vevent) : Prop :=
  match h with
  | [] => True
  | VShade _ _ c :: h' => no_late (c_spec c) h'
  | VScatter _ _ _ _ _ _ _ _ _ _ _ :: h' => spec = false /\ no_late false h'
  | _ :: h' => no_late spec h'
  end.

(** light samples belong to the vertex where they were taken: a specular surface has none *)
Fixpoint samples_once (h : list vevent) : Prop :=
  match h with
  | [] => True
  | VShade _ _ c :: h' => (c_spec c = true -> c_nee c = V3c 0) /\ samples_once h'
  | _ :: h' => samples_once h'
  end.
(** what the renderer does: a specular surface reuses the samples [l] of a scattering event before it *)
Fixpoint samples_late (mat : isect -> vec3 -> vec3 -> vec3) (l : list emitter_eval) (h : list vevent) : Prop :=
  match h with
  | [] => True
  | VShade r i c :: h' => (c_spec c = true -> c_nee c = delivered (mat i) (arriving i r) l) /\ samples_late mat [] h'
  | VScatter _ _ _ _ _ _ _ l' _ _ _ :: h' => samples_late mat l' h'
  | _ :: h' => samples_late mat l h'
  end.

(** ** previous vertex on a surface? *)
(** the flag given to distance sampling says whether the previous vertex is the camera or on a surface,
    the flag given to light sampling that a shadow ray starts in the medium *)
Fixpoint flags_right (surf : bool) (h : list vevent) : Prop :=
  match h with
  | [] => True
  | VPass _ f _ _ _ :: h' => f = Some surf /\ flags_right surf h'
  | VScatter _ f _ _ _ _ g _ _ _ _ :: h' => f = Some surf /\ g = false /\ flags_right false h'
  | VShade _ _ _ :: h' => flags_right true h'
  | _ :: h' => flags_right surf h'
  end.
(** what the renderer does ([k]: vertices so far): the flag for light sampling is that of the segment
    that ends, and crossing a boundary after the first vertex turns it into a surface *)
Fixpoint flags_given (k : nat) (surf : bool) (h : list vevent) : Prop :=
  match h with
  | [] => True
  | VPass _ f _ _ _ :: h' => f = Some surf /\ flags_given k surf h'
  | VScatter _ f _ _ _ _ g _ _ _ _ :: h' => f = Some surf /\ g = surf /\ flags_given (S k) false h'
  | VShade _ _ _ :: h' => flags_given (S k) true h'
  | VBoundary _ _ :: h' => flags_given k (match k with 1%nat => true | _ => surf end) h'
  | _ :: h' => flags_given k surf h'
  end.

(** ** physical events *)
Definition physical_step (e : vevent) : Prop :=
  match e with
  | VPass _ _ _ _ w => nonneg w
  | VScatter _ _ _ _ _ w _ l _ ph _ => nonneg w /\ 0 <= ph /\ Forall (fun x => nonneg (e_throughput x)) l
  | VShade _ _ c => nonneg (c_emission c) /\ nonneg (c_nee c)
  | VSample _ c => nonneg (c_albedo c) /\ 0 <= c_pdf c
  | _ => True
  end.

(** ** order and geometry *)
Variable env : ray -> vec3.
Variable med_sample : M -> option bool -> ray -> R -> query (vec3 * R).
Variable phase_sample : M -> vec3 -> vec2 -> vec3 * R.
Variable nee_media : bool -> bool -> isect -> option M -> query (list emitter_eval).
Variable ev : isect -> ray -> option M -> closure -> query closure.
Variable mat : isect -> vec3 -> vec3 -> vec3.
Variable sample : isect -> closure -> query closure.

Definition onwards (p d : vec3) : ray := Ray p d (Finite (1 / 1000)) p_infty.
Definition move_to (i : isect) (p : vec3) : isect := Isect p (i_t i) (i_bary i) (i_s i) (i_g i) (i_mesh i) (i_null i).
(** the closure keeps what it says about the previous vertex *)
Definition same_past (c c' : closure) : Prop :=
  c_shadow c' = c_shadow c /\ c_spec c' = c_spec c /\ c_last_spec c' = c_last_spec c /\ c_all c' = c_all c /\
  c_accepts c' = c_accepts c /\ c_wo c' = c_wo c /\ c_pdf c' = c_pdf c /\ c_eta c' = c_eta c.
(** no light yet, arriving from w *)
Definition unlit (w : vec3) (c : closure) : Prop :=
  c_wi c = w /\ c_emission c = V3c 0 /\ c_nee c = V3c 0 /\ c_albedo c = V3c 0.

(** [vol_history n t md c r h]: a possible history of a path with n vertices to go that carries t
    and starts with ray r in medium md, c being the closure left by the previous vertex *)
Inductive vol_history : nat -> vec3 -> option M -> closure -> ray -> list vevent -> Prop :=
| vh_limit t md c r : vol_history 0 t md c r []
| vh_dark n t md c r : negligible t -> vol_history (S n) t md c r []
| vh_escape n t md c r : ~ negligible t -> vol_history (S n) t md c r [VEscape r]
| vh_scatter n t m c r i f w d g l s wi ph u c' h : ~ negligible t ->
    leaf (med_sample m f r (i_t i)) (w, d) -> d < i_t i ->
    leaf (nee_media (c_all c) g (move_to i (vadd (org r) (vscale (dir r) d))) (Some m)) l ->
    phase_sample m (vneg (dir r)) s = (wi, ph) ->
    (u <= survival (vmul t w) ->
       c_shadow c' = l /\ c_spec c' = false /\ c_last_spec c' = c_spec c /\ c_all c' = c_all c /\ c_accepts c' = c_accepts c) ->
    (u <= survival (vmul t w) ->
       vol_history n (vdiv (vmul t w) (survival (vmul t w))) (Some m) c'
         (onwards (vadd (org r) (vscale (dir r) d)) (normalized wi)) h) ->
    (survival (vmul t w) < u -> h = []) ->
    vol_history (S n) t (Some m) c r (VScatter m f r i d w g l wi ph u :: h)
| vh_pass n t m c r i f w d h : ~ negligible t ->
    leaf (med_sample m f r (i_t i)) (w, d) -> i_t i <= d ->
    vol_arrive n (vmul t w) (Some m) c r i h ->
    vol_history (S n) t (Some m) c r (VPass m f r i w :: h)
| vh_empty n t c r i h : ~ negligible t -> vol_arrive n t None c r i h -> vol_history (S n) t None c r h
with vol_arrive : nat -> vec3 -> option M -> closure -> ray -> isect -> list vevent -> Prop :=
| va_boundary n t md c r i c' h : i_null i = true -> same_past c c' ->
    vol_history (S n) t (beyond md r i) c' (onwards (i_p i) (dir r)) h ->
    vol_arrive n t md c r i (VBoundary r i :: h)
| va_surface n t md c r i c0 c1 u h : i_null i = false -> same_past c c0 -> unlit (arriving i r) c0 ->
    leaf (ev i r md c0) c1 ->
    (u <= survival t -> vol_leave n t md (accumulate_shadow_rays (mat i) c1) r i h) ->
    (survival t < u -> h = []) ->
    vol_arrive n t md c r i (VShade r i (accumulate_shadow_rays (mat i) c1) :: VRoulette u :: h)
with vol_leave : nat -> vec3 -> option M -> closure -> ray -> isect -> list vevent -> Prop :=
| vl_absorbed n t md c r i c' : leaf (sample i (set_wi c (arriving i r))) c' -> c_pdf c' = 0 ->
    vol_leave n t md c r i [VSample i c']
| vl_go n t md c r i c' h : leaf (sample i (set_wi c (arriving i r))) c' -> c_pdf c' <> 0 ->
    vol_history n (vmul t (attenuation t (i, c'))) md c' (leaving i (c_wo c')) h ->
    vol_leave n t md c r i (VSample i c' :: h).
End Spec.

(** ** runs of a program in a scene whose surfaces do not depend on the random numbers *)
Inductive hleaf {A} (hit : ray -> option isect) : query A -> A -> Prop :=
| hleaf_ret a : hleaf hit (QRet a) a
| hleaf_hit r k a : hleaf hit (k (hit r)) a -> hleaf hit (QHit r k) a
| hleaf_rand1 k u a : hleaf hit (k u) a -> hleaf hit (QRand1 k) a
| hleaf_rand2 k u a : hleaf hit (k u) a -> hleaf hit (QRand2 k) a.

(** moving the origin of a line along it by [d] only moves the parameters *)
Definition shift (d : R) (i : isect) : isect :=
  Isect (i_p i) (i_t i - d) (i_bary i) (i_s i) (i_g i) (i_mesh i) (i_null i).
Definition rigid (lines : vec3 -> vec3 -> list isect) : Prop :=
  forall o d i, In i (lines o d) -> lines (i_p i) d = map (shift (i_t i)) (lines o d).

(** the number of surfaces of the line of a ray that are not behind its start *)
Definition ahead (lines : vec3 -> vec3 -> list isect) (r : ray) : nat :=
  List.length (filter (fun i => Rbar_leb (rnear r) (Finite (i_t i))) (lines (org r) (dir r))).

(** ** runs of a program in a world that answers its questions *)
Fixpoint qrun {W A} (hit : W -> ray -> option isect * W) (rnd1 : W -> R * W) (rnd2 : W -> vec2 * W) (q : query A) (w : W) : A * W :=
  match q with
  | QRet a => (a, w)
  | QHit r k => let (x, w) := hit w r in qrun hit rnd1 rnd2 (k x) w
  | QRand1 k => let (x, w) := rnd1 w in qrun hit rnd1 rnd2 (k x) w
  | QRand2 k => let (x, w) := rnd2 w in qrun hit rnd1 rnd2 (k x) w
  end.
(** a world in which the wall clock (state B) and the rest (state A) do not influence each other *)
Definition own_now {A B} (now : B -> R * B) (w : A * B) : R * (A * B) := let (t, b) := now (snd w) in (t, (fst w, b)).
Definition own_hit {A B} (hit : A -> ray -> option isect * A) (w : A * B) (r : ray) : option isect * (A * B) := let (x, a) := hit (fst w) r in (x, (a, snd w)).
Definition own_rnd {A B X} (rnd : A -> X * A) (w : A * B) : X * (A * B) := let (x, a) := rnd (fst w) in (x, (a, snd w)).
