(** src/misc/render_pool.cpp:144-246 evaluate_pool as a whole: the dispatcher of
    Model/Tiles.v running concurrently with the workers of Model/Locks.v. *)
From Coq Require Import Reals ZArith List.
From Verif.Base Require Import Outcome.
From Verif.Model Require Import Vec Tiles Locks Film.
Import ListNotations.
Open Scope R_scope.

Section PoolFilm.
(** [M]: the scene's sampler, used by the dispatching thread only, with its next1D() and
    copy(seed); [S]: a tile's private sampler.  See Model/Film.v for the others. *)
Variables M S : Type.
Variable next1D : M -> R * M.
Variable copy : M -> R -> S.
Variable next2D : S -> vec2 * S.
Variable radiance_of : S -> vec2 -> vec2 -> vec3 * S.
Variable fsize : vec2.
Variable feval : vec2 -> R.

(** render_pool.cpp:172 and 197: one private sampler per started thread, in starting order.
    Simplified: the conversion of the product to the integer seed type is left inside [copy]. *)
Fixpoint tile_samplers (n : nat) (m : M) : list S :=
  match n with
  | O => []
  | Datatypes.S n' => let '(v, m') := next1D m in copy m' (v * 100000000) :: tile_samplers n' m'
  end.

(** Tiles are popped from the back (169-170, 194-195), so the k-th started thread runs the
    k-th tile from the end. Programs are listed in starting order. *)
Definition programs (spp w h : Z) (tiles : list tile) (m : M) : list (list section) :=
  map (fun ts => tile_program S next2D radiance_of fsize feval spp w h (fst ts) (snd ts))
      (combine (rev tiles) (tile_samplers (length tiles) m)).

(** The camera samples taken by all workers, listed in starting order of their tiles
    (render_pool.cpp:29-49). *)
Definition all_samples (spp : Z) (tiles : list tile) (m : M) : list (vec2 * vec3) :=
  flat_map (fun ts => draw S next2D radiance_of (tile_order spp (fst ts)) (snd ts))
           (combine (rev tiles) (tile_samplers (length tiles) m)).

(** Concurrent execution. [order] is the starting order (rev tiles). *)
Inductive cstep (order : list tile) : pstate * lstate -> pstate * lstate -> Prop :=
(** the dispatching thread moves; no worker finishes *)
| cs_dispatch p s' l :
    step (Run p) s' ->
    (forall p', s' = Run p' -> p_finished p' = p_finished p) ->
    cstep order (Run p, l) (s', l)
(** a worker that has executed its whole program sets done = true (96) *)
| cs_finish p p' l k t wk :
    step (Run p) (Run p') -> p_finished p' = t :: p_finished p ->
    nth_error order k = Some t -> nth_error (l_workers l) k = Some wk -> worker_done wk ->
    cstep order (Run p, l) (Run p', l)
(** a started worker executes one lock, load, store or unlock *)
| cs_work p l l' k t :
    lstep l l' ->
    (forall j, j <> k -> nth_error (l_workers l') j = nth_error (l_workers l) j) ->
    nth_error order k = Some t -> In t (p_started p) ->
    cstep order (Run p, l) (Run p, l').

Inductive csteps (order : list tile) : pstate * lstate -> pstate * lstate -> Prop :=
| csteps_refl s : csteps order s s
| csteps_step a b c : csteps order a b -> cstep order b c -> csteps order a c.

Definition cinit (nthreads : nat) (spp w h : Z) (tiles : list tile)
    (img0 : Z -> Z -> vec3) (m : M) : pstate * lstate :=
  (pool_init nthreads tiles, linit (pool_mem img0) (programs spp w h tiles m)).
End PoolFilm.
