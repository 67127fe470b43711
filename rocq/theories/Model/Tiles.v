(** src/misc/render_pool.cpp: tiling and the dispatcher of RenderPool. *)
From Coq Require Import ZArith List Lia.
From Verif.Base Require Import Outcome.
Import ListNotations.
Open Scope Z_scope.
Open Scope outcome_scope.

(** render_pool.h:24-53 (the [done] flag lives in the dispatcher state below). *)
Record tile := Tile { t_minx : Z; t_miny : Z; t_maxx : Z; t_maxy : Z; t_index : Z }.

(** The values of [i] in [for (int i = a; i < bound; i += step)]; a non-positive step
    with [a < bound] never terminates in C++ and is [OutOfFuel] here.
    Simplified: signed overflow of [i + step] near INT_MAX is not modelled. *)
Fixpoint starts (fuel : nat) (i bound step : Z) : outcome (list Z) :=
  if i <? bound then
    match fuel with
    | O => OutOfFuel
    | S f => l <- starts f (i + step) bound step ;; Ok (i :: l)
    end
  else Ok [].

(** render_pool.cpp:134-140: inner loop, one row of tiles. *)
Definition push_row (tw w h i : Z) (cols : list Z) (acc : list tile * Z) : list tile * Z :=
  fold_left (fun '(ts, idx) j =>
    (ts ++ [Tile j i (Z.min (j + tw) w) (Z.min (i + tw) h) idx], idx + 1)) cols acc.

(** render_pool.cpp:125-142 initialize_pool *)
Definition initialize_pool (tw w h : Z) : outcome (list tile) :=
  rows <- starts (Z.to_nat h) 0 h tw ;;
  r <- foldM (fun acc i =>
         cols <- starts (Z.to_nat w) 0 w tw ;;
         Ok (push_row tw w h i cols acc)) rows ([], 0) ;;
  Ok (fst r).

(** ** The dispatcher (render_pool.cpp:144-225). *)

(** One worker slot: active_tiles[i] and threads[i].joinable(). *)
Record slot := Slot { s_tile : option tile; s_joinable : bool }.

(** Program counter of the dispatching thread. *)
Inductive pc :=
| PStart (i : nat)   (* 167-182: first assignment of slot i *)
| PWhile             (* 184: loop condition *)
| PScan (i : nat)    (* 186-209: examine slot i *)
| PFinal (i : nat)   (* 212-225: final join of slot i *)
| PDone.

(** [pending] is tiles_to_do with the back of the vector first.
    [started]: tiles for which a worker thread was created, most recent first.
    [finished]: tiles whose worker set done = true. *)
Record pool := Pool {
  p_pc : pc; p_pending : list tile; p_slots : list slot;
  p_started : list tile; p_finished : list tile }.

Inductive pstate := Run (p : pool) | Crash.

(** render_pool.cpp:102-111 and 150-165 *)
Definition pool_init (nthreads : nat) (tiles : list tile) : pstate :=
  Run (Pool (PStart 0) (rev tiles) (repeat (Slot None false) nthreads) [] []).

(** Assign the back of tiles_to_do to slot i and start a thread (169-181, 194-206).
    Popping an empty vector is UB; move-assigning over a joinable std::thread calls
    std::terminate: both are [Crash]. *)
Definition assign (p : pool) (i : nat) (next : pc) : pstate :=
  match p_pending p, nth_error (p_slots p) i with
  | t :: rest, Some s =>
      if s_joinable s then Crash
      else Run (Pool next rest (update (p_slots p) i (Slot (Some t) true))
                     (t :: p_started p) (p_finished p))
  | _, _ => Crash
  end.

(** threads[i].join() at line 190: std::system_error if not joinable (uncaught here, so
    [Crash]); otherwise the slot becomes non-joinable.  Joining waits for the worker; it is
    only reached when the worker has set [done], its last action on shared state.
    Simplified: the unsynchronised read of the plain bool [done] (a data race in the C++
    memory model) is modelled as an atomic read. *)
Definition joined (sl : list slot) (i : nat) (s : slot) : list slot :=
  update sl i (Slot (s_tile s) false).

Inductive step : pstate -> pstate -> Prop :=
(** a worker finishes its tile (96) *)
| st_finish p i t :
    nth_error (p_slots p) i = Some (Slot (Some t) true) ->
    ~ In t (p_finished p) ->
    step (Run p) (Run (Pool (p_pc p) (p_pending p) (p_slots p) (p_started p) (t :: p_finished p)))
(** 167-182 *)
| st_start p i :
    p_pc p = PStart i -> (i < length (p_slots p))%nat ->
    step (Run p) (assign p i (PStart (S i)))
| st_start_end p :
    p_pc p = PStart (length (p_slots p)) ->
    step (Run p) (Run (Pool PWhile (p_pending p) (p_slots p) (p_started p) (p_finished p)))
(** 184 *)
| st_while p :
    p_pc p = PWhile ->
    step (Run p) (Run (Pool (match p_pending p with [] => PFinal 0 | _ => PScan 0 end)
                            (p_pending p) (p_slots p) (p_started p) (p_finished p)))
(** 186-188: slot not done *)
| st_scan_busy p i s t :
    p_pc p = PScan i -> nth_error (p_slots p) i = Some s -> s_tile s = Some t ->
    ~ In t (p_finished p) ->
    step (Run p) (Run (Pool (PScan (S i)) (p_pending p) (p_slots p) (p_started p) (p_finished p)))
(** 188: null active tile would be dereferenced *)
| st_scan_null p i s :
    p_pc p = PScan i -> nth_error (p_slots p) i = Some s -> s_tile s = None ->
    step (Run p) Crash
(** 188-207: slot done *)
| st_scan_done p i s t :
    p_pc p = PScan i -> nth_error (p_slots p) i = Some s -> s_tile s = Some t ->
    In t (p_finished p) ->
    step (Run p)
      (if s_joinable s then
         let p' := Pool (PScan (S i)) (p_pending p) (joined (p_slots p) i s)
                        (p_started p) (p_finished p) in
         match p_pending p with
         | [] => Run p'
         | _ :: _ => assign p' i (PScan (S i))
         end
       else Crash)
| st_scan_end p :
    p_pc p = PScan (length (p_slots p)) ->
    step (Run p) (Run (Pool PWhile (p_pending p) (p_slots p) (p_started p) (p_finished p)))
(** 212-225: join waits for the worker; a non-joinable slot throws and is caught *)
| st_final_join p i t :
    p_pc p = PFinal i -> nth_error (p_slots p) i = Some (Slot (Some t) true) ->
    In t (p_finished p) ->
    step (Run p) (Run (Pool (PFinal (S i)) (p_pending p) (joined (p_slots p) i (Slot (Some t) true))
                            (p_started p) (p_finished p)))
| st_final_skip p i s :
    p_pc p = PFinal i -> nth_error (p_slots p) i = Some s -> s_joinable s = false ->
    step (Run p) (Run (Pool (PFinal (S i)) (p_pending p) (p_slots p) (p_started p) (p_finished p)))
| st_final_end p :
    p_pc p = PFinal (length (p_slots p)) ->
    step (Run p) (Run (Pool PDone (p_pending p) (p_slots p) (p_started p) (p_finished p))).

(** All finite executions. *)
Inductive steps : pstate -> pstate -> Prop :=
| steps_refl s : steps s s
| steps_step s1 s2 s3 : steps s1 s2 -> step s2 s3 -> steps s1 s3.
