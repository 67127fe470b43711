(** src/misc/render_pool.cpp:78-86: the per-pixel critical section executed by each worker,
    at the granularity of single loads and stores, with one mutex per film index. *)
From Coq Require Import Reals ZArith List.
From Verif.Base Require Import Outcome.
Import ListNotations.
Open Scope R_scope.

(** Shared memory cells: image channels (x, y, c) and the weight vector entries. *)
Inductive cell := CImg (x y : Z) (c : nat) | CW (idx : Z).

Definition cell_eq_dec (a b : cell) : {a = b} + {a <> b}.
Proof. decide equality; try apply Z.eq_dec; apply PeanoNat.Nat.eq_dec. Qed.

(** A critical section: mutexes[index].lock(); a list of [cell += delta]; unlock(). *)
Record section := CS { cs_lock : Z; cs_adds : list (cell * R) }.

(** A worker: remaining sections, the section being executed (mutex held, remaining
    additions) and the value loaded by the [+=] in progress, if any. *)
Record worker := Wk {
  wk_todo : list section;
  wk_cur : option (Z * list (cell * R));
  wk_reg : option R }.

Record lstate := LS {
  l_mem : cell -> R;
  l_lock : Z -> option nat;
  l_workers : list worker }.

Definition set_mem (m : cell -> R) (c : cell) (v : R) : cell -> R :=
  fun c' => if cell_eq_dec c' c then v else m c'.
Definition set_lock (l : Z -> option nat) (i : Z) (v : option nat) : Z -> option nat :=
  fun j => if Z.eq_dec j i then v else l j.

(** One step of worker [k]; any interleaving of workers is allowed
    (std::mutex gives mutual exclusion; sequential consistency between mutex operations). *)
Inductive lstep : lstate -> lstate -> Prop :=
| ls_acquire m l ws k i adds rest :
    nth_error ws k = Some (Wk (CS i adds :: rest) None None) ->
    l i = None ->
    lstep (LS m l ws)
          (LS m (set_lock l i (Some k)) (update ws k (Wk rest (Some (i, adds)) None)))
| ls_load m l ws k i c d adds rest :
    nth_error ws k = Some (Wk rest (Some (i, (c, d) :: adds)) None) ->
    lstep (LS m l ws)
          (LS m l (update ws k (Wk rest (Some (i, (c, d) :: adds)) (Some (m c)))))
| ls_store m l ws k i c d adds rest v :
    nth_error ws k = Some (Wk rest (Some (i, (c, d) :: adds)) (Some v)) ->
    lstep (LS m l ws)
          (LS (set_mem m c (v + d)) l (update ws k (Wk rest (Some (i, adds)) None)))
| ls_release m l ws k i rest :
    nth_error ws k = Some (Wk rest (Some (i, [])) None) ->
    lstep (LS m l ws)
          (LS m (set_lock l i None) (update ws k (Wk rest None None))).

Inductive lsteps : lstate -> lstate -> Prop :=
| lsteps_refl s : lsteps s s
| lsteps_step a b c : lsteps a b -> lstep b c -> lsteps a c.

(** Initial state: no mutex held, each worker about to run its program. *)
Definition linit (m : cell -> R) (progs : list (list section)) : lstate :=
  LS m (fun _ => None) (map (fun p => Wk p None None) progs).

Definition worker_done (w : worker) : Prop := wk_todo w = [] /\ wk_cur w = None.
