(** The rays that a computation traces, and scenes with more objects. *)
From Coq Require Import Reals List.
From Verif.Base Require Import Outcome.
From Verif.Model Require Import Vec BBox Integrators.

(** a world that keeps a list of the rays it was asked about, the last one first *)
Section Watched.
Context {W : Type}.
Variable now : W -> R * W.
Variable hit : W -> ray -> option isect * W.
Variable rnd1 : W -> R * W.
Variable rnd2 : W -> vec2 * W.
Definition watched_now (x : W * list ray) : R * (W * list ray) := let (t, w) := now (fst x) in (t, (w, snd x)).
Definition watched_hit (x : W * list ray) (r : ray) : option isect * (W * list ray) := let (a, w) := hit (fst x) r in (a, (w, r :: snd x)).
Definition watched_rnd1 (x : W * list ray) : R * (W * list ray) := let (u, w) := rnd1 (fst x) in (u, (w, snd x)).
Definition watched_rnd2 (x : W * list ray) : vec2 * (W * list ray) := let (u, w) := rnd2 (fst x) in (u, (w, snd x)).
(** the rays of a run, and the run without its list of rays *)
Definition traced {A} (x : outcome A * st (W * list ray)) : list ray := snd (s_w _ (snd x)).
Definition unwatched {A} (x : outcome A * st (W * list ray)) : outcome A * st W := (fst x, St W (s_clk _ (snd x)) (fst (s_w _ (snd x))) (s_log _ (snd x))).
End Watched.
(** the same answer, whatever state the world is in *)
Definition same_answer {W} (hit hit' : W -> ray -> option isect * W) (r : ray) : Prop := forall w, hit' w r = hit w r.

(** the surfaces of a line, and those with others in between *)
Inductive interleaved (added : isect -> Prop) : list isect -> list isect -> Prop :=
| il_nil : interleaved added nil nil
| il_old i l l' : interleaved added l l' -> interleaved added (i :: l) (i :: l')
| il_new i l l' : added i -> interleaved added l l' -> interleaved added l (i :: l').
