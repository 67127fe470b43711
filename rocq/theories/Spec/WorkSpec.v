(** Counting the rays that are traced and the random numbers that are drawn. *)
From Coq Require Import Reals List.
From Verif.Model Require Import Vec BBox Integrators.

(** a world that keeps account: the rays answered and the random numbers handed out so far *)
Record account (W : Type) := Account { a_world : W; a_rays : nat; a_numbers : nat }.
Arguments Account {W}. Arguments a_world {W}. Arguments a_rays {W}. Arguments a_numbers {W}.
Section Counted.
Context {W : Type}.
Variable now : W -> R * W.
Variable hit : W -> ray -> option isect * W.
Variable rnd1 : W -> R * W.
Variable rnd2 : W -> vec2 * W.
Definition counted_now (x : account W) : R * account W := let (t, w) := now (a_world x) in (t, Account w (a_rays x) (a_numbers x)).
Definition counted_hit (x : account W) (r : ray) : option isect * account W := let (a, w) := hit (a_world x) r in (a, Account w (S (a_rays x)) (a_numbers x)).
Definition counted_rnd1 (x : account W) : R * account W := let (u, w) := rnd1 (a_world x) in (u, Account w (a_rays x) (S (a_numbers x))).
Definition counted_rnd2 (x : account W) : vec2 * account W := let (u, w) := rnd2 (a_world x) in (u, Account w (a_rays x) (S (S (a_numbers x)))).
(** no answer is a surface without a material *)
Definition solid_world : Prop := forall w r i, fst (hit w r) = Some i -> i_null i = false.
(** however it ends, the computation traces at most [rays] rays and draws at most [numbers] random numbers *)
Definition costs {A} (rays numbers : nat) (m : M (account W) A) : Prop :=
  forall s, let x := s_w _ s in let y := s_w _ (snd (m s)) in (a_rays y <= a_rays x + rays)%nat /\ (a_numbers y <= a_numbers x + numbers)%nat.
End Counted.
