(** What clients expect from the stop watches, stated on the history of calls. *)
From Coq Require Import Reals List Bool String ZArith Arith.
From Verif.Base Require Import RSum.
From Verif.Model Require Import Clocker.
Import ListNotations.
Open Scope R_scope.

(** the calls made on clock [c], as (is it a start?, when) *)
Fixpoint calls (c : ctype) (ops : list cop) : list (bool * R) :=
  match ops with
  | [] => []
  | Start d t :: l => if ctype_dec d c then (true, t) :: calls c l else calls c l
  | Stop d t :: l => if ctype_dec d c then (false, t) :: calls c l else calls c l
  end.

(** calls number 0, 2, 4, ... are starts and 1, 3, 5, ... are stops *)
Definition alternate (l : list (bool * R)) : Prop :=
  forall i b t, nth_error l i = Some (b, t) -> b = Nat.even i.

(** every clock is used alternately *)
Definition disciplined (ops : list cop) : Prop := forall c, alternate (calls c ops).

Definition when (l : list (bool * R)) (i : nat) : R := snd (nth i l (false, 0)).

(** sum of the lengths of the completed intervals *)
Definition elapsed (l : list (bool * R)) : R :=
  rsum (map (fun k => when l (2 * k + 1) - when l (2 * k)) (seq 0 (List.length l / 2))).

(** the clock is running: there is a start without its stop *)
Definition running (l : list (bool * R)) : bool := Nat.odd (List.length l).

Definition clock_of (o : cop) : ctype := match o with Start c _ => c | Stop c _ => c end.
Definition complaint (o : cop) : string :=
  match o with
  | Start c _ => (to_name c ++ " already active")%string
  | Stop c _ => (to_name c ++ " not active")%string
  end.
