(** Outcomes of C++ code: normal result, exception, undefined behaviour, fuel exhausted. *)
From Coq Require Import String List.
Import ListNotations.

(** [Throw] models a C++ [throw]; [UB] models undefined behaviour (out-of-range
    access, null dereference, failed [assert]); [OutOfFuel] is the result of a loop
    whose termination is not structural, it never stands for a C++ result. *)
Inductive outcome (A : Type) : Type :=
| Ok (a : A)
| Throw (msg : string)
| UB
| OutOfFuel.
Arguments Ok {A} a.
Arguments Throw {A} msg.
Arguments UB {A}.
Arguments OutOfFuel {A}.

Definition bind {A B} (o : outcome A) (f : A -> outcome B) : outcome B :=
  match o with
  | Ok a => f a
  | Throw m => Throw m
  | UB => UB
  | OutOfFuel => OutOfFuel
  end.

Declare Scope outcome_scope.
Delimit Scope outcome_scope with outcome.
Notation "x <- e ;; f" := (bind e (fun x => f))
  (at level 61, e at next level, right associativity) : outcome_scope.

(** Checked indexing of a [std::vector] / array: out of range is undefined behaviour. *)
Definition at_ {A} (l : list A) (i : nat) : outcome A :=
  match nth_error l i with Some a => Ok a | None => UB end.

Fixpoint update {A} (l : list A) (i : nat) (v : A) : list A :=
  match l, i with
  | [], _ => []
  | _ :: l', O => v :: l'
  | a :: l', S i' => a :: update l' i' v
  end.

(** Checked store. *)
Definition store {A} (l : list A) (i : nat) (v : A) : outcome (list A) :=
  if Nat.ltb i (length l) then Ok (update l i v) else UB.

(** [for (x : l) s = body(x, s)] with early exit on a non-[Ok] outcome. *)
Fixpoint foldM {A S} (f : S -> A -> outcome S) (l : list A) (s : S) : outcome S :=
  match l with
  | [] => Ok s
  | a :: l' => bind (f s a) (fun s' => foldM f l' s')
  end.

Definition is_ok {A} (o : outcome A) : Prop := exists a, o = Ok a.
