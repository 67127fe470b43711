(** The orbit z -> z*z + c of zero. *)
From Coq Require Import Reals ZArith.
From Verif.Model Require Import Vec ComplexNum.
Open Scope R_scope.

(** with i i = j, i j = -1 and j j = -i *)
Fixpoint orbit (c : cx3) (k : nat) : cx3 :=
  match k with
  | O => C3 0 0 0
  | S k' => let '(C3 x y z) := orbit c k' in C3 (x * x - 2 * y * z + re3 c) (2 * x * y - z * z + im3 c) (2 * x * z + y * y + jm3 c)
  end.
(** the square of the length *)
Definition size (a : cx3) : R := let '(C3 x y z) := a in x ^ 2 + y ^ 2 + z ^ 2.
(** the first k+1 points stay within the bound *)
Definition stays (bound : R) (c : cx3) (k : nat) : Prop := forall i, (i <= k)%nat -> size (orbit c i) <= bound.
