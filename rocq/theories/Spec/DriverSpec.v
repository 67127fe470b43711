(** What a render should be, in terms of one stream of random numbers. *)
From Coq Require Import Reals ZArith List.
From Verif.Base Require Import Loops.
From Verif.Model Require Import Vec BBox Camera Integrators.
From Verif.Spec Require Import FilmSpec.
Import ListNotations.
Open Scope R_scope.

(** the numbers produced by a generator, one after the other *)
Definition stream {G} (next : G -> R * G) (g : G) (k : nat) : R := fst (next (Nat.iter k (fun g => snd (next g)) g)).

Section Stream.
(** the stream, and how a compiler assigns the two numbers of a plane sample: [swap] is true if the
    second argument is evaluated first *)
Variable u : nat -> R.
Variable swap : bool.
Variable hit : ray -> option isect.

Definition plane (k : nat) : vec2 := if swap then V2 (u (S k)) (u k) else V2 (u k) (u (S k)).
(** the answer of a program that starts reading the stream at position k, and the position it ends at *)
Fixpoint answer {A} (q : query A) (k : nat) : A * nat :=
  match q with
  | QRet a => (a, k)
  | QHit r f => answer (f (hit r)) k
  | QRand1 f => answer (f (u k)) (S k)
  | QRand2 f => answer (f (plane k)) (S (S k))
  end.
(** camera samples of a list of pixels: film position, aperture, then the integrator *)
Fixpoint shots (cam : vec2 -> vec2 -> ray) (Li : ray -> query vec3) (pix : list (Z * Z)) (k : nat) : list camera_sample :=
  match pix with
  | [] => []
  | (x, y) :: rest =>
      let ps := V2 (IZR x + x2 (plane k)) (IZR y + y2 (plane k)) in
      let '(rad, k') := answer (Li (cam ps (plane (S (S k))))) (S (S (S (S k)))) in
      (ps, rad) :: shots cam Li rest k'
  end.
(** every pixel once, row by row; n rounds *)
Definition rounds (n : nat) (w h : Z) : list (Z * Z) :=
  flat_map (fun _ => flat_map (fun y => map (fun x => (x, y)) (zrange 0 w)) (zrange 0 h)) (seq 0 n).
End Stream.
