(** src/math/discrete_pdf.cpp and its use in src/emitters/mesh.cpp. *)
From Coq Require Import Reals List ZArith.
From Flocq Require Import Core.Raux.
From Verif.Base Require Import Outcome RSum.
From Verif.Model Require Import Vec Warp.
Import ListNotations.
Open Scope R_scope.

(** discrete_pdf.cpp:18-25: std::vector<Float>(siz + 1) is zero-filled.  The object is its
    [cdf] vector; [sum], [normalization] and [is_normalized] are written but never read. *)
Definition dpdf_new (siz : nat) : list R := repeat 0 (siz + 1).
(** discrete_pdf.cpp:114-117 (also operator[] 125-129 used as an lvalue) *)
Definition dpdf_set (cdf : list R) (entry : nat) (v : R) : outcome (list R) := store cdf entry v.
(** discrete_pdf.cpp:43-48: running totals before each entry, and the final total *)
Fixpoint totals (total : R) (pdf : list R) : list R * R :=
  match pdf with
  | [] => ([], total)
  | p :: rest => let (c, t) := totals (total + p) rest in (total :: c, t)
  end.
(** discrete_pdf.cpp:27-54; a failed assert is UB.  The sum is accumulated left to right. *)
Definition dpdf_convert (cdf : list R) : outcome (list R) :=
  let sum := fold_left Rplus cdf 0 in
  let (c, total) := totals 0 (map (fun x => x / sum) cdf) in
  if Rlt_dec (Rabs (total - 1)) (1 / 1000) then Ok (c ++ [total]) else UB.
(** discrete_pdf.cpp:56-66 *)
Definition dpdf_normalize (cdf : list R) : list R :=
  let sum := last cdf 0 in map (fun x => x * (1 / sum)) cdf.
(** discrete_pdf.cpp:71-74: the loop index when the loop stops *)
Fixpoint scan (cdf : list R) (value : R) : nat :=
  match cdf with
  | [] => O
  | x :: rest =>
    match rest with
    | [] => O
    | _ => if Rlt_dec x value then S (scan rest value) else O
    end
  end.
(** discrete_pdf.cpp:69-77: the value returned is the cdf entry, converted to int, as written. *)
Definition dpdf_sample (cdf : list R) (value : R) : Z :=
  Ztrunc (nth (scan cdf value - 1) cdf 0).
(** discrete_pdf.cpp:106-109, 119-123 *)
Definition dpdf_pmf (cdf : list R) (entry : nat) : R := nth (entry + 1) cdf 0 - nth entry cdf 0.
(** discrete_pdf.cpp:97-104: index, reused value, pdf.  A negative index would be out of range. *)
Definition dpdf_sample_reuse (cdf : list R) (value : R) : outcome (Z * R * R) :=
  let index := dpdf_sample cdf value in
  if (index <? 0)%Z then UB else
  let i := Z.to_nat index in
  if Nat.ltb (i + 1) (length cdf) then
    let pdf := dpdf_pmf cdf i in Ok (index, (value - nth i cdf 0) / pdf, pdf)
  else UB.

(** emitters/mesh.cpp:26-42 (and directional_mesh.cpp:27-43): cdf[i+1] = cdf[i] + area(i) *)
Fixpoint area_sums (prev : R) (areas : list R) : list R :=
  match areas with [] => [] | a :: rest => (prev + a) :: area_sums (prev + a) rest end.
Definition mesh_cdf (areas : list R) : list R := dpdf_normalize (0 :: area_sums 0 areas).
(** emitters/mesh.cpp:44-53: the chosen primitive, the barycentric sample, and the pdf over area *)
Definition mesh_sample (areas : list R) (sample : vec2) : outcome (Z * vec2 * R) :=
  bind (dpdf_sample_reuse (mesh_cdf areas) (x2 sample)) (fun r =>
    let '(index, v, pdf) := r in
    match nth_error areas (Z.to_nat index) with
    | Some sa => Ok (index, sqrToUniTri (V2 v (y2 sample)), (1 / sa) * pdf)
    | None => UB
    end).
