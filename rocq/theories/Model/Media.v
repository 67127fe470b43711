(** src/media: densities, transmittance estimators, free-flight sampling, the medium itself.
    Compiled with NONEXPMEDIA false (common.h), so the [#if NONEXPMEDIA] branches are not modelled.
    Random numbers come from a list of uniform values; running out of them is [OutOfFuel].
    t_min, t_max are finite; [sampled_t] may become infinite. *)
From Coq Require Import Reals List String.
From Coquelicot Require Import Rbar.
From Verif.Base Require Import Outcome.
From Verif.Model Require Import Vec Matrix BBox.
Import ListNotations.
Open Scope R_scope.

(** vector.h:1880-1885 *)
Definition vexp (a : vec3) : vec3 := V3 (exp (vx a)) (exp (vy a)) (exp (vz a)).
(** transform.cpp:64-70 *)
Definition tf_ray (t : transform) (r : ray) : ray := Ray (tf_point t (org r)) (tf_vector t (dir r)) (rnear r) (rfar r).

(** density_func.h:39-73, 253-290; the member sigma_t is set by Media::preProcess.
    NoiseDensity and PointAverageDensity only throw; MandlebrotDensity is in Model/Fractal.v;
    OpenVDBDensity needs the OpenVDB library and is not modelled. *)
Inductive density := ConstantDensity (d : vec3) | SphereDensity (d : vec3) (radius : R).
(** density_func.h:55-58, 270-275 *)
Definition dens_D (f : density) (sigma_t p : vec3) : vec3 :=
  match f with
  | ConstantDensity d => vmul d sigma_t
  | SphereDensity d r => if Rlt_dec (sqrNorm p) (r * r) then V3c (vx d) else V3c 0
  end.
(** density_func.h:65-70, 283-286 *)
Definition dens_max (f : density) (sigma_t : vec3) : R :=
  match f with
  | ConstantDensity d => Rmax (vx d * vx sigma_t) (Rmax (vy d * vy sigma_t) (vz d * vz sigma_t))
  | SphereDensity d r => Rmax (vx d) (Rmax (vy d) (vz d))
  end.

(** trans_ests/homo.cpp:22-27 *)
Definition homo_tr (D : vec3 -> vec3) (r : ray) (tMin tMax : R) : vec3 :=
  let dense := D (ray_at r ((tMax - tMin) / 2 + tMin)) in
  vexp (vscale dense (- (tMax - tMin))).

(** trans_ests/ratio.cpp:33-49 *)
Fixpoint ratio_loop (D : vec3 -> vec3) (sigma_t : vec3) (maj : R) (r : ray) (tMax : R)
    (us : list R) (t : R) (tr : vec3) : outcome (vec3 * list R) :=
  match us with
  | [] => OutOfFuel
  | u :: us' =>
      let t := t - ln (1 - u) / maj in
      if Rge_dec t tMax then Ok (tr, us')
      else let ext := vmul (D (ray_at r t)) sigma_t in
           let ext := vminc ext maj in
           ratio_loop D sigma_t maj r tMax us' t (vmul tr (vdiv (vsub (V3c maj) ext) maj))
  end.
Definition ratio_tr D sigma_t maj r (tMin tMax : R) (us : list R) : outcome (vec3 * list R) :=
  ratio_loop D sigma_t maj r tMax us tMin (V3c 1).

(** trans_ests/ray_march.cpp:49-57 *)
Fixpoint march_loop (fuel : nat) (D : vec3 -> vec3) (sigma_t : vec3) (step_size : R) (r : ray) (max_t samp t : R) (od : vec3) : outcome vec3 :=
  match fuel with
  | O => OutOfFuel
  | S n =>
      if Rlt_dec t max_t
      then let step := Rmin step_size (max_t - t) in
           let loc := t + step * samp in
           march_loop n D sigma_t step_size r max_t samp (t + step_size) (vadd od (vmul (D (ray_at r loc)) sigma_t))
      else Ok od
  end.
(** trans_ests/ray_march.cpp:43-59 *)
Definition march_tr (fuel : nat) D sigma_t step_size r (tMin tMax : R) (us : list R) : outcome (vec3 * list R) :=
  match us with
  | [] => OutOfFuel
  | samp :: us' => bind (march_loop fuel D sigma_t step_size r tMax samp tMin (V3c 0)) (fun od => Ok (vexp (vneg od), us'))
  end.

(** trans_est.h: the estimators; Delta (delta.cpp:22) and PseriesCMF (pseries_cmf.cpp:18) throw *)
Inductive estimator := Homo | DeltaTr | Ratio (maj : R) | March (step : R) | PSeries.
Definition transmittance (fuel : nat) (e : estimator) (D : vec3 -> vec3) (sigma_t : vec3) (r : ray) (tMin tMax : R) (us : list R)
  : outcome (vec3 * list R) :=
  match e with
  | Homo => Ok (homo_tr D r tMin tMax, us)
  | DeltaTr => Throw "delta tracking tr"
  | Ratio maj => ratio_tr D sigma_t maj r tMin tMax us
  | March step => march_tr fuel D sigma_t step r tMin tMax us
  | PSeries => Throw "pseries_cmf"
  end.

(** sampling/analytic.cpp:23-30: only the distance is produced, the weight is always 1.
    log(0) is -infinity; a positive number over 0 is +infinity *)
Definition analytic_t (D : vec3 -> vec3) (sigma_t : vec3) (r : ray) (tMin tMax u : R) : Rbar :=
  let dense := vmax_val (vmul (D (ray_at r ((tMax - tMin) / 2 + tMin))) sigma_t) in
  if Req_EM_T dense 0 then p_infty
  else if Req_EM_T u 0 then (if Rlt_dec 0 dense then p_infty else m_infty)
  else Finite (tMin + - ln u / dense).
(** sampling/delta.cpp:25-44 *)
Fixpoint delta_loop (D : vec3 -> vec3) (sigma_t : vec3) (maj : R) (r : ray) (tMax : R) (us : list R) (t : R) : outcome (R * list R) :=
  match us with
  | [] => OutOfFuel
  | u :: us1 =>
      let t := t - ln (1 - u) / maj in
      if Rge_dec t tMax then Ok (t, us1)
      else match us1 with
           | [] => OutOfFuel
           | u2 :: us2 =>
               let dense := vmax_val (vmul (D (ray_at r t)) sigma_t) in
               if Rgt_dec (dense / maj) u2 then Ok (t, us2)
               else delta_loop D sigma_t maj r tMax us2 t
           end
  end.
(** sampling/ray_march.cpp:59-79 *)
Fixpoint march_samp_loop (fuel : nat) (D : vec3 -> vec3) (sigma_t : vec3) (step_size : R) (r : ray) (tMax samp od_samp t : R) (od : vec3) : outcome R :=
  match fuel with
  | O => OutOfFuel
  | S n =>
      if Rlt_dec t tMax
      then let step := Rmin step_size (tMax - t) in
           let loc := t + step * samp in
           let past_od := vmax_val od in
           let od := vadd od (vmul (D (ray_at r loc)) sigma_t) in
           if Rgt_dec (vmax_val od) od_samp
           then Ok (t + step * (od_samp - past_od) / (vmax_val od - past_od))
           else march_samp_loop n D sigma_t step_size r tMax samp od_samp (t + step_size) od
      else Ok (tMax + 1)
  end.
(** sampling.h:34-78 *)
Inductive sampling := Analytic | DeltaSamp (maj : R) | MarchSamp (step : R).
Definition free_flight (fuel : nat) (s : sampling) (D : vec3 -> vec3) (sigma_t : vec3) (r : ray) (tMin tMax : R) (us : list R) : outcome (Rbar * list R) :=
  match s with
  | Analytic => match us with [] => OutOfFuel | u :: us' => Ok (analytic_t D sigma_t r tMin tMax u, us') end
  | DeltaSamp maj => bind (delta_loop D sigma_t maj r tMax us tMin) (fun p => Ok (Finite (fst p), snd p))
  | MarchSamp step => match us with
      | samp :: u :: us' => bind (march_samp_loop fuel D sigma_t step r tMax samp (- ln (1 - u)) tMin (V3c 0)) (fun t => Ok (Finite t, us'))
      | _ => OutOfFuel
      end
  end.

(** media.h:26-97 (without the names and the phase function, which is in Model/Phase.v) *)
Record media := Media {
  m_est : estimator; m_samp : sampling; m_dens : density;
  m_transform : transform; m_abs : vec3; m_sca : vec3 }.
(** standard.cpp:31, 40 *)
Definition m_sigma_t (m : media) : vec3 := vadd (m_abs m) (m_sca m).
Definition m_D (m : media) : vec3 -> vec3 := dens_D (m_dens m) (m_sigma_t m).
(** closure.h:145-148 *)
Definition handleScatter (sampled_t : Rbar) (tMax : R) : bool := if Rbar_lt_dec sampled_t tMax then true else false.
(** one channel of a quotient of colors: x / 0 is not a number *)
Definition cdiv (a b : R) : option R := if Req_EM_T b 0 then None else Some (a / b).
(** a color with possibly undefined channels *)
Record ocolor := OC { ox : option R; oy : option R; oz : option R }.
Definition oc_of (c : vec3) : ocolor := OC (Some (vx c)) (Some (vy c)) (Some (vz c)).
(** standard.cpp:72-81 *)
Definition media_transmittance (fuel : nat) (m : media) (r : ray) (tMin tMax : R) (us : list R) : outcome (vec3 * list R) :=
  transmittance fuel (m_est m) (m_D m) (m_sigma_t m) (tf_ray (tf_inverse (m_transform m)) r) tMin tMax us.
(** standard.cpp:62-69; the value returned by the samplers is always white, the product with it is dropped *)
Definition scatter_weight (m : media) (sampled_t : Rbar) (tMax : R) : ocolor :=
  if handleScatter sampled_t tMax
  then OC (cdiv (vx (m_sca m)) (vx (m_sigma_t m))) (cdiv (vy (m_sca m)) (vy (m_sigma_t m))) (cdiv (vz (m_sca m)) (vz (m_sigma_t m)))
  else oc_of (V3c 1).
(** vector.h:520-525 *)
Definition veq_dec (a b : vec3) : {a = b} + {a <> b}.
Proof.
  destruct a as [a1 a2 a3], b as [b1 b2 b3].
  destruct (Req_EM_T a1 b1) as [E1|E1]; [|right; congruence]. destruct (Req_EM_T a2 b2) as [E2|E2]; [|right; congruence].
  destruct (Req_EM_T a3 b3) as [E3|E3]; [left; congruence|right; congruence].
Defined.
(** standard.cpp:44-70: the weight and the sampled distance (closure.h:131: initially t_max) *)
Definition media_sample (fuel : nat) (m : media) (r : ray) (tMin tMax : R) (us : list R) : outcome (ocolor * Rbar * list R) :=
  let lr := tf_ray (tf_inverse (m_transform m)) r in
  if veq_dec (m_sca m) (V3c 0)
  then bind (transmittance fuel (m_est m) (m_D m) (m_sigma_t m) lr tMin tMax us) (fun p => Ok (oc_of (fst p), Finite tMax, snd p))
  else bind (free_flight fuel (m_samp m) (m_D m) (m_sigma_t m) lr tMin tMax us) (fun p => Ok (scatter_weight m (fst p) tMax, fst p, snd p)).

(** standard.cpp:34-42 over scene.cpp:121-124: every medium, in order, writes its sigma_t into the density object it
    refers to (number d).  [m_D] above is the case of a density object that no other medium refers to. *)
Definition preprocess_media (ms : list (nat * media)) (st : nat -> vec3) : nat -> vec3 :=
  fold_left (fun st p => fun i => if Nat.eqb i (fst p) then m_sigma_t (snd p) else st i) ms st.
(** the field seen by a medium that refers to density object d once the scene is preprocessed *)
Definition scene_D (st : nat -> vec3) (d : nat) (f : density) : vec3 -> vec3 := dens_D f (st d).
