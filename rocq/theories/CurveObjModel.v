(** Model of the single-curve objectives of src/simsopt/geo/curveobjectives.py ("py:") and of compute_linking_number
    (src/simsoptpp/python_distance.cpp "cpp:"), over exact reals.  A curve is given by the rows of gamma, gammadash, gammadashdash
    at its quadrature points.  The gradients that jax computes are written out; C76-C78 prove they are the derivatives.
    Simplifications: the exponent p of the L^p penalties is a natural number; np.linspace is exact (C77 holds for every partition that
    its rounding can produce); jnp.maximum has derivative 1/2 at a tie and jnp.abs 0 at 0, as in jax. *)
From Coq Require Import Reals Lra Lia ZArith List Bool String.
From Verif Require Import ListAux VecAux Vec3 CurveModel CurveDiff.
Import ListNotations.
Open Scope R_scope.

Definition sum_to (n : nat) (f : nat -> R) : R := rsuml (map f (seq 0 n)).
(** jnp.mean of n numbers *)
Definition mean (n : nat) (f : nat -> R) : R := sum_to n f / INR n.
(** ** CurveLength: py:17-47 *)
Definition length_J (nq : nat) (l : nat -> R) : R := mean nq l.
Definition length_grad (nq : nat) : nat -> R := fun _ => 1 / INR nq.
(** ** LpCurveCurvature: py:50-95 *)
Definition lp_J (nq p : nat) (thr : R) (kap : nat -> R) (d1 : nat -> vec3) : R :=
  1 / INR p * mean nq (fun k => Rmax (kap k - thr) 0 ^ p * norm3 (d1 k)).
(** derivative of jnp.maximum(x, 0) *)
Definition dmax (x : R) : R := if Rlt_dec 0 x then 1 else if Rlt_dec x 0 then 0 else 1 / 2.
Definition lp_grad0 (nq p : nat) (thr : R) (kap : nat -> R) (d1 : nat -> vec3) : nat -> R :=
  fun k => 1 / INR p * (1 / INR nq) * (INR p * Rmax (kap k - thr) 0 ^ (p - 1) * dmax (kap k - thr)) * norm3 (d1 k).
Definition lp_grad1 (nq p : nat) (thr : R) (kap : nat -> R) (d1 : nat -> vec3) : nat -> vec3 :=
  fun k => scal3 (1 / INR p * (1 / INR nq) * Rmax (kap k - thr) 0 ^ p / norm3 (d1 k)) (d1 k).
(** ** LpCurveTorsion: py:98-146 *)
Definition lpt_J (nq p : nat) (thr : R) (tor : nat -> R) (d1 : nat -> vec3) : R := lp_J nq p thr (fun k => Rabs (tor k)) d1.
(** derivative of jnp.abs *)
Definition dabs (x : R) : R := if Rlt_dec 0 x then 1 else if Rlt_dec x 0 then -1 else 0.
Definition lpt_grad0 (nq p : nat) (thr : R) (tor : nat -> R) (d1 : nat -> vec3) : nat -> R :=
  fun k => lp_grad0 nq p thr (fun k => Rabs (tor k)) d1 k * dabs (tor k).
Definition lpt_grad1 (nq p : nat) (thr : R) (tor : nat -> R) (d1 : nat -> vec3) : nat -> vec3 := lp_grad1 nq p thr (fun k => Rabs (tor k)) d1.
(** ** MeanSquaredCurvature: py:466-505 *)
Definition msc_J (nq : nat) (kap : nat -> R) (d1 : nat -> vec3) : R :=
  mean nq (fun k => kap k ^ 2 * norm3 (d1 k)) / mean nq (fun k => norm3 (d1 k)).
Definition msc_grad0 (nq : nat) (kap : nat -> R) (d1 : nat -> vec3) : nat -> R :=
  fun k => 1 / INR nq * (2 * kap k * norm3 (d1 k)) / mean nq (fun k => norm3 (d1 k)).
Definition msc_grad1 (nq : nat) (kap : nat -> R) (d1 : nat -> vec3) : nat -> vec3 :=
  let num := mean nq (fun k => kap k ^ 2 * norm3 (d1 k)) in let den := mean nq (fun k => norm3 (d1 k)) in
  fun k => scal3 ((1 / INR nq * kap k ^ 2 / den - 1 / INR nq * num / (den * den)) / norm3 (d1 k)) (d1 k).
(** ** dJ of the objectives with two gradients: py:92-93, 143-144, 500-502 *)
Definition curvature_dJ (n nq : nat) (C1 C2 : nat -> nat -> vec3) (J0 J1 : nat -> vec3) (grad1 : nat -> vec3) : list R :=
  vmap2 Rplus (dkappa_vjp n nq C1 C2 J0 J1) (curve_vjp n C1 nq grad1).
Definition torsion_dJ (n nq : nat) (C1 C2 C3 : nat -> nat -> vec3) (J0 J1 J2 : nat -> vec3) (grad1 : nat -> vec3) : list R :=
  vmap2 Rplus (dtorsion_vjp n nq C1 C2 C3 J0 J1 J2) (curve_vjp n C1 nq grad1).

(** ** ArclengthVariation: py:359-463 *)
Inductive nint_arg := Full | Partial | Other_string | Int (z : Z).
(** the curve's class: CurveXYZFourier of some order, or any other *)
Inductive curve_class := XYZ (order : nat) | OtherCurve.
Inductive av_error := AssertionError | RuntimeError.
(** py:399-411 *)
Definition nintervals (a : nint_arg) (c : curve_class) (nq : nat) : nat + av_error :=
  match a with
  | Other_string => inr AssertionError
  | Int z => if ((0 <? z) && (z <=? Z.of_nat nq))%Z then inl (Z.to_nat z) else inr AssertionError
  | Full => inl nq
  | Partial => match c with XYZ o => inl (2 * o)%nat | OtherCurve => inr RuntimeError end
  end.
(** py:414: floor of i * nq / nint *)
Definition index (nq nint i : nat) : nat := (i * nq / nint)%nat.
(** py:415-417: mat[i, k].  1 / 0 is numpy's inf, which is written to an empty slice *)
Definition mat (idx : nat -> nat) (i k : nat) : R := if ((idx i <=? k) && (k <? idx (S i)))%nat then 1 / INR (idx (S i) - idx i) else 0.
(** mat @ l *)
Definition block (idx : nat -> nat) (nq : nat) (l : nat -> R) (i : nat) : R := sum_to nq (fun k => mat idx i k * l k).
(** jnp.var; nan for no numbers at all *)
Definition var (n : nat) (y : nat -> R) : R := mean n (fun i => (y i - mean n y) ^ 2).
Definition av_J (idx : nat -> nat) (nq nint : nat) (l : nat -> R) : option R :=
  match nint with O => None | _ => Some (var nint (block idx nq l)) end.
(** py:419 the jax gradient of var(mat @ l) *)
Definition av_grad (idx : nat -> nat) (nq nint : nat) (l : nat -> R) : nat -> R :=
  fun k => sum_to nint (fun i => 2 / INR nint * (block idx nq l i - mean nint (block idx nq l)) * mat idx i k).

(** ** LinkingNumber: py:513-560, cpp:176-220 *)
(** a curve: gamma and gammadash at its quadrature points, and quadpoints[1] - quadpoints[0] *)
Record lcurve := LC { lc_pts : list (vec3 * vec3); lc_dphi : R }.
(** i = 0, ds, 2 ds, ... < n *)
Definition stride (ds n : nat) : list nat := filter (fun i => (i mod ds =? 0)%nat) (seq 0 n).
(** cpp:198-208 *)
Definition gauss (a b : vec3 * vec3) : R :=
  let d := sub3 (fst a) (fst b) in let u := snd a in let v := snd b in
  let dr := sqrt (vx d * vx d + vy d * vy d + vz d * vz d) in
  (vx u * (vy v * vz d - vz v * vy d) - vy u * (vx v * vz d - vz v * vx d) + vz u * (vx v * vy d - vy v * vx d)) / (dr * dr * dr).
Definition lpt (c : lcurve) (i : nat) : vec3 * vec3 := nth i (lc_pts c) (v0, v0).
Definition gauss_total (ds : nat) (a b : lcurve) : R :=
  rsuml (map (fun i => rsuml (map (fun j => gauss (lpt a i) (lpt b j)) (stride ds (List.length (lc_pts b))))) (stride ds (List.length (lc_pts a)))).
(** std::round of a number >= 0 *)
Definition cround (x : R) : Z := Int_part (x + 1 / 2).
Definition linking_pair (ds : nat) (a b : lcurve) : Z := cround (Rabs (gauss_total ds a b * (lc_dphi a * INR ds) * (lc_dphi b * INR ds)) / (4 * PI)).
(** py:519-520 *)
Definition divides_all (ds : nat) (cs : list lcurve) : bool := forallb (fun c => List.length (lc_pts c) mod ds =? 0)%nat cs.
Definition dflt := LC [] 0.
(** None: the assertion (a zero downsample makes np.mod nan) *)
Definition linking_number (ds : nat) (cs : list lcurve) : option Z :=
  if (ds =? 0)%nat then None else if negb (divides_all ds cs) then None else
  Some (fold_left (fun t p => fold_left (fun t q => (t + linking_pair ds (nth p cs dflt) (nth q cs dflt))%Z) (seq 0 p) t) (seq 1 (List.length cs - 1)) 0%Z).
