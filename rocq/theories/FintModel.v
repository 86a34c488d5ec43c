(** C134: interpolation of periodic data on a uniform grid. *)
From Coq Require Import Reals List Arith.
From Verif Require Import CurveObjModel.
Import ListNotations.
Open Scope R_scope.

(** Model of /repo/src/simsopt/util/fourier_interpolation.py:36-37 (xk = np.arange(N) * 2 * np.pi / N). *)
Definition fi_xk (N k : nat) : R := INR k * 2 * PI / INR N.
(** Model of fourier_interpolation.py:40 (w = (-1.0) ** np.arange(0, N)). *)
Definition fi_w (k : nat) : R := (-1) ^ k.
(** Model of fourier_interpolation.py:47 (1 / np.tan).  Simplification: 1/tan is written cos/sin; over the
    floats np.tan at pi/2 is about 1.6e16 and its reciprocal about 0, which is the value of cos/sin. *)
Definition inv_tan (d : R) : R := cos d / sin d.
(** Model of fourier_interpolation.py:42-50: entry D[., k], with the shift by eps exactly where D == 0. *)
Definition fi_D (eps : R) (N : nat) (x : R) (k : nat) : R :=
  let d := 1 / 2 * (x - fi_xk N k) in
  let d' := d + eps * (if Req_EM_T d 0 then 1 else 0) in
  if Nat.even N then inv_tan d' else 1 / sin d'.
(** Model of fourier_interpolation.py:33, 53 (np.dot(D, w * fk) / np.dot(D, w)), for one point x. *)
Definition fourier_interp (eps : R) (fk : list R) (x : R) : R :=
  let N := length fk in
  sum_to N (fun k => fi_D eps N x k * (fi_w k * nth k fk 0)) / sum_to N (fun k => fi_D eps N x k * fi_w k).
(** Model of fourier_interpolation.py:16, 54: the vector of values. *)
Definition fourier_interpolation (eps : R) (fk xs : list R) : list R := map (fourier_interp eps fk) xs.
