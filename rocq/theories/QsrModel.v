(** Model of NonQuasiSymmetricRatio (src/simsopt/geo/surfaceobjectives.py:681-880) and of QfmResidual (551-625).  Over the reals.
    Arrays over the quadrature grid are functions of (i, j), i < nphi, j < ntheta.  B: the field at the points; nor: the normals. *)
From Coq Require Import Reals Lra Lia List Bool.
From Verif Require Import VecAux Vec3 BSModel CurveDiff CurveObjModel BoozSurf.
Import ListNotations.
Open Scope R_scope.

Section Grid.
Variables (nphi ntheta : nat).
(** np.mean(f) *)
Definition mean_all (f : nat -> nat -> R) : R := sum_to nphi (fun i => sum_to ntheta (fun j => f i j)) / INR (nphi * ntheta).
(** np.mean(f, axis=axis): axis 0 averages over phi, axis 1 (quasi_poloidal) over theta *)
Definition mean_axis (qp : bool) (f : nat -> nat -> R) (a : nat) : R :=
  if qp then sum_to ntheta (fun j => f a j) / INR ntheta else sum_to nphi (fun i => f i a) / INR nphi.
(** B_QS[None, :] or B_QS[:, None] *)
Definition bcast (qp : bool) (q : nat -> R) (i j : nat) : R := if qp then q i else q j.

(** 757-772, 811-824 *)
Definition modB (B : nat -> nat -> vec3) i j : R := sqrt (vx (B i j) ^ 2 + vy (B i j) ^ 2 + vz (B i j) ^ 2).
Definition dSn (nor : nat -> nat -> vec3) i j : R := sqrt (vx (nor i j) ^ 2 + vy (nor i j) ^ 2 + vz (nor i j) ^ 2).
Definition BQS (qp : bool) (B nor : nat -> nat -> vec3) (a : nat) : R :=
  mean_axis qp (fun i j => modB B i j * dSn nor i j) a / mean_axis qp (dSn nor) a.
Definition BnonQS (qp : bool) (B nor : nat -> nat -> vec3) i j : R := modB B i j - bcast qp (BQS qp B nor) i j.
(** 774 *)
Definition qsr_J (qp : bool) (B nor : nat -> nat -> vec3) : R :=
  mean_all (fun i j => dSn nor i j * BnonQS qp B nor i j ^ 2) / mean_all (fun i j => dSn nor i j * bcast qp (BQS qp B nor) i j ^ 2).
(** 829-834 dJ_by_dB *)
Definition qsr_num (qp : bool) (B nor : nat -> nat -> vec3) : R := 5 / 10 * mean_all (fun i j => dSn nor i j * BnonQS qp B nor i j ^ 2).
Definition qsr_den (qp : bool) (B nor : nat -> nat -> vec3) : R := 5 / 10 * mean_all (fun i j => dSn nor i j * bcast qp (BQS qp B nor) i j ^ 2).
Definition qsr_dB (qp : bool) (B nor : nat -> nat -> vec3) i j : vec3 :=
  let dmod := scal3 (/ modB B i j) (B i j) in
  let dnum := scal3 (/ INR (nphi * ntheta)) (scal3 (dSn nor i j) (scal3 (BnonQS qp B nor i j) dmod)) in
  let dden := scal3 (/ INR (nphi * ntheta)) (scal3 (dSn nor i j) (scal3 (bcast qp (BQS qp B nor) i j) dmod)) in
  scal3 (/ qsr_den qp B nor ^ 2) (sub3 (scal3 (qsr_den qp B nor) dnum) (scal3 (qsr_num qp B nor) dden)).
(** 836-880 dJ_by_dsurfacecoefficients, one coefficient: dB is its column of dB_dc, dnor of dnor_dc *)
Definition dS_dc (nor dnor : nat -> nat -> vec3) i j : R := (vx (nor i j) * vx (dnor i j) + vy (nor i j) * vy (dnor i j) + vz (nor i j) * vz (dnor i j)) / dSn nor i j.
Definition dmodB_dc (B dB : nat -> nat -> vec3) i j : R := (vx (B i j) * vx (dB i j) + vy (B i j) * vy (dB i j) + vz (B i j) * vz (dB i j)) / modB B i j.
Definition BQS_dc (qp : bool) (B nor dB dnor : nat -> nat -> vec3) (a : nat) : R :=
  let num := mean_axis qp (fun i j => modB B i j * dSn nor i j) a in
  let denom := mean_axis qp (dSn nor) a in
  let dnum := mean_axis qp (fun i j => dmodB_dc B dB i j * dSn nor i j + modB B i j * dS_dc nor dnor i j) a in
  let ddenom := mean_axis qp (dS_dc nor dnor) a in
  (dnum * denom - ddenom * num) / denom ^ 2.
Definition BnonQS_dc (qp : bool) (B nor dB dnor : nat -> nat -> vec3) i j : R := dmodB_dc B dB i j - bcast qp (BQS_dc qp B nor dB dnor) i j.
Definition qsr_dc (qp : bool) (B nor dB dnor : nat -> nat -> vec3) : R :=
  let dnum := mean_all (fun i j => 5 / 10 * dS_dc nor dnor i j * BnonQS qp B nor i j ^ 2 + dSn nor i j * BnonQS qp B nor i j * BnonQS_dc qp B nor dB dnor i j) in
  let dden := mean_all (fun i j => 5 / 10 * dS_dc nor dnor i j * bcast qp (BQS qp B nor) i j ^ 2 + dSn nor i j * bcast qp (BQS qp B nor) i j * bcast qp (BQS_dc qp B nor dB dnor) i j) in
  (qsr_den qp B nor * dnum - qsr_num qp B nor * dden) / qsr_den qp B nor ^ 2.
End Grid.

(** ** QfmResidual, one index k < np for the points of the grid *)
Section Qfm.
Variable np : nat.
(** 580-590 *)
Definition qfm_J (B nor : nat -> vec3) : R :=
  sum_to np (fun k => dot3 (B k) (scal3 (/ norm3 (nor k)) (nor k)) ^ 2 * norm3 (nor k)) / sum_to np (fun k => norm3 (B k) ^ 2 * norm3 (nor k)).
(** 607-617; dB_by_dX[k, l] is the derivative of component l in direction k: np.sum(dB_by_dX * N[:, :, None, :], axis=3) is matvec *)
Definition mat_dot (m : mat3) (u : vec3) : vec3 := V3 (dot3 (row0 m) u) (dot3 (row1 m) u) (dot3 (row2 m) u).
Definition dJ1dx (b n : vec3) (m : mat3) : vec3 := scal3 (2 * dot3 b n / norm3 n) (mat_dot m n).
Definition dJ1dN (b n : vec3) : vec3 := sub3 (scal3 (2 * dot3 b n / norm3 n) b) (scal3 (dot3 b n ^ 2 / norm3 n ^ 3) n).
Definition dJ2dx (b n : vec3) (m : mat3) : vec3 := scal3 (norm3 n) (scal3 2 (mat_dot m b)).
Definition dJ2dN (b n : vec3) : vec3 := scal3 (dot3 b b / norm3 n) n.
Definition qfm_J1 (B nor : nat -> vec3) : R := sum_to np (fun k => dot3 (B k) (nor k) ^ 2 / norm3 (nor k)).
Definition qfm_J2 (B nor : nat -> vec3) : R := sum_to np (fun k => vx (B k) ^ 2 * norm3 (nor k) + vy (B k) ^ 2 * norm3 (nor k) + vz (B k) ^ 2 * norm3 (nor k)).
(** 624-625: the arguments of the two vjps, and their sum for one coefficient (dgamma_by_dcoeff_vjp and dnormal_by_dcoeff_vjp are the
    contractions with dgamma_by_dcoeff and dnormal_by_dcoeff, C67) *)
Definition qfm_vN (B nor : nat -> vec3) k : vec3 := sub3 (scal3 (/ qfm_J2 B nor) (dJ1dN (B k) (nor k))) (scal3 (qfm_J1 B nor / (qfm_J2 B nor * qfm_J2 B nor)) (dJ2dN (B k) (nor k))).
Definition qfm_vx (B nor : nat -> vec3) (dB : nat -> mat3) k : vec3 :=
  sub3 (scal3 (/ qfm_J2 B nor) (dJ1dx (B k) (nor k) (dB k))) (scal3 (qfm_J1 B nor / (qfm_J2 B nor * qfm_J2 B nor)) (dJ2dx (B k) (nor k) (dB k))).
Definition qfm_dc (B nor : nat -> vec3) (dB : nat -> mat3) (dx dnor : nat -> vec3) : R :=
  sum_to np (fun k => dot3 (qfm_vN B nor k) (dnor k)) + sum_to np (fun k => dot3 (qfm_vx B nor dB k) (dx k)).
End Qfm.
