(** Model of the analytic fields ToroidalField, PoloidalField and MirrorModel (src/simsopt/field/magneticfieldclasses.py:24-112, 128-220, 918-1013)
    at one point, over exact reals.  numpy's division by zero gives nan or inf; here the theorems exclude it.  Arrays built by np.array of rows and
    then transposed are written as they are written in the code, with the transposition of the indices explicit: x.T of an array with indices
    (a, b, point) has indices (point, b, a).  Not modelled: caches (C42), json. *)
From Coq Require Import Reals List Bool Arith.
From Verif Require Import Vec3 PointsModel.
Import ListNotations.
Open Scope R_scope.

Definition at2 (l : list (list R)) (a b : nat) : R := nth b (nth a l []) 0.
Definition at3 (l : list (list (list R))) (a b c : nat) : R := nth c (nth b (nth a l []) []) 0.
Definition rad (p : vec3) : R := sqrt (vx p ^ 2 + vy p ^ 2).

Section Toroidal.
Variables (R0 B0 : R) (p : vec3).
Let x := vx p. Let y := vy p. Let z := vz p.
(** magneticfieldclasses.py:40-45 *)
Definition tor_B : vec3 := let phi := atan2 y x in scal3 (B0 * R0) (V3 (- sin phi / rad p) (cos phi / rad p) 0).
(** 47-64 *)
Definition tor_dB (j l : nat) : R := let c := B0 * R0 / rad p ^ 4 in
  at2 [[c * (2 * (x * y)); c * (y ^ 2 - x ^ 2); 0 * rad p]; [c * (y ^ 2 - x ^ 2); c * (-2 * (x * y)); 0 * rad p]; [0 * rad p; 0 * rad p; 0 * rad p]] l j.
(** 66-78 *)
Definition tor_ddB (j k l : nat) : R := 2 * B0 * R0 * (1 / (x ^ 2 + y ^ 2) ^ 3 * at3
  [[[3 * x ^ 2 + y ^ 3; x ^ 3 - 3 * x * y ^ 2; 0]; [x ^ 3 - 3 * x * y ^ 2; 3 * x ^ 2 * y - y ^ 3; 0]; [0; 0; 0]];
   [[x ^ 3 - 3 * x * y ^ 2; 3 * x ^ 2 * y - y ^ 3; 0]; [3 * x ^ 2 * y - y ^ 3; - x ^ 3 + 3 * x * y ^ 2; 0]; [0; 0; 0]];
   [[0; 0; 0]; [0; 0; 0]; [0; 0; 0]]] l k j).
(** 80-85 *)
Definition tor_A : vec3 := scal3 (B0 * R0) (V3 (z * x / (x ^ 2 + y ^ 2)) (z * y / (x ^ 2 + y ^ 2)) (0 * z)).
(** 87-93 *)
Definition tor_dA (j l : nat) : R := B0 * R0 * (z / (x ^ 2 + y ^ 2) ^ 2 * at2
  [[- x ^ 2 + y ^ 2; -2 * x * y; 0]; [-2 * x * y; x ^ 2 - y ^ 2; 0]; [x * (x ^ 2 + y ^ 2) / z; y * (x ^ 2 + y ^ 2) / z; 0]] l j).
(** 95-112: transpose((3, 0, 1, 2)) keeps the order of the three indices *)
Definition tor_ddA (j k l : nat) : R := 2 * B0 * R0 * (z / (x ^ 2 + y ^ 2) ^ 3 * at3
  [[[x ^ 3 - 3 * x * y ^ 2; 3 * x ^ 2 * y - y ^ 3; (- x ^ 4 + y ^ 4) / (2 * z)];
    [3 * x ^ 2 * y - y ^ 3; - x ^ 3 + 3 * x * y ^ 2; - x * y * (x ^ 2 + y ^ 2) / z];
    [(- x ^ 4 + y ^ 4) / (2 * z); - x * y * (x ^ 2 + y ^ 2) / z; 0]];
   [[3 * x ^ 2 * y - y ^ 3; - x ^ 3 + 3 * x * y ^ 2; - x * y * (x ^ 2 + y ^ 2) / z];
    [- x ^ 3 + 3 * x * y ^ 2; -3 * x ^ 2 * y + y ^ 3; (x ^ 4 - y ^ 4) / (2 * z)];
    [- x * y * (x ^ 2 + y ^ 2) / z; (x ^ 4 - y ^ 4) / (2 * z); 0]];
   [[0; 0; 0]; [0; 0; 0]; [0; 0; 0]]] j k l).
End Toroidal.

Section Poloidal.
Variables (R0 B0 q : R) (p : vec3).
Let x := vx p. Let y := vy p. Let z := vz p.
Definition pol_phi : R := atan2 y x.
Definition pol_theta : R := atan2 z (sqrt (x ^ 2 + y ^ 2) - R0).
Definition pol_r : R := sqrt ((sqrt (x ^ 2 + y ^ 2) - R0) ^ 2 + z ^ 2).
(** 147-158 *)
Definition pol_B : vec3 := let phi := pol_phi in let theta := pol_theta in let r := pol_r in
  scal3 (B0 / R0 / q) (V3 (- (sin theta * r) * cos phi) (- (sin theta * r) * sin phi) (cos theta * r)).
(** 160-220.  The array handed over is np.array([dB_by_dX1, dB_by_dX2, dB_by_dX3]).T *)
Definition dtheta_by (k : nat) : R := let R := sqrt (x ^ 2 + y ^ 2) in match k with
  | O => - (x * z / (R * (x ^ 2 + y ^ 2 + z ^ 2 - 2 * R * R0 + R0 ^ 2)))
  | S O => - (y * z / (R * (x ^ 2 + y ^ 2 + z ^ 2 - 2 * R * R0 + R0 ^ 2)))
  | _ => 1 / ((- R0 + R) * (1 + z ^ 2 / (R0 - R) ^ 2)) end.
Definition dphi_by (k : nat) : R := match k with O => - (y / (x ^ 2 + y ^ 2)) | S O => x / (x ^ 2 + y ^ 2) | _ => 0 * z end.
Definition dunit_by (k : nat) : list R := let phi := pol_phi in let theta := pol_theta in
  [- cos theta * cos phi * dtheta_by k + sin theta * sin phi * dphi_by k; - cos theta * sin phi * dtheta_by k - sin theta * cos phi * dphi_by k; - sin theta * dtheta_by k].
Definition unit_theta : list R := [- sin pol_theta * cos pol_phi; - sin pol_theta * sin pol_phi; cos pol_theta].
Definition dr_by (k : nat) : R := let R := sqrt (x ^ 2 + y ^ 2) in match k with
  | O => x * (- R0 + R) / (R * sqrt ((R0 - R) ^ 2 + z ^ 2))
  | S O => y * (- R0 + R) / (R * sqrt ((R0 - R) ^ 2 + z ^ 2))
  | _ => z / sqrt ((R0 - R) ^ 2 + z ^ 2) end.
Definition pol_term (k : nat) : list R := map (fun i => nth i (dunit_by k) 0 * pol_r + nth i unit_theta 0 * dr_by k) (seq 0 3).
Definition pol_dB (j l : nat) : R := B0 / R0 / q * at2 [pol_term 0; pol_term 1; pol_term 2] l j.
(** magneticfield.h:76-95 _AbsB_impl, _GradAbsB_impl *)
Definition absB (b : vec3) : R := sqrt (vx b * vx b + vy b * vy b + vz b * vz b).
Definition gradAbsB (b : vec3) (dB : nat -> nat -> R) (j : nat) : R := (vx b * dB j 0%nat + vy b * dB j 1%nat + vz b * dB j 2%nat) / absB b.
End Poloidal.

Section Mirror.
Variables (B0 gamma Zm : R).
(** 956-960 *)
Definition mir_psi (r z : R) : R := let factor1 := 1 + ((z - Zm) / gamma) ^ 2 in let factor2 := 1 + ((z + Zm) / gamma) ^ 2 in
  r * r * B0 / (2 * PI * gamma) * (1 / factor1 + 1 / factor2).
Variable p : vec3.
Let x := vx p. Let y := vy p. Let z := vz p.
Let r := sqrt (x ^ 2 + y ^ 2).
Let factor1 := (1 + ((z - Zm) / gamma) ^ 2) ^ 2.
Let factor2 := (1 + ((z + Zm) / gamma) ^ 2) ^ 2.
Definition mir_Br : R := r * B0 / (PI * gamma ^ 3) * ((z - Zm) / factor1 + (z + Zm) / factor2).
(** 962-974 *)
Definition mir_B : vec3 := let phi := atan2 y x in V3 (mir_Br * cos phi) (mir_Br * sin phi) (mir_psi r z * 2 / r / r).
(** 976-1013 *)
Definition mir_dB (j l : nat) : R := let phi := atan2 y x in
  let dBrdr := B0 / (PI * gamma ^ 3) * ((z - Zm) / factor1 + (z + Zm) / factor2) in let dBzdz := -2 * dBrdr in
  let dBrdz := B0 * r / (PI * gamma ^ 3) * (1 / factor1 + 1 / factor2 - 4 * gamma ^ 4 * ((z - Zm) ^ 2 / ((z - Zm) ^ 2 + gamma ^ 2) ^ 3 + (z + Zm) ^ 2 / ((z + Zm) ^ 2 + gamma ^ 2) ^ 3)) in
  let cosphi := cos phi in let sinphi := sin phi in
  let dcosphidx := - x ^ 2 / r ^ 3 + 1 / r in let dsinphidx := - x * y / r ^ 3 in let dcosphidy := - x * y / r ^ 3 in let dsinphidy := - y ^ 2 / r ^ 3 + 1 / r in
  let drdx := x / r in let drdy := y / r in
  at2 [[dBrdr * drdx * cosphi + mir_Br * dcosphidx; dBrdr * drdx * sinphi + mir_Br * dsinphidx; 0];
       [dBrdr * drdy * cosphi + mir_Br * dcosphidy; dBrdr * drdy * sinphi + mir_Br * dsinphidy; 0];
       [dBrdz * cosphi; dBrdz * sinphi; dBzdz]] j l.
End Mirror.
