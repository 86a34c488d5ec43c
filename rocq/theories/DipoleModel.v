(** Model of the field of magnetic dipoles: src/simsoptpp/dipole_field.cpp ("cpp:", the kernels of both the SIMD and the plain version) and
    DipoleField (src/simsopt/field/magneticfieldclasses.py:571-712, "py:"), over exact reals.  Not modelled: SIMD blocks, OpenMP, float rounding, vtk. *)
From Coq Require Import Reals List Bool Arith.
From Verif Require Import VecAux Vec3 BSModel PointsModel FieldAModel.
Import ListNotations.
Open Scope R_scope.

(** moment and location *)
Definition dipole := (vec3 * vec3)%type.
(** mu0 / (4 pi) *)
Definition fak : R := / 10 ^ 7.
(** cpp:49-61 *)
Definition kern_B (x : vec3) (d : dipole) : vec3 := let m := fst d in let r := sub3 x (snd d) in let rmag_inv := rsqrt (normsq r) in
  let rmag_inv_3 := rmag_inv * (rmag_inv * rmag_inv) in let rmag_inv_5 := rmag_inv_3 * (rmag_inv * rmag_inv) in let rdotm := dot3 r m in
  V3 (3 * rdotm * vx r * rmag_inv_5 - vx m * rmag_inv_3) (3 * rdotm * vy r * rmag_inv_5 - vy m * rmag_inv_3) (3 * rdotm * vz r * rmag_inv_5 - vz m * rmag_inv_3).
(** cpp:16-70 *)
Definition dipole_B (ds : list dipole) (x : vec3) : vec3 := scal3 fak (sum3 (map (kern_B x) ds)).
(** cpp:104-115, 72-124 *)
Definition kern_A (x : vec3) (d : dipole) : vec3 := let m := fst d in let r := sub3 x (snd d) in let rmag_inv := rsqrt (normsq r) in
  let rmag_inv_3 := rmag_inv * (rmag_inv * rmag_inv) in let mcrossr := cross m r in V3 (vx mcrossr * rmag_inv_3) (vy mcrossr * rmag_inv_3) (vz mcrossr * rmag_inv_3).
Definition dipole_A (ds : list dipole) (x : vec3) : vec3 := scal3 fak (sum3 (map (kern_A x) ds)).
(** cpp:166-196: dB(i, j, l); the lower triangle is copied *)
Definition kern_dB (x : vec3) (j l : nat) (d : dipole) : R := let m := fst d in let r := sub3 x (snd d) in let rmag_inv := rsqrt (normsq r) in
  let rmag_inv_2 := rmag_inv * rmag_inv in let rmag_inv_3 := rmag_inv * rmag_inv_2 in let rmag_inv_5 := rmag_inv_3 * rmag_inv_2 in let rdotm := dot3 r m in
  let dB_i1x := 3 * rmag_inv_5 * ((2 * vx m * vx r + rdotm) - 5 * rdotm * vx r * vx r * rmag_inv_2) in
  let dB_i1y := 3 * rmag_inv_5 * ((vx m * vy r + vy m * vx r) - 5 * rdotm * vx r * vy r * rmag_inv_2) in
  let dB_i1z := 3 * rmag_inv_5 * ((vx m * vz r + vz m * vx r) - 5 * rdotm * vx r * vz r * rmag_inv_2) in
  let dB_i2x := 3 * rmag_inv_5 * ((2 * vy m * vy r + rdotm) - 5 * rdotm * vy r * vy r * rmag_inv_2) in
  let dB_i2y := 3 * rmag_inv_5 * ((vy m * vz r + vz m * vy r) - 5 * rdotm * vy r * vz r * rmag_inv_2) in
  let dB_i2z := 3 * rmag_inv_5 * ((2 * vz m * vz r + rdotm) - 5 * rdotm * vz r * vz r * rmag_inv_2) in
  at2 [[dB_i1x; dB_i1y; dB_i1z]; [dB_i1y; dB_i2x; dB_i2y]; [dB_i1z; dB_i2y; dB_i2z]] j l.
Definition dipole_dB (ds : list dipole) (x : vec3) (j l : nat) : R := fak * rsuml (map (kern_dB x j l) ds).
(** cpp:232-263: dA(i, j, l) *)
Definition kern_dA (x : vec3) (j l : nat) (d : dipole) : R := let m := fst d in let r := sub3 x (snd d) in let rmag_inv := rsqrt (normsq r) in
  let rmag_inv_2 := rmag_inv * rmag_inv in let rmag_inv_3 := rmag_inv * rmag_inv_2 in let mcrossr := cross m r in
  at2 [[rmag_inv_3 * (-3 * vx mcrossr * vx r * rmag_inv_2); rmag_inv_3 * (- vz m - 3 * vx mcrossr * vy r * rmag_inv_2); rmag_inv_3 * (vy m - 3 * vx mcrossr * vz r * rmag_inv_2)];
       [rmag_inv_3 * (vz m - 3 * vy mcrossr * vx r * rmag_inv_2); rmag_inv_3 * (-3 * vy mcrossr * vy r * rmag_inv_2); rmag_inv_3 * (- vx m - 3 * vy mcrossr * vz r * rmag_inv_2)];
       [rmag_inv_3 * (- vy m - 3 * vz mcrossr * vx r * rmag_inv_2); rmag_inv_3 * (vx m - 3 * vz mcrossr * vy r * rmag_inv_2); rmag_inv_3 * (-3 * vz mcrossr * vz r * rmag_inv_2)]] j l.
Definition dipole_dA (ds : list dipole) (x : vec3) (j l : nat) : R := fak * rsuml (map (kern_dA x j l) ds).

Inductive flag := Cartesian | Cylindrical | Toroidal.
Section Placement.
Variables (nfp : nat) (stellsym : bool) (fl : flag) (R0 : R).
(** py:664-683: the moment of the dipole at o in Cartesian components *)
Definition moment (o m : vec3) : vec3 := let phi := atan2 (vy o) (vx o) in let theta := atan2 (vz o) (sqrt (vx o ^ 2 + vy o ^ 2) - R0) in
  match fl with
  | Cartesian => m
  | Cylindrical => V3 (vx m * cos phi - vy m * sin phi) (vx m * sin phi + vy m * cos phi) (vz m)
  | Toroidal => V3 (vx m * cos phi * cos theta - vy m * sin phi - vz m * cos phi * sin theta) (vx m * sin phi * cos theta + vy m * cos phi - vz m * sin phi * sin theta) (vx m * sin theta + vz m * cos theta)
  end.
(** py:643-648 *)
Definition stell_list : list R := if stellsym then [1; -1] else [1].
Definition phi0 (fp : nat) : R := 2 * PI / INR nfp * INR fp.
(** py:690-701 *)
Definition place (stell : R) (fp : nat) (d : dipole) : dipole := let o := snd d in let m := moment o (fst d) in let p := phi0 fp in
  (V3 (vx m * cos p * stell - vy m * sin p) (vx m * sin p * stell + vy m * cos p) (vz m),
   V3 (vx o * cos p - vy o * sin p * stell) (vx o * sin p + vy o * cos p * stell) (vz o * stell)).
(** py:685-706 *)
Definition placed (ds : list dipole) : list dipole := flat_map (fun stell => flat_map (fun fp => map (place stell fp) ds) (seq 0 nfp)) stell_list.
(** DipoleField(dipole_grid, dipole_vectors, stellsym, nfp, coordinate_flag, R0 = R0).B() *)
Definition DipoleField_B (ds : list dipole) : vec3 -> vec3 := dipole_B (placed ds).
(** cpp:313-384 dipole_field_Bn: the contribution of (stell, fp) to A(i, j, :) at the point x with unit normal n; the dipole j is at o *)
Definition Bn_term (x n o : vec3) (stell : R) (fp : nat) : vec3 := let sphi0 := sin (phi0 fp) in let cphi0 := cos (phi0 fp) in
  let mp := V3 (vx o * cphi0 - vy o * sphi0 * stell) (vx o * sphi0 + vy o * cphi0 * stell) (vz o * stell) in
  let mp_phi := atan2 (vy o) (vx o) in let mp_theta := atan2 (vz o) (sqrt (vx o * vx o + vy o * vy o) - R0) in
  let r := sub3 x mp in let rmag_inv := rsqrt (normsq r) in let rmag_inv_3 := rmag_inv * (rmag_inv * rmag_inv) in let rmag_inv_5 := rmag_inv_3 * (rmag_inv * rmag_inv) in
  let rdotn := dot3 r n in
  let G := V3 (3 * rdotn * vx r * rmag_inv_5 - vx n * rmag_inv_3) (3 * rdotn * vy r * rmag_inv_5 - vy n * rmag_inv_3) (3 * rdotn * vz r * rmag_inv_5 - vz n * rmag_inv_3) in
  let Ax := (vx G * cphi0 + vy G * sphi0) * stell in let Ay := - vx G * sphi0 + vy G * cphi0 in let Az := vz G in
  match fl with
  | Cylindrical => V3 (fak * (Ax * cos mp_phi + Ay * sin mp_phi)) (fak * (- Ax * sin mp_phi + Ay * cos mp_phi)) (fak * vz G)
  | Toroidal => V3 (fak * (Ax * cos mp_phi * cos mp_theta + Ay * sin mp_phi * cos mp_theta + Az * sin mp_theta)) (fak * (- Ax * sin mp_phi + Ay * cos mp_phi))
                   (fak * (- Ax * cos mp_phi * sin mp_theta - Ay * sin mp_phi * sin mp_theta + Az * cos mp_theta))
  | Cartesian => V3 (fak * Ax) (fak * Ay) (fak * vz G)
  end.
(** pow(-1, stell) for stell = 0 .. stellsym *)
Definition Bn_row (x n o : vec3) : vec3 := sum3 (flat_map (fun stell => map (fun fp => Bn_term x n o (pow (-1) stell) fp) (seq 0 nfp)) (seq 0 (if stellsym then 2 else 1))).
End Placement.
