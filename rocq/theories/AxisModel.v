(** Model of compute_on_axis_iota (src/simsopt/field/magnetic_axis_helpers.py), over exact reals.  The initial value problem is assumed solved
    exactly (solve_ivp works with rtol = atol = 1e-12), np.linalg.eig returns some eigenvalue first.  Not modelled: CurveRZFourier (C71): the axis is a
    curve (r(t) cos 2 pi t, r(t) sin 2 pi t, z(t)). *)
From Coq Require Import Reals List.
From Verif Require Import Vec3 PointsModel.
Open Scope R_scope.

Record mat2 := M2 { m11 : R; m12 : R; m21 : R; m22 : R }.
(** 26-82: p = the point of the axis, B = B(), dB a b = dB_by_dX()[a, b] *)
Definition tangent_A (phi : R) (p B : vec3) (dB : nat -> nat -> R) : mat2 :=
  let B1 := vx B in let B2 := vy B in let B3 := vz B in
  let dB1_dx := dB 0%nat 0%nat in let dB1_dy := dB 0%nat 1%nat in let dB1_dz := dB 0%nat 2%nat in
  let dB2_dx := dB 1%nat 0%nat in let dB2_dy := dB 1%nat 1%nat in let dB2_dz := dB 1%nat 2%nat in
  let dB3_dx := dB 2%nat 0%nat in let dB3_dy := dB 2%nat 1%nat in let dB3_dz := dB 2%nat 2%nat in
  let c := cos (2 * PI * phi) in let s := sin (2 * PI * phi) in
  let r := sqrt (vx p ^ 2 + vy p ^ 2) in let dx_dR := c in let dy_dR := s in
  let BR := c * B1 + s * B2 in let Bphi := - s * B1 + c * B2 in let BZ := B3 in
  let dB1_dR := dB1_dx * dx_dR + dB1_dy * dy_dR in let dB2_dR := dB2_dx * dx_dR + dB2_dy * dy_dR in let dB3_dR := dB3_dx * dx_dR + dB3_dy * dy_dR in
  let dBR_dR := c * dB1_dR + s * dB2_dR in let dBphi_dR := - s * dB1_dR + c * dB2_dR in let dBZ_dR := dB3_dR in
  let dBR_dZ := c * dB1_dz + s * dB2_dz in let dBphi_dZ := - s * dB1_dz + c * dB2_dz in let dBZ_dZ := dB3_dz in
  let Bphi_R := Bphi / r in let d_Bphi_R_dR := (dBphi_dR * r - Bphi) / r ^ 2 in let d_Bphi_R_dZ := dBphi_dZ / r in
  M2 ((dBR_dR - (BR / Bphi_R) * d_Bphi_R_dR) / Bphi_R) ((dBR_dZ - (BR / Bphi_R) * d_Bphi_R_dZ) / Bphi_R)
     ((dBZ_dR - (BZ / Bphi_R) * d_Bphi_R_dR) / Bphi_R) ((dBZ_dZ - (BZ / Bphi_R) * d_Bphi_R_dZ) / Bphi_R).
Definition mat_vec (a : mat2) (x : R * R) : R * R := (m11 a * fst x + m12 a * snd x, m21 a * fst x + m22 a * snd x).
(** 83: the right hand side for x = (x[:2], x[2:]) *)
Definition tangent_map (phi : R) (p B : vec3) (dB : nat -> nat -> R) (x : (R * R) * (R * R)) : (R * R) * (R * R) :=
  let a := tangent_A phi p B dB in
  ((2 * PI * fst (mat_vec a (fst x)), 2 * PI * snd (mat_vec a (fst x))), (2 * PI * fst (mat_vec a (snd x)), 2 * PI * snd (mat_vec a (snd x)))).
(** 88: x0 *)
Definition start : (R * R) * (R * R) := ((1, 0), (0, 1)).
(** 90: results.y[:, -1].reshape((2, 2)): the rows are the two solutions *)
Definition final_matrix (x : (R * R) * (R * R)) : mat2 := M2 (fst (fst x)) (snd (fst x)) (fst (snd x)) (snd (snd x)).
(** 92: for the eigenvalue re + i im *)
Definition iota_of (nfp : nat) (re im : R) : R := atan2 im re * INR nfp / (2 * PI).
