(** Model of CurveXYZFourierSymmetries (src/simsopt/geo/curvexyzfouriersymmetries.py) and CurveHelical (src/simsopt/geo/curvehelical.py) over exact
    reals: the point at one quadrature point as a function of the dof vector.  Simplification: a dof vector of a length other than num_dofs makes
    jax raise (or broadcast); the theorems take the right length. *)
From Coq Require Import Reals ZArith List Bool Arith.
From Verif Require Import Vec3 CurveObjModel.
Import ListNotations.
Open Scope R_scope.

Section Sym.
Variables (order : nat) (nfp ntor : Z) (stellsym : bool).
(** curvexyzfouriersymmetries.py:89-90: None = raises *)
Definition sym_ok : bool := (Z.gcd ntor nfp =? 1)%Z.
(** 135-136 *)
Definition sym_num_dofs : nat := if stellsym then (order + 1) + order + order else 3 * (2 * order + 1).
(** 111-133 _make_names: (component, sine?, mode) in the order of the dofs *)
Definition sym_names : list (nat * bool * nat) :=
  if stellsym then map (fun i => (0%nat, false, i)) (seq 0 (order + 1)) ++ map (fun i => (1%nat, true, i)) (seq 1 order) ++ map (fun i => (2%nat, true, i)) (seq 1 order)
  else flat_map (fun c => (c, false, 0%nat) :: map (fun i => (c, false, i)) (seq 1 order) ++ map (fun i => (c, true, i)) (seq 1 order)) (seq 0 3).
(** 13-34.  d[a:] *)
Definition cosines (dofs : list R) (a : nat) (t : R) : R := sum_to (order + 1) (fun m => nth (a + m) dofs 0 * cos (2 * PI * IZR nfp * INR m * t)).
Definition sines (dofs : list R) (a : nat) (t : R) : R := sum_to order (fun m => nth (a + m) dofs 0 * sin (2 * PI * IZR nfp * INR (m + 1) * t)).
Definition sym_hat (dofs : list R) (t : R) : vec3 :=
  if stellsym then V3 (cosines dofs 0 t) (sines dofs (order + 1) t) (sines dofs (2 * order + 1) t)
  else V3 (cosines dofs 0 t + sines dofs (order + 1) t) (cosines dofs (2 * order + 1) t + sines dofs (3 * order + 2) t) (cosines dofs (4 * order + 2) t + sines dofs (5 * order + 3) t).
(** 36-44 *)
Definition sym_gamma (dofs : list R) (t : R) : vec3 := let angle := 2 * PI * t * IZR ntor in let h := sym_hat dofs t in
  V3 (cos angle * vx h - sin angle * vy h) (sin angle * vx h + cos angle * vy h) (vz h).
End Sym.

Section Helical.
Variables (order : nat) (n0 l0 : Z) (R0 r0 : R).
(** curvehelical.py:10-22 *)
Definition hel_eta (dofs : list R) (phi : R) : R :=
  let A := firstn order dofs in let B := skipn order dofs in
  IZR n0 * phi / IZR l0 + sum_to order (fun m => nth m A 0 * cos (INR m * phi * IZR n0 / IZR l0)) + sum_to order (fun m => nth m B 0 * sin (INR m * phi * IZR n0 / IZR l0)).
Definition hel_gamma (dofs : list R) (t : R) : vec3 := let phi := t * 2 * PI * IZR l0 in let eta := hel_eta dofs phi in
  V3 ((R0 + r0 * cos eta) * cos phi) ((R0 + r0 * cos eta) * sin phi) (- r0 * sin eta).
End Helical.
