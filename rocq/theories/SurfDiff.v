(** Model of the base class Surface: normals, area, volume, fundamental forms, curvatures and their derivatives with
    respect to the dofs (src/simsoptpp/surface.cpp:184-810).  Real numbers instead of doubles. *)
From Coq Require Import Reals Lra Lia ZArith List.
From Verif Require Import ListAux VecAux Vec3 BSModel.
Open Scope R_scope.

(** What a subclass implements (surface.h:103-151): the number of dofs and of quadrature points and, as functions of the
    dof vector, at quadrature point (i, j), the position, its first and second derivatives, the columns
    d.._by_dcoeff(i,j,:,m), and the three vector-Jacobian products. *)
Record surface := Surface {
  ndofs : nat; nphi : nat; ntheta : nat;
  gamma : list R -> nat -> nat -> vec3;
  gammadash1 : list R -> nat -> nat -> vec3;
  gammadash2 : list R -> nat -> nat -> vec3;
  gammadash1dash1 : list R -> nat -> nat -> vec3;
  gammadash1dash2 : list R -> nat -> nat -> vec3;
  gammadash2dash2 : list R -> nat -> nat -> vec3;
  dgamma : list R -> nat -> nat -> nat -> vec3;
  dgammadash1 : list R -> nat -> nat -> nat -> vec3;
  dgammadash2 : list R -> nat -> nat -> nat -> vec3;
  dgammadash1dash1 : list R -> nat -> nat -> nat -> vec3;
  dgammadash1dash2 : list R -> nat -> nat -> nat -> vec3;
  dgammadash2dash2 : list R -> nat -> nat -> nat -> vec3;
  dgamma_vjp : list R -> (nat -> nat -> vec3) -> list R;
  dgammadash1_vjp : list R -> (nat -> nat -> vec3) -> list R;
  dgammadash2_vjp : list R -> (nat -> nat -> vec3) -> list R }.

Section Base.
Variable S : surface.
Notation dofs := (list R).
(** surface.cpp:380-391 *)
Definition normal (x : dofs) (i j : nat) : vec3 :=
  let dg1 := gammadash1 S x i j in let dg2 := gammadash2 S x i j in
  V3 (vy dg1 * vz dg2 - vz dg1 * vy dg2) (vz dg1 * vx dg2 - vx dg1 * vz dg2) (vx dg1 * vy dg2 - vy dg1 * vx dg2).
(** surface.cpp:392-426: two statements (=, +=) per component *)
Definition dnormal_by_dcoeff (x : dofs) (i j m : nat) : vec3 :=
  let dg1 := gammadash1 S x i j in let dg2 := gammadash2 S x i j in
  let c1 := dgammadash1 S x i j m in let c2 := dgammadash2 S x i j m in
  V3 ((vy c1 * vz dg2 - vz c1 * vy dg2) + (vy dg1 * vz c2 - vz dg1 * vy c2))
     ((vz c1 * vx dg2 - vx c1 * vz dg2) + (vz dg1 * vx c2 - vx dg1 * vz c2))
     ((vx c1 * vy dg2 - vy c1 * vx dg2) + (vx dg1 * vy c2 - vy dg1 * vx c2)).
(** surface.cpp:428-449 *)
Definition d2normal_by_dcoeffdcoeff (x : dofs) (i j m n : nat) : vec3 :=
  let c1m := dgammadash1 S x i j m in let c2m := dgammadash2 S x i j m in
  let c1n := dgammadash1 S x i j n in let c2n := dgammadash2 S x i j n in
  V3 ((vy c1m * vz c2n - vz c1m * vy c2n) + (vy c1n * vz c2m - vz c1n * vy c2m))
     ((vz c1m * vx c2n - vx c1m * vz c2n) + (vz c1n * vx c2m - vx c1n * vz c2m))
     ((vx c1m * vy c2n - vy c1m * vx c2n) + (vx c1n * vy c2m - vy c1n * vx c2m)).
(** surface.cpp:452-461 *)
Definition norm (n : vec3) : R := sqrt (vx n * vx n + vy n * vy n + vz n * vz n).
Definition unitnormal (x : dofs) (i j : nat) : vec3 :=
  let n := normal x i j in let normn := norm n in V3 (vx n / normn) (vy n / normn) (vz n / normn).
(** surface.cpp:464-490 *)
Definition dunitnormal_by_dcoeff (x : dofs) (i j m : nat) : vec3 :=
  let n := normal x i j in let dn := dnormal_by_dcoeff x i j m in
  let normn := norm n in
  let fac0 := - vx n * vx n / (normn * normn * normn) + 1 / normn in
  let fac1 := - vy n * vy n / (normn * normn * normn) + 1 / normn in
  let fac2 := - vz n * vz n / (normn * normn * normn) + 1 / normn in
  V3 (fac0 * vx dn - vx n * vy n * vy dn / (normn * normn * normn) - vx n * vz n * vz dn / (normn * normn * normn))
     (fac1 * vy dn - vy n * vx n * vx dn / (normn * normn * normn) - vy n * vz n * vz dn / (normn * normn * normn))
     (fac2 * vz dn - vz n * vx n * vx dn / (normn * normn * normn) - vz n * vy n * vy dn / (normn * normn * normn)).
(** surface.cpp:184-196: the three numbers (E, F, G) as a triple *)
Definition first_fund_form (x : dofs) (i j : nat) : vec3 :=
  let a := gammadash1 S x i j in let b := gammadash2 S x i j in
  V3 (vx a * vx a + vy a * vy a + vz a * vz a) (vx a * vx b + vy a * vy b + vz a * vz b) (vx b * vx b + vy b * vy b + vz b * vz b).
(** surface.cpp:199-233 *)
Definition dfirst_fund_form_by_dcoeff (x : dofs) (i j m : nat) : vec3 :=
  let a := gammadash1 S x i j in let b := gammadash2 S x i j in
  let c1 := dgammadash1 S x i j m in let c2 := dgammadash2 S x i j m in
  V3 (2 * vx c1 * vx a + 2 * vy c1 * vy a + 2 * vz c1 * vz a)
     (vx c1 * vx b + vx c2 * vx a + vy c1 * vy b + vy c2 * vy a + vz c1 * vz b + vz c2 * vz a)
     (2 * vx c2 * vx b + 2 * vy c2 * vy b + 2 * vz c2 * vz b).
(** surface.cpp:236-250 *)
Definition second_fund_form (x : dofs) (i j : nat) : vec3 :=
  let u := unitnormal x i j in
  let a := gammadash1dash1 S x i j in let b := gammadash1dash2 S x i j in let c := gammadash2dash2 S x i j in
  V3 (vx u * vx a + vy u * vy a + vz u * vz a) (vx u * vx b + vy u * vy b + vz u * vz b) (vx u * vx c + vy u * vy c + vz u * vz c).
(** surface.cpp:253-307 *)
Definition dsecond_fund_form_by_dcoeff (x : dofs) (i j m : nat) : vec3 :=
  let u := unitnormal x i j in let du := dunitnormal_by_dcoeff x i j m in
  let row a da := vx du * vx a + vx u * vx da + vy du * vy a + vy u * vy da + vz du * vz a + vz u * vz da in
  V3 (row (gammadash1dash1 S x i j) (dgammadash1dash1 S x i j m))
     (row (gammadash1dash2 S x i j) (dgammadash1dash2 S x i j m))
     (row (gammadash2dash2 S x i j) (dgammadash2dash2 S x i j m)).
(** surface.cpp:357-378 *)
Record curv := Curv { mean : R; gauss : R; kplus : R; kminus : R }.
Definition surface_curvatures (x : dofs) (i j : nat) : curv :=
  let first := first_fund_form x i j in let second := second_fund_form x i j in
  let denom := vx first * vz first - vy first * vy first in
  let h := (vx second * vz first - 2 * vy first * vy second + vz second * vx first) / (2 * denom) in
  let k := (vx second * vz second - vy second * vy second) / denom in
  Curv h k (h + sqrt (h * h - k)) (h - sqrt (h * h - k)).
(** surface.cpp:310-354 *)
Definition dsurface_curvatures_by_dcoeff (x : dofs) (i j m : nat) : curv :=
  let first := first_fund_form x i j in let second := second_fund_form x i j in
  let df := dfirst_fund_form_by_dcoeff x i j m in let ds := dsecond_fund_form_by_dcoeff x i j m in
  let denom := vx first * vz first - vy first * vy first in
  let data_0 := (vx second * vz first - 2 * vy first * vy second + vz second * vx first) / (2 * denom) in
  let data_1 := (vx second * vz second - vy second * vy second) / denom in
  let term2 := sqrt (data_0 * data_0 - data_1) in
  let d_denom := vx df * vz first + vx first * vz df - 2 * vy df * vy first in
  let d0 := (vx ds * vz first + vx second * vz df - 2 * vy df * vy second - 2 * vy first * vy ds + vz ds * vx first + vz second * vx df) / (2 * denom)
            - data_0 * d_denom / denom in
  let d1 := (vx ds * vz second + vx second * vz ds - 2 * vy ds * vy second) / denom - data_1 * d_denom / denom in
  let d_term2 := (data_0 * d0 - / 2 * d1) / term2 in
  Curv d0 d1 (d0 + d_term2) (d0 - d_term2).

(** the double loop over the quadrature points; N = numquadpoints_phi * numquadpoints_theta *)
Definition sum_points (f : nat -> nat -> R) : R := rsuml (map (fun i => rsuml (map (fun j => f i j) (seq 0 (ntheta S)))) (seq 0 (nphi S))).
Definition npoints : R := INR (nphi S * ntheta S).
(** surface.cpp:492-501 *)
Definition area (x : dofs) : R := sum_points (fun i j => norm (normal x i j)) / npoints.
(** surface.cpp:540-565; the loop over d with the unit vector ed *)
Definition res_dgammadash1 (x : dofs) (v : nat -> nat -> vec3) (i j : nat) : vec3 :=
  let dg2 := gammadash2 S x i j in
  let comp d := let ed := unit3 d in
    let t0 := vy ed * vz dg2 - vz ed * vy dg2 in
    let t1 := vz ed * vx dg2 - vx ed * vz dg2 in
    let t2 := vx ed * vy dg2 - vy ed * vx dg2 in
    t0 * vx (v i j) + t1 * vy (v i j) + t2 * vz (v i j) in
  V3 (comp 0%nat) (comp 1%nat) (comp 2%nat).
Definition res_dgammadash2 (x : dofs) (v : nat -> nat -> vec3) (i j : nat) : vec3 :=
  let dg1 := gammadash1 S x i j in
  let comp d := let ed := unit3 d in
    let t0 := vy dg1 * vz ed - vz dg1 * vy ed in
    let t1 := vz dg1 * vx ed - vx dg1 * vz ed in
    let t2 := vx dg1 * vy ed - vy dg1 * vx ed in
    t0 * vx (v i j) + t1 * vy (v i j) + t2 * vz (v i j) in
  V3 (comp 0%nat) (comp 1%nat) (comp 2%nat).
Definition dnormal_by_dcoeff_vjp (x : dofs) (v : nat -> nat -> vec3) : list R :=
  vmap2 Rplus (dgammadash1_vjp S x (res_dgammadash1 x v)) (dgammadash2_vjp S x (res_dgammadash2 x v)).
(** surface.cpp:504-537 *)
Definition darea_by_dcoeff (x : dofs) : list R :=
  let darea_by_dn i j := let n := normal x i j in let norm := norm n in
    scal3 (1 / npoints) (V3 (vx n / norm) (vy n / norm) (vz n / norm)) in
  let temp := dnormal_by_dcoeff_vjp x darea_by_dn in
  map (fun m => nth m temp 0) (seq 0 (ndofs S)).
(** surface.cpp:568-598 *)
Definition d2area_by_dcoeffdcoeff (x : dofs) (m n : nat) : R :=
  sum_points (fun i j =>
    let nor := normal x i j in let dm := dnormal_by_dcoeff x i j m in let dn := dnormal_by_dcoeff x i j n in
    let d2 := d2normal_by_dcoeffdcoeff x i j m n in
    let nrm := norm nor in
    let dnorm := (vx dn * vx nor + vy dn * vy nor + vz dn * vz nor) / nrm in
    vx dm * (vx dn * nrm - dnorm * vx nor) / (nrm * nrm)
    + vy dm * (vy dn * nrm - dnorm * vy nor) / (nrm * nrm)
    + vz dm * (vz dn * nrm - dnorm * vz nor) / (nrm * nrm)
    + vx d2 * vx nor / nrm + vy d2 * vy nor / nrm + vz d2 * vz nor / nrm) * (1 / npoints).
(** surface.cpp:601-614 *)
Definition volume (x : dofs) : R :=
  sum_points (fun i j => let n := normal x i j in let xyz := gamma S x i j in
    (1 / 3) * (vx xyz * vx n + vy xyz * vy n + vz xyz * vz n)) / npoints.
(** surface.cpp:617-647 *)
Definition dvolume_by_dcoeff (x : dofs) : list R :=
  let dvolume_by_dn i j := scal3 (1 / npoints) (scal3 (1 / 3) (gamma S x i j)) in
  let dvolume_by_dx i j := scal3 (1 / npoints) (scal3 (1 / 3) (normal x i j)) in
  let temp := vmap2 Rplus (dnormal_by_dcoeff_vjp x dvolume_by_dn) (dgamma_vjp S x dvolume_by_dx) in
  map (fun m => nth m temp 0) (seq 0 (ndofs S)).
(** surface.cpp:783-805: two += statements *)
Definition d2volume_by_dcoeffdcoeff (x : dofs) (m n : nat) : R :=
  sum_points (fun i j =>
    let xyz := gamma S x i j in let dxm := dgamma S x i j m in let dxn := dgamma S x i j n in
    let dm := dnormal_by_dcoeff x i j m in let dn := dnormal_by_dcoeff x i j n in
    let d2 := d2normal_by_dcoeffdcoeff x i j m n in
    (1 / 3) * (vx dxm * vx dn + vy dxm * vy dn + vz dxm * vz dn)
    + (1 / 3) * (vx xyz * vx d2 + vx dxn * vx dm + vy xyz * vy d2 + vy dxn * vy dm + vz xyz * vz d2 + vz dxn * vz dm)) * (1 / npoints).
(** surface.cpp:651-778, the vectorised version with registers of sz lanes: row m of the result.  The lanes come from
    zero-padded copies of the columns ([pad]); d2nor is computed on the fly; lanes past ndofs are not stored.
    fma(a,b,c) is a*b+c and fms(a,b,c) is a*b-c, exact here. *)
Definition pad (c : nat -> vec3) (n : nat) : vec3 := if (n <? ndofs S)%nat then c n else v0.
Definition d2volume_lane (x : dofs) (i j m n : nat) : R :=
  let xyz := gamma S x i j in
  let c1m := dgammadash1 S x i j m in let c2m := dgammadash2 S x i j m in
  let dxm := dgamma S x i j m in let dm := dnormal_by_dcoeff x i j m in
  let c1n := pad (dgammadash1 S x i j) n in let c2n := pad (dgammadash2 S x i j) n in
  let dxn := pad (dgamma S x i j) n in let dn := pad (dnormal_by_dcoeff x i j) n in
  let fms a b c := a * b - c in let fma a b c := a * b + c in
  let q0 := fms (vy c1m) (vz c2n) (vz c1m * vy c2n) + fms (vy c1n) (vz c2m) (vz c1n * vy c2m) in
  let q1 := fms (vz c1m) (vx c2n) (vx c1m * vz c2n) + fms (vz c1n) (vx c2m) (vx c1n * vz c2m) in
  let q2 := fms (vx c1m) (vy c2n) (vy c1m * vx c2n) + fms (vx c1n) (vy c2m) (vy c1n * vx c2m) in
  let temp := fma (vx dxm) (vx dn) (vy dxm * vy dn) in
  let data1 := (1 / 3) * fma (vz dxm) (vz dn) temp in
  let data2 := (1 / 3) * (fma (vx xyz) q0 (vx dxn * vx dm) + fma (vy xyz) q1 (vy dxn * vy dm) + fma (vz xyz) q2 (vz dxn * vz dm)) in
  data1 + data2.
Definition d2volume_simd_row (sz : nat) (x : dofs) (m : nat) : list R :=
  flat_map (fun c => let n := (c * sz)%nat in
      map (fun jj => sum_points (fun i j => d2volume_lane x i j m (n + jj)) * (1 / npoints)) (seq 0 (Nat.min sz (ndofs S - n))))
    (seq 0 ((ndofs S + sz - 1) / sz)).
End Base.
