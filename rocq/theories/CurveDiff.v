(** Model of the differential geometry of the base class Curve at one quadrature point, over exact reals
    (src/simsopt/geo/curve.py "py:", src/simsoptpp/curve.cpp "cpp:").  The arguments d1, d2, d3 are the rows of gammadash(),
    gammadashdash(), gammadashdashdash() at the point, c1, c2, c3 one column of the three d..._by_dcoeff() at the point;
    numpy broadcasting applies the same expression to all points and columns.
    Simplifications: a division by zero gives numpy nan/inf and a meaningless real here; all theorems exclude it.
    s ** 1.5 is s * sqrt s, which it is for s >= 0. *)
From Coq Require Import Reals Lra Lia List.
From Verif Require Import ListAux VecAux Vec3 CurveModel.
Import ListNotations.
Open Scope R_scope.

(** np.linalg.norm of one row *)
Definition norm3 (a : vec3) : R := sqrt (dot3 a a).
(** cpp:41-46 *)
Definition incremental_arclength (d1 : vec3) : R := sqrt (vx d1 * vx d1 + vy d1 * vy d1 + vz d1 * vz d1).
(** cpp:49-58 *)
Definition dincremental_arclength (d1 c1 : vec3) : R := 1 / incremental_arclength d1 * (vx d1 * vx c1 + vy d1 * vy c1 + vz d1 * vz c1).
(** py:29-35 *)
Definition kappa (d1 d2 : vec3) : R := norm3 (cross d1 d2) / (norm3 d1) ^ 3.
(** py:44-50 *)
Definition torsion (d1 d2 d3 : vec3) : R := dot3 (cross d1 d2) d3 / dot3 (cross d1 d2) (cross d1 d2).
(** py:191-214 *)
Definition dkappa (d1 d2 c1 c2 : vec3) : R :=
  let numerator := cross d1 d2 in let denominator := incremental_arclength d1 in
  1 / (denominator ^ 3 * norm3 numerator) * dot3 numerator (add3 (cross c1 d2) (cross d1 c2))
  - norm3 numerator * 3 / denominator ^ 5 * dot3 d1 c1.
(** py:223-242 *)
Definition dtorsion (d1 d2 d3 c1 c2 c3 : vec3) : R :=
  (dot3 (cross d1 d2) c3 + dot3 (add3 (cross c1 d2) (cross d1 c2)) d3) / dot3 (cross d1 d2) (cross d1 d2)
  - dot3 (cross d1 d2) d3 * dot3 (scal3 2 (cross d1 d2)) (add3 (cross c1 d2) (cross d1 c2)) / (dot3 (cross d1 d2) (cross d1 d2)) ^ 2.
(** py:270-291 *)
Definition tdash (d1 d2 : vec3) : vec3 := let l := incremental_arclength d1 in
  scal3 ((1 / l) ^ 2) (sub3 (scal3 l d2) (scal3 (dot3 d1 d2 / l) d1)).
Definition frenet_t (d1 : vec3) : vec3 := scal3 (1 / incremental_arclength d1) d1.
Definition frenet_n (d1 d2 : vec3) : vec3 := scal3 (1 / norm3 (tdash d1 d2)) (tdash d1 d2).
Definition frenet_b (d1 d2 : vec3) : vec3 := cross (frenet_t d1) (frenet_n d1 d2).
(** py:293-307 *)
Definition kappadash (d1 d2 d3 : vec3) : R :=
  dot3 (cross d1 d2) (cross d1 d3) / (norm3 (cross d1 d2) * norm3 d1 ^ 3) - 3 * dot3 d1 d2 * norm3 (cross d1 d2) / norm3 d1 ^ 5.
(** py:309-354 *)
Definition dfrenet_t (d1 c1 : vec3) : vec3 := let l := incremental_arclength d1 in
  add3 (scal3 (- (dincremental_arclength d1 c1 / l ^ 2)) d1) (scal3 (/ l) c1).
Definition dtdash (d1 d2 c1 c2 : vec3) : vec3 := let l := incremental_arclength d1 in let dl := dincremental_arclength d1 c1 in
  add3 (scal3 (- 2 * dl / l ^ 3) (sub3 (scal3 l d2) (scal3 (dot3 d1 d2 / l) d1)))
       (scal3 ((1 / l) ^ 2)
         (sub3 (add3 (sub3 (sub3 (add3 (scal3 dl d2) (scal3 l c2)) (scal3 (dot3 c1 d2 / l) d1)) (scal3 (dot3 d1 c2 / l) d1))
                     (scal3 (dot3 d1 d2 * dl / l ^ 2) d1))
               (scal3 (dot3 d1 d2 / l) c1))).
Definition dfrenet_n (d1 d2 c1 c2 : vec3) : vec3 := let td := tdash d1 d2 in let dtd := dtdash d1 d2 c1 c2 in
  sub3 (scal3 (1 / norm3 td) dtd) (scal3 (dot3 td dtd / (dot3 td td * sqrt (dot3 td td))) td).
Definition dfrenet_b (d1 d2 c1 c2 : vec3) : vec3 :=
  add3 (cross (dfrenet_t d1 c1) (frenet_n d1 d2)) (cross (frenet_t d1) (dfrenet_n d1 d2 c1 c2)).
(** py:356-408 *)
Definition dkappadash (d1 d2 d3 c1 c2 c3 : vec3) : R :=
  let d1_dot_d2 := dot3 d1 d2 in let d1_x_d2 := cross d1 d2 in let d1_x_d3 := cross d1 d3 in
  let normdgamma := norm3 d1 in let norm_d1_x_d2 := norm3 d1_x_d2 in
  let d1coeff_x_d2 := cross c1 d2 in let d1coeff_dot_d2 := dot3 c1 d2 in let d1coeff_x_d3 := cross c1 d3 in
  let d1_x_d2coeff := cross d1 c2 in let d1_dot_d2coeff := dot3 d1 c2 in let d1_dot_d1coeff := dot3 d1 c1 in let d1_x_d3coeff := cross d1 c3 in
  (dot3 (add3 d1coeff_x_d2 d1_x_d2coeff) d1_x_d3 + dot3 d1_x_d2 (add3 d1coeff_x_d3 d1_x_d3coeff)) / (norm_d1_x_d2 * normdgamma ^ 3)
  - dot3 d1_x_d2 d1_x_d3 * (dot3 (add3 d1coeff_x_d2 d1_x_d2coeff) d1_x_d2 / (norm_d1_x_d2 ^ 3 * normdgamma ^ 3) + 3 * dot3 d1 c1 / (norm_d1_x_d2 * normdgamma ^ 5))
  - 3 * ((d1coeff_dot_d2 + d1_dot_d2coeff) * norm_d1_x_d2 / normdgamma ^ 5
         + d1_dot_d2 * dot3 (add3 d1coeff_x_d2 d1_x_d2coeff) d1_x_d2 / (norm_d1_x_d2 * normdgamma ^ 5)
         - 5 * d1_dot_d2 * norm_d1_x_d2 * d1_dot_d1coeff / normdgamma ^ 7).
(** py:152-165, 244-268: the vjps of the base class.  J0, J1, J2 are what jax returns at each point for the vjps of the pure
    functions with respect to gammadash, gammadashdash, gammadashdashdash; d..._by_dcoeff_vjp contracts with the columns and
    wraps the vector in Derivative({self: ...}); + of such Derivatives adds the vectors (DerivModel) *)
Definition dincremental_vjp (n nq : nat) (C1 : nat -> nat -> vec3) (J0 : nat -> vec3) : list R := curve_vjp n C1 nq J0.
Definition dkappa_vjp (n nq : nat) (C1 C2 : nat -> nat -> vec3) (J0 J1 : nat -> vec3) : list R :=
  vmap2 Rplus (curve_vjp n C1 nq J0) (curve_vjp n C2 nq J1).
Definition dtorsion_vjp (n nq : nat) (C1 C2 C3 : nat -> nat -> vec3) (J0 J1 J2 : nat -> vec3) : list R :=
  vmap2 Rplus (vmap2 Rplus (curve_vjp n C1 nq J0) (curve_vjp n C2 nq J1)) (curve_vjp n C3 nq J2).
