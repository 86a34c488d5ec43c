(** Model of the regularised self field and the coil force objectives (src/simsopt/field/selffield.py, src/simsopt/field/force.py) over exact reals.
    A curve is given by its values at n quadrature points, as functions of the index.  jax's jit and grad are not modelled (grad's results appear
    as hypotheses); x**1.5 (written 3 / 2) and x**p with a real exponent are exp(y ln x) for x > 0, and 0**p = 0 for the exponents p > 0 used here.
    The mutual field is the model of BiotSavart ([coils_field kB]). *)
From Coq Require Import Reals List Bool Arith.
From Verif Require Import Vec3 BSModel CurveDiff CurveObjModel BoozSurf.
Import ListNotations.
Open Scope R_scope.

Definition pw (x p : R) : R := if Rlt_dec 0 x then Rpower x p else 0.
(** selffield.py:17-21 *)
Definition rectangular_xsection_k (a b : R) : R := (4 * b) / (3 * a) * atan (a / b) + (4 * a) / (3 * b) * atan (b / a) + b ^ 2 / (6 * a ^ 2) * ln (b / a) + a ^ 2 / (6 * b ^ 2) * ln (a / b)
  - (a ^ 4 - 6 * a ^ 2 * b ^ 2 + b ^ 4) / (6 * a ^ 2 * b ^ 2) * ln (a / b + b / a).
(** 24-26 *)
Definition rectangular_xsection_delta (a b : R) : R := exp (- (25) / 6 + rectangular_xsection_k a b).
(** 29-31 *)
Definition regularization_circ (a : R) : R := a ^ 2 / sqrt (exp 1).
(** 34-36 *)
Definition regularization_rect (a b : R) : R := a * b * rectangular_xsection_delta a b.

Section Self.
(** scipy.constants.mu_0 *)
Variable mu_0 : R.
(** selffield.py:11 *)
Definition Biot_savart_prefactor : R := mu_0 / (4 * PI).
(** selffield.py:39-53, at one point *)
Definition singularity_term (rcp rcpp : vec3) (regularization : R) : vec3 := let nrm := norm3 rcp in
  scal3 (1 / 2 * (-2 + ln (64 * nrm * nrm / regularization)) / nrm ^ 3) (cross rcp rcpp).
(** selffield.py:56-81, row i *)
Definition B_regularized_pure (n : nat) (gamma gammadash gammadashdash : nat -> vec3) (quadpoints : nat -> R) (current regularization : R) (i : nat) : vec3 :=
  let phi k := quadpoints k * 2 * PI in
  let rcp k := scal3 (1 / 2 / PI) (gammadash k) in
  let rcpp k := scal3 (1 / 4 / PI ^ 2) (gammadashdash k) in
  let dphi := 2 * PI / INR n in
  let analytic_term := singularity_term (rcp i) (rcpp i) regularization in
  let dr j := sub3 (gamma i) (gamma j) in
  let first_term j := scal3 (/ pw (dot3 (dr j) (dr j) + regularization) (3 / 2)) (cross (rcp j) (dr j)) in
  let cos_fac j := 2 - 2 * cos (phi j - phi i) in
  let denominator2 j := cos_fac j * dot3 (rcp i) (rcp i) + regularization in
  let factor2 j := 1 / 2 * cos_fac j / pw (denominator2 j) (3 / 2) in
  let second_term j := scal3 (factor2 j) (cross (rcpp i) (rcp i)) in
  let integral_term := scal3 dphi (sumv n (fun j => add3 (first_term j) (second_term j))) in
  scal3 (current * Biot_savart_prefactor) (add3 analytic_term integral_term).

(** a coil: object identity, current, number of quadrature points and the curve's values there *)
Record fcoil := FC { fc_id : nat; fc_I : R; fc_n : nat; fc_g : nat -> vec3; fc_g1 : nat -> vec3; fc_g2 : nat -> vec3; fc_q : nat -> R }.
(** the data the BiotSavart class reads *)
Definition bs_data (c : fcoil) : R * list qpt := (fc_I c, map (fun j => (fc_g c j, fc_g1 c j)) (seq 0 (fc_n c))).
(** selffield.py:84-93 *)
Definition B_regularized (c : fcoil) (regularization : R) (i : nat) : vec3 := B_regularized_pure (fc_n c) (fc_g c) (fc_g1 c) (fc_g2 c) (fc_q c) (fc_I c) regularization i.
(** force.py:28-30 *)
Definition coil_force_pure (B : vec3) (I : R) (t : vec3) : vec3 := cross (scal3 I t) B.
(** force.py:33-41 *)
Definition self_force (c : fcoil) (regularization : R) (i : nat) : vec3 := let tangent := scal3 (/ norm3 (fc_g1 c i)) (fc_g1 c i) in coil_force_pure (B_regularized c regularization i) (fc_I c) tangent.
(** the coils that are not this object: force.py:19, 89 *)
Definition others (c : fcoil) (allcoils : list fcoil) : list fcoil := filter (fun d => negb (fc_id d =? fc_id c)) allcoils.
Definition mutual_field (c : fcoil) (allcoils : list fcoil) (i : nat) : vec3 := coils_field kB (map bs_data (others c allcoils)) (fc_g c i).
(** force.py:15-25 *)
Definition coil_force (c : fcoil) (allcoils : list fcoil) (regularization : R) (i : nat) : vec3 := let tangent := scal3 (/ norm3 (fc_g1 c i)) (fc_g1 c i) in
  add3 (self_force c regularization i) (cross (scal3 (fc_I c) tangent) (mutual_field c allcoils i)).

(** force.py:54-72 *)
Definition lp_force_pure (n : nat) (gamma gammadash gammadashdash : nat -> vec3) (quadpoints : nat -> R) (current regularization : R) (B_mutual : nat -> vec3) (p threshold : R) : R :=
  let B_self := B_regularized_pure n gamma gammadash gammadashdash quadpoints current regularization in
  let tangent i := scal3 (/ norm3 (gammadash i)) (gammadash i) in
  let force i := cross (scal3 current (tangent i)) (add3 (B_self i) (B_mutual i)) in
  sum_to n (fun i => pw (Rmax (norm3 (force i) - threshold) 0) p * norm3 (gammadash i)) * (1 / p).
(** force.py:124-135: LpCurveForce.J *)
Definition lp_J (c : fcoil) (allcoils : list fcoil) (regularization p threshold : R) : R := lp_force_pure (fc_n c) (fc_g c) (fc_g1 c) (fc_g2 c) (fc_q c) (fc_I c) regularization (mutual_field c allcoils) p threshold.
(** force.py:165-185 *)
Definition mean_squared_force_pure (n : nat) (gamma gammadash gammadashdash : nat -> vec3) (quadpoints : nat -> R) (current regularization : R) (B_mutual : nat -> vec3) : R :=
  let B_self := B_regularized_pure n gamma gammadash gammadashdash quadpoints current regularization in
  let tangent i := scal3 (/ norm3 (gammadash i)) (gammadash i) in
  let force i := cross (scal3 current (tangent i)) (add3 (B_self i) (B_mutual i)) in
  sum_to n (fun i => norm3 (gammadash i) * norm3 (force i) ^ 2) / sum_to n (fun i => norm3 (gammadash i)).
(** force.py:239-250: MeanSquaredForce.J *)
Definition msf_J (c : fcoil) (allcoils : list fcoil) (regularization : R) : R := mean_squared_force_pure (fc_n c) (fc_g c) (fc_g1 c) (fc_g2 c) (fc_q c) (fc_I c) regularization (mutual_field c allcoils).
End Self.
(** the cotangent handed to dgamma_by_dcoeff_vjp at quadrature point i (force.py:151-155, 264-269): dJ_dgamma + dJ_dX with
    dJ_dX = einsum('ij,ikj->ik', dJ_dB, dB_dX); [dBk k] is dB_by_dX[i, k, :] *)
Definition dJ_dX (dJ_dB : vec3) (dBk : nat -> vec3) : vec3 := V3 (dot3 dJ_dB (dBk 0%nat)) (dot3 dJ_dB (dBk 1%nat)) (dot3 dJ_dB (dBk 2%nat)).
