(** Boozer residuals, penalty objective and optimality system of BoozerSurface:
    src/simsopt/geo/surfaceobjectives.py:340-514 (boozer_surface_residual), src/simsoptpp/python.cpp:106-134
    (boozer_dresidual_dc), src/simsoptpp/boozerresidual_impl.h (the vectorized version), src/simsopt/geo/boozersurface.py:157-424.
    Over the reals.  The surface is linear in its dofs (SurfaceXYZFourier, SurfaceXYZTensorFourier); the quadrature points are
    numbered 0..np-1, point 0 is (phi, theta) index (0, 0); the flattened arrays of length 3*nphi*ntheta are kept as vectors
    per point.  The unknowns x are functions of the index: surface dofs 0..n-1, iota at n, G at n+1. *)
From Coq Require Import Reals Lra Lia List.
From Verif Require Import VecAux Vec3 CurveObjModel.
Open Scope R_scope.

Definition sumv (n : nat) (f : nat -> vec3) : vec3 := V3 (sum_to n (fun m => vx (f m))) (sum_to n (fun m => vy (f m))) (sum_to n (fun m => vz (f m))).

(** ** One quadrature point, surfaceobjectives.py.  [b]: the field; [dbm], [d2b]: derivatives in the direction of dofs;
    [tang], [dtm]: x_phi + iota x_theta and its derivative *)
Definition half := / 2.
(** 392-394 *)
Definition residual (G : R) (b tang : vec3) : vec3 := sub3 (scal3 G b) (scal3 (normsq b) tang).
(** 396-401 *)
Definition py_w (weight : bool) (b : vec3) : R := if weight then 1 / sqrt (normsq b) else 1.
(** 417, python.cpp:112-131 *)
Definition py_dres (G : R) (b dbm tang dtm : vec3) : vec3 :=
  sub3 (sub3 (scal3 G dbm) (scal3 (2 * dot3 b dbm) tang)) (scal3 (normsq b) dtm).
(** 418 *)
Definition dres_iota (b xt : vec3) : vec3 := scal3 (- normsq b) xt.
(** 421-423 *)
Definition py_dB2 (b dbm : vec3) : R := 2 * dot3 b dbm.
Definition py_dmodB (b dbm : vec3) : R := half * py_dB2 b dbm / sqrt (normsq b).
Definition py_dw (weight : bool) (b dbm : vec3) : R := if weight then - py_dmodB b dbm / (sqrt (normsq b) * sqrt (normsq b)) else 0.
(** 424 *)
Definition py_drtil (weight : bool) (G : R) (b dbm tang dtm : vec3) : vec3 :=
  add3 (scal3 (py_dw weight b dbm) (residual G b tang)) (scal3 (py_w weight b) (py_dres G b dbm tang dtm)).
(** 451-460; 455 and 465 are the same *)
Definition py_d2B2 (b dbm dbn d2b : vec3) : R := 2 * (dot3 dbm dbn + dot3 d2b b).
Definition py_d2res (G : R) (b dbm dbn d2b tang dtm dtn : vec3) : vec3 :=
  add3 (add3 (add3 (scal3 G d2b) (scal3 (- py_dB2 b dbm) dtn)) (scal3 (- py_dB2 b dbn) dtm)) (scal3 (- py_d2B2 b dbm dbn d2b) tang).
(** 466-467 *)
Definition py_d2modB (b dbm dbn d2b : vec3) : R :=
  (2 * normsq b * py_d2B2 b dbm dbn d2b - py_dB2 b dbm * py_dB2 b dbn) * (1 / (4 * (sqrt (normsq b) ^ 3))).
Definition py_d2w (weight : bool) (b dbm dbn d2b : vec3) : R :=
  if weight then (2 * py_dmodB b dbm * py_dmodB b dbn - sqrt (normsq b) * py_d2modB b dbm dbn d2b) / sqrt (normsq b) ^ 3 else 0.
(** 469-472 *)
Definition py_d2rtil (weight : bool) (G : R) (b dbm dbn d2b tang dtm dtn : vec3) : vec3 :=
  add3 (add3 (add3 (scal3 (py_d2w weight b dbm dbn d2b) (residual G b tang)) (scal3 (py_dw weight b dbm) (py_dres G b dbn tang dtn)))
             (scal3 (py_dw weight b dbn) (py_dres G b dbm tang dtm))) (scal3 (py_w weight b) (py_d2res G b dbm dbn d2b tang dtm dtn)).
(** 461, 473 *)
Definition d2res_iota (b dbm xt dxtm : vec3) : vec3 := scal3 (-1) (add3 (scal3 (py_dB2 b dbm) xt) (scal3 (normsq b) dxtm)).
Definition py_d2rtil_iota (weight : bool) (b dbm xt dxtm : vec3) : vec3 :=
  add3 (scal3 (py_w weight b) (d2res_iota b dbm xt dxtm)) (scal3 (py_dw weight b dbm) (dres_iota b xt)).
(** 485-489 *)
Definition py_d2rtil_G (weight : bool) (b dbm : vec3) : vec3 := add3 (scal3 (py_dw weight b dbm) b) (scal3 (py_w weight b) dbm).

(** ** One quadrature point, boozerresidual_impl.h:355-357 and following (the SIMD version, 13-346, computes the same terms) *)
Definition cc_w (weight : bool) (b : vec3) : R := if weight then sqrt (1 / normsq b) else 1.
Definition cc_pow3 (weight : bool) (b : vec3) : R := cc_w weight b * cc_w weight b * cc_w weight b.
Definition cc_dres (G : R) (b dbm tang dtm : vec3) : vec3 := sub3 (scal3 G dbm) (add3 (scal3 (2 * dot3 b dbm) tang) (scal3 (normsq b) dtm)).
Definition cc_dmodB (weight : bool) (b dbm : vec3) : R := half * (2 * dot3 b dbm) * cc_w weight b.
Definition cc_dw (weight : bool) (b dbm : vec3) : R := if weight then - cc_dmodB weight b dbm * (1 / normsq b) else 0.
Definition cc_drtil (weight : bool) (G : R) (b dbm tang dtm : vec3) : vec3 :=
  add3 (scal3 (cc_w weight b) (cc_dres G b dbm tang dtm)) (scal3 (cc_dw weight b dbm) (residual G b tang)).
Definition cc_d2B2 (b dbm dbn d2b : vec3) : R := 2 * (dot3 dbm dbn + dot3 b d2b).
Definition cc_d2res (G : R) (b dbm dbn d2b tang dtm dtn : vec3) : vec3 :=
  add3 (add3 (add3 (scal3 G d2b) (scal3 (- (2 * dot3 b dbm)) dtn)) (scal3 (- (2 * dot3 b dbn)) dtm)) (scal3 (- cc_d2B2 b dbm dbn d2b) tang).
Definition cc_d2modB (weight : bool) (b dbm dbn d2b : vec3) : R :=
  (2 * normsq b * cc_d2B2 b dbm dbn d2b - 2 * dot3 b dbm * (2 * dot3 b dbn)) * cc_pow3 weight b / 4.
Definition cc_d2w (weight : bool) (b dbm dbn d2b : vec3) : R :=
  if weight then (2 * cc_dmodB weight b dbm * cc_dmodB weight b dbn - sqrt (normsq b) * cc_d2modB weight b dbm dbn d2b) * cc_pow3 weight b else 0.
Definition cc_d2rtil (weight : bool) (G : R) (b dbm dbn d2b tang dtm dtn : vec3) : vec3 :=
  add3 (add3 (add3 (scal3 (cc_dw weight b dbn) (cc_dres G b dbm tang dtm)) (scal3 (cc_dw weight b dbm) (cc_dres G b dbn tang dtn)))
             (scal3 (cc_w weight b) (cc_d2res G b dbm dbn d2b tang dtm dtn))) (scal3 (cc_d2w weight b dbm dbn d2b) (residual G b tang)).
Definition cc_d2rtil_iota (weight : bool) (b dbm xt dxtm : vec3) : vec3 :=
  add3 (scal3 (cc_w weight b) (scal3 (-1) (add3 (scal3 (2 * dot3 b dbm) xt) (scal3 (normsq b) dxtm)))) (scal3 (cc_dw weight b dbm) (dres_iota b xt)).
Definition cc_d2rtil_G (weight : bool) (b dbm : vec3) : vec3 := add3 (scal3 (cc_w weight b) dbm) (scal3 (cc_dw weight b dbm) b).

(** boozersurface.py:288, surfaceobjectives.py:377: G from the currents when it is not an unknown *)
Definition G_coils (currents : list R) : R := 2 * PI * rsuml (map Rabs currents) * (4 * PI * 1e-7 / (2 * PI)).

Section Surface.
Variables (n np : nat) (dx dxp dxt : nat -> nat -> vec3).      (* dgamma_by_dcoeff, dgammadash1/2_by_dcoeff: point, dof *)
Variables (B : vec3 -> vec3) (dB : vec3 -> mat3) (d2B : vec3 -> nat -> mat3).  (* B, dB_by_dX[k, l], d2B_by_dXdX[k, p, l] *)
Variables (currents : list R) (optG weight : bool).

Definition N : nat := if optG then (n + 2)%nat else (n + 1)%nat.
Definition iota_of (x : nat -> R) : R := x n.
Definition G_of (x : nat -> R) : R := if optG then x (n + 1)%nat else G_coils currents.
(** gamma, gammadash1, gammadash2 *)
Definition X (p : nat) (x : nat -> R) : vec3 := sumv n (fun m => scal3 (x m) (dx p m)).
Definition Xp (p : nat) (x : nat -> R) : vec3 := sumv n (fun m => scal3 (x m) (dxp p m)).
Definition Xt (p : nat) (x : nat -> R) : vec3 := sumv n (fun m => scal3 (x m) (dxt p m)).
Definition bx p x := B (X p x).
Definition tang p x := add3 (Xp p x) (scal3 (iota_of x) (Xt p x)).
Definition dtang p x m := add3 (dxp p m) (scal3 (iota_of x) (dxt p m)).
(** dB_dc: einsum('ijkl,ijkm->ijlm'); d2B_dcdc: einsum('ijkpl,ijpn,ijkm->ijlmn') *)
Definition bm p x m := vecmat (dx p m) (dB (X p x)).
Definition d2dir (q a b : vec3) : vec3 := add3 (scal3 (vx a) (vecmat b (d2B q 0))) (add3 (scal3 (vy a) (vecmat b (d2B q 1))) (scal3 (vz a) (vecmat b (d2B q 2)))).
Definition bmn p x m k := d2dir (X p x) (dx p m) (dx p k).

(** boozer_surface_residual: r, J (columns: dofs, iota, G) and H, at point p *)
Definition r p x : vec3 := scal3 (py_w weight (bx p x)) (residual (G_of x) (bx p x) (tang p x)).
Definition J p x m : vec3 :=
  if (m <? n)%nat then py_drtil weight (G_of x) (bx p x) (bm p x m) (tang p x) (dtang p x m)
  else if (m =? n)%nat then scal3 (py_w weight (bx p x)) (dres_iota (bx p x) (Xt p x))
  else scal3 (py_w weight (bx p x)) (bx p x).
(** 496-512 *)
Definition H p x m k : vec3 :=
  if (m <? n)%nat then
    if (k <? n)%nat then py_d2rtil weight (G_of x) (bx p x) (bm p x m) (bm p x k) (bmn p x m k) (tang p x) (dtang p x m) (dtang p x k)
    else if (k =? n)%nat then py_d2rtil_iota weight (bx p x) (bm p x m) (Xt p x) (dxt p m)
    else py_d2rtil_G weight (bx p x) (bm p x m)
  else if (k <? n)%nat then
    if (m =? n)%nat then py_d2rtil_iota weight (bx p x) (bm p x k) (Xt p x) (dxt p k)
    else py_d2rtil_G weight (bx p x) (bm p x k)
  else v0.

(** the surface label (label.J, dJ, d2J_by_dsurfacecoefficientsdsurfacecoefficients) and its target *)
Variables (lab : (nat -> R) -> R) (dlab : (nat -> R) -> nat -> R) (d2lab : (nat -> R) -> nat -> nat -> R) (target : R).
Definition zz (x : nat -> R) : R := vz (X 0 x).
Definition dl x m : R := if (m <? n)%nat then dlab x m else 0.
Definition drz (m : nat) : R := if (m <? n)%nat then vz (dx 0 m) else 0.
Definition d2l x m k : R := if ((m <? n) && (k <? n))%nat then d2lab x m k else 0.
Definition num_res : R := INR (3 * np).

(** boozersurface.py:157-252 boozer_penalty_constraints, scalarize=True *)
Definition rn p x := scal3 (/ sqrt num_res) (r p x).
Definition val (cw : R) (x : nat -> R) : R :=
  half * (sum_to np (fun p => normsq (rn p x)) + (sqrt cw * (lab x - target)) ^ 2 + (sqrt cw * (zz x - 0)) ^ 2).
Definition dval (cw : R) (x : nat -> R) (m : nat) : R :=
  sum_to np (fun p => dot3 (rn p x) (scal3 (/ sqrt num_res) (J p x m))) + sqrt cw * (lab x - target) * (sqrt cw * dl x m) + sqrt cw * (zz x - 0) * (sqrt cw * drz m).
Definition d2val (cw : R) (x : nat -> R) (m k : nat) : R :=
  (sum_to np (fun p => dot3 (scal3 (/ sqrt num_res) (J p x m)) (scal3 (/ sqrt num_res) (J p x k))) + sqrt cw * dl x m * (sqrt cw * dl x k) + sqrt cw * drz m * (sqrt cw * drz k))
  + (sum_to np (fun p => dot3 (rn p x) (scal3 (/ sqrt num_res) (H p x m k))) + sqrt cw * (lab x - target) * (sqrt cw * d2l x m k) + sqrt cw * (zz x - 0) * 0).

(** boozerresidual_impl.h: value, gradient and Hessian of all n+2 unknowns *)
Definition cc_rtil p x := scal3 (cc_w weight (bx p x)) (residual (G_of x) (bx p x) (tang p x)).
Definition cc_J p x m : vec3 :=
  if (m <? n)%nat then cc_drtil weight (G_of x) (bx p x) (bm p x m) (tang p x) (dtang p x m)
  else if (m =? n)%nat then scal3 (cc_w weight (bx p x)) (dres_iota (bx p x) (Xt p x))
  else scal3 (cc_w weight (bx p x)) (bx p x).
Definition cc_val x := sum_to np (fun p => half * normsq (cc_rtil p x)).
Definition cc_dval x m := sum_to np (fun p => dot3 (cc_rtil p x) (cc_J p x m)).
(** entries with m <= k of d2res; the others are mirrored (540-548) *)
Definition cc_upper p x m k : R :=
  dot3 (cc_J p x m) (cc_J p x k) +
  if (m <? n)%nat then
    dot3 (cc_rtil p x) (if (k <? n)%nat then cc_d2rtil weight (G_of x) (bx p x) (bm p x m) (bm p x k) (bmn p x m k) (tang p x) (dtang p x m) (dtang p x k)
                        else if (k =? n)%nat then cc_d2rtil_iota weight (bx p x) (bm p x m) (Xt p x) (dxt p m)
                        else cc_d2rtil_G weight (bx p x) (bm p x m))
  else 0.
Definition cc_d2val x m k := sum_to np (fun p => if (m <=? k)%nat then cc_upper p x m k else cc_upper p x k m).
(** boozersurface.py:254-352 boozer_penalty_constraints_vectorized *)
Definition vval (cw : R) x := cc_val x / num_res + half * (sqrt cw * (lab x - target)) ^ 2 + half * (sqrt cw * (zz x - 0)) ^ 2.
Definition vdval (cw : R) x m := cc_dval x m / num_res + sqrt cw * (lab x - target) * (sqrt cw * dl x m) + sqrt cw * (zz x - 0) * (sqrt cw * drz m).
Definition vd2val (cw : R) x m k := cc_d2val x m k / num_res + sqrt cw * dl x m * (sqrt cw * dl x k) + sqrt cw * drz m * (sqrt cw * drz k) + sqrt cw * (lab x - target) * (sqrt cw * d2l x m k).

(** boozersurface.py:354-424 boozer_exact_constraints (weight_inv_modB is False there); the unknowns are x followed by lm, two
    Lagrange multipliers, given separately *)
Definition ex_res (x : nat -> R) (l1 l2 : R) (i : nat) : R :=
  if (i <? N)%nat then sum_to np (fun p => dot3 (r p x) (J p x i)) - l1 * dl x i - l2 * drz i
  else if (i =? N)%nat then lab x - target else zz x - 0.
Definition ex_dres (x : nat -> R) (l1 l2 : R) (i j : nat) : R :=
  if (i <? N)%nat then
    if (j <? N)%nat then sum_to np (fun p => dot3 (J p x i) (J p x j)) + sum_to np (fun p => dot3 (r p x) (H p x i j)) - l1 * d2l x i j
    else if (j =? N)%nat then - dl x i else - drz i
  else if (j <? N)%nat then if (i =? N)%nat then dl x j else drz j
  else 0.
End Surface.
