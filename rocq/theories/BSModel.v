(** Model of the Biot-Savart kernels (src/simsoptpp/biot_savart_impl.h, biot_savart_vjp_impl.h,
    magneticfield_biotsavart.cpp) over the reals.  SIMD, OpenMP, padding and floating point are not modelled;
    [rsqrt] is modelled as 1/sqrt.  A curve is given by its quadrature data: the list of (gamma_j, gammadash_j). *)
From Verif Require Import Vec3.
Open Scope R_scope.

Definition qpt := (vec3 * vec3)%type.
Definition rsqrt (x : R) : R := / sqrt x.
(** vec3dsimd.h:30-38 cross(a, k): a x e_k, and 20-28 cross(k, b): e_k x b *)
Definition cross_ek (a : vec3) (k : nat) : vec3 :=
  match k with O => V3 0 (vz a) (- vy a) | S O => V3 (- vz a) 0 (vx a) | _ => V3 (vy a) (- vx a) 0 end.
Definition ek_cross (k : nat) (b : vec3) : vec3 :=
  match k with O => V3 0 (- vz b) (vy b) | S O => V3 (vz b) 0 (- vx b) | _ => V3 (- vy b) (vx b) 0 end.

(** ** B: biot_savart_impl.h:205-213: one quadrature point's contribution to B_i *)
Definition kB (x : vec3) (q : qpt) : vec3 :=
  let diff := sub3 x (fst q) in
  let i1 := rsqrt (normsq diff) in
  let i3 := i1 * i1 * i1 in
  scal3 i3 (cross (snd q) diff).
(** 215-228: contribution to dB_dX_i[k] *)
Definition kdB (k : nat) (x : vec3) (q : qpt) : vec3 :=
  let diff := sub3 x (fst q) in
  let n2 := normsq diff in
  let i1 := rsqrt n2 in
  let i3 := i1 * i1 * i1 in
  let i4 := i3 * i1 in
  let three := scal3 (3 * i1) (cross (snd q) diff) in
  let nd := n2 * i1 in
  let dg := scal3 nd (snd q) in
  scal3 i4 (sub3 (cross_ek dg k) (scal3 (coord diff k) three)).
(** 229-252: contribution to d2B_dXdX_i[3*k1+k2] for k2 <= k1 *)
Definition kddB_low (k1 k2 : nat) (x : vec3) (q : qpt) : vec3 :=
  let diff := sub3 x (fst q) in
  let i1 := rsqrt (normsq diff) in
  let i3 := i1 * i1 * i1 in
  let i4 := i3 * i1 in
  let i5 := i4 * i1 in
  let i7 := i4 * i3 in
  let t124 := (-3) * i5 in
  let term12 := add3 (scal3 (coord diff k1) (cross_ek (snd q) k2)) (scal3 (coord diff k2) (cross_ek (snd q) k1)) in
  let t3 := coord diff k1 * coord diff k2 * (i7 * 15) + (if Nat.eqb k1 k2 then t124 else 0) in
  add3 (scal3 t124 term12) (scal3 t3 (cross (snd q) diff)).
(** 266-279: the upper triangle is copied *)
Definition kddB (k1 k2 : nat) := if (k2 <=? k1)%nat then kddB_low k1 k2 else kddB_low k2 k1.
(** ** A: biot_savart_impl.h:330-368 *)
Definition kA (x : vec3) (q : qpt) : vec3 := scal3 (rsqrt (normsq (sub3 x (fst q)))) (snd q).
Definition kdA (k : nat) (x : vec3) (q : qpt) : vec3 :=
  let diff := sub3 x (fst q) in
  let i1 := rsqrt (normsq diff) in
  let i3 := i1 * i1 * i1 in
  scal3 (- (i3 * coord diff k)) (snd q).
Definition kddA_low (k1 k2 : nat) (x : vec3) (q : qpt) : vec3 :=
  let diff := sub3 x (fst q) in
  let i1 := rsqrt (normsq diff) in
  let i3 := i1 * i1 * i1 in
  let t := scal3 (3 * i3 * i1 * i1) (snd q) in
  let t12 := coord diff k1 * coord diff k2 in
  add3 (scal3 t12 t) (if Nat.eqb k1 k2 then scal3 (- i3) (snd q) else v0).
Definition kddA (k1 k2 : nat) := if (k2 <=? k1)%nat then kddA_low k1 k2 else kddA_low k2 k1.

(** the loop over the quadrature points and the factor 1e-7/num_quad_points (184, 255-264); no quadrature
    points: fak is inf and the sum 0 *)
Definition coil_field (kern : vec3 -> qpt -> vec3) (c : list qpt) (x : vec3) : vec3 :=
  scal3 (/ 10 ^ 7 / INR (length c)) (sum3 (map (kern x) c)).
(** magneticfield_biotsavart.cpp:66-84, 150-168: the sum over the coils of current * field *)
Definition coils_field (kern : vec3 -> qpt -> vec3) (coils : list (R * list qpt)) (x : vec3) : vec3 :=
  sum3 (map (fun c => scal3 (fst c) (coil_field kern (snd c) x)) coils).

(** ** vjp kernels: biot_savart_vjp_impl.h:136-150 (derivs = 0): contributions of point x with weight v *)
Definition vjp_dgamma (v x : vec3) (q : qpt) : vec3 :=
  let diff := sub3 x (fst q) in
  let i1 := / sqrt (normsq diff) in
  let i2 := i1 * i1 in
  let i3 := i2 * i1 in
  scal3 i3 (cross diff v).
Definition vjp_gamma (v x : vec3) (q : qpt) : vec3 :=
  let diff := sub3 x (fst q) in
  let i1 := / sqrt (normsq diff) in
  let i2 := i1 * i1 in
  let i3 := i2 * i1 in
  let i5 := i3 * i2 in
  add3 (scal3 i3 (cross (snd q) v)) (scal3 (dot3 (cross (snd q) diff) v * (3 * i5)) diff).
(** 151-176 (derivs = 1): contributions of the weights vg_k of dB_by_dX[k], summed over k = 0, 1, 2 *)
Definition vjp_grad_dgamma_k (k : nat) (vg x : vec3) (q : qpt) : vec3 :=
  let diff := sub3 x (fst q) in
  let i1 := / sqrt (normsq diff) in
  let i2 := i1 * i1 in
  let i3 := i2 * i1 in
  let i5 := i3 * i2 in
  sub3 (scal3 i3 (ek_cross k vg)) (scal3 (coord diff k * (3 * i5)) (cross diff vg)).
Definition vjp_grad_gamma_k (k : nat) (vg x : vec3) (q : qpt) : vec3 :=
  let diff := sub3 x (fst q) in
  let i1 := / sqrt (normsq diff) in
  let i2 := i1 * i1 in
  let i3 := i2 * i1 in
  let i5 := i3 * i2 in
  let i7 := i5 * i2 in
  let gd := cross (snd q) diff in
  sub3 (add3 (scal3 (dot3 (cross_ek (snd q) k) vg * (3 * i5)) diff)
       (add3 (scal3 (dot3 gd vg * (3 * i5)) (unit3 k))
             (scal3 (3 * i5 * coord diff k) (cross vg (snd q)))))
       (scal3 (15 * coord diff k * dot3 gd vg * i7) diff).
Definition sumk (f : nat -> vec3) : vec3 := add3 (f 0%nat) (add3 (f 1%nat) (f 2%nat)).
Definition vjp_grad_dgamma (vg : nat -> vec3) x q := sumk (fun k => vjp_grad_dgamma_k k (vg k) x q).
Definition vjp_grad_gamma (vg : nat -> vec3) x q := sumk (fun k => vjp_grad_gamma_k k (vg k) x q).
(** the vector potential: biot_savart_vjp_impl.h:380-412 *)
Definition vjpA_dgamma (v x : vec3) (q : qpt) : vec3 := scal3 (/ sqrt (normsq (sub3 x (fst q)))) v.
Definition vjpA_gamma (v x : vec3) (q : qpt) : vec3 :=
  let diff := sub3 x (fst q) in
  let i1 := / sqrt (normsq diff) in
  scal3 (dot3 v (snd q) * (i1 * i1 * i1)) diff.
Definition vjpA_grad_dgamma_k (k : nat) (vg x : vec3) (q : qpt) : vec3 :=
  let diff := sub3 x (fst q) in
  let i1 := / sqrt (normsq diff) in
  scal3 (- (i1 * i1 * i1 * coord diff k)) vg.
Definition vjpA_grad_gamma_k (k : nat) (vg x : vec3) (q : qpt) : vec3 :=
  let diff := sub3 x (fst q) in
  let i1 := / sqrt (normsq diff) in
  let i3 := i1 * i1 * i1 in
  let i5 := i3 * i1 * i1 in
  add3 (scal3 (- (dot3 vg (snd q) * (3 * coord diff k) * i5)) diff) (scal3 (dot3 vg (snd q) * i3) (unit3 k)).
Definition vjpA_grad_dgamma (vg : nat -> vec3) x q := sumk (fun k => vjpA_grad_dgamma_k k (vg k) x q).
Definition vjpA_grad_gamma (vg : nat -> vec3) x q := sumk (fun k => vjpA_grad_gamma_k k (vg k) x q).

(** biot_savart_vjp_py.cpp:73-107 biot_savart_vjp_graph and biotsavart.py:60-122 B_vjp / B_and_dB_vjp: for
    each coil the arrays multiplying the derivatives of gamma and gammadash, and the number multiplying the
    derivative of the current; [pw] lists the evaluation points with their weights *)
Definition vjp_arr {W} (g : W -> vec3 -> qpt -> vec3) (pw : list (vec3 * W)) (coil : R * list qpt) : list vec3 :=
  map (fun q => scal3 (fst coil * / 10 ^ 7 / INR (length (snd coil))) (sum3 (map (fun xv => g (snd xv) (fst xv) q) pw))) (snd coil).
(** biotsavart.py:119-121: sum(v * dB_by_dcoilcurrents[i]) *)
Definition vjp_cur (kern : vec3 -> qpt -> vec3) (pw : list (vec3 * vec3)) (coil : R * list qpt) : R :=
  rsuml (map (fun xv => dot3 (snd xv) (coil_field kern (snd coil) (fst xv))) pw).
Definition vjp_cur_grad (kern : nat -> vec3 -> qpt -> vec3) (pw : list (vec3 * (nat -> vec3))) (coil : R * list qpt) : R :=
  rsuml (map (fun xv => dot3 (snd xv 0%nat) (coil_field (kern 0%nat) (snd coil) (fst xv)) + dot3 (snd xv 1%nat) (coil_field (kern 1%nat) (snd coil) (fst xv)) +
                        dot3 (snd xv 2%nat) (coil_field (kern 2%nat) (snd coil) (fst xv))) pw).
