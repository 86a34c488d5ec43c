(** Model of the orthonormal frames of a coil (src/simsopt/geo/framedcurve.py), of the filaments of a finite build coil
    (src/simsopt/geo/finitebuild.py) and of the tape strains (src/simsopt/geo/strain_optimization.py:120-192), over exact reals.  A curve is given
    by its gamma, gammadash, gammadashdash, gammadashdashdash at the [nq] quadrature points.  What jax computes is not modelled: a jvp is any
    vector that is the derivative it is defined to be.  Not modelled: caching, jit. *)
From Coq Require Import Reals List Bool Arith.
From Verif Require Import Vec3 BSDeriv CurveDiff CurveObjModel BoozSurf.
Import ListNotations.
Open Scope R_scope.

Record frame := Frame { ft : vec3; fn : vec3; fb : vec3 }.
(** framedcurve.py:459-462, 528-530: the reference frame t, n, b = t x n rotated by alpha *)
Definition rotate (a : R) (t n : vec3) : frame := let b := cross t n in
  Frame t (sub3 (scal3 (cos a) n) (scal3 (sin a) b)) (add3 (scal3 (sin a) n) (scal3 (cos a) b)).
(** framedcurve.py:509-532 rotated_frenet_frame at one point; tdash there is the tdash of CurveDiff *)
Definition frenet_frame (d1 d2 : vec3) (a : R) : frame := rotate a (scal3 (1 / norm3 d1) d1) (scal3 (1 / norm3 (tdash d1 d2)) (tdash d1 d2)).
(** framedcurve.py:447-463 rotated_centroid_frame: jnp.mean(gamma, axis=0) is over the quadrature points *)
Definition mean3 (nq : nat) (g : nat -> vec3) : vec3 := scal3 (1 / INR nq) (sumv nq g).
Definition cent_n0 (delta t : vec3) : vec3 := sub3 delta (scal3 (dot3 delta t) t).
Definition centroid_frame (nq : nat) (g : nat -> vec3) (k : nat) (d1 : vec3) (a : R) : frame := let t := scal3 (1 / norm3 d1) d1 in
  let n0 := cent_n0 (sub3 (g k) (mean3 nq g)) t in rotate a t (scal3 (1 / norm3 n0) n0).
(** jax: jvp(F, x, v)[1] is the derivative of F(x + e v) by e at 0 *)
Definition D_frame (F : R -> frame) (s : R) (f' : frame) : Prop := D3 (fun e => ft (F e)) s (ft f') /\ D3 (fun e => fn (F e)) s (fn f') /\ D3 (fun e => fb (F e)) s (fb f').
Definition line (x v : vec3) (e : R) : vec3 := add3 x (scal3 e v).
(** framedcurve.py:535-539 rotated_frenet_frame_dash: gammadash, gammadashdash, alpha move by gammadashdash, gammadashdashdash, alphadash *)
Definition is_frenet_dash (d1 d2 d3 : vec3) (a ad : R) (f' : frame) : Prop := D_frame (fun e => frenet_frame (line d1 d2 e) (line d2 d3 e) (a + e * ad)) 0 f'.
(** framedcurve.py:466-469 rotated_centroid_frame_dash: gamma (at all points), gammadash, alpha move by gammadash, gammadashdash, alphadash *)
Definition is_centroid_dash (nq : nat) (g d1 : nat -> vec3) (k : nat) (d2 : vec3) (a ad : R) (f' : frame) : Prop :=
  D_frame (fun e => centroid_frame nq (fun j => line (g j) (d1 j) e) k (line (d1 k) d2 e) (a + e * ad)) 0 f'.
(** framedcurve.py:598-649 torsion_pure, binormal_curvature_pure of either kind, from the frame and its dash at one point *)
Definition frame_torsion (d1 : vec3) (f f' : frame) : R := dot3 (scal3 (1 / norm3 d1) (fn f')) (fb f).
Definition frame_binormal_curvature (d1 : vec3) (f f' : frame) : R := dot3 (scal3 (1 / norm3 d1) (ft f')) (fb f).
(** framedcurve.py:554-594 and FrameRotation.alpha, alphadash, jac, jacdash (scale times) *)
Definition rotation_alpha (scale : R) (order : nat) (x : list R) (t : R) : R :=
  scale * (nth 0 x 0 + sum_to order (fun j => nth (2 * S j - 1) x 0 * sin (2 * PI * INR (S j) * t) + nth (2 * S j) x 0 * cos (2 * PI * INR (S j) * t))).
Definition rotation_alphadash (scale : R) (order : nat) (x : list R) (t : R) : R :=
  scale * sum_to order (fun j => nth (2 * S j - 1) x 0 * 2 * PI * INR (S j) * cos (2 * PI * INR (S j) * t) - nth (2 * S j) x 0 * 2 * PI * INR (S j) * sin (2 * PI * INR (S j) * t)).
Definition rotation_jac (t : R) (m : nat) : R := if (m =? 0)%nat then 1 else if Nat.odd m then sin (2 * PI * INR (Nat.div2 (S m)) * t) else cos (2 * PI * INR (Nat.div2 m) * t).
Definition rotation_jacdash (t : R) (m : nat) : R := if (m =? 0)%nat then 0 else if Nat.odd m then 2 * PI * INR (Nat.div2 (S m)) * cos (2 * PI * INR (Nat.div2 (S m)) * t) else - 2 * PI * INR (Nat.div2 m) * sin (2 * PI * INR (Nat.div2 m) * t).
(** finitebuild.py:47-55 CurveFilament.gamma, gammadash at one point *)
Definition filament_gamma (dn db : R) (g : vec3) (f : frame) : vec3 := add3 (add3 g (scal3 dn (fn f))) (scal3 db (fb f)).
Definition filament_gammadash (dn db : R) (d1 : vec3) (f' : frame) : vec3 := add3 (add3 d1 (scal3 dn (fn f'))) (scal3 db (fb f')).
(** finitebuild.py:112-121 *)
Definition shift (num : nat) (gap : R) (i : nat) : R := (if Nat.odd num then INR i - INR (num / 2) else INR i - INR num / 2 + / 2) * gap.
(** finitebuild.py:131-135: the shifts of the filaments in the order of the list *)
Definition filament_shifts (nn nb : nat) (gn gb : R) : list (R * R) := flat_map (fun i => map (fun j => (shift nn gn i, shift nb gb j)) (seq 0 nb)) (seq 0 nn).
(** strain_optimization.py:178-192 *)
Definition torstrain (torsion width : R) : R := torsion ^ 2 * width ^ 2 / 12.
Definition binormstrain (binorm width : R) : R := width / 2 * Rabs binorm.
