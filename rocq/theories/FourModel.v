(** Model of SurfaceRZFourier.fourier_transform_scalar and inverse_fourier_transform_scalar (src/simsopt/geo/surfacerzfourier.py:798-920), over
    the reals.  A coefficient array is a function of the mode (m, n), i.e. entry [m, n + ntor]; entries of modes that no loop writes are the
    zeros of np.zeros.  A scalar is a function of the grid indices (i for phi, j for theta).  [qphi], [qtheta]: quadpoints. *)
From Coq Require Import ZArith Reals List Bool.
From Verif Require Import VecAux CurveObjModel NormModel.
Import ListNotations.
Open Scope R_scope.
Section Grid.
Variables (qphi qtheta : list R) (nfp : nat).
Notation nphi := (length qphi).
Notation ntheta := (length qtheta).
(** 844-846, 852: phi2d, theta2d, angle *)
Definition angle (m n : Z) (i j : nat) : R := IZR m * (2 * PI * nth j qtheta 0) - IZR n * INR nfp * (2 * PI * nth i qphi 0).
(** the loops 848-851 and 903-906: for m in range(mpol+1): nmin = -ntor, or 1 if m == 0: for n in range(nmin, ntor+1) *)
Definition loop_modes (mpol ntor : Z) : list (Z * Z) :=
  flat_map (fun m => map (fun n => (m, n)) (zrange (if (m =? 0)%Z then 1 else - ntor)%Z (ntor + 1)%Z)) (zrange 0 (mpol + 1)).
Definition in_loop (mpol ntor m n : Z) : bool := ((0 <=? m) && (m <=? mpol) && ((if m =? 0 then 1 else - ntor) <=? n) && (n <=? ntor))%Z.
(** 842, 854-857 *)
Definition factor2 (m n : Z) : R :=
  let f := 2 / (INR ntheta * INR nphi) in
  let f := if Nat.even ntheta && (2 * m =? Z.of_nat ntheta)%Z then f / 2 else f in
  if Nat.even nphi && (2 * Z.abs n =? Z.of_nat nphi)%Z then f / 2 else f.
(** np.sum over the grid *)
Definition grid_sum (f : nat -> nat -> R) : R := sum_to nphi (fun i => sum_to ntheta (fun j => f i j)).
Definition by_norm (norm : option R) (a : R) : R := match norm with Some c => a / c | None => a end.
(** 858, 865-868 *)
Definition fwd_s (mpol ntor : Z) (norm : option R) (f : nat -> nat -> R) (m n : Z) : R :=
  by_norm norm (if in_loop mpol ntor m n then grid_sum (fun i j => f i j * sin (angle m n i j) * factor2 m n) else 0).
(** 859-864, 869 *)
Definition fwd_c (ss : bool) (mpol ntor : Z) (norm : option R) (f : nat -> nat -> R) (m n : Z) : R :=
  by_norm norm (if ss then 0 else if (m =? 0)%Z && (n =? 0)%Z then grid_sum f / (INR ntheta * INR nphi)
                else if in_loop mpol ntor m n then grid_sum (fun i j => f i j * cos (angle m n i j) * factor2 m n) else 0).
(** 873-920; mpol and ntor are read off the shape of A_mns *)
Definition inv (ss : bool) (mpol ntor : Z) (norm : option R) (As Ac : Z -> Z -> R) (i j : nat) : R :=
  let s := rsuml (map (fun p => As (fst p) (snd p) * sin (angle (fst p) (snd p) i j) + (if ss then 0 else Ac (fst p) (snd p) * cos (angle (fst p) (snd p) i j))) (loop_modes mpol ntor)) in
  let s := if ss then s else s + Ac 0%Z 0%Z in
  match norm with Some c => s * c | None => s end.
End Grid.
