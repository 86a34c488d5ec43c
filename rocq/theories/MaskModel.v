(** Model of SurfaceXYZTensorFourier.get_stellsym_mask (src/simsopt/geo/surfacexyztensorfourier.py:117-170) and of the selection
    of equations in BoozerSurface.solve_residual_equation_exactly_newton (src/simsopt/geo/boozersurface.py:759-780).  Over the
    reals; boolean arrays are functions of the indices; None is the Exception. *)
From Coq Require Import Reals Lra Lia List Bool.
From Verif Require Import Vec3 BoozSurf TensorModel.
Import ListNotations.
Open Scope R_scope.

(** np.linspace(0, b, n, endpoint=False) *)
Definition linspace (b : R) (n : nat) : list R := map (fun k => INR k * (b / INR n)) (seq 0 n).
(** 152-153 npsame; np.allclose: |a - b| <= atol + rtol |b| *)
Definition close (a b : R) : bool := if Rle_dec (Rabs (a - b)) (1e-8 + 1e-5 * Rabs b) then true else false.
Fixpoint npsame (a b : list R) : bool :=
  match a, b with [], [] => true | x :: a, y :: b => close x y && npsame a b | _, _ => false end.
Definition amask := nat -> nat -> bool.
Definition ones : amask := fun _ _ => true.
(** mask[:, c:] = False; mask[r:, 0] = False; mask[0, c:] = False *)
Definition clear_cols (c : nat) (m : amask) : amask := fun i j => if (c <=? j)%nat then false else m i j.
Definition clear_rows0 (r : nat) (m : amask) : amask := fun i j => if ((r <=? i) && (j =? 0))%nat then false else m i j.
Definition clear_cols0 (c : nat) (m : amask) : amask := fun i j => if ((i =? 0) && (c <=? j))%nat then false else m i j.
(** 117-170 *)
Definition get_stellsym_mask (s : tsurf) (phis thetas : list R) : option amask :=
  if negb (stellsym s) then Some ones
  else if npsame phis (linspace (1 / INR (nfp s)) (2 * ntor s + 1)) && npsame thetas (linspace 1 (2 * mpol s + 1)) then
    Some (clear_rows0 (ntor s + 1) (clear_cols (mpol s + 1) ones))
  else if npsame phis (linspace (1 / INR (nfp s)) (2 * ntor s + 1)) && npsame thetas (linspace (1 / 2) (mpol s + 1)) then
    Some (clear_rows0 (ntor s + 1) ones)
  else if npsame phis (linspace (1 / (2 * INR (nfp s))) (ntor s + 1)) && npsame thetas (linspace 1 (2 * mpol s + 1)) then
    Some (clear_cols0 (mpol s + 1) ones)
  else None.
(** boozersurface.py:760-763 *)
Definition mask3 (s : tsurf) (m : amask) (i j k : nat) : bool :=
  if stellsym s && ((i =? 0) && (j =? 0) && (k =? 0))%nat then false else m i j.
(** r[mask] : the entries kept, in the order of flatten *)
Definition kept (s : tsurf) (m : amask) (nphi ntheta : nat) : list (nat * nat * nat) :=
  filter (fun x => let '(i, j, k) := x in mask3 s m i j k) (flat_map (fun i => flat_map (fun j => map (fun k => (i, j, k)) (seq 0 3)) (seq 0 ntheta)) (seq 0 nphi)).
(** 774-779 the number of equations: the residual entries, the label, and z(0, 0) without stellarator symmetry *)
Definition n_equations (s : tsurf) (m : amask) (nphi ntheta : nat) : nat := (length (kept s m nphi ntheta) + (if stellsym s then 1 else 2))%nat.
(** 767: surface dofs, iota, G *)
Definition n_unknowns (s : tsurf) : nat := (num_dofs s + 2)%nat.
(** boozer_surface_residual without the 1/|B| weight, at (phi, theta) *)
Definition res_at (B : vec3 -> vec3) (s : tsurf) (iota G q1 q2 : R) : vec3 :=
  residual G (B (gamma s q1 q2)) (add3 (gammadash1 s q1 q2) (scal3 iota (gammadash2 s q1 q2))).
Definition comp (k : nat) (u : vec3) : R := match k with 0%nat => vx u | 1%nat => vy u | _ => vz u end.
